(** Model of libsnark/gadgetlib1/protoboard.{hpp,tcc} and pb_variable.{hpp,tcc}.

    - Annotations, [dump_variables] and [augment_variable_annotation] have no
      effect on results and are not modelled.
    - A method [generate_r1cs_constraints] only makes calls of
      [add_r1cs_constraint]; here and in the gadget files it is modelled by the
      list of the constraints it adds, in order, and calling it by
      [pb_add_constraints].
    - [as_bigint] is a parameter, see [bigint_repr]. *)
From mathcomp Require Import all_ssreflect all_algebra.
From Verif Require Import Outcome Lincomb R1CS.
Set Implicit Arguments.
Unset Strict Implicit.
Unset Printing Implicit Defensive.
Local Open Scope ring_scope.

(** libff (not in /repo): a prime field with [as_bigint], the canonical integer
    representative. *)
Record bigint_repr (F : fieldType) := BigintRepr {
  fp_order : nat;
  fp_prime : prime fp_order;
  fp_order0 : fp_order%:R = 0 :> F;
  as_bigint : F -> nat;
  as_bigint_lt : forall x, (as_bigint x < fp_order)%N;
  as_bigintK : forall x, (as_bigint x)%:R = x }.

(** libff [bigint::test_bit]. *)
Definition test_bit (n i : nat) : bool := odd (n %/ 2 ^ i).

Section Protoboard.
Variable F : fieldType.

Definition pb_variable := nat.
(** pb_variable.hpp:74 [ONE]. *)
Definition ONE : pb_variable := 0%N.
Definition pb_variable_array := seq pb_variable.

(** pb_variable.hpp:76-89 [class pb_linear_combination]. *)
Record pb_linear_combination := PbLc {
  lc_is_variable : bool;
  lc_index : nat;
  lc_terms : linear_combination F }.
Definition pb_linear_combination_array := seq pb_linear_combination.

(** protoboard.hpp:30-40 [class protoboard]. *)
Record protoboard := Protoboard {
  pb_constant_term : F;
  pb_values : seq F;
  pb_next_free_var : nat;
  pb_next_free_lc : nat;
  pb_lc_values : seq F;
  pb_cs : r1cs F }.

(** protoboard.tcc:18-29 *)
Definition pb_new : protoboard := Protoboard 1 [::] 1 0 [::] (r1cs_empty F).

Definition with_values (pb : protoboard) (v : seq F) : protoboard :=
  Protoboard (pb_constant_term pb) v (pb_next_free_var pb) (pb_next_free_lc pb) (pb_lc_values pb) (pb_cs pb).
Definition with_constant (pb : protoboard) (c : F) : protoboard :=
  Protoboard c (pb_values pb) (pb_next_free_var pb) (pb_next_free_lc pb) (pb_lc_values pb) (pb_cs pb).
Definition with_lc_values (pb : protoboard) (v : seq F) : protoboard :=
  Protoboard (pb_constant_term pb) (pb_values pb) (pb_next_free_var pb) (pb_next_free_lc pb) v (pb_cs pb).

(** protoboard.tcc:31-35 *)
Definition clear_values (pb : protoboard) : protoboard := with_values pb (map (fun=> 0) (pb_values pb)).

(** protoboard.tcc:37-49 [allocate_var_index]; the returned index and the new
    protoboard. *)
Definition allocate_var (pb : protoboard) : pb_variable * protoboard :=
  (pb_next_free_var pb,
   Protoboard (pb_constant_term pb) (rcons (pb_values pb) 0) (pb_next_free_var pb).+1 (pb_next_free_lc pb)
     (pb_lc_values pb)
     (R1cs (primary_input_size (pb_cs pb)) (auxiliary_input_size (pb_cs pb)).+1 (constraints (pb_cs pb)))).

(** protoboard.tcc:51-56 [allocate_lc_index]. *)
Definition allocate_lc (pb : protoboard) : nat * protoboard :=
  (pb_next_free_lc pb,
   Protoboard (pb_constant_term pb) (pb_values pb) (pb_next_free_var pb) (pb_next_free_lc pb).+1
     (rcons (pb_lc_values pb) 0) (pb_cs pb)).

(** protoboard.tcc:58-70 [val], as a value ... *)
Definition pb_val (pb : protoboard) (v : pb_variable) : outcome F :=
  assert! (v <= size (pb_values pb))%N in
  if v is v'.+1 then oget (pb_values pb) v' else Ok (pb_constant_term pb).
(** ... and as the left-hand side of an assignment. *)
Definition pb_set (pb : protoboard) (v : pb_variable) (x : F) : outcome protoboard :=
  assert! (v <= size (pb_values pb))%N in
  if v is v'.+1 then omap (with_values pb) (oput (pb_values pb) v' x) else Ok (with_constant pb x).

(** protoboard.tcc:72-98 [lc_val], as a value and as a left-hand side. *)
Definition pb_lc_val (pb : protoboard) (l : pb_linear_combination) : outcome F :=
  if lc_is_variable l then pb_val pb (lc_index l)
  else assert! (lc_index l < size (pb_lc_values pb))%N in oget (pb_lc_values pb) (lc_index l).
Definition pb_lc_set (pb : protoboard) (l : pb_linear_combination) (x : F) : outcome protoboard :=
  if lc_is_variable l then pb_set pb (lc_index l) x
  else assert! (lc_index l < size (pb_lc_values pb))%N in
       omap (with_lc_values pb) (oput (pb_lc_values pb) (lc_index l) x).

(** protoboard.tcc:100-110 [add_r1cs_constraint], repeatedly. *)
Definition pb_add_constraints (pb : protoboard) (cs : seq (r1cs_constraint F)) : protoboard :=
  Protoboard (pb_constant_term pb) (pb_values pb) (pb_next_free_var pb) (pb_next_free_lc pb) (pb_lc_values pb)
    (R1cs (primary_input_size (pb_cs pb)) (auxiliary_input_size (pb_cs pb)) (constraints (pb_cs pb) ++ cs)).

(** protoboard.tcc:140-156 *)
Definition pb_num_constraints (pb : protoboard) : nat := num_constraints (pb_cs pb).
Definition pb_num_inputs (pb : protoboard) : nat := num_inputs (pb_cs pb).
Definition pb_num_variables (pb : protoboard) : nat := pb_next_free_var pb - 1.

(** protoboard.tcc:158-164 [set_input_sizes]. *)
Definition set_input_sizes (pb : protoboard) (n : nat) : outcome protoboard :=
  assert! (n <= pb_num_variables pb)%N in
  Ok (Protoboard (pb_constant_term pb) (pb_values pb) (pb_next_free_var pb) (pb_next_free_lc pb) (pb_lc_values pb)
        (R1cs n (pb_num_variables pb - n) (constraints (pb_cs pb)))).

(** protoboard.tcc:166-182; [values.begin() + num_inputs()] beyond the end is
    undefined behaviour. *)
Definition pb_primary_input (pb : protoboard) : outcome (seq F) :=
  if (pb_num_inputs pb <= size (pb_values pb))%N then Ok (take (pb_num_inputs pb) (pb_values pb)) else UB.
Definition pb_auxiliary_input (pb : protoboard) : outcome (seq F) :=
  if (pb_num_inputs pb <= size (pb_values pb))%N then Ok (drop (pb_num_inputs pb) (pb_values pb)) else UB.

(** protoboard.tcc:121-125 [is_satisfied]. *)
Definition pb_is_satisfied (pb : protoboard) : outcome bool :=
  let! p := pb_primary_input pb in
  let! a := pb_auxiliary_input pb in
  r1cs_is_satisfied (pb_cs pb) p a.

(** pb_variable.tcc:24-37 [pb_variable_array::allocate]. *)
Fixpoint allocate_array (pb : protoboard) (n : nat) : pb_variable_array * protoboard :=
  if n is n'.+1
  then let: (v, pb) := allocate_var pb in
       let: (vs, pb) := allocate_array pb n' in (v :: vs, pb)
  else ([::], pb).

(** pb_variable.tcc:39-57 [fill_with_field_elements], [fill_with_bits]. *)
Definition fill_with_field_elements (pb : protoboard) (vars : pb_variable_array) (vals : seq F) :
    outcome protoboard :=
  assert! (size vars == size vals) in
  ofold (fun pb vx => pb_set pb vx.1 vx.2) pb (zip vars vals).
Definition bit_val (b : bool) : F := if b then 1 else 0.
Definition fill_with_bits (pb : protoboard) (vars : pb_variable_array) (bits : seq bool) : outcome protoboard :=
  assert! (size vars == size bits) in
  ofold (fun pb vx => pb_set pb vx.1 (bit_val vx.2)) pb (zip vars bits).
(** pb_variable.tcc:59-67 [fill_with_bits_of_field_element] ([r] given by its
    integer representative); lines 69-73 [fill_with_bits_of_ulong]. *)
Definition fill_with_bits_of (pb : protoboard) (vars : pb_variable_array) (r : nat) : outcome protoboard :=
  ofold (fun pb iv => pb_set pb iv.2 (bit_val (test_bit r iv.1))) pb (zip (iota 0 (size vars)) vars).

(** pb_variable.tcc:75-97 [get_vals], [get_bits]. *)
Definition get_vals (pb : protoboard) (vars : pb_variable_array) : outcome (seq F) := omapm (pb_val pb) vars.
Definition as_bit (x : F) : outcome bool := assert! (x == 0) || (x == 1) in Ok (x == 1).
Definition get_bits (pb : protoboard) (vars : pb_variable_array) : outcome (seq bool) :=
  omapm (fun v => let! x := pb_val pb v in as_bit x) vars.
(** pb_variable.tcc:99-113 [get_field_element_from_bits]. *)
Definition get_field_element_from_bits (pb : protoboard) (vars : pb_variable_array) : outcome F :=
  ofold (fun result v => let! x := pb_val pb v in
                         assert! (x == 0) || (x == 1) in Ok (result + (result + x))) 0 (rev vars).

(** pb_variable.tcc:121-127 the constructor from a variable. *)
Definition plc_of_var (v : pb_variable) : pb_linear_combination := PbLc true v [:: lt_of_var F v].
Definition plcs_of_vars (vs : pb_variable_array) : pb_linear_combination_array := map plc_of_var vs.

(** pb_variable.tcc:129-135 [assign] (of a default-constructed object). *)
Definition lc_assign (pb : protoboard) (l : linear_combination F) : pb_linear_combination * protoboard :=
  let: (i, pb) := allocate_lc pb in (PbLc false i l, pb).

(** pb_variable.tcc:137-152 [evaluate]. *)
Definition lc_evaluate (pb : protoboard) (l : pb_linear_combination) : outcome protoboard :=
  if lc_is_variable l then Ok pb
  else let! sum := ofold (fun sum t => let! x := pb_val pb (lt_index t) in Ok (sum + lt_coeff t * x)) 0 (lc_terms l) in
       pb_lc_set pb l sum.

(** pb_variable.tcc:154-195 [is_constant], [constant_term]. *)
Definition lc_is_constant (l : pb_linear_combination) : bool :=
  if lc_is_variable l then lc_index l == 0%N else all (fun t => lt_index t == 0%N) (lc_terms l).
Definition lc_constant_term (l : pb_linear_combination) : F :=
  if lc_is_variable l then (if lc_index l == 0%N then 1 else 0)
  else foldl (fun r t => if lt_index t == 0%N then r + lt_coeff t else r) 0 (lc_terms l).

(** pb_variable.tcc:197-204 [pb_linear_combination_array::evaluate]. *)
Definition lcs_evaluate (pb : protoboard) (ls : pb_linear_combination_array) : outcome protoboard :=
  ofold lc_evaluate pb ls.
(** pb_variable.tcc:206-281: the array functions for linear combinations. *)
Definition lcs_fill_with_field_elements (pb : protoboard) (ls : pb_linear_combination_array) (vals : seq F) :
    outcome protoboard :=
  assert! (size ls == size vals) in
  ofold (fun pb lx => pb_lc_set pb lx.1 lx.2) pb (zip ls vals).
Definition lcs_fill_with_bits (pb : protoboard) (ls : pb_linear_combination_array) (bits : seq bool) :
    outcome protoboard :=
  assert! (size ls == size bits) in
  ofold (fun pb lx => pb_lc_set pb lx.1 (bit_val lx.2)) pb (zip ls bits).
Definition lcs_fill_with_bits_of (pb : protoboard) (ls : pb_linear_combination_array) (r : nat) :
    outcome protoboard :=
  ofold (fun pb il => pb_lc_set pb il.2 (bit_val (test_bit r il.1))) pb (zip (iota 0 (size ls)) ls).
Definition lcs_get_vals (pb : protoboard) (ls : pb_linear_combination_array) : outcome (seq F) :=
  omapm (pb_lc_val pb) ls.
Definition lcs_get_bits (pb : protoboard) (ls : pb_linear_combination_array) : outcome (seq bool) :=
  omapm (fun l => let! x := pb_lc_val pb l in as_bit x) ls.
Definition lcs_get_field_element_from_bits (pb : protoboard) (ls : pb_linear_combination_array) : outcome F :=
  ofold (fun result l => let! x := pb_lc_val pb l in
                         assert! (x == 0) || (x == 1) in Ok (result + (result + x))) 0 (rev ls).

(** The constructor of a linear combination from a vector of terms
    (relations/variable.tcc:484-508, relation [lc_of_terms] in Lincomb.v).
    Equal indices are merged by addition, so the result does not depend on the
    order [std::sort] gives to equal indices; the model uses
    a stable sort. *)
Definition lc_from_terms (ts : seq (linear_term F)) : linear_combination F :=
  merge_sorted_terms (sort (fun t u => lt_index t <= lt_index u)%N ts).

(** pb_variable.tcc:283-293 [pb_sum]. *)
Definition pb_sum (ls : pb_linear_combination_array) : linear_combination F :=
  foldl (fun r l => lc_add r (lc_terms l)) (@lc_zero F) ls.
(** pb_variable.tcc:295-310 [pb_packing_sum]. *)
Definition pb_packing_sum (ls : pb_linear_combination_array) : linear_combination F :=
  lc_from_terms (foldl (fun (st : seq (linear_term F) * F) l =>
                          (st.1 ++ [seq lt_scale t st.2 | t <- lc_terms l], st.2 + st.2)) ([::], 1) ls).1.
(** pb_variable.tcc:312-328 [pb_coeff_sum]. *)
Definition pb_coeff_sum (ls : pb_linear_combination_array) (coeffs : seq F) : outcome (linear_combination F) :=
  assert! (size ls == size coeffs) in
  Ok (lc_from_terms (flatten [seq [seq lt_scale t lc.2 | t <- lc_terms lc.1] | lc <- zip ls coeffs])).

End Protoboard.
