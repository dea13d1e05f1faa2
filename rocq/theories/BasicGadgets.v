(** Model of libsnark/gadgetlib1/gadgets/basic_gadgets.{hpp,tcc} and
    gadget_from_r1cs.{hpp,tcc}.

    A constructor is modelled by a function from the protoboard to the gadget and
    the protoboard with its new variables, [generate_r1cs_constraints] by the list
    of constraints it adds (see Protoboard.v), [generate_r1cs_witness] by a
    function on protoboards. *)
From mathcomp Require Import all_ssreflect all_algebra.
From Verif Require Import Outcome Lincomb R1CS Protoboard.
Set Implicit Arguments.
Unset Strict Implicit.
Unset Printing Implicit Defensive.
Local Open Scope ring_scope.

(** libff (not in /repo): [div_ceil(x, y) = (x + (y-1)) / y]. *)
Definition div_ceil (x y : nat) : nat := (x + (y - 1)) %/ y.

(** libff [bigint::num_bits]: the position of the highest set bit, plus one. *)
Definition num_bits (n : nat) : nat := up_log 2 n.+1.

Section BasicGadgets.
Variable F : fieldType.
Variable R : bigint_repr F.
Implicit Types (pb : protoboard F).

(** Abbreviations used in constraints; the implicit conversions are spelled out. *)
Let one_lc := lc_of_int F 1.
Let zero_lc := lc_of_int F 0.
Let vlc (v : pb_variable) := lc_of_var F v.

(** basic_gadgets.tcc:16-22 *)
Definition boolean_constraint (l : linear_combination F) : r1cs_constraint F :=
  R1csConstraint l (const_sub_lc 1 l) zero_lc.
(** basic_gadgets.tcc:24-29 *)
Definition equals_const_constraint (l : linear_combination F) (c : F) : r1cs_constraint F :=
  R1csConstraint one_lc l (lc_of_const c).

(** * packing_gadget, basic_gadgets.hpp:26-47 *)
Record packing := Packing { pk_bits : pb_linear_combination_array F; pk_packed : pb_linear_combination F }.
(** basic_gadgets.tcc:31-44 *)
Definition packing_constraints (g : packing) (enforce_bitness : bool) : seq (r1cs_constraint F) :=
  R1csConstraint one_lc (pb_packing_sum (pk_bits g)) (lc_terms (pk_packed g)) ::
  (if enforce_bitness then [seq boolean_constraint (lc_terms b) | b <- pk_bits g] else [::]).
(** basic_gadgets.tcc:46-52 *)
Definition packing_witness_from_packed (g : packing) pb : outcome (protoboard F) :=
  let! pb := lc_evaluate pb (pk_packed g) in
  let! v := pb_lc_val pb (pk_packed g) in
  assert! (num_bits (as_bigint R v) <= size (pk_bits g))%N in
  lcs_fill_with_bits_of pb (pk_bits g) (as_bigint R v).
(** basic_gadgets.tcc:54-59 *)
Definition packing_witness_from_bits (g : packing) pb : outcome (protoboard F) :=
  let! pb := lcs_evaluate pb (pk_bits g) in
  let! v := lcs_get_field_element_from_bits pb (pk_bits g) in
  pb_lc_set pb (pk_packed g) v.

(** * multipacking_gadget, basic_gadgets.hpp:49-69, basic_gadgets.tcc:61-106.
    A zero [chunk_size] divides by zero; reading [packed_vars[i]] is covered by
    the assertion. *)
Definition multipacking := seq packing.
Definition chunk_slice (T : Type) (s : seq T) (chunk_size i : nat) : seq T :=
  drop (i * chunk_size) (take (minn (i.+1 * chunk_size) (size s)) s).
Definition multipacking_new (bits packed : pb_linear_combination_array F) (chunk_size : nat) :
    outcome multipacking :=
  if chunk_size == 0%N then UB else
  let num_chunks := div_ceil (size bits) chunk_size in
  assert! (size packed == num_chunks) in
  Ok [seq Packing (chunk_slice bits chunk_size ip.1) ip.2 | ip <- zip (iota 0 num_chunks) packed].
Definition multipacking_constraints (g : multipacking) (enforce_bitness : bool) : seq (r1cs_constraint F) :=
  flatten [seq packing_constraints p enforce_bitness | p <- g].
Definition multipacking_witness_from_packed (g : multipacking) pb : outcome (protoboard F) :=
  ofold (fun pb p => packing_witness_from_packed p pb) pb g.
Definition multipacking_witness_from_bits (g : multipacking) pb : outcome (protoboard F) :=
  ofold (fun pb p => packing_witness_from_bits p pb) pb g.

(** * field_vector_copy_gadget, basic_gadgets.hpp:71-86, basic_gadgets.tcc:114-147 *)
Record field_vector_copy := FieldVectorCopy {
  fc_source : pb_variable_array; fc_target : pb_variable_array; fc_do_copy : pb_linear_combination F }.
Definition field_vector_copy_new (source target : pb_variable_array) (do_copy : pb_linear_combination F) :
    outcome field_vector_copy :=
  assert! (size source == size target) in Ok (FieldVectorCopy source target do_copy).
Definition field_vector_copy_constraints (g : field_vector_copy) : seq (r1cs_constraint F) :=
  [seq R1csConstraint (lc_terms (fc_do_copy g)) (var_sub_lc st.1 (vlc st.2)) zero_lc
  | st <- zip (fc_source g) (fc_target g)].
Definition copy_vars pb (sts : seq (pb_variable * pb_variable)) : outcome (protoboard F) :=
  ofold (fun pb st => let! v := pb_val pb st.1 in pb_set pb st.2 v) pb sts.
Definition field_vector_copy_witness (g : field_vector_copy) pb : outcome (protoboard F) :=
  let! pb := lc_evaluate pb (fc_do_copy g) in
  let! d := pb_lc_val pb (fc_do_copy g) in
  assert! (d == 1) || (d == 0) in
  if d != 0 then copy_vars pb (zip (fc_source g) (fc_target g)) else Ok pb.

(** * bit_vector_copy_gadget, basic_gadgets.hpp:88-115, basic_gadgets.tcc:149-194 *)
Record bit_vector_copy := BitVectorCopy {
  bc_source : pb_variable_array; bc_target : pb_variable_array; bc_do_copy : pb_linear_combination F;
  bc_packed_source : pb_variable_array; bc_packed_target : pb_variable_array;
  bc_pack_source : multipacking; bc_pack_target : multipacking; bc_copier : field_vector_copy }.
Definition bit_vector_copy_new pb (source target : pb_variable_array) (do_copy : pb_linear_combination F)
    (chunk_size : nat) : outcome (bit_vector_copy * protoboard F) :=
  if chunk_size == 0%N then UB else
  let num_chunks := div_ceil (size source) chunk_size in
  assert! (size source == size target) in
  let: (packed_source, pb) := allocate_array pb num_chunks in
  let! pack_source := multipacking_new (plcs_of_vars F source) (plcs_of_vars F packed_source) chunk_size in
  let: (packed_target, pb) := allocate_array pb num_chunks in
  let! pack_target := multipacking_new (plcs_of_vars F target) (plcs_of_vars F packed_target) chunk_size in
  let! copier := field_vector_copy_new packed_source packed_target do_copy in
  Ok (BitVectorCopy source target do_copy packed_source packed_target pack_source pack_target copier, pb).
Definition bit_vector_copy_constraints (g : bit_vector_copy) (enforce_source enforce_target : bool) :
    seq (r1cs_constraint F) :=
  multipacking_constraints (bc_pack_source g) enforce_source ++
  multipacking_constraints (bc_pack_target g) enforce_target ++
  field_vector_copy_constraints (bc_copier g).
Definition bit_vector_copy_witness (g : bit_vector_copy) pb : outcome (protoboard F) :=
  let! pb := lc_evaluate pb (bc_do_copy g) in
  let! d := pb_lc_val pb (bc_do_copy g) in
  assert! (d == 0) || (d == 1) in
  let! pb := if d == 1 then copy_vars pb (zip (bc_source g) (bc_target g)) else Ok pb in
  let! pb := multipacking_witness_from_bits (bc_pack_source g) pb in
  multipacking_witness_from_bits (bc_pack_target g) pb.

(** * dual_variable_gadget, basic_gadgets.hpp:117-160, basic_gadgets.tcc:196-212 *)
Record dual_variable := DualVariable { dv_packed : pb_variable; dv_bits : pb_variable_array }.
Definition dual_variable_check (g : dual_variable) : packing :=
  Packing (plcs_of_vars F (dv_bits g)) (plc_of_var F (dv_packed g)).
Definition dual_variable_new pb (width : nat) : dual_variable * protoboard F :=
  let: (packed, pb) := allocate_var pb in
  let: (bits, pb) := allocate_array pb width in (DualVariable packed bits, pb).
Definition dual_variable_of_bits pb (bits : pb_variable_array) : dual_variable * protoboard F :=
  let: (packed, pb) := allocate_var pb in (DualVariable packed bits, pb).
Definition dual_variable_of_packed pb (packed : pb_variable) (width : nat) : dual_variable * protoboard F :=
  let: (bits, pb) := allocate_array pb width in (DualVariable packed bits, pb).
Definition dual_variable_constraints (g : dual_variable) (enforce_bitness : bool) : seq (r1cs_constraint F) :=
  packing_constraints (dual_variable_check g) enforce_bitness.
Definition dual_variable_witness_from_packed (g : dual_variable) pb : outcome (protoboard F) :=
  packing_witness_from_packed (dual_variable_check g) pb.
Definition dual_variable_witness_from_bits (g : dual_variable) pb : outcome (protoboard F) :=
  packing_witness_from_bits (dual_variable_check g) pb.

(** [for (...) lc.add_term(vars[i])] and [lc.add_term(vars[i], -1)]. *)
Definition add_vars (l : linear_combination F) (vars : pb_variable_array) : linear_combination F :=
  foldl (fun l v => add_term l (lt_of_var F v)) l vars.
Definition sub_vars (l : linear_combination F) (vars : pb_variable_array) : linear_combination F :=
  foldl (fun l v => add_term l (lt_mk v (- 1 : F))) l vars.

(** * disjunction_gadget, basic_gadgets.hpp:171-195, basic_gadgets.tcc:214-261 *)
Record disjunction := Disjunction { dj_inv : pb_variable; dj_inputs : pb_variable_array; dj_output : pb_variable }.
Definition disjunction_new pb (inputs : pb_variable_array) (output : pb_variable) :
    outcome (disjunction * protoboard F) :=
  assert! (1 <= size inputs)%N in
  let: (inv, pb) := allocate_var pb in Ok (Disjunction inv inputs output, pb).
Definition disjunction_constraints (g : disjunction) : seq (r1cs_constraint F) :=
  let zero := @lc_zero F in
  [:: R1csConstraint (add_term zero (lt_of_var F (dj_inv g))) (add_vars zero (dj_inputs g))
        (add_term zero (lt_of_var F (dj_output g)));
      R1csConstraint (add_term (add_term zero (lt_of_var F ONE)) (lt_mk (dj_output g) (- 1)))
        (add_vars zero (dj_inputs g)) (add_term zero (lt_mk ONE 0))].
Definition sum_vals pb (s : F) (vars : pb_variable_array) : outcome F :=
  ofold (fun sum v => let! x := pb_val pb v in Ok (sum + x)) s vars.
Definition sub_vals pb (s : F) (vars : pb_variable_array) : outcome F :=
  ofold (fun sum v => let! x := pb_val pb v in Ok (sum - x)) s vars.
Definition disjunction_witness (g : disjunction) pb : outcome (protoboard F) :=
  let! sum := sum_vals pb 0 (dj_inputs g) in
  if sum == 0
  then let! pb := pb_set pb (dj_inv g) 0 in pb_set pb (dj_output g) 0
  else let! pb := pb_set pb (dj_inv g) sum^-1 in pb_set pb (dj_output g) 1.

(** * conjunction_gadget, basic_gadgets.hpp:197-220, basic_gadgets.tcc:303-352 *)
Record conjunction := Conjunction { cj_inv : pb_variable; cj_inputs : pb_variable_array; cj_output : pb_variable }.
Definition conjunction_new pb (inputs : pb_variable_array) (output : pb_variable) :
    outcome (conjunction * protoboard F) :=
  assert! (1 <= size inputs)%N in
  let: (inv, pb) := allocate_var pb in Ok (Conjunction inv inputs output, pb).
Definition conjunction_constraints (g : conjunction) : seq (r1cs_constraint F) :=
  let zero := @lc_zero F in
  let n_minus_sum := sub_vars (add_term zero (lt_mk ONE (size (cj_inputs g))%:R)) (cj_inputs g) in
  [:: R1csConstraint (add_term zero (lt_of_var F (cj_inv g))) n_minus_sum
        (add_term (add_term zero (lt_of_var F ONE)) (lt_mk (cj_output g) (- 1)));
      R1csConstraint (add_term zero (lt_of_var F (cj_output g))) n_minus_sum
        (add_term zero (lt_mk ONE 0))].
Definition conjunction_witness (g : conjunction) pb : outcome (protoboard F) :=
  let! sum := sub_vals pb (size (cj_inputs g))%:R (cj_inputs g) in
  if sum == 0
  then let! pb := pb_set pb (cj_inv g) 0 in pb_set pb (cj_output g) 1
  else let! pb := pb_set pb (cj_inv g) sum^-1 in pb_set pb (cj_output g) 0.

(** * comparison_gadget, basic_gadgets.hpp:222-263, basic_gadgets.tcc:394-439 *)
Record comparison := Comparison {
  cm_n : nat; cm_A : pb_linear_combination F; cm_B : pb_linear_combination F;
  cm_less : pb_variable; cm_less_or_eq : pb_variable;
  cm_alpha : pb_variable_array; cm_alpha_packed : pb_variable; cm_not_all_zeros : pb_variable;
  cm_pack_alpha : packing; cm_all_zeros_test : disjunction }.
Definition comparison_new pb (n : nat) (A B : pb_linear_combination F) (less less_or_eq : pb_variable) :
    outcome (comparison * protoboard F) :=
  let: (alpha, pb) := allocate_array pb n in
  let alpha := rcons alpha less_or_eq in
  let: (alpha_packed, pb) := allocate_var pb in
  let: (not_all_zeros, pb) := allocate_var pb in
  let! dp := disjunction_new pb (take n alpha) not_all_zeros in
  Ok (Comparison n A B less less_or_eq alpha alpha_packed not_all_zeros
        (Packing (plcs_of_vars F alpha) (plc_of_var F alpha_packed)) dp.1, dp.2).
Definition comparison_constraints (g : comparison) : seq (r1cs_constraint F) :=
  [:: boolean_constraint (lc_terms (plc_of_var F (cm_not_all_zeros g)))] ++
  packing_constraints (cm_pack_alpha g) true ++
  [:: R1csConstraint one_lc (lc_sub (const_add_lc (2%:R ^+ cm_n g) (lc_terms (cm_B g))) (lc_terms (cm_A g)))
        (vlc (cm_alpha_packed g))] ++
  disjunction_constraints (cm_all_zeros_test g) ++
  [:: R1csConstraint (vlc (cm_less_or_eq g)) (vlc (cm_not_all_zeros g)) (vlc (cm_less g))].
Definition comparison_witness (g : comparison) pb : outcome (protoboard F) :=
  let! pb := lc_evaluate pb (cm_A g) in
  let! pb := lc_evaluate pb (cm_B g) in
  let! b := pb_lc_val pb (cm_B g) in
  let! a := pb_lc_val pb (cm_A g) in
  let! pb := pb_set pb (cm_alpha_packed g) (2%:R ^+ cm_n g + b - a) in
  let! pb := packing_witness_from_packed (cm_pack_alpha g) pb in
  let! pb := disjunction_witness (cm_all_zeros_test g) pb in
  let! l := pb_val pb (cm_less_or_eq g) in
  let! z := pb_val pb (cm_not_all_zeros g) in
  pb_set pb (cm_less g) (l * z).

(** * inner_product_gadget, basic_gadgets.hpp:268-297, basic_gadgets.tcc:478-507 *)
Record inner_product := InnerProduct {
  ip_S : pb_variable_array; ip_A : pb_linear_combination_array F; ip_B : pb_linear_combination_array F;
  ip_result : pb_variable }.
Definition inner_product_new pb (A B : pb_linear_combination_array F) (result : pb_variable) :
    outcome (inner_product * protoboard F) :=
  assert! (1 <= size A)%N in
  assert! (size A == size B) in
  let: (Ss, pb) := allocate_array pb (size A - 1) in Ok (InnerProduct Ss A B result, pb).
(** [i == A.size()-1 ? result : S[i]] *)
Definition ip_target (g : inner_product) (i : nat) : pb_variable :=
  if i == (size (ip_A g) - 1)%N then ip_result g else nth 0%N (ip_S g) i.
Definition lc_nth (ls : pb_linear_combination_array F) (i : nat) : pb_linear_combination F :=
  nth (PbLc false 0 [::]) ls i.
Definition inner_product_constraints (g : inner_product) : seq (r1cs_constraint F) :=
  [seq R1csConstraint (lc_terms (lc_nth (ip_A g) i)) (lc_terms (lc_nth (ip_B g) i))
         (var_add_lc (ip_target g i)
            (lc_of_term (if i == 0%N then lt_mk ONE (0 : F) else var_neg F (nth 0%N (ip_S g) (i - 1)))))
  | i <- iota 0 (size (ip_A g))].
Definition inner_product_witness (g : inner_product) pb : outcome (protoboard F) :=
  omap snd (ofold (fun (st : F * protoboard F) i =>
    let: (total, pb) := st in
    let! pb := lc_evaluate pb (lc_nth (ip_A g) i) in
    let! pb := lc_evaluate pb (lc_nth (ip_B g) i) in
    let! a := pb_lc_val pb (lc_nth (ip_A g) i) in
    let! b := pb_lc_val pb (lc_nth (ip_B g) i) in
    let total := total + a * b in
    let! pb := pb_set pb (ip_target g i) total in
    Ok (total, pb)) (0, pb) (iota 0 (size (ip_A g)))).

(** * loose_multiplexing_gadget, basic_gadgets.hpp:302-336, basic_gadgets.tcc:556-613.
    [idx >= arr.size() || mpn_cmp(valint, arrsize) >= 0] is the comparison of the
    integer representative with the array size (its first part implies
    the second: [as_ulong] can only truncate). *)
Record loose_mux := LooseMux {
  lm_alpha : pb_variable_array; lm_compute_result : inner_product; lm_arr : pb_linear_combination_array F;
  lm_index : pb_variable; lm_result : pb_variable; lm_success : pb_variable }.
Definition loose_mux_new pb (arr : pb_linear_combination_array F) (index result success : pb_variable) :
    outcome (loose_mux * protoboard F) :=
  let: (alpha, pb) := allocate_array pb (size arr) in
  let! ip := inner_product_new pb (plcs_of_vars F alpha) arr result in
  Ok (LooseMux alpha ip.1 arr index result success, ip.2).
Definition loose_mux_constraints (g : loose_mux) : seq (r1cs_constraint F) :=
  [seq R1csConstraint (vlc (nth 0%N (lm_alpha g) i)) (var_sub_lc (lm_index g) (lc_of_int F (Posz i))) zero_lc
  | i <- iota 0 (size (lm_arr g))] ++
  [:: R1csConstraint (add_term (@lc_zero F) (lt_of_var F ONE)) (add_vars (@lc_zero F) (lm_alpha g))
        (add_term (@lc_zero F) (lt_of_var F (lm_success g)))] ++
  [:: boolean_constraint (lc_terms (plc_of_var F (lm_success g)))] ++
  inner_product_constraints (lm_compute_result g).
Definition set_all pb (vxs : seq (pb_variable * F)) : outcome (protoboard F) :=
  ofold (fun pb vx => pb_set pb vx.1 vx.2) pb vxs.
Definition loose_mux_witness (g : loose_mux) pb : outcome (protoboard F) :=
  let! v := pb_val pb (lm_index g) in
  let idx := as_bigint R v in
  let! pb :=
    if (size (lm_arr g) <= idx)%N
    then let! pb := set_all pb [seq (nth 0%N (lm_alpha g) i, 0) | i <- iota 0 (size (lm_arr g))] in
         pb_set pb (lm_success g) 0
    else let! pb := set_all pb [seq (nth 0%N (lm_alpha g) i, bit_val F (i == idx)) | i <- iota 0 (size (lm_arr g))] in
         pb_set pb (lm_success g) 1 in
  inner_product_witness (lm_compute_result g) pb.

(** * create_linear_combination_constraints / _witness, basic_gadgets.tcc:661-702.
    A [VarT] is given by its [all_vars]; indexing beyond it is undefined
    behaviour. *)
Definition linear_combination_constraints (base : seq F) (v : seq (pb_variable_array * F))
    (target : pb_variable_array) : outcome (seq (r1cs_constraint F)) :=
  omapm (fun ib =>
    let! b := ofold (fun l pc => let! u := oget pc.1 ib.1 in Ok (add_term l (lt_mk u pc.2)))
                (add_term (@lc_zero F) (lt_mk ONE ib.2)) v in
    let! t := oget target ib.1 in
    Ok (R1csConstraint (add_term (@lc_zero F) (lt_of_var F ONE)) b (add_term (@lc_zero F) (lt_of_var F t))))
    (zip (iota 0 (size base)) base).
Definition linear_combination_witness (base : seq F) (v : seq (pb_variable_array * F))
    (target : pb_variable_array) pb : outcome (protoboard F) :=
  ofold (fun pb ib =>
    let! t := oget target ib.1 in
    let! pb := pb_set pb t ib.2 in
    ofold (fun pb pc => let! u := oget pc.1 ib.1 in
                        let! a := pb_val pb t in
                        let! x := pb_val pb u in
                        pb_set pb t (a + pc.2 * x)) pb v)
    pb (zip (iota 0 (size base)) base).

(** * gadget_from_r1cs, gadget_from_r1cs.tcc:19-119. The map [cs_to_vars] has the
    keys 0 ... n; looking up another key inserts the value 0. *)
Record from_r1cs := FromR1cs { fr_vars : pb_variable_array; fr_cs : r1cs F }.
Definition from_r1cs_new (vars : seq pb_variable_array) (cs : r1cs F) : outcome from_r1cs :=
  assert! (size (flatten vars) == num_variables cs) in Ok (FromR1cs (flatten vars) cs).
Definition cs_to_vars (g : from_r1cs) (i : nat) : pb_variable := nth 0%N (0%N :: fr_vars g) i.
Definition translate_lc (g : from_r1cs) (l : linear_combination F) : linear_combination F :=
  [seq lt_mk (cs_to_vars g (lt_index t)) (lt_coeff t) | t <- l].
Definition from_r1cs_constraints (g : from_r1cs) : seq (r1cs_constraint F) :=
  [seq R1csConstraint (translate_lc g (c_a c)) (translate_lc g (c_b c)) (translate_lc g (c_c c))
  | c <- constraints (fr_cs g)].
Definition from_r1cs_witness (g : from_r1cs) pb (primary auxiliary : seq F) : outcome (protoboard F) :=
  assert! (num_inputs (fr_cs g) == size primary) in
  assert! (num_variables (fr_cs g) == size primary + size auxiliary)%N in
  let! pb := set_all pb [seq (cs_to_vars g i.+1, nth 0 primary i) | i <- iota 0 (size primary)] in
  set_all pb [seq (cs_to_vars g (size primary + i).+1, nth 0 auxiliary i) | i <- iota 0 (size auxiliary)].

End BasicGadgets.
