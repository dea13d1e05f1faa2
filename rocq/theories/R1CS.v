(** Model of libsnark/relations/constraint_satisfaction_problems/r1cs/r1cs.{hpp,tcc}
    and uscs/uscs.{hpp,tcc}.  Definitions only.  Annotations, printing and
    [report_linear_constraint_statistics] have no effect on results and are not
    modelled. *)
From mathcomp Require Import all_ssreflect all_algebra.
From Verif Require Import Outcome Lincomb.
Set Implicit Arguments.
Unset Strict Implicit.
Unset Printing Implicit Defensive.
Local Open Scope ring_scope.

Section R1CS.
Variable F : fieldType.

(** r1cs.hpp:52-77 [class r1cs_constraint]. *)
Record r1cs_constraint := R1csConstraint {
  c_a : linear_combination F;
  c_b : linear_combination F;
  c_c : linear_combination F }.

(** r1cs.tcc:38-55 the constructor from initializer lists: concatenation of the
    term vectors. *)
Definition r1cs_constraint_of_lists (A B C : seq (linear_combination F)) : r1cs_constraint :=
  R1csConstraint (flatten A) (flatten B) (flatten C).

(** r1cs.tcc:57-63 operator==. *)
Definition r1cs_constraint_eqb (c d : r1cs_constraint) : bool :=
  [&& c_a c == c_a d, c_b c == c_b d & c_c c == c_c d].

(** r1cs.hpp:113-158 [class r1cs_constraint_system]. *)
Record r1cs := R1cs {
  primary_input_size : nat;
  auxiliary_input_size : nat;
  constraints : seq r1cs_constraint }.

(** r1cs.hpp:120 default constructor. *)
Definition r1cs_empty : r1cs := R1cs 0 0 [::].

(** r1cs.tcc:85-102 *)
Definition num_inputs (cs : r1cs) : nat := primary_input_size cs.
Definition num_variables (cs : r1cs) : nat :=
  (primary_input_size cs + auxiliary_input_size cs)%N.
Definition num_constraints (cs : r1cs) : nat := size (constraints cs).

(** r1cs.tcc:104-120 [is_valid].  [&&] and the early [return false] are
    short-circuiting, so undefined behaviour in a later part is not reached. *)
Definition oand (a b : outcome bool) : outcome bool :=
  let! x := a in if x then b else Ok false.

Fixpoint all_constraints_valid (n : nat) (l : seq r1cs_constraint) : outcome bool :=
  match l with
  | [::] => Ok true
  | c :: l' =>
      oand (oand (lc_is_valid (c_a c) n) (oand (lc_is_valid (c_b c) n) (lc_is_valid (c_c c) n)))
           (all_constraints_valid n l')
  end.

Definition r1cs_is_valid (cs : r1cs) : outcome bool :=
  if (num_variables cs < num_inputs cs)%N then Ok false
  else all_constraints_valid (num_variables cs) (constraints cs).

(** r1cs.tcc:142-163 the loop of [is_satisfied], returning at the first
    violated constraint. *)
Fixpoint check_constraints (l : seq r1cs_constraint) (full : seq F) : outcome bool :=
  match l with
  | [::] => Ok true
  | c :: l' =>
      let! ares := evaluate (c_a c) full in
      let! bres := evaluate (c_b c) full in
      let! cres := evaluate (c_c c) full in
      if ~~ (ares * bres == cres) then Ok false else check_constraints l' full
  end.

(** r1cs.tcc:132-164 [is_satisfied]. *)
Definition r1cs_is_satisfied (cs : r1cs) (primary auxiliary : seq F) : outcome bool :=
  assert! (size primary == num_inputs cs) in
  assert! (size primary + size auxiliary == num_variables cs)%N in
  check_constraints (constraints cs) (primary ++ auxiliary).

(** r1cs.tcc:166-179 [add_constraint]. *)
Definition add_constraint (cs : r1cs) (c : r1cs_constraint) : r1cs :=
  R1cs (primary_input_size cs) (auxiliary_input_size cs) (rcons (constraints cs) c).

(** r1cs.tcc:187-200: marking the touched variables; the bit vectors have
    [num_variables+1] entries, writing outside is undefined behaviour. *)
Definition touch (v : seq bool) (l : linear_combination F) : outcome (seq bool) :=
  ofold (fun v t => oput v (lt_index t) true) v l.

Definition touch_all (n : nat) (cs : seq r1cs_constraint) : outcome (seq bool * seq bool) :=
  ofold (fun (ab : seq bool * seq bool) c =>
           let! a := touch ab.1 (c_a c) in
           let! b := touch ab.2 (c_b c) in
           Ok (a, b))
        (nseq n.+1 false, nseq n.+1 false) cs.

(** r1cs.tcc:219-222 the swap. *)
Definition swap_constraint (c : r1cs_constraint) : r1cs_constraint :=
  R1csConstraint (c_b c) (c_a c) (c_c c).

(** r1cs.tcc:181-231 [swap_AB_if_beneficial]. *)
Definition swap_AB_if_beneficial (cs : r1cs) : outcome r1cs :=
  let! ab := touch_all (num_variables cs) (constraints cs) in
  let non_zero_A := count id ab.1 in
  let non_zero_B := count id ab.2 in
  if (non_zero_A < non_zero_B)%N
  then Ok (R1cs (primary_input_size cs) (auxiliary_input_size cs)
                (map swap_constraint (constraints cs)))
  else Ok cs.

(** r1cs.tcc:233-239 operator==. *)
Definition r1cs_eqb (cs ds : r1cs) : bool :=
  [&& all2 r1cs_constraint_eqb (constraints cs) (constraints ds)
      && (size (constraints cs) == size (constraints ds)),
      primary_input_size cs == primary_input_size ds &
      auxiliary_input_size cs == auxiliary_input_size ds].

End R1CS.

Section USCS.
Variable F : fieldType.

(** uscs.hpp:40-60 a USCS constraint is a linear combination. *)
Definition uscs_constraint := linear_combination F.

(** uscs.hpp:86-120 [class uscs_constraint_system]. *)
Record uscs := Uscs {
  u_primary_input_size : nat;
  u_auxiliary_input_size : nat;
  u_constraints : seq uscs_constraint }.

(** uscs.hpp:93 *)
Definition uscs_empty : uscs := Uscs 0 0 [::].

(** uscs.tcc:30-47.  ([is_valid], uscs.tcc:49-63, calls a function
    [valid_vector] that is defined nowhere in /repo, so it cannot be
    instantiated; it has no model.) *)
Definition u_num_inputs (cs : uscs) : nat := u_primary_input_size cs.
Definition u_num_variables (cs : uscs) : nat :=
  (u_primary_input_size cs + u_auxiliary_input_size cs)%N.
Definition u_num_constraints (cs : uscs) : nat := size (u_constraints cs).

(** uscs.tcc:84-98 *)
Fixpoint u_check_constraints (l : seq uscs_constraint) (full : seq F) : outcome bool :=
  match l with
  | [::] => Ok true
  | c :: l' =>
      let! res := evaluate c full in
      if ~~ (res ^+ 2 == 1) then Ok false else u_check_constraints l' full
  end.

(** uscs.tcc:74-101 [is_satisfied]. *)
Definition uscs_is_satisfied (cs : uscs) (primary auxiliary : seq F) : outcome bool :=
  assert! (size primary == u_num_inputs cs) in
  assert! (size primary + size auxiliary == u_num_variables cs)%N in
  u_check_constraints (u_constraints cs) (primary ++ auxiliary).

(** uscs.tcc:103-118 [add_constraint]. *)
Definition u_add_constraint (cs : uscs) (c : uscs_constraint) : uscs :=
  Uscs (u_primary_input_size cs) (u_auxiliary_input_size cs) (rcons (u_constraints cs) c).

End USCS.
