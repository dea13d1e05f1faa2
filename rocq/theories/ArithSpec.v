(** Independent specification of arithmetic programs (qap.hpp:8-18, sap.hpp:8-18,
    ssp.hpp:8-18): divisibility by the vanishing polynomial of the domain of a
    polynomial formed from the columns. *)
From mathcomp Require Import all_ssreflect all_algebra.
From Verif Require Import Outcome LincombSpec R1CS Domain ArithPrograms.
Set Implicit Arguments.
Unset Strict Implicit.
Unset Printing Implicit Defensive.
Local Open Scope ring_scope.

Section Spec.
Variable F : fieldType.
Implicit Types (D : evaluation_domain F) (x : seq F).

(** The entry at row [i] of a sparse column. *)
Definition row_value (m : seq (nat * F)) (i : nat) : F := \sum_(e <- m | e.1 == i) e.2.

(** [P] is the polynomial of degree less than [m] whose values on the domain
    are the entries of the sparse column. *)
Definition column_polynomial D (col : seq (nat * F)) (P : {poly F}) : Prop :=
  (size P <= d_size D)%N /\
  forall i, (i < d_size D)%N -> P.[(d_points D)`_i] = row_value col i.

(** The columns [cols], weighted by [x_0 = 1, x_1, ..., x_n]. *)
Definition combination (cols : seq F) x : F := \sum_(k < size cols) cols`_k * xval x k.

(** [P] is the combination, as polynomials of degree less than [m], of the
    columns that [at_t] evaluates at each point [t]. *)
Definition combined_polynomial D (at_t : F -> seq F -> Prop) x (P : {poly F}) : Prop :=
  (size P <= d_size D)%N /\ forall t cols, at_t t cols -> combination cols x = P.[t].

Definition qap_divisible D (cs : r1cs F) x : Prop :=
  let col sel t cols := exists2 qe, r1cs_to_qap_instance_map_with_evaluation D cs t = Ok qe & cols = sel qe in
  exists A B C : {poly F},
  [/\ combined_polynomial D (col (@qe_At F)) x A, combined_polynomial D (col (@qe_Bt F)) x B,
      combined_polynomial D (col (@qe_Ct F)) x C &
      vanishing (d_points D) %| A * B - C].

Definition sap_divisible D (cs : r1cs F) x : Prop :=
  let col sel t cols := exists2 qe, r1cs_to_sap_instance_map_with_evaluation D cs t = Ok qe & cols = sel qe in
  exists A C : {poly F},
  [/\ combined_polynomial D (col (@se_At F)) x A, combined_polynomial D (col (@se_Ct F)) x C &
      vanishing (d_points D) %| A * A - C].

Definition ssp_divisible D (cs : uscs F) x : Prop :=
  let col t cols := exists2 qe, uscs_to_ssp_instance_map_with_evaluation D cs t = Ok qe & cols = pe_Vt qe in
  exists V : {poly F},
    combined_polynomial D col x V /\ vanishing (d_points D) %| V * V - 1.

End Spec.
