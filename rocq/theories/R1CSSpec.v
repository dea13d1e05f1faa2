(** Independent specification of R1CS and USCS satisfaction (r1cs.hpp:37-51 and
    97-111, uscs.hpp:20-39: "a constraint <a,X>*<b,X>=<c,X>" and
    "<a,X>^2 = 1" for X = (1,x,w)). *)
From mathcomp Require Import all_ssreflect all_algebra.
From Verif Require Import Lincomb LincombSpec R1CS.
Set Implicit Arguments.
Unset Strict Implicit.
Unset Printing Implicit Defensive.
Local Open Scope ring_scope.

Section Spec.
Variable F : fieldType.

(** One constraint holds of the full assignment [x]. *)
Definition constraint_holds (c : r1cs_constraint F) (x : seq F) : Prop :=
  formal_sum (c_a c) x * formal_sum (c_b c) x = formal_sum (c_c c) x.

(** All constraints hold. *)
Definition r1cs_holds (cs : r1cs F) (x : seq F) : Prop :=
  forall c, List.In c (constraints cs) -> constraint_holds c x.

(** Every constraint mentions only [x_0 ... x_n]. *)
Definition constraint_in_range (n : nat) (c : r1cs_constraint F) : bool :=
  [&& in_range n (c_a c), in_range n (c_b c) & in_range n (c_c c)].
Definition r1cs_in_range (cs : r1cs F) : bool :=
  all (constraint_in_range (num_variables cs)) (constraints cs).

Definition uscs_holds (cs : uscs F) (x : seq F) : Prop :=
  forall c, List.In c (u_constraints cs) -> formal_sum c x ^+ 2 = 1.
Definition uscs_in_range (cs : uscs F) : bool :=
  all (in_range (u_num_variables cs)) (u_constraints cs).

(** Variable [i] occurs in (the A side, the B side of) some constraint. *)
Definition occurs_in (i : nat) (l : seq (nat * F)) : bool := has (fun t => t.1 == i) l.
Definition touched_A (cs : r1cs F) (i : nat) : bool :=
  has (fun c => occurs_in i (c_a c)) (constraints cs).
Definition touched_B (cs : r1cs F) (i : nat) : bool :=
  has (fun c => occurs_in i (c_b c)) (constraints cs).
Definition count_A (cs : r1cs F) : nat := count (touched_A cs) (iota 0 (num_variables cs).+1).
Definition count_B (cs : r1cs F) : nat := count (touched_B cs) (iota 0 (num_variables cs).+1).

End Spec.
