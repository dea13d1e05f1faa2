(** Independent specification of linear combinations: the formal sum
    [sum_i coeff_i * x_{index_i}] with [x_0 = 1] (variable.hpp:144-146). *)
From mathcomp Require Import all_ssreflect all_algebra.
Set Implicit Arguments.
Unset Strict Implicit.
Unset Printing Implicit Defensive.
Local Open Scope ring_scope.

Section Spec.
Variable F : fieldType.

(** The value of [x_i] under the assignment [x_1, ..., x_n]. *)
Definition xval (x : seq F) (i : nat) : F := nth 0 (1 :: x) i.

(** The value of a formal sum. *)
Definition formal_sum (l : seq (nat * F)) (x : seq F) : F :=
  \sum_(t <- l) t.2 * xval x t.1.

(** All variables of the sum are among [x_0, ..., x_n]. *)
Definition in_range (n : nat) (l : seq (nat * F)) : bool :=
  all (fun t => (t.1 <= n)%N) l.

End Spec.
