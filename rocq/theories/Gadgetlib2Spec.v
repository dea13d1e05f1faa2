(** Independent specification for gadgetlib2: what linear combinations, polynomials and
    constraints mean in the field, for a valuation of the variables. *)
From Coq Require Import ZArith.
From mathcomp Require Import all_ssreflect all_algebra zify ssrZ.
From Verif Require Import Gadgetlib2.
Set Implicit Arguments.
Unset Strict Implicit.
Unset Printing Implicit Defensive.
Local Open Scope ring_scope.

Section Spec.
Variable F : fieldType.

(** A valuation: the value of every variable. *)
Definition valuation := nat -> F.

(** The image of an integer in the field. *)
Definition zval (z : Z) : F :=
  match z with
  | Z0 => 0
  | Zpos n => (Pos.to_nat n)%:R
  | Zneg n => - (Pos.to_nat n)%:R
  end.

(** The field element that a constant or an element stands for. *)
Definition fe_value (x : felem F) : F :=
  match x with FConst z => zval z | R1P a => a end.

Definition lc_value (s : valuation) (l : lcomb F) : F :=
  fe_value (l_const l) + \sum_(t <- l_terms l) fe_value t.2 * s t.1.

Definition mono_value (s : valuation) (m : monomial F) : F :=
  fe_value (m_coeff m) * \prod_(v <- m_vars m) s v.
Definition poly_value (s : valuation) (p : polynomial F) : F :=
  fe_value (p_const p) + \sum_(m <- p_monos p) mono_value s m.

(** A constraint holds: a * b = c, or p = q. *)
Definition c_holds (s : valuation) (c : constraint2 F) : Prop :=
  match c with
  | Rank1 x y z => lc_value s x * lc_value s y = lc_value s z
  | General p q => poly_value s p = poly_value s q
  end.
Definition cs_hold (s : valuation) (cs : seq (constraint2 F)) : Prop :=
  forall c, List.In c cs -> c_holds s c.

(** The valuation an assignment stands for; absent variables count as zero. *)
Definition valuation_of (a : assignment F) : valuation :=
  fun v => if nth None a v is Some x then fe_value x else 0.
Definition assigned (a : assignment F) (v : nat) : bool := isSome (nth None a v).

Definition c_vars (c : constraint2 F) : seq nat :=
  match c with
  | Rank1 x y z => lc_vars x ++ lc_vars y ++ lc_vars z
  | General p q => poly_vars p ++ poly_vars q
  end.

(** Constants have the C++ type [long]: they lie in its range. *)
Definition fe_typed (x : felem F) : bool := if x is FConst z then in_long z else true.
Definition lc_typed (l : lcomb F) : bool :=
  fe_typed (l_const l) && all (fun t => fe_typed t.2) (l_terms l).
Definition poly_typed (p : polynomial F) : bool :=
  fe_typed (p_const p) && all (fun m => fe_typed (m_coeff m)) (p_monos p).
Definition c_typed (c : constraint2 F) : bool :=
  match c with
  | Rank1 x y z => [&& lc_typed x, lc_typed y & lc_typed z]
  | General p q => poly_typed p && poly_typed q
  end.
Definition asg_typed (a : assignment F) : bool :=
  all (fun x => if x is Some y then fe_typed y else true) a.
(** The variable is assigned an element of the field, not an integer constant. *)
Definition field_assigned (a : assignment F) (v : nat) : bool :=
  if nth None a v is Some (R1P _) then true else false.

(** The field element is a bit. *)
Definition is_bit (x : F) : Prop := x = 0 \/ x = 1.
(** The integer written by bits, least significant first. *)
Fixpoint bits_value (bs : seq F) : F :=
  if bs is b :: bs' then b + 2%:R * bits_value bs' else 0.

End Spec.
