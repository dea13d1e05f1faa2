(** Specification vocabulary for the curve gadgets: the affine group law of
    [y^2 = x^3 + a x + b], with [None] the point at infinity. *)
From mathcomp Require Import all_ssreflect all_algebra.
From Verif Require Import R1CS R1CSSpec Protoboard GadgetSpec Weierstrass.
Set Implicit Arguments.
Unset Strict Implicit.
Unset Printing Implicit Defensive.
Local Open Scope ring_scope.

Section Curve.
Variable F : fieldType.
Variables a b : F.
Definition point : Type := option (F * F).
Definition on_curve (P : point) : bool :=
  if P is Some (x, y) then y ^+ 2 == x ^+ 3 + a * x + b else true.
Definition ec_neg (P : point) : point := if P is Some (x, y) then Some (x, - y) else None.
(** The third intersection with the line of slope [l] through [(x1, y1)], reflected. *)
Definition ec_line (l x1 y1 x2 : F) : point :=
  let x3 := l ^+ 2 - x1 - x2 in Some (x3, l * (x1 - x3) - y1).
Definition ec_add (P Q : point) : point :=
  match P, Q with
  | None, _ => Q
  | _, None => P
  | Some (x1, y1), Some (x2, y2) =>
      if x1 != x2 then ec_line ((y2 - y1) / (x2 - x1)) x1 y1 x2
      else if (y1 == y2) && (y1 != 0) then ec_line ((3%:R * x1 ^+ 2 + a) / (2%:R * y1)) x1 y1 x2
      else None
  end.
(** [2^j P] *)
Definition ec_dbl_iter (j : nat) (P : point) : point := iter j (fun Q => ec_add Q Q) P.
(** [R + sum_j s_j 2^j P], from the low digits on, and over several points. *)
Fixpoint ec_scalar (R : point) (P : point) (bits : seq bool) : point :=
  if bits is s :: bits' then ec_scalar (if s then ec_add R P else R) (ec_add P P) bits' else R.
Fixpoint ec_multiscalar (R : point) (terms : seq (point * seq bool)) : point :=
  if terms is (P, bits) :: terms' then ec_multiscalar (ec_scalar R P bits) terms' else R.
(** No addition on the way is exceptional: its operands are finite points with
    different first coordinates. *)
Definition distinct_x (P Q : point) : bool :=
  match P, Q with Some (x1, _), Some (x2, _) => x1 != x2 | _, _ => false end.
Fixpoint ec_scalar_ok (R : point) (P : point) (bits : seq bool) : bool :=
  if bits is s :: bits' then distinct_x R P && ec_scalar_ok (if s then ec_add R P else R) (ec_add P P) bits' else true.
Fixpoint ec_multiscalar_ok (R : point) (terms : seq (point * seq bool)) : bool :=
  if terms is (P, bits) :: terms' then ec_scalar_ok R P bits && ec_multiscalar_ok (ec_scalar R P bits) terms' else true.

(** The point a gadget variable stands for. *)
Definition g1_val (x : seq F) (P : g1_var F) : point := Some (lval x (g1_X P), lval x (g1_Y P)).
End Curve.
