(** Bilinear groups, as provided to libsnark by libff's public-parameter
    classes [ppT].  libff is not part of /repo, so this file is part of the
    trusted base and models no code of /repo.

    - G1, G2 and GT are modules over the scalar field Fr, all written
      additively; [libff::G1<ppT>::one()] is the generator.
    - [e] is final_exponentiation after miller_loop.  final_exponentiation is a
      homomorphism, so of a product of Miller loops it is the sum of the
      pairings, and unitary_inverse is negation; double_miller_loop,
      affine_ate_e_over_e_miller_loop and affine_ate_e_times_e_over_e_miller_loop
      are such products and quotients, and precomputation changes only the
      representation of the arguments.
    - [wf1] and [wf2] are [is_well_formed()]: they hold of the generators and
      are preserved by the group operations, but need not hold of the elements
      of a proof that was read from an untrusted source. *)
From mathcomp Require Import all_ssreflect all_algebra.
From Verif Require Import Outcome.
Set Implicit Arguments.
Unset Strict Implicit.
Unset Printing Implicit Defensive.
Import GRing.Theory.
Local Open Scope ring_scope.

Record pairing (F : fieldType) := Pairing {
  G1 : lmodType F;
  G2 : lmodType F;
  GT : lmodType F;
  G1_one : G1;
  G2_one : G2;
  e : G1 -> G2 -> GT;
  e_linear_l : forall a x y z, e (a *: x + y) z = a *: e x z + e y z;
  e_linear_r : forall a x y z, e z (a *: x + y) = a *: e z x + e z y;
  wf1 : G1 -> bool;
  wf2 : G2 -> bool;
  wf1_one : wf1 G1_one;
  wf2_one : wf2 G2_one;
  wf1_linear : forall a x y, wf1 x -> wf1 y -> wf1 (a *: x + y);
  wf2_linear : forall a x y, wf2 x -> wf2 y -> wf2 (a *: x + y)
}.

(** libff's [batch_exp] of a table for [g]. *)
Definition batch_exp (F : fieldType) (T : lmodType F) (g : T) (v : seq F) : seq T :=
  [seq x *: g | x <- v].
(** libff's [batch_exp_with_coeff]. *)
Definition batch_exp_with_coeff (F : fieldType) (T : lmodType F) (g : T) (c : F) (v : seq F) : seq T :=
  [seq (c * x) *: g | x <- v].

(** [Fp_model::inverse]: asserts that the argument is not zero. *)
Definition fr_inverse (F : fieldType) (x : F) : outcome F :=
  assert! (x != 0) in Ok x^-1.

Section Facts.
Variables (F : fieldType) (P : pairing F).

Lemma e0l z : e (0 : G1 P) z = 0.
Proof. by have := e_linear_l (p:=P) 1 0 0 z; rewrite scaler0 addr0 scale1r -[LHS]addr0 => /addrI. Qed.
Lemma e0r z : e z (0 : G2 P) = 0.
Proof. by have := e_linear_r (p:=P) 1 0 0 z; rewrite scaler0 addr0 scale1r -[LHS]addr0 => /addrI. Qed.
Lemma eZl a (x : G1 P) z : e (a *: x) z = a *: e x z.
Proof. by rewrite -[a *: x]addr0 e_linear_l e0l addr0. Qed.
Lemma eZr a (x : G2 P) z : e z (a *: x) = a *: e z x.
Proof. by rewrite -[a *: x]addr0 e_linear_r e0r addr0. Qed.
Lemma eDl (x y : G1 P) z : e (x + y) z = e x z + e y z.
Proof. by rewrite -[x]scale1r e_linear_l !scale1r. Qed.
Lemma eDr (x y : G2 P) z : e z (x + y) = e z x + e z y.
Proof. by rewrite -[x]scale1r e_linear_r !scale1r. Qed.
Lemma wf1_0 : wf1 (0 : G1 P).
Proof. by have := wf1_linear (-1) (wf1_one P) (wf1_one P); rewrite scaleN1r addNr. Qed.
Lemma wf2_0 : wf2 (0 : G2 P).
Proof. by have := wf2_linear (-1) (wf2_one P) (wf2_one P); rewrite scaleN1r addNr. Qed.
Lemma wf1_scale a (x : G1 P) : wf1 x -> wf1 (a *: x).
Proof. by move=> h; rewrite -[_ *: _]addr0; apply: wf1_linear h wf1_0. Qed.
Lemma wf2_scale a (x : G2 P) : wf2 x -> wf2 (a *: x).
Proof. by move=> h; rewrite -[_ *: _]addr0; apply: wf2_linear h wf2_0. Qed.
Lemma wf1_add (x y : G1 P) : wf1 x -> wf1 y -> wf1 (x + y).
Proof. by move=> h h'; rewrite -[x]scale1r; apply: wf1_linear. Qed.
Lemma wf2_add (x y : G2 P) : wf2 x -> wf2 y -> wf2 (x + y).
Proof. by move=> h h'; rewrite -[x]scale1r; apply: wf2_linear. Qed.
End Facts.

(** A concrete pairing, for the examples: the scalar field itself with
    multiplication. *)
Section Trivial.
Variable F : fieldType.
Definition toy_e (x y : F^o) : F^o := x * y.
Lemma toy_l a (x y z : F^o) : toy_e (a *: x + y) z = a *: toy_e x z + toy_e y z.
Proof. by rewrite /toy_e mulrDl -scalerAl. Qed.
Lemma toy_r a (x y z : F^o) : toy_e z (a *: x + y) = a *: toy_e z x + toy_e z y.
Proof. by rewrite /toy_e mulrDr -scalerAr. Qed.
Definition toy_pairing : pairing F :=
  @Pairing F [lmodType F of F^o] [lmodType F of F^o] [lmodType F of F^o] (1 : F^o) (1 : F^o) toy_e toy_l toy_r
           xpredT xpredT isT isT (fun _ _ _ _ _ => isT) (fun _ _ _ _ _ => isT).
End Trivial.
