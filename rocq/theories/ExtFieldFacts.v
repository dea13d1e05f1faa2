(** Facts about [F[X]/(X^k - nr)].  Models nothing of /repo. *)
From mathcomp Require Import all_ssreflect all_algebra.
From Verif Require Import Outcome Fieldtac ExtFieldSpec.
Set Implicit Arguments.
Unset Strict Implicit.
Unset Printing Implicit Defensive.
Local Open Scope ring_scope.
Import GRing.Theory.

Section Facts.
Variable F : fieldType.
Variable nr : F.
Implicit Types (r s : seq F).

Lemma size_modulus k : (0 < k)%N -> size (ext_modulus k nr) = k.+1.
Proof. by move=> h; rewrite /ext_modulus size_addl ?size_polyXn // size_opp; apply: leq_ltn_trans (size_polyC_leq1 _) _. Qed.

Lemma small_mod k r : (0 < k)%N -> (size r <= k)%N -> Poly r %% ext_modulus k nr = Poly r.
Proof.
move=> k0 h; apply: modp_small; rewrite size_modulus // ltnS.
by apply: leq_trans h; rewrite size_Poly.
Qed.

Lemma mod_by_quot k (p q : {poly F}) r : (0 < k)%N -> (size r <= k)%N ->
  p = q * ext_modulus k nr + Poly r -> p %% ext_modulus k nr = Poly r.
Proof. by move=> k0 h ->; rewrite modp_addl_mul_small // size_modulus // ltnS; apply: leq_trans h; rewrite size_Poly. Qed.

Lemma Poly_inj r s : size r = size s -> Poly r = Poly s -> r = s.
Proof.
move=> h e; apply: (eq_from_nth (x0 := 0)) => // i hi.
by have := congr1 (fun p : {poly F} => p`_i) e; rewrite !coef_Poly.
Qed.

Lemma Poly2 (a0 a1 : F) : Poly [:: a0; a1] = a0%:P + a1%:P * 'X :> {poly F}.
Proof. by rewrite /= !cons_poly_def mul0r add0r addrC. Qed.
Lemma Poly3 (a0 a1 a2 : F) : Poly [:: a0; a1; a2] = a0%:P + (a1%:P + a2%:P * 'X) * 'X :> {poly F}.
Proof. by rewrite -Poly2 [LHS]/= cons_poly_def addrC. Qed.
Lemma Poly4 (a0 a1 a2 a3 : F) : Poly [:: a0; a1; a2; a3] = a0%:P + (a1%:P + (a2%:P + a3%:P * 'X) * 'X) * 'X :> {poly F}.
Proof. by rewrite -Poly3 [LHS]/= cons_poly_def addrC. Qed.
Lemma Poly5 (a0 a1 a2 a3 a4 : F) : Poly [:: a0; a1; a2; a3; a4] =
  a0%:P + (a1%:P + (a2%:P + (a3%:P + a4%:P * 'X) * 'X) * 'X) * 'X :> {poly F}.
Proof. by rewrite -Poly4 [LHS]/= cons_poly_def addrC. Qed.
Lemma Poly6 (a0 a1 a2 a3 a4 a5 : F) : Poly [:: a0; a1; a2; a3; a4; a5] =
  a0%:P + (a1%:P + (a2%:P + (a3%:P + (a4%:P + a5%:P * 'X) * 'X) * 'X) * 'X) * 'X :> {poly F}.
Proof. by rewrite -Poly5 [LHS]/= cons_poly_def addrC. Qed.
End Facts.

Section Identities.
Variable R : comRingType.
Add Ring ringR : (Rth R).
Implicit Types a b x n : R.
Lemma id2 a0 a1 b0 b1 x n :
  (a0 + a1 * x) * (b0 + b1 * x) = a1 * b1 * (x ^+ 2 - n) + (a0 * b0 + n * (a1 * b1) + (a0 * b1 + a1 * b0) * x).
Proof. by cring R. Qed.
Lemma id3 a0 a1 a2 b0 b1 b2 x n :
  (a0 + (a1 + a2 * x) * x) * (b0 + (b1 + b2 * x) * x) = (a1 * b2 + a2 * b1 + a2 * b2 * x) * (x ^+ 3 - n) +
  (a0 * b0 + n * (a1 * b2 + a2 * b1) + (a0 * b1 + a1 * b0 + n * (a2 * b2) + (a0 * b2 + a1 * b1 + a2 * b0) * x) * x).
Proof. by cring R. Qed.
Lemma id4 a0 a1 a2 a3 b0 b1 b2 b3 x n :
  (a0 + (a1 + (a2 + a3 * x) * x) * x) * (b0 + (b1 + (b2 + b3 * x) * x) * x) =
  (a1 * b3 + a2 * b2 + a3 * b1 + (a2 * b3 + a3 * b2 + a3 * b3 * x) * x) * (x ^+ 4 - n) +
  (a0 * b0 + n * (a1 * b3 + a2 * b2 + a3 * b1) + (a0 * b1 + a1 * b0 + n * (a2 * b3 + a3 * b2) +
   (a0 * b2 + a1 * b1 + a2 * b0 + n * (a3 * b3) + (a0 * b3 + a1 * b2 + a2 * b1 + a3 * b0) * x) * x) * x).
Proof. by cring R. Qed.
Lemma id6 a0 a1 a2 a3 a4 a5 b0 b1 b2 b3 b4 b5 x n :
  (a0 + (a1 + (a2 + (a3 + (a4 + a5 * x) * x) * x) * x) * x) *
  (b0 + (b1 + (b2 + (b3 + (b4 + b5 * x) * x) * x) * x) * x) =
  (a1 * b5 + a2 * b4 + a3 * b3 + a4 * b2 + a5 * b1 + (a2 * b5 + a3 * b4 + a4 * b3 + a5 * b2 +
   (a3 * b5 + a4 * b4 + a5 * b3 + (a4 * b5 + a5 * b4 + a5 * b5 * x) * x) * x) * x) * (x ^+ 6 - n) +
  (a0 * b0 + n * (a1 * b5 + a2 * b4 + a3 * b3 + a4 * b2 + a5 * b1) +
   (a0 * b1 + a1 * b0 + n * (a2 * b5 + a3 * b4 + a4 * b3 + a5 * b2) +
    (a0 * b2 + a1 * b1 + a2 * b0 + n * (a3 * b5 + a4 * b4 + a5 * b3) +
     (a0 * b3 + a1 * b2 + a2 * b1 + a3 * b0 + n * (a4 * b5 + a5 * b4) +
      (a0 * b4 + a1 * b3 + a2 * b2 + a3 * b1 + a4 * b0 + n * (a5 * b5) +
       (a0 * b5 + a1 * b4 + a2 * b3 + a3 * b2 + a4 * b1 + a5 * b0) * x) * x) * x) * x) * x).
Proof. by cring R. Qed.
End Identities.

Section Mul.
Variable F : fieldType.
Variable nr : F.
Let pcE := (polyCD, polyCM, polyCN, polyCB).

(** The product in each extension field, by coefficients. *)
Definition mul2 (a b : F * F) : F * F := (a.1 * b.1 + nr * (a.2 * b.2), a.1 * b.2 + a.2 * b.1).

Lemma ext2_mul a0 a1 b0 b1 :
  (Poly [:: a0; a1] * Poly [:: b0; b1]) %% ext_modulus 2 nr = Poly [:: a0 * b0 + nr * (a1 * b1); a0 * b1 + a1 * b0].
Proof.
apply: (mod_by_quot (q := (a1 * b1)%:P)) => //; rewrite /ext_modulus !Poly2 !pcE.
exact: id2.
Qed.

Lemma ext3_mul a0 a1 a2 b0 b1 b2 :
  (Poly [:: a0; a1; a2] * Poly [:: b0; b1; b2]) %% ext_modulus 3 nr =
  Poly [:: a0 * b0 + nr * (a1 * b2 + a2 * b1); a0 * b1 + a1 * b0 + nr * (a2 * b2); a0 * b2 + a1 * b1 + a2 * b0].
Proof.
apply: (mod_by_quot (q := (a1 * b2 + a2 * b1)%:P + (a2 * b2)%:P * 'X)) => //; rewrite /ext_modulus !Poly3 !pcE.
exact: id3.
Qed.

Lemma ext4_mul a0 a1 a2 a3 b0 b1 b2 b3 :
  (Poly [:: a0; a1; a2; a3] * Poly [:: b0; b1; b2; b3]) %% ext_modulus 4 nr =
  Poly [:: a0 * b0 + nr * (a1 * b3 + a2 * b2 + a3 * b1); a0 * b1 + a1 * b0 + nr * (a2 * b3 + a3 * b2);
           a0 * b2 + a1 * b1 + a2 * b0 + nr * (a3 * b3); a0 * b3 + a1 * b2 + a2 * b1 + a3 * b0].
Proof.
apply: (mod_by_quot (q := (a1 * b3 + a2 * b2 + a3 * b1)%:P + ((a2 * b3 + a3 * b2)%:P + (a3 * b3)%:P * 'X) * 'X)) => //.
rewrite /ext_modulus !Poly4 !pcE.
exact: id4.
Qed.

Lemma ext6_mul a0 a1 a2 a3 a4 a5 b0 b1 b2 b3 b4 b5 :
  (Poly [:: a0; a1; a2; a3; a4; a5] * Poly [:: b0; b1; b2; b3; b4; b5]) %% ext_modulus 6 nr =
  Poly [:: a0 * b0 + nr * (a1 * b5 + a2 * b4 + a3 * b3 + a4 * b2 + a5 * b1);
           a0 * b1 + a1 * b0 + nr * (a2 * b5 + a3 * b4 + a4 * b3 + a5 * b2);
           a0 * b2 + a1 * b1 + a2 * b0 + nr * (a3 * b5 + a4 * b4 + a5 * b3);
           a0 * b3 + a1 * b2 + a2 * b1 + a3 * b0 + nr * (a4 * b5 + a5 * b4);
           a0 * b4 + a1 * b3 + a2 * b2 + a3 * b1 + a4 * b0 + nr * (a5 * b5);
           a0 * b5 + a1 * b4 + a2 * b3 + a3 * b2 + a4 * b1 + a5 * b0].
Proof.
apply: (mod_by_quot (q := (a1 * b5 + a2 * b4 + a3 * b3 + a4 * b2 + a5 * b1)%:P +
  ((a2 * b5 + a3 * b4 + a4 * b3 + a5 * b2)%:P + ((a3 * b5 + a4 * b4 + a5 * b3)%:P +
  ((a4 * b5 + a5 * b4)%:P + (a5 * b5)%:P * 'X) * 'X) * 'X) * 'X)) => //.
rewrite /ext_modulus !Poly6 !pcE.
exact: id6.
Qed.
End Mul.
