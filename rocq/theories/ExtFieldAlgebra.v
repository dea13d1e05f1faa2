(** Proofs about the extension-field gadgets of FieldGadgets.v. *)
From mathcomp Require Import all_ssreflect all_algebra.
From Verif Require Import Outcome Lincomb LincombSpec LincombFacts R1CS R1CSSpec Fieldtac.
From Verif Require Import Protoboard GadgetSpec GadgetLogic FieldGadgets ExtFieldSpec ExtFieldFacts.
Set Implicit Arguments.
Unset Strict Implicit.
Unset Printing Implicit Defensive.
Local Open Scope ring_scope.
Import GRing.Theory.

Section Algebra.
Variable F : fieldType.
Add Field Ff : (Fth F).
Implicit Types n a b r v d : F.

Lemma fp2_alg n a0 a1 b0 b1 r0 r1 v :
  a1 * b1 = v /\ a0 * b0 = r0 + - n * v /\ (a0 + a1) * (b0 + b1) = r1 + r0 + (1 - n) * v <->
  v = a1 * b1 /\ r0 = a0 * b0 + n * (a1 * b1) /\ r1 = a0 * b1 + a1 * b0.
Proof.
split=> [[<- [h1 h2]]|[-> [-> ->]]]; last by do !split; fring F.
have e0 : r0 = a0 * b0 + n * (a1 * b1) by rewrite h1; fring F.
split=> //; split=> //.
apply: (addIr r0); apply: (addIr ((1 - n) * (a1 * b1))); rewrite -h2 e0; fring F.
Qed.

Lemma fp2_sqr_alg n a0 a1 r0 r1 : 2%:R != 0 :> F ->
  2%:R * a0 * a1 = r1 /\ (a0 + a1) * (a0 + n * a1) = r0 + 2%:R^-1 * ((1 + n) * r1) <->
  r0 = a0 * a0 + n * (a1 * a1) /\ r1 = a0 * a1 + a1 * a0.
Proof.
move=> h2; have e2 : 2%:R^-1 * 2%:R = 1 :> F by rewrite mulVf.
have e3 : 2%:R^-1 * ((1 + n) * (2%:R * a0 * a1)) = (1 + n) * (a0 * a1).
  have -> : 2%:R^-1 * ((1 + n) * (2%:R * a0 * a1)) = (2%:R^-1 * 2%:R) * ((1 + n) * (a0 * a1)).
    by move: (2%:R^-1) => u; fring F.
  by rewrite e2 mul1r.
split=> [[<-]|[-> ->]].
- rewrite e3 => h; split; last by fring F.
  by apply: (addIr ((1 + n) * (a0 * a1))); rewrite -h; fring F.
- have -> : a0 * a1 + a1 * a0 = 2%:R * a0 * a1 by fring F.
  by rewrite e3; split=> //; fring F.
Qed.

Lemma nz_eq0 (c d : F) : c != 0 -> c * d = 0 -> d = 0.
Proof. by move=> h /eqP; rewrite mulf_eq0 (negbTE h) => /eqP. Qed.

(** The linear system behind Toom-Cook-3x. *)
Lemma toom3 (i d0 d1 d2 : F) : 2%:R != 0 :> F -> 3%:R != 0 :> F -> i != 0 ->
  d1 + d2 + i * d0 = 0 -> - d1 + d2 - i * d0 = 0 -> 2%:R * d1 + 4%:R * d2 + 8%:R * i * d0 = 0 ->
  [/\ d0 = 0, d1 = 0 & d2 = 0].
Proof.
move=> h2 h3 hi e1 e2 e3.
have z2 : d2 = 0.
  apply: (nz_eq0 h2); have -> : 2%:R * d2 = (d1 + d2 + i * d0) + (- d1 + d2 - i * d0) by fring F.
  by rewrite e1 e2 addr0.
have z0 : i * d0 = 0.
  apply: (nz_eq0 h3); apply: (nz_eq0 h2).
  have -> : 2%:R * (3%:R * (i * d0)) = (2%:R * d1 + 4%:R * d2 + 8%:R * i * d0) - 2%:R * (d1 + d2 + i * d0) - 2%:R * d2.
    by fring F.
  by rewrite e3 e1 z2 !mulr0 !subr0.
have d00 := nz_eq0 hi z0; split=> //.
by move: e1; rewrite z2 z0 !addr0.
Qed.

Lemma sub_eq (a b : F) : a = b <-> a - b = 0.
Proof. by split=> [->|/eqP]; rewrite ?subrr // subr_eq0 => /eqP. Qed.

Lemma fp3_alg n a0 a1 a2 b0 b1 b2 r0 r1 r2 v0 v4 : 2%:R != 0 :> F -> 3%:R != 0 :> F -> n != 0 ->
  [/\ a0 * b0 = v0, a2 * b2 = v4,
      (a0 + a1 + a2) * (b0 + b1 + b2) = r1 + r2 + n^-1 * r0 + (1 - n^-1) * v0 + (1 - n) * v4,
      (a0 - a1 + a2) * (b0 - b1 + b2) = - r1 + r2 + (1 + n^-1) * v0 - n^-1 * r0 + (1 + n) * v4 &
      (a0 + 2%:R * a1 + 4%:R * a2) * (b0 + 2%:R * b1 + 4%:R * b2) =
        2%:R * r1 + 4%:R * r2 + 8%:R * n^-1 * r0 + (1 - 8%:R * n^-1) * v0 + (16%:R - 2%:R * n) * v4] <->
  [/\ v0 = a0 * b0, v4 = a2 * b2, r0 = a0 * b0 + n * (a1 * b2 + a2 * b1), r1 = a0 * b1 + a1 * b0 + n * (a2 * b2) &
      r2 = a0 * b2 + a1 * b1 + a2 * b0].
Proof.
move=> h2 h3 hn.
pose R0 := a0 * b0 + n * (a1 * b2 + a2 * b1).
pose R1 := a0 * b1 + a1 * b0 + n * (a2 * b2).
pose R2 := a0 * b2 + a1 * b1 + a2 * b0.
have hi : n^-1 != 0 by rewrite invr_eq0.
have k0 : n^-1 * R0 = n^-1 * (a0 * b0) + (a1 * b2 + a2 * b1) by rewrite /R0 [n^-1 * (_ + _)]mulrDr [n^-1 * (n * _)]mulKf.
have g1 : (a0 + a1 + a2) * (b0 + b1 + b2) = R1 + R2 + n^-1 * R0 + (1 - n^-1) * (a0 * b0) + (1 - n) * (a2 * b2).
  by rewrite k0 /R1 /R2; move: n^-1 => i; fring F.
have g2 : (a0 - a1 + a2) * (b0 - b1 + b2) = - R1 + R2 + (1 + n^-1) * (a0 * b0) - n^-1 * R0 + (1 + n) * (a2 * b2).
  by rewrite k0 /R1 /R2; move: n^-1 => i; fring F.
have g3 : (a0 + 2%:R * a1 + 4%:R * a2) * (b0 + 2%:R * b1 + 4%:R * b2) =
    2%:R * R1 + 4%:R * R2 + 8%:R * n^-1 * R0 + (1 - 8%:R * n^-1) * (a0 * b0) + (16%:R - 2%:R * n) * (a2 * b2).
  have -> : 8%:R * n^-1 * R0 = 8%:R * (n^-1 * R0) by rewrite mulrA.
  by rewrite k0 /R1 /R2; move: n^-1 => i; fring F.
split; last by case=> -> -> -> -> ->.
case=> <- <-; rewrite g1 g2 g3 => e1 e2 e3.
have [] := @toom3 n^-1 (R0 - r0) (R1 - r1) (R2 - r2) h2 h3 hi.
- move/sub_eq: e1 => <-; move: n^-1 => i; fring F.
- move/sub_eq: e2 => <-; move: n^-1 => i; fring F.
- move/sub_eq: e3 => <-; move: n^-1 => i; fring F.
by move=> /(iffRL (sub_eq _ _)) <- /(iffRL (sub_eq _ _)) <- /(iffRL (sub_eq _ _)) <-.
Qed.

(** The linear system behind Toom-Cook-4x. *)
Lemma toom4 n (d0 d1 d2 d3 : F) : 2%:R != 0 :> F -> 3%:R != 0 :> F -> 5%:R != 0 :> F -> 1 - n != 0 ->
  d0 + n * d2 = 0 ->
  - 15%:R * d0 - 30%:R * d1 - 3%:R * (4%:R + n) * d2 - 6%:R * (4%:R + n) * d3 = 0 ->
  - 15%:R * d0 + 30%:R * d1 - 3%:R * (4%:R + n) * d2 + 6%:R * (4%:R + n) * d3 = 0 ->
  - 80%:R * d0 - 240%:R * d1 - 8%:R * (9%:R + n) * d2 - 24%:R * (9%:R + n) * d3 = 0 ->
  [/\ d0 = 0, d1 = 0, d2 = 0 & d3 = 0].
Proof.
move=> h2 h3 h5 hn e0 e1 e2 e3.
have z2 : d2 = 0.
  apply: (nz_eq0 hn); do 3 apply: (nz_eq0 h2); apply: (nz_eq0 h3).
  have -> : 3%:R * (2%:R * (2%:R * (2%:R * ((1 - n) * d2)))) = - 30%:R * (d0 + n * d2) -
     (- 15%:R * d0 - 30%:R * d1 - 3%:R * (4%:R + n) * d2 - 6%:R * (4%:R + n) * d3) -
     (- 15%:R * d0 + 30%:R * d1 - 3%:R * (4%:R + n) * d2 + 6%:R * (4%:R + n) * d3) by fring F.
  by rewrite e0 e1 e2 mulr0 !subr0.
have z0 : d0 = 0 by move: e0; rewrite z2 mulr0 addr0.
have f1 : 5%:R * d1 + (4%:R + n) * d3 = 0.
  apply: (nz_eq0 h2); apply: (nz_eq0 h3).
  have -> : 3%:R * (2%:R * (5%:R * d1 + (4%:R + n) * d3)) =
     - 15%:R * d0 + 30%:R * d1 - 3%:R * (4%:R + n) * d2 + 6%:R * (4%:R + n) * d3 by rewrite z0 z2; fring F.
  exact: e2.
have f3 : 10%:R * d1 + (9%:R + n) * d3 = 0.
  do 3 apply: (nz_eq0 h2); apply: (nz_eq0 h3).
  have -> : 3%:R * (2%:R * (2%:R * (2%:R * (10%:R * d1 + (9%:R + n) * d3)))) =
     - (- 80%:R * d0 - 240%:R * d1 - 8%:R * (9%:R + n) * d2 - 24%:R * (9%:R + n) * d3) by rewrite z0 z2; fring F.
  by rewrite e3 oppr0.
have z3 : d3 = 0.
  apply: (nz_eq0 hn).
  have -> : (1 - n) * d3 = (10%:R * d1 + (9%:R + n) * d3) - 2%:R * (5%:R * d1 + (4%:R + n) * d3) by fring F.
  by rewrite f1 f3 mulr0 subr0.
split=> //; apply: (nz_eq0 h5).
by move: f1; rewrite z3 mulr0 addr0.
Qed.

Section Direct.
Variables n a0 a1 a2 a3 b0 b1 b2 b3 : F.
Hypothesis h2 : 2%:R != 0 :> F.
Hypothesis hn : 1 - n != 0.
Let C0 := a0 * b0 + n * (a1 * b3 + a2 * b2 + a3 * b1).
Let C1 := a0 * b1 + a1 * b0 + n * (a2 * b3 + a3 * b2).
Let C2 := a0 * b2 + a1 * b1 + a2 * b0 + n * (a3 * b3).
Let C3 := a0 * b3 + a1 * b2 + a2 * b1 + a3 * b0.
Let V1 := (a0 + a1 + a2 + a3) * (b0 + b1 + b2 + b3).
Let V2 := (a0 - a1 + a2 - a3) * (b0 - b1 + b2 - b3).
Let V6 := a3 * b3.
Let u := (1 - n)^-1.

Definition dir0 (c0 c1 c2 c3 v1 v2 v6 : F) : F :=
  u * c0 + n * u * c2 - n * u * 2%:R^-1 * v1 - n * u * 2%:R^-1 * v2 + n * v6.
Definition dir3 (c0 c1 c2 c3 v1 v2 v6 : F) : F :=
  - 15%:R * u * c0 - 30%:R * u * c1 - 3%:R * (4%:R + n) * u * c2 - 6%:R * (4%:R + n) * u * c3
  + (24%:R - 3%:R * n * 2%:R^-1) * u * v1 + (- 8%:R + n * 2%:R^-1) * u * v2 - 3%:R * (- 16%:R + n) * v6.
Definition dir4 (c0 c1 c2 c3 v1 v2 v6 : F) : F :=
  - 15%:R * u * c0 + 30%:R * u * c1 - 3%:R * (4%:R + n) * u * c2 + 6%:R * (4%:R + n) * u * c3
  + (24%:R - 3%:R * n * 2%:R^-1) * u * v2 + (- 8%:R + n * 2%:R^-1) * u * v1 - 3%:R * (- 16%:R + n) * v6.
Definition dir5 (c0 c1 c2 c3 v1 v2 v6 : F) : F :=
  - 80%:R * u * c0 - 240%:R * u * c1 - 8%:R * (9%:R + n) * u * c2 - 24%:R * (9%:R + n) * u * c3
  - 2%:R * (- 81%:R + n) * u * v1 + (- 81%:R + n) * u * v2 - 8%:R * (- 81%:R + n) * v6.

Lemma dir0_ok : a0 * b0 = dir0 C0 C1 C2 C3 V1 V2 V6.
Proof.
rewrite /dir0 /C0 /C1 /C2 /C3 /V1 /V2 /V6 /u; ffield F; do ?split; move=> h; first [by move/eqP: h2; apply; exact: h | by move/eqP: hn; apply; exact: h].
Qed.
Lemma dir3_ok : (a0 + 2%:R * a1 + 4%:R * a2 + 8%:R * a3) * (b0 + 2%:R * b1 + 4%:R * b2 + 8%:R * b3) =
  dir3 C0 C1 C2 C3 V1 V2 V6.
Proof.
rewrite /dir3 /C0 /C1 /C2 /C3 /V1 /V2 /V6 /u; ffield F; do ?split; move=> h; first [by move/eqP: h2; apply; exact: h | by move/eqP: hn; apply; exact: h].
Qed.
Lemma dir4_ok : (a0 - 2%:R * a1 + 4%:R * a2 - 8%:R * a3) * (b0 - 2%:R * b1 + 4%:R * b2 - 8%:R * b3) =
  dir4 C0 C1 C2 C3 V1 V2 V6.
Proof.
rewrite /dir4 /C0 /C1 /C2 /C3 /V1 /V2 /V6 /u; ffield F; do ?split; move=> h; first [by move/eqP: h2; apply; exact: h | by move/eqP: hn; apply; exact: h].
Qed.
Lemma dir5_ok : (a0 + 3%:R * a1 + 9%:R * a2 + 27%:R * a3) * (b0 + 3%:R * b1 + 9%:R * b2 + 27%:R * b3) =
  dir5 C0 C1 C2 C3 V1 V2 V6.
Proof.
rewrite /dir5 /C0 /C1 /C2 /C3 /V1 /V2 /V6 /u; ffield F.
by move=> h; move/eqP: hn; apply; exact: h.
Qed.

Lemma dirZ (X : F) : u * X = 0 -> X = 0.
Proof. by apply: nz_eq0; rewrite /u invr_eq0. Qed.

Hypothesis h3 : 3%:R != 0 :> F.
Hypothesis h5 : 5%:R != 0 :> F.
Lemma direct_alg c0 c1 c2 c3 v1 v2 v6 :
  [/\ V1 = v1, V2 = v2, V6 = v6 &
   [/\ a0 * b0 = dir0 c0 c1 c2 c3 v1 v2 v6,
      (a0 + 2%:R * a1 + 4%:R * a2 + 8%:R * a3) * (b0 + 2%:R * b1 + 4%:R * b2 + 8%:R * b3) = dir3 c0 c1 c2 c3 v1 v2 v6,
      (a0 - 2%:R * a1 + 4%:R * a2 - 8%:R * a3) * (b0 - 2%:R * b1 + 4%:R * b2 - 8%:R * b3) = dir4 c0 c1 c2 c3 v1 v2 v6 &
      (a0 + 3%:R * a1 + 9%:R * a2 + 27%:R * a3) * (b0 + 3%:R * b1 + 9%:R * b2 + 27%:R * b3) = dir5 c0 c1 c2 c3 v1 v2 v6]] <->
  [/\ v1 = V1, v2 = V2, v6 = V6 & [/\ c0 = C0, c1 = C1, c2 = C2 & c3 = C3]].
Proof.
rewrite dir0_ok dir3_ok dir4_ok dir5_ok; split; last by case=> -> -> -> [-> -> -> ->].
case=> <- <- <-; move: V1 V2 V6 => w1 w2 w6 [e0 e3 e4 e5]; split=> //.
have [] := @toom4 n (C0 - c0) (C1 - c1) (C2 - c2) (C3 - c3) h2 h3 h5 hn.
- apply: dirZ; move/sub_eq: e0 => <-; rewrite /dir0 /u; move: ((1 - n)^-1) (2%:R^-1 : F) => u' i; fring F.
- apply: dirZ; move/sub_eq: e3 => <-; rewrite /dir3 /u; move: ((1 - n)^-1) (2%:R^-1 : F) => u' i; fring F.
- apply: dirZ; move/sub_eq: e4 => <-; rewrite /dir4 /u; move: ((1 - n)^-1) (2%:R^-1 : F) => u' i; fring F.
- apply: dirZ; move/sub_eq: e5 => <-; rewrite /dir5 /u; move: ((1 - n)^-1) (2%:R^-1 : F) => u' i; fring F.
by move=> /(iffRL (sub_eq _ _)) <- /(iffRL (sub_eq _ _)) <- /(iffRL (sub_eq _ _)) <- /(iffRL (sub_eq _ _)) <-.
Qed.
End Direct.
End Algebra.
