(** The G2 curve-membership gadgets, over Fp2 and Fp3. *)
From mathcomp Require Import all_ssreflect all_algebra zify.
From Verif Require Import Outcome Lincomb LincombSpec LincombFacts R1CS R1CSSpec R1CSFacts Fieldtac.
From Verif Require Import Protoboard GadgetSpec GadgetLogic FieldGadgets ExtFieldSpec ExtFieldFacts ExtFieldAlgebra.
From Verif Require Import FieldGadgetsFacts FieldGadgetsSat Weierstrass.
Set Implicit Arguments.
Unset Strict Implicit.
Unset Printing Implicit Defensive.
Local Open Scope ring_scope.
Import GRing.Theory.

Section G2.
Variable F : fieldType.
Variable nr : F.
Add Field Fg : (Fth F).
Implicit Types (x : seq F) (pb : protoboard F) (A B X Y m : {poly F}).

Lemma curve_mod A B X Y m : B %% m = B ->
  ((Y * Y) %% m - B = (X * ((X * X) %% m + A)) %% m) <-> (Y * Y) %% m = (X ^+ 3 + A * X + B) %% m.
Proof.
move=> hB; have -> : (X * ((X * X) %% m + A)) %% m = (X ^+ 3 + A * X) %% m.
  by rewrite mulrDr modpD modp_mul -modpD !exprS expr0 mulr1 [A * X]mulrC.
rewrite (modpD _ _ B) hB; split=> [<-|->]; by rewrite ?subrK ?addrK.
Qed.
Lemma Poly2_sub a0 a1 b0 b1 : Poly [:: a0; a1] - Poly [:: b0; b1] = Poly [:: a0 - b0; a1 - b1] :> {poly F}.
Proof. by apply/polyP=> i; rewrite coefB !coef_Poly; case: i => [|[|i]]; rewrite /= ?nth_nil ?subr0. Qed.
Lemma Poly2_add a0 a1 b0 b1 : Poly [:: a0; a1] + Poly [:: b0; b1] = Poly [:: a0 + b0; a1 + b1] :> {poly F}.
Proof. by apply/polyP=> i; rewrite coefD !coef_Poly; case: i => [|[|i]]; rewrite /= ?nth_nil ?addr0. Qed.
Lemma Poly3_sub a0 a1 a2 b0 b1 b2 : Poly [:: a0; a1; a2] - Poly [:: b0; b1; b2] = Poly [:: a0 - b0; a1 - b1; a2 - b2] :> {poly F}.
Proof. by apply/polyP=> i; rewrite coefB !coef_Poly; case: i => [|[|[|i]]]; rewrite /= ?nth_nil ?subr0. Qed.
Lemma Poly3_add a0 a1 a2 b0 b1 b2 : Poly [:: a0; a1; a2] + Poly [:: b0; b1; b2] = Poly [:: a0 + b0; a1 + b1; a2 + b2] :> {poly F}.
Proof. by apply/polyP=> i; rewrite coefD !coef_Poly; case: i => [|[|[|i]]]; rewrite /= ?nth_nil ?addr0. Qed.
Lemma small2 a0 a1 : Poly [:: a0; a1] %% ext_modulus 2 nr = Poly [:: a0; a1].
Proof.
have := ext2_mul nr a0 a1 1 0; rewrite !mulr0 !mulr1 !addr0 add0r.
have -> : Poly [:: 1; 0] = 1 :> {poly F} by rewrite Poly2 polyC0 mul0r addr0.
by rewrite mulr1.
Qed.
Lemma small3 a0 a1 a2 : Poly [:: a0; a1; a2] %% ext_modulus 3 nr = Poly [:: a0; a1; a2].
Proof.
have := ext3_mul nr a0 a1 a2 1 0 0; rewrite !mulr0 !mulr1 !addr0 !mulr0 !addr0 !add0r.
have -> : Poly [:: 1; 0; 0] = 1 :> {poly F} by apply/polyP=> i; rewrite coef_Poly coef1; case: i => [|[|[|i]]]; rewrite /= ?nth_nil.
by rewrite mulr1.
Qed.

Lemma curve2 (x0 x1 y0 y1 a0 a1 b0 b1 : F) :
  let X := Poly [:: x0; x1] in let Y := Poly [:: y0; y1] in
  let s0 := x0 * x0 + nr * (x1 * x1) in let s1 := x0 * x1 + x1 * x0 in
  (y0 * y0 + nr * (y1 * y1) - b0 = x0 * (s0 + a0) + nr * (x1 * (s1 + a1)) /\
   y0 * y1 + y1 * y0 - b1 = x0 * (s1 + a1) + x1 * (s0 + a0)) <->
  (Y * Y) %% ext_modulus 2 nr = (X ^+ 3 + Poly [:: a0; a1] * X + Poly [:: b0; b1]) %% ext_modulus 2 nr.
Proof.
cbv zeta; rewrite -curve_mod; last exact: small2.
rewrite !ext2_mul Poly2_sub Poly2_add ext2_mul; split=> [[-> ->]|/Poly_inj -/(_ erefl)[-> ->]] //.
Qed.
Lemma curve3 (x0 x1 x2 y0 y1 y2 a0 a1 a2 b0 b1 b2 : F) :
  let X := Poly [:: x0; x1; x2] in let Y := Poly [:: y0; y1; y2] in
  let s0 := x0 * x0 + nr * (x1 * x2 + x2 * x1) in let s1 := x0 * x1 + x1 * x0 + nr * (x2 * x2) in
  let s2 := x0 * x2 + x1 * x1 + x2 * x0 in
  [/\ y0 * y0 + nr * (y1 * y2 + y2 * y1) - b0 = x0 * (s0 + a0) + nr * (x1 * (s2 + a2) + x2 * (s1 + a1)),
      y0 * y1 + y1 * y0 + nr * (y2 * y2) - b1 = x0 * (s1 + a1) + x1 * (s0 + a0) + nr * (x2 * (s2 + a2)) &
      y0 * y2 + y1 * y1 + y2 * y0 - b2 = x0 * (s2 + a2) + x1 * (s1 + a1) + x2 * (s0 + a0)] <->
  (Y * Y) %% ext_modulus 3 nr = (X ^+ 3 + Poly [:: a0; a1; a2] * X + Poly [:: b0; b1; b2]) %% ext_modulus 3 nr.
Proof.
cbv zeta; rewrite -curve_mod; last exact: small3.
rewrite !ext3_mul Poly3_sub Poly3_add ext3_mul; split=> [[-> -> ->]|/Poly_inj -/(_ erefl)[-> -> ->]] //.
Qed.

(** [Y^2 = X^3 + a X + b] in the extension field. *)
Definition on_curve2 (a2 b2 : fp2_elt F) X Y : Prop :=
  (Y * Y) %% ext_modulus 2 nr = (X ^+ 3 + Poly [:: a2.1; a2.2] * X + Poly [:: b2.1; b2.2]) %% ext_modulus 2 nr.
Definition on_curve3 (a3 b3 : fp3_elt F) X Y : Prop :=
  (Y * Y) %% ext_modulus 3 nr = (X ^+ 3 + Poly [:: a3.1.1; a3.1.2; a3.2] * X + Poly [:: b3.1.1; b3.1.2; b3.2]) %% ext_modulus 3 nr.

Lemma checker2_sound pb Q a2 b2 g pb' x : 2%:R != 0 :> F -> g2_checker2_new pb Q a2 b2 = (g, pb') ->
  holds (g2_checker2_constraints nr g) x -> on_curve2 a2 b2 (fp2_val x (g2_X Q)) (fp2_val x (g2_Y Q)).
Proof.
move=> h2; rewrite /g2_checker2_new /fp2_new /fp2_add_const /fp2_mul_new; do 9 step; case=> <- _.
rewrite /g2_checker2_constraints !holds_cat !fp2_sqr_coef // fp2_mul_coef.
cbn [f2s_A f2s_result f2m_A f2m_B f2m_result f2m_v1 f2_c0 f2_c1 g22_compute_Xsq g22_compute_Ysq g22_curve_equation].
rewrite E3 E4 E5 E6 !fsE ?sum_lval !lval_var => -[[-> ->] [[-> ->] [_ h]]].
exact/curve2.
Qed.
Lemma checker2_sat pb Q a2 b2 g pb' x : 2%:R != 0 :> F -> pb_wf pb -> size x = size (pb_values pb) ->
  ranged2 (size x) (g2_X Q) -> ranged2 (size x) (g2_Y Q) -> g2_checker2_new pb Q a2 b2 = (g, pb') ->
  on_curve2 a2 b2 (fp2_val x (g2_X Q)) (fp2_val x (g2_Y Q)) ->
  exists zs, size (x ++ zs) = size (pb_values pb') /\ holds (g2_checker2_constraints nr g) (x ++ zs).
Proof.
move=> h2 [_ hf _ _] hs /andP[r0 r1] /andP[r2 r3].
rewrite /g2_checker2_new /fp2_new /fp2_add_const /fp2_mul_new; do 9 step; case=> <- <-.
move=> /curve2; cbv zeta; set x0 := lval x (f2_c0 (g2_X Q)); set x1 := lval x (f2_c1 (g2_X Q)).
set y0 := lval x (f2_c0 (g2_Y Q)); set y1 := lval x (f2_c1 (g2_Y Q)) => h.
exists [:: x0 * x0 + nr * (x1 * x1); x0 * x1 + x1 * x0; y0 * y0 + nr * (y1 * y1); y0 * y1 + y1 * y0; x1 * (x0 * x1 + x1 * x0 + a2.2)].
split; first by rewrite size_cat hs S7 S6 S5 S4 S3 S2 S1 S0 S !addnS addn0.
have w0 : v = (size x + 0).+1 by rewrite E hf hs addn0.
have w1 : v0 = (size x + 1).+1 by rewrite E0 N w0 !addnS.
have w2 : v1 = (size x + 2).+1 by rewrite E1 N0 w1 !addnS.
have w3 : v2 = (size x + 3).+1 by rewrite E2 N1 w2 !addnS.
have w4 : v3 = (size x + 4).+1 by rewrite E7 N6 N5 N4 N3 N2 w3 !addnS.
rewrite /g2_checker2_constraints !holds_cat !fp2_sqr_coef // fp2_mul_coef.
cbn [f2s_A f2s_result f2m_A f2m_B f2m_result f2m_v1 f2_c0 f2_c1 g22_compute_Xsq g22_compute_Ysq g22_curve_equation].
rewrite E3 E4 E5 E6 !fsE ?sum_lval !lval_var !lval_cat // w0 w1 w2 w3 w4 !xval_at; cbn [nth].
rewrite -/x0 -/x1 -/y0 -/y1; by do !split=> //; case: h.
Qed.

Lemma checker3_sound pb Q a3 b3 g pb' x : 2%:R != 0 :> F -> 3%:R != 0 :> F -> nr != 0 -> g2_checker3_new pb Q a3 b3 = (g, pb') ->
  holds (g2_checker3_constraints nr g) x -> on_curve3 a3 b3 (fp3_val x (g2_X Q)) (fp3_val x (g2_Y Q)).
Proof.
move=> h2 h3 hn; rewrite /g2_checker3_new /fp3_new /fp3_sqr_new /fp3_add_const /fp3_mul_new; do 18 step; case=> <- _.
rewrite /g2_checker3_constraints /fp3_sqr_constraints !holds_cat.
cbn [g23_compute_Xsq g23_compute_Ysq g23_curve_equation f3s_mul]; rewrite !(fp3_mul_coef _ _ h2 h3 hn).
cbn [f3m_A f3m_B f3m_result f3m_v0 f3m_v4 f3_c0 f3_c1 f3_c2].
rewrite E9 E10 E11 E12 E13 E14 !fsE ?sum_lval !lval_var => -[[_ _ -> -> ->] [[_ _ -> -> ->] [_ _ e0 e1 e2]]].
exact/curve3.
Qed.
Lemma checker3_sat pb Q a3 b3 g pb' x : 2%:R != 0 :> F -> 3%:R != 0 :> F -> nr != 0 -> pb_wf pb -> size x = size (pb_values pb) ->
  ranged3 (size x) (g2_X Q) -> ranged3 (size x) (g2_Y Q) -> g2_checker3_new pb Q a3 b3 = (g, pb') ->
  on_curve3 a3 b3 (fp3_val x (g2_X Q)) (fp3_val x (g2_Y Q)) ->
  exists zs, size (x ++ zs) = size (pb_values pb') /\ holds (g2_checker3_constraints nr g) (x ++ zs).
Proof.
move=> h2 h3 hn [_ hf _ _] hs /and3P[r0 r1 r2] /and3P[r3 r4 r5].
rewrite /g2_checker3_new /fp3_new /fp3_sqr_new /fp3_add_const /fp3_mul_new; do 18 step; case=> <- <-.
move=> /curve3; cbv zeta; set x0 := lval x (f3_c0 (g2_X Q)); set x1 := lval x (f3_c1 (g2_X Q)); set x2 := lval x (f3_c2 (g2_X Q)).
set y0 := lval x (f3_c0 (g2_Y Q)); set y1 := lval x (f3_c1 (g2_Y Q)); set y2 := lval x (f3_c2 (g2_Y Q)) => h.
exists [:: x0 * x0 + nr * (x1 * x2 + x2 * x1); x0 * x1 + x1 * x0 + nr * (x2 * x2); x0 * x2 + x1 * x1 + x2 * x0;
  y0 * y0 + nr * (y1 * y2 + y2 * y1); y0 * y1 + y1 * y0 + nr * (y2 * y2); y0 * y2 + y1 * y1 + y2 * y0;
  x0 * x0; x2 * x2; y0 * y0; y2 * y2;
  x0 * (x0 * x0 + nr * (x1 * x2 + x2 * x1) + a3.1.1); x2 * (x0 * x2 + x1 * x1 + x2 * x0 + a3.2)].
split; first by rewrite size_cat hs S16 S15 S14 S13 S12 S11 S10 S9 S8 S7 S6 S5 S4 S3 S2 S1 S0 S !addnS addn0.
have w0 : v = (size x + 0).+1 by rewrite E hf hs addn0.
have w1 : v0 = (size x + 1).+1 by rewrite E0 N w0 !addnS.
have w2 : v1 = (size x + 2).+1 by rewrite E1 N0 w1 !addnS.
have w3 : v2 = (size x + 3).+1 by rewrite E2 N1 w2 !addnS.
have w4 : v3 = (size x + 4).+1 by rewrite E3 N2 w3 !addnS.
have w5 : v4 = (size x + 5).+1 by rewrite E4 N3 w4 !addnS.
have w6 : v5 = (size x + 6).+1 by rewrite E5 N4 w5 !addnS.
have w7 : v6 = (size x + 7).+1 by rewrite E6 N5 w6 !addnS.
have w8 : v7 = (size x + 8).+1 by rewrite E7 N6 w7 !addnS.
have w9 : v8 = (size x + 9).+1 by rewrite E8 N7 w8 !addnS.
have w10 : v9 = (size x + 10).+1 by rewrite E15 N14 N13 N12 N11 N10 N9 N8 w9 !addnS.
have w11 : v10 = (size x + 11).+1 by rewrite E16 N15 w10 !addnS.
rewrite /g2_checker3_constraints /fp3_sqr_constraints !holds_cat.
cbn [g23_compute_Xsq g23_compute_Ysq g23_curve_equation f3s_mul]; rewrite !(fp3_mul_coef _ _ h2 h3 hn).
cbn [f3m_A f3m_B f3m_result f3m_v0 f3m_v4 f3_c0 f3_c1 f3_c2].
rewrite E9 E10 E11 E12 E13 E14 !fsE ?sum_lval !lval_var !lval_cat // w0 w1 w2 w3 w4 w5 w6 w7 w8 w9 w10 w11 !xval_at; cbn [nth].
rewrite -/x0 -/x1 -/x2 -/y0 -/y1 -/y2; by do !split=> //; case: h.
Qed.
End G2.
