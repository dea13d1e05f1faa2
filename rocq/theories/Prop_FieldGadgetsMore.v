(** C41, continued (see Prop_FieldGadgets.v): multiplication by a sparse element of Fp6, and
    concrete cases over the field with 13 elements. *)
From mathcomp Require Import all_ssreflect all_algebra zify.
From Verif Require Import Outcome Lincomb LincombSpec LincombFacts R1CS R1CSSpec R1CSFacts Fieldtac.
From Verif Require Import Protoboard GadgetSpec GadgetLogic FieldGadgets ExtFieldSpec ExtFieldFacts ExtFieldAlgebra.
From Verif Require Import FieldGadgetsFacts ExtFrobenius FieldGadgetsCyc ExpGadget FieldGadgetsSat.
Set Implicit Arguments.
Unset Strict Implicit.
Unset Printing Implicit Defensive.
Local Open Scope ring_scope.
Import GRing.Theory.

Section Props.
Variable F : fieldType.
Variable nr : F.
Add Field Fp : (Fth F).
Implicit Types (x : seq F) (pb : protoboard F).

(** * Multiplication by an element with two zero coefficients *)

(** [Fp6_mul_by_2345_gadget] multiplies by an element whose coefficients 0 and 2 (of Z)
    vanish.  The constraints determine only the even coefficients of the result: *)
Theorem C41_fp6_mul_by_2345 pb A B R g pb' x : 2%:R != 0 :> F -> 3%:R != 0 :> F -> nr != 0 ->
  pb_wf pb -> size x = size (pb_values pb) ->
  ranged6 (size x) A -> ranged6 (size x) B -> ranged6 (size x) R ->
  fp6_mul_by_2345_new pb A B R = (g, pb') ->
  (fp6_val x B)`_0 = 0 -> (fp6_val x B)`_2 = 0 ->
  (exists zs, size (x ++ zs) = size (pb_values pb') /\ holds (fp6_mul_by_2345_constraints nr g) (x ++ zs)) <->
  (forall i, i \in [:: 0; 2; 4]%N -> (fp6_val x R)`_i = ((fp6_val x A * fp6_val x B) %% ext_modulus 6 nr)`_i).
Proof.
move=> h2 h3 hn [_ hf _ _] hs /andP[/and3P[a0 a1 a2] /and3P[a3 a4 a5]] /andP[/and3P[b0 b1 b2] /and3P[b3 b4 b5]]
  /andP[/and3P[r0 r1 r2] /and3P[r3 r4 r5]].
rewrite /fp6_mul_by_2345_new /fp3_new /fp3_mul_new /fp3_add; do 19 step; case=> <- <-.
rewrite /fp6_val ext6_mul !coef_Poly [nth _ _ 0]/= [nth _ _ 2]/= => B00 B20.
set A0 := lval x (f3_c0 (f6_c0 A)); set B0 := lval x (f3_c0 (f6_c0 B)).
set A1 := lval x (f3_c0 (f6_c1 A)); set B1 := lval x (f3_c0 (f6_c1 B)).
set A2 := lval x (f3_c1 (f6_c0 A)); set B2 := lval x (f3_c1 (f6_c0 B)).
set A3 := lval x (f3_c1 (f6_c1 A)); set B3 := lval x (f3_c1 (f6_c1 B)).
set A4 := lval x (f3_c2 (f6_c0 A)); set B4 := lval x (f3_c2 (f6_c0 B)).
set A5 := lval x (f3_c2 (f6_c1 A)); set B5 := lval x (f3_c2 (f6_c1 B)).
have w0 : v = (size x + 0).+1 by rewrite E hf hs addn0.
have w1 : v0 = (size x + 1).+1 by rewrite E0 N w0 !addnS.
have w2 : v1 = (size x + 2).+1 by rewrite E1 N0 w1 !addnS.
have w3 : v2 = (size x + 3).+1 by rewrite E2 N1 w2 !addnS.
have w4 : v3 = (size x + 4).+1 by rewrite E3 N2 w3 !addnS.
have w5 : v4 = (size x + 5).+1 by rewrite E4 N3 w4 !addnS.
have w6 : v5 = (size x + 6).+1 by rewrite E5 N4 w5 !addnS.
have w7 : v6 = (size x + 7).+1 by rewrite E6 N5 w6 !addnS.
have w8 : v7 = (size x + 8).+1 by rewrite E16 N15 N14 N13 N12 N11 N10 N9 N8 N7 N6 w7 !addnS.
have w9 : v8 = (size x + 9).+1 by rewrite E17 N16 w8 !addnS.
rewrite /fp6_mul_by_2345_constraints; cbn [f6b_compute_v1 f6b_compute_result_c1 f6b_A f6b_B f6b_result f6b_v1].
have spl zs (g1 g2 : fp3_mul F) (c1 c2 c3 : r1cs_constraint F) : holds (fp3_mul_constraints nr g1 ++ [:: c1; c2; c3] ++ fp3_mul_constraints nr g2) zs <->
  holds (fp3_mul_constraints nr g1) zs /\ constraint_holds c1 zs /\ constraint_holds c2 zs /\ constraint_holds c3 zs /\
  holds (fp3_mul_constraints nr g2) zs.
  by rewrite !holds_cat !holds_cons holds_nil; tauto.
split=> [[zs [hz]]|H].
- rewrite spl !(fp3_mul_coef _ _ h2 h3 hn) /constraint_holds; cbn [c_a c_b c_c f3m_A f3m_B f3m_result f3m_v0 f3m_v4 f3_c0 f3_c1 f3_c2 f6_c0 f6_c1].
  rewrite E7 E8 E9 E10 E11 E12 E13 E14 E15 !fsE !sum_lval !lval_var !lval_cat // -/A0 -/B0 -/A1 -/B1 -/A2 -/B2 -/A3 -/B3 -/A4 -/B4 -/A5 -/B5.
  move=> [[_ _ h0 [h1 h4]] [k1 [k2 [k3 _]]]] i; rewrite !coef_Poly.
  have s2 (c d e : F) : c = d - e -> d = c + e by move=> ->; rewrite subrK.
  have kB0 : B0 = 0 by []. have kB2 : B2 = 0 by [].
  rewrite !inE => /or3P[]/eqP->; cbn [nth].
  - by rewrite (s2 _ _ _ k1) h4 kB0 kB2; fring F.
  - by rewrite (s2 _ _ _ k2) h0 kB0 kB2; fring F.
  - by rewrite (s2 _ _ _ k3) h1 kB0 kB2; fring F.
have := H 0%N isT; have := H 2%N isT; have := H 4%N isT; rewrite !coef_Poly; cbn [nth] => {H} e4 e2 e0.
set R1 := lval x (f3_c0 (f6_c1 R)); set R3 := lval x (f3_c1 (f6_c1 R)); set R5 := lval x (f3_c2 (f6_c1 R)).
set V0 := A1 * B1 + nr * (A3 * B5 + A5 * B3); set V1 := A1 * B3 + A3 * B1 + nr * (A5 * B5); set V2 := A1 * B5 + A3 * B3 + A5 * B1.
have kB0 : B0 = 0 by []. have kB2 : B2 = 0 by [].
exists [:: V0; V1; V2; A1 * B1; A5 * B5;
  (A0 + A1) * (B0 + B1) + nr * ((A2 + A3) * (B4 + B5) + (A4 + A5) * (B2 + B3)) - R1 - V0;
  (A0 + A1) * (B2 + B3) + (A2 + A3) * (B0 + B1) + nr * ((A4 + A5) * (B4 + B5)) - R3 - V1;
  (A0 + A1) * (B4 + B5) + (A2 + A3) * (B2 + B3) + (A4 + A5) * (B0 + B1) - R5 - V2;
  (A0 + A1) * (B0 + B1); (A4 + A5) * (B4 + B5)].
split.
  by rewrite size_cat hs S17 S16 S15 S14 S13 S12 S11 S10 S9 S8 S7 S6 S5 S4 S3 S2 S1 S0 S !addnS addn0.
rewrite spl !(fp3_mul_coef _ _ h2 h3 hn) /constraint_holds; cbn [c_a c_b c_c f3m_A f3m_B f3m_result f3m_v0 f3m_v4 f3_c0 f3_c1 f3_c2 f6_c0 f6_c1].
rewrite E7 E8 E9 E10 E11 E12 E13 E14 E15 !fsE !sum_lval !lval_var !lval_cat // -/A0 -/B0 -/A1 -/B1 -/A2 -/B2 -/A3 -/B3 -/A4 -/B4 -/A5 -/B5 -/R1 -/R3 -/R5.
rewrite w0 w1 w2 w3 w4 w5 w6 w7 w8 w9 !xval_at; cbn [nth].
rewrite e0 e2 e4 kB0 kB2 /V0 /V1 /V2.
by do !split=> //; fring F.
Qed.

Theorem C41_fp6_mul_by_2345_refuted : 2%:R != 0 :> F -> 3%:R != 0 :> F -> nr != 0 ->
  let: (A, pb) := fp6_new (pb_new F) in
  let: (B, pb) := fp6_new pb in
  let: (R, pb) := fp6_new pb in
  let: (g, pb) := fp6_mul_by_2345_new pb A B R in
  exists x, [/\ size x = size (pb_values pb), holds (fp6_mul_by_2345_constraints nr g) x,
    fp6_val x A = 0, fp6_val x B = 0 & fp6_val x R = 'X].
Proof.
move=> h2 h3 hn.
case e1: (fp6_new (pb_new F)) => [A pb1]; case e2: (fp6_new pb1) => [B pb2]; case e3: (fp6_new pb2) => [R pb3].
pose x : seq F := nseq 12 0 ++ [:: 0; 0; 0; 1; 0; 0].
have wf : pb_wf pb3 /\ size (pb_values pb3) = size x by case: e1 e2 e3 => _ <- [_ <-] [_ <-].
have rg : [/\ ranged6 (size x) A, ranged6 (size x) B & ranged6 (size x) R].
  by case: e1 e2 e3 => <- <- [<- <-] [<- _].
have vl zs : [/\ fp6_val (x ++ zs) A = 0, fp6_val (x ++ zs) B = 0 & fp6_val (x ++ zs) R = 'X].
  case: e1 e2 e3 => <- <- [<- <-] [<- _]; rewrite /fp6_val !lval_var !Poly6 /xval /= polyC0 polyC1.
  by rewrite !(mul0r, addr0, add0r, mul1r).
have [vA vB vR] := vl [::]; rewrite cats0 in vA vB vR.
have [rA rB rR] := rg; have [wf1 wf2] := wf.
case e4: (fp6_mul_by_2345_new _ _ _ _) => [g pb4].
have [_] := C41_fp6_mul_by_2345 h2 h3 hn wf1 (esym wf2) rA rB rR e4 (etrans (congr1 (fun P : {poly F} => P`_0) vB) (coef0 _ _)) (etrans (congr1 (fun P : {poly F} => P`_2) vB) (coef0 _ _)).
clear e4; case=> [i|zs [hz1 hz2]].
  by rewrite vA vB vR mul0r mod0p coefX coef0 !inE => /or3P[]/eqP->.
have [q1 q2 q3] := vl zs; exists (x ++ zs); exact: (And5 hz1 hz2 q1 q2 q3).
Qed.
End Props.

Print Assumptions C41_fp6_mul_by_2345.
Print Assumptions C41_fp6_mul_by_2345_refuted.
