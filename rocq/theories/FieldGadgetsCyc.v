(** Proofs about the cyclotomic squaring gadgets and the Frobenius maps. *)
From mathcomp Require Import all_ssreflect all_algebra zify.
From Verif Require Import Outcome Lincomb LincombSpec LincombFacts R1CS R1CSSpec Fieldtac.
From Verif Require Import Protoboard GadgetSpec GadgetLogic FieldGadgets ExtFieldSpec ExtFieldFacts ExtFieldAlgebra.
From Verif Require Import FieldGadgetsFacts ExtFrobenius.
Set Implicit Arguments.
Unset Strict Implicit.
Unset Printing Implicit Defensive.
Local Open Scope ring_scope.
Import GRing.Theory.

Ltac unroll x := repeat match goal with
  | |- context [allocate_var ?q] => let v := fresh "v" in let q' := fresh "pb" in case: (allocate_var q) => v q'
  | |- context [lc_assign ?q ?l] => let o := fresh "o" in let q' := fresh "pb" in let e := fresh "E" in
      case e: (lc_assign q l) => [o q']; move/(assign_lval x): e => e;
      rewrite ?fsE in e; cbn [f2_c0 f2_c1 f3_c0 f3_c1 f3_c2 f4_c0 f4_c1 f6_c0 f6_c1] in e; rewrite ?sum_lval in e;
      repeat match goal with h : lval x ?v = _ |- _ => match type of e with context [lval x v] => rewrite h in e end end
  end.

Section Cyc.
Variable F : fieldType.
Variable nr : F.
Add Field Fc : (Fth F).
Implicit Types (x : seq F) (pb : protoboard F) (a b r v n z : F).

Lemma cyc4_alg n a0 a1 a2 a3 r00 r01 r10 r11 : 2%:R != 0 :> F -> n != 0 ->
  a0 * a0 + n * (a1 * - a3 + a2 * a2 + a3 * - a1) = 1 ->
  a0 * a2 + a1 * - a1 + a2 * a0 + n * (a3 * - a3) = 0 ->
  (2%:R^-1 * r01 = a1 * a1 + n * (a3 * a3) /\ (2%:R * n)^-1 * (r00 - 1) = a1 * a3 + a3 * a1) /\
  (2%:R^-1 * (r01 + r00 - 1) + r10 + 1 = (a0 + a1) * (a0 + a1) + n * ((a2 + a3) * (a2 + a3)) /\
   (2%:R * n)^-1 * (r00 - 1) + r11 + 2%:R^-1 * r01 = (a0 + a1) * (a2 + a3) + (a2 + a3) * (a0 + a1)) <->
  [/\ r00 = a0 * a0 + n * (a1 * a3 + a2 * a2 + a3 * a1), r10 = a0 * a1 + a1 * a0 + n * (a2 * a3 + a3 * a2),
      r01 = a0 * a2 + a1 * a1 + a2 * a0 + n * (a3 * a3) & r11 = a0 * a3 + a1 * a2 + a2 * a1 + a3 * a0].
Proof.
move=> h2 hn n0 n2.
have hm : 2%:R * n != 0 by rewrite mulf_neq0.
pose w := (2%:R^-1 : F); have ew : 2%:R * w = 1 by rewrite /w mulfV.
pose u := (2%:R * n)^-1; have eu : 2%:R * n * u = 1 by rewrite /u mulfV.
rewrite -/w -/u.
have k0 : a0 * a0 = 1 + n * (a1 * a3 + a3 * a1) - n * (a2 * a2) by rewrite -n0; fring F.
have k2 : a0 * a2 + a2 * a0 = a1 * a1 + n * (a3 * a3).
  by apply/sub_eq; rewrite -n2; fring F.
split=> [[[e1 e2] [e3 e4]]|[-> -> -> ->]].
- have r1 : r01 = 2%:R * (a1 * a1 + n * (a3 * a3)) by rewrite -e1 mulrA ew mul1r.
  have r0 : r00 = 1 + 2%:R * n * (a1 * a3 + a3 * a1).
    by rewrite -e2 mulrA eu mul1r addrC subrK.
  split.
  + by rewrite r0 k0; fring F.
  + have -> : r10 = (w * (r01 + r00 - 1) + r10 + 1) - w * (r01 + r00 - 1) - 1 by fring F.
    rewrite e3 r1 r0.
    have -> : w * (2%:R * (a1 * a1 + n * (a3 * a3)) + (1 + 2%:R * n * (a1 * a3 + a3 * a1)) - 1) =
      (2%:R * w) * (a1 * a1 + n * (a3 * a3) + n * (a1 * a3 + a3 * a1)) by fring F.
    rewrite ew mul1r.
    have -> : (a0 + a1) * (a0 + a1) + n * ((a2 + a3) * (a2 + a3)) =
      a0 * a0 + (a0 * a1 + a1 * a0 + a1 * a1 + n * ((a2 + a3) * (a2 + a3))) by fring F.
    by rewrite k0; fring F.
  + rewrite r1; have -> : a0 * a2 + a1 * a1 + a2 * a0 + n * (a3 * a3) = (a0 * a2 + a2 * a0) + (a1 * a1 + n * (a3 * a3)) by fring F.
    by rewrite k2; fring F.
  + have -> : r11 = (u * (r00 - 1) + r11 + w * r01) - u * (r00 - 1) - w * r01 by fring F.
    rewrite e4 e1 e2.
    have -> : (a0 + a1) * (a2 + a3) + (a2 + a3) * (a0 + a1) =
      (a0 * a2 + a2 * a0) + (a0 * a3 + a1 * a2 + a1 * a3 + a2 * a1 + a3 * a0 + a3 * a1) by fring F.
    by rewrite k2; fring F.
- have E1 : a0 * a2 + a1 * a1 + a2 * a0 + n * (a3 * a3) = 2%:R * (a1 * a1 + n * (a3 * a3)).
    have -> : a0 * a2 + a1 * a1 + a2 * a0 + n * (a3 * a3) = (a0 * a2 + a2 * a0) + (a1 * a1 + n * (a3 * a3)) by fring F.
    by rewrite k2; fring F.
  have E0 : a0 * a0 + n * (a1 * a3 + a2 * a2 + a3 * a1) = 1 + 2%:R * n * (a1 * a3 + a3 * a1) by rewrite k0; fring F.
  rewrite E1 E0.
  have W1 : w * (2%:R * (a1 * a1 + n * (a3 * a3))) = a1 * a1 + n * (a3 * a3).
    by rewrite mulrA [w * _]mulrC ew mul1r.
  have W2 : u * (1 + 2%:R * n * (a1 * a3 + a3 * a1) - 1) = a1 * a3 + a3 * a1.
    have -> : u * (1 + 2%:R * n * (a1 * a3 + a3 * a1) - 1) = (2%:R * n * u) * (a1 * a3 + a3 * a1) by fring F.
    by rewrite eu mul1r.
  rewrite W1 W2; split=> //; split.
  + have -> : w * (2%:R * (a1 * a1 + n * (a3 * a3)) + (1 + 2%:R * n * (a1 * a3 + a3 * a1)) - 1) =
      (2%:R * w) * (a1 * a1 + n * (a3 * a3) + n * (a1 * a3 + a3 * a1)) by fring F.
    rewrite ew mul1r.
    have -> : (a0 + a1) * (a0 + a1) + n * ((a2 + a3) * (a2 + a3)) =
      a0 * a0 + (a0 * a1 + a1 * a0 + a1 * a1 + n * ((a2 + a3) * (a2 + a3))) by fring F.
    by rewrite k0; fring F.
  + have -> : (a0 + a1) * (a2 + a3) + (a2 + a3) * (a0 + a1) =
      (a0 * a2 + a2 * a0) + (a0 * a3 + a1 * a2 + a1 * a3 + a2 * a1 + a3 * a0 + a3 * a1) by fring F.
    by rewrite k2; fring F.
Qed.

(** The conjugate [A(-Z)]. *)
Lemma comp4 (s : F) a0 a1 a2 a3 : Poly [:: a0; a1; a2; a3] \Po (s *: 'X) =
  Poly [:: a0; a1 * s; a2 * (s * s); a3 * (s * (s * s))].
Proof. by rewrite comp_scale [X in Poly X = _]/= !expr0 !mulr1 expr1 !exprS expr0 !mulr1. Qed.

Lemma fp4_cyclotomic_sqr_iff pb A R g pb' x : 2%:R != 0 :> F -> nr != 0 ->
  (fp4_val x A * (fp4_val x A \Po (-1 *: 'X))) %% ext_modulus 4 nr = 1 ->
  fp4_cyclotomic_sqr_new nr pb A R = (g, pb') ->
  holds (fp4_cyclotomic_sqr_constraints nr g) x <->
  fp4_val x R = (fp4_val x A * fp4_val x A) %% ext_modulus 4 nr.
Proof.
move=> h2 hn; rewrite [fp4_val x A]/fp4_val comp4 !ext4_mul.
have -> : (1 : {poly F}) = Poly [:: 1; 0; 0; 0] by rewrite Poly4 !(polyC0, mul0r, addr0).
move=> /Poly_inj -/(_ erefl) [n0 _ n2 _].
rewrite /fp4_cyclotomic_sqr_new /fp2_add; unroll x.
case=> <- _; rewrite /fp4_cyclotomic_sqr_constraints [f4c_c0 _]/= [f4c_c1 _]/= holds_cat !(fp2_sqr_coef _ _ _ h2).
cbn [f2s_A f2s_result f2_c0 f2_c1 f4_c0 f4_c1]; rewrite E E0 E1 E2 E3 E4 fp4_val_eq.
apply: cyc4_alg => //; first by rewrite -n0; fring F.
by rewrite -n2; fring F.
Qed.

Lemma cyc6_alg n a0 a1 a2 a3 a4 a5 r0 r1 r2 r3 r4 r5 z : 3%:R != 0 :> F -> n != 0 ->
  z * z - z + 1 = 0 ->
  [/\ a0 * a0 + n * (a1 * (- z * a5) + a2 * ((z - 1) * a4) + a3 * a3 + a4 * (- z * a2) + a5 * ((z - 1) * a1)) = a0,
      a0 * ((z - 1) * a1) + a1 * a0 + n * (a2 * (- z * a5) + a3 * ((z - 1) * a4) + a4 * a3 + a5 * (- z * a2)) = z * a1,
      a0 * (- z * a2) + a1 * ((z - 1) * a1) + a2 * a0 + n * (a3 * (- z * a5) + a4 * ((z - 1) * a4) + a5 * a3) = (z - 1) * a2 &
  [/\ a0 * a3 + a1 * (- z * a2) + a2 * ((z - 1) * a1) + a3 * a0 + n * (a4 * (- z * a5) + a5 * ((z - 1) * a4)) = - a3,
      a0 * ((z - 1) * a4) + a1 * a3 + a2 * (- z * a2) + a3 * ((z - 1) * a1) + a4 * a0 + n * (a5 * (- z * a5)) = - z * a4 &
      a0 * (- z * a5) + a1 * ((z - 1) * a4) + a2 * a3 + a3 * (- z * a2) + a4 * ((z - 1) * a1) + a5 * a0 = (1 - z) * a5]] ->
  (3%:R^-1 * (r0 + 2%:R * a0) = a0 * a0 + n * (a3 * a3) /\ 3%:R^-1 * (r3 - 2%:R * a3) = a0 * a3 + a3 * a0) /\
  (3%:R^-1 * (r2 + 2%:R * a2) = a1 * a1 + n * (a4 * a4) /\ 3%:R^-1 * (r5 - 2%:R * a5) = a1 * a4 + a4 * a1) /\
  (3%:R^-1 * (r4 + 2%:R * a4) = a2 * a2 + n * (a5 * a5) /\ (3%:R * n)^-1 * (r1 - 2%:R * a1) = a2 * a5 + a5 * a2) <->
  [/\ r0 = a0 * a0 + n * (a1 * a5 + a2 * a4 + a3 * a3 + a4 * a2 + a5 * a1),
      r1 = a0 * a1 + a1 * a0 + n * (a2 * a5 + a3 * a4 + a4 * a3 + a5 * a2),
      r2 = a0 * a2 + a1 * a1 + a2 * a0 + n * (a3 * a5 + a4 * a4 + a5 * a3) &
  [/\ r3 = a0 * a3 + a1 * a2 + a2 * a1 + a3 * a0 + n * (a4 * a5 + a5 * a4),
      r4 = a0 * a4 + a1 * a3 + a2 * a2 + a3 * a1 + a4 * a0 + n * (a5 * a5) &
      r5 = a0 * a5 + a1 * a4 + a2 * a3 + a3 * a2 + a4 * a1 + a5 * a0]].
Proof.
move=> h3 hn hz [p0 p1 p2 [p3 p4 p5]].
have hm : 3%:R * n != 0 by rewrite mulf_neq0.
have nz0 : z != 0.
  by apply/eqP=> e; move: hz; rewrite e mul0r subr0 add0r => /eqP; rewrite oner_eq0.
have nz1 : z - 1 != 0.
  apply/eqP=> e; move: hz; have -> : z * z - z + 1 = z * (z - 1) + 1 by fring F.
  by rewrite e mulr0 add0r => /eqP; rewrite oner_eq0.
have q0 : a0 = a0 * a0 + n * (a3 * a3 - a1 * a5 - a2 * a4) by rewrite -[LHS]p0; fring F.
have q1 : a1 = a0 * a1 + n * (a3 * a4 - 2%:R * (a2 * a5)).
  by apply: (mulfI nz0); rewrite -[LHS]p1; fring F.
have q2 : a2 = a1 * a1 + n * (a4 * a4) - a0 * a2 - n * (a3 * a5).
  by apply: (mulfI nz1); rewrite -[LHS]p2; fring F.
have q3 : a3 = a1 * a2 + n * (a4 * a5) - 2%:R * (a0 * a3).
  by apply: oppr_inj; rewrite -[LHS]p3; fring F.
have q4 : a4 = a2 * a2 + n * (a5 * a5) - a0 * a4 - a1 * a3.
  by apply: (mulfI nz0); apply: oppr_inj; rewrite -[LHS]mulNr -[LHS]p4; fring F.
have q5 : a5 = a2 * a3 + a0 * a5 - 2%:R * (a1 * a4).
  by apply: (mulfI nz1); apply: oppr_inj; rewrite -[LHS]mulNr opprB -[LHS]p5; fring F.
have up (c d e : F) : c != 0 -> c^-1 * d = e <-> d = c * e.
  by move=> hc; split=> [<-|->]; rewrite ?mulVKf ?mulKf.
rewrite !(up _ _ _ h3) (up _ _ _ hm).
have t0 : 3%:R * (a0 * a0 + n * (a3 * a3)) - 2%:R * a0 = a0 * a0 + n * (a1 * a5 + a2 * a4 + a3 * a3 + a4 * a2 + a5 * a1).
  apply/sub_eq; have -> : 3%:R * (a0 * a0 + n * (a3 * a3)) - 2%:R * a0 - (a0 * a0 + n * (a1 * a5 + a2 * a4 + a3 * a3 + a4 * a2 + a5 * a1)) = 2%:R * (a0 * a0 + n * (a3 * a3 - a1 * a5 - a2 * a4) - a0) by fring F.
  by rewrite -q0 subrr mulr0.
have t1 : 3%:R * n * (a2 * a5 + a5 * a2) + 2%:R * a1 = a0 * a1 + a1 * a0 + n * (a2 * a5 + a3 * a4 + a4 * a3 + a5 * a2).
  apply/sub_eq; have -> : 3%:R * n * (a2 * a5 + a5 * a2) + 2%:R * a1 - (a0 * a1 + a1 * a0 + n * (a2 * a5 + a3 * a4 + a4 * a3 + a5 * a2)) = - 2%:R * (a0 * a1 + n * (a3 * a4 - 2%:R * (a2 * a5)) - a1) by fring F.
  by rewrite -q1 subrr mulr0.
have t2 : 3%:R * (a1 * a1 + n * (a4 * a4)) - 2%:R * a2 = a0 * a2 + a1 * a1 + a2 * a0 + n * (a3 * a5 + a4 * a4 + a5 * a3).
  apply/sub_eq; have -> : 3%:R * (a1 * a1 + n * (a4 * a4)) - 2%:R * a2 - (a0 * a2 + a1 * a1 + a2 * a0 + n * (a3 * a5 + a4 * a4 + a5 * a3)) = 2%:R * (a1 * a1 + n * (a4 * a4) - a0 * a2 - n * (a3 * a5) - a2) by fring F.
  by rewrite -q2 subrr mulr0.
have t3 : 3%:R * (a0 * a3 + a3 * a0) + 2%:R * a3 = a0 * a3 + a1 * a2 + a2 * a1 + a3 * a0 + n * (a4 * a5 + a5 * a4).
  apply/sub_eq; have -> : 3%:R * (a0 * a3 + a3 * a0) + 2%:R * a3 - (a0 * a3 + a1 * a2 + a2 * a1 + a3 * a0 + n * (a4 * a5 + a5 * a4)) = - 2%:R * (a1 * a2 + n * (a4 * a5) - 2%:R * (a0 * a3) - a3) by fring F.
  by rewrite -q3 subrr mulr0.
have t4 : 3%:R * (a2 * a2 + n * (a5 * a5)) - 2%:R * a4 = a0 * a4 + a1 * a3 + a2 * a2 + a3 * a1 + a4 * a0 + n * (a5 * a5).
  apply/sub_eq; have -> : 3%:R * (a2 * a2 + n * (a5 * a5)) - 2%:R * a4 - (a0 * a4 + a1 * a3 + a2 * a2 + a3 * a1 + a4 * a0 + n * (a5 * a5)) = 2%:R * (a2 * a2 + n * (a5 * a5) - a0 * a4 - a1 * a3 - a4) by fring F.
  by rewrite -q4 subrr mulr0.
have t5 : 3%:R * (a1 * a4 + a4 * a1) + 2%:R * a5 = a0 * a5 + a1 * a4 + a2 * a3 + a3 * a2 + a4 * a1 + a5 * a0.
  apply/sub_eq; have -> : 3%:R * (a1 * a4 + a4 * a1) + 2%:R * a5 - (a0 * a5 + a1 * a4 + a2 * a3 + a3 * a2 + a4 * a1 + a5 * a0) = - 2%:R * (a2 * a3 + a0 * a5 - 2%:R * (a1 * a4) - a5) by fring F.
  by rewrite -q5 subrr mulr0.
have s1 (c d e : F) : c + d = e <-> c = e - d by split=> [<-|->]; rewrite ?addrK ?subrK.
have s2 (c d e : F) : c - d = e <-> c = e + d by split=> [<-|->]; rewrite ?addrK ?subrK.
rewrite (s1 r0) (s2 r3) (s1 r2) (s2 r5) (s1 r4) (s2 r1) t0 t1 t2 t3 t4 t5.
by split=> [[[-> ->] [[-> ->] [-> ->]]]|[-> -> -> [-> -> ->]]].
Qed.

Lemma comp6 (s : F) a0 a1 a2 a3 a4 a5 : Poly [:: a0; a1; a2; a3; a4; a5] \Po (s *: 'X) =
  Poly [:: a0; s * a1; s ^+ 2 * a2; s ^+ 3 * a3; s ^+ 4 * a4; s ^+ 5 * a5].
Proof. by rewrite comp_scale [X in Poly X = _]/= !expr0 !mulr1 expr1 ![_ * s]mulrC ![_ * _ ^+ _]mulrC. Qed.

Lemma fp6_cyclotomic_sqr_iff z pb A R g pb' x : 2%:R != 0 :> F -> 3%:R != 0 :> F -> nr != 0 -> z ^+ 2 - z + 1 = 0 ->
  (fp6_val x A * (fp6_val x A \Po (z ^+ 2 *: 'X))) %% ext_modulus 6 nr = fp6_val x A \Po (z *: 'X) ->
  fp6_cyclotomic_sqr_new nr pb A R = (g, pb') ->
  holds (fp6_cyclotomic_sqr_constraints nr g) x <->
  fp6_val x R = (fp6_val x A * fp6_val x A) %% ext_modulus 6 nr.
Proof.
move=> h2 h3 hn hz; rewrite [fp6_val x A]/fp6_val !comp6 !ext6_mul -!exprM.
have z2 : z ^+ 2 = z - 1 by apply/sub_eq; rewrite -hz; fring F.
have z3 : z ^+ 3 = -1.
  apply/sub_eq; have e : z ^+ 3 - -1 = (z + 1) * (z ^+ 2 - z + 1) by fring F.
  by rewrite e hz mulr0.
have z4 : z ^+ 4 = - z by rewrite exprS z3 mulrN1.
have z5 : z ^+ 5 = 1 - z by rewrite exprS z4 mulrN -expr2 z2 opprB.
have z6 : z ^+ 6 = 1 by rewrite (exprM z 3 2) z3 expr2 mulrNN mulr1.
have z8 : z ^+ 8 = z - 1 by rewrite (exprD z 6 2) z6 mul1r z2.
have z10 : z ^+ 10 = - z by rewrite (exprD z 6 4) z6 mul1r z4.
rewrite ![(2 * _)%N]/= z2 z3 z4 z5 z6 z8 z10.
move=> /Poly_inj -/(_ erefl) [p0 p1 p2 p3 p4 p5].
rewrite /fp6_cyclotomic_sqr_new; unroll x.
case=> <- _; rewrite /fp6_cyclotomic_sqr_constraints [f6c_a _]/= [f6c_b _]/= [f6c_c _]/= !holds_cat !(fp2_sqr_coef _ _ _ h2).
cbn [f2s_A f2s_result f2_c0 f2_c1 f3_c0 f3_c1 f3_c2 f6_c0 f6_c1]; rewrite E E0 E1 E2 E3 E4 fp6_val_eq.
apply: (@cyc6_alg nr _ _ _ _ _ _ _ _ _ _ _ _ z h3 hn); first by rewrite -expr2.
move: p0 p1 p2 p3 p4 p5; rewrite !mul1r !mulN1r => p0 p1 p2 p3 p4 p5.
by split=> //; split.
Qed.
End Cyc.

Section Frob.
Variable F : fieldType.
Variable nr : F.
Add Field Fd : (Fth F).
Implicit Types (x : seq F) (pb : protoboard F) (a b r n z c : F).

Lemma fp4_Frobenius_comp pb v c2 c4 w pb' x : fp4_Frobenius_map pb v c2 c4 = (w, pb') -> c2 = c4 ^+ 2 ->
  fp4_val x w = fp4_val x v \Po (c4 *: 'X).
Proof.
move=> + e2; rewrite e2 {e2 c2}; rewrite /fp4_Frobenius_map; unroll x; case=> <- _.
rewrite [RHS]/= /fp4_val comp4; cbn [f2_c0 f2_c1 f4_c0 f4_c1]; rewrite E E0 E1 E2.
congr (Poly [:: _; _; _; _]); fring F.
Qed.

Lemma fp6_Frobenius_comp pb v c31 c32 c61 w pb' x : fp6_Frobenius_map pb v c31 c32 c61 = (w, pb') ->
  c31 = c61 ^+ 2 -> c32 = c61 ^+ 4 -> fp6_val x w = fp6_val x v \Po (c61 *: 'X).
Proof.
move=> + e2 e3; rewrite e2 e3; rewrite /fp6_Frobenius_map; unroll x; case=> <- _.
rewrite [RHS]/= /fp6_val comp6; cbn [f3_c0 f3_c1 f3_c2 f6_c0 f6_c1]; rewrite E E0 E1 E2 E3 E4.
congr (Poly [:: _; _; _; _; _; _]); fring F.
Qed.

(** The prime field of order [p]. *)
Variable p : nat.
Hypothesis hp : p \in [char F].
Hypothesis hF : forall a : F, a ^+ p = a.

Lemma expq i a : a ^+ (p ^ i) = a.
Proof. by elim: i => [|i IH]; rewrite ?expr1 // expnS exprM hF. Qed.
Lemma p_prime : prime p. Proof. exact: charf_prime hp. Qed.
Lemma natq i : [char F].-nat (p ^ i)%N.
Proof. by rewrite pnatX pnatE ?p_prime // hp. Qed.
Lemma q_gt0 i : (0 < p ^ i)%N. Proof. by rewrite expn_gt0 prime_gt0 // p_prime. Qed.
Lemma dvd_q k i : (k %| p.-1)%N -> (k %| (p ^ i).-1)%N.
Proof.
move=> h; case: i => [|i]; first by rewrite dvdn0.
apply: dvdn_trans h _; have := subn_exp p 1 i.+1; rewrite exp1n subn1 => ->.
by rewrite subn1 dvdn_mulr.
Qed.

Lemma powq k i (P : {poly F}) : (k %| p.-1)%N ->
  ext_eq k nr (P ^+ (p ^ i)) (P \Po (nr ^+ ((p ^ i).-1 %/ k) *: 'X)).
Proof. by move=> h; apply: frobenius (natq i) (expq i) (dvd_q i h) (q_gt0 i). Qed.

Lemma small4 x v c : (fp4_val x v \Po (c *: 'X)) %% ext_modulus 4 nr = fp4_val x v \Po (c *: 'X).
Proof. by rewrite /fp4_val comp4 small_mod. Qed.
Lemma small6 x v c : (fp6_val x v \Po (c *: 'X)) %% ext_modulus 6 nr = fp6_val x v \Po (c *: 'X).
Proof. by rewrite /fp6_val comp6 small_mod. Qed.

Lemma fp4_Frobenius_pow i pb v c2 c4 w pb' x : (4 %| p.-1)%N ->
  c2 = nr ^+ ((p ^ i).-1 %/ 2) -> c4 = nr ^+ ((p ^ i).-1 %/ 4) ->
  fp4_Frobenius_map pb v c2 c4 = (w, pb') -> fp4_val x w = (fp4_val x v ^+ (p ^ i)) %% ext_modulus 4 nr.
Proof.
move=> h4 h2 h h'; rewrite (fp4_Frobenius_comp x h'); first by rewrite -small4 h; apply: mod_sym; apply: powq.
rewrite h2 h -exprM; congr (_ ^+ _); have /dvdnP[t ->] := dvd_q i h4.
by rewrite mulnK // (_ : (t * 4 = t * 2 * 2)%N) ?mulnK //; lia.
Qed.

Lemma fp6_Frobenius_pow i pb v c31 c32 c61 w pb' x : (6 %| p.-1)%N ->
  c31 = nr ^+ ((p ^ i).-1 %/ 3) -> c32 = nr ^+ (2 * ((p ^ i).-1 %/ 3)) -> c61 = nr ^+ ((p ^ i).-1 %/ 6) ->
  fp6_Frobenius_map pb v c31 c32 c61 = (w, pb') -> fp6_val x w = (fp6_val x v ^+ (p ^ i)) %% ext_modulus 6 nr.
Proof.
move=> h6 h2 h3 h h'; have /dvdnP[t e] := dvd_q i h6.
have e3 : ((p ^ i).-1 %/ 3 = t * 2)%N by rewrite e (_ : (t * 6 = t * 2 * 3)%N) ?mulnK //; lia.
have e6 : ((p ^ i).-1 %/ 6 = t)%N by rewrite e mulnK.
rewrite (fp6_Frobenius_comp x h'); first by rewrite -small6 h; apply: mod_sym; apply: powq.
- by rewrite h2 h -exprM e3 e6.
- by rewrite h3 h -exprM e3 e6; congr (_ ^+ _); lia.
Qed.

(** Membership in the cyclotomic subgroups. *)
Lemma cyclotomic4 (P : {poly F}) : (4 %| p.-1)%N -> nr ^+ (p.-1 %/ 2) = -1 ->
  (P ^+ (p ^ 2 + 1)) %% ext_modulus 4 nr = 1 -> (P * (P \Po (-1 *: 'X))) %% ext_modulus 4 nr = 1.
Proof.
move=> h4 hn h; rewrite -[RHS]h addn1 exprS; apply: mod_mull; apply: mod_sym.
have -> : -1 = nr ^+ ((p ^ 2).-1 %/ 4).
  have p0 := prime_gt0 p_prime.
  have /dvdnP[t e] := h4; have ep : p = (4 * t).+1 by move: e p0; clear; lia.
  have -> : ((p ^ 2).-1 %/ 4 = (p.-1 %/ 2) * (2 * t).+1)%N.
    have ea : (((4 * t).+1 ^ 2).-1 = (2 * t * (2 * t).+1) * 4)%N by rewrite expnS expn1; lia.
    have eb : (4 * t = 2 * t * 2)%N by lia.
    by rewrite ep ea mulnK // [((4 * t).+1).-1]/= eb mulnK.
  by rewrite exprM hn -signr_odd /= mul2n odd_double expr1.
exact: powq.
Qed.

Lemma cyclotomic6 (P : {poly F}) : (6 %| p.-1)%N -> (0 < p)%N ->
  (P ^+ (p ^ 2 - p + 1)) %% ext_modulus 6 nr = 1 ->
  ext_eq 6 nr (P * (P \Po ((nr ^+ (p.-1 %/ 6)) ^+ 2 *: 'X))) (P \Po (nr ^+ (p.-1 %/ 6) *: 'X)).
Proof.
move=> h6 p0 h.
have e1 : ext_eq 6 nr (P ^+ p) (P \Po (nr ^+ (p.-1 %/ 6) *: 'X)) by have := powq 1 P h6; rewrite expn1.
apply: mod_trans e1.
have e2 : ext_eq 6 nr (P ^+ (p ^ 2)) (P \Po ((nr ^+ (p.-1 %/ 6)) ^+ 2 *: 'X)).
  apply: mod_trans (powq 2 P h6) _; rewrite /ext_eq; congr ((_ \Po (_ *: _)) %% _).
  have /dvdnP[t e] := h6; have ep : p = (6 * t).+1 by move: e p0; clear; lia.
  have -> : ((p ^ 2).-1 %/ 6 = t * (6 * t + 2))%N.
    rewrite ep (_ : ((6 * t).+1 ^ 2).-1 = (t * (6 * t + 2)) * 6)%N ?mulnK //.
    by rewrite expnS expn1; lia.
  rewrite e mulnK // exprM (_ : (6 * t + 2 = p.+1)%N); last by move: ep; clear; lia.
  by rewrite exprS hF expr2.
apply: mod_trans (mod_mull _ (mod_sym e2)) _.
have -> : P * P ^+ (p ^ 2) = P ^+ p * P ^+ (p ^ 2 - p + 1).
  rewrite -exprS -exprD; congr (_ ^+ _).
  have : (p <= p ^ 2)%N by rewrite expnS expn1 leq_pmulr.
  by move: (p ^ 2)%N => q; clear; lia.
have h1 : ext_eq 6 nr (P ^+ (p ^ 2 - p + 1)) 1 by rewrite /ext_eq h modp_small // size_poly1 size_modulus.
by apply: mod_trans (mod_mull _ h1) _; rewrite mulr1.
Qed.
End Frob.
