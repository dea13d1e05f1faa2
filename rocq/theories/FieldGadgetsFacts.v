(** Proofs about the extension-field gadgets of FieldGadgets.v. *)
From mathcomp Require Import all_ssreflect all_algebra.
From Verif Require Import Outcome Lincomb LincombSpec LincombFacts R1CS R1CSSpec Fieldtac.
From Verif Require Import Protoboard GadgetSpec GadgetLogic FieldGadgets ExtFieldSpec ExtFieldFacts ExtFieldAlgebra.
Set Implicit Arguments.
Unset Strict Implicit.
Unset Printing Implicit Defensive.
Local Open Scope ring_scope.
Import GRing.Theory.

Section Gadgets.
Variable F : fieldType.
Variable nr : F.
Add Field Ff : (Fth F).
Implicit Types (x : seq F) (pb : protoboard F) (a b r v : F).

(** Coefficients of a variable. *)
Lemma fp2_val_eq x (v : fp2_var F) a0 a1 : fp2_val x v = Poly [:: a0; a1] <-> lval x (f2_c0 v) = a0 /\ lval x (f2_c1 v) = a1.
Proof. by split=> [/Poly_inj -/(_ erefl) [-> ->]|[<- <-]]. Qed.
Lemma fp3_val_eq x (v : fp3_var F) a0 a1 a2 : fp3_val x v = Poly [:: a0; a1; a2] <->
  [/\ lval x (f3_c0 v) = a0, lval x (f3_c1 v) = a1 & lval x (f3_c2 v) = a2].
Proof. by split=> [/Poly_inj -/(_ erefl) [-> -> ->]|[<- <- <-]]. Qed.

Lemma fp4_val_eq x (v : fp4_var F) a0 a1 a2 a3 : fp4_val x v = Poly [:: a0; a1; a2; a3] <->
  [/\ lval x (f2_c0 (f4_c0 v)) = a0, lval x (f2_c0 (f4_c1 v)) = a1, lval x (f2_c1 (f4_c0 v)) = a2 &
      lval x (f2_c1 (f4_c1 v)) = a3].
Proof. by split=> [/Poly_inj -/(_ erefl) [-> -> -> ->]|[<- <- <- <-]]. Qed.
Lemma fp6_val_eq x (v : fp6_var F) a0 a1 a2 a3 a4 a5 : fp6_val x v = Poly [:: a0; a1; a2; a3; a4; a5] <->
  [/\ lval x (f3_c0 (f6_c0 v)) = a0, lval x (f3_c0 (f6_c1 v)) = a1, lval x (f3_c1 (f6_c0 v)) = a2 &
  [/\ lval x (f3_c1 (f6_c1 v)) = a3, lval x (f3_c2 (f6_c0 v)) = a4 & lval x (f3_c2 (f6_c1 v)) = a5]].
Proof. by split=> [/Poly_inj -/(_ erefl) [-> -> -> -> -> ->]|[<- <- <- [<- <- <-]]]. Qed.

(** Multiplication and squaring, by coefficients. *)
Lemma fp2_mul_coef (g : fp2_mul F) x : holds (fp2_mul_constraints nr g) x <->
  let a0 := lval x (f2_c0 (f2m_A g)) in let a1 := lval x (f2_c1 (f2m_A g)) in
  let b0 := lval x (f2_c0 (f2m_B g)) in let b1 := lval x (f2_c1 (f2m_B g)) in
  xval x (f2m_v1 g) = a1 * b1 /\ lval x (f2_c0 (f2m_result g)) = a0 * b0 + nr * (a1 * b1) /\
  lval x (f2_c1 (f2m_result g)) = a0 * b1 + a1 * b0.
Proof.
move=> /=; rewrite -fp2_alg /fp2_mul_constraints !holds_cons holds_nil /constraint_holds /= !fsE /=.
by rewrite /lval; tauto.
Qed.

Lemma fp2_sqr_coef (g : fp2_sqr F) x : 2%:R != 0 :> F -> holds (fp2_sqr_constraints nr g) x <->
  let a0 := lval x (f2_c0 (f2s_A g)) in let a1 := lval x (f2_c1 (f2s_A g)) in
  lval x (f2_c0 (f2s_result g)) = a0 * a0 + nr * (a1 * a1) /\ lval x (f2_c1 (f2s_result g)) = a0 * a1 + a1 * a0.
Proof.
move=> h2 /=; rewrite -fp2_sqr_alg // /fp2_sqr_constraints !holds_cons holds_nil /constraint_holds /= !fsE /=.
by rewrite /lval; tauto.
Qed.

Lemma fp3_mul_coef (g : fp3_mul F) x : 2%:R != 0 :> F -> 3%:R != 0 :> F -> nr != 0 ->
  holds (fp3_mul_constraints nr g) x <->
  let a0 := lval x (f3_c0 (f3m_A g)) in let a1 := lval x (f3_c1 (f3m_A g)) in let a2 := lval x (f3_c2 (f3m_A g)) in
  let b0 := lval x (f3_c0 (f3m_B g)) in let b1 := lval x (f3_c1 (f3m_B g)) in let b2 := lval x (f3_c2 (f3m_B g)) in
  [/\ xval x (f3m_v0 g) = a0 * b0, xval x (f3m_v4 g) = a2 * b2,
      lval x (f3_c0 (f3m_result g)) = a0 * b0 + nr * (a1 * b2 + a2 * b1),
      lval x (f3_c1 (f3m_result g)) = a0 * b1 + a1 * b0 + nr * (a2 * b2) &
      lval x (f3_c2 (f3m_result g)) = a0 * b2 + a1 * b1 + a2 * b0].
Proof.
move=> h2 h3 hn /=; rewrite -fp3_alg // /fp3_mul_constraints !holds_cons holds_nil /constraint_holds /= !fsE /=.
rewrite /lval; split=> [[e1 [e2 [e3 [e4 [e5 _]]]]]|[e1 e2 e3 e4 e5]]; by [split|do !split].
Qed.

(** The towers. *)
Lemma tower4 a00 a01 a10 a11 b00 b01 b10 b11 r00 r01 r10 r11 v10 v11 : 
  v10 = a10 * b10 + nr * (a11 * b11) :> F -> v11 = a10 * b11 + a11 * b10 ->
  r00 - nr * v11 = a00 * b00 + nr * (a01 * b01) -> r01 - v10 = a00 * b01 + a01 * b00 ->
  r10 + (r00 - nr * v11) + v10 = (a00 + a10) * (b00 + b10) + nr * ((a01 + a11) * (b01 + b11)) ->
  r11 + (r01 - v10) + v11 = (a00 + a10) * (b01 + b11) + (a01 + a11) * (b00 + b10) ->
  [/\ r00 = a00 * b00 + nr * (a10 * b11 + a01 * b01 + a11 * b10),
      r10 = a00 * b10 + a10 * b00 + nr * (a01 * b11 + a11 * b01),
      r01 = a00 * b01 + a10 * b10 + a01 * b00 + nr * (a11 * b11) &
      r11 = a00 * b11 + a10 * b01 + a01 * b10 + a11 * b00].
Proof.
move=> -> -> e0 e1 e2 e3; rewrite e0 in e2; rewrite e1 in e3; split.
- by apply: (addIr (- (nr * (a10 * b11 + a11 * b10)))); rewrite e0; fring F.
- have -> : r10 = r10 + (a00 * b00 + nr * (a01 * b01)) + (a10 * b10 + nr * (a11 * b11)) -
                  (a00 * b00 + nr * (a01 * b01)) - (a10 * b10 + nr * (a11 * b11)) by fring F.
  by rewrite e2; fring F.
- by apply: (addIr (- (a10 * b10 + nr * (a11 * b11)))); rewrite e1; fring F.
- have -> : r11 = r11 + (a00 * b01 + a01 * b00) + (a10 * b11 + a11 * b10) -
                  (a00 * b01 + a01 * b00) - (a10 * b11 + a11 * b10) by fring F.
  by rewrite e3; fring F.
Qed.


Lemma assign_lval x pb l o pb' : lc_assign pb l = (o, pb') -> lval x o = formal_sum l x.
Proof. by case=> <-. Qed.
Lemma sum_lval x (o : pb_linear_combination F) : formal_sum (lc_terms o) x = lval x o. Proof. by []. Qed.

Ltac unroll x := repeat match goal with
  | |- context [allocate_var ?q] => let v := fresh "v" in let q' := fresh "pb" in case: (allocate_var q) => v q'
  | |- context [lc_assign ?q ?l] => let o := fresh "o" in let q' := fresh "pb" in let e := fresh "E" in
      case e: (lc_assign q l) => [o q']; move/(assign_lval x): e => e;
      rewrite ?fsE in e; cbn [f2_c0 f2_c1 f3_c0 f3_c1 f3_c2 f4_c0 f4_c1 f6_c0 f6_c1] in e; rewrite ?sum_lval in e;
      repeat match goal with h : lval x ?v = _ |- _ => match type of e with context [lval x v] => rewrite h in e end end
  end.

Lemma fp4_tower_mul_sound pb A B R g pb' x : fp4_tower_mul_new nr pb A B R = (g, pb') ->
  holds (fp4_tower_mul_constraints nr g) x ->
  fp4_val x R = (fp4_val x A * fp4_val x B) %% ext_modulus 4 nr.
Proof.
rewrite /fp4_tower_mul_new /fp2_new /fp2_mul_new /fp2_add.
unroll x.
case=> <- _; rewrite /fp4_tower_mul_constraints [f4t_compute_v0 _]/= [f4t_compute_v1 _]/= [f4t_compute_result_c1 _]/=.
rewrite !holds_cat !fp2_mul_coef.
cbn [f2m_A f2m_B f2m_result f2m_v1 f2_c0 f2_c1 f4_c0 f4_c1].
rewrite [fp4_val x A]/fp4_val [fp4_val x B]/fp4_val ext4_mul fp4_val_eq ?lval_var E E0 E1 E2 E3 E4 E5 E6.
case=> [[_ [e1 e2]] [[_ [e3 e4]] [_ [e5 e6]]]].
exact: tower4 e3 e4 e1 e2 e5 e6.
Qed.

Lemma tower4_sqr a00 a01 a10 a11 r00 r01 r10 r11 v10 v11 : 
  v10 = a10 * a10 + nr * (a11 * a11) :> F -> v11 = a10 * a11 + a11 * a10 ->
  r00 - nr * v11 = a00 * a00 + nr * (a01 * a01) -> r01 - v10 = a00 * a01 + a01 * a00 ->
  r10 + (r00 - nr * v11) + v10 = (a00 + a10) * (a00 + a10) + nr * ((a01 + a11) * (a01 + a11)) ->
  r11 + (r01 - v10) + v11 = (a00 + a10) * (a01 + a11) + (a01 + a11) * (a00 + a10) ->
  [/\ r00 = a00 * a00 + nr * (a10 * a11 + a01 * a01 + a11 * a10),
      r10 = a00 * a10 + a10 * a00 + nr * (a01 * a11 + a11 * a01),
      r01 = a00 * a01 + a10 * a10 + a01 * a00 + nr * (a11 * a11) &
      r11 = a00 * a11 + a10 * a01 + a01 * a10 + a11 * a00].
Proof. exact: tower4. Qed.

Lemma fp4_sqr_sound pb A R g pb' x : 2%:R != 0 :> F -> fp4_sqr_new nr pb A R = (g, pb') ->
  holds (fp4_sqr_constraints nr g) x ->
  fp4_val x R = (fp4_val x A * fp4_val x A) %% ext_modulus 4 nr.
Proof.
move=> h2; rewrite /fp4_sqr_new /fp2_new /fp2_add.
unroll x.
case=> <- _; rewrite /fp4_sqr_constraints [f4s_compute_v0 _]/= [f4s_compute_v1 _]/= [f4s_compute_result_c1 _]/=.
rewrite !holds_cat !(fp2_sqr_coef _ _ h2).
cbn [f2s_A f2s_result f2_c0 f2_c1 f4_c0 f4_c1].
rewrite [fp4_val x A]/fp4_val ext4_mul fp4_val_eq ?lval_var E E0 E1 E2 E3 E4.
case=> [[e3 e4] [[e1 e2] [e5 e6]]].
exact: tower4_sqr e3 e4 e1 e2 e5 e6.
Qed.

Lemma fp4_direct_mul_holds (g : fp4_direct_mul F) x : 2%:R != 0 :> F -> 3%:R != 0 :> F -> 5%:R != 0 :> F -> 1 - nr != 0 ->
  holds (fp4_direct_mul_constraints nr g) x ->
  fp4_val x (f4d_result g) = (fp4_val x (f4d_A g) * fp4_val x (f4d_B g)) %% ext_modulus 4 nr.
Proof.
move=> h2 h3 h5 hn; rewrite /fp4_direct_mul_constraints !holds_cons /constraint_holds.
cbn [c_a c_b c_c]; rewrite !fsE !sum_lval.
rewrite [fp4_val x (f4d_A g)]/fp4_val [fp4_val x (f4d_B g)]/fp4_val ext4_mul fp4_val_eq.
cbn [var_scale fst snd].
move: (xval x (f4d_v1 g)) (xval x (f4d_v2 g)) (xval x (f4d_v6 g)) => v1 v2 v6.
move: (lval x (f2_c0 (f4_c0 (f4d_result g)))) (lval x (f2_c0 (f4_c1 (f4d_result g))))
  (lval x (f2_c1 (f4_c0 (f4d_result g)))) (lval x (f2_c1 (f4_c1 (f4d_result g)))) => r0 r1 r2 r3.
move: (lval x (f2_c0 (f4_c0 (f4d_A g)))) (lval x (f2_c0 (f4_c1 (f4d_A g))))
  (lval x (f2_c1 (f4_c0 (f4d_A g)))) (lval x (f2_c1 (f4_c1 (f4d_A g)))) => a0 a1 a2 a3.
move: (lval x (f2_c0 (f4_c0 (f4d_B g)))) (lval x (f2_c0 (f4_c1 (f4d_B g))))
  (lval x (f2_c1 (f4_c0 (f4d_B g)))) (lval x (f2_c1 (f4_c1 (f4d_B g)))) => b0 b1 b2 b3.
case=> e1 [e2 [e3 [e4 [e5 [e6 [e7 _]]]]]].
have [] // := iffLR (direct_alg a0 a1 a2 a3 b0 b1 b2 b3 h2 hn h3 h5 r0 r1 r2 r3 v1 v2 v6).
Qed.

(** Fp6. *)
Lemma tower6 a00 a01 a02 a10 a11 a12 b00 b01 b02 b10 b11 b12 r00 r01 r02 r10 r11 r12 v10 v11 v12 :
  v10 = a10 * b10 + nr * (a11 * b12 + a12 * b11) :> F -> v11 = a10 * b11 + a11 * b10 + nr * (a12 * b12) ->
  v12 = a10 * b12 + a11 * b11 + a12 * b10 ->
  r00 - nr * v12 = a00 * b00 + nr * (a01 * b02 + a02 * b01) -> r01 - v10 = a00 * b01 + a01 * b00 + nr * (a02 * b02) ->
  r02 - v11 = a00 * b02 + a01 * b01 + a02 * b00 ->
  r10 + (r00 - nr * v12) + v10 = (a00 + a10) * (b00 + b10) + nr * ((a01 + a11) * (b02 + b12) + (a02 + a12) * (b01 + b11)) ->
  r11 + (r01 - v10) + v11 = (a00 + a10) * (b01 + b11) + (a01 + a11) * (b00 + b10) + nr * ((a02 + a12) * (b02 + b12)) ->
  r12 + (r02 - v11) + v12 = (a00 + a10) * (b02 + b12) + (a01 + a11) * (b01 + b11) + (a02 + a12) * (b00 + b10) ->
  [/\ r00 = a00 * b00 + nr * (a10 * b12 + a01 * b02 + a11 * b11 + a02 * b01 + a12 * b10),
      r10 = a00 * b10 + a10 * b00 + nr * (a01 * b12 + a11 * b02 + a02 * b11 + a12 * b01),
      r01 = a00 * b01 + a10 * b10 + a01 * b00 + nr * (a11 * b12 + a02 * b02 + a12 * b11) &
  [/\ r11 = a00 * b11 + a10 * b01 + a01 * b10 + a11 * b00 + nr * (a02 * b12 + a12 * b02),
      r02 = a00 * b02 + a10 * b11 + a01 * b01 + a11 * b10 + a02 * b00 + nr * (a12 * b12) &
      r12 = a00 * b12 + a10 * b02 + a01 * b11 + a11 * b01 + a02 * b10 + a12 * b00]].
Proof.
move=> -> -> -> e0 e1 e2 e3 e4 e5; rewrite e0 in e3; rewrite e1 in e4; rewrite e2 in e5.
split; last split.
- by apply: (addIr (- (nr * (a10 * b12 + a11 * b11 + a12 * b10)))); rewrite e0; fring F.
- apply: (addIr (a00 * b00 + nr * (a01 * b02 + a02 * b01))); apply: (addIr (a10 * b10 + nr * (a11 * b12 + a12 * b11))).
  by rewrite e3; fring F.
- by apply: (addIr (- (a10 * b10 + nr * (a11 * b12 + a12 * b11)))); rewrite e1; fring F.
- apply: (addIr (a00 * b01 + a01 * b00 + nr * (a02 * b02))); apply: (addIr (a10 * b11 + a11 * b10 + nr * (a12 * b12))).
  by rewrite e4; fring F.
- by apply: (addIr (- (a10 * b11 + a11 * b10 + nr * (a12 * b12)))); rewrite e2; fring F.
- apply: (addIr (a00 * b02 + a01 * b01 + a02 * b00)); apply: (addIr (a10 * b12 + a11 * b11 + a12 * b10)).
  by rewrite e5; fring F.
Qed.

Lemma fp6_mul_sound pb A B R g pb' x : 2%:R != 0 :> F -> 3%:R != 0 :> F -> nr != 0 ->
  fp6_mul_new nr pb A B R = (g, pb') -> holds (fp6_mul_constraints nr g) x ->
  fp6_val x R = (fp6_val x A * fp6_val x B) %% ext_modulus 6 nr.
Proof.
move=> h2 h3 hn; rewrite /fp6_mul_new /fp3_new /fp3_mul_new /fp3_add.
unroll x.
case=> <- _; rewrite /fp6_mul_constraints [f6m_compute_v0 _]/= [f6m_compute_v1 _]/= [f6m_compute_result_c1 _]/=.
rewrite !holds_cat !(fp3_mul_coef _ _ h2 h3 hn).
cbn [f3m_A f3m_B f3m_result f3m_v0 f3m_v4 f3_c0 f3_c1 f3_c2 f6_c0 f6_c1].
rewrite [fp6_val x A]/fp6_val [fp6_val x B]/fp6_val ext6_mul fp6_val_eq ?lval_var.
rewrite E E0 E1 E2 E3 E4 E5 E6 E7 E8 E9 E10.
case=> [[_ _ e1 e2 e3] [[_ _ e4 e5 e6] [_ _ e7 e8 e9]]].
exact: tower6 e4 e5 e6 e1 e2 e3 e7 e8 e9.
Qed.
End Gadgets.
