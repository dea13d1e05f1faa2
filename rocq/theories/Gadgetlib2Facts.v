(** Proofs about the model of gadgetlib2. *)
From Coq Require Import ZArith NArith.
From mathcomp Require Import all_ssreflect all_algebra zify ssrZ.
From Verif Require Import Outcome Fieldtac Lincomb LincombSpec LincombFacts R1CS R1CSSpec R1CSFacts
  Protoboard GadgetLogic Gadgetlib2 Gadgetlib2Spec.
Import GRing.Theory.
Set Implicit Arguments.
Unset Strict Implicit.
Unset Printing Implicit Defensive.
Local Open Scope ring_scope.
Delimit Scope Z_scope with ZZ.
Delimit Scope N_scope with num.

Ltac ob_view :=
  let h := fresh "h" in move=> h;
  let x := fresh "x" in let h1 := fresh "h1" in let h2 := fresh "h2" in
  have [x h1 h2] := obind_Ok h; clear h; move: x h1 h2.
Notation "'[' 'ob' ']'" := (ltac:(ob_view)) (at level 0, only parsing) : ssripat_scope.

Section Facts.
Variable F : fieldType.
Add Field Ff : (Fth F).
Implicit Types (s : valuation F) (a : assignment F).

Lemma zvalE z : zval F z = Fp F z.
Proof.
rewrite /Fp; case: z => [|p|p] //=.
by rewrite NegzE mulrNz -pmulrn; congr (- _); congr (_%:R); lia.
Qed.
Lemma zvalD x y : zval F (x + y) = zval F x + zval F y.
Proof. by rewrite !zvalE /Fp -intrD; congr (_%:~R); lia. Qed.
Lemma zvalB x y : zval F (x - y) = zval F x - zval F y.
Proof. by rewrite !zvalE /Fp -mulrzBr; congr (_%:~R); lia. Qed.
Lemma zvalM x y : zval F (x * y) = zval F x * zval F y.
Proof. by rewrite !zvalE /Fp -intrM; congr (_%:~R); lia. Qed.
Lemma zvalN x : zval F (- x) = - zval F x.
Proof. by rewrite !zvalE /Fp -mulrNz; congr (_%:~R); lia. Qed.
Lemma zval1 : zval F 1 = 1. Proof. by []. Qed.
Lemma zval0 : zval F 0 = 0. Proof. by []. Qed.
Lemma zvaln n : zval F (Z.of_nat n) = n%:R.
Proof. by rewrite zvalE /Fp pmulrn; congr (_ *~ _); lia. Qed.

(** ** Field elements *)

Lemma long_Ok z w : long z = Ok w -> w = z /\ in_long z.
Proof. by rewrite /long; case: in_long => // -[<-]. Qed.

Lemma omap_Ok (A B : Type) (f : A -> B) (m : outcome A) (b : B) :
  omap f m = Ok b -> exists2 x, m = Ok x & b = f x.
Proof. by case: m => //= x [<-]; exists x. Qed.

Lemma fe_addV (x y z : felem F) : fe_add x y = Ok z -> fe_value z = fe_value x + fe_value y.
Proof.
case: x => [u|u]; case: y => [v|v] /=; rewrite -?zvalE; try by case=> <-.
by move=> h0; case: (omap_Ok h0) => w h ->; case: (long_Ok h) => -> _; exact: zvalD.
Qed.
Lemma fe_subV (x y z : felem F) : fe_sub x y = Ok z -> fe_value z = fe_value x - fe_value y.
Proof.
case: x => [u|u]; case: y => [v|v] /=; rewrite -?zvalE; try by case=> <-.
by move=> h0; case: (omap_Ok h0) => w h ->; case: (long_Ok h) => -> _; exact: zvalB.
Qed.
Lemma fe_mulV (x y z : felem F) : fe_mul x y = Ok z -> fe_value z = fe_value x * fe_value y.
Proof.
case: x => [u|u]; case: y => [v|v] /=; rewrite -?zvalE; try by case=> <-.
by move=> h0; case: (omap_Ok h0) => w h ->; case: (long_Ok h) => -> _; exact: zvalM.
Qed.
Lemma fe_negV (x z : felem F) : fe_neg x = Ok z -> fe_value z = - fe_value x.
Proof. by move/fe_subV=> ->; rewrite sub0r. Qed.
Lemma fe_minusV (x y z : felem F) : fe_minus x y = Ok z -> fe_value z = fe_value x - fe_value y.
Proof. by move=> /[ob] w /fe_negV <- /fe_addV ->. Qed.
Lemma fe_inverseV (x : felem F) : fe_value (fe_inverse x) = (fe_value x)^-1.
Proof. by case: x => //= z; rewrite zvalE. Qed.
Lemma promoteV (x : felem F) : fe_value (promote x) = fe_value x.
Proof. by case: x => //= z; rewrite zvalE. Qed.
Lemma fe_assignV (x y : felem F) : fe_value (fe_assign x y) = fe_value y.
Proof. by case: x => //= z; case: y => //= w; rewrite zvalE. Qed.
Lemma convert_feE (x : felem F) : convert_fe x = fe_value x.
Proof. by case: x => //= z; rewrite zvalE. Qed.

Lemma fe_addT (x y z : felem F) : fe_add x y = Ok z -> fe_typed z.
Proof. by case: x => [u|u]; case: y => [v|v] /=; try (by case=> <-); move=> h0; case: (omap_Ok h0) => w h ->; case: (long_Ok h) => ->. Qed.
Lemma fe_mulT (x y z : felem F) : fe_mul x y = Ok z -> fe_typed z.
Proof. by case: x => [u|u]; case: y => [v|v] /=; try (by case=> <-); move=> h0; case: (omap_Ok h0) => w h ->; case: (long_Ok h) => ->. Qed.

(** Comparison: as integers for constants, so equal constants are equal elements, and
    the converse when the characteristic exceeds the range of differences. *)
Lemma fe_eqb_sound (x y : felem F) : fe_eqb x y -> fe_value x = fe_value y.
Proof.
case: x => [u|u]; case: y => [v|v] /=; rewrite -?zvalE; try by move/eqP.
by move/Z.eqb_eq => ->.
Qed.

Lemma Zval_inj (p : nat) u v : p \in [char F] -> (2 ^ 64 <= N.of_nat p)%num ->
  in_long u -> in_long v -> zval F u = zval F v -> u = v.
Proof.
move=> hp hb /andP [/Z.leb_le u1 /Z.ltb_lt u2] /andP [/Z.leb_le v1 /Z.ltb_lt v2] h.
have {h} h : zval F (u - v) = 0 by rewrite zvalB h subrr.
have h2 : (Z.abs_nat (u - v))%:R = 0 :> F.
  case: (Z.leb_spec 0 (u - v)) => hs.
    by rewrite -zvaln -[RHS]h; congr zval; lia.
  by apply/eqP; rewrite -oppr_eq0 -zvaln -zvalN; apply/eqP; rewrite -[RHS]h; congr zval; lia.
move/eqP: h2; rewrite -(dvdn_charf hp) => /dvdnP [k hk].
case: k hk => [|k] hk; first by lia.
have : (p <= Z.abs_nat (u - v))%N by rewrite hk leq_pmull.
by move: hb u1 u2 v1 v2; clear; lia.
Qed.

Lemma fe_eqbE (p : nat) (x y : felem F) : p \in [char F] -> (2 ^ 64 <= N.of_nat p)%num ->
  fe_typed x -> fe_typed y -> fe_eqb x y = (fe_value x == fe_value y).
Proof.
move=> hp hb tx ty; apply/idP/eqP; first exact: fe_eqb_sound.
case: x tx => [u|u] tx; case: y ty => [v|v] ty /=; rewrite -?zvalE.
- by move/(Zval_inj hp hb tx ty) => ->; exact: Z.eqb_refl.
- by move=> ->.
- by move=> ->.
- by move=> ->.
Qed.

(** ** Linear combinations *)

Lemma lc_valueE s l : lc_value s l = fe_value (l_const l) + \sum_(t <- l_terms l) fe_value t.2 * s t.1.
Proof. by []. Qed.
Lemma lcvV s v : lc_value s (lcv F v) = s v.
Proof. by rewrite /lc_value /= big_seq1 /= add0r mul1r. Qed.
Lemma lctV s t : lc_value s (lct t) = fe_value t.2 * s t.1.
Proof. by rewrite /lc_value /= big_seq1 add0r. Qed.
Lemma lccV s x : lc_value s (lcc x) = fe_value x.
Proof. by rewrite /lc_value /= big_nil addr0. Qed.
Lemma lciV s z : lc_value s (lci F z) = zval F z.
Proof. by rewrite lccV. Qed.
Lemma negvarV s v : lc_value s (lct (lt_negvar F v)) = - s v.
Proof. by rewrite lctV /= mulN1r. Qed.

Lemma lc_plusV s l m n : lc_plus l m = Ok n -> lc_value s n = lc_value s l + lc_value s m.
Proof.
move=> /[ob] k /fe_addV hk [<-]; rewrite /lc_value /= hk big_cat /=.
exact: addrACA.
Qed.

Lemma omapm_sum (A B : Type) (f : A -> outcome B) (g : A -> F) (h : B -> F) l l' :
  (forall x y, f x = Ok y -> h y = g x) -> omapm f l = Ok l' ->
  \sum_(y <- l') h y = \sum_(x <- l) g x.
Proof.
move=> hf; elim: l l' => [|x l IH] l' /=; first by case=> <-; rewrite !big_nil.
move=> /[ob] y hy; move=> h0; case: (omap_Ok h0) => l1 /IH h1 ->.
by rewrite !big_cons h1 (hf _ _ hy).
Qed.

Lemma lc_subtoV s l m n : lc_subto l m = Ok n -> lc_value s n = lc_value s l - lc_value s m.
Proof.
move=> /[ob] ts hts /[ob] k /fe_subV hk [<-]; rewrite /lc_value /= hk big_cat /=.
have -> : \sum_(t <- ts) fe_value t.2 * s t.1 = - \sum_(t <- l_terms m) fe_value t.2 * s t.1.
  rewrite (big_morph _ (@opprD F) (@oppr0 F)).
  by apply: (omapm_sum _ hts) => x y /[ob] c /fe_negV hc [<-] /=; rewrite hc mulNr.
by rewrite opprD addrACA.
Qed.
Lemma lc_oppV s l n : lc_opp l = Ok n -> lc_value s n = - lc_value s l.
Proof. by move/(lc_subtoV s) ->; rewrite /lc_value /= big_nil !add0r. Qed.
Lemma lc_minusV s l m n : lc_minus l m = Ok n -> lc_value s n = lc_value s l - lc_value s m.
Proof. by move=> /[ob] k /(lc_oppV s) <- /(lc_plusV s). Qed.
Lemma lc_timesV s l x n : lc_times l x = Ok n -> lc_value s n = fe_value x * lc_value s l.
Proof.
move=> /[ob] k /fe_mulV hk /[ob] ts hts [<-]; rewrite /lc_value /= hk mulrDr mulrC.
congr (_ + _); rewrite mulr_sumr.
by apply: (omapm_sum _ hts) => u y /[ob] c /fe_mulV hc [<-] /=; rewrite hc -mulrA mulrCA mulrA.
Qed.
Lemma lc_minus_varV s l v n : lc_minus_var l v = Ok n -> lc_value s n = lc_value s l - s v.
Proof. by move/(lc_plusV s) ->; rewrite negvarV addrC. Qed.
Lemma lc_minus_feV s l x n : lc_minus_fe l x = Ok n -> lc_value s n = lc_value s l - fe_value x.
Proof. by move=> /[ob] k /fe_negV hk /(lc_plusV s) ->; rewrite lccV hk addrC. Qed.
Lemma int_negV z w : int_neg z = Ok w -> w = (- z)%ZZ.
Proof. by rewrite /int_neg; case: Z.eqb => // -[<-]. Qed.
Lemma lc_minus_intV s l z n : lc_minus_int l z = Ok n -> lc_value s n = lc_value s l - zval F z.
Proof. by move=> /[ob] k /int_negV -> /(lc_plusV s) ->; rewrite lciV zvalN addrC. Qed.
Lemma int_minus_varV s z v n : int_minus_var F z v = Ok n -> lc_value s n = zval F z - s v.
Proof. by move/(lc_plusV s) ->; rewrite negvarV lciV. Qed.
Lemma var_minus_intV s v z n : var_minus_int F v z = Ok n -> lc_value s n = s v - zval F z.
Proof. by move=> /[ob] k /int_negV -> /(lc_plusV s) ->; rewrite lciV zvalN lcvV addrC. Qed.
Lemma var_minus_varV s v w n : var_minus_var F v w = Ok n -> lc_value s n = s v - s w.
Proof. by move/(lc_plusV s) ->; rewrite negvarV lcvV. Qed.
Lemma var_minus_lcV s v l n : var_minus_lc v l = Ok n -> lc_value s n = s v - lc_value s l.
Proof. by move=> /[ob] k /(lc_oppV s) <- /(lc_plusV s) ->; rewrite lcvV. Qed.
Lemma lc_negateV s l n : lc_negate l = Ok n -> lc_value s n = 1 - lc_value s l.
Proof. by move=> /[ob] k /(lc_oppV s) <- /(lc_plusV s) ->; rewrite lciV. Qed.
Lemma lc_sumV s vs n : lc_sum F vs = Ok n -> lc_value s n = \sum_(v <- vs) s v.
Proof.
have gen l : ofold (fun l v => lc_plus l (lcv F v)) l vs = Ok n ->
    lc_value s n = lc_value s l + \sum_(v <- vs) s v.
  elim: vs l => [|v vs IH] l; first by case=> <-; rewrite big_nil addr0.
  by rewrite ofold_cons => /[ob] m /(lc_plusV s) hm /IH ->; rewrite hm lcvV big_cons addrA.
by move/gen => ->; rewrite lciV add0r.
Qed.

(** ** Polynomials *)

Lemma mono_oppV s m n : mono_opp m = Ok n -> mono_value s n = - mono_value s m.
Proof. by move=> /[ob] c /fe_negV hc [<-]; rewrite /mono_value /= hc mulNr. Qed.
Lemma mono_mulV s m n k : mono_mul m n = Ok k -> mono_value s k = mono_value s m * mono_value s n.
Proof.
move=> /[ob] c /fe_mulV hc [<-]; rewrite /mono_value /= hc.
rewrite (perm_big (m_vars m ++ m_vars n)) /=; last by rewrite perm_sort.
by rewrite big_cat /= mulrACA.
Qed.
Lemma mono_ltV s (t : lterm F) : mono_value s (mono_lt t) = fe_value t.2 * s t.1.
Proof. by rewrite /mono_value /= big_seq1. Qed.
Lemma mono_feV s x : mono_value s (mono_fe x) = fe_value x.
Proof. by rewrite /mono_value /= big_nil mulr1. Qed.

Lemma poly_lcV s l : poly_value s (poly_lc l) = lc_value s l.
Proof.
rewrite /poly_value /lc_value /= big_map; congr (_ + _); apply: eq_bigr => t _.
exact: mono_ltV.
Qed.
Lemma poly_plusV s p q r : poly_plus p q = Ok r -> poly_value s r = poly_value s p + poly_value s q.
Proof.
move=> /[ob] k /fe_addV hk [<-]; rewrite /poly_value /= hk big_cat /=; exact: addrACA.
Qed.
Lemma poly_subtoV s p q r : poly_subto p q = Ok r -> poly_value s r = poly_value s p - poly_value s q.
Proof.
move=> /[ob] k /fe_subV hk /[ob] ms hms [<-]; rewrite /poly_value /= hk big_cat /=.
have -> : \sum_(m <- ms) mono_value s m = - \sum_(m <- p_monos q) mono_value s m.
  rewrite (big_morph _ (@opprD F) (@oppr0 F)).
  by apply: (omapm_sum _ hms) => x y /(mono_oppV s).
by rewrite opprD addrACA.
Qed.
Lemma poly_minusV s p q r : poly_minus p q = Ok r -> poly_value s r = poly_value s p - poly_value s q.
Proof.
move=> /[ob] k /(poly_subtoV s) hk /(poly_plusV s) ->; rewrite hk.
by rewrite {2}/poly_value /= big_nil !add0r.
Qed.
Lemma sum_flatten_ (A : Type) (g : A -> F) (l : seq (seq A)) :
  \sum_(x <- flatten l) g x = \sum_(r <- l) \sum_(x <- r) g x.
Proof. by elim: l => [|r l IH]; rewrite ?big_nil //= big_cat big_cons IH. Qed.
Lemma poly_mulV s p q r : poly_mul p q = Ok r -> poly_value s r = poly_value s p * poly_value s q.
Proof.
move=> /[ob] new hnew /[ob] tl htl /[ob] k /fe_mulV hk [<-].
rewrite /poly_value /= hk big_cat /= sum_flatten_.
have -> : \sum_(r <- new) \sum_(x <- r) mono_value s x =
          \sum_(m <- p_monos p) (mono_value s m * (\sum_(n <- p_monos q) mono_value s n + fe_value (p_const q))).
  apply: (omapm_sum _ hnew) => m row' /[ob] row hrow /[ob] mc /(mono_mulV s) hmc [<-].
  rewrite -cats1 big_cat big_seq1 /= hmc mono_feV mulrDr mulr_sumr; congr (_ + _); last exact: mulrC.
  by apply: (omapm_sum _ hrow) => x y /(mono_mulV s).
have -> : \sum_(x <- tl) mono_value s x = fe_value (p_const p) * \sum_(n <- p_monos q) mono_value s n.
  by rewrite mulr_sumr; apply: (omapm_sum _ htl) => x y /(mono_mulV s); rewrite mono_feV.
rewrite -mulr_suml; set A := \sum_(_ <- p_monos p) _; set B := \sum_(_ <- p_monos q) _.
have gen (x y u v : F) : x * y + (u * (v + y) + x * v) = (x + u) * (y + v) by fring F.
exact: gen.
Qed.

(** ** Evaluation *)

Lemma valuation_ofP a v x : nth None a v = Some x -> valuation_of a v = fe_value x.
Proof. by rewrite /valuation_of => ->. Qed.
Lemma var_evalV a v x : var_eval a v = Ok x -> assigned a v /\ fe_value x = valuation_of a v.
Proof. by rewrite /var_eval /assigned /valuation_of; case: nth => // y [<-]. Qed.
Lemma asg_typedP a v x : asg_typed a -> nth None a v = Some x -> fe_typed x.
Proof.
move=> /(all_nthP None) h hx; have := h v; rewrite hx; apply.
by case: ltnP => // hle; move: hx; rewrite nth_default.
Qed.

Lemma lc_evalV a l x : lc_eval a l = Ok x ->
  all (assigned a) (lc_vars l) /\ fe_value x = lc_value (valuation_of a) l.
Proof.
rewrite /lc_eval /lc_vars /lc_value; move: (l_terms l) (l_const l); clear l.
elim=> [|t ts IH] k; first by case=> <-; rewrite big_nil addr0.
rewrite ofold_cons => /[ob] y /[ob] z /[ob] w /var_evalV [h1 h2] /fe_mulV h3 /fe_addV h4.
by move=> /IH [h5 h6] /=; rewrite h1 h5 h6 h4 h3 h2 big_cons addrA.
Qed.
Lemma lc_evalT a l x : lc_typed l -> lc_eval a l = Ok x -> fe_typed x.
Proof.
case/andP => h _; rewrite /lc_eval; move: (l_terms l) (l_const l) h; clear l.
elim=> [|t ts IH] k h; first by case=> <-.
by rewrite ofold_cons => /[ob] y /[ob] z _ /fe_addT ty; exact: IH.
Qed.
Lemma lc_eval_unassigned a l : ~~ all (assigned a) (lc_vars l) -> forall x, lc_eval a l <> Ok x.
Proof. by move=> h x /lc_evalV [h2]; rewrite h2 in h. Qed.
Lemma fe_add_R1P (k : felem F) b : exists c, fe_add k (R1P b) = Ok (R1P c).
Proof. by case: k => u; eexists. Qed.
Lemma fe_mul_R1P (k : felem F) b : exists c, fe_mul k (R1P b) = Ok (R1P c).
Proof. by case: k => u; eexists. Qed.
Lemma lc_eval_total a l : all (field_assigned a) (lc_vars l) -> exists x, lc_eval a l = Ok x.
Proof.
rewrite /lc_eval /lc_vars; move: (l_terms l) (l_const l); clear l.
elim=> [|t ts IH] k /=; first by exists k.
case/andP => h1 h2; move: h1; rewrite /lt_eval /var_eval /field_assigned.
case: nth => // -[//|b] _; rewrite obindE.
have [c ->] := fe_mul_R1P t.2 b; rewrite obindE.
have [d ->] := fe_add_R1P k c; rewrite obindE; exact: IH.
Qed.

Lemma mono_evalV a m x : mono_eval a m = Ok x ->
  all (assigned a) (m_vars m) /\ fe_value x = mono_value (valuation_of a) m.
Proof.
rewrite /mono_eval /mono_value; move: (m_vars m) (m_coeff m); clear m.
elim=> [|v vs IH] k; first by case=> <-; rewrite big_nil mulr1.
rewrite ofold_cons => /[ob] y /[ob] w /var_evalV [h1 h2] /fe_mulV h3.
by move=> /IH [h5 h6] /=; rewrite h1 h5 h6 h3 h2 big_cons mulrA.
Qed.
Lemma poly_evalV a p x : poly_eval a p = Ok x ->
  all (assigned a) (poly_vars p) /\ fe_value x = poly_value (valuation_of a) p.
Proof.
rewrite /poly_eval /poly_vars /poly_value; move: (p_monos p) (p_const p); clear p.
elim=> [|t ts IH] k; first by case=> <-; rewrite big_nil addr0.
rewrite ofold_cons => /[ob] y /[ob] z /mono_evalV [h1 h3] /fe_addV h4.
by move=> /IH [h5 h6] /=; rewrite all_cat h1 h5 h6 h4 h3 big_cons addrA.
Qed.
Lemma poly_evalT a p x : poly_typed p -> poly_eval a p = Ok x -> fe_typed x.
Proof.
case/andP => h _; rewrite /poly_eval; move: (p_monos p) (p_const p) h; clear p.
elim=> [|t ts IH] k h; first by case=> <-.
by rewrite ofold_cons => /[ob] y /[ob] z _ /fe_addT ty; exact: IH.
Qed.

(** ** Satisfaction *)

Lemma c_is_satisfiedV (p : nat) a c b : p \in [char F] -> (2 ^ 64 <= N.of_nat p)%num -> c_typed c ->
  c_is_satisfied a c = Ok b -> all (assigned a) (c_vars c) /\ (b <-> c_holds (valuation_of a) c).
Proof.
move=> hp hb; case: c => [x y z|q r] /=.
- case/and3P => tx ty tz /[ob] vx hx /[ob] vy hy /[ob] vz hz /[ob] m hm [<-].
  have [hx1 hx2] := lc_evalV hx; have [hy1 hy2] := lc_evalV hy; have [hz1 hz2] := lc_evalV hz.
  rewrite !all_cat hx1 hy1 hz1; split=> //.
  rewrite (fe_eqbE hp hb (fe_mulT hm) (lc_evalT tz hz)) (fe_mulV hm) hx2 hy2 hz2.
  by split=> [/eqP|->].
- case/andP => tq tr /[ob] vx hx /[ob] vy hy [<-].
  have [hx1 hx2] := poly_evalV hx; have [hy1 hy2] := poly_evalV hy.
  rewrite !all_cat hx1 hy1; split=> //.
  rewrite (fe_eqbE hp hb (poly_evalT tq hx) (poly_evalT tr hy)) hx2 hy2.
  by split=> [/eqP|->].
Qed.

Lemma c_is_satisfied_sound a c : c_is_satisfied a c = Ok true -> c_holds (valuation_of a) c.
Proof.
case: c => [x y z|q r] /=.
- move=> /[ob] vx hx /[ob] vy hy /[ob] vz hz /[ob] m hm [] /fe_eqb_sound.
  by rewrite (fe_mulV hm) (proj2 (lc_evalV hx)) (proj2 (lc_evalV hy)) (proj2 (lc_evalV hz)).
- move=> /[ob] vx hx /[ob] vy hy [] /fe_eqb_sound.
  by rewrite (proj2 (poly_evalV hx)) (proj2 (poly_evalV hy)).
Qed.

Lemma cs_is_satisfiedV (p : nat) a cs b : p \in [char F] -> (2 ^ 64 <= N.of_nat p)%num -> all (@c_typed F) cs ->
  cs_is_satisfied a cs = Ok b -> (b <-> cs_hold (valuation_of a) cs).
Proof.
move=> hp hb; elim: cs => [|c cs IH] /=; first by move=> _ [<-]; split=> // _ c [].
case/andP => tc /IH {}IH /[ob] b1 /(c_is_satisfiedV hp hb tc) [_ h1].
case: b1 h1 => [[h1 _] /IH h2|[_ h1] [<-]]; last by split=> // /(_ c (or_introl erefl)) /h1.
split=> [/(proj1 h2) h c' [<-|hc']|h]; [exact: h1|exact: h|].
by apply/(proj2 h2) => c' hc'; apply: h; right.
Qed.
Lemma cs_is_satisfied_sound a cs : cs_is_satisfied a cs = Ok true -> cs_hold (valuation_of a) cs.
Proof.
elim: cs => [|c cs IH] /=; first by move=> _ c [].
by move=> /[ob] -[] // /c_is_satisfied_sound h1 /IH h2 c' [<-|/h2].
Qed.

(** ** Conversion *)

Lemma convert_lcV l (x : seq F) : formal_sum (convert_lc l) x = lc_value (fun v => nth 0 x v) l.
Proof.
rewrite /convert_lc /lc_value; set acc := lc_of_term _.
have -> : fe_value (l_const l) = formal_sum acc x by rewrite formal_sum_term /= convert_feE mulr1.
move: acc; elim: (l_terms l) => [|t ts IH] acc /=; first by rewrite big_nil addr0.
by rewrite IH formal_sum_add formal_sum_term /= convert_feE big_cons addrA.
Qed.
Lemma convert_lc_range (l : lcomb F) n : in_range n (convert_lc l) = all (fun v => v < n)%N (lc_vars l).
Proof.
rewrite /convert_lc /lc_vars; set acc := lc_of_term _.
rewrite -[RHS]/(true && _); have <- : in_range n acc = true by [].
move: acc; elim: (l_terms l) => [|t ts IH] acc /=; first by rewrite andbT.
by rewrite IH in_range_add -andbA; congr (_ && _); rewrite /in_range /= andbT.
Qed.

Lemma oput_Ok (A : Type) (d : A) (v : seq A) i x w : oput v i x = Ok w ->
  (i < size v)%N /\ w = set_nth d v i x.
Proof.
case: (ltnP i (size v)) => h; last by rewrite oput_UB.
by rewrite (oput_set_nth d x h) => -[<-].
Qed.

(** The converted assignment: as long as the counter, zero where nothing is assigned. *)
Lemma get_assignment_gen (a : assignment F) k (r x : seq F) :
  (forall i, (k <= i)%N -> nth 0 r i = 0) ->
  ofold (fun r iv => if iv.2 is Some x then oput r iv.1 (convert_fe x) else Ok r) r
    (zip (iota k (size a)) a) = Ok x ->
  [/\ size x = size r,
      forall v, (v < k)%N -> nth 0 x v = nth 0 r v &
      forall v, nth 0 x (k + v) = valuation_of a v].
Proof.
elim: a k r => [|o a IH] k r hr.
  by case=> <-; split=> // v; rewrite /valuation_of nth_nil; apply: hr; exact: leq_addr.
rewrite [size _]/= [zip _ _]/= ofold_cons => /[ob] r' h1 h2.
have [hs hk hn] : [/\ size r' = size r, forall v, (v < k)%N -> nth 0 r' v = nth 0 r v &
    (forall i, (k < i)%N -> nth 0 r' i = 0) /\ nth 0 r' k = valuation_of (o :: a) 0%N].
  move: h1; rewrite /valuation_of /=; case: o => [y|]; last first.
    by case=> <-; split=> //; split=> [i hi|]; apply: hr => //; exact: ltnW.
  move=> h1; have [hlt ->] := oput_Ok 0 h1; rewrite size_set_nth (maxn_idPr hlt); split=> //.
    by move=> v hv; rewrite nth_set_nth /= ltn_eqF.
  split=> [i hi|]; rewrite nth_set_nth /= ?eqxx ?convert_feE //.
  by rewrite gtn_eqF // hr // ltnW.
case: hn => hn hk0.
have [h3 h4 h5] := IH k.+1 r' (fun i hi => hn i hi) h2.
split; first by rewrite h3.
  by move=> v hv; rewrite h4 ?hk // ltnW.
case=> [|v]; first by rewrite addn0 h4.
by rewrite addnS -addSn h5.
Qed.
Lemma get_assignmentV next (pb : protoboard2 F) x : get_assignment next pb = Ok x ->
  size x = next /\ forall v, nth 0 x v = valuation_of (pb2_asg pb) v.
Proof.
case/get_assignment_gen=> [i _|h1 _ h2]; first by rewrite nth_nseq if_same.
by rewrite h1 size_nseq; split.
Qed.

Lemma lc_value_ext s s' l : (forall v, s v = s' v) -> lc_value s l = lc_value s' l.
Proof. by move=> h; rewrite /lc_value; congr (_ + _); apply: eq_bigr => t _; rewrite h. Qed.

Lemma poly_value_ext s s' q : (forall v : nat, s v = s' v) -> poly_value s q = poly_value s' q.
Proof.
move=> h; rewrite /poly_value; congr (_ + _); apply: eq_bigr => m _.
by rewrite /mono_value; congr (_ * _); apply: eq_bigr => v _; rewrite h.
Qed.
Lemma cs_hold_ext s s' cs : (forall v, s v = s' v) -> cs_hold s cs <-> cs_hold s' cs.
Proof.
move=> h; split=> H c /H; case: c => [u v w|q r] /=;
  by rewrite ?(lc_value_ext _ h) ?(poly_value_ext _ h).
Qed.

Lemma get_constraint_systemV next (pb : protoboard2 F) cs : get_constraint_system next pb = Ok cs ->
  [/\ primary_input_size cs = 0%N, auxiliary_input_size cs = next &
     forall x, (r1cs_holds cs x <-> cs_hold (fun v => nth 0 x v) (pb2_cs pb))] /\
  (r1cs_in_range cs = all (fun c => all (fun v => v < next)%N (c_vars c)) (pb2_cs pb)).
Proof.
move=> /[ob] l hl [<-]; rewrite /pb2_num_inputs subn0 /r1cs_in_range /r1cs_holds /num_variables /= add0n.
elim: (pb2_cs pb) l hl => [|c l0 IH] l; first by case=> <-; split=> //; split=> // x; split=> _ c [].
move=> /= /[ob] c' hc h0; case: (omap_Ok h0) => l' hl' ->.
have [[_ _ h2] h3] := IH _ hl'.
case: c hc => // a b c [<-]; split; last by rewrite /= -h3 /constraint_in_range /= !convert_lc_range !all_cat.
split=> // x; split=> h d.
- case=> [<-|hd]; last by apply: (proj1 (h2 x)) hd => d' hd'; apply: h; right.
  by have := h _ (or_introl erefl); rewrite /constraint_holds /= !convert_lcV.
- case=> [<-|hd]; last by apply: (proj2 (h2 x)) hd => d' hd'; apply: h; right.
  by have := h _ (or_introl erefl); rewrite /constraint_holds /= !convert_lcV.
Qed.

Lemma conversion_ok (p : nat) next (pb : protoboard2 F) b cs x :
  p \in [char F] -> (2 ^ 64 <= N.of_nat p)%num -> all (@c_typed F) (pb2_cs pb) ->
  all (fun c => all (fun v => v < next)%N (c_vars c)) (pb2_cs pb) ->
  pb2_is_satisfied pb = Ok b ->
  get_constraint_system next pb = Ok cs -> get_assignment next pb = Ok x ->
  r1cs_is_satisfied cs [::] x = Ok b.
Proof.
move=> hp hb ht hv hs /get_constraint_systemV [[h1 h2 h3] h4] /get_assignmentV [h5 h6].
have [||| b' hb' hiff] := @r1cs_is_satisfied_iff F cs [::] x.
- by rewrite h4.
- by rewrite /num_inputs h1.
- by rewrite h2.
rewrite hb'; congr Ok.
have hE := h3 x; rewrite (cs_hold_ext _ h6) in hE.
have := cs_is_satisfiedV hp hb ht hs; rewrite -hE -hiff /=.
by case: (b) (b') => [] [] // [u v]; [rewrite u|rewrite v].
Qed.
End Facts.
