(** Proofs about the curve gadgets of Weierstrass.v. *)
From mathcomp Require Import all_ssreflect all_algebra zify.
From Verif Require Import Outcome Lincomb LincombSpec LincombFacts R1CS R1CSSpec R1CSFacts Fieldtac.
From Verif Require Import Protoboard GadgetSpec GadgetLogic Weierstrass CurveSpec.
Set Implicit Arguments.
Unset Strict Implicit.
Unset Printing Implicit Defensive.
Local Open Scope ring_scope.
Import GRing.Theory.

Section Facts.
Variable F : fieldType.
Variables a b : F.
Add Field Fc : (Fth F).
Implicit Types (x : seq F) (pb : protoboard F) (l u v y : F).

Let fl (A : seq (linear_combination F)) x : formal_sum (flatten A) x = \sum_(t <- A) formal_sum t x.
Proof. by elim: A => [|t A IH]; rewrite ?big_nil ?formal_sum_nil //= big_cons formal_sum_cat IH. Qed.
Let big1 (A : linear_combination F) x : \sum_(t <- [:: A]) formal_sum t x = formal_sum A x.
Proof. by rewrite big_cons big_nil addr0. Qed.
Let big2 (A B : linear_combination F) x : \sum_(t <- [:: A; B]) formal_sum t x = formal_sum A x + formal_sum B x.
Proof. by rewrite !big_cons big_nil addr0. Qed.
Let big3 (A B C : linear_combination F) x :
  \sum_(t <- [:: A; B; C]) formal_sum t x = formal_sum A x + (formal_sum B x + formal_sum C x).
Proof. by rewrite !big_cons big_nil addr0. Qed.
Let sl x (o : pb_linear_combination F) : formal_sum (lc_terms o) x = lval x o. Proof. by []. Qed.

Ltac coef := rewrite !holds_cons holds_nil !constraint_of_lists_iff ?big1 ?big2 ?big3 !fsE !sl /xval [nth _ _ 0]/=.


Lemma checker_coef (g : g1_checker F) x : holds (g1_checker_constraints a b g) x <->
  let X := lval x (g1_X (gc_P g)) in let Y := lval x (g1_Y (gc_P g)) in
  [/\ xval x (gc_Xsq g) = X * X, xval x (gc_Ysq g) = Y * Y & Y * Y = X * (X * X + a) + b].
Proof.
cbv zeta; rewrite /g1_checker_constraints; cbn [gc_P gc_Xsq gc_Ysq]; coef.
rewrite /= -/(xval x _) -/(xval x _) !mulr1; split.
- by move=> [<- [<- [h _]]]; split=> //; rewrite h subrK.
- by move=> [-> -> ->]; do !split; rewrite addrK.
Qed.

Lemma add_coef (g : g1_add F) x : holds (g1_add_constraints g) x <->
  let ax := lval x (g1_X (ga_A g)) in let ay := lval x (g1_Y (ga_A g)) in
  let bx := lval x (g1_X (ga_B g)) in let by_ := lval x (g1_Y (ga_B g)) in
  let cx := lval x (g1_X (ga_C g)) in let cy := lval x (g1_Y (ga_C g)) in
  let l := xval x (ga_lambda g) in let i := xval x (ga_inv g) in
  [/\ l * (bx - ax) = by_ - ay, l * l = cx + ax + bx, l * (ax - cx) = cy + ay & i * (bx - ax) = 1].
Proof.
cbv zeta; rewrite /g1_add_constraints; coef.
rewrite /= -/(xval x _) -/(xval x _) !mulN1r addrA; split.
- by move=> [h1 [h2 [h3 [h4 _]]]].
- by move=> [h1 h2 h3 h4].
Qed.

Lemma dbl_coef (g : g1_dbl F) x : holds (g1_dbl_constraints a g) x <->
  let ax := lval x (g1_X (gd_A g)) in let ay := lval x (g1_Y (gd_A g)) in
  let bx := lval x (g1_X (gd_B g)) in let by_ := lval x (g1_Y (gd_B g)) in
  let l := xval x (gd_lambda g) in let s := xval x (gd_Xsq g) in
  [/\ s = ax * ax, 2%:R * l * ay = 3%:R * s + a, l * l = bx + 2%:R * ax & l * (ax - bx) = by_ + ay].
Proof.
cbv zeta; rewrite /g1_dbl_constraints; coef.
rewrite /= -/(xval x _) -/(xval x _) !mulN1r mulr1; split.
- by move=> [h1 [h2 [h3 [h4 _]]]].
- by move=> [h1 h2 h3 h4].
Qed.

Lemma add_alg (ax ay bx by_ cx cy l i : F) :
  [/\ l * (bx - ax) = by_ - ay, l * l = cx + ax + bx, l * (ax - cx) = cy + ay & i * (bx - ax) = 1] <->
  [/\ ax != bx, l = (by_ - ay) / (bx - ax), i = (bx - ax)^-1 & Some (cx, cy) = ec_add a (Some (ax, ay)) (Some (bx, by_))].
Proof.
have e0 : (bx - ax != 0) = (ax != bx) by rewrite subr_eq0 eq_sym.
split=> [[h1 h2 h3 h4]|[h el ei]].
- have h : ax != bx by rewrite -e0; apply/eqP=> z; move: h4 => /eqP; rewrite z mulr0 eq_sym oner_eq0.
  have el : l = (by_ - ay) / (bx - ax) by rewrite -h1 mulfK // e0.
  split=> //; first by apply: (mulIf (_ : bx - ax != 0)); rewrite ?e0 // h4 mulVf // e0.
  rewrite /ec_add h /ec_line -el; congr (Some (_, _)).
    by rewrite expr2 h2; fring F.
  rewrite expr2 h2 (_ : cx + ax + bx - ax - bx = cx); last by fring F.
  by rewrite h3 addrK.
- rewrite /ec_add h /ec_line -el => -[-> ->]; split.
  + by rewrite el divfK // e0.
  + by fring F.
  + by fring F.
  + by rewrite ei mulVf // e0.
Qed.

Lemma dbl_alg (ax ay bx by_ l s : F) : 2%:R != 0 :> F -> ay != 0 ->
  [/\ s = ax * ax, 2%:R * l * ay = 3%:R * s + a, l * l = bx + 2%:R * ax & l * (ax - bx) = by_ + ay] <->
  [/\ s = ax * ax, l = (3%:R * ax ^+ 2 + a) / (2%:R * ay) & Some (bx, by_) = ec_add a (Some (ax, ay)) (Some (ax, ay))].
Proof.
move=> h2 hy; have h0 : 2%:R * ay != 0 :> F by rewrite mulf_neq0.
have el0 : 2%:R * l * ay = l * (2%:R * ay) by fring F.
split=> [[hs h1 h3 h4]|[hs el]].
- have el : l = (3%:R * ax ^+ 2 + a) / (2%:R * ay).
    by rewrite expr2 -hs -h1 el0 mulfK.
  split=> //; rewrite /ec_add !eqxx hy /= /ec_line -el; congr (Some (_, _)).
    by rewrite expr2 h3; fring F.
  by rewrite expr2 h3 (_ : bx + 2%:R * ax - ax - ax = bx) ?h4 ?addrK //; fring F.
- rewrite /ec_add !eqxx hy /= /ec_line -el => -[-> ->]; split=> //.
  + by rewrite hs el0 el divfK // expr2.
  + by fring F.
  + by fring F.
Qed.

(** A point of order two on a non-singular curve is not accepted by the doubling gadget. *)
Lemma dbl_order_two (ax ay l s : F) : 4%:R * a ^+ 3 + 27%:R * b ^+ 2 != 0 -> on_curve a b (Some (ax, ay)) ->
  s = ax * ax -> 2%:R * l * ay = 3%:R * s + a -> ay != 0.
Proof.
move=> hd /eqP hc hs h1; apply/eqP=> y0; move: h1; rewrite y0 mulr0 hs => /esym h.
case/negP: hd; apply/eqP.
have h3 : ax ^+ 3 + a * ax + b = 0 by rewrite -hc y0 expr2 mulr0.
have -> : 4%:R * a ^+ 3 + 27%:R * b ^+ 2 =
  (3%:R * (ax * ax) + a) * (4%:R * a ^+ 2 + ax * (6%:R * a * ax - 9%:R * b)) -
  3%:R * (6%:R * a * ax - 9%:R * b) * (ax ^+ 3 + a * ax + b) by fring F.
by rewrite h h3 mul0r mulr0 subrr.
Qed.

(** * The specification's addition stays on the curve and is commutative *)

Lemma line_on_curve (l x1 y1 x2 : F) : a = 2%:R * y1 * l + l ^+ 2 * (x2 - x1) - (x1 ^+ 2 + x1 * x2 + x2 ^+ 2) ->
  y1 ^+ 2 = x1 ^+ 3 + a * x1 + b -> on_curve a b (ec_line l x1 y1 x2).
Proof.
move=> ea hc; have eb : b = y1 ^+ 2 - x1 ^+ 3 - a * x1 by rewrite hc; fring F.
by apply/eqP; rewrite eb ea; fring F.
Qed.

Lemma ec_add_on_curve (P Q : point F) : 2%:R != 0 :> F -> on_curve a b P -> on_curve a b Q -> on_curve a b (ec_add a P Q).
Proof.
move=> h2; case: P Q => [[x1 y1]|] [[x2 y2]|] // hP hQ; rewrite /ec_add.
have hP1 : y1 ^+ 2 = x1 ^+ 3 + a * x1 + b by apply/eqP.
have hQ1 : y2 ^+ 2 = x2 ^+ 3 + a * x2 + b by apply/eqP.
case: ifP => [hx|/negbFE/eqP hx].
- have d0 : x2 - x1 != 0 by rewrite subr_eq0 eq_sym.
  apply: (line_on_curve _ hP1); set l := _ / _.
  have el : y2 = y1 + l * (x2 - x1) by rewrite divfK // addrC subrK.
  apply: (mulIf d0); move: hQ1; rewrite {1}el; have eb : b = y1 ^+ 2 - x1 ^+ 3 - a * x1 by rewrite hP1; fring F.
  move: (l : F) eb => k -> h; rewrite -[LHS]addr0 -(subrr (x2 ^+ 3 + a * x2 + (y1 ^+ 2 - x1 ^+ 3 - a * x1))) -{1}h; fring F.
- case: ifP => // /andP[/eqP ey hy]; have d0 : 2%:R * y1 != 0 :> F by rewrite mulf_neq0.
  apply: (line_on_curve _ hP1); set l := _ / _; rewrite -hx.
  have el : l * (2%:R * y1) = 3%:R * x1 ^+ 2 + a by rewrite divfK.
  have -> : a = l * (2%:R * y1) - 3%:R * x1 ^+ 2 by rewrite el; fring F.
  by move: (l : F) => k; fring F.
Qed.

Lemma ec_addC (P Q : point F) : ec_add a P Q = ec_add a Q P.
Proof.
case: P Q => [[x1 y1]|] [[x2 y2]|] //; rewrite /ec_add eq_sym [y1 == _]eq_sym.
case: ifP => [hx|/negbFE/eqP hx].
- have d0 : x2 - x1 != 0 by rewrite subr_eq0.
  have d1 : x1 - x2 != 0 by rewrite subr_eq0 eq_sym.
  rewrite /ec_line; set l := (y2 - y1) / _; have -> : (y1 - y2) / (x1 - x2) = l by rewrite /l -opprB -[x1 - _]opprB invrN mulrNN.
  have el : y2 = y1 + l * (x2 - x1) by rewrite divfK // addrC subrK.
  by congr (Some (_, _)); rewrite ?el; move: (l : F) => k; fring F.
- by rewrite hx; case: eqP => // ->.
Qed.

(** * Multiscalar multiplication *)

Let dbl (P : point F) : point F := ec_add a P P.
Let nonsingular := 4%:R * a ^+ 3 + 27%:R * b ^+ 2 != 0.

Lemma dbl_sound (g : g1_dbl F) x : 2%:R != 0 :> F -> nonsingular -> on_curve a b (g1_val x (gd_A g)) ->
  holds (g1_dbl_constraints a g) x -> g1_val x (gd_B g) = dbl (g1_val x (gd_A g)).
Proof.
move=> h2 hn hc /dbl_coef h; have hy : lval x (g1_Y (gd_A g)) != 0 by case: h => h1 h3 _ _; apply: dbl_order_two hn hc h1 h3.
by move: h => /(dbl_alg _ _ _ _ _ h2 hy)[].
Qed.
Lemma add_sound (g : g1_add F) x : holds (g1_add_constraints g) x ->
  lval x (g1_X (ga_A g)) <> lval x (g1_X (ga_B g)) /\ g1_val x (ga_C g) = ec_add a (g1_val x (ga_A g)) (g1_val x (ga_B g)).
Proof. by move=> /add_coef/add_alg[/eqP]. Qed.

Lemma powers_sound pb P n ps ds pb' x : 2%:R != 0 :> F -> nonsingular -> on_curve a b (g1_val x P) ->
  powers_new pb P n = (ps, ds, pb') -> (forall d, List.In d ds -> holds (g1_dbl_constraints a d) x) ->
  size ds = n /\ map (g1_val x) ps = traject dbl (g1_val x P) n.+1.
Proof.
move=> h2 hn; elim: n pb P ps ds pb' => [|n IH] pb P ps ds pb' hc; first by case=> <- <- _ _.
cbn [powers_new]; case e1: (g1_new pb) => [Q pb1]; case e2: (g1_dbl_new _ _ _) => [d pb2].
case e3: (powers_new _ _ _) => [[ps1 ds1] pb3] [<- <- _] h.
have [eA eB] : gd_A d = P /\ gd_B d = Q by case: e2 => <- _.
have hd := h _ (or_introl erefl); have := dbl_sound h2 hn _ hd; rewrite eA eB => /(_ hc) eQ.
have hQ : on_curve a b (g1_val x Q) by rewrite eQ; apply: ec_add_on_curve.
have [|h1 h3] := IH _ _ _ _ _ hQ e3; first by move=> d1 hd1; apply: h; right.
by split; rewrite /= ?h1 // h3 eQ.
Qed.

Lemma all_powers_sound pb Ps n ps ds pb' x : 2%:R != 0 :> F -> nonsingular -> all (fun P => on_curve a b (g1_val x P)) Ps ->
  all_powers_new pb Ps n = (ps, ds, pb') -> (forall d, List.In d ds -> holds (g1_dbl_constraints a d) x) ->
  size ds = (size Ps * n)%N /\ map (g1_val x) ps = flatten [seq traject dbl (g1_val x P) n.+1 | P <- Ps].
Proof.
move=> h2 hn; elim: Ps pb ps ds pb' => [|P Ps IH] pb ps ds pb'; first by move=> _ [<- <- _].
move=> /andP[hc hcs]; cbn [all_powers_new]; case e1: (powers_new _ _ _) => [[ps1 ds1] pb1]; case e2: (all_powers_new _ _ _) => [[ps2 ds2] pb2] [<- <- _] h.
have [|h1 h3] := powers_sound h2 hn hc e1; first by move=> d hd; apply: h; apply: List.in_or_app; left.
have [|h4 h5] := IH _ _ _ _ hcs e2; first by move=> d hd; apply: h; apply: List.in_or_app; right.
by rewrite size_cat h1 h4 mulSn map_cat h3 h5; split.
Qed.

Let step (R : point F) (t : bool * point F) : point F := if t.1 then ec_add a R t.2 else R.

Fixpoint steps_ok (R : point F) (ts : seq (bool * point F)) : bool :=
  if ts is t :: ts' then distinct_x R t.2 && steps_ok (step R t) ts' else true.

Lemma steps_ok_cons R t ts : steps_ok R (t :: ts) = distinct_x R t.2 && steps_ok (step R t) ts.
Proof. by []. Qed.
Lemma steps_sound pb cur sps result steps pb' x (bs : seq bool) : steps_new pb cur sps result = (steps, pb') ->
  (forall s, List.In s steps -> holds (g1_add_constraints (ms_adder s) ++ select_constraints s) x) ->
  sps <> [::] -> [seq xval x s.1 | s <- sps] = [seq (nat_of_bool c)%:R | c <- bs] ->
  steps_ok (g1_val x cur) (zip bs [seq g1_val x s.2 | s <- sps]) /\
  g1_val x result = foldl step (g1_val x cur) (zip bs [seq g1_val x s.2 | s <- sps]).
Proof.
elim: sps pb cur steps pb' bs => [|[s P] sps IH] pb cur steps pb' [|c bs] // e h _ [hs hb].
move: e; cbn [steps_new]; case e1: (g1_new pb) => [Q pb1].
case e2: (match sps with [::] => _ | _ => _ end) => [next pb2]; case e3: (g1_add_new _ _ _ _) => [g pb3].
case e4: (steps_new _ _ _ _) => [ss pb4] [es _]; subst steps.
have [eA eB eC] : [/\ ga_A g = cur, ga_B g = P & ga_C g = Q] by case: e3 => <- _.
have := h _ (or_introl erefl); cbn [ms_adder]; rewrite holds_cat => -[/add_sound[]]; rewrite eA eB eC => hx eQ.
rewrite /select_constraints; cbn [ms_scalar ms_computed ms_cur ms_next]; rewrite !holds_cons holds_nil /constraint_holds /= !fsE !sl hs.
move=> [hX [hY _]].
have en : g1_val x next = step (g1_val x cur) (c, g1_val x P).
  rewrite /step; cbn [fst snd]; case: (c) hX hY; rewrite [nat_of_bool _]/= ?mulr1n ?mulr0n ?mul1r ?mul0r.
    by move=> /addIr hX /addIr hY; rewrite -eQ /g1_val hX hY.
  by move=> /esym/eqP; rewrite subr_eq0 => /eqP hX /esym/eqP; rewrite subr_eq0 => /eqP hY; rewrite /g1_val hX hY.
rewrite [zip _ _]/= [foldl _ _ _]/= -en.
have -> : lval x (g1_X cur) != lval x (g1_X P) by apply/eqP.
cbn [andb].
case: sps IH e2 e4 hb h => [|t sps] IH e2 e4 hb h.
  by case: e2 => <- _; case: bs hb.
apply: (IH _ _ _ _ bs e4) => //.
by move=> s1 hs1; apply: h; right.
Qed.

Lemma ec_scalar_fold (R P : point F) (bs : seq bool) :
  ec_scalar a R P bs = foldl step R (zip bs (traject dbl P (size bs))).
Proof. by elim: bs R P => [|c bs IH] R P //=; rewrite IH. Qed.

Lemma ec_multiscalar_fold (R : point F) (Ps : seq (point F)) (bs : seq (seq bool)) n :
  size bs = size Ps -> all (fun c => size c == n) bs ->
  ec_multiscalar a R (zip Ps bs) = foldl step R (zip (flatten bs) (flatten [seq traject dbl P n | P <- Ps])).
Proof.
elim: Ps bs R => [|P Ps IH] [|c bs] R //= [hs] /andP[/eqP hc hb].
rewrite zip_cat ?size_traject // foldl_cat IH //; congr (foldl _ _ _).
by rewrite ec_scalar_fold hc.
Qed.

Lemma powers_size pb P n ps ds pb' : powers_new pb P n = (ps, ds, pb') -> size ps = n.+1 /\ size ds = n.
Proof.
elim: n pb P ps ds pb' => [|n IH] pb P ps ds pb'; first by case=> <- <- _.
cbn [powers_new]; case e1: (g1_new pb) => [Q pb1]; case e2: (g1_dbl_new _ _ _) => [d pb2].
case e3: (powers_new _ _ _) => [[ps1 ds1] pb3] [<- <- _].
by have [h1 h2] := IH _ _ _ _ _ e3; rewrite /= h1 h2.
Qed.
Lemma all_powers_size pb Ps n ps ds pb' : all_powers_new pb Ps n = (ps, ds, pb') ->
  size ps = (size Ps * n.+1)%N /\ size ds = (size Ps * n)%N.
Proof.
elim: Ps pb ps ds pb' => [|P Ps IH] pb ps ds pb'; first by case=> <- <- _.
cbn [all_powers_new]; case e1: (powers_new _ _ _) => [[ps1 ds1] pb1]; case e2: (all_powers_new _ _ _) => [[ps2 ds2] pb2] [<- <- _].
have [h1 h2] := powers_size e1; have [h3 h4] := IH _ _ _ _ e2.
by rewrite !size_cat h1 h2 h3 h4 /= !mulSn.
Qed.
Lemma steps_size pb cur sps result steps pb' : steps_new pb cur sps result = (steps, pb') -> size steps = size sps.
Proof.
elim: sps pb cur steps pb' => [|[s P] sps IH] pb cur steps pb'; first by case=> <- _.
cbn [steps_new]; case e1: (g1_new pb) => [Q pb1]; case e2: (match sps with [::] => _ | _ => _ end) => [next pb2].
case e3: (g1_add_new _ _ _ _) => [g pb3]; case e4: (steps_new _ _ _ _) => [ss pb4] [<- _].
by rewrite /= (IH _ _ _ _ e4).
Qed.

Definition all_constraints (ds : seq (g1_dbl F)) (steps : seq (mul_step F)) : seq (r1cs_constraint F) :=
  flatten (map (g1_dbl_constraints a) ds) ++
  flatten [seq g1_add_constraints (ms_adder s) ++ select_constraints s | s <- steps].

Lemma mul_constraints_ok pb base scalars n points result g pb' :
  g1_mul_new pb base scalars n points result = Ok (g, pb') ->
  exists m ps ds pb1 steps, [/\ n = m.+1, (size points * m.+1)%N = size scalars /\ (0 < size points)%N,
    all_powers_new pb points m = (ps, ds, pb1),
    steps_new pb1 base (zip scalars ps) result = (steps, pb') & g1_mul_constraints a g = Ok (all_constraints ds steps)].
Proof.
rewrite /g1_mul_new.
case hp: (0 < size points)%N => //; cbn [oassert]; case: eqP => // hz; case: n hz => // n hz; cbn [oassert].
case e1: (all_powers_new _ _ _) => [[ps ds] pb1]; case e2: (steps_new _ _ _ _) => [steps pb2] [<- <-].
exists n, ps, ds, pb1, steps; split=> //.
have [s1 s2] := all_powers_size e1; have s3 := steps_size e2.
rewrite /g1_mul_constraints; cbn [gm_doublers gm_steps gm_num_points gm_scalar_size].
have e3 : (size scalars - size points = size points * n)%N by rewrite -hz mulnS addKn.
rewrite e3 -s2 take_size -/(all_constraints ds steps).
have -> : size (all_constraints ds steps) = (4 * size ds + (4 + 2) * size scalars)%N; last by rewrite eqxx.
rewrite size_cat !size_flatten /shape -!map_comp; congr (_ + _)%N.
  rewrite (eq_map (f2 := fun=> 4%N)) //; elim: (ds) => //= d l ->; rewrite mulnS; lia.
rewrite (eq_map (f2 := fun=> 6%N)) //.
have -> : size scalars = size steps by rewrite s3 size_zip s1 hz minnn.
elim: (steps) => //= d l ->; rewrite mulnS; lia.
Qed.

Lemma ec_scalar_ok_steps (R P : point F) (bs : seq bool) :
  ec_scalar_ok a R P bs = steps_ok R (zip bs (traject dbl P (size bs))).
Proof. by elim: bs R P => [|c bs IH] R P //=; rewrite IH. Qed.
Lemma steps_ok_cat R ts us : steps_ok R (ts ++ us) = steps_ok R ts && steps_ok (foldl step R ts) us.
Proof. by elim: ts R => [|t ts IH] R //=; rewrite IH andbA. Qed.
Lemma ec_multiscalar_ok_steps (R : point F) (Ps : seq (point F)) (bs : seq (seq bool)) n :
  size bs = size Ps -> all (fun c => size c == n) bs ->
  ec_multiscalar_ok a R (zip Ps bs) = steps_ok R (zip (flatten bs) (flatten [seq traject dbl P n | P <- Ps])).
Proof.
elim: Ps bs R => [|P Ps IH] [|c bs] R //= [hs] /andP[/eqP hc hb].
by rewrite zip_cat ?size_traject // steps_ok_cat ec_scalar_ok_steps ec_scalar_fold hc IH.
Qed.

Lemma mul_sound pb base scalars n points result g pb' cs x (bs : seq (seq bool)) :
  2%:R != 0 :> F -> nonsingular -> all (fun P => on_curve a b (g1_val x P)) points ->
  g1_mul_new pb base scalars n points result = Ok (g, pb') -> g1_mul_constraints a g = Ok cs -> holds cs x ->
  size bs = size points -> all (fun c => size c == n) bs ->
  map (xval x) scalars = [seq (nat_of_bool c)%:R | c <- flatten bs] ->
  ec_multiscalar_ok a (g1_val x base) (zip (map (g1_val x) points) bs) /\
  g1_val x result = ec_multiscalar a (g1_val x base) (zip (map (g1_val x) points) bs).
Proof.
move=> h2 hn hc /mul_constraints_ok[m [ps [ds [pb1 [steps [-> [hz hp] e1 e2 ->]]]]]] [<-].
rewrite /all_constraints holds_cat => -[hd hs] s1 s2 hb.
have [s3 s4] := all_powers_size e1.
have hd1 d : List.In d ds -> holds (g1_dbl_constraints a d) x.
  by move: hd; rewrite holds_flatten => h; apply: h.
have hs1 s : List.In s steps -> holds (g1_add_constraints (ms_adder s) ++ select_constraints s) x.
  by move: hs; rewrite holds_flatten => h; apply: h.
have [_ vps] := all_powers_sound h2 hn hc e1 hd1.
have sz : size scalars = size ps by rewrite s3 hz.
have ne : zip scalars ps <> [::].
  by move=> /(congr1 size); rewrite size_zip -sz minnn -hz; move: hp; clear; case: (size points).
have hb' : [seq xval x s.1 | s <- zip scalars ps] = [seq (nat_of_bool c)%:R | c <- flatten bs].
  by rewrite -hb -{2}(unzip1_zip (s := scalars) (t := ps)) ?sz // /unzip1 -map_comp.
have := steps_sound e2 hs1 ne hb'.
rewrite (ec_multiscalar_fold _ (n := m.+1)) ?size_map // (ec_multiscalar_ok_steps _ (n := m.+1)) ?size_map //.
have -> : [seq g1_val x s.2 | s <- zip scalars ps] = map (g1_val x) ps.
  by rewrite -{2}(unzip2_zip (s := scalars) (t := ps)) ?sz // /unzip2 -map_comp.
by rewrite vps -map_comp.
Qed.
End Facts.
