(** The curve gadgets' constraints can be satisfied. *)
From mathcomp Require Import all_ssreflect all_algebra zify.
From Verif Require Import Outcome Lincomb LincombSpec LincombFacts R1CS R1CSSpec R1CSFacts Fieldtac.
From Verif Require Import Protoboard GadgetSpec GadgetLogic FieldGadgets FieldGadgetsFacts FieldGadgetsSat.
From Verif Require Import Weierstrass CurveSpec CurveFacts.
Set Implicit Arguments.
Unset Strict Implicit.
Unset Printing Implicit Defensive.
Local Open Scope ring_scope.
Import GRing.Theory.

Lemma all_both (T : Type) (p q r : pred T) (s : seq T) : (forall u, p u -> q u -> r u) -> all p s -> all q s -> all r s.
Proof. by move=> h; elim: s => //= u s IH /andP[h1 h2] /andP[h3 h4]; rewrite h ?IH. Qed.
Lemma all_map (T U : Type) (p : pred T) (f g : T -> U) (s : seq T) : (forall u, p u -> f u = g u) -> all p s -> map f s = map g s.
Proof. by move=> h; elim: s => //= u s IH /andP[h1 h2]; rewrite h ?IH. Qed.

Section Sat.
Variable F : fieldType.
Variables a b : F.
Add Field Fs : (Fth F).
Implicit Types (x : seq F) (pb : protoboard F).

Definition g1_ranged n (P : g1_var F) : bool := in_range n (lc_terms (g1_X P)) && in_range n (lc_terms (g1_Y P)).
(** New variables are numbered from the number of values on. *)
Definition tidy pb : Prop := pb_next_free_var pb = (size (pb_values pb)).+1.

Lemma g1_val_cat x zs P : g1_ranged (size x) P -> g1_val (x ++ zs) P = g1_val x P.
Proof. by move=> /andP[h1 h2]; rewrite /g1_val !lval_cat. Qed.
Lemma in_range_le m n (t : seq (nat * F)) : (m <= n)%N -> in_range m t -> in_range n t.
Proof. by move=> h /allP h1; apply/allP=> u hu; apply: leq_trans (h1 _ hu) h. Qed.
Lemma g1_ranged_le m n P : (m <= n)%N -> g1_ranged m P -> g1_ranged n P.
Proof. by move=> h /andP[h1 h2]; apply/andP; split; apply: in_range_le h _. Qed.
Lemma in_range_var n v : (v <= n)%N -> in_range n (lc_terms (plc_of_var F v)).
Proof. by move=> h; rewrite /in_range /= h. Qed.

Lemma xval_at0 x zs : xval (x ++ zs) (size x).+1 = nth 0 zs 0.
Proof. by rewrite -[size x]addn0 xval_at. Qed.
Lemma xval_at1 x zs : xval (x ++ zs) (size x).+2 = nth 0 zs 1.
Proof. by rewrite -[(size x).+1]addn1 xval_at. Qed.

(** Two new variables. *)
Lemma alloc2 pb v pb1 w pb2 : tidy pb -> allocate_var pb = (v, pb1) -> allocate_var pb1 = (w, pb2) ->
  [/\ v = (size (pb_values pb)).+1, w = (size (pb_values pb)).+2,
      size (pb_values pb2) = (size (pb_values pb)).+2 & tidy pb2].
Proof.
rewrite /tidy => h /alloc_next[-> h1 h2] /alloc_next[-> h3 h4].
by rewrite h4 h2 h3 h1 h.
Qed.
Lemma g1_new_facts pb P pb' x (p : F * F) ws : tidy pb -> size x = size (pb_values pb) -> g1_new pb = (P, pb') ->
  [/\ tidy pb', size (pb_values pb') = (size x).+2, g1_ranged (size x).+2 P & g1_val (x ++ [:: p.1, p.2 & ws]) P = Some p].
Proof.
move=> ht hs; rewrite /g1_new; case e1: (allocate_var pb) => [v pb1]; case e2: (allocate_var pb1) => [w pb2] [<- <-].
have [-> -> h3 h4] := alloc2 ht e1 e2; rewrite h3 hs; split=> //.
  by rewrite /g1_ranged !in_range_var.
rewrite /g1_val; cbn [g1_X g1_Y]; rewrite !lval_var -hs xval_at0 xval_at1 /=; by case: p.
Qed.

Lemma dbl_new_sat pb A B g pb' x s l ws : tidy pb -> size x = size (pb_values pb) -> g1_dbl_new pb A B = (g, pb') ->
  [/\ tidy pb', size (pb_values pb') = (size x).+2, gd_A g = A, gd_B g = B &
      xval (x ++ [:: s, l & ws]) (gd_Xsq g) = s /\ xval (x ++ [:: s, l & ws]) (gd_lambda g) = l].
Proof.
move=> ht hs; rewrite /g1_dbl_new; case e1: (allocate_var pb) => [v pb1]; case e2: (allocate_var pb1) => [w pb2] [<- <-].
have [-> -> h3 h4] := alloc2 ht e1 e2; rewrite h3 hs; split=> //; cbn [gd_Xsq gd_lambda]; rewrite -hs.
by rewrite xval_at0 xval_at1.
Qed.
Lemma add_new_sat pb A B C g pb' x l i ws : tidy pb -> size x = size (pb_values pb) -> g1_add_new pb A B C = (g, pb') ->
  [/\ tidy pb', size (pb_values pb') = (size x).+2, [/\ ga_A g = A, ga_B g = B & ga_C g = C] &
      xval (x ++ [:: l, i & ws]) (ga_lambda g) = l /\ xval (x ++ [:: l, i & ws]) (ga_inv g) = i].
Proof.
move=> ht hs; rewrite /g1_add_new; case e1: (allocate_var pb) => [v pb1]; case e2: (allocate_var pb1) => [w pb2] [<- <-].
have [-> -> h3 h4] := alloc2 ht e1 e2; rewrite h3 hs; split=> //; cbn [ga_lambda ga_inv]; rewrite -hs.
by rewrite xval_at0 xval_at1.
Qed.
Lemma checker_new_sat pb P g pb' x s l ws : tidy pb -> size x = size (pb_values pb) -> g1_checker_new pb P = (g, pb') ->
  [/\ tidy pb', size (pb_values pb') = (size x).+2, gc_P g = P &
      xval (x ++ [:: s, l & ws]) (gc_Xsq g) = s /\ xval (x ++ [:: s, l & ws]) (gc_Ysq g) = l].
Proof.
move=> ht hs; rewrite /g1_checker_new; case e1: (allocate_var pb) => [v pb1]; case e2: (allocate_var pb1) => [w pb2] [<- <-].
have [-> -> h3 h4] := alloc2 ht e1 e2; rewrite h3 hs; split=> //; cbn [gc_Xsq gc_Ysq]; rewrite -hs.
by rewrite xval_at0 xval_at1.
Qed.

Lemma checker_sat pb P g pb' x : tidy pb -> size x = size (pb_values pb) -> g1_ranged (size x) P ->
  g1_checker_new pb P = (g, pb') -> on_curve a b (g1_val x P) ->
  exists zs, size (x ++ zs) = size (pb_values pb') /\ holds (g1_checker_constraints a b g) (x ++ zs).
Proof.
move=> ht hs /andP[r1 r2] e /eqP hc; set X := lval x (g1_X P) in hc; set Y := lval x (g1_Y P) in hc.
have [_ s1 eP [v1 v2]] := checker_new_sat (X * X) (Y * Y) [::] ht hs e.
exists [:: X * X; Y * Y]; rewrite size_cat addn2 s1; split=> //.
apply/checker_coef; rewrite eP v1 v2 !lval_cat // -/X -/Y; split=> //.
by rewrite -expr2 hc mulrDr [X * a]mulrC !exprS expr0 mulr1.
Qed.

Lemma dbl_sat pb A B g pb' x : 2%:R != 0 :> F -> tidy pb -> size x = size (pb_values pb) ->
  g1_ranged (size x) A -> g1_ranged (size x) B -> g1_dbl_new pb A B = (g, pb') ->
  g1_val x B = ec_add a (g1_val x A) (g1_val x A) ->
  exists s l, [/\ tidy pb', size (pb_values pb') = (size x).+2 & forall ws, holds (g1_dbl_constraints a g) (x ++ [:: s, l & ws])].
Proof.
move=> h2 ht hs /andP[r1 r2] /andP[r3 r4] e; rewrite /g1_val.
set ax := lval x (g1_X A); set ay := lval x (g1_Y A) => h.
have hy : ay != 0 by apply/eqP=> z; move: h; rewrite /ec_add !eqxx z eqxx.
exists (ax * ax), ((3%:R * ax ^+ 2 + a) / (2%:R * ay)).
have [t1 s1 _ _ _] := dbl_new_sat 0 0 [::] ht hs e; split=> // ws.
have [_ _ eA eB [v1 v2]] := dbl_new_sat (ax * ax) ((3%:R * ax ^+ 2 + a) / (2%:R * ay)) ws ht hs e.
by apply/dbl_coef; rewrite eA eB v1 v2 !lval_cat //; apply/(dbl_alg _ _ _ _ _ _ h2 hy).
Qed.
Lemma add_sat pb A B C g pb' x : tidy pb -> size x = size (pb_values pb) ->
  g1_ranged (size x) A -> g1_ranged (size x) B -> g1_ranged (size x) C -> g1_add_new pb A B C = (g, pb') ->
  distinct_x (g1_val x A) (g1_val x B) -> g1_val x C = ec_add a (g1_val x A) (g1_val x B) ->
  exists l i, [/\ tidy pb', size (pb_values pb') = (size x).+2 & forall ws, holds (g1_add_constraints g) (x ++ [:: l, i & ws])].
Proof.
move=> ht hs /andP[r1 r2] /andP[r3 r4] /andP[r5 r6] e; rewrite /g1_val /distinct_x.
set ax := lval x (g1_X A); set ay := lval x (g1_Y A); set bx := lval x (g1_X B); set by_ := lval x (g1_Y B) => hx h.
exists ((by_ - ay) / (bx - ax)), (bx - ax)^-1.
have [t1 s1 _ _] := add_new_sat 0 0 [::] ht hs e; split=> // ws.
have [_ _ [eA eB eC] [v1 v2]] := add_new_sat ((by_ - ay) / (bx - ax)) (bx - ax)^-1 ws ht hs e.
by apply/add_coef; rewrite eA eB eC v1 v2 !lval_cat //; apply/(add_alg a).
Qed.

Let dbl (P : point F) : point F := ec_add a P P.
Let step (R : point F) (t : bool * point F) : point F := if t.1 then ec_add a R t.2 else R.

Lemma powers_sat pb P n ps ds pb' x : 2%:R != 0 :> F -> tidy pb -> size x = size (pb_values pb) -> g1_ranged (size x) P ->
  all isSome (traject dbl (g1_val x P) n.+1) -> powers_new pb P n = (ps, ds, pb') ->
  exists zs, [/\ tidy pb', size (x ++ zs) = size (pb_values pb'), all (g1_ranged (size (x ++ zs))) ps,
    map (g1_val (x ++ zs)) ps = traject dbl (g1_val x P) n.+1 &
    forall ws d, List.In d ds -> holds (g1_dbl_constraints a d) ((x ++ zs) ++ ws)].
Proof.
move=> h2; elim: n pb P ps ds pb' x => [|n IH] pb P ps ds pb' x ht hs r.
  by move=> _ [<- <- <-]; exists [::]; rewrite cats0; split=> //; rewrite /all r.
rewrite trajectS => /andP[_ hf]; cbn [powers_new]; case e1: (g1_new pb) => [Q pb1]; case e2: (g1_dbl_new _ _ _) => [d pb2].
case e3: (powers_new _ _ _) => [[ps1 ds1] pb3] [<- <- <-].
have [q eq] : exists q, dbl (g1_val x P) = Some q by move: hf => /andP[+ _]; case: (dbl _) => // q _; exists q.
have [t1 s1 r1 v1] := g1_new_facts q [::] ht hs e1.
set x1 := x ++ [:: q.1; q.2] in v1; have z1 : size x1 = (size x).+2 by rewrite size_cat addn2.
have vP1 : g1_val x1 P = g1_val x P by rewrite g1_val_cat.
have [||||s [l [t2 s2 h3]]] := dbl_sat h2 t1 _ _ _ e2 (x := x1); rewrite ?z1 //.
- by apply: g1_ranged_le r; lia.
- by rewrite vP1 v1 -eq.
set x2 := x1 ++ [:: s; l]; have z2 : size x2 = (size x1).+2 by rewrite size_cat addn2.
have r2 : g1_ranged (size x2) Q by apply: g1_ranged_le r1; rewrite z2 z1; lia.
have vQ2 : g1_val x2 Q = dbl (g1_val x P) by rewrite g1_val_cat ?z1 // v1 eq.
have [||zs [t3 s3 r3 v3 h4]] := IH _ _ _ _ _ x2 t2 _ r2 _ e3; rewrite ?vQ2 ?z2 //.
exists ([:: q.1; q.2; s; l] ++ zs); have ex2 : x ++ [:: q.1; q.2; s; l] ++ zs = x2 ++ zs by rewrite /x2 /x1 -!catA.
rewrite ex2; split=> //.
- rewrite /= r3 andbT; apply: g1_ranged_le r; rewrite size_cat z2 z1; lia.
- rewrite /= v3 vQ2 trajectS g1_val_cat; last by apply: g1_ranged_le r; rewrite z2 z1; lia.
  by rewrite /x2 g1_val_cat ?vP1 //; apply: g1_ranged_le r; rewrite z1; lia.
move=> ws d0 [<-|hd]; last exact: h4.
have -> : (x2 ++ zs) ++ ws = x1 ++ [:: s, l & zs ++ ws] by rewrite /x2 -!catA.
exact: h3.
Qed.

Lemma all_powers_sat pb Ps n ps ds pb' x : 2%:R != 0 :> F -> tidy pb -> size x = size (pb_values pb) -> all (g1_ranged (size x)) Ps ->
  all (fun P => all isSome (traject dbl (g1_val x P) n.+1)) Ps -> all_powers_new pb Ps n = (ps, ds, pb') ->
  exists zs, [/\ tidy pb', size (x ++ zs) = size (pb_values pb'), all (g1_ranged (size (x ++ zs))) ps,
    map (g1_val (x ++ zs)) ps = flatten [seq traject dbl (g1_val x P) n.+1 | P <- Ps] &
    forall ws d, List.In d ds -> holds (g1_dbl_constraints a d) ((x ++ zs) ++ ws)].
Proof.
move=> h2; elim: Ps pb ps ds pb' x => [|P Ps IH] pb ps ds pb' x ht hs.
  by move=> _ _ [<- <- <-]; exists [::]; rewrite cats0; split.
move=> /andP[r rs] /andP[f fs]; cbn [all_powers_new]; case e1: (powers_new _ _ _) => [[ps1 ds1] pb1].
case e2: (all_powers_new _ _ _) => [[ps2 ds2] pb2] [<- <- <-].
have [zs [t1 s1 r1 v1 h1]] := powers_sat h2 ht hs r f e1.
have sz : (size x <= size (x ++ zs))%N by rewrite size_cat leq_addr.
have vv Q : g1_ranged (size x) Q -> g1_val (x ++ zs) Q = g1_val x Q by apply: g1_val_cat.
have [||zt [t3 s3 r3 v3 h3]] := IH _ _ _ _ (x ++ zs) t1 s1 _ _ e2.
- by apply: sub_all rs => Q; apply: g1_ranged_le sz.
- by apply: all_both rs fs => Q hQ; rewrite vv.
exists (zs ++ zt); rewrite catA; split=> //.
- rewrite all_cat r3 andbT; apply: sub_all r1 => Q; apply: g1_ranged_le; by rewrite [X in (_ <= X)%N]size_cat leq_addr.
- rewrite map_cat v3 map_cons; cbn [flatten foldr]; rewrite -v1; congr (_ ++ _).
    by apply: all_map r1 => Q hQ; rewrite g1_val_cat.
  by congr flatten; apply: all_map rs => Q hQ; rewrite vv.
move=> ws d hd; case: (List.in_app_or _ _ _ hd) => {}hd; last exact: h3.
by rewrite -catA; apply: h1.
Qed.

Lemma select_holds (s : mul_step F) x (c : bool) : xval x (ms_scalar s) = (nat_of_bool c)%:R ->
  g1_val x (ms_next s) = (if c then g1_val x (ms_computed s) else g1_val x (ms_cur s)) -> holds (select_constraints s) x.
Proof.
move=> hs hn; rewrite /select_constraints !holds_cons holds_nil /constraint_holds /= !fsE.
rewrite hs.
have [hX hY] : lval x (g1_X (ms_next s)) = (if c then lval x (g1_X (ms_computed s)) else lval x (g1_X (ms_cur s))) /\
  lval x (g1_Y (ms_next s)) = (if c then lval x (g1_Y (ms_computed s)) else lval x (g1_Y (ms_cur s))).
  by case: (c) hn => -[-> ->].
rewrite -!/(lval x _) hX hY; case: (c); rewrite ?mulr1n ?mulr0n ?mul1r ?mul0r ?subrr; by split.
Qed.

Lemma steps_sat pb cur sps result steps pb' x (bs : seq bool) : tidy pb -> size x = size (pb_values pb) ->
  g1_ranged (size x) cur -> g1_ranged (size x) result -> all (fun s => (s.1 <= size x)%N && g1_ranged (size x) s.2) sps ->
  steps_new pb cur sps result = (steps, pb') ->
  sps <> [::] -> [seq xval x s.1 | s <- sps] = [seq (nat_of_bool c)%:R | c <- bs] ->
  steps_ok a (g1_val x cur) (zip bs [seq g1_val x s.2 | s <- sps]) ->
  g1_val x result = foldl step (g1_val x cur) (zip bs [seq g1_val x s.2 | s <- sps]) ->
  exists zs, [/\ tidy pb', size (x ++ zs) = size (pb_values pb') &
    forall ws s, List.In s steps -> holds (g1_add_constraints (ms_adder s) ++ select_constraints s) ((x ++ zs) ++ ws)].
Proof.
elim: sps pb cur steps pb' x bs => [|[s P] sps IH] pb cur steps pb' x [|c bs] // ht hs rc rr.
move=> /andP[/andP[sv rP] rs]; cbn [fst snd] in sv, rP.
have {}rs : all (fun s => (s.1 <= size x)%N && g1_ranged (size x) s.2) sps := rs.
cbn [steps_new]; case e1: (g1_new pb) => [Q pb1].
case e2: (match sps with [::] => _ | _ => _ end) => [next pb2]; case e3: (g1_add_new _ _ _ _) => [g pb3].
case e4: (steps_new _ _ _ _) => [ss pb4] [<- <-] _ [hsc hb].
rewrite [zip _ _]/= steps_ok_cons => /andP[]; cbn [fst snd] => hd ho hres.
have [q eq] : exists q, ec_add a (g1_val x cur) (g1_val x P) = Some q.
  by move: hd; rewrite /distinct_x /g1_val /ec_add => ->; rewrite /ec_line; eexists.
have [t1 s1 r1 v1] := g1_new_facts q [::] ht hs e1.
set x1 := x ++ [:: q.1; q.2] in v1; have z1 : size x1 = (size x).+2 by rewrite size_cat addn2.
(* the next chosen result *)
set R := (if c then ec_add a (g1_val x cur) (g1_val x P) else g1_val x cur).
have [ys [t2 s2 rn vn]] : exists ys, [/\ tidy pb2, size (x1 ++ ys) = size (pb_values pb2), g1_ranged (size (x1 ++ ys)) next & g1_val (x1 ++ ys) next = R].
  case: sps {IH e4 rs} hb ho hres e2 => [|t sps] hb ho hres e2.
    case: e2 => <- <-; exists [::]; rewrite cats0 z1 s1; split=> //; first by apply: g1_ranged_le rr; lia.
    by rewrite /x1 g1_val_cat // hres; case: (bs) hb.
  have [r er] : exists r, R = Some r by rewrite /R eq; case: (c); eexists.
  have [t2 s2 r2 v2] := g1_new_facts r [::] t1 (etrans z1 (esym s1)) e2.
  by exists [:: r.1; r.2]; rewrite er size_cat addn2 s2; split.
set x2 := x1 ++ ys in s2 rn vn.
have l12 : (size x1 <= size x2)%N by rewrite /x2 (size_cat x1) leq_addr.
have vx2 T : g1_ranged (size x) T -> g1_val x2 T = g1_val x T.
  move=> h; rewrite /x2 g1_val_cat; last by apply: g1_ranged_le h; lia.
  by rewrite /x1 g1_val_cat.
have l02 : (size x <= size x2)%N by lia.
have vQ : g1_val x2 Q = Some q by rewrite /x2 g1_val_cat // z1.
have [|||||l [i [t3 s3 h3]]] := add_sat t2 s2 _ _ _ e3.
- by apply: g1_ranged_le rc.
- by apply: g1_ranged_le rP.
- by apply: g1_ranged_le r1; lia.
- by rewrite !vx2.
- by rewrite vQ !vx2.
set x3 := x2 ++ [:: l; i]; have z3 : size x3 = (size x2).+2 by rewrite size_cat addn2.
have l03 : (size x <= size x3)%N by lia.
have vx3 T : g1_ranged (size x) T -> g1_val x3 T = g1_val x T.
  by move=> h; rewrite /x3 g1_val_cat ?vx2 //; apply: g1_ranged_le h.
have vn3 : g1_val x3 next = R by rewrite /x3 g1_val_cat.
have vQ3 : g1_val x3 Q = Some q by rewrite /x3 g1_val_cat //; apply: g1_ranged_le r1; lia.
have ex3 : exists zs, x3 = x ++ zs by exists ([:: q.1; q.2] ++ ys ++ [:: l; i]); rewrite /x3 /x2 /x1 -!catA.
have xv v : (v <= size x)%N -> forall zs, xval (x3 ++ zs) v = xval x v.
  by case: ex3 => zs0 -> h zs; rewrite -catA xval_cat.
have hold ws t : t = MulStep cur Q next g s -> holds (g1_add_constraints (ms_adder t) ++ select_constraints t) (x3 ++ ws).
  move=> ->; rewrite holds_cat; split.
    cbn [ms_adder]; have -> : x3 ++ ws = x2 ++ [:: l, i & ws] by rewrite /x3 -!catA.
    exact: h3.
  apply: (@select_holds _ _ c); cbn [ms_scalar ms_next ms_computed ms_cur].
    by rewrite xv.
  have rn3 : g1_ranged (size x3) next by apply: g1_ranged_le rn; lia.
  have rQ3 : g1_ranged (size x3) Q by apply: g1_ranged_le r1; lia.
  have rc3 : g1_ranged (size x3) cur by apply: g1_ranged_le rc.
  rewrite (g1_val_cat ws rn3) (g1_val_cat ws rQ3) (g1_val_cat ws rc3).
  by rewrite vn3 vQ3 vx3 // /R eq.
case: sps IH hb ho hres e2 e4 rs => [|t sps] IH hb ho hres e2 e4 rs.
  case: e4 => <- <-; case: ex3 => zs0 ex3; exists zs0; rewrite -ex3 z3 s3; split=> //.
  by move=> ws t [<-|[]]; apply: hold.
have [||||||||zs [t5 s5 h5]] := IH _ _ _ _ x3 bs t3 _ _ _ _ e4; rewrite ?z3 //.
- by apply: g1_ranged_le rn; lia.
- by apply: g1_ranged_le rr; lia.
- by apply: sub_all rs => u /andP[h1 h2]; apply/andP; split; [lia | apply: g1_ranged_le h2; lia].
- rewrite -hb; apply: all_map rs => u /andP[h1 h2]; have := xv _ h1 [::]; by rewrite cats0.
- move: ho; rewrite vn3.
  by have -> : [seq g1_val x3 u.2 | u <- t :: sps] = [seq g1_val x u.2 | u <- t :: sps] by apply: all_map rs => u /andP[h1 h2]; rewrite vx3.
- rewrite vx3 // hres vn3.
  by have -> : [seq g1_val x3 u.2 | u <- t :: sps] = [seq g1_val x u.2 | u <- t :: sps] by apply: all_map rs => u /andP[h1 h2]; rewrite vx3.
case: ex3 => zs0 ex3; exists (zs0 ++ zs); rewrite catA -ex3; split=> //.
move=> ws u [<-|hu]; last exact: h5.
by rewrite -catA; apply: hold.
Qed.

(** The multiples are finite whenever no addition is exceptional. *)
Lemma distinct_some (P Q : point F) : distinct_x P Q -> isSome Q.
Proof. by case: P => [[? ?]|] //; case: Q. Qed.
Lemma scalar_ok_finite (R P : point F) (bs : seq bool) : ec_scalar_ok a R P bs -> all isSome (traject dbl P (size bs)).
Proof. by elim: bs R P => [|c bs IH] R P //= /andP[/distinct_some -> /IH ->]. Qed.
Lemma multiscalar_ok_finite (R : point F) (Ps : seq (point F)) (bs : seq (seq bool)) n :
  size bs = size Ps -> all (fun c => size c == n) bs -> ec_multiscalar_ok a R (zip Ps bs) ->
  all (fun P => all isSome (traject dbl P n)) Ps.
Proof.
elim: Ps bs R => [|P Ps IH] [|c bs] R //= [hs] /andP[/eqP hc hb] /andP[/scalar_ok_finite + h]; rewrite hc => ->.
by rewrite (IH _ _ hs hb h).
Qed.

Lemma mul_sat pb base scalars n points result g pb' cs x (bs : seq (seq bool)) :
  2%:R != 0 :> F -> tidy pb -> size x = size (pb_values pb) ->
  g1_ranged (size x) base -> g1_ranged (size x) result -> all (g1_ranged (size x)) points -> all (fun v => (v <= size x)%N) scalars ->
  g1_mul_new pb base scalars n points result = Ok (g, pb') -> g1_mul_constraints a g = Ok cs ->
  size bs = size points -> all (fun c => size c == n) bs ->
  map (xval x) scalars = [seq (nat_of_bool c)%:R | c <- flatten bs] ->
  ec_multiscalar_ok a (g1_val x base) (zip (map (g1_val x) points) bs) ->
  g1_val x result = ec_multiscalar a (g1_val x base) (zip (map (g1_val x) points) bs) ->
  exists zs, size (x ++ zs) = size (pb_values pb') /\ holds cs (x ++ zs).
Proof.
move=> h2 ht hx rb rr rp rs e; have [m [ps [ds [pb1 [steps [en [hz hp] e1 e2 ->]]]]]] := mul_constraints_ok a b e; move=> [<-].
rewrite {}en => s1 s2 hb hok.
rewrite (ec_multiscalar_fold _ _ (n := m.+1)) ?size_map // => hres.
have hf := multiscalar_ok_finite _ s2 hok; rewrite size_map in hf; have {}hf := hf s1.
have [|zs [t1 sz r1 v1 h1]] := all_powers_sat h2 ht hx rp _ e1.
  by move: hf; rewrite seq.all_map.
have [s3 s4] := all_powers_size e1.
move: hok; rewrite (ec_multiscalar_ok_steps _ _ (n := m.+1)) ?size_map // => hok.
have zz : size scalars = size ps by rewrite s3 hz.
have le : (size x <= size (x ++ zs))%N by rewrite size_cat leq_addr.
have vb : g1_val (x ++ zs) base = g1_val x base by rewrite g1_val_cat.
have vr : g1_val (x ++ zs) result = g1_val x result by rewrite g1_val_cat.
have e2m (T : Type) (f : g1_var F -> T) : [seq f s.2 | s <- zip scalars ps] = map f ps.
  by rewrite -{2}(unzip2_zip (s := scalars) (t := ps)) ?zz // /unzip2 -map_comp.
have e1m (T : Type) (f : pb_variable -> T) : [seq f s.1 | s <- zip scalars ps] = map f scalars.
  by rewrite -{2}(unzip1_zip (s := scalars) (t := ps)) ?zz // /unzip1 -map_comp.
have vps : [seq g1_val (x ++ zs) s.2 | s <- zip scalars ps] = flatten [seq traject dbl P m.+1 | P <- map (g1_val x) points].
  by rewrite e2m v1 -map_comp.
have [|||||||zt [t2 sz2 h3]] := steps_sat t1 sz _ _ _ e2 _ (bs := flatten bs).
- by apply: g1_ranged_le rb.
- by apply: g1_ranged_le rr.
- have : all (fun v => (v <= size (x ++ zs))%N) scalars by apply: sub_all rs => v h; lia.
  elim: (scalars) (ps) r1 => [|v vs IH] [|p pl] //= /andP[h3 h4] /andP[h5 h6]; by rewrite h5 h3 IH.
- by move=> /(congr1 size); rewrite size_zip -zz minnn -hz; move: hp; clear; case: (size points).
- by rewrite e1m -hb; apply: all_map rs => v hv; rewrite xval_cat.
- by rewrite vb vps.
- by rewrite vb vr vps.
exists (zs ++ zt); rewrite catA; split=> //.
rewrite /all_constraints holds_cat !holds_flatten; split=> [d hd|s hs].
  exact: h1.
have := h3 [::] s hs; by rewrite cats0.
Qed.
End Sat.
