(** The network as a whole, and the check of a routing. *)
From mathcomp Require Import all_ssreflect zify.
From Verif Require Import Outcome StdMap IntegerPermutation Benes AsWaksman AsWaksmanFacts AsWaksmanNet AsWaksmanRoute.
Set Implicit Arguments.
Unset Strict Implicit.
Unset Printing Implicit Defensive.
Local Arguments aw_num_columns : simpl never.

Section Whole.
Variables (n : nat) (t : aw_topology).
Hypothesis hn : 1 < n.
Notation w := (aw_num_columns n).
Hypothesis ht : tshape t w n.
Hypothesis hnet : net w 0 (w - 1) 0 (n - 1) id t.

Lemma w_odd : odd w. Proof. by have [k ->] := width_odd hn; lia. Qed.
Lemma w_gt0 : 0 < w. Proof. by have := w_odd; case: w. Qed.
Lemma Bn x : between 0 (n - 1) x = (x < n). Proof. by rewrite /between; lia. Qed.

Lemma whole_cols c : c < w -> okcol t c 0 (n - 1) /\ forall x, x < n -> (aw_edges t c x).1 < n.
Proof.
move=> hc; have w0 := w_gt0; have wo := w_odd.
have en : n - 1 - 0 + 1 = n by lia.
have hc2 : 0 <= c <= w - 1 by lia.
have ew : w - 1 - 0 + 1 = w by lia.
have hw : aw_num_columns (n - 1 - 0 + 1) <= w - 1 - 0 + 1 by rewrite en ew.
have ho : odd (w - 1 - 0 + 1) by rewrite ew.
have [h1 h2 h3] := @net_cols w 0 (w - 1) 0 (n - 1) id t (leq0n _) (fun x y _ _ e => e) hnet hw ho c hc2.
split=> // x hx; rewrite -Bn in hx; rewrite -Bn; case: (ltngtP c (w - 1)) => hcw.
- exact: h2.
- by clear - hc hcw; lia.
- by rewrite h3.
Qed.
Lemma whole_inj c x y : c < w -> x < n -> y < n -> (aw_edges t c x).1 = (aw_edges t c y).1 -> x = y.
Proof. by move=> hc hx hy; have [[h _] _] := whole_cols hc; apply: h; rewrite Bn. Qed.
Lemma whole_row c x : c < w -> x < n -> let e := aw_edges t c x in
  [\/ e.1 = e.2, [/\ e.1 <> e.2, x.+1 < n & aw_edges t c x.+1 = (e.2, e.1)] |
      [/\ e.1 <> e.2, 0 < x & aw_edges t c x.-1 = (e.2, e.1)]].
Proof.
move=> hc hx /=; have [[_ h] _] := whole_cols hc; have := h x; rewrite Bn => /(_ hx) /=.
case: (@eqP _ (aw_edges t c x).1 (aw_edges t c x).2) => [e|ne]; first by move=> _; apply: Or31.
case=> [//|[h1 h2]|[h1 h2]]; first by apply: Or32; split=> //; clear - h1; lia.
by apply: Or33.
Qed.

(** A position is the top of a switch, the bottom of one, or a wire. *)
Variable rt : aw_routing.
Definition mate c x := if aw_switch_at t c x then x.+1 else x.-1.
Definition top c x := if aw_switch_at t c x then x else x.-1.
Definition goes c x :=
  if (aw_edges t c x).1 == (aw_edges t c x).2 then x
  else if aw_bit rt c (top c x) == Some true then mate c x else x.
Lemma row_switch c x : c < w -> x < n -> (aw_edges t c x).1 <> (aw_edges t c x).2 ->
  (aw_switch_at t c x /\ [/\ x.+1 < n, aw_edges t c x.+1 = ((aw_edges t c x).2, (aw_edges t c x).1) & aw_switch_at t c x.+1 = false]) \/
  (aw_switch_at t c x = false /\ [/\ 0 < x, aw_edges t c x.-1 = ((aw_edges t c x).2, (aw_edges t c x).1) & aw_switch_at t c x.-1]).
Proof.
move=> hc hx ne; case: (whole_row hc hx) => [//|[_ h1 h2]|[_ h1 h2]].
- left; set e := aw_edges t c x in ne h2 *.
  have [s1 s2 _ _] := @next_switch t w n ht whole_inj rt c x e.1 e.2 hc h1 ne (surjective_pairing _) h2.
  by rewrite s1 s2.
- right; set e := aw_edges t c x in ne h2 *; have ex : x = x.-1.+1 by clear - h1; lia.
  have [|||s1 s2 _ _] := @next_switch t w n ht whole_inj rt c x.-1 e.2 e.1 hc _ _ h2.
  + by rewrite -ex.
  + by move=> h; apply: ne.
  + by rewrite -ex -/e -surjective_pairing.
  by rewrite -ex in s2; rewrite s1 s2.
Qed.
Lemma next_goes c x : c < w -> x < n -> aw_next t rt c x = (aw_edges t c (goes c x)).1 /\ goes c x < n.
Proof.
move=> hc hx; rewrite /aw_next /goes -/(top c x).
case: (@eqP _ (aw_edges t c x).1 (aw_edges t c x).2) => // ne; case: ifP => // _.
case: (row_switch hc hx ne) => [[s1 [h1 h2 s2]]|[s1 [h1 h2 s2]]].
- by rewrite /mate s1 h2.
- by rewrite /mate s1 h2; split=> //; clear - hx; lia.
Qed.
Lemma goes_inj c x y : c < w -> x < n -> y < n -> goes c x = goes c y -> x = y.
Proof.
move=> hc hx hy.
have P z : z < n -> (goes c z = z) \/ [/\ goes c z = mate c z, aw_bit rt c (top c z) = Some true,
    mate c (mate c z) = z, top c (mate c z) = top c z & mate c z < n /\ (aw_edges t c (mate c z)).1 <> (aw_edges t c (mate c z)).2].
  move=> hz; rewrite /goes; case: (@eqP _ (aw_edges t c z).1 _) => [_|ne]; first by left.
  case: (@eqP _ _ (Some true)) => [e|_]; last by left.
  right; case: (row_switch hc hz ne) => [[s1 [h1 h2 s2]]|[s1 [h1 h2 s2]]].
  + by rewrite /mate /top s1 s2 h2 in e *; split=> //; split=> // h; apply: ne.
  + have em : mate c z = z.-1 by rewrite /mate s1.
    have ez : z.-1.+1 = z by clear - h1; lia.
    rewrite em /top s1 s2 h2 {1}/mate s2 ez in e *; split=> //; split; first by clear - hz; lia.
    by move=> h; apply: ne.
have Q z u : z < n -> goes c z = mate c z -> aw_bit rt c (top c z) = Some true -> mate c (mate c z) = z ->
    top c (mate c z) = top c z -> (aw_edges t c (mate c z)).1 <> (aw_edges t c (mate c z)).2 -> goes c u = u -> goes c z = u -> u = z.
  move=> hz e1 e2 e3 e4 ne e5 e6.
  have eu : u = mate c z by rewrite -e6 e1.
  move: e5; rewrite eu /goes e4 e2 eqxx e3; case: eqP => // _ e; by rewrite -e.
case: (P x hx) => [ex|[a1 a2 a3 a4 [a5 a6]]]; case: (P y hy) => [ey|[b1 b2 b3 b4 [b5 b6]]].
- by rewrite ex ey.
- by rewrite ex => e; apply: (Q y x).
- by rewrite ey => e; apply/esym; apply: (Q x y).
- by rewrite a1 b1 => e; rewrite -a3 e b3.
Qed.
Lemma next_inj c x y : c < w -> x < n -> y < n -> aw_next t rt c x = aw_next t rt c y -> x = y.
Proof.
move=> hc hx hy; have [-> h1] := next_goes hc hx; have [-> h2] := next_goes hc hy.
by move/(whole_inj hc h1 h2); apply: goes_inj.
Qed.
Lemma next_lt c x : c < w -> x < n -> aw_next t rt c x < n.
Proof. by move=> hc hx; have [-> h1] := next_goes hc hx; have [_ h] := whole_cols hc; apply: h. Qed.
Lemma aw_follow_lt c m x : c + m <= w -> x < n -> aw_follow t rt c m x < n.
Proof.
elim: m c x => [|m IH] c x h hx //=; apply: IH; first by lia.
by apply: next_lt => //; lia.
Qed.

(** * The check *)
Hypothesis hsz : size rt = w.
Hypothesis hkeys : forall c x, c < w -> x < n -> isSome (aw_bit rt c x) = aw_switch_at t c x.

Lemma check_packetE c cur nx x : c < w -> x < n -> ip_wf cur -> ip_bounds cur 0 (n - 1) ->
  aw_check_packet t rt c cur nx x = ip_set nx (aw_next t rt c x) (ip_at cur x).
Proof.
move=> hc hx wc bc; case: (ht) => h1 h2; rewrite /aw_check_packet (oget_nth [::]) ?h1 //= (oget_nth (0, 0)) ?h2 //=.
rewrite -/(aw_edges t c x) (ip_get_ok wc bc) ?Bn // /aw_next.
set e := aw_edges t c x; case: (@eqP _ e.1 e.2) => // ne.
rewrite rt_findE ?hsz //=; case: (row_switch hc hx ne) => [[s1 [k1 k2 s2]]|[s1 [k1 k2 s2]]].
- have E : (if x is p.+1 then rt_find rt c p else Ok None) = Ok None.
    case: x hx {ne} @e s1 k1 k2 s2 => [|x] hx e s1 k1 k2 s2 //; rewrite rt_findE ?hsz //; congr Ok.
    have hx' : x < n by clear - hx; lia.
    have := hkeys hc hx'; case: (boolP (aw_switch_at t c x)) => [sx|_]; last by case: (aw_bit _ _ _).
    have nx' : (aw_edges t c x).1 <> (aw_edges t c x).2 by move: sx; rewrite /aw_switch_at => /andP [/eqP].
    case: (row_switch hc hx' nx') => [[_ [_ _]]|[]]; first by rewrite s1.
    by rewrite sx.
  rewrite E /= s1; have := hkeys hc hx; rewrite s1; case: (aw_bit rt c x) => // b _ /=.
  by case: b.
- have ex : x = x.-1.+1 by clear - k1; lia.
  have E : (if x is p.+1 then rt_find rt c p else Ok None) = Ok (aw_bit rt c x.-1).
    by rewrite ex /= rt_findE ?hsz.
  have hx' : x.-1 < n by clear - hx; lia.
  rewrite E /= s1; have := hkeys hc hx; rewrite s1; case: (aw_bit rt c x) => // _ /=.
  by have := hkeys hc hx'; rewrite s2; case: (aw_bit rt c x.-1) => // b _ /=; case: b.
Qed.

Lemma check_column c cur : c < w -> ip_wf cur -> ip_bounds cur 0 (n - 1) ->
  exists nx, [/\ ofold (aw_check_packet t rt c cur) (ip_of_size n) (iota 0 n) = Ok nx, ip_wf nx, ip_bounds nx 0 (n - 1) &
    forall x, x < n -> ip_at nx (aw_next t rt c x) = ip_at cur x].
Proof.
move=> hc wc bc.
have K k : forall a nx, ip_wf nx -> ip_bounds nx 0 (n - 1) -> a + k <= n ->
  exists nx', [/\ ofold (aw_check_packet t rt c cur) nx (iota a k) = Ok nx', ip_wf nx', ip_bounds nx' 0 (n - 1),
    forall x, a <= x < a + k -> ip_at nx' (aw_next t rt c x) = ip_at cur x &
    forall x, x < a -> ip_at nx' (aw_next t rt c x) = ip_at nx (aw_next t rt c x)].
  elim: k => [|k IH] a nx wn bn hk; first by exists nx; split=> // x; lia.
  have ha : a < n by lia.
  rewrite [iota _ _]/= ofold_cons check_packetE //.
  have [|nx1 [-> w1 b1 g1]] := ip_set_ok (ip_at cur a) wn bn (i := aw_next t rt c a); first by rewrite Bn next_lt.
  have [|nx2 [e2 w2 b2 g2 g3]] := IH a.+1 nx1 w1 b1; first by lia.
  rewrite obindE e2; exists nx2; split=> // x hx.
    case: (ltngtP x a) => hxa; [by lia|by apply: g2; lia|].
    by rewrite hxa g3 // g1 ?eqxx // Bn next_lt.
  have hxn : x < n by lia.
  rewrite g3; last by lia.
  rewrite g1 ?Bn ?next_lt //; case: eqP => // e.
  by have := next_inj hc hxn ha e; lia.
have [||nx [e1 w1 b1 g1 _]] := K n 0 (ip_of_size n) _ _ (leqnn _).
- have [p [e wp _ _]] := ip_of_size_ok (n - 1); by have -> : n = (n - 1).+1 by [lia]; rewrite e.
- have [p [e _ bp _]] := ip_of_size_ok (n - 1); have <- : (n - 1).+1 = n by lia.
  by rewrite e; have -> : (n - 1).+1 - 1 = n - 1 by lia.
by exists nx; split.
Qed.

Lemma check_all k : forall c cur, c + k <= w -> ip_wf cur -> ip_bounds cur 0 (n - 1) ->
  exists res, [/\ ofold (fun cur column => ofold (aw_check_packet t rt column cur) (ip_of_size n) (iota 0 n)) cur (iota c k) = Ok res,
    ip_wf res, ip_bounds res 0 (n - 1) & forall x, x < n -> ip_at res (aw_follow t rt c k x) = ip_at cur x].
Proof.
elim: k => [|k IH] c cur hk wc bc; first by exists cur.
have hc : c < w by lia.
have [nx [e1 w1 b1 g1]] := check_column hc wc bc.
rewrite [iota _ _]/= ofold_cons e1 obindE.
have [|res [e2 w2 b2 g2]] := IH c.+1 nx _ w1 b1; first by lia.
by exists res; split=> // x hx; rewrite /= g2 ?g1 //; apply: next_lt.
Qed.

Lemma validE unset p : aw_generate unset n = Ok t -> ip_wf p -> ip_bounds p 0 (n - 1) -> bijection_on 0 (n - 1) (ip_at p) ->
  exists b, valid_as_waksman_routing unset p rt = Ok b /\
    (b <-> forall x, x < n -> aw_follow t rt 0 w x = ip_at p x).
Proof.
move=> hg wp bp hb; have es : ip_size p = n by case: (bp) => e1 e2; rewrite /ip_size e2 e1; lia.
rewrite /valid_as_waksman_routing es hg obindE.
have [q [eq wq bq aq]] := ip_of_size_ok (n - 1).
have en : (n - 1).+1 = n by lia.
rewrite en in eq.
have [||res [e1 w1 b1 g1]] := @check_all w 0 (ip_of_size n) (leqnn _); [by rewrite eq|by rewrite eq|].
rewrite e1 obindE; have [v [-> wv bv av]] := ip_inverse_ok wp bp hb; rewrite obindE.
exists (ip_eq res v); split=> //.
have G x : x < n -> ip_at res (aw_follow t rt 0 w x) = x by move=> hx; rewrite g1 // eq aq //; lia.
have [hb1 hb2 hb3] := hb.
have [hv1 hv2] := bijection_inverse hb av.
split=> [he x hx|h].
  have evr : res = v.
    apply: (ip_ext w1 wv b1 bv) => i hi; case/and3P: he => _ _ /eqP e.
    by rewrite /ip_at e; case: b1 => -> _; case: bv => -> _.
  have hf : between 0 (n - 1) (aw_follow t rt 0 w x) by rewrite Bn; apply: aw_follow_lt.
  by have := G x hx; rewrite evr => e; rewrite -(hv2 _ hf) e.
have -> : res = v.
  apply: (ip_ext w1 wv b1 bv) => i hi; have [x hx <-] := hb3 i hi.
  by rewrite av //; rewrite Bn in hx; rewrite -h // G.
by rewrite /ip_eq !eqxx.
Qed.
End Whole.

(** * The computed routing *)
Lemma get_routing_ok n t p : 1 < n -> tshape t (aw_num_columns n) n ->
  net (aw_num_columns n) 0 (aw_num_columns n - 1) 0 (n - 1) id t ->
  ip_wf p -> ip_bounds p 0 (n - 1) -> bijection_on 0 (n - 1) (ip_at p) ->
  exists rt, [/\ get_as_waksman_routing p = Ok rt, size rt = aw_num_columns n,
    forall c x, x < n -> c < aw_num_columns n -> isSome (aw_bit rt c x) = aw_switch_at t c x,
    forall c x, n <= x -> aw_bit rt c x = None &
    forall x, x < n -> aw_follow t rt 0 (aw_num_columns n) x = ip_at p x].
Proof.
move=> hn ht hnet wp bp hb; have es : ip_size p = n by case: (bp) => e1 e2; rewrite /ip_size e2 e1; lia.
rewrite /get_as_waksman_routing es; have [v [-> wv bv av]] := ip_inverse_ok wp bp hb; rewrite obindE.
have [hb1 hb2 hb3] := hb; have [[hv1 _ _] hv2] := bijection_inverse hb av.
set w := aw_num_columns n in ht hnet *.
have ew : w = (w - 1).+1 by have := w_gt0 hn; rewrite -/w; lia.
have wo : odd w := w_odd hn.
rewrite {1}ew.
have en : n - 1 - 0 + 1 = n by lia.
have inj := whole_inj hn hnet.
have [||||||||||rt [e1 s1 fr k1 f1]] := @route_inner_ok t w n ht inj w 0 (w - 1) 0 (n - 1) id p v (nseq w [::]) hnet (fun x y _ _ e => e)
   (leq0n _) _ (leq0n _) _ _ _ _ _ wp bp wv bv _ _.
- by lia.
- by rewrite ew; lia.
- by lia.
- by rewrite en -/w; lia.
- by have -> : w - 1 - 0 + 1 = w by lia.
- by right; rewrite en -/w; lia.
- by move=> x hx; split; [apply: hb1|apply: av].
- by move=> x hx; split; [apply: hv1|apply: hv2].
- by rewrite size_nseq.
- by move=> c x _ _; rewrite /aw_bit nth_nseq; case: ifP.
exists rt; split=> //.
- by move=> c x hx hc; apply: k1; [lia|rewrite Bn].
- move=> c x hx; rewrite fr; last by rewrite /between; lia.
  by rewrite /aw_bit nth_nseq; case: ifP.
- move=> x hx; have <- : w - 1 + 1 - 0 = w by lia.
  by apply: f1 => //; rewrite Bn.
Qed.
