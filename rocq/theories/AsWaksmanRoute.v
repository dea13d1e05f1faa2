(** Routing on the topology built by generate_as_waksman_topology. *)
From mathcomp Require Import all_ssreflect zify.
From Verif Require Import Outcome StdMap IntegerPermutation Benes AsWaksman AsWaksmanFacts AsWaksmanNet.
Set Implicit Arguments.
Unset Strict Implicit.
Unset Printing Implicit Defensive.
Local Arguments aw_num_columns : simpl never.
Local Arguments aw_loop : simpl never.
Local Arguments aw_init : simpl never.

Lemma follow_cat t r n m c x : aw_follow t r c (n + m) x = aw_follow t r (c + n) m (aw_follow t r c n x).
Proof.
elim: n c x => [|n IH] c x; first by rewrite addn0.
by rewrite /= IH addSnnS.
Qed.

(** * Steps through one column *)
Section Column.
Variables (t : aw_topology) (nc np : nat).
Hypothesis ht : tshape t nc np.
Hypothesis inj : forall c x y, c < nc -> x < np -> y < np -> (aw_edges t c x).1 = (aw_edges t c y).1 -> x = y.

Lemma edges_out c x : c < nc -> np <= x -> aw_edges t c x = (0, 0).
Proof. by case: ht => _ h hc hx; rewrite /aw_edges nth_default // h. Qed.

Lemma next_wire rt c x a : aw_edges t c x = (a, a) -> aw_next t rt c x = a /\ aw_switch_at t c x = false.
Proof. by rewrite /aw_next /aw_switch_at => -> /=; rewrite eqxx. Qed.

Lemma next_switch rt c x a b : c < nc -> x.+1 < np -> a <> b ->
  aw_edges t c x = (a, b) -> aw_edges t c x.+1 = (b, a) ->
  [/\ aw_switch_at t c x, aw_switch_at t c x.+1 = false,
      aw_next t rt c x = (if aw_bit rt c x == Some true then b else a) &
      aw_next t rt c x.+1 = (if aw_bit rt c x == Some true then a else b)].
Proof.
move=> hc hx ne e1 e2; have nab : (a == b) = false by apply/eqP.
have nba : (b == a) = false by rewrite eq_sym.
have s1 : aw_switch_at t c x by rewrite /aw_switch_at e1 e2 /= nab eqxx.
have s2 : aw_switch_at t c x.+1 = false.
  rewrite /aw_switch_at e2 /= nba /=; apply/eqP => e3.
  case: (ltnP x.+2 np) => h.
    have := @inj c x x.+2 hc _ h; rewrite e1 e3 => /(_ _ erefl) H.
    by have := H (ltnW hx); clear; lia.
  by move: e3; rewrite edges_out // => -[h1 h2]; apply: ne; rewrite -h1 -h2.
by split=> //; rewrite /aw_next ?s1 ?s2 ?e1 ?e2 /= ?nab ?nba.
Qed.

Lemma next_pair rt c lo hi g x : c < nc -> hi < np -> between lo hi x -> paired_in lo hi x ->
  (forall y, y = x \/ y = aw_other lo x -> aw_edges t c y = (g y, g (aw_other lo y))) -> g x <> g (aw_other lo x) ->
  aw_switch_at t c x = (x == aw_canonical lo x) /\
  aw_next t rt c x = if aw_bit rt c (aw_canonical lo x) == Some true then g (aw_other lo x) else g x.
Proof.
move=> hc hh hx px he hg.
have e1 := he x (or_introl erefl); have e2 := he _ (or_intror erefl); rewrite (otherK hx) in e2.
case: (boolP (x == aw_canonical lo x)) => hcx.
  have [eo hlt] := top_other hx px hcx; rewrite eo addn1 in e1 e2 hg *.
  have [|s1 _ n1 _] := next_switch rt hc _ hg e1 e2; first by clear - hlt hh; lia.
  by rewrite s1 n1 -(eqP hcx).
have [eo hlt] := bottom_other hx hcx; rewrite eo in e1 e2 hg *.
have ex : x = (x - 1).+1 by clear - hlt; lia.
have ec : aw_canonical lo x = x - 1 by rewrite (canonE hx) (negbTE hcx).
have [|||s1 s2 n1 n2] := @next_switch rt c (x - 1) (g (x - 1)) (g x) hc _ _ e2.
- by move: hx; rewrite -ex /between; clear - hh; lia.
- by move=> e; apply: hg.
- by rewrite -ex.
by rewrite -ex in s2 n2; rewrite s2 n2 ec; case: ifP.
Qed.

(** * The recursion *)
Lemma setting_top lo hi z u : between lo hi z -> paired_in lo hi z ->
  aw_canonical lo z + ~~ u = if aw_setting lo z u then aw_other lo z else z.
Proof.
move=> hz pz; rewrite /aw_setting; case: (boolP (z == aw_canonical lo z)) => hc.
  have [-> _] := top_other hz pz hc; rewrite -(eqP hc); case: u => /=; rewrite ?addn0 //.
have [-> h] := bottom_other hz hc; rewrite (canonE hz) (negbTE hc); case: u => /=; clear - h; lia.
Qed.

Lemma route_inner_ok f l r lo hi D p pinv rt :
  net f l r lo hi D t -> (forall x y, between lo hi x -> between lo hi y -> D x = D y -> x = y) ->
  lo <= hi -> hi < np -> l <= r -> r < nc -> r + 1 - l <= f ->
  aw_num_columns (hi - lo + 1) <= r - l + 1 -> odd (r - l + 1) ->
  0 < l \/ aw_num_columns (hi - lo + 1) = r - l + 1 ->
  ip_wf p -> ip_bounds p lo hi -> ip_wf pinv -> ip_bounds pinv lo hi ->
  (forall x, between lo hi x -> between lo hi (ip_at p x) /\ ip_at pinv (ip_at p x) = x) ->
  (forall x, between lo hi x -> between lo hi (ip_at pinv x) /\ ip_at p (ip_at pinv x) = x) ->
  size rt = nc -> (forall c x, l <= c <= r -> between lo hi x -> aw_bit rt c x = None) ->
  exists rt', [/\ aw_route_inner f l r lo hi p pinv rt = Ok rt', size rt' = nc,
    forall c x, ~~ ((l <= c <= r) && between lo hi x) -> aw_bit rt' c x = aw_bit rt c x,
    forall c x, l <= c <= r -> between lo hi x -> isSome (aw_bit rt' c x) = aw_switch_at t c x &
    forall rt2, (forall c x, l <= c <= r -> between lo hi x -> aw_bit rt2 c x = aw_bit rt' c x) ->
      forall x, between lo hi x -> aw_follow t rt2 l (r + 1 - l) x = D (ip_at p x)].
Proof.
elim: f l r lo hi D p pinv rt => [|f IH] l r lo hi D p pinv rt hnet hD hlh hh hlr hr hf hw ho hz wp bp wi bi hp hpi hsz hno.
  by exfalso; clear - hlr hf; lia.
rewrite [aw_route_inner _ _ _ _ _ _ _ _]/=; move: hnet; rewrite [net _ _ _ _ _ _ _]/=.
have hrl : (r < l) = false by clear - hlr; lia.
rewrite hrl; set s := hi - lo + 1; rewrite hw /=.
have hlc : l < nc by clear - hlr hr; lia.
case: (boolP (aw_num_columns s < r - l + 1)) => hw2.
- case=> h1 h2 h3.
  case: r hr hlr hf hw ho hz hrl hw2 h1 h2 h3 hno => [|r] hr hlr hf hw ho hz hrl hw2 h1 h2 h3 hno.
    by exfalso; case: hz => hz; move: hz hrl hw2; rewrite -?/s; clear; lia.
  case: (ltnP l r.+1) => hlr1; last first.
    have e1 : r.+1 = l by clear - hlr hlr1; lia.
    have hlt : r < l.+1 by clear - e1; lia.
    have ew : aw_num_columns s = 0 by move: hw2; rewrite e1; clear; lia.
    have es : hi = lo.
      case: (ltnP 1 s) => hs; last by move: hs; rewrite /s; clear - hlh; lia.
      by have [k ek] := width_odd hs; move: ew; rewrite ek.
    have -> : aw_route_inner f l.+1 r lo hi p pinv rt = Ok rt by case: (f) => [|f'] /=; rewrite hlt.
    exists rt; split=> // [c x hc hx|rt2 a2 x hx].
      rewrite hno //; have ec : c = r.+1 by clear - hc e1; lia.
      by rewrite ec; have [_ ->] := next_wire rt (h2 x hx).
    have -> : r.+1 + 1 - l = 1 by clear - e1; lia.
    rewrite /= -e1; have [-> _] := next_wire rt2 (h2 x hx).
    congr D; have [h _] := hp x hx; move: h hx; rewrite es /between; clear; lia.
  have w1 : aw_num_columns s <= r - l.+1 + 1.
    case: (ltnP 1 s) => hs; last by rewrite /aw_num_columns ltnNge hs.
    by have [k ek] := width_odd hs; move: hw2 ho; rewrite ek; clear; lia.
  have o1 : odd (r - l.+1 + 1) by move: ho; clear; lia.
  have hlr2 : l < r by clear - hlr1 ho; lia.
  have [|||||rt' [e' s' fr' k' n']] := IH l.+1 r lo hi id p pinv rt h3 _ hlh hh hlr2 _ _ w1 o1 _ wp bp wi bi hp hpi hsz.
  - by [].
  - by clear - hr; lia.
  - by clear - hf; lia.
  - by left.
  - by move=> c x hc; apply: hno; clear - hc; lia.
  exists rt'; split=> //.
  - by move=> c x hc; apply: fr'; apply: contra hc => /andP [h ->]; rewrite andbT; clear - h; lia.
  - move=> c x hc hx; case: (boolP (l < c <= r)) => hc2; first exact: k'.
    rewrite fr' ?hno ?(negbTE hc2) //; have [->|->] : c = l \/ c = r.+1 by clear - hc hc2; lia.
      by have [_ ->] := next_wire rt (h1 hlr1 x hx).
    by have [_ ->] := next_wire rt (h2 x hx).
  - move=> rt2 a2 x hx; have -> : r.+1 + 1 - l = 1 + (r + 1 - l.+1) + 1 by clear - hlr1; lia.
    rewrite !follow_cat [aw_follow _ _ l 1 x]/=; have [-> _] := next_wire rt2 (h1 hlr1 x hx).
    rewrite [l + 1]addn1 n' //; last by move=> c y hc; apply: a2; clear - hc; lia.
    have -> : l + (1 + (r + 1 - l.+1)) = r.+1 by clear - hlr1; lia.
    by rewrite /=; have [h _] := hp x hx; have [-> _] := next_wire rt2 (h2 _ h).
case: ifP => [/eqP hs2 hnet|hs2].
- have ew : aw_num_columns s = 1 by rewrite hs2.
  have er : r = l by move: hw2 hrl; rewrite ew; clear; lia.
  have eh : hi = lo.+1 by move: hs2; rewrite /s; clear; lia.
  have Blo : between lo hi lo by rewrite /between eh; clear; lia.
  have Bhi : between lo hi lo.+1 by rewrite /between eh; clear; lia.
  rewrite addn1 !(ip_get_ok wp bp) //=.
  have [[q1 q1i] [q2 q2i]] := (hp _ Blo, hp _ Bhi).
  have v1 : (ip_at p lo == lo) || (ip_at p lo == lo.+1) by move: q1; rewrite eh /between; clear; lia.
  have v2 : (ip_at p lo.+1 == lo) || (ip_at p lo.+1 == lo.+1) by move: q2; rewrite eh /between; clear; lia.
  have v3 : ip_at p lo != ip_at p lo.+1.
    by apply/eqP => e; move: q2i; rewrite -e q1i; clear; lia.
  rewrite v1 v2 v3 /=.
  have [|rt' [-> s' g']] := rt_putE lo (ip_at p lo != lo) (c := l) (r := rt); first by rewrite hsz.
  exists rt'; split=> //; first by rewrite s'.
  - move=> c x hc; rewrite g'; case: ifP => // /andP [/eqP ec /eqP ex].
    by move: hc; rewrite ec ex Blo er leqnn.
  - move=> c x hc hx; have ec : c = l by clear - hc er; lia.
    have px : paired_in lo hi x by rewrite /paired_in /isodd_in -/s hs2.
    have [|||-> _] := @next_pair rt c lo hi D x _ hh hx px.
    + by rewrite ec.
    + move=> y hy; rewrite ec hnet //; case: hy => ->//; exact: B_other.
    + by move/(hD _ _ hx (B_other hx px)) => e; have := other_neq hx; rewrite -e eqxx.
    rewrite g' ec eqxx /=; case: (@eqP _ x lo) => [->|ne] /=.
      by rewrite /aw_canonical; clear; lia.
    rewrite hno //; last by clear - hlr; lia.
    by move: hx ne; rewrite eh /between /aw_canonical /=; clear; lia.
  - move=> rt2 a2 x hx; have -> : r + 1 - l = 1 by rewrite er; clear; lia.
    have px : paired_in lo hi x by rewrite /paired_in /isodd_in -/s hs2.
    have [||_ /= ->] := @next_pair rt2 l lo hi D x hlc hh hx px.
    + move=> y hy; rewrite hnet //; case: hy => ->//; exact: B_other.
    + by move/(hD _ _ hx (B_other hx px)) => e; have := other_neq hx; rewrite -e eqxx.
    have ec : aw_canonical lo x = lo by move: hx; rewrite eh /between /aw_canonical; clear; lia.
    rewrite ec a2 // ?er ?leqnn // g' !eqxx /=.
    have [ex|ex] : x = lo \/ x = lo.+1 by move: hx; rewrite eh /between; clear; lia.
      rewrite ex; case: (@eqP _ (ip_at p lo) lo) => [->|ne] //.
      by congr D; rewrite /aw_other /aw_canonical; move: v1 ne; clear; lia.
    rewrite ex; case: (@eqP _ (ip_at p lo) lo) => [e|ne] /=.
      by congr D; move: v2 v3; rewrite e; clear; lia.
    by congr D; rewrite /aw_other /aw_canonical; move: v1 v2 v3 ne; clear; lia.
have hs3 : 2 < s.
  case: (ltnP 1 s) => hs; first by move: hs hs2; clear; lia.
  have e0 : aw_num_columns s = 0 by rewrite /aw_num_columns ltnNge hs.
  by move: hw2; rewrite e0; clear; lia.
have hs3' : lo + 2 <= hi by move: hs3; rewrite /s; clear; lia.
have w3 := width_ge3 hs3.
have hlr3 : l + 2 <= r by move: hw w3; rewrite -/s; clear; lia.
have hlr1 : l < r by clear - hlr3; lia.
case=> h1 h2 h3 h4.
have [|T0 [st0 [e0 v0 hd0]]] := init_ok hlr1 hr hs3' wp bp hp hpi hsz (left := l) (pinv := pinv).
  by move=> c x hc; apply: hno; clear - hc hlr1; lia.
have eN : (s - count id (aw_routed st0)) <= s by apply: leq_subr.
have [|T [st [e1 v rd]]] := loop_ok hlr1 hr hs3' wp bp wi bi hp hpi v0 hd0 (fuel := (2 * s).+2).
  by rewrite -/s; move: eN; case: (aw_left st0); clear; lia.
rewrite -/s in e0 e1; rewrite e0 obindE e1 obindE {e0 e1 v0 hd0 eN T0 st0}.
have Bh : between lo hi hi by rewrite /between hlh leqnn.
have Bh1 : between lo hi (hi - 1) by rewrite /between; clear - hs3'; lia.
have io : (s %% 2 == 0) = ~~ isodd_in lo hi by rewrite /isodd_in -/s; clear; lia.
(* the decisions *)
have TB x : between lo hi x -> paired_in lo hi x -> T (aw_other lo x) = ~~ T x.
  by move=> hx px; apply: (i_B v) => //; apply: rd => //; apply: B_other.
have TC x : between lo hi x -> paired_in lo hi (ip_at p x) -> T (twin lo p pinv x) = ~~ T x.
  move=> hx px; apply: (i_C v) => //; apply: rd => //.
  by rewrite /twin; have [h _] := hp x hx; have [] := hpi _ (B_other h px).
have T1 x : between lo hi x -> ~~ paired_in lo hi x -> T x = false.
  by move=> hx; rewrite /paired_in negbK => /andP [od ex]; apply: (i_T v) => //; [apply: rd|rewrite ex].
have T2 x : between lo hi x -> ~~ paired_in lo hi (ip_at p x) -> T x = false.
  by move=> hx; rewrite /paired_in negbK => /andP [od ex]; apply: (i_T v) => //; [apply: rd|rewrite ex orbT].
have TE : ~~ isodd_in lo hi -> T hi = false by move=> ev; apply: (i_even v) => //; apply: rd.
(* the routing of the outer columns *)
have [rt1 [-> s1 g1]] : exists rt1, [/\ (if s %% 2 == 0 then rt_erase (aw_rt st) l (hi - 1) else Ok (aw_rt st)) = Ok rt1,
    size rt1 = nc & forall c x, aw_bit rt1 c x = if [&& ~~ isodd_in lo hi, c == l & x == hi - 1] then None else aw_bit (aw_rt st) c x].
  rewrite io; case: (boolP (isodd_in lo hi)) => od /=; first by exists (aw_rt st); split=> //; apply: (i_rt v).
  have [|rt1 [e1 z1 k1]] := @rt_eraseE (aw_rt st) l (hi - 1); first by rewrite (i_rt v).
  by exists rt1; split=> //; rewrite z1; apply: (i_rt v).
rewrite obindE /aw_top_height; set d := s %/ 2.
have d0 : 0 < d by rewrite /d; clear - hs3; lia.
have ds : d <= s - s %/ 2 by rewrite /d; clear; lia.
have d1 : lo + d <= hi by rewrite /d /s; clear - hs3'; lia.
have hlo : lo <= lo + d - 1 by clear - d0; lia.
have d2 : lo + d - 1 <= hi by clear - d1; lia.
have d3 : lo <= lo + d by clear; lia.
have Bt x : between lo (lo + d - 1) x -> between lo hi x by rewrite /between; clear - d0 d1; lia.
have Bb x : between (lo + d) hi x -> between lo hi x by rewrite /between; clear; lia.
have ewt : lo + d - 1 - lo + 1 = d by clear - d0; lia.
have ewb : hi - (lo + d) + 1 = s - s %/ 2 by rewrite /d /s; clear; lia.
have wt := width_half hs3 ds.
have wb := width_half hs3 (leqnn _).
have [wP bP wI bI] := And4 (i_wp v) (i_bp v) (i_wi v) (i_bi v).
have [pu [-> wpu bpu apu]] := ip_slice_ok wP bP (leqnn _) hlo d2; rewrite obindE.
have [pl [-> wpl bpl apl]] := ip_slice_ok wP bP d3 d1 (leqnn _); rewrite obindE.
have [iu [-> wiu biu aiu]] := ip_slice_ok wI bI (leqnn _) hlo d2; rewrite obindE.
have [il [-> wil bil ail]] := ip_slice_ok wI bI d3 d1 (leqnn _); rewrite obindE.
(* the inner permutations *)
have P x : between lo hi x -> ip_at (aw_perm st) (pos_in lo hi x (T x)) = pos_in lo hi (ip_at p x) (T x) /\
    ip_at (aw_inv st) (pos_in lo hi (ip_at p x) (T x)) = pos_in lo hi x (T x).
  by move=> hx; apply: (i_P v) => //; apply: rd.
have PH x : between lo hi x -> (pos_in lo hi x (T x) < lo + d) = T x /\ (pos_in lo hi (ip_at p x) (T x) < lo + d) = T x.
  by move=> hx; split; apply: pos_half => //; [apply: T1|have [] := hp x hx|apply: T2].
have onto u : between lo hi u -> exists x, [/\ between lo hi x, pos_in lo hi x (T x) = u & T x = (u < lo + d)].
  by move=> hu; apply: pos_onto => // od; apply: (i_T v) => //; [apply: rd|rewrite eqxx].
have onto2 u : between lo hi u -> exists x, [/\ between lo hi x, pos_in lo hi (ip_at p x) (T x) = u & T x = (u < lo + d)].
  move=> hu; have [||y [By e1 e2]] := @pos_onto lo hi u (fun y => T (ip_at pinv y)) hu.
  - move=> y By py; have [h1' h2'] := hpi y By.
    by rewrite -(TC _ h1') ?h2' // /twin h2'.
  - move=> od; have [h1' h2'] := hpi hi Bh; apply: T2 => //.
    by rewrite h2' /paired_in od eqxx.
  have [h1' h2'] := hpi y By.
  by exists (ip_at pinv y); rewrite h2'.
have inner u : between lo hi u -> [/\ between lo hi (ip_at (aw_perm st) u),
     (ip_at (aw_perm st) u < lo + d) = (u < lo + d) & ip_at (aw_inv st) (ip_at (aw_perm st) u) = u].
  move=> hu; have [x [hx <- _]] := onto u hu; have [-> ->] := P x hx; have [-> ->] := PH x hx.
  by split=> //; apply: B_pos; have [] := hp x hx.
have inner2 u : between lo hi u -> [/\ between lo hi (ip_at (aw_inv st) u),
     (ip_at (aw_inv st) u < lo + d) = (u < lo + d) & ip_at (aw_perm st) (ip_at (aw_inv st) u) = u].
  move=> hu; have [x [hx <- _]] := onto2 u hu; have [h1' ->] := P x hx; rewrite h1'; have [-> ->] := PH x hx.
  by split=> //; apply: B_pos.
have Bt2 x : between lo (lo + d - 1) x = between lo hi x && (x < lo + d) by rewrite /between; clear - d0 d1; lia.
have Bb2 x : between (lo + d) hi x = between lo hi x && ~~ (x < lo + d) by rewrite /between; clear - d0 d1; lia.
case: r hr hlr hf hw ho hz hrl hw2 h1 h2 h3 h4 hlr1 hlr3 hno v => [|r] hr hlr hf hw ho hz hrl hw2 h1 h2 h3 h4 hlr1 hlr3 hno v.
  by exfalso; clear - hlr3; lia.
have oo : odd (r - l.+1 + 1) by move: ho hlr3; clear; lia.
have ew : aw_num_columns s = r.+1 - l + 1 by move: hw hw2; rewrite -/s; clear; lia.
have hlr2 : l < r by clear - hlr3; lia.
have rf : r + 1 - l.+1 <= f by clear - hf; lia.
have rnc : r < nc by clear - hr; lia.
have half lo' hi' q qi : between lo hi lo' -> between lo hi hi' -> lo' <= hi' ->
    net f l.+1 r lo' hi' (ndest lo hi) t -> aw_num_columns (hi' - lo' + 1) + 2 <= aw_num_columns s ->
    ip_wf q -> ip_bounds q lo' hi' -> ip_wf qi -> ip_bounds qi lo' hi' ->
    (forall x, between lo' hi' x -> ip_at q x = ip_at (aw_perm st) x) ->
    (forall x, between lo' hi' x -> ip_at qi x = ip_at (aw_inv st) x) ->
    (forall x y, between lo hi x -> between lo hi y -> (x < lo + d) = (y < lo + d) -> between lo' hi' x = between lo' hi' y) ->
    forall rt0, size rt0 = nc -> (forall c x, l < c <= r -> between lo' hi' x -> aw_bit rt0 c x = None) ->
    exists rt', [/\ aw_route_inner f l.+1 r lo' hi' q qi rt0 = Ok rt', size rt' = nc,
    forall c x, ~~ ((l < c <= r) && between lo' hi' x) -> aw_bit rt' c x = aw_bit rt0 c x,
    forall c x, l < c <= r -> between lo' hi' x -> isSome (aw_bit rt' c x) = aw_switch_at t c x &
    forall rt2, (forall c x, l < c <= r -> between lo' hi' x -> aw_bit rt2 c x = aw_bit rt' c x) ->
      forall x, between lo' hi' x -> aw_follow t rt2 l.+1 (r + 1 - l.+1) x = ndest lo hi (ip_at (aw_perm st) x)].
  move=> Bl' Bh' hlh' hn' hw' wq bq wqi bqi aq aqi sam rt0 z0 no0.
  have sub x : between lo' hi' x -> between lo hi x by move: Bl' Bh'; rewrite /between; clear; lia.
  have iq x : between lo' hi' x -> between lo' hi' (ip_at q x) /\ ip_at qi (ip_at q x) = x.
    move=> hx; have [q1 q2 q3] := inner x (sub _ hx).
    have bx : between lo' hi' (ip_at (aw_perm st) x) by rewrite (sam _ x) //; apply: sub.
    by rewrite (aq _ hx) (aqi _ bx).
  have iq2 x : between lo' hi' x -> between lo' hi' (ip_at qi x) /\ ip_at q (ip_at qi x) = x.
    move=> hx; have [q1 q2 q3] := inner2 x (sub _ hx).
    have bx : between lo' hi' (ip_at (aw_inv st) x) by rewrite (sam _ x) //; apply: sub.
    by rewrite (aqi _ hx) (aq _ bx).
  have nj x y : between lo' hi' x -> between lo' hi' y -> ndest lo hi x = ndest lo hi y -> x = y.
    by move=> hx hy; apply: ndest_inj; apply: sub.
  have hn2 : hi' < np by move: Bh'; rewrite /between; clear - hh; lia.
  have w' : aw_num_columns (hi' - lo' + 1) <= r - l.+1 + 1 by move: hw'; rewrite ew; clear; lia.
  have [rt' [g1' g2' g3' g4' g5']] := IH l.+1 r lo' hi' (ndest lo hi) q qi rt0 hn' nj hlh' hn2 hlr2 rnc rf w' oo
    (or_introl (ltn0Sn l)) wq bq wqi bqi iq iq2 z0 no0.
  by exists rt'; split=> // rt2 a2 x hx; rewrite g5' // aq.
have Blo : between lo hi lo by rewrite /between leqnn.
have Bd1 : between lo hi (lo + d - 1) by rewrite /between hlo.
have Bd : between lo hi (lo + d) by rewrite /between d3.
have no1 c x : l < c <= r -> between lo hi x -> aw_bit rt1 c x = None.
  move=> hc hx; rewrite g1; case: ifP => // _; rewrite (i_frame v); last by rewrite hx andbT; clear - hc; lia.
  by apply: hno => //; clear - hc; lia.
have [|||rt3 [e3 s3 fr3 k3 f3]] := half lo (lo + d - 1) pu iu Blo Bd1 hlo h3 _ wpu bpu wiu biu apu aiu _ rt1 s1.
- by rewrite ewt.
- by move=> x y hx hy; rewrite !Bt2 hx hy => ->.
- by move=> c x hc /Bt; apply: no1.
have [|||rt4 [e4 s4 fr4 k4 f4]] := half (lo + d) hi pl il Bd Bh d1 h4 _ wpl bpl wil bil apl ail _ rt3 s3.
- by rewrite ewb.
- by move=> x y hx hy; rewrite !Bb2 hx hy => ->.
- move=> c x hc hx; rewrite fr3; first by apply: no1 => //; apply: Bb.
  by move: hx; rewrite Bb2 Bt2 => /andP [-> /negbTE ->]; rewrite !andbF.
(* what the edges of the outer columns do *)
have hlr4 : l < r.+1 by [].
have f1 x : between lo hi x -> fixed_sw lo hi x ->
    aw_edges t l x = (pos_in lo hi x (x == aw_canonical lo x), pos_in lo hi x (x == aw_canonical lo x)).
  by move=> hx fx; rewrite h1 // /ledge fx.
have f2 x : between lo hi x -> ~~ paired_in lo hi x -> aw_edges t l x = (hi, hi).
  by move=> hx px; rewrite h1 // /ledge /pos_in (negbTE px); case: ifP.
have h2' x : between lo hi x -> ~~ paired_in lo hi x -> aw_edges t r.+1 x = (D x, D x).
  by move=> hx px; rewrite h2 // /redge (negbTE px).
have nl rt' x : between lo hi x -> paired_in lo hi x -> ~~ fixed_sw lo hi x ->
    aw_switch_at t l x = (x == aw_canonical lo x) /\
    aw_next t rt' l x = if aw_bit rt' l (aw_canonical lo x) == Some true then pos_in lo hi x (x != aw_canonical lo x)
       else pos_in lo hi x (x == aw_canonical lo x).
  move=> hx px fx; have Bo := B_other hx px; have po := other_paired hx px.
  have eo t1 : pos_in lo hi (aw_other lo x) t1 = pos_in lo hi x t1.
    by rewrite /pos_in px po; congr (_ + _ + _); move: hx; rewrite /aw_other /aw_canonical /between; clear; lia.
  have fo : fixed_sw lo hi (aw_other lo x) = false.
    by move: fx hx; rewrite /fixed_sw /isodd_in /aw_other /aw_canonical /between; clear - hs3'; lia.
  pose g y := pos_in lo hi y (y == aw_canonical lo y).
  have go : g (aw_other lo x) = pos_in lo hi x (x != aw_canonical lo x) by rewrite /g (top_flip hx) eo.
  rewrite -go -/(g x); apply: (next_pair rt' hlc hh hx px) => [y [->|->]|].
  - by rewrite h1 // /ledge (negbTE fx) go.
  - by rewrite h1 // /ledge fo (otherK hx) go /g (top_flip hx) negbK !eo.
  - by rewrite go /g /pos_in px; case: (x == _) => /=; rewrite -/s -/d; clear - d0; lia.
have nr rt' x : between lo hi x -> paired_in lo hi x ->
    aw_switch_at t r.+1 x = (x == aw_canonical lo x) /\
    aw_next t rt' r.+1 x = if aw_bit rt' r.+1 (aw_canonical lo x) == Some true then D (aw_other lo x) else D x.
  move=> hx px; have Bo := B_other hx px; have po := other_paired hx px.
  apply: (next_pair rt' hr hh hx px) => [y [->|->]|].
  - by rewrite h2 // /redge px.
  - by rewrite h2 // /redge po.
  - by move/(hD _ _ hx Bo) => e; have := other_neq hx; rewrite -e eqxx.
have rs x : between lo hi x -> paired_in lo hi (ip_at p x) -> rset lo hi p pinv st x.
  move=> hx px; rewrite /rset; case: eqP => //= e; apply/andP; split.
    by move: px; rewrite /paired_in e eqxx andbT.
  by apply: rd; rewrite /twin; have [h _] := hp x hx; have [] := hpi _ (B_other h px).
rewrite e3 obindE; exists rt4; split=> //.
- move=> c x hc.
  rewrite fr4; last by apply: contra hc => /andP [h /Bb ->]; rewrite andbT; clear - h; lia.
  rewrite fr3; last by apply: contra hc => /andP [h /Bt ->]; rewrite andbT; clear - h; lia.
  rewrite g1; case: ifP => [/and3P [_ /eqP ec /eqP ex]|_].
    by move: hc; rewrite ec ex Bh1 hlr leqnn.
  apply: (i_frame v); apply: contra hc => /andP [hc ->]; rewrite andbT; clear - hc hlr; lia.
- move=> c x hc hx; case: (boolP (l < c <= r)) => hc2.
    case: (ltnP x (lo + d)) => hxd.
      have bx : between lo (lo + d - 1) x by rewrite Bt2 hx hxd.
      by rewrite fr4 ?k3 // Bb2 hxd !andbF.
    by rewrite k4 // Bb2 hx -leqNgt.
  rewrite fr4 ?(negbTE hc2) // fr3 ?(negbTE hc2) // g1.
  have [->|->] : c = l \/ c = r.+1 by clear - hc hc2; lia.
  + rewrite eqxx; case: (boolP (fixed_sw lo hi x)) => fx.
      have [_ ->] := next_wire rt (f1 x hx fx).
      move: fx; rewrite /fixed_sw => /andP [ev hx1]; rewrite ev /=; case: eqP => // ne.
      by rewrite (i_keys v) ?eqxx //; apply/orP; left; rewrite /aw_canonical; move: ev hx hx1 ne; rewrite /isodd_in /between; clear - hs3'; lia.
    have -> : [&& ~~ isodd_in lo hi, true & x == hi - 1] = false.
      by move: fx; rewrite /fixed_sw; case: (isodd_in lo hi) => //=; clear; lia.
    case: (boolP (paired_in lo hi x)) => px; last first.
      by have [_ ->] := next_wire rt (f2 x hx px); rewrite (i_keys v) ?eqxx ?px ?orbT.
    have [-> _] := nl rt x hx px fx.
    case: (boolP (x == aw_canonical lo x)) => hcx; last by rewrite (i_keys v) ?eqxx ?hcx.
    by rewrite (eqP hcx) (i_AL v) //; apply: rd.
  + have -> : (r.+1 == l) = false by clear - hlr1; lia.
    rewrite andbF; case: (boolP (paired_in lo hi x)) => px; last first.
      rewrite (i_keys v) ?eqxx ?px ?orbT //.
      by have [_ ->] := next_wire rt (h2' x hx px).
    have [-> _] := nr rt x hx px.
    case: (boolP (x == aw_canonical lo x)) => hcx; last by rewrite (i_keys v) ?eqxx ?hcx ?orbT.
    have [q1 q2] := hpi x hx; rewrite (eqP hcx) -{1}q2 (i_AR v) //; first exact: rd.
    by apply: rs => //; rewrite q2.
- move=> rt2 a2 x hx.
  have -> : r.+1 + 1 - l = 1 + (r + 1 - l.+1) + 1 by clear - hlr1; lia.
  have b2 c y : ~~ (l < c <= r) -> l <= c <= r.+1 -> between lo hi y -> aw_bit rt2 c y = aw_bit rt1 c y.
    by move=> hc hc2 hy; rewrite a2 // fr4 ?(negbTE hc) // fr3 ?(negbTE hc).
  have hcl : ~~ (l < l <= r) by clear; lia.
  have hcr : ~~ (l < r.+1 <= r) by clear; lia.
  have hcl2 : l <= l <= r.+1 by clear - hlr; lia.
  have hcr2 : l <= r.+1 <= r.+1 by clear - hlr; lia.
  have n1 : aw_next t rt2 l x = pos_in lo hi x (T x).
    case: (boolP (fixed_sw lo hi x)) => fx.
      have [-> _] := next_wire rt2 (f1 x hx fx); congr (pos_in lo hi x _).
      move: fx; rewrite /fixed_sw => /andP [ev hx1].
      have ch : aw_canonical lo hi = hi - 1 by rewrite /aw_canonical; move: ev; rewrite /isodd_in; clear - hs3'; lia.
      have ph : paired_in lo hi hi by rewrite /paired_in (negbTE ev).
      have oh : aw_other lo hi = hi - 1 by rewrite /aw_other ch; clear - hs3'; lia.
      have [->|->] : x = hi \/ x = hi - 1 by move: hx hx1; rewrite /between; clear; lia.
        by rewrite TE // ch; clear - hs3'; lia.
      by rewrite -oh TB // TE // (canon_other Bh) ch oh eqxx.
    case: (boolP (paired_in lo hi x)) => px; last first.
      have [-> _] := next_wire rt2 (f2 x hx px).
      by rewrite /pos_in (negbTE px).
    have [_ ->] := nl rt2 x hx px fx.
    rewrite b2 //; last exact: B_canon.
    rewrite g1; have -> : [&& ~~ isodd_in lo hi, l == l & aw_canonical lo x == hi - 1] = false.
      rewrite eqxx; move: fx; rewrite /fixed_sw; case: (boolP (isodd_in lo hi)) => //= ev hx1.
      by rewrite /aw_canonical; move: ev hx1 hx; rewrite /isodd_in /between; clear - hs3'; lia.
    rewrite (i_AL v) //; last exact: rd.
    by rewrite /aw_setting; case: (x == _); case: (T x).
  have n2 : aw_follow t rt2 l.+1 (r + 1 - l.+1) (pos_in lo hi x (T x)) = ndest lo hi (pos_in lo hi (ip_at p x) (T x)).
    have Bp := B_pos (T x) hx; have [q1 _] := P x hx.
    case: (ltnP (pos_in lo hi x (T x)) (lo + d)) => hxd.
      rewrite f3 ?q1 //; last by rewrite Bt2 Bp hxd.
      move=> c y hc hy; rewrite a2; [|by clear - hc; lia|exact: Bt].
      by rewrite fr4 //; move: hy; rewrite Bt2 Bb2 => /andP [_ ->]; rewrite !andbF.
    rewrite f4 ?q1 //; last by rewrite Bb2 Bp -leqNgt.
    by move=> c y hc hy; rewrite a2 //; [clear - hc; lia|exact: Bb].
  rewrite !follow_cat [aw_follow _ _ l 1 x]/= n1 [l + 1]addn1 n2.
  have -> : l + (1 + (r + 1 - l.+1)) = r.+1 by clear - hlr1; lia.
  have [hp1 hp2] := hp x hx.
  rewrite ndest_pos //; last exact: T2.
  rewrite /=; case: (boolP (paired_in lo hi (ip_at p x))) => pp; last first.
    have eh : ip_at p x = hi by move: pp; rewrite /paired_in negbK => /andP [_ /eqP].
    by rewrite eh in pp *; have [-> _] := next_wire rt2 (h2' hi Bh pp).
  rewrite (setting_top _ hp1 pp).
  set y := if _ then _ else _.
  have cy : aw_canonical lo y = aw_canonical lo (ip_at p x) by rewrite /y; case: ifP => // _; apply: canon_other hp1.
  have By : between lo hi y by rewrite /y; case: ifP => // _; apply: B_other.
  have py : paired_in lo hi y by rewrite /y; case: ifP => // _; apply: other_paired.
  have [_ ->] := nr rt2 y By py.
  rewrite b2 //; last exact: B_canon.
  rewrite g1 cy; have -> : (r.+1 == l) = false by clear - hlr1; lia.
  rewrite andbF (i_AR v) //; [|exact: rd|exact: rs].
  by rewrite /y; case: (aw_setting _ _ _) => //=; rewrite (otherK hp1).
Qed.
End Column.
