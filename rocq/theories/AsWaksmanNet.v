(** The topology built by generate_as_waksman_topology. *)
From mathcomp Require Import all_ssreflect zify.
From Verif Require Import Outcome StdMap IntegerPermutation Benes AsWaksman AsWaksmanFacts.
Set Implicit Arguments.
Unset Strict Implicit.
Unset Printing Implicit Defensive.

(** * Widths *)
Lemma width_odd s : 1 < s -> exists k, aw_num_columns s = (2 * k).+1.
Proof.
move=> h; rewrite /aw_num_columns h; have : 0 < ceil_log2 s by rewrite up_log_gt0 h.
by move=> h2; exists (ceil_log2 s).-1; lia.
Qed.
Lemma width2 : aw_num_columns 2 = 1. Proof. by []. Qed.
Lemma width_half s m : 2 < s -> m <= s - s %/ 2 -> aw_num_columns m + 2 <= aw_num_columns s.
Proof.
move=> hs hm; rewrite /aw_num_columns.
have -> : 1 < s by lia.
have e : ceil_log2 s = (ceil_log2 (s - s %/ 2)).+1.
  rewrite /ceil_log2; have -> : s = (s.-1).+1 by lia.
  by rewrite up_log2S; last lia; congr (up_log 2 _).+1; rewrite -divn2; lia.
have h1 : ceil_log2 m <= ceil_log2 (s - s %/ 2) by apply: leq_up_log.
have : 0 < ceil_log2 (s - s %/ 2) by rewrite up_log_gt0 /=; lia.
by case: ifP => _; lia.
Qed.
Lemma width_ge3 s : 2 < s -> 3 <= aw_num_columns s.
Proof.
move=> h; have := @width_half s 2 h; rewrite width2 => /(_ _) h2; apply: h2; lia.
Qed.

(** * Updates of the table *)
Definition tshape (t : aw_topology) (nc np : nat) : Prop :=
  size t = nc /\ forall c, c < nc -> size (nth [::] t c) = np.
Lemma nb_updE f t nc np c r : tshape t nc np -> c < nc -> r < np ->
  exists t', [/\ nb_upd f t c r = Ok t', tshape t' nc np &
    forall c' r', aw_edges t' c' r' = if (c' == c) && (r' == r) then f (aw_edges t c r) else aw_edges t c' r'].
Proof.
move=> [h1 h2] hc hr; rewrite /nb_upd (oget_nth [::]) ?h1 //= (oget_nth (0, 0)) ?h2 //=.
rewrite (oput_set_nth (0, 0)) ?h2 //= (oput_set_nth [::]) ?h1 //; eexists; split; first by [].
- split; first by rewrite size_set_nth h1; apply/maxn_idPr.
  move=> c' hc'; rewrite nth_set_nth /=; case: eqP => [_|_]; last exact: h2.
  by rewrite size_set_nth h2 //; apply/maxn_idPr.
- move=> c' r'; rewrite /aw_edges nth_set_nth /=; case: eqP => [->|_] //=.
  by rewrite nth_set_nth.
Qed.
Lemma nb_bothE t nc np c r v : tshape t nc np -> c < nc -> r < np ->
  exists t', [/\ nb_both t c r v = Ok t', tshape t' nc np &
    forall c' r', aw_edges t' c' r' = if (c' == c) && (r' == r) then (v, v) else aw_edges t c' r'].
Proof.
move=> h hc hr; rewrite /nb_both /nb_second /nb_first.
have [t1 [-> h1 g1]] := nb_updE (fun e => (e.1, v)) h hc hr.
have [t2 [e2 h2 g2]] := nb_updE (fun e => (v, e.2)) h1 hc hr.
rewrite /= e2; exists t2; split=> // c1 r1; rewrite g2 !g1 !eqxx /=.
by case: (_ && _).
Qed.

(** * The edges of a subnetwork *)
Section Net.
Variables (lo hi : nat).
Notation s := (hi - lo + 1).
Definition fixed_sw (x : nat) : bool := ~~ isodd_in lo hi && (hi - 1 <= x).
(** Left column: to the top half straight from the top port of a switch. *)
Definition ledge (x : nat) : nat * nat :=
  let t := x == aw_canonical lo x in
  (pos_in lo hi x t, if fixed_sw x then pos_in lo hi x t else pos_in lo hi x (~~ t)).
Definition redge (D : nat -> nat) (x : nat) : nat * nat :=
  (D x, if paired_in lo hi x then D (aw_other lo x) else D x).
(** The row of the right-hand column that is fed by a row of the inner networks. *)
Definition ndest (u : nat) : nat :=
  if u < lo + s %/ 2 then lo + 2 * (u - lo)
  else if isodd_in lo hi && (u == hi) then hi else lo + 2 * (u - lo - s %/ 2) + 1.

Lemma ndest_pos x t : between lo hi x -> (~~ paired_in lo hi x -> t = false) ->
  ndest (pos_in lo hi x t) = if paired_in lo hi x then aw_canonical lo x + ~~ t else hi.
Proof.
rewrite /ndest => hx ht; rewrite (pos_half hx ht).
rewrite /pos_in; case: (boolP (paired_in lo hi x)) ht => [px _|px ->//].
  case: t => /=; first by rewrite /aw_canonical; clear; lia.
  case: ifP; move: hx px; rewrite /paired_in /isodd_in /aw_canonical /between; lia.
by move: px; rewrite /paired_in negbK => /andP [-> _]; rewrite eqxx.
Qed.
Lemma ndest_B u : between lo hi u -> between lo hi (ndest u).
Proof. by rewrite /ndest /isodd_in /between; case: ifP; [lia|case: ifP; lia]. Qed.
Lemma ndest_inj u v : between lo hi u -> between lo hi v -> ndest u = ndest v -> u = v.
Proof.
by rewrite /ndest /isodd_in /between; do 2![case: ifP; [|case: ifP]]; lia.
Qed.
End Net.

Lemma top_flip lo hi x : between lo hi x -> (aw_other lo x == aw_canonical lo (aw_other lo x)) = (x != aw_canonical lo x).
Proof. by rewrite /aw_other /aw_canonical /between; lia. Qed.

Fixpoint net (f l r lo hi : nat) (D : nat -> nat) (t : aw_topology) : Prop :=
  if r < l then True else
  if f is f'.+1 then
    let s := hi - lo + 1 in
    if aw_num_columns s < r - l + 1 then
      [/\ l < r -> forall x, between lo hi x -> aw_edges t l x = (x, x),
          forall x, between lo hi x -> aw_edges t r x = (D x, D x) & net f' l.+1 r.-1 lo hi id t]
    else if s == 2 then forall x, between lo hi x -> aw_edges t l x = (D x, D (aw_other lo x))
    else [/\ forall x, between lo hi x -> aw_edges t l x = ledge lo hi x,
             forall x, between lo hi x -> aw_edges t r x = redge lo hi D x,
             net f' l.+1 r.-1 lo (lo + s %/ 2 - 1) (ndest lo hi) t & net f' l.+1 r.-1 (lo + s %/ 2) hi (ndest lo hi) t]
  else False.

Lemma net_ext f l r lo hi D D' t : (forall x, between lo hi x -> D x = D' x) -> net f l r lo hi D t -> net f l r lo hi D' t.
Proof.
move=> hD; case: f => [|f] //=; case: ifP => // _; case: ifP => _.
  by case=> h1 h2 h3; split=> // x hx; rewrite h2 // hD.
case: ifP => [/eqP hs h x hx|_ [h1 h2 h3 h4]].
  rewrite h // !hD //; move: hx hs; rewrite /aw_other /aw_canonical /between; lia.
split=> // x hx; rewrite h2 // /redge hD //; case: ifP => // px; rewrite hD //; exact: B_other.
Qed.

(** One column of edges: straight edges are injective, and every row is a wire or
    an end of a switch. *)
Definition okcol (t : aw_topology) (c lo hi : nat) : Prop :=
  (forall x y, between lo hi x -> between lo hi y -> (aw_edges t c x).1 = (aw_edges t c y).1 -> x = y) /\
  (forall x, between lo hi x -> let e := aw_edges t c x in
    [\/ e.1 = e.2, x < hi /\ aw_edges t c x.+1 = (e.2, e.1) | lo < x /\ aw_edges t c x.-1 = (e.2, e.1)]).

Lemma net_cols f l r lo hi D t : lo <= hi -> (forall x y, between lo hi x -> between lo hi y -> D x = D y -> x = y) ->
  net f l r lo hi D t -> aw_num_columns (hi - lo + 1) <= r - l + 1 -> odd (r - l + 1) ->
  forall c, l <= c <= r ->
    [/\ okcol t c lo hi, c < r -> forall x, between lo hi x -> between lo hi (aw_edges t c x).1 &
        c = r -> forall x, between lo hi x -> (aw_edges t c x).1 = D x].
Proof.
elim: f l r lo hi D => [|f IH] l r lo hi D hlh hD; first by rewrite /=; case: ifP => // h _ _ _ c; lia.
rewrite [net _ _ _ _ _ _ _]/= => hnet hw ho c /andP [hl hr].
have hrl : (r < l) = false by lia.
rewrite hrl in hnet; set s := hi - lo + 1 in hnet hw.
have wire c' g : (forall x, between lo hi x -> aw_edges t c' x = (g x, g x)) ->
    (forall x y, between lo hi x -> between lo hi y -> g x = g y -> x = y) -> okcol t c' lo hi.
  move=> h hg; split=> [x y hx hy|x hx]; first by rewrite !h //; exact: hg.
  by rewrite /= h //; apply: Or31.
have sw c' g : (forall x, between lo hi x -> aw_edges t c' x = redge lo hi g x) ->
    (forall x y, between lo hi x -> between lo hi y -> g x = g y -> x = y) -> okcol t c' lo hi.
  move=> h hg; split=> [x y hx hy|x hx]; first by rewrite !h //; exact: hg.
  rewrite /= h // /redge /=; case: (boolP (paired_in lo hi x)) => px; last by apply: Or31.
  have Bo := B_other hx px; have po := other_paired hx px.
  case: (boolP (x == aw_canonical lo x)) => hc.
    have [e1 e2] := top_other hx px hc; apply: Or32; split=> //.
    by rewrite -addn1 -e1 h // /redge po (otherK hx).
  have [e1 e2] := bottom_other hx hc; apply: Or33; split=> //.
  by rewrite -subn1 -e1 h // /redge po (otherK hx).
case: ifP hnet => hw2.
- case=> h1 h2 h3; case: (ltngtP c r) hr => // [hcr|ecr] _; last first.
    split; first by rewrite ecr; apply: wire h2 hD.
      by [].
    by rewrite ecr => _ x hx; rewrite h2.
  case: (ltngtP c l) hl => // [hcl|ecl] _; last first.
    have hlr : l < r by lia.
    split=> [|_ x hx|e]; [by rewrite ecl; apply: wire (h1 hlr) _|by rewrite ecl h1|lia].
  have [||||k1 k2 k3] := IH _ _ _ _ _ hlh _ h3 _ _ c; first by [].
  - rewrite -/s; case: (ltnP 1 s) => hs; last by rewrite /aw_num_columns ltnNge hs.
    by have [k ek] := width_odd hs; move: hw2 ho hcl hcr; rewrite ek; clear; lia.
  - by move: ho hcl hcr; clear; lia.
  - by clear - hcl hcr; lia.
  split=> // [_ x hx|]; last by move: hcr; clear; lia.
  case: (ltnP c r.-1) => hc2; first exact: k2.
  by rewrite k3 //; clear - hc2 hcr; lia.
case: ifP => [/eqP hs h|hs2 [h1 h2 h3 h4]].
- have ew : aw_num_columns s = 1 by rewrite hs.
  have ec : c = l by move: hw2 hl hr; rewrite ew; clear; lia.
  have er : r = l by move: hw2 hrl; rewrite ew; clear; lia.
  have ar x : between lo hi x -> paired_in lo hi x.
    by move: hs; rewrite /paired_in /isodd_in -/s => ->.
  split; first by rewrite ec; apply: (sw _ D) => // x hx; rewrite h // /redge ar.
    by rewrite er ec ltnn.
  by rewrite ec => _ x hx; rewrite h.
have hs3 : 2 < s.
  case: (ltnP 1 s) => hs; first by move: hs hs2; clear; lia.
  have e0 : aw_num_columns s = 0 by rewrite /aw_num_columns ltnNge hs.
  by move: hw2; rewrite e0; clear; lia.
have hs3' : lo + 2 <= hi by move: hs3; rewrite /s; clear; lia.
have w3 := width_ge3 hs3.
have hlr : l + 2 <= r by move: hw w3; clear; lia.
case: (ltngtP c r) hr => // [hcr|ecr] _; last first.
  split; first by rewrite ecr; apply: (sw _ D).
    by [].
  by rewrite ecr => _ x hx; rewrite h2.
case: (ltngtP c l) hl => // [hcl|ecl] _; last first.
  have pc x : between lo hi x -> ~~ paired_in lo hi x -> x == aw_canonical lo x.
    by rewrite /paired_in /isodd_in /aw_canonical /between -/s; clear; rewrite /s; lia.
  have pp x t1 t2 : ~~ paired_in lo hi x -> pos_in lo hi x t1 = pos_in lo hi x t2.
    by rewrite /pos_in => /negbTE ->.
  split=> [|_ x hx|e]; [|by rewrite ecl h1 //; apply: B_pos|by move: e hlr; rewrite ecl; clear; lia].
  rewrite ecl; split=> [x y hx hy|x hx].
    rewrite !h1 // /ledge /= => e.
    set tx := x == _ in e; set ty := y == _ in e.
    have q z t1 : pos_in lo hi z (paired_in lo hi z && t1) = pos_in lo hi z t1.
      by rewrite /pos_in; case: (paired_in lo hi z).
    have [|||//|[px py exy]] := @pos_inj lo hi x y (paired_in lo hi x && tx) (paired_in lo hi y && ty) hx hy.
    - by move/negbTE->.
    - by move/negbTE->.
    - by rewrite !q.
    by rewrite px py /= /tx /ty exy (top_flip hy); case: (y == _).
  rewrite /= h1 //= /ledge; case: (boolP (fixed_sw lo hi x)) => fx; first by apply: Or31.
  case: (boolP (paired_in lo hi x)) => px; last by apply: Or31; apply: pp.
  have Bo := B_other hx px; have po := other_paired hx px.
  have fo : fixed_sw lo hi (aw_other lo x) = false.
    by move: fx hx; rewrite /fixed_sw /isodd_in /aw_other /aw_canonical /between; clear - hs3'; lia.
  have eo t1 : pos_in lo hi (aw_other lo x) t1 = pos_in lo hi x t1.
    by rewrite /pos_in px po; congr (_ + _ + _); move: hx; rewrite /aw_other /aw_canonical /between; clear; lia.
  have eq1 : ledge lo hi (aw_other lo x) =
      (pos_in lo hi x (x != aw_canonical lo x), pos_in lo hi x (x == aw_canonical lo x)).
    by rewrite /ledge fo !eo (top_flip hx) negbK.
  case: (boolP (x == aw_canonical lo x)) => hc.
    have [e1 e2] := top_other hx px hc; apply: Or32; split=> //.
    by rewrite -addn1 -e1 h1 // eq1 hc.
  have [e1 e2] := bottom_other hx hc; apply: Or33; split=> //.
  by rewrite -subn1 -e1 h1 // eq1 (negbTE hc).
set d := s %/ 2 in h3 h4.
have d0 : 0 < d by rewrite /d; clear - hs3; lia.
have ds : d <= s - s %/ 2 by rewrite /d; clear; lia.
have d1 : lo + d <= hi by rewrite /d /s; clear - hs3'; lia.
have hlo : lo <= lo + d - 1 by clear - d0; lia.
have Bt x : between lo (lo + d - 1) x -> between lo hi x by rewrite /between; clear - d0 d1; lia.
have Bb x : between (lo + d) hi x -> between lo hi x by rewrite /between; clear; lia.
have ewt : lo + d - 1 - lo + 1 = d by clear - d0; lia.
have ewb : hi - (lo + d) + 1 = s - s %/ 2 by rewrite /d /s; clear; lia.
have wt := width_half hs3 ds.
have wb := width_half hs3 (leqnn _).
have oo : odd (r.-1 - l.+1 + 1) by move: ho hlr; clear; lia.
have hc' : l < c <= r.-1 by clear - hcl hcr; lia.
have [||kt1 kt2 kt3] := IH _ _ _ _ _ hlo _ h3 _ oo c hc'.
- by move=> x y hx hy; apply: ndest_inj; apply: Bt.
- by rewrite ewt; move: wt hw hw2 hlr; clear; lia.
have [||kb1 kb2 kb3] := IH _ _ _ _ _ d1 _ h4 _ oo c hc'.
- by move=> x y hx hy; apply: ndest_inj; apply: Bb.
- by rewrite ewb; move: wb hw hw2 hlr; clear; lia.
have spl x : between lo hi x -> between lo (lo + d - 1) x \/ between (lo + d) hi x.
  by rewrite /between => hx; case: (ltnP x (lo + d)) => h; [left|right]; move: hx h; clear; lia.
have Bim x : between lo hi x -> between lo hi (aw_edges t c x).1.
  move=> hx; case: (ltngtP c r.-1) => hcr1.
  - by case: (spl x hx) => h; [apply: Bt; apply: kt2|apply: Bb; apply: kb2].
  - by clear - hcr hcr1; lia.
  - by case: (spl x hx) => h; [rewrite kt3|rewrite kb3] => //; apply: ndest_B.
split=> // [|e]; last by clear - e hcr; lia.
split=> [x y hx hy e|x hx].
  case: (spl x hx) => hx2; case: (spl y hy) => hy2.
  - by case: kt1 => k _; apply: k.
  - case: (ltngtP c r.-1) => hcr1; [|by clear - hcr hcr1; lia|].
      by have := kt2 hcr1 _ hx2; have := kb2 hcr1 _ hy2; rewrite e /between; clear - d0; lia.
    by apply: (ndest_inj hx hy); rewrite -kt3 // -kb3.
  - case: (ltngtP c r.-1) => hcr1; [|by clear - hcr hcr1; lia|].
      by have := kb2 hcr1 _ hx2; have := kt2 hcr1 _ hy2; rewrite e /between; clear - d0; lia.
    by apply: (ndest_inj hx hy); rewrite -kb3 // -kt3.
  - by case: kb1 => k _; apply: k.
case: (spl x hx) => hx2.
- case: kt1 => _ /(_ x hx2) [k|[k1 k2]|k]; [by apply: Or31| |by apply: Or33].
  by apply: Or32; split=> //; clear - k1 d1; lia.
- case: kb1 => _ /(_ x hx2) [k|k|[k1 k2]]; [by apply: Or31|by apply: Or32|].
  by apply: Or33; split=> //; clear - k1; lia.
Qed.

(** * Construction *)
Lemma straight_fold l r lo nc np D dests k : l < nc -> r < nc -> 
  (forall x, lo <= x < lo + size dests -> nth 0 dests (x - lo) = D x) ->
  forall a t, tshape t nc np -> lo <= a -> a + k <= lo + size dests -> a + k <= np ->
  exists t', [/\ ofold (aw_straight l r lo dests) t (iota a k) = Ok t', tshape t' nc np &
    forall c x, aw_edges t' c x = if a <= x < a + k then (if c == r then (D x, D x) else if c == l then (x, x) else aw_edges t c x)
      else aw_edges t c x].
Proof.
move=> hl hr hD; elim: k => [|k IH] a t ht ha hk hn.
  by exists t; split=> // c x; case: ifP => //; clear; lia.
rewrite /= /aw_straight.
have han : a < np by clear - hn; lia.
have [t1 [-> s1 g1]] := nb_bothE a ht hl han; rewrite /=.
rewrite (oget_nth 0) /=; last by clear - hk ha; lia.
have [t2 [-> s2 g2]] := nb_bothE (nth 0 dests (a - lo)) s1 hr han; rewrite /=.
have [|||t3 [e3 s3 g3]] := IH a.+1 t2 s2.
- by clear - ha; lia.
- by clear - hk; lia.
- by clear - hn; lia.
exists t3; split=> // c x; rewrite g3 g2 g1.
have -> : nth 0 dests (a - lo) = D a by apply: hD; clear - ha hk; lia.
case: (@eqP _ x a) => [->|ne].
  have -> : (a < a < a.+1 + k) = false by clear; lia.
  have -> : (a <= a < a + k.+1) by clear; lia.
  by rewrite !andbT.
have -> : (a <= x < a + k.+1) = (a < x < a.+1 + k) by clear - ne; lia.
by rewrite !andbF.
Qed.

Section Build.
Variables (l r lo hi nc np : nat) (D : nat -> nat) (dests : seq nat).
Hypotheses (hl : l < r) (hr : r < nc) (hs3 : lo + 2 <= hi) (hn : hi < np).
Notation s := (hi - lo + 1).
Hypothesis hsz : size dests = s.
Hypothesis hD : forall x, between lo hi x -> nth 0 dests (x - lo) = D x.

Lemma switch_step_ok t nd i : tshape t nc np -> size nd = s -> i < s %/ 2 ->
  let row := lo + 2 * i in let a := lo + i in let b := lo + i + s %/ 2 in
  exists t' nd', [/\ aw_switch_step l r lo s dests (t, nd) row = Ok (t', nd'), tshape t' nc np, size nd' = s,
    forall c x, aw_edges t' c x =
      if x == row then (if c == l then (a, b) else if c == r then (D row, D row.+1) else aw_edges t c x)
      else if x == row.+1 then (if c == l then (b, a) else if c == r then (D row.+1, D row) else aw_edges t c x)
      else aw_edges t c x &
    forall j, nth 0 nd' j = if j == i then row else if j == s %/ 2 + i then row.+1 else nth 0 nd j].
Proof.
move=> ht hnd hi' row a b; rewrite /aw_switch_step.
have Br : between lo hi row by rewrite /between /row; clear - hi' hs3; lia.
have pr : paired_in lo hi row by rewrite /paired_in /isodd_in /row; clear - hi' hs3; lia.
have cr : aw_canonical lo row = row by rewrite /aw_canonical /row; clear; lia.
have so u : aw_switch_output s lo row u = Ok (if u then a else b).
  rewrite -{1}cr (switch_outputE u Br pr) /pos_in pr /row; congr (Ok _); case: u; rewrite /a /b; clear; lia.
rewrite /aw_switch_input so (so false) /=.
have hlc : l < nc by clear - hl hr; lia.
have rn : row < np by move: Br; rewrite /between; clear - hn; lia.
have rn1 : row.+1 < np by rewrite /row; clear - hn hi'; lia.
rewrite /nb_second /nb_first.
have [t1 [-> s1 g1]] := nb_updE (fun e => (e.1, a)) ht hlc rn1; rewrite /=.
have [t2 [-> s2 g2]] := nb_updE (fun e => (a, e.2)) s1 hlc rn; rewrite /=.
have [t3 [-> s3 g3]] := nb_updE (fun e => (b, e.2)) s2 hlc rn1; rewrite /=.
have [t4 [-> s4 g4]] := nb_updE (fun e => (e.1, b)) s3 hlc rn; rewrite /=.
have ea : a - lo = i by rewrite /a; clear; lia.
have eb : b - lo = s %/ 2 + i by rewrite /b; clear; lia.
rewrite (oput_set_nth 0) ?hnd ?ea /=; last by clear - hi'; lia.
have szA : size (set_nth 0 nd i row) = s by rewrite size_set_nth hnd; apply/maxn_idPr; clear - hi'; lia.
rewrite (oput_set_nth 0) ?szA ?eb /=; last by clear - hi'; lia.
rewrite (oget_nth 0) /=; last by rewrite hsz /row; clear - hi'; lia.
rewrite hD //.
have [t5 [-> s5 g5]] := nb_updE (fun e => (e.1, D row)) s4 hr rn1; rewrite /=.
have [t6 [-> s6 g6]] := nb_updE (fun e => (D row, e.2)) s5 hr rn; rewrite /=.
have B1 : between lo hi row.+1 by rewrite /between /row; clear - hi' hs3; lia.
rewrite (oget_nth 0) /= addn1; last by rewrite hsz /row; clear - hi'; lia.
rewrite hD //.
have [t7 [-> s7 g7]] := nb_updE (fun e => (D row.+1, e.2)) s6 hr rn1; rewrite /=.
have [t8 [-> s8 g8]] := nb_updE (fun e => (e.1, D row.+1)) s7 hr rn; rewrite /=.
exists t8, (set_nth 0 (set_nth 0 nd i row) (s %/ 2 + i) row.+1); split=> //.
- by rewrite size_set_nth szA; apply/maxn_idPr; clear - hi'; lia.
- have lr : (l == r) = false by clear - hl; lia.
  have rl : (r == l) = false by clear - hl; lia.
  have n1 : (row == row.+1) = false by clear; lia.
  have n2 : (row.+1 == row) = false by clear; lia.
  move=> c x; rewrite !(g1, g2, g3, g4, g5, g6, g7, g8) !eqxx ?lr ?rl ?n1 ?n2 /= ?(eqxx, lr, rl, n1, n2) /=.
  case: (@eqP _ x row) => [->|nx]; first by rewrite n1; case: (@eqP _ c l) => [->|_]; rewrite ?lr //= ?andbF; case: (c == r).
  case: (@eqP _ x row.+1) => [->|nx2]; last by rewrite !andbF.
  by case: (@eqP _ c l) => [->|_]; rewrite ?lr //= ?andbF; case: (c == r).
- move=> j; rewrite nth_set_nth /= nth_set_nth /=.
  case: (@eqP _ j i) => [->|//].
  by have -> : (i == s %/ 2 + i) = false by clear - hi'; lia.
Qed.

Lemma switch_fold k : forall m t nd, tshape t nc np -> size nd = s -> m + k <= s %/ 2 ->
  exists t' nd', [/\ ofold (aw_switch_step l r lo s dests) (t, nd) [seq lo + 2 * i | i <- iota m k] = Ok (t', nd'),
    tshape t' nc np, size nd' = s,
    forall c x, aw_edges t' c x =
      if lo + 2 * m <= x < lo + 2 * (m + k) then
        (if c == l then (pos_in lo hi x (x == aw_canonical lo x), pos_in lo hi x (x != aw_canonical lo x))
         else if c == r then redge lo hi D x else aw_edges t c x)
      else aw_edges t c x &
    forall j, nth 0 nd' j = if m <= j < m + k then lo + 2 * j
      else if s %/ 2 + m <= j < s %/ 2 + (m + k) then lo + 2 * (j - s %/ 2) + 1 else nth 0 nd j].
Proof.
elim: k => [|k IH] m t nd ht hnd hm.
  exists t, nd; split=> // [c x|j]; first by case: ifP => //; clear; lia.
  by case: ifP; [clear; lia|move=> _; case: ifP => //; clear; lia].
rewrite [iota _ _]/= map_cons ofold_cons; have hm1 : m < s %/ 2 by clear - hm; lia.
have [t1 [nd1 [-> s1 z1 g1 n1]]] := switch_step_ok ht hnd hm1; rewrite obindE.
have [|t2 [nd2 [-> s2 z2 g2 n2]]] := IH m.+1 t1 nd1 s1 z1; first by clear - hm; lia.
exists t2, nd2; split=> // [c x|j].
- rewrite g2 g1; set row := lo + 2 * m.
  have Br : between lo hi row by rewrite /between /row; clear - hm1 hs3; lia.
  have B1 : between lo hi row.+1 by rewrite /between /row; clear - hm1 hs3; lia.
  have pr : paired_in lo hi row by rewrite /paired_in /isodd_in /row; clear - hm1 hs3; lia.
  have pr1 : paired_in lo hi row.+1 by rewrite /paired_in /isodd_in /row; clear - hm1 hs3; lia.
  have cr : aw_canonical lo row = row by rewrite /aw_canonical /row; clear; lia.
  have cr1 : aw_canonical lo row.+1 = row by rewrite /aw_canonical /row; clear; lia.
  case: (@eqP _ x row) => [->|ne].
    have -> : (lo + 2 * m.+1 <= row < lo + 2 * (m.+1 + k)) = false by rewrite /row; clear; lia.
    have -> : (lo + 2 * m <= row < lo + 2 * (m + k.+1)) by rewrite /row; clear; lia.
    rewrite cr eqxx /= /redge /pos_in pr /aw_other cr.
    have -> : lo + (row - lo) %/ 2 = lo + m by rewrite /row; clear; lia.
    by rewrite addn0 subnn subn0 add1n.
  case: (@eqP _ x row.+1) => [->|ne1].
    have -> : (lo + 2 * m.+1 <= row.+1 < lo + 2 * (m.+1 + k)) = false by rewrite /row; clear; lia.
    have -> : (lo + 2 * m <= row.+1 < lo + 2 * (m + k.+1)) by rewrite /row; clear; lia.
    rewrite cr1 /= /redge /pos_in pr1 /aw_other cr1.
    have -> : lo + (row.+1 - lo) %/ 2 = lo + m by rewrite /row; clear; lia.
    have -> : (row.+1 == row) = false by clear; lia.
    have -> : 1 - (row.+1 - row) = 0 by clear; lia.
    by rewrite addn0 add0n.
  by have -> : (lo + 2 * m.+1 <= x < lo + 2 * (m.+1 + k)) = (lo + 2 * m <= x < lo + 2 * (m + k.+1))
    by move: ne ne1; rewrite /row; clear; lia.
- rewrite n2 n1; case: (@eqP _ j m) => [->|ne].
    have -> : (m < m < m.+1 + k) = false by clear; lia.
    have -> : (m <= m < m + k.+1) by clear; lia.
    by have -> : (s %/ 2 + m.+1 <= m < s %/ 2 + (m.+1 + k)) = false by clear; lia.
  have -> : (m < j < m.+1 + k) = (m <= j < m + k.+1) by clear - ne; lia.
  case: ifP => // hj; case: (@eqP _ j (s %/ 2 + m)) => [->|ne1].
    have -> : (s %/ 2 + m.+1 <= s %/ 2 + m < s %/ 2 + (m.+1 + k)) = false by clear; lia.
    have -> : (s %/ 2 + m <= s %/ 2 + m < s %/ 2 + (m + k.+1)) by clear; lia.
    by rewrite addKn addn1.
  by have -> : (s %/ 2 + m.+1 <= j < s %/ 2 + (m.+1 + k)) = (s %/ 2 + m <= j < s %/ 2 + (m + k.+1)) by clear - ne1; lia.
Qed.
End Build.

Local Arguments aw_num_columns : simpl never.
Lemma construct_ok unset f nc np l r lo hi D dests t :
  tshape t nc np -> lo <= hi -> hi < np -> r < nc -> size dests = hi - lo + 1 ->
  (forall x, between lo hi x -> nth 0 dests (x - lo) = D x) ->
  r + 1 - l <= f -> aw_num_columns (hi - lo + 1) <= r - l + 1 -> odd (r - l + 1) ->
  0 < l \/ aw_num_columns (hi - lo + 1) = r - l + 1 ->
  exists t', [/\ aw_construct unset f l r lo hi dests t = Ok t', tshape t' nc np,
    forall c x, ~~ ((l <= c <= r) && between lo hi x) -> aw_edges t' c x = aw_edges t c x &
    forall t2, (forall c x, l <= c <= r -> between lo hi x -> aw_edges t2 c x = aw_edges t' c x) -> net f l r lo hi D t2].
Proof.
elim: f l r lo hi D dests t => [|f IH] l r lo hi D dests t ht hlh hn hr hsz hD hf hw ho hz.
  have h : r < l by clear - hf; lia.
  by exists t; rewrite /= h; split.
rewrite [aw_construct _ _ _ _ _ _ _ _]/= [net _ _ _ _ _ _]/=; case: ifP => hrl.
  by exists t; split.
rewrite hsz eqxx /=; set s := hi - lo + 1; rewrite hw /=.
have hlc : l < nc by clear - hrl hr; lia.
case: (boolP (aw_num_columns s < r - l + 1)) => hw2.
- have [|||t1 [-> s1 g1]] := @straight_fold l r lo nc np D dests s hlc hr _ lo t ht (leqnn _).
  - by move=> x; rewrite hsz => hx; apply: hD; move: hx; rewrite /between; clear - hlh; lia.
  - by rewrite hsz.
  - by rewrite /s; clear - hn hlh; lia.
  rewrite /=; case: r hr hf hw ho hz hrl hw2 g1 => [|r] hr hf hw ho hz hrl hw2 g1.
    by case: hz => hz; move: hz hrl hw2; rewrite -?/s; clear; lia.
  have w1 : aw_num_columns s <= r - l.+1 + 1.
    case: (ltnP 1 s) => hs; last by rewrite /aw_num_columns ltnNge hs.
    by have [k ek] := width_odd hs; move: hw2 ho; rewrite ek; clear; lia.
  have o1 : odd (r - l.+1 + 1) by move: ho; clear; lia.
  have [|||||t2 [-> s2 fr2 n2]] := IH l.+1 r lo hi id (iota lo s) t1 s1 hlh hn _ _ _ _ w1 o1.
  - by clear - hr; lia.
  - by rewrite size_iota.
  - by move=> x; rewrite /between => hx; rewrite nth_iota /s; move: hx; clear; lia.
  - by clear - hf; lia.
  - by left.
  have es x : between lo hi x -> lo <= x < lo + s by rewrite /between /s; clear; lia.
  have es2 x : (lo <= x < lo + s) = between lo hi x by rewrite /between /s; clear - hlh; lia.
  exists t2; split=> // [c x hcx|t3 a3].
    rewrite fr2; last by apply: contra hcx => /andP [h ->]; rewrite andbT; clear - h; lia.
    rewrite g1 es2; case: ifP => // hx; rewrite hx andbT in hcx.
    case: eqP => [e|_]; first by rewrite e in hcx; clear - hcx hrl; lia.
    by case: eqP => // e; rewrite e in hcx; clear - hcx hrl; lia.
  have in1 c x : l <= c <= r.+1 -> between lo hi x -> ~~ (l < c <= r) ->
      aw_edges t3 c x = if c == r.+1 then (D x, D x) else if c == l then (x, x) else aw_edges t c x.
    move=> hc hx h; rewrite a3 // fr2; last by rewrite hx andbT.
    by rewrite g1 es.
  split=> [hlr x hx|x hx|].
  - rewrite in1 //; [|by clear - hlr; lia|by clear; lia].
    by rewrite eqxx; case: eqP => // e; clear - e hlr; lia.
  - by rewrite in1 ?eqxx //; [clear - hrl; lia|clear; lia].
  - by apply: n2 => c x hc hx; apply: a3 => //; clear - hc; lia.
case: ifP => [/eqP hs2|hs2].
- have ew : aw_num_columns s = 1 by rewrite hs2.
  have er : r = l by move: hw2 hrl; rewrite ew; clear; lia.
  have eh : hi = lo.+1 by move: hs2; rewrite /s; clear; lia.
  have Blo : between lo hi lo by rewrite /between eh; clear; lia.
  have Bhi : between lo hi lo.+1 by rewrite /between eh; clear; lia.
  have D0 := hD _ Blo; have D1 := hD _ Bhi.
  rewrite subnn in D0; have e1 : lo.+1 - lo = 1 by clear; lia.
  rewrite e1 in D1.
  rewrite (oget_nth 0) ?hsz -/s ?hs2 //= D0.
  have hn1 : lo.+1 < np by rewrite -eh.
  have hn0 : lo < np by clear - hn1; lia.
  rewrite /nb_second /nb_first eh.
  have [t1 [-> s1 g1]] := nb_updE (fun e => (e.1, D lo)) ht hlc hn1; rewrite /=.
  have [t2 [-> s2 g2]] := nb_updE (fun e => (D lo, e.2)) s1 hlc hn0; rewrite /=.
  rewrite (oget_nth 0) ?hsz -/s ?hs2 //= D1.
  have [t3 [-> s3 g3]] := nb_updE (fun e => (D lo.+1, e.2)) s2 hlc hn1; rewrite /=.
  have [t4 [-> s4 g4]] := nb_updE (fun e => (e.1, D lo.+1)) s3 hlc hn0; rewrite /=.
  have n1 : (lo == lo.+1) = false by clear; lia.
  have n2 : (lo.+1 == lo) = false by clear; lia.
  have g c x : aw_edges t4 c x = if (c == l) && (x == lo) then (D lo, D lo.+1) else
      if (c == l) && (x == lo.+1) then (D lo.+1, D lo) else aw_edges t c x.
    rewrite !(g1, g2, g3, g4) !eqxx ?n1 ?n2 /= ?(eqxx, n1, n2) /=.
    case: (@eqP _ x lo) => [->|ne]; first by rewrite n1 andbF; case: (c == l).
    by rewrite !andbF; case: (@eqP _ x lo.+1) => [->|ne1]; rewrite ?andbF //; case: (c == l).
  exists t4; split=> // [c x hcx|t5 a5 x hx].
    rewrite g; case: (@eqP _ c l) hcx => [->|_ _] //=.
    rewrite er leqnn /=; case: eqP => [->|_]; first by rewrite /between; clear; lia.
    by case: eqP => [->|_] //; rewrite /between; clear; lia.
  have -> : aw_edges t5 l x = aw_edges t4 l x.
    by apply: a5 => //; rewrite er leqnn.
  have [->|->] : x = lo \/ x = lo.+1 by move: hx; rewrite /between; clear; lia.
    rewrite g !eqxx /=; congr (_, D _); rewrite /aw_other /aw_canonical; clear; lia.
  rewrite g n2 !eqxx /=; congr (_, D _); rewrite /aw_other /aw_canonical; clear; lia.
have hs3 : 2 < s.
  case: (ltnP 1 s) => hs; first by move: hs hs2; clear; lia.
  have e0 : aw_num_columns s = 0 by rewrite /aw_num_columns ltnNge hs.
  by move: hw2; rewrite e0; clear; lia.
have hs3' : lo + 2 <= hi by move: hs3; rewrite /s; clear; lia.
have w3 := width_ge3 hs3.
have hlr : l + 2 <= r by move: hw w3; rewrite -/s; clear; lia.
have hlr1 : l < r by clear - hlr; lia.
have [|t1 [nd1 [-> s1 z1 g1 n1]]] := @switch_fold l r lo hi nc np D dests hlr1 hr hs3' hn hsz hD (s %/ 2) 0 t (nseq s unset) ht _ (leqnn _).
  by rewrite size_nseq.
rewrite obindE; cbv zeta iota beta.
set d := s %/ 2.
have d0 : 0 < d by rewrite /d; clear - hs3; lia.
have [t2 [nd2 [e2 s2 z2 g2 n2]]] : exists t2 nd2, [/\ (if s %% 2 == 1 then
          let! t := nb_both t1 l hi hi in
          let! d := oget dests (hi - lo) in
          let! t := nb_both t r hi d in
          let! nd := oput nd1 (hi - lo) hi in Ok (t, nd)
        else
          let! t := nb_upd (fun e => (e.1, e.1)) t1 l (hi - 1) in
          let! t := nb_upd (fun e => (e.1, e.1)) t l hi in Ok (t, nd1)) = Ok (t2, nd2), tshape t2 nc np, size nd2 = s,
     forall c x, aw_edges t2 c x = if between lo hi x then (if c == l then ledge lo hi x else if c == r then redge lo hi D x
        else aw_edges t c x) else aw_edges t c x &
     forall x, between lo hi x -> nth 0 nd2 (x - lo) = ndest lo hi x].
  have G1 c x : aw_edges t1 c x = if between lo (lo + 2 * d - 1) x then
      (if c == l then (pos_in lo hi x (x == aw_canonical lo x), pos_in lo hi x (x != aw_canonical lo x))
         else if c == r then redge lo hi D x else aw_edges t c x)
      else aw_edges t c x.
    rewrite g1; have -> // : (lo + 2 * 0 <= x < lo + 2 * (0 + s %/ 2)) = between lo (lo + 2 * d - 1) x.
    by rewrite /between -/d; clear - d0; lia.
  have N1 x : between lo (lo + 2 * d - 1) x -> nth 0 nd1 (x - lo) = if x < lo + d then lo + 2 * (x - lo) else lo + 2 * (x - lo - d) + 1.
    rewrite /between n1 -/d => hx; case: ifP => h1; first by have -> : x < lo + d by move: hx h1; clear - d0; lia.
    have -> : x < lo + d = false by move: hx h1; clear - d0; lia.
    by have -> // : d + 0 <= x - lo < d + (0 + d) by move: hx h1; clear - d0; lia.
  have Bh : between lo hi hi by rewrite /between hlh leqnn.
  case: (boolP (s %% 2 == 1)) => od.
  - have eh : hi = lo + 2 * d by move: od; rewrite /d /s; clear - hs3'; lia.
    have io : isodd_in lo hi by rewrite /isodd_in -/s.
    have ph : paired_in lo hi hi = false by rewrite /paired_in io eqxx.
    have sp x : between lo hi x -> x <> hi -> between lo (lo + 2 * d - 1) x by rewrite eh /between; clear; lia.
    have nsp : between lo (lo + 2 * d - 1) hi = false by rewrite eh /between; clear - d0; lia.
    have [t2 [-> s2 g2]] := nb_bothE hi s1 hlc hn; rewrite /=.
    rewrite (oget_nth 0) /=; last by rewrite hsz; clear; lia.
    rewrite hD //.
    have [t3 [-> s3 g3]] := nb_bothE (D hi) s2 hr hn; rewrite /=.
    rewrite (oput_set_nth 0) /=; last by rewrite z1 /s; clear; lia.
    exists t3, (set_nth 0 nd1 (hi - lo) hi); split=> //.
    - by rewrite size_set_nth z1; apply/maxn_idPr; rewrite /s; clear; lia.
    - move=> c x; rewrite g3 g2 G1; case: (@eqP _ x hi) => [->|ne].
        rewrite !andbT Bh nsp /ledge /redge /pos_in ph /fixed_sw io /=.
        by case: (@eqP _ c r) => [->|_] //; have -> : (r == l) = false by clear - hlr; lia.
      rewrite !andbF; case: (boolP (between lo hi x)) => hx.
        by rewrite (sp _ hx ne) /ledge /fixed_sw io.
      by case: ifP => // hx2; move: hx; rewrite /between; move: hx2; rewrite /between; clear - eh; lia.
    - move=> x hx; rewrite nth_set_nth /= /ndest io -/s -/d /=; case: (@eqP _ x hi) => [->|ne].
        rewrite eqxx; have -> // : hi < lo + d = false by rewrite eh; clear; lia.
      have -> : (x - lo == hi - lo) = false by move: hx ne; rewrite /between; clear; lia.
      by rewrite N1 //; apply: sp.
  - have eh : hi = lo + 2 * d - 1 by move: od; rewrite /d /s; clear - hs3'; lia.
    have io : isodd_in lo hi = false by rewrite /isodd_in -/s (negbTE od).
    have hn1 : hi - 1 < np by clear - hn; lia.
    have [t2 [-> s2 g2]] := nb_updE (fun e => (e.1, e.1)) s1 hlc hn1; rewrite /=.
    have [t3 [-> s3 g3]] := nb_updE (fun e => (e.1, e.1)) s2 hlc hn; rewrite /=.
    rewrite -eh in G1 N1.
    exists t3, nd1; split=> //; last first.
      by move=> x hx; rewrite /ndest io -/s -/d /= N1.
    have nh : (hi == hi - 1) = false by clear - hs3'; lia.
    have B1 : between lo hi (hi - 1) by rewrite /between; clear - hs3'; lia.
    move=> c x; rewrite g3 !g2 !G1 Bh B1 nh !eqxx /ledge /fixed_sw io /=.
    case: (@eqP _ x hi) => [->|ne].
      by rewrite nh leq_subr Bh; case: (c == l); rewrite ?andbF /= ?eqxx.
    case: (@eqP _ x (hi - 1)) => [->|ne1].
      by rewrite B1 leqnn andbF andbT; case: (c == l); rewrite /= ?eqxx.
    rewrite !andbF; case: (boolP (between lo hi x)) => hx //.
    by have -> // : (hi - 1 <= x) = false by move: hx; rewrite /between; clear - ne ne1; lia.
rewrite e2 obindE; cbv zeta iota beta.
case: r hr hf hw ho hz hrl hw2 g2 hlr hlr1 {g1 e2} => [|r] hr hf hw ho hz hrl hw2 g2 hlr hlr1; first by clear - hlr; lia.
have ds : d <= s - s %/ 2 by rewrite /d; clear; lia.
have d1 : lo + d <= hi by rewrite /d /s; clear - hs3'; lia.
have hlo : lo <= lo + d - 1 by clear - d0; lia.
have Bt x : between lo (lo + d - 1) x -> between lo hi x by rewrite /between; clear - d0 d1; lia.
have Bb x : between (lo + d) hi x -> between lo hi x by rewrite /between; clear; lia.
have ewt : lo + d - 1 - lo + 1 = d by clear - d0; lia.
have ewb : hi - (lo + d) + 1 = s - s %/ 2 by rewrite /d /s; clear; lia.
have wt := width_half hs3 ds.
have wb := width_half hs3 (leqnn _).
have oo : odd (r - l.+1 + 1) by move: ho hlr; clear; lia.
have ew : aw_num_columns s = r.+1 - l + 1 by move: hw hw2; rewrite -/s; clear; lia.
have dsz : d < size nd2 by rewrite z2 /d; clear - hs3; lia.
have [||||||||t3 [e3 s3 fr3 n3]] := IH l.+1 r lo (lo + d - 1) (ndest lo hi) (take d nd2) t2 s2 hlo.
- by clear - d1 hn; lia.
- by clear - hr; lia.
- by rewrite size_take dsz ewt.
- by move=> x hx; rewrite nth_take ?n2 //; [apply: Bt|move: hx; rewrite /between; clear - d0; lia].
- by clear - hf; lia.
- by rewrite ewt; move: wt; rewrite ew; clear; lia.
- by [].
- by left.
have [|||||||t4 [e4 s4 fr4 n4]] := IH l.+1 r (lo + d) hi (ndest lo hi) (drop d nd2) t3 s3 d1 hn.
- by clear - hr; lia.
- by rewrite size_drop z2 ewb.
- move=> x hx; rewrite nth_drop -n2 //; last exact: Bb.
  by congr (nth _ _ _); move: hx; rewrite /between; clear; lia.
- by clear - hf; lia.
- by rewrite ewb; move: wb; rewrite ew; clear; lia.
- by [].
- by left.
exists t4; rewrite e3 obindE e4; split=> // [c x hcx|t5 a5].
  rewrite fr4; last by apply: contra hcx => /andP [h /Bb ->]; rewrite andbT; clear - h; lia.
  rewrite fr3; last by apply: contra hcx => /andP [h /Bt ->]; rewrite andbT; clear - h; lia.
  rewrite g2; case: ifP => // hx; rewrite hx andbT in hcx.
  case: eqP => [e|_]; first by rewrite e in hcx; clear - hcx hrl; lia.
  by case: eqP => // e; rewrite e in hcx; clear - hcx hrl; lia.
have in1 c x : l <= c <= r.+1 -> between lo hi x -> ~~ (l < c <= r) ->
    aw_edges t5 c x = if c == l then ledge lo hi x else if c == r.+1 then redge lo hi D x else aw_edges t c x.
  move=> hc hx h; rewrite a5 // fr4; last by rewrite (negbTE h).
  by rewrite fr3 ?(negbTE h) // g2 hx.
split=> [x hx|x hx||].
- by rewrite in1 ?eqxx //; [clear - hrl; lia|clear; lia].
- rewrite in1 //; [|by clear - hrl; lia|by clear; lia].
  by rewrite eqxx; case: eqP => // e; clear - e hlr; lia.
- apply: n3 => c x hc hx; rewrite a5; [|by clear - hc; lia|exact: Bt].
  by apply: fr4; move: hx; rewrite /between; clear - d0; lia.
- by apply: n4 => c x hc hx; rewrite a5 //; [clear - hc; lia|exact: Bb].
Qed.

(** * The whole network *)
Lemma generate_ok unset n : 1 < n ->
  exists t, [/\ aw_generate unset n = Ok t, tshape t (aw_num_columns n) n &
    net (aw_num_columns n) 0 (aw_num_columns n - 1) 0 (n - 1) id t].
Proof.
move=> hn; rewrite /aw_generate hn /=; set w := aw_num_columns n.
have [k ek] := width_odd hn.
have ht : tshape (nseq w (nseq n (unset, unset))) w n.
  split=> [|c hc]; first by rewrite size_nseq.
  by rewrite nth_nseq hc size_nseq.
have en : n - 1 - 0 + 1 = n by clear - hn; lia.
have [|||||||||t [-> s2 _ n2]] := @construct_ok unset w w n 0 (w - 1) 0 (n - 1) id (iota 0 n) _ ht.
- by [].
- by clear - hn; lia.
- by rewrite /w ek; clear; lia.
- by rewrite size_iota en.
- by move=> x; rewrite /between subn0 => hx; rewrite nth_iota //; clear - hx hn; lia.
- by rewrite /w ek; clear; lia.
- by rewrite en -/w; clear; lia.
- by rewrite /w ek; clear; lia.
- by right; rewrite en -/w /w ek; clear; lia.
by exists t; split=> //; apply: n2.
Qed.
