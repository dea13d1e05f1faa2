(** Facts about the routing gadgets (for C36).  Models nothing of /repo. *)
From mathcomp Require Import all_ssreflect all_algebra zify.
From Verif Require Import Outcome StdMap Lincomb LincombSpec LincombFacts R1CS R1CSSpec R1CSFacts Fieldtac.
From Verif Require Import Protoboard GadgetSpec GadgetLogic BasicGadgets BasicGadgetsFacts BasicGadgetsMore.
From Verif Require Import BasicGadgetsCopy GadgetNew GadgetSeq Sha256Gadget Knapsack.
From Verif Require Import IntegerPermutation Benes BenesRoute AsWaksman Prop_Routing RoutingGadget.
Set Implicit Arguments.
Unset Strict Implicit.
Unset Printing Implicit Defensive.
Local Open Scope ring_scope.
Import GRing.Theory.

Section Alloc.
Variable F : fieldType.
Implicit Types (pb : protoboard F) (val : nat -> F) (p : seq F).

(** Valuations of the variables that exist already can be extended. *)
Definition ext (N : nat) val val' : Prop := forall v, (v <= N)%N -> val' v = val v.
Lemma ext_refl N val : ext N val val. Proof. by []. Qed.
Lemma ext_trans N M val1 val2 val3 : (N <= M)%N -> ext N val1 val2 -> ext M val2 val3 -> ext N val1 val3.
Proof. by move=> h h1 h2 v hv; rewrite h2 ?h1 //; apply: leq_trans hv h. Qed.

(** The array [vs] has [k] different variables from [lo+1..hi], with the values [p]. *)
Definition carried val (lo hi k : nat) (vs : seq nat) p : Prop :=
  [/\ size vs = k /\ uniq vs, all (fun v => (lo < v <= hi)%N) vs & map val vs = p].
Lemma carried_ext val val' lo hi hi' k vs p : (hi <= hi')%N -> ext hi val val' ->
  carried val lo hi k vs p -> carried val' lo hi' k vs p.
Proof.
move=> h he [h1 /allP h2 h3]; split=> //.
  by apply/allP => v /h2 /andP [-> h4] /=; apply: leq_trans h4 h.
by rewrite -h3; apply/eq_in_map => v /h2 /andP [_ h4]; apply: he.
Qed.
Lemma carried_lo val lo lo' hi k vs p : (lo' <= lo)%N -> carried val lo hi k vs p -> carried val lo' hi k vs p.
Proof.
move=> h [h1 /allP h2 h3]; split=> //.
by apply/allP => v /h2 /andP [h4 ->]; rewrite andbT; apply: leq_ltn_trans h h4.
Qed.

Lemma allocate_val pb k vs pb' val p : pb_wf pb -> allocate_array pb k = (vs, pb') -> size p = k ->
  allocates pb pb' /\ exists val', ext (size (pb_values pb)) val val' /\
    carried val' (size (pb_values pb)) (size (pb_values pb')) k vs p.
Proof.
move=> hw e hp; have [h1 h2 h3] := allocate_array_new hw e; split=> //.
set N := size (pb_values pb) in h2 h3 *.
exists (fun v => if (v <= N)%N then val v else nth 0 p (v - N.+1)); split=> [v ->//|].
split; first by rewrite h2 size_iota iota_uniq.
  by apply/allP => v; rewrite h2 mem_iota h3 => /andP [h4 h5]; rewrite h4; lia.
apply: (@eq_from_nth _ 0); first by rewrite size_map h2 size_iota.
move=> i; rewrite size_map h2 size_iota => hi.
rewrite (nth_map 0%N) ?size_iota // nth_iota //.
by rewrite leqNgt ltn_addr ?ltnSn //= addKn.
Qed.
Lemma allocate_var_val pb v pb' val a : pb_wf pb -> allocate_var pb = (v, pb') ->
  [/\ allocates pb pb', (size (pb_values pb) < v <= size (pb_values pb'))%N &
  exists val', ext (size (pb_values pb)) val val' /\ val' v = a].
Proof.
move=> hw e; have [h1 h2 h3] := allocate_var_new hw e; split=> //; first by rewrite h2 h3 !ltnSn.
exists (fun w => if w == v then a else val w); split; last by rewrite eqxx.
by move=> w hw'; case: eqP => // ew; move: hw'; rewrite ew h2; lia.
Qed.

(** [n] arrays *)
Lemma new_packets (ts : seq nat) pb k arrs pb' val (pay : nat -> seq F) : pb_wf pb ->
  new_all (fun (_ : nat) pb => Ok (allocate_array pb k)) ts pb = Ok (arrs, pb') ->
  (forall i, (i < size ts)%N -> size (pay i) = k) ->
  [/\ allocates pb pb', size arrs = size ts & exists val', ext (size (pb_values pb)) val val' /\
    forall i, (i < size ts)%N ->
      carried val' (size (pb_values pb)) (size (pb_values pb')) k (nth [::] arrs i) (pay i)].
Proof.
elim: ts pb arrs pb' val pay => [|t ts IH] pb arrs pb' val pay hw /=.
  by case=> <- <- _; split=> //; [exact: allocates_refl|exists val].
case ea: (allocate_array pb k) => [vs pb1]; cbn [obind fst snd].
case en: (new_all _ ts pb1) => [[arrs1 pb2]| |] //= -[<- <-] hp.
have [h1 [val1 [e1 c1]]] := allocate_val val hw ea (hp 0%N isT).
have [|h2 hs [val2 [e2 c2]]] := IH _ _ _ val1 (fun i => pay i.+1) (allocates_wf h1) en; first by move=> i hi; apply: hp.
have l1 := allocates_size h1; have l2 := allocates_size h2.
split; [exact: allocates_trans h1 h2|by rewrite /= hs|exists val2; split; first exact: ext_trans l1 e1 e2].
case=> [|i] hi /=; first exact: (carried_ext l2 e2 c1).
by apply: carried_lo l1 (c2 _ _).
Qed.
Lemma new_packets_ok (ts : seq nat) pb k : exists arrs pb',
  new_all (fun (_ : nat) (pb : protoboard F) => Ok (allocate_array pb k)) ts pb = Ok (arrs, pb').
Proof.
elim: ts pb => [|t ts IH] pb /=; first by exists [::], pb.
case: (allocate_array pb k) => [vs pb1]; have [arrs [pb2 e]] := IH pb1.
by exists (vs :: arrs), pb2; cbn [obind fst snd]; rewrite e.
Qed.
End Alloc.

(** ** One column of an AS-Waksman network *)
Section Column.
Local Open Scope nat_scope.
Variables (n : nat) (edges : seq (nat * nat)).
Let E x := nth (0, 0) edges x.
Definition is_top x := [&& (E x).1 != (E x).2, E x.+1 == ((E x).2, (E x).1) & x.+1 < n].
Definition is_bottom x := (0 < x) && is_top x.-1.
(** What C27 says about the columns of the topology. *)
Record column_ok : Prop := ColumnOk {
  co_size : size edges = n;
  co_lt : forall x, x < n -> (E x).1 < n /\ (E x).2 < n;
  co_inj : forall x y, x < n -> y < n -> (E x).1 = (E y).1 -> x = y;
  co_switch : forall x, x < n -> (E x).1 <> (E x).2 -> is_top x (+) is_bottom x }.
Hypothesis hok : column_ok.

Lemma top_neq x : is_top x -> (E x).1 <> (E x).2. Proof. by case/and3P => /eqP. Qed.
Lemma top_lt x : is_top x -> x.+1 < n. Proof. by case/and3P. Qed.
Lemma top_next x : is_top x -> E x.+1 = ((E x).2, (E x).1). Proof. by case/and3P => _ /eqP. Qed.
Lemma bottom_neq x : is_bottom x -> (E x).1 <> (E x).2.
Proof.
case: x => [|x] //; rewrite /is_bottom /= => h; rewrite (top_next h) /= => e; exact: (top_neq h).
Qed.
Lemma not_both x : x < n -> is_top x -> ~~ is_bottom x.
Proof. by move=> hx h; have := co_switch hok hx (top_neq h); rewrite h. Qed.
Lemma top_of x : x < n -> ~~ is_bottom x -> ((E x).1 != (E x).2) = is_top x.
Proof.
move=> hx hb; apply/idP/idP => [/eqP h|/top_neq /eqP //].
by have := co_switch hok hx h; rewrite (negbTE hb) addbF.
Qed.

Lemma visitedE skip row k : row + k = n -> skip = is_bottom row ->
  visited edges skip row k = [seq x <- iota row k | ~~ is_bottom x].
Proof.
elim: k row skip => [|k IH] row skip //= hn ->.
have hr : row < n by lia.
case: (boolP (is_bottom row)) => hb /=.
  apply: IH; first by lia.
  apply/esym; rewrite /is_bottom /=; apply/negbTE; apply/negP => ht.
  by have := not_both hr ht; rewrite hb.
rewrite -/(E row) IH //; first by lia.
by rewrite (top_of hr hb) /is_bottom.
Qed.
Lemma visited_rows : visited edges false 0 n = [seq x <- iota 0 n | ~~ is_bottom x].
Proof. exact: visitedE. Qed.
Lemma mem_visited x : (x \in visited edges false 0 n) = (x < n) && ~~ is_bottom x.
Proof. by rewrite visited_rows mem_filter mem_iota /= add0n andbC. Qed.
Lemma visited_uniq : uniq (visited edges false 0 n).
Proof. by rewrite visited_rows filter_uniq ?iota_uniq. Qed.

(** Every row is a wire, the top or the bottom of a switch. *)
Lemma row_cases x : x < n ->
  [\/ (E x).1 = (E x).2, is_top x | is_bottom x /\ is_top x.-1].
Proof.
move=> hx; case: (boolP (is_bottom x)) => hb; first by apply: Or33; split=> //; case/andP: hb.
case: (boolP (is_top x)) => ht; first by apply: Or32.
by apply: Or31; apply/eqP; move: (top_of hx hb); rewrite (negbTE ht) => /negbT; rewrite negbK.
Qed.
(** Every row of the next column is a target. *)
Lemma column_surj y : y < n -> exists2 x, x < n & (E x).1 = y.
Proof.
move=> hy; have hu : uniq [seq (E x).1 | x <- iota 0 n].
  by apply/map_uniqP; first exact: iota_uniq; move=> x1 x2; rewrite !mem_iota /= => h1 h2; apply: (co_inj hok).
have hs : {subset [seq (E x).1 | x <- iota 0 n] <= iota 0 n}.
  by move=> z /mapP [x]; rewrite mem_iota /= => hx ->; rewrite mem_iota /=; case: (co_lt hok hx).
have [|_ em] := uniq_min_size hu hs; first by rewrite size_map.
have : y \in iota 0 n by rewrite mem_iota.
by rewrite -em => /mapP [x]; rewrite mem_iota /= => hx ->; exists x.
Qed.
End Column.

Section AswColumn.
Variable F : fieldType.
Variables (n : nat) (edges : seq (nat * nat)).
Let E x := nth (0, 0)%N edges x.
Hypothesis hok : column_ok n edges.
Variables (k lo : nat) (pb0 : protoboard F) (prev : seq pb_variable_array) (val0 : nat -> F) (pay pay' : nat -> seq F).
Hypothesis hw : pb_wf pb0.
Hypothesis hlo : (lo <= size (pb_values pb0))%N.
Hypothesis hprev : size prev = n.
Hypothesis hcar : forall x, (x < n)%N -> carried val0 lo (size (pb_values pb0)) k (nth [::] prev x) (pay x).
Hypothesis hsz : forall y, (y < n)%N -> size (pay' y) = k.
Hypothesis hpay : forall x, (x < n)%N -> (E x).1 = (E x).2 -> pay' (E x).1 = pay x.

Let covered (rows : seq nat) x := (x \in rows) || is_bottom n edges x && (x.-1 \in rows).

Lemma asw_prefix rows1 rows2 : visited edges false 0 n = rows1 ++ rows2 ->
  exists next pb1, [/\ ofold (asw_row k edges prev) (nseq n [::], pb0) rows1 = Ok (next, pb1), allocates pb0 pb1,
    size next = n,
    forall x, x \in rows1 -> (E x).1 = (E x).2 -> nth [::] next (E x).1 = nth [::] prev x &
    exists val1, ext (size (pb_values pb0)) val0 val1 /\
      forall x, covered rows1 x -> carried val1 lo (size (pb_values pb1)) k (nth [::] next (E x).1) (pay' (E x).1)].
Proof.
elim/last_ind: rows1 rows2 => [|rows1 r IH] rows2 er.
  exists (nseq n [::]), pb0; split=> //; [exact: allocates_refl|by rewrite size_nseq|].
  by exists val0; split=> // x; rewrite /covered /= !in_nil andbF.
have er' : visited edges false 0 n = rows1 ++ r :: rows2 by rewrite er cat_rcons.
have [next [pb1 [e1 a1 s1 w1 [val1 [x1 c1]]]]] := IH _ er'.
have hr : r \in visited edges false 0 n by rewrite er' mem_cat inE eqxx orbT.
move: hr; rewrite (mem_visited hok) => /andP [hrn hnb].
have hu := visited_uniq hok; rewrite er' cat_uniq /= negb_or in hu.
case/and3P: hu => hu1 /andP [hnr _] _.
have in_lt x : x \in rows1 -> (x < n)%N && ~~ is_bottom n edges x.
  by move=> hx; rewrite -(mem_visited hok) er' mem_cat hx.
have cov_lt x : covered rows1 x -> (x < n)%N.
  case/orP => [/in_lt /andP [] //|/andP [hb /in_lt /andP [h _]]].
  by have := top_lt (andP hb).2; case/andP: hb => h0 _; rewrite prednK.
have [l1 l2] := co_lt hok hrn.
rewrite -cats1 ofold_cat e1; cbn [obind ofold].
rewrite /asw_row (oget_nth (0, 0)%N) ?(co_size hok) //; cbn [obind fst snd]; rewrite -/(E r).
have new_row x : covered rows1 x -> (E x).1 <> (E r).1.
  move=> hc e; have exr := co_inj hok (cov_lt _ hc) hrn e.
  by move: hc; rewrite exr /covered (negbTE hnb) orbF => h; rewrite h in hnr.
have l1' := leq_trans hlo (allocates_size a1).
case: eqP => [est|nst].
  rewrite (oget_nth [::]) ?hprev //; cbn [obind fst snd]; rewrite (oput_set_nth [::]) ?s1 //; cbn [obind fst snd].
  exists (set_nth [::] next (E r).1 (nth [::] prev r)), pb1; split=> //.
  - by rewrite size_set_nth s1; apply/maxn_idPr.
  - move=> x; rewrite mem_cat inE => /orP [hx|/eqP ->] hs; last by rewrite nth_set_nth /= eqxx.
    rewrite nth_set_nth /=; case: eqP => [e|_]; last exact: w1.
    by case: (new_row x _ e); rewrite /covered hx.
  exists val1; split=> // x; rewrite /covered mem_cat inE => hx.
  rewrite nth_set_nth /=; case: eqP => [e|ne].
    have {e} exr : x = r.
      apply: (co_inj hok) e => //; case/orP: hx => [/orP [/in_lt /andP [] //|/eqP ->] //|].
      case/andP => hb _; have := top_lt (andP hb).2; case/andP: hb => h0 _; by rewrite prednK.
    rewrite exr hpay //; apply: carried_ext (hcar hrn); [exact: allocates_size|exact: x1].
  apply: c1; rewrite /covered; case/orP: hx => [/orP [->//|/eqP exr]|/andP [hb]]; first by case: ne; rewrite exr.
  rewrite mem_cat inE => /orP [->|/eqP exr]; first by rewrite hb orbT.
  by case/andP: hb => _; rewrite exr => /top_neq /(_ est).
have ht : is_top n edges r by rewrite -(top_of hok hrn hnb); apply/eqP.
have tl := top_lt ht; have en := top_next ht.
case ea: (allocate_array pb1 k) => [va pb2]; rewrite (oput_set_nth [::]) ?s1 //; cbn [obind fst snd].
case eb: (allocate_array pb2 k) => [vb pb3]; set next1 := set_nth _ _ _ _.
have s2 : size next1 = n by rewrite size_set_nth s1; apply/maxn_idPr.
rewrite (oput_set_nth [::]) ?s2 //; cbn [obind fst snd].
have [a2 [val2 [x2 c2]]] := allocate_val val1 (allocates_wf a1) ea (hsz l1).
have [a3 [val3 [x3 c3]]] := allocate_val val2 (allocates_wf a2) eb (hsz l2).
have b1 := allocates_size a1; have b2 := allocates_size a2; have b3 := allocates_size a3.
exists (set_nth [::] next1 (E r).2 vb), pb3; split.
- by [].
- exact: allocates_trans a1 (allocates_trans a2 a3).
- by rewrite size_set_nth s2; apply/maxn_idPr.
- move=> x; rewrite mem_cat inE => /orP [hx|/eqP ->] hs; last by case: nst.
  have hx' : covered rows1 x by rewrite /covered hx.
  rewrite nth_set_nth /=; case: eqP => [e|_].
    have exr : x = r.+1 by apply: (co_inj hok) => //; [exact: cov_lt|rewrite -/(E r.+1) /E en].
    have /andP [_] := in_lt _ hx; rewrite exr /is_bottom /= ht //.
  rewrite nth_set_nth /=; case: eqP => [e|_]; last exact: w1.
  by case: (new_row x hx').
exists val3; split.
  apply: ext_trans (leq_trans b1 b2) _ x3; exact: ext_trans b1 x1 x2.
move=> x hx.
have hxn : (x < n)%N.
  case/orP: hx => [|/andP [hb]].
    by rewrite mem_cat inE => /orP [/in_lt /andP [] //|/eqP ->].
  by move=> _; have := top_lt (andP hb).2; case/andP: hb => h0 _; rewrite prednK.
rewrite nth_set_nth /=; case: eqP => [e|ne2].
  have -> : pay' (E x).1 = pay' (E r).2 by rewrite e.
  by apply: carried_lo (leq_trans l1' b2) c3.
rewrite nth_set_nth /=; case: eqP => [e|ne1].
  have -> : pay' (E x).1 = pay' (E r).1 by rewrite e.
  by apply: carried_lo l1' (carried_ext b3 x3 c2).
apply: carried_ext (leq_trans b2 b3) _ (c1 x _); first exact: ext_trans b2 x2 x3.
rewrite /covered; case/orP: hx => [|/andP [hb]].
  by rewrite mem_cat inE => /orP [->//|/eqP exr]; case: ne1; rewrite exr.
rewrite mem_cat inE => /orP [->|/eqP exr]; first by rewrite hb orbT.
have ex : x = r.+1 by rewrite -exr prednK //; case/andP: hb.
by case: ne2; rewrite ex /E en.
Qed.

Lemma asw_column_ok : exists next pb1, [/\ asw_column n k edges prev pb0 = Ok (next, pb1), allocates pb0 pb1,
    size next = n,
    forall x, (x < n)%N -> (E x).1 = (E x).2 -> nth [::] next (E x).1 = nth [::] prev x &
    exists val1, ext (size (pb_values pb0)) val0 val1 /\
      forall y, (y < n)%N -> carried val1 lo (size (pb_values pb1)) k (nth [::] next y) (pay' y)].
Proof.
have [|next [pb1 [e a s w [val1 [x1 c]]]]] := @asw_prefix (visited edges false 0 n) [::]; first by rewrite cats0.
exists next, pb1; split=> //.
  move=> x hx hs; apply: w => //; rewrite (mem_visited hok) hx /=.
  by apply/negP => /bottom_neq /(_ hs).
exists val1; split=> // y /(column_surj hok) [x hx <-]; apply: c.
rewrite /covered !(mem_visited hok) hx /=; case: (boolP (is_bottom n edges x)) => //= hb.
case/andP: (hb) => h0 ht; rewrite (not_both hok _ ht) ?andbT; first by lia.
by have := top_lt ht; lia.
Qed.
End AswColumn.

Section AswColumns.
Variable F : fieldType.
Variables (n : nat) (neighbors : seq (seq (nat * nat))).
Let E c x := nth (0, 0)%N (nth [::] neighbors c) x.
Hypothesis hok : forall c, (c < size neighbors)%N -> column_ok n (nth [::] neighbors c).
Variables (k lo : nat) (pb0 : protoboard F) (first : seq pb_variable_array) (val0 : nat -> F) (pay : nat -> nat -> seq F).
Hypothesis hw : pb_wf pb0.
Hypothesis hlo : (lo <= size (pb_values pb0))%N.
Hypothesis hfirst : size first = n.
Hypothesis hcar : forall x, (x < n)%N -> carried val0 lo (size (pb_values pb0)) k (nth [::] first x) (pay 0%N x).
Hypothesis hsz : forall c y, (y < n)%N -> size (pay c y) = k.
Hypothesis hpay : forall c x, (c < size neighbors)%N -> (x < n)%N -> (E c x).1 = (E c x).2 -> pay c.+1 (E c x).1 = pay c x.

Lemma asw_columns_prefix nb1 nb2 : neighbors = nb1 ++ nb2 ->
  exists cols pb1, [/\ asw_columns n k nb1 first pb0 = Ok (cols, pb1), allocates pb0 pb1,
    size cols = (size nb1).+1 /\ nth [::] cols 0 = first,
    forall c, (c <= size nb1)%N -> size (nth [::] cols c) = n /\ (forall x, (c < size nb1)%N -> (x < n)%N ->
      (E c x).1 = (E c x).2 -> nth [::] (nth [::] cols c.+1) (E c x).1 = nth [::] (nth [::] cols c) x) &
    exists val1, ext (size (pb_values pb0)) val0 val1 /\
      forall c y, (c <= size nb1)%N -> (y < n)%N ->
        carried val1 lo (size (pb_values pb1)) k (nth [::] (nth [::] cols c) y) (pay c y)].
Proof.
elim/last_ind: nb1 nb2 => [|nb1 es IH] nb2 en.
  exists [:: first], pb0; split=> //; [exact: allocates_refl|by case|].
  by exists val0; split=> // -[|c] y //= _ /hcar.
have en' : neighbors = nb1 ++ es :: nb2 by rewrite en cat_rcons.
have [cols [pb1 [e1 a1 [s1 f1] w1 [val1 [x1 c1]]]]] := IH _ en'.
have ls : (size nb1 < size neighbors)%N by rewrite en' size_cat /= addnS ltnS leq_addr.
have ees : es = nth [::] neighbors (size nb1) by rewrite en' nth_cat ltnn subnn.
have el : last [::] cols = nth [::] cols (size nb1) by rewrite -nth_last s1.
have [sl _] := w1 (size nb1) (leqnn _).
have l1 := allocates_size a1.
have hok' : column_ok n es by rewrite ees; exact: hok ls.
have hcar' x : (x < n)%N -> carried val1 lo (size (pb_values pb1)) k (nth [::] (nth [::] cols (size nb1)) x) (pay (size nb1) x).
  by move=> hx; apply: c1.
have hp' x : (x < n)%N -> (nth (0, 0)%N es x).1 = (nth (0, 0)%N es x).2 ->
    pay (size nb1).+1 (nth (0, 0)%N es x).1 = pay (size nb1) x.
  by move=> hx; rewrite ees; apply: hpay.
have [next [pb2 [e2 a2 s2 w2 [val2 [x2 c2]]]]] := asw_column_ok hok' (allocates_wf a1) (leq_trans hlo l1) sl hcar'
  (hsz (size nb1).+1) hp'.
have l2 := allocates_size a2.
have nr c : (c <= size nb1)%N -> nth [::] (rcons cols next) c = nth [::] cols c by move=> hc; rewrite nth_rcons s1 ltnS hc.
have nl : nth [::] (rcons cols next) (size nb1).+1 = next by rewrite nth_rcons s1 ltnn eqxx.
exists (rcons cols next), pb2; split.
- rewrite /asw_columns -cats1 ofold_cat -/(asw_columns n k nb1 first pb0) e1; cbn [obind ofold fst snd].
  by rewrite el e2.
- exact: allocates_trans a1 a2.
- by rewrite !size_rcons s1 nr.
- move=> c; rewrite size_rcons leq_eqVlt => /orP [/eqP ->|]; first by rewrite nl s2 ltnn.
  rewrite ltnS => hc; have [h1 h2] := w1 c hc; rewrite nr //; split=> // x _ hx hs.
  move: hc; rewrite leq_eqVlt => /orP [/eqP ec|hc]; last by rewrite nr ?h2.
  by rewrite ec nl; move: hs; rewrite /E ec -ees => hs; apply: w2.
- exists val2; split; first exact: ext_trans l1 x1 x2.
  move=> c y; rewrite size_rcons leq_eqVlt => /orP [/eqP ->|hc] hy; first by rewrite nl; apply: c2.
  by rewrite nr //; apply: (carried_ext l2 x2); apply: c1.
Qed.
End AswColumns.

(** ** Switch bits *)
Section AswBits.
Variable F : fieldType.
Variable n : nat.

Lemma asw_bits_column_ok (pb0 : protoboard F) edges (val0 : nat -> F) (b : nat -> F) m pb1 :
  column_ok n edges -> pb_wf pb0 -> asw_bits_column n edges pb0 = (m, pb1) ->
  allocates pb0 pb1 /\ exists val1, ext (size (pb_values pb0)) val0 val1 /\
    forall x, is_top n edges x -> exists v, [/\ nm_find m x = Some v,
      (size (pb_values pb0) < v <= size (pb_values pb1))%N & val1 v = b x].
Proof.
move=> hok hw; rewrite /asw_bits_column.
have hx x : is_top n edges x -> x \in visited edges false 0 n.
  by move=> ht; have tl := top_lt ht; rewrite (mem_visited hok) (not_both hok) // ?andbT; exact: ltnW.
have hneq x : is_top n edges x -> (nth (0, 0)%N edges x).1 != (nth (0, 0)%N edges x).2.
  by move/top_neq/eqP.
have H (rows : seq nat) (m0 : nmap pb_variable) (pb' : protoboard F) (val' : nat -> F) m1 pb1' : pb_wf pb' ->
    foldl (fun (st : nmap pb_variable * protoboard F) row => let e := nth (0, 0)%N edges row in
      if e.1 == e.2 then st
      else let: (v, pb) := allocate_var st.2 in (nm_set st.1 row v, pb)) (m0, pb') rows = (m1, pb1') ->
    uniq rows ->
    [/\ allocates pb' pb1', forall x, x \notin rows -> nm_find m1 x = nm_find m0 x & exists val1, ext (size (pb_values pb')) val' val1 /\
      forall x, x \in rows -> (nth (0, 0)%N edges x).1 != (nth (0, 0)%N edges x).2 ->
       exists v, [/\ nm_find m1 x = Some v, (size (pb_values pb') < v <= size (pb_values pb1'))%N & val1 v = b x]].
  elim: rows m0 pb' val' => [|r rows IH] m0 pb' val' hw'.
    by case=> <- <- _; split=> //; [exact: allocates_refl|exists val'].
  cbn [foldl fst snd]; case: eqP => [e|ne] hf /= /andP [hr hu].
    have [h1 h2 [val1 [h3 h4]]] := IH _ _ val' hw' hf hu; split=> //.
      by move=> x; rewrite inE negb_or => /andP [_ /h2].
    exists val1; split=> // x; rewrite inE => /orP [/eqP ->|/h4 //].
    by rewrite e eqxx.
  move: hf; case ea: (allocate_var pb') => [v pb2]; cbn [fst snd] => hf.
  have [a1 hv [val2 [x2 e2]]] := allocate_var_val val' (b r) hw' ea.
  have [h1 h2 [val1 [h3 h4]]] := IH _ _ val2 (allocates_wf a1) hf hu.
  have l1 := allocates_size a1; have l2 := allocates_size h1.
  split; first exact: allocates_trans a1 h1.
    by move=> x; rewrite inE negb_or => /andP [hxr hx']; rewrite h2 // nm_find_set (negbTE hxr).
  exists val1; split; first exact: ext_trans l1 x2 h3.
  move=> x; rewrite inE => /orP [/eqP ->|hx'] hne.
    exists v; rewrite h2 // nm_find_set eqxx; split=> //; first by move: hv l2; lia.
    by rewrite h3 //; case/andP: hv.
  have [w [k1 k2 k3]] := h4 _ hx' hne; exists w; split=> //; move: k2 l1; lia.
case/(H _ _ _ val0 _ _ hw) => [|h1 _ [val1 [h3 h4]]]; first exact: visited_uniq.
by split=> //; exists val1; split=> // x hxt; apply: h4; [exact: hx|exact: hneq].
Qed.

Lemma asw_bits_ok (nbs : seq (seq (nat * nat))) (pb0 : protoboard F) (val0 : nat -> F) (b : nat -> nat -> F) :
  (forall c, (c < size nbs)%N -> column_ok n (nth [::] nbs c)) -> pb_wf pb0 ->
  exists ms pb1, [/\ asw_bits n nbs pb0 = Ok (ms, pb1), allocates pb0 pb1 &
    exists val1, ext (size (pb_values pb0)) val0 val1 /\
    forall c x, (c < size nbs)%N -> is_top n (nth [::] nbs c) x -> exists v, [/\ nm_find (nth [::] ms c) x = Some v,
      (size (pb_values pb0) < v <= size (pb_values pb1))%N & val1 v = b c x]].
Proof.
elim: nbs pb0 val0 b => [|es nbs IH] pb0 val0 b hok hw.
  exists [::], pb0; split=> //; first exact: allocates_refl.
  by exists val0.
rewrite /asw_bits; cbn [new_all]; case e1: (asw_bits_column n es pb0) => [m pb1]; cbn [obind fst snd].
have [a1 [val1 [x1 c1]]] := asw_bits_column_ok val0 (b 0%N) (hok 0%N isT) hw e1.
have [|ms [pb2 [e2 a2 [val2 [x2 c2]]]]] := IH pb1 val1 (fun c => b c.+1) _ (allocates_wf a1); first by move=> c hc; apply: (hok c.+1).
have l1 := allocates_size a1; have l2 := allocates_size a2.
exists (m :: ms), pb2; rewrite -/(asw_bits n nbs pb1) e2; split=> //; first exact: allocates_trans a1 a2.
exists val2; split; first exact: ext_trans l1 x1 x2.
case=> [|c] x hc ht.
  have [v [k1 k2 k3]] := c1 _ ht; exists v; split=> //; first by move: k2 l2; lia.
  by rewrite x2 //; case/andP: k2.
have [v [k1 k2 k3]] := c2 c x hc ht; exists v; split=> //; move: k2 l1; lia.
Qed.
End AswBits.

(** ** The gadgets built by the constructors *)
Section Built.
Variable F : fieldType.
Variable R : bigint_repr F.
Hypothesis hcap : (0 < capacity R)%N.

Definition packs (bits packed : seq pb_variable_array) (l : nat) (ps : seq (multipacking F)) : Prop :=
  size ps = l /\ forall i, (i < l)%N -> multipacking_new (plcs_of_vars F (nth [::] bits i))
    (plcs_of_vars F (nth [::] packed i)) (capacity R) = Ok (nth [::] ps i).
Lemma packs_ok bits packed l : (l <= size bits)%N -> (l <= size packed)%N ->
  (forall i, (i < l)%N -> size (nth [::] packed i) = div_ceil (size (nth [::] bits i)) (capacity R)) ->
  exists ps, omapm (pack_new R bits packed) (iota 0 l) = Ok ps /\ packs bits packed l ps.
Proof.
move=> h1 h2 h3.
pose f i : multipacking F := if multipacking_new (plcs_of_vars F (nth [::] bits i)) (plcs_of_vars F (nth [::] packed i))
  (capacity R) is Ok m then m else [::].
have hf i : (i < l)%N -> multipacking_new (plcs_of_vars F (nth [::] bits i)) (plcs_of_vars F (nth [::] packed i))
    (capacity R) = Ok (f i).
  move=> hi; rewrite /f /multipacking_new (gtn_eqF hcap) /plcs_of_vars !size_map h3 // eqxx; cbn [oassert obind].
  by [].
exists [seq f i | i <- iota 0 l]; split; last split.
- apply: omapm_Ok => i /GadgetLogic.In_mem; rewrite mem_iota add0n => hi.
  rewrite /pack_new (oget_nth [::]) ?(leq_trans hi h1) //; cbn [obind].
  by rewrite (oget_nth [::]) ?(leq_trans hi h2) //; cbn [obind]; apply: hf.
- by rewrite size_map size_iota.
- by move=> i hi; rewrite (nth_map 0%N) ?size_iota // nth_iota // hf.
Qed.

(** [g] is a routing network of [n] lines, [nc] columns and packets of [k]
    field elements; [sw c x] says that row [x] of column [c] has a switch bit. *)
Record built (pb0 pb1 : protoboard F) (n nc k l : nat) (neighbors : seq (seq (nat * nat))) (sw : nat -> nat -> bool)
    (wires : bool) (inputs outputs : seq pb_variable_array) (g : routing_gadget F) : Prop := Built {
  bu_alloc : allocates pb0 pb1;
  bu_n : rg_num_packets g = n;
  bu_nc : rg_num_columns g = nc;
  bu_k : rg_num_subpackets g = k;
  bu_nb : rg_neighbors g = neighbors;
  bu_pack : packs inputs (nth [::] (rg_packets g) 0) n (rg_pack g);
  bu_unpack : packs outputs (nth [::] (rg_packets g) nc) l (rg_unpack g);
  bu_wires : wires -> forall c x, (c < nc)%N -> (x < n)%N -> (rg_edges g c x).1 = (rg_edges g c x).2 ->
    rg_packet g c.+1 (rg_edges g c x).1 = rg_packet g c x;
  bu_val : forall (val0 : nat -> F) (pay : nat -> nat -> seq F) (b : nat -> nat -> F),
    (forall c y, (y < n)%N -> size (pay c y) = k) ->
    (wires -> forall c x, (c < nc)%N -> (x < n)%N -> (rg_edges g c x).1 = (rg_edges g c x).2 ->
       pay c.+1 (rg_edges g c x).1 = pay c x) ->
    exists val, [/\ ext (size (pb_values pb0)) val0 val,
      forall c y, (c <= nc)%N -> (y < n)%N ->
        carried val (size (pb_values pb0)) (size (pb_values pb1)) k (rg_packet g c y) (pay c y) &
      (1 < k)%N -> forall c x, (c < nc)%N -> sw c x ->
        (size (pb_values pb0) < rg_bit g c x <= size (pb_values pb1))%N /\ val (rg_bit g c x) = b c x] }.

Lemma asw_built unset pb0 n s (inputs outputs : seq pb_variable_array) : (1 < n)%N -> pb_wf pb0 ->
  size inputs = n -> size outputs = n -> all (fun v : pb_variable_array => size v == s) inputs ->
  all (fun v : pb_variable_array => size v == s) outputs ->
  exists t g pb1, [/\ aw_generate unset n = Ok t, asw_routing_new R unset pb0 n inputs outputs = Ok (g, pb1),
    forall c, (c < aw_num_columns n)%N -> column_ok n (nth [::] t c), size t = aw_num_columns n &
    built pb0 pb1 n (aw_num_columns n) (div_ceil s (capacity R)) n t (fun c x => is_top n (nth [::] t c) x) true inputs outputs g].
Proof.
move=> hn hw hi ho hsi hso; set k := div_ceil s (capacity R).
have [t [et st ht]] := C27_topology unset hn.
have ew : aw_num_columns n = (2 * ceil_log2 n - 1)%N by rewrite /aw_num_columns hn.
rewrite -ew in st ht.
have hok c : (c < size t)%N -> column_ok n (nth [::] t c).
  rewrite st => /ht [h1 h2 h3 h4]; split=> // x hx hne.
  have := h4 x hx hne; rewrite /is_bottom /is_top /aw_switch_at /aw_edges !andbA => hsw.
  case x0: (0 < x)%N hsw => //= hsw; first by move: hsw; rewrite prednK // hx !andbT.
have e0 : oget inputs 0 = Ok (nth [::] inputs 0) by apply: oget_nth; rewrite hi; apply: ltnW.
have es0 : size (nth [::] inputs 0) = s by apply/eqP/(all_nthP _ hsi); rewrite hi; apply: ltnW.
have [first [pbf ef]] := @new_packets_ok F (iota 0 n) pb0 k.
have h0 (val0 : nat -> F) (pay : nat -> nat -> seq F) : (forall c y, (y < n)%N -> size (pay c y) = k) ->
   [/\ allocates pb0 pbf, size first = n & exists val', ext (size (pb_values pb0)) val0 val' /\
    forall i, (i < n)%N -> carried val' (size (pb_values pb0)) (size (pb_values pbf)) k (nth [::] first i) (pay 0%N i)].
  move=> hp; have := @new_packets F (iota 0 n) pb0 k first pbf val0 (pay 0%N) hw ef.
  by rewrite size_iota; apply=> i hi'; apply: hp.
pose pz := fun (_ _ : nat) => nseq k (0 : F).
have hpz c y : (y < n)%N -> size (pz c y) = k by rewrite size_nseq.
have [a1 s1 [val1 [x1 c1]]] := h0 (fun=> 0) pz hpz.
have l1 := allocates_size a1.
have [cols [pbc [ec a2 [s2 f2] w2 [val2 [x2 c2]]]]] := @asw_columns_prefix F n t hok k (size (pb_values pb0)) pbf first val1 pz
  (allocates_wf a1) l1 s1 c1 hpz (fun c x _ _ _ => erefl) t [::] (esym (cats0 _)).
have sz c y : (c <= aw_num_columns n)%N -> (y < n)%N -> size (nth [::] (nth [::] cols c) y) = k.
  by rewrite -st => hc hy; case: (c2 c y hc hy) => -[].
have sc c : (c <= aw_num_columns n)%N -> size (nth [::] cols c) = n by rewrite -st => /w2 [].
have szi (vs : seq pb_variable_array) i : all (fun v : pb_variable_array => size v == s) vs -> size vs = n -> (i < n)%N ->
    div_ceil (size (nth [::] vs i)) (capacity R) = k.
  by move=> ha hs hi'; rewrite (eqP (all_nthP [::] ha i _)) ?hs.
have [|||ps1 [eps1 ps1P]] := @packs_ok inputs (nth [::] cols 0) n; [by rewrite hi|by rewrite sc|by move=> i hi'; rewrite sz // szi|].
have [|||ps2 [eps2 ps2P]] := @packs_ok outputs (nth [::] cols (aw_num_columns n)) n;
  [by rewrite ho|by rewrite sc|by move=> i hi'; rewrite sz // szi|].
have [ms [pbb [eb a3]]] : exists ms pbb, (if (1 < k)%N then asw_bits n t pbc else Ok ([::], pbc)) = Ok (ms, pbb) /\
  allocates pbc pbb.
  case: ifP => _; last by exists [::], pbc; split=> //; apply: allocates_refl; exact: allocates_wf a2.
  by have [ms [pbb [eb a3 _]]] := @asw_bits_ok F n t pbc (fun=> 0) (fun _ _ => 0) hok (allocates_wf a2); exists ms, pbb.
exists t, (RoutingGadget n (aw_num_columns n) k t cols ps1 ps2 ms), pbb; split=> //.
- rewrite /asw_routing_new e0; cbn [obind]; rewrite es0 -/k et; cbn [obind].
  rewrite /packets_new ef; cbn [obind fst snd]; rewrite ec; cbn [obind fst snd].
  rewrite eps1; cbn [obind]; rewrite eps2; cbn [obind]; rewrite eb.
  by [].
- by move=> c; rewrite -st; apply: hok.
split=> //.
- exact: allocates_trans a1 (allocates_trans a2 a3).
- move=> _ c x; rewrite -st => hc hx hs; rewrite /rg_packet /=.
  by have [_] := w2 c (ltnW hc); apply.
move=> val0 pay b hp hwr.
clear val1 x1 c1 val2 x2 c2.
have [_ _ [val1 [x1 c1]]] := h0 val0 pay hp.
have hwr' c x : (c < size t)%N -> (x < n)%N -> (nth (0, 0)%N (nth [::] t c) x).1 = (nth (0, 0)%N (nth [::] t c) x).2 ->
    pay c.+1 (nth (0, 0)%N (nth [::] t c) x).1 = pay c x.
  by rewrite st => hc hx hs; apply: (hwr isT c x).
have [cols' [pbc' [ec' _ _ _ [val2' [x2' c2']]]]] := @asw_columns_prefix F n t hok k (size (pb_values pb0)) pbf first val1 pay
  (allocates_wf a1) l1 s1 c1 hp hwr' t [::] (esym (cats0 _)).
move: ec'; rewrite ec => -[e1' e2']; rewrite -e1' -e2' in c2'; clear e1' e2' cols' pbc'.
have l2 := allocates_size a2; have l3 := allocates_size a3.
have x12 := ext_trans l1 x1 x2'.
case k1: (1 < k)%N eb => eb; last first.
  case: eb => _ epb; exists val2'; split=> //= c y hc hy; rewrite -epb.
  by rewrite /rg_packet /=; apply: c2' => //; rewrite st.
have [ms' [pbb' [eb' _ [val3 [x3 c3]]]]] := @asw_bits_ok F n t pbc val2' b hok (allocates_wf a2).
move: eb'; rewrite eb => -[e1' e2']; rewrite -e1' -e2' in c3; clear e1' e2' ms' pbb'.
exists val3; split.
- exact: ext_trans (leq_trans l1 l2) x12 x3.
- by move=> c y hc hy; apply: (carried_ext l3 x3); apply: c2'; rewrite ?st.
move=> _ c x hc hsw; rewrite /rg_bit /=.
have [|v [e1 e2 e3]] := c3 c x _ hsw; first by rewrite st.
by rewrite e1 /=; split=> //; move: e2 l1 l2; clear; lia.
Qed.

(** Columns of fresh packets *)
Lemma new_columns (ts : seq nat) n k (pb0 : protoboard F) : pb_wf pb0 ->
  exists cols pb1, [/\ new_all (fun (_ : nat) pb => packets_new pb n k) ts pb0 = Ok (cols, pb1), allocates pb0 pb1 &
  forall (val0 : nat -> F) (pay : nat -> nat -> seq F), (forall c y, (y < n)%N -> size (pay c y) = k) ->
   exists val1, ext (size (pb_values pb0)) val0 val1 /\
     forall c, (c < size ts)%N -> size (nth [::] cols c) = n /\ forall y, (y < n)%N ->
       carried val1 (size (pb_values pb0)) (size (pb_values pb1)) k (nth [::] (nth [::] cols c) y) (pay c y)].
Proof.
elim: ts pb0 => [|t ts IH] pb0 hw; first by exists [::], pb0; split=> // [|val0]; [exact: allocates_refl|exists val0].
have [arrs [pb1 ea]] := @new_packets_ok F (iota 0 n) pb0 k.
have H (val0 : nat -> F) (pay : nat -> nat -> seq F) := @new_packets F (iota 0 n) pb0 k arrs pb1 val0 (pay 0%N) hw ea.
have [|a1 s1 _] := H (fun=> 0) (fun _ _ => nseq k 0); first by move=> i _; rewrite size_nseq.
rewrite size_iota in s1.
have [cols [pb2 [ec a2 c2]]] := IH pb1 (allocates_wf a1).
have l1 := allocates_size a1; have l2 := allocates_size a2.
exists (arrs :: cols), pb2; split; last first.
- move=> val0 pay hp; have [|_ _ [val1 [x1 c1]]] := H val0 pay; first by move=> i; rewrite size_iota; apply: hp.
  rewrite size_iota in c1.
  have [val2 [x2 c2']] := c2 val1 (fun c => pay c.+1) (fun c y => hp c.+1 y).
  exists val2; split; first exact: ext_trans l1 x1 x2.
  case=> [|c] hc /=; first by split=> // y hy; apply: (carried_ext l2 x2); apply: c1.
  by have [h1 h2] := c2' c hc; split=> // y hy; apply: (carried_lo l1); apply: h2.
- exact: allocates_trans a1 a2.
- by cbn [new_all]; rewrite {1}/packets_new ea; cbn [obind fst snd]; rewrite ec.
Qed.

Lemma zip_find (vs : seq nat) a x : (x < size vs)%N -> nm_find (zip (iota a (size vs)) vs) (a + x) = Some (nth 0%N vs x).
Proof.
elim: vs a x => [|v vs IH] a [|x] //= hx; first by rewrite addn0 eqxx.
by rewrite addnS -addSn IH // ifF //; apply/eqP; lia.
Qed.
Lemma benes_bits_ok (cs : seq nat) n (pb0 : protoboard F) : pb_wf pb0 ->
  exists ms pb1, [/\ foldl (fun st (_ : nat) => let: (vs, pb) := allocate_array st.2 n in
                 (rcons st.1 (zip (iota 0 n) vs), pb)) ([::], pb0) cs = (ms, pb1), allocates pb0 pb1,
    size ms = size cs &
    forall (val0 : nat -> F) (b : nat -> nat -> F), exists val1, ext (size (pb_values pb0)) val0 val1 /\
    forall c x, (c < size cs)%N -> (x < n)%N -> exists v, [/\ nm_find (nth [::] ms c) x = Some v,
      (size (pb_values pb0) < v <= size (pb_values pb1))%N & val1 v = b c x]].
Proof.
move=> hw; elim/last_ind: cs => [|cs c0 IH].
  by exists [::], pb0; split=> // [|val0]; [exact: allocates_refl|exists val0].
have [ms [pb1 [em a1 s1 c1]]] := IH.
rewrite foldl_rcons em; cbn [fst snd]; case ea: (allocate_array pb1 n) => [vs pb2].
have [h1 h2 h3] := allocate_array_new (allocates_wf a1) ea.
have l1 := allocates_size a1; have l2 := allocates_size h1.
exists (rcons ms (zip (iota 0 n) vs)), pb2; split=> //; first exact: allocates_trans a1 h1.
  by rewrite !size_rcons s1.
move=> val0 b; have [val1 [x1 k1]] := c1 val0 b.
have [|_ [val2 [x2 [[k2 _] k3 k4]]]] := @allocate_val F pb1 n vs pb2 val1 [seq b (size cs) x | x <- iota 0 n] (allocates_wf a1) ea.
  by rewrite size_map size_iota.
exists val2; split; first exact: ext_trans l1 x1 x2.
move=> c x; rewrite size_rcons ltnS leq_eqVlt nth_rcons s1 => /orP [/eqP -> hx|hc hx].
  rewrite ltnn eqxx; exists (nth 0%N vs x); split.
  - by have := @zip_find vs 0%N x; rewrite add0n k2; apply.
  - have : nth 0%N vs x \in vs by rewrite mem_nth // k2.
    by move/(allP k3); move: l1; clear; lia.
  - have : nth 0 (map val2 vs) x = nth 0 [seq b (size cs) x | x <- iota 0 n] x by rewrite k4.
    by rewrite (nth_map 0%N) ?k2 // (nth_map 0%N) ?size_iota // nth_iota.
rewrite hc; have [v [e1 e2 e3]] := k1 c x hc hx; exists v; split=> //; first by move: e2 l2; clear; lia.
by rewrite x2 //; case/andP: e2.
Qed.

Lemma benes_built pb0 d s l (inputs outputs : seq pb_variable_array) : pb_wf pb0 ->
  size inputs = (2 ^ d)%N -> (l <= size outputs)%N -> (l <= 2 ^ d)%N -> all (fun v : pb_variable_array => size v == s) inputs ->
  all (fun v : pb_variable_array => size v == s) outputs ->
  exists t g pb1, [/\ benes_topology (2 ^ d) = Ok t, benes_routing_new R pb0 (2 ^ d) inputs outputs l = Ok (g, pb1) &
    built pb0 pb1 (2 ^ d) (2 * d) (div_ceil s (capacity R)) l t (fun c x => x < 2 ^ d)%N false inputs outputs g].
Proof.
move=> hw hi ho hl hsi hso; set k := div_ceil s (capacity R).
have [t [et st ht]] := C26_topology d.
have n0 : (0 < 2 ^ d)%N by rewrite expn_gt0.
have elog : ceil_log2 (2 ^ d) = d by exact: BenesRoute.ceil_log2_pow.
have e0 : oget inputs 0 = Ok (nth [::] inputs 0) by apply: oget_nth; rewrite hi.
have es0 : size (nth [::] inputs 0) = s by apply/eqP/(all_nthP _ hsi); rewrite hi.
move: hi ht n0 et elog hl; set n := (2 ^ d)%N => hi ht n0 et elog hl.
have enc : benes_num_columns n = Ok (2 * d)%N by rewrite /benes_num_columns elog -/n eqxx.
have [cols [pbc [ec a1 c1]]] := @new_columns (iota 0 (2 * d).+1) n k pb0 hw.
rewrite size_iota in c1.
have [|val1 [x1 k1]] := c1 (fun=> 0) (fun _ _ => nseq k 0); first by move=> ? ? _; rewrite size_nseq.
have sz c y : (c <= 2 * d)%N -> (y < n)%N -> size (nth [::] (nth [::] cols c) y) = k.
  by rewrite -ltnS => /k1 [_ h] /h [[]].
have sc c : (c <= 2 * d)%N -> size (nth [::] cols c) = n by rewrite -ltnS => /k1 [].
have szi (vs : seq pb_variable_array) i : all (fun v : pb_variable_array => size v == s) vs -> (i < size vs)%N ->
    div_ceil (size (nth [::] vs i)) (capacity R) = k.
  by move=> ha hi'; rewrite (eqP (all_nthP [::] ha i _)).
have [|||ps1 [eps1 ps1P]] := @packs_ok inputs (nth [::] cols 0) n;
  [by rewrite hi|by rewrite sc|by move=> i hi'; rewrite sz // szi // hi|].
have [|||ps2 [eps2 ps2P]] := @packs_ok outputs (nth [::] cols (2 * d)) l;
  [by []|by rewrite sc|by move=> i hi'; rewrite sz ?szi // ?(leq_trans hi' ho) // (leq_trans hi' hl)|].
have [ms [pb1 [eb ab sb cb]]] := @benes_bits_ok (iota 0 (2 * d)) n pbc (allocates_wf a1).
rewrite size_iota in sb cb.
have a2 : allocates pbc (if (1 < k)%N then pb1 else pbc).
  by case: ifP => _ //; apply: allocates_refl; exact: allocates_wf a1.
exists t, (RoutingGadget n (2 * d)%N k t cols ps1 ps2 (if (1 < k)%N then ms else [::])), (if (1 < k)%N then pb1 else pbc); split=> //.
- rewrite /benes_routing_new enc; cbn [obind]; rewrite e0; cbn [obind]; rewrite es0 -/k hi hl elog; cbn [oassert obind].
  rewrite -/n eqxx; cbn [oassert obind]; rewrite et; cbn [obind]; rewrite ec; cbn [obind fst snd].
  rewrite eps1; cbn [obind]; rewrite eps2; cbn [obind].
  by case: ifP => _ //; rewrite eb.
split=> //.
- exact: allocates_trans a1 a2.
move=> val0 pay b hp _.
have {val1 x1 k1} [val1 [x1 k1]] := c1 val0 pay hp.
have l1 := allocates_size a1; have l2 := allocates_size a2.
have [val2 [x2 k2]] := cb val1 b.
case: ifP a2 l2 => hk a2 l2.
  exists val2; split; first exact: ext_trans l1 x1 x2.
    move=> c y; rewrite -ltnS => hc hy; apply: (carried_ext l2 x2).
    by have [_] := k1 c hc; apply.
  move=> _ c x hc hx; rewrite /rg_bit /=; have [v [e1 e2 e3]] := k2 c x hc hx.
  by rewrite e1 /=; split=> //; move: e2 l1; clear; lia.
exists val1; split=> // c y; rewrite -ltnS => hc hy.
by have [_] := k1 c hc; apply.
Qed.
End Built.
