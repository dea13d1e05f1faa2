(** Proofs about get_benes_routing and valid_benes_routing. *)
From mathcomp Require Import all_ssreflect zify.
From Verif Require Import Outcome IntegerPermutation Benes BenesFacts.
Set Implicit Arguments.
Unset Strict Implicit.
Unset Printing Implicit Defensive.

Lemma ceil_log2_pow d : ceil_log2 (2 ^ d) = d. Proof. exact: up_expnK. Qed.
Lemma benes_num_columns_pow d : benes_num_columns (2 ^ d) = Ok (2 * d).
Proof. by rewrite /benes_num_columns ceil_log2_pow eqxx. Qed.
Lemma benes_num_columns_abort n : (forall d, n <> 2 ^ d) -> benes_num_columns n = AssertFail.
Proof. by move=> h; rewrite /benes_num_columns; case: eqP => [/h|]. Qed.

Lemma mask_bit d c : c < 2 * d -> exists2 k, benes_mask d c = 2 ^ k & k < d.
Proof.
by move=> h; rewrite /benes_mask; case: ltnP => hc; [exists (d - 1 - c)|exists (c - d)] => //; lia.
Qed.
Lemma cross_lt d c x : c < 2 * d -> x < 2 ^ d -> benes_cross_dest d c x < 2 ^ d.
Proof.
move=> /mask_bit [k e hk] hx; rewrite /benes_cross_dest e.
have hd : 2 ^ d = 2 ^ (d - k.+1) * 2 ^ k.+1 by rewrite -expnD; congr (_ ^ _); lia.
have hk0 : 0 < 2 ^ k.+1 by rewrite expn_gt0.
have e2 : 2 ^ k.+1 = 2 ^ k + 2 ^ k by rewrite expnS mul2n addnn.
pose b := x %/ 2 ^ k.+1 * 2 ^ k.+1.
have hb : blk b k x by rewrite /blk; have := divn_eq x (2 ^ k.+1); rewrite -/b => e3; have := ltn_pmod x hk0; lia.
rewrite -[2 ^ k]e -/(benes_cross_dest d c x).
rewrite (cross_destE (off := b) (k := k)) //; last by rewrite dvdn_mull.
have := blk_par hb; rewrite /blk => /andP [_ h]; apply: leq_trans h _.
rewrite /b -mulSnr hd leq_mul2r; apply/orP; right.
by rewrite ltn_divLR // -hd.
Qed.

Definition btop (d : nat) : seq (seq (nat * nat)) :=
  [seq [seq (packet, benes_cross_dest d column packet) | packet <- iota 0 (2 ^ d)] | column <- iota 0 (2 * d)].
Lemma benes_topologyE d : benes_topology (2 ^ d) = Ok (btop d).
Proof. by rewrite /benes_topology benes_num_columns_pow /= ceil_log2_pow eqxx. Qed.

Lemma follow_lt d rt c n x : c + n <= 2 * d -> x < 2 ^ d -> bfollow d rt c n x < 2 ^ d.
Proof.
elim: n c x => [|n IH] c x hc hx //=; apply: IH; first by lia.
by case: ifP => // _; apply: cross_lt => //; lia.
Qed.
Lemma benes_followE d rt c n x : c + n <= 2 * d -> x < 2 ^ d -> benes_follow (btop d) rt c n x = bfollow d rt c n x.
Proof.
elim: n c x => [|n IH] c x hc hx //=.
have hc' : c < 2 * d by lia.
rewrite /btop (nth_map 0) ?size_iota // (nth_map 0) ?size_iota // !nth_iota // !add0n /= -/(btop d) -/(rget rt c x) IH //.
  by lia.
by case: ifP => // _; apply: cross_lt => //; lia.
Qed.

Lemma get_benes_routing_ok d p : ip_wf p -> ip_bounds p 0 (2 ^ d - 1) -> bijection_on 0 (2 ^ d - 1) (ip_at p) ->
  exists rt, [/\ get_benes_routing p = Ok rt, rshape rt (2 * d) (2 ^ d) &
    forall x, x < 2 ^ d -> bfollow d rt 0 (2 * d) x = ip_at p x].
Proof.
move=> hw hb hbij; have d0 : 0 < 2 ^ d by rewrite expn_gt0.
have [q [e1 wq bq hq]] := ip_inverse_ok hw hb hbij.
have hs : ip_size p = 2 ^ d by rewrite /ip_size; case: hb => -> ->; lia.
rewrite /get_benes_routing hs benes_num_columns_pow /= e1 /= ceil_log2_pow.
have [hr _ _] := hbij; have [[hr' _ _] hq'] := bijection_inverse hbij hq.
have [||||||||||rt [-> h1 _ h2]] := @inner_ok (2 * d) d d 0 0 (2 * d) (2 * d) (2 ^ d) p q (nseq (2 * d) (nseq (2 ^ d) false)) _ _ _ _ _ _ hw _ wq _.
- by lia.
- by rewrite dvdn0.
- by [].
- by lia.
- by [].
- by [].
- by rewrite add0n.
- by rewrite add0n.
- by move=> x hx; split; rewrite ?hq ?hq' //; [apply: hr|apply: hr'].
- by split; rewrite ?size_nseq // => c hc; rewrite nth_nseq hc size_nseq.
exists rt; split=> // x hx.
by rewrite mul2n -addnn h2 // /between; lia.
Qed.

(** ** The validity check *)
Section Scatter.
Variables (g w : nat -> nat) (f : seq nat -> nat -> outcome (seq nat)).
Lemma scatterv_ok s c :
  (forall c' i, size c' = size c -> i \in s -> f c' i = oput c' (g i) (w i)) -> (forall i, i \in s -> g i < size c) ->
  exists c', [/\ ofold f c s = Ok c', size c' = size c,
    {in s &, injective g} -> forall i, i \in s -> nth 0 c' (g i) = w i &
    forall y, nth 0 c' y = nth 0 c y \/ exists2 i, i \in s & g i = y /\ w i = nth 0 c' y].
Proof.
elim/last_ind: s => [|s x IH] hf hg; first by exists c; split=> // y; left.
have sub i : i \in s -> i \in rcons s x by move=> h; rewrite mem_rcons inE h orbT.
have hx : x \in rcons s x by rewrite mem_rcons inE eqxx.
have [||c' [e1 e2 e3 e4]] := IH.
- by move=> c0 i hc h; apply: hf => //; apply: sub.
- by move=> i h; apply: hg; apply: sub.
exists (set_nth 0 c' (g x) (w x)); split.
- by rewrite -cats1 ofold_cat e1 /= hf // (oput_set_nth 0) // e2 hg.
- by rewrite size_set_nth e2; apply/maxn_idPr; apply: hg.
- move=> hi i; rewrite mem_rcons inE nth_set_nth /= => /orP [/eqP->|h]; first by rewrite eqxx.
  case: eqP => [/(hi _ _ (sub _ h) hx)->|_] //; apply: e3 => // a b ha hb.
  by apply: hi; apply: sub.
- move=> y; rewrite nth_set_nth /=; case: eqP => [->|_]; first by right; exists x.
  by case: (e4 y) => [->|[i hi h]]; [left|right; exists i => //; exact: sub].
Qed.
End Scatter.

Local Arguments bfollow : simpl never.
Lemma bfollow_S d rt n x : bfollow d rt 0 n.+1 x = bfollow d rt n 1 (bfollow d rt 0 n x).
Proof. by rewrite -addn1 bfollow_add. Qed.
Lemma route_by_benes_ok d rt : rshape rt (2 * d) (2 ^ d) ->
  exists res, [/\ route_by_benes rt (iota 0 (2 ^ d)) = Ok res, size res = 2 ^ d,
    forall y, nth 0 res y <> 0 -> nth 0 res y < 2 ^ d /\ bfollow d rt 0 (2 * d) (nth 0 res y) = y &
    {in gtn (2 ^ d) &, injective (bfollow d rt 0 (2 * d))} ->
      forall x, x < 2 ^ d -> nth 0 res (bfollow d rt 0 (2 * d) x) = x].
Proof.
case=> hr1 hr2; rewrite /route_by_benes size_iota benes_num_columns_pow /= ceil_log2_pow.
suff gen n : n <= 2 * d -> exists res, [/\ ofold (route_column d rt) (iota 0 (2 ^ d)) (iota 0 n) = Ok res, size res = 2 ^ d,
    forall y, nth 0 res y <> 0 -> nth 0 res y < 2 ^ d /\ bfollow d rt 0 n (nth 0 res y) = y &
    {in gtn (2 ^ d) &, injective (bfollow d rt 0 n)} ->
      forall x, x < 2 ^ d -> nth 0 res (bfollow d rt 0 n x) = x] by exact: gen.
elim: n => [|n IH] hn.
  exists (iota 0 (2 ^ d)); split=> /=; rewrite ?size_iota //; last by move=> _ x hx; rewrite nth_iota.
  move=> y; case: (ltnP y (2 ^ d)) => hy; last by rewrite nth_default ?size_iota.
  by rewrite nth_iota.
have [|res [e1 e2 e3 e4]] := IH; first by lia.
have -> : iota 0 n.+1 = iota 0 n ++ [:: n] by rewrite -[n.+1]addn1 iotaD.
rewrite ofold_cat e1 /=.
have hn' : n < 2 * d by lia.
pose g x := bfollow d rt n 1 x.
have hg x : x < 2 ^ d -> g x < 2 ^ d by move=> hx; apply: follow_lt => //; lia.
have [||c' [h1 h2 h3 h4]] := @scatterv_ok g (nth 0 res) (fun next packet =>
    let! col := oget rt n in let! b := oget col packet in let! x := oget res packet in
    oput next (if b then Nat.lxor packet (benes_mask d n) else packet) x) (iota 0 (size res)) (nseq (size res) 0).
- move=> c i hc; rewrite mem_iota /= e2 => hi.
  rewrite (oget_nth [::]) ?hr1 //= (oget_nth false) ?hr2 //= (oget_nth 0) ?e2 //=.
- by move=> i; rewrite mem_iota size_nseq e2 /= => /hg.
rewrite /route_column h1 /=; exists c'; split=> //.
- by rewrite h2 size_nseq.
- move=> y hy; case: (h4 y) => [h|[i hi [h5 h6]]].
    by case: hy; rewrite h nth_nseq; case: ifP.
  rewrite -h6 in hy *; have [h7 h8] := e3 _ hy; split=> //.
  by rewrite bfollow_S h8.
- move=> hinj x hx.
  have inj1 : {in gtn (2 ^ d) &, injective (bfollow d rt 0 n)}.
    by move=> a b ha hb e; apply: hinj => //; rewrite !bfollow_S e.
  have on i : i \in iota 0 (size res) -> exists2 a, a < 2 ^ d & bfollow d rt 0 n a = i.
    rewrite mem_iota e2 /= => hi.
    have sub : {subset [seq bfollow d rt 0 n a | a <- iota 0 (2 ^ d)] <= iota 0 (2 ^ d)}.
      move=> z /mapP [a]; rewrite !mem_iota /= => ha ->; apply: follow_lt => //; lia.
    have [||_ em] := uniq_min_size (s2 := iota 0 (2 ^ d)) _ sub.
    - by rewrite map_inj_in_uniq ?iota_uniq // => a b; rewrite !mem_iota /= => ha hb; apply: inj1.
    - by rewrite size_map.
    have : i \in iota 0 (2 ^ d) by rewrite mem_iota.
    by rewrite -em => /mapP [a]; rewrite mem_iota /= => ha ->; exists a.
  rewrite bfollow_S -/(g _) h3 ?e4 //.
    move=> i j /on [a ha <-] /on [b hb <-] e; congr (bfollow _ _ _ _ _); apply: hinj => //.
    by rewrite !bfollow_S.
  by rewrite mem_iota e2 /=; apply: follow_lt => //; lia.
Qed.

Lemma valid_benesE d p rt : ip_wf p -> ip_bounds p 0 (2 ^ d - 1) -> bijection_on 0 (2 ^ d - 1) (ip_at p) ->
  rshape rt (2 * d) (2 ^ d) ->
  exists res, [/\ route_by_benes rt (iota 0 (2 ^ d)) = Ok res, size res = 2 ^ d &
    valid_benes_routing p rt = Ok (all (fun x => nth 0 res (ip_at p x) == x) (iota 0 (2 ^ d)))].
Proof.
move=> hw hb [hbij _ _] hr; have [res [e1 e2 _ _]] := route_by_benes_ok hr; exists res; split=> //.
have d0 : 0 < 2 ^ d by rewrite expn_gt0.
have hs : ip_size p = 2 ^ d by rewrite /ip_size; case: hb => -> ->; lia.
rewrite /valid_benes_routing hs benes_num_columns_pow /= e1 /=.
have : {in iota 0 (2 ^ d), forall x, x < 2 ^ d} by move=> x; rewrite mem_iota.
elim: (iota 0 (2 ^ d)) => [|x s IH] hx //=.
have hx0 : between 0 (2 ^ d - 1) x by have := hx x (mem_head _ _); rewrite /between; lia.
rewrite (ip_get_ok hw hb) //= (oget_nth 0) /=; last by rewrite e2; move: (hbij x hx0); rewrite /between; lia.
case: eqP => _ /=; last by elim: s {IH hx}.
by apply: IH => y hy; apply: hx; rewrite inE hy orbT.
Qed.
