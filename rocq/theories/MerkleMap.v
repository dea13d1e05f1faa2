(** Facts about the Merkle tree constructor from a map. *)
From mathcomp Require Import all_ssreflect zify.
From Verif Require Import Outcome StdMap MerkleTree MerkleSpec MerkleFacts.
Set Implicit Arguments.
Unset Strict Implicit.
Unset Printing Implicit Defensive.

Section Map.
Variables (H : bit_vector -> bit_vector) (n : nat).
Local Notation node := (node_hash H).

Lemma map_layer_even dv i h r hs : odd i = false ->
  map_layer H dv ((i, h) :: r) hs = map_layer H dv r (nm_set hs ((i - 1) %/ 2) (H (dv ++ h))).
Proof. by rewrite /= => ->. Qed.
Lemma map_layer_last dv i h hs : odd i ->
  map_layer H dv [:: (i, h)] hs = nm_set hs ((i - 1) %/ 2) (H (h ++ dv)).
Proof. by rewrite /= => ->. Qed.
Lemma map_layer_left dv i h i' h' r hs : odd i -> i' <> i + 1 ->
  map_layer H dv ((i, h) :: (i', h') :: r) hs = map_layer H dv ((i', h') :: r) (nm_set hs ((i - 1) %/ 2) (H (h ++ dv))).
Proof. by move=> /= -> /eqP ->. Qed.
Lemma map_layer_both dv i h i' h' r hs : odd i -> i' = i + 1 ->
  map_layer H dv ((i, h) :: (i', h') :: r) hs = map_layer H dv r (nm_set hs ((i - 1) %/ 2) (H (h ++ h'))).
Proof. by move=> /= -> /eqP ->. Qed.
Local Arguments map_layer : simpl never.

(** One layer: a parent is set iff one of its children is listed. *)
Lemma map_layer_find dv elems hs i :
  nm_ordered elems -> nm_find elems 0 = None ->
  nm_find (map_layer H dv elems hs) i =
  if isSome (nm_find elems (2 * i + 1)) || isSome (nm_find elems (2 * i + 2))
  then Some (H (odflt dv (nm_find elems (2 * i + 1)) ++ odflt dv (nm_find elems (2 * i + 2))))
  else nm_find hs i.
Proof.
elim: {elems}(size elems).+1 {-2}elems (ltnSn (size elems)) hs => // m IH [|[idx h] rest] hsz hs //= ho.
have hz0 : nm_find rest 0 = None by apply: nm_ordered_lt ho _.
case: eqP => // /eqP idx0 _.
have lo k : k <= idx -> nm_find rest k = None by move=> hk; apply: nm_ordered_lt ho hk.
have ho' := nm_ordered_tail ho.
case: (boolP (odd idx)) => hodd.
- case: rest hsz ho hz0 lo ho' => [|[idx' h'] rest'] hsz ho hz0 lo ho'.
    rewrite map_layer_last // nm_find_set.
    case: (@eqP _ i ((idx - 1) %/ 2)) => hi.
      have -> : (idx == 2 * i + 1) by lia.
      have -> : (idx == 2 * i + 2) = false by lia.
      by [].
    have -> : (idx == 2 * i + 1) = false by lia.
    have -> : (idx == 2 * i + 2) = false by lia.
    by [].
  case: (@eqP _ idx' (idx + 1)) => [e|hne]; last first.
    rewrite map_layer_left // IH //=.
    have hgt : idx < idx' by move: ho; rewrite /nm_ordered /= => /andP[].
    rewrite nm_find_set.
    have lo' k : k <= idx' -> nm_find rest' k = None by move=> hk; apply: nm_ordered_lt ho' hk.
    case: (@eqP _ i ((idx - 1) %/ 2)) => hi.
      have -> : (idx' == 2 * i + 1) = false by lia.
      have -> : (idx' == 2 * i + 2) = false by lia.
      have -> : (idx == 2 * i + 1) by lia.
      have -> : (idx == 2 * i + 2) = false by lia.
      rewrite !lo' //; lia.
    have -> : (idx == 2 * i + 1) = false by lia.
    have -> : (idx == 2 * i + 2) = false by lia.
    by [].
  have lo' k : k <= idx' -> nm_find rest' k = None by move=> hk; apply: nm_ordered_lt ho' hk.
  rewrite map_layer_both // IH //=; first last.
  - by apply: lo'.
  - exact: nm_ordered_tail ho'.
  - by rewrite /= in hsz; lia.
  rewrite nm_find_set.
  case: (@eqP _ i ((idx - 1) %/ 2)) => hi.
    rewrite !lo'; try lia.
    have -> : (idx' == 2 * i + 1) = false by lia.
    have -> : (idx' == 2 * i + 2) by lia.
    have -> : (idx == 2 * i + 1) by lia.
    have -> : (idx == 2 * i + 2) = false by lia.
    by [].
  have -> : (idx == 2 * i + 1) = false by lia.
  have -> : (idx == 2 * i + 2) = false by lia.
  have -> : (idx' == 2 * i + 1) = false by lia.
  have -> : (idx' == 2 * i + 2) = false by lia.
  by [].
- rewrite map_layer_even ?(negbTE hodd) // IH //.
  rewrite nm_find_set.
  case: (@eqP _ i ((idx - 1) %/ 2)) => hi.
    rewrite !lo; try lia.
    have -> : (idx == 2 * i + 1) = false by lia.
    have -> : (idx == 2 * i + 2) by lia.
    by [].
  have -> : (idx == 2 * i + 1) = false by lia.
  have -> : (idx == 2 * i + 2) = false by lia.
  by [].
Qed.

Lemma map_layer_ordered dv elems hs : nm_ordered hs -> nm_ordered (map_layer H dv elems hs).
Proof.
elim: {elems}(size elems).+1 {-2}elems (ltnSn (size elems)) hs => // m IH [|[idx h] rest] hsz hs //= ho.
have hsz' : size rest < m by rewrite /= in hsz.
case: (boolP (odd idx)) => hodd; last first.
  by rewrite map_layer_even ?(negbTE hodd) //; apply: IH => //; apply: nm_set_ordered.
case: rest hsz hsz' => [|[idx' h'] rest'] hsz hsz'; first by rewrite map_layer_last //; apply: nm_set_ordered.
case: (@eqP _ idx' (idx + 1)) => [e|hne].
  rewrite map_layer_both //; apply: IH => //; try by apply: nm_set_ordered.
  by rewrite /= in hsz'; lia.
rewrite map_layer_left //; apply: IH => //; by apply: nm_set_ordered.
Qed.

(** ** The loop over the layers *)
Section Loop.
Variables (d vs : nat) (c : nmap bit_vector).
Hypothesis hc : nm_ordered c.
Hypothesis ne : ~~ nilp c.
Hypothesis hk : forall k, k \in nm_keys c -> k < 2 ^ d.
Hypothesis hv : forall k x, nm_find c k = Some x -> size x = vs.
Hypothesis vsn : vs <= n.

Definition cv (a : nat) : bit_vector := odflt (nseq vs false) (nm_find c a).
Definition leafs (a : nat) : bit_vector := pad n (cv a).

(** Some address below node [p] of layer [l] is set. *)
Definition below (l p : nat) : bool := has (fun a => a %/ 2 ^ (d - l) == p) (nm_keys c).

Lemma below_parent l p : l < d -> below l p = below l.+1 (2 * p) || below l.+1 (2 * p + 1).
Proof.
move=> hl; rewrite /below -has_predU; apply: eq_has => a /=.
have -> : a %/ 2 ^ (d - l) = a %/ 2 ^ (d - l.+1) %/ 2.
  by rewrite -divnMA -expnSr; have -> : (d - l.+1).+1 = d - l by lia.
lia.
Qed.

Lemma below_lt l p : below l p -> l <= d -> p < 2 ^ l.
Proof.
move=> /hasP[a /hk ha /eqP <-] hl.
by rewrite ltn_divLR ?expn2_gt0 // -expnD subnKC.
Qed.

Lemma below_some l : exists p, below l p.
Proof.
rewrite /below; case: c ne => [|[a x] c'] // _; exists (a %/ 2 ^ (d - l)).
by rewrite /= eqxx.
Qed.

(** Nothing below: the default hash. *)
Lemma not_below l p : l <= d -> ~~ below l p -> node leafs (d - l) p = dflt H n (d - l).
Proof.
move=> hl hb; rewrite /dflt (node_zeros _ _ 0 p); apply: node_ext => a ha.
rewrite /leafs /cv; case e: nm_find => [x|] /=; last by rewrite pad_zeros.
case/negP: hb; apply/hasP; exists a; first by rewrite -nm_find_keys e.
apply/eqP; have := expn2_gt0 (d - l); move: (2 ^ (d - l)) ha => k ha hk'.
have -> : a = p * k + (a - p * k) by lia.
by rewrite divnMDl // divn_small ?addn0 //; nia.
Qed.

(** The layers [l..d] are done. *)
Record done (l : nat) (hs : nmap bit_vector) : Prop := Done {
  dn_ordered : nm_ordered hs;
  dn_keys : forall i, isSome (nm_find hs i) -> exists l' p, [/\ l <= l' <= d, below l' p & i = ni l' p];
  dn_find : forall l' p, l <= l' <= d -> below l' p -> nm_find hs (ni l' p) = Some (node leafs (d - l') p) }.

Lemma ni_lt l p l' p' : l < l' -> p < 2 ^ l -> ni l p < ni l' p'.
Proof.
move=> hl hp; rewrite /ni; have : 2 ^ l.+1 <= 2 ^ l' by rewrite leq_pexp2l.
rewrite expn2S; lia.
Qed.

Lemma done_find_none l hs l' p : done l hs -> l' <= d -> p < 2 ^ l' -> ~~ ((l <= l') && below l' p) ->
  nm_find hs (ni l' p) = None.
Proof.
move=> hd hl' hp hb; case e: nm_find => [x|//].
have [|l2 [p2 [h1 h2 h3]]] := @dn_keys _ _ hd (ni l' p); first by rewrite e.
have [e1 e2] := ni_inj hp (below_lt h2 (proj2 (andP h1))) h3; subst.
by case/negP: hb; case/andP: h1 => ->.
Qed.

Lemma step l hs k t :
  mt_hash_defaults t = mkseq (fun l => dflt H n (d - l)) d.+1 ->
  l < d -> done l.+1 hs ->
  (if k is Some k' then (forall p, p < 2 ^ l.+1 -> ni l.+1 p < k') /\ (forall p, below l.+2 p -> k' <= ni l.+2 p) /\ l.+1 < d
   else l.+1 = d) ->
  exists2 dv, oget (mt_hash_defaults t) l.+1 = Ok dv &
    let hs' := map_layer H dv (if k is Some k' then [seq kv <- hs | kv.1 < k'] else hs) hs in
    done l hs'.
Proof.
move=> ed hl hd hk'; exists (dflt H n (d - l.+1)).
  rewrite ed; rewrite (@oget_nth _ [::] _ _ _ ) //; last by rewrite size_mkseq.
  by rewrite nth_mkseq.
rewrite /=; set elems := (if k is Some k' then _ else _).
have eo : nm_ordered elems.
  have ho := dn_ordered hd; rewrite /elems; case: k {hk' elems} => [k'|] //.
  exact: (nm_filter_ordered (fun i => i < k')).
have ef1 p : p < 2 ^ l.+1 -> nm_find elems (ni l.+1 p) = nm_find hs (ni l.+1 p).
  move=> hp; rewrite /elems; case: k hk' {elems eo} => [k'|//] [h1 _].
  by rewrite (nm_find_filter (fun i => i < k')) h1.
have ef2 i : isSome (nm_find elems i) -> exists2 p, below l.+1 p & i = ni l.+1 p.
  move=> hi; have hi' : isSome (nm_find hs i).
    by move: hi; rewrite /elems; case: k {hk' elems eo ef1} => [k'|//]; rewrite (nm_find_filter (fun i => i < k')); case: ifP.
  have [l2 [p2 [h1 h2 h3]]] := dn_keys hd hi'.
  have [e|hne] := @eqP _ l2 l.+1; first by subst; exists p2.
  move: hi; rewrite /elems; case: k hk' {elems eo ef1} => [k' [h4 [h5 h6]]|e]; last by lia.
  rewrite (nm_find_filter (fun i => i < k')) /=; case: ltnP => // h7 _.
  have h8 : l.+2 <= l2 by lia.
  have [p3 hp3] := below_some l.+2.
  have h9 := h5 _ hp3.
  have [e|hne2] := @eqP _ l2 l.+2.
    by subst; have := h5 _ h2; lia.
  have h10 : l.+2 < l2 by lia.
  have hh := ni_lt p2 h10 (below_lt hp3 h6); rewrite h3 in h7; lia.
have e0 : nm_find elems 0 = None.
  case e: (nm_find elems 0) => [x|//]; have [|p _] := ef2 0; first by rewrite e.
  by rewrite /ni expn2S; have := expn2_gt0 l; lia.
have mlf := map_layer_find (dflt H n (d - l.+1)) hs _ eo e0.
have kids l' p' : p' < 2 ^ l' -> l' <= d -> 
  (isSome (nm_find elems (2 * ni l' p' + 1)) || isSome (nm_find elems (2 * ni l' p' + 2))) = (l' == l) && below l p'.
  move=> hp' hl'; apply/idP/idP.
  - rewrite ni_left ni_right; case/orP => /ef2[p hp].
    + have hlt : 2 * p' < 2 ^ l'.+1 by rewrite expn2S; lia.
      move=> /(ni_inj hlt (below_lt hp hl)) [[e1] e2]; subst; by rewrite eqxx below_parent // hp.
    + have hlt : 2 * p' + 1 < 2 ^ l'.+1 by rewrite expn2S; lia.
      move=> /(ni_inj hlt (below_lt hp hl)) [[e1] e2]; subst; by rewrite eqxx below_parent // hp orbT.
  - case/andP=> /eqP -> {hl' hp'}; rewrite below_parent // ni_left ni_right => /orP[] hb.
    + by rewrite ef1 ?(below_lt hb) // (dn_find hd _ hb) ?leqnn.
    + by rewrite (ef1 (2 * p' + 1)) ?(below_lt hb) // (dn_find hd _ hb) ?leqnn // orbT.
split.
- exact/map_layer_ordered/(dn_ordered hd).
- move=> i; rewrite mlf; case: ifP => [|_].
    case/orP => /ef2[p hp hi] _; exists l, (p %/ 2).
      have e1 : p = 2 * (p %/ 2) by move: hi; rewrite /ni expn2S; have := expn2_gt0 l; lia.
      split; [lia| |].
        by rewrite below_parent // -e1 hp.
      by move: hi; rewrite /ni expn2S; have := expn2_gt0 l; lia.
    have e1 : p = 2 * (p %/ 2) + 1 by move: hi; rewrite /ni expn2S; have := expn2_gt0 l; lia.
    split; [lia| |].
      by rewrite below_parent // -e1 hp orbT.
    by move: hi; rewrite /ni expn2S; have := expn2_gt0 l; lia.
  move/(dn_keys hd) => [l' [p' [h1 h2 h3]]]; exists l', p'; split=> //; lia.
- move=> l' p' hl' hb; have hp' := below_lt hb (proj2 (andP hl')).
  rewrite mlf kids //; last by lia.
  case: eqP => [e|hne] /=; last by apply: (dn_find hd) => //; lia.
  subst l'; rewrite hb ni_left ni_right.
  have [h1 h2] : 2 * p' < 2 ^ l.+1 /\ 2 * p' + 1 < 2 ^ l.+1 by rewrite expn2S; lia.
  have val p : p < 2 ^ l.+1 -> odflt (dflt H n (d - l.+1)) (nm_find elems (ni l.+1 p)) = node leafs (d - l.+1) p.
    move=> hp; rewrite ef1 //; case: (boolP (below l.+1 p)) => hbp.
      by rewrite (dn_find hd _ hbp) //; lia.
    by rewrite (done_find_none hd) ?not_below //; rewrite (negbTE hbp) andbF.
  by rewrite !val //; have -> : d - l = (d - l.+1).+1 by lia.
Qed.

Lemma done_head l hs : l <= d -> done l hs ->
  exists2 p, below l p & head 0 (nm_keys hs) = ni l p.
Proof.
move=> hl hd; have [p hp] := below_some l.
have hin : ni l p \in nm_keys hs by rewrite -nm_find_keys (dn_find hd _ hp) // leqnn.
have h1 := nm_head_min (dn_ordered hd) hin.
have : head 0 (nm_keys hs) \in nm_keys hs by move: hin; case: (nm_keys hs) => //= a r _; rewrite in_cons eqxx.
rewrite -nm_find_keys => /(dn_keys hd)[l' [p' [h2 h3 h4]]].
exists p'; last rewrite h4; have [e|hne] := @eqP _ l' l; try by rewrite -e.
- have hlt : l < l' by lia.
  by have := ni_lt p' hlt (below_lt hp hl); lia.
- have hlt : l < l' by lia.
  by have := ni_lt p' hlt (below_lt hp hl); lia.
Qed.

Lemma loop t hs0 k : mt_hash_defaults t = mkseq (fun l => dflt H n (d - l)) d.+1 -> done d hs0 -> k <= d ->
  exists hs lst, [/\ ofold (fun st layer =>
                        let: (hashes, last_it) := st in
                        let next_last_it := head 0 (nm_keys hashes) in
                        let elems := if last_it is Some k then [seq kv <- hashes | kv.1 < k] else hashes in
                        let! dflt := oget (mt_hash_defaults t) layer in
                        Ok (map_layer H dflt elems hashes, Some next_last_it))
                     (hs0, None) (rev (iota (d - k).+1 k)) = Ok (hs, lst),
    done (d - k) hs &
    if lst is Some k' then (forall p, p < 2 ^ (d - k) -> ni (d - k) p < k') /\
       (forall p, below (d - k).+1 p -> k' <= ni (d - k).+1 p) /\ d - k < d else d - k = d].
Proof.
move=> ed h0; elim: k => [|k IH] hk'.
  by exists hs0, None; rewrite subn0.
have [hs [lst [e1 e2 e3]]] := IH (ltnW hk').
have ek : d - k = (d - k.+1).+1 by lia.
rewrite /= rev_cons -cats1 ofold_cat -ek e1 /=.
have hl : d - k.+1 < d by lia.
rewrite ek in e2 e3.
have [dv edv dn] := step ed hl e2 e3.
rewrite ek edv; do 2 eexists; split; [reflexivity|exact: dn|].
have hmin q : below (d - k.+1).+1 q -> head 0 (nm_keys hs) <= ni (d - k.+1).+1 q.
  move=> hq; apply: nm_head_min (dn_ordered e2) _.
  by rewrite -nm_find_keys (dn_find e2 _ hq) // leqnn.
have [p hp ep] := done_head hl e2; rewrite ep in hmin *.
by split; [move=> q hq; apply: ni_lt|split].
Qed.
End Loop.

Lemma foldl_set_find (f : nat -> nat) (g : bit_vector -> bit_vector) c m i :
  injective f -> nm_ordered c ->
  nm_find (foldl (fun m kv => nm_set m (f kv.1) (g kv.2)) m c) (f i) =
  if nm_find c i is Some x then Some (g x) else nm_find m (f i).
Proof.
move=> fi; elim: c m => [|[k x] c IH] m //= ho.
rewrite IH ?(nm_ordered_tail ho) // nm_find_set; case: (@eqP _ k i) => [e|hne].
  by subst; rewrite (nm_ordered_lt ho) // eqxx.
by case: nm_find => // ; case: eqP => // /fi e; case: hne.
Qed.

Lemma foldl_set_keys (f : nat -> nat) (g : bit_vector -> bit_vector) c m i :
  isSome (nm_find (foldl (fun m kv => nm_set m (f kv.1) (g kv.2)) m c) i) ->
  isSome (nm_find m i) \/ exists2 k, k \in nm_keys c & i = f k.
Proof.
elim: c m => [|[k x] c IH] m /=; first by left.
move/IH => [|[k' h1 h2]]; last by right; exists k' => //; rewrite in_cons h1 orbT.
rewrite nm_find_set; case: eqP => [->|_]; last by left.
by right; exists k => //; rewrite in_cons eqxx.
Qed.

Lemma foldl_set_ordered (f : nat -> nat) (g : bit_vector -> bit_vector) c m :
  nm_ordered m -> nm_ordered (foldl (fun m kv => nm_set m (f kv.1) (g kv.2)) m c).
Proof. by elim: c m => [|[k x] c IH] m //= ho; apply/IH/nm_set_ordered. Qed.

Lemma of_map_good d vs c :
  d < 64 -> vs <= n -> nm_ordered c ->
  (forall k, k \in nm_keys c -> k < 2 ^ d) -> (forall k x, nm_find c k = Some x -> size x = vs) ->
  exists2 t, mt_of_map H n d vs c = Ok t & good H n d vs t (fun a => odflt (nseq vs false) (nm_find c a)).
Proof.
move=> hd hvs hc hk hv; rewrite /mt_of_map.
have [t0 et g0] := @new_good H n d vs hd hvs; rewrite et /=.
case: (boolP (nilp c)) => ne.
  by case: c ne {hc hk hv} => // _; exists t0.
have -> : last 0 (nm_keys c) < 2 ^ d.
  by apply: hk; case: c ne {hc hv} => // kv c _ /=; apply: mem_last.
rewrite /=.
have ev : mt_values t0 = [::] by move: et; rewrite /mt_new hd hvs => -[<-].
have eh : mt_hashes t0 = [::] by move: et; rewrite /mt_new hd hvs => -[<-].
set vals := foldl _ (mt_values t0) c; set hs0 := foldl _ (mt_hashes t0) c.
have finj : injective (fun k => k + 2 ^ d - 1) by move=> x y; have := expn2_gt0 d; lia.
have dn0 : done d vs c d hs0.
  split.
  - by rewrite /hs0 (g_dig g0) eh; exact: (foldl_set_ordered (fun k => k + 2 ^ d - 1) (fun v => resize v n)).
  - move=> i; rewrite /hs0 eh => /(@foldl_set_keys (fun k => k + 2 ^ d - 1) (fun v => resize v (mt_digest_size t0)))[//|[k h1 h2]].
    exists d, k; split; rewrite ?leqnn //; last by rewrite h2 ni_leaf.
    by apply/hasP; exists k => //; rewrite subnn expn0 divn1.
  - move=> l' p hl' hb; have e : l' = d by lia.
    subst l'; move/hasP: hb => [a ha]; rewrite subnn expn0 divn1 => /eqP e; subst a.
    rewrite -ni_leaf /hs0 eh (@foldl_set_find (fun k => k + 2 ^ d - 1) (fun v => resize v (mt_digest_size t0))) //.
    rewrite /= /leafs /cv; move: ha; rewrite -nm_find_keys; case e: nm_find => [x|//] _ /=.
    by rewrite (g_dig g0) resize_pad // (hv _ _ e).
have [hs [lst [e dn _]]] := loop hc ne hk hvs (g_defaults g0) dn0 (leqnn d).
rewrite subnn in e dn; rewrite e /=; eexists; first by [].
split=> //=.
- exact: (g_dig g0).
- exact: (g_defaults g0).
- move=> a ha; rewrite /vals ev.
  rewrite (@foldl_set_find id id) //; by case: nm_find.
- move=> a; case e1: nm_find => [x|] /=; [exact: hv e1|by rewrite size_nseq].
- move=> l p hl hp; rewrite /nd /= (g_defaults g0) nth_mkseq //.
  case: (boolP (below d c l p)) => hb.
    by rewrite (dn_find dn) // leq0n hl.
  by rewrite (done_find_none hk dn) //= -(not_below hc ne hvs hl hb).
Qed.
End Map.
