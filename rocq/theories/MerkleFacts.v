(** Facts about the Merkle tree model. *)
From mathcomp Require Import all_ssreflect zify.
From Verif Require Import Outcome StdMap MerkleTree MerkleSpec.
Set Implicit Arguments.
Unset Strict Implicit.
Unset Printing Implicit Defensive.

(** ** Arithmetic *)
Lemma expn2S n : 2 ^ n.+1 = 2 * 2 ^ n. Proof. by rewrite expnS. Qed.
Lemma expn2_gt0 n : 0 < 2 ^ n. Proof. by rewrite expn_gt0. Qed.

Lemma log2_le n d : (log2 n <= d) = (n <= 2 ^ d).
Proof.
apply/idP/idP => h.
- case: n h => [|[|n]] h; rewrite ?expn_gt0 //.
  by apply: leq_trans (leq_pexp2l (_ : 0 < 2) h) => //; apply: up_logP.
- exact: up_log_min.
Qed.

(** Node [p] of layer [l] (root at layer 0). *)
Definition ni (l p : nat) : nat := 2 ^ l - 1 + p.

Lemma ni_parent l p : (ni l.+1 p - 1) %/ 2 = ni l (p %/ 2).
Proof. rewrite /ni expn2S; have := expn2_gt0 l; lia. Qed.
Lemma ni_left l p : 2 * ni l p + 1 = ni l.+1 (2 * p).
Proof. rewrite /ni expn2S; have := expn2_gt0 l; lia. Qed.
Lemma ni_right l p : 2 * ni l p + 2 = ni l.+1 (2 * p + 1).
Proof. rewrite /ni expn2S; have := expn2_gt0 l; lia. Qed.
Lemma ni_leaf d a : a + 2 ^ d - 1 = ni d a.
Proof. rewrite /ni; have := expn2_gt0 d; lia. Qed.
(** The sibling position. *)
Definition sib (p : nat) : nat := if odd p then p - 1 else p + 1.
Lemma ni_sib l p : xor1 (ni l.+1 p + 1) - 1 = ni l.+1 (sib p).
Proof.
rewrite /ni /xor1 /sib expn2S; have := expn2_gt0 l; move: (2 ^ l) => k hk.
have -> : odd (2 * k - 1 + p + 1) = odd p by lia.
case: ifP; lia.
Qed.
Lemma sib_lt l p : p < 2 ^ l.+1 -> sib p < 2 ^ l.+1.
Proof. rewrite /sib expn2S; case: ifP; lia. Qed.
Lemma ni_inj l p l' p' : p < 2 ^ l -> p' < 2 ^ l' -> ni l p = ni l' p' -> l = l' /\ p = p'.
Proof.
have key a b q q' : a < b -> q < 2 ^ a -> ni a q <> ni b q'.
  move=> hab hq; rewrite /ni; have : 2 ^ a.+1 <= 2 ^ b by rewrite leq_pexp2l.
  rewrite expn2S; lia.
move=> h h' e; case: (ltngtP l l') => hl.
- by case: (key _ _ _ _ hl h e).
- by case: (key _ _ _ _ hl h' (esym e)).
- split=> //; move: e; rewrite /ni hl; lia.
Qed.

Lemma divn2_lt l p : p < 2 ^ l.+1 -> p %/ 2 < 2 ^ l.
Proof. rewrite expn2S; lia. Qed.

Lemma size_resize v n : size (resize v n) = n.
Proof. rewrite /resize size_cat size_take size_nseq; case: ifP; lia. Qed.
Lemma resize_pad v n : size v <= n -> resize v n = pad n v.
Proof. by move=> h; rewrite /resize take_oversize. Qed.
Lemma resize_id v : resize v (size v) = v.
Proof. by rewrite /resize take_size subnn cats0. Qed.
Lemma resize_zeros n m : resize (nseq n false) m = nseq m false.
Proof.
rewrite /resize size_nseq.
have -> : take m (nseq n false) = nseq (minn m n) false.
  have [h|h] := leqP m n; last by rewrite take_oversize ?size_nseq ?(ltnW h).
  by rewrite -{1}(subnKC h) nseqD take_size_cat // size_nseq.
rewrite -nseqD; congr (nseq _ _); lia.
Qed.

Section Facts.
Variables (H : bit_vector -> bit_vector) (n : nat).
Local Notation node := (node_hash H).
Local Notation merkle_tree := merkle_tree.

Lemma node_ext f g h p : (forall a, p * 2 ^ h <= a < (p + 1) * 2 ^ h -> f a = g a) -> node f h p = node g h p.
Proof.
elim: h p => [|h IH] p /= e; first by apply: e; rewrite expn0; lia.
rewrite expn2S in e; rewrite !IH // => a ha; apply: e; nia.
Qed.

Lemma node_zeros h p q z : node (fun=> z) h p = node (fun=> z) h q.
Proof. by elim: h p q => //= h IH p q; rewrite (IH _ (2 * q)) (IH (2 * p + 1) (2 * q + 1)). Qed.

(** [node f] only depends on the leaves below it. *)
Lemma node_upd f g a h p : (forall b, b != a -> f b = g b) -> p != a %/ 2 ^ h -> node f h p = node g h p.
Proof.
move=> e hp; apply: node_ext => b hb; apply: e; apply: contra hp => /eqP eb; subst b.
apply/eqP; have := expn2_gt0 h; move: (2 ^ h) hb => k hb hk.
have -> : a = p * k + (a - p * k) by lia.
by rewrite divnMDl // divn_small ?addn0 //; nia.
Qed.

Definition zeros : bit_vector := nseq n false.
Definition dflt h := node (fun=> zeros) h 0.

(** The tree, given by its fields, represents the leaves [f]. *)
Definition nd (t : merkle_tree) (hs : nmap bit_vector) (l p : nat) : bit_vector :=
  odflt (nth [::] (mt_hash_defaults t) l) (nm_find hs (ni l p)).

Local Arguments nd : simpl never.
Record good (d vs : nat) (t : merkle_tree) (v : nat -> bit_vector) : Prop := Good {
  g_depth : mt_depth t = d;
  g_vs : mt_value_size t = vs;
  g_dig : mt_digest_size t = n;
  g_defaults : mt_hash_defaults t = mkseq (fun l => dflt (d - l)) d.+1;
  g_values : forall a, a < 2 ^ d -> odflt (nseq vs false) (nm_find (mt_values t) a) = v a;
  g_size : forall a, size (v a) = vs;
  g_vs_le : vs <= n;
  g_nodes : forall l p, l <= d -> p < 2 ^ l -> nd t (mt_hashes t) l p = node (fun a => pad n (v a)) (d - l) p }.

Lemma mt_node_nd d vs t v hs l p : good d vs t v -> l <= d -> mt_node t hs (ni l p) l = Ok (nd t hs l p).
Proof.
move=> g hl; rewrite /mt_node /nd; case: nm_find => //=.
rewrite (g_defaults g); by apply/(@oget_nth _ [::]); rewrite size_mkseq.
Qed.

Lemma new_defaults d :
  rev (foldl (fun st _ => let last := two_to_one_CRH H st.2 st.2 in (rcons st.1 last, last))
                  ([:: zeros], zeros) (iota 0 d)).1 = mkseq (fun l => dflt (d - l)) d.+1.
Proof.
have -> : foldl (fun st _ => let last := two_to_one_CRH H st.2 st.2 in (rcons st.1 last, last))
                  ([:: zeros], zeros) (iota 0 d) = (mkseq dflt d.+1, dflt d).
  elim: d => [|d IH] //; rewrite -{1}addn1 iotaD foldl_cat IH; cbn [foldl iota fst snd].
  have -> : two_to_one_CRH H (dflt d) (dflt d) = dflt d.+1.
    by rewrite /two_to_one_CRH {3}/dflt /= -(node_zeros d 0 (2 * 0 + 1)).
  by rewrite [in RHS]/mkseq -(addn1 d.+1) iotaD map_cat cats1.
rewrite /=; apply: (@eq_from_nth _ [::]) => [|i]; rewrite size_rev !size_mkseq // => hi.
rewrite nth_rev ?size_mkseq // !nth_mkseq //;  lia.
Qed.

Lemma pad_zeros k : k <= n -> pad n (nseq k false) = zeros.
Proof. by move=> h; rewrite /pad size_nseq -nseqD subnKC. Qed.

Lemma new_good d vs : d < 64 -> vs <= n -> exists2 t, mt_new H n d vs = Ok t & good d vs t (fun=> nseq vs false).
Proof.
move=> hd hv; rewrite /mt_new hd hv /= new_defaults.
eexists; first by [].
split=> //= [a|l p hl hp]; first by rewrite size_nseq.
rewrite /nd /= nth_mkseq // /dflt.
rewrite (node_zeros _ 0 p); apply: node_ext => a _; by rewrite pad_zeros.
Qed.

(** ** Writing *)
Lemma set_loop d vs t v v' hs0 a k :
  good d vs t v -> a < 2 ^ d -> (forall b, b != a -> v b = v' b) ->
  (forall l p, l <= d -> p < 2 ^ l -> nd t hs0 l p =
     if l == d then pad n (v' p) else node (fun a => pad n (v a)) (d - l) p) ->
  k <= d ->
  exists2 hs, ofold (fun st layer =>
                      let: (idx, hashes) := st in
                      let idx := (idx - 1) %/ 2 in
                      let! l := mt_node t hashes (2 * idx + 1) layer.+1 in
                      let! r := mt_node t hashes (2 * idx + 2) layer.+1 in
                      Ok (idx, nm_set hashes idx (two_to_one_CRH H l r)))
                   (ni d a, hs0) (rev (iota (d - k) k)) = Ok (ni (d - k) (a %/ 2 ^ k), hs) &
    forall l p, l <= d -> p < 2 ^ l -> nd t hs l p =
     if d - k <= l then node (fun a => pad n (v' a)) (d - l) p else node (fun a => pad n (v a)) (d - l) p.
Proof.
move=> g ha hv h0; elim: k => [|k IH] hk.
  exists hs0; first by rewrite /= subn0 expn0 divn1.
  move=> l p hl hp; rewrite h0 // subn0; case: eqP => [->|]; first by rewrite leqnn subnn.
  by case: ltngtP hl.
have [hs e hs_ok] := IH (ltnW hk).
have e1 : d - k = (d - k.+1).+1 by lia.
rewrite /= rev_cons -cats1 -e1 ofold_cat e /=.
have hq : a %/ 2 ^ k.+1 < 2 ^ (d - k.+1).
  by rewrite ltn_divLR ?expn2_gt0 // -expnD subnK.
have e2 : a %/ 2 ^ k %/ 2 = a %/ 2 ^ k.+1 by rewrite -divnMA -expnSr.
have e3 : (ni (d - k) (a %/ 2 ^ k) - 1) %/ 2 = ni (d - k.+1) (a %/ 2 ^ k.+1) by rewrite e1 ni_parent e2.
rewrite e3 ni_left ni_right.
have hd : (d - k.+1).+1 <= d by lia.
rewrite !(mt_node_nd _ _ g) //=.
eexists; first by [].
move=> l p hl hp; rewrite /nd nm_find_set.
case: eqP => [/(ni_inj hp hq) [-> ->]|hne] /=.
  have [h1 h2] : 2 * (a %/ 2 ^ k.+1) < 2 ^ (d - k.+1).+1 /\ 2 * (a %/ 2 ^ k.+1) + 1 < 2 ^ (d - k.+1).+1.
    by rewrite (expn2S (d - k.+1)); move: (2 ^ (d - k.+1)) (a %/ 2 ^ k.+1) hq => x y; lia.
  rewrite -!/(nd t hs _ _) leqnn !hs_ok // e1 leqnn.
  by have -> : d - (d - k.+1) = (d - (d - k.+1).+1).+1 by lia.
rewrite -/(nd t hs l p) hs_ok //.
case: (leqP (d - k) l) => h1; first by rewrite ifT //; lia.
case: (leqP (d - k.+1) l) => h2 //.
have el : l = d - k.+1 by lia.
subst l; apply: (node_upd (a := a)) => [b hb|]; first by rewrite hv.
have -> : d - (d - k.+1) = k.+1 by lia.
by apply/eqP => e'; apply: hne; rewrite e'.
Qed.

Lemma set_good d vs t v a x :
  good d vs t v -> a < 2 ^ d -> size x = vs ->
  exists2 t', mt_set_value H t a x = Ok t' & good d vs t' (fun b => if b == a then x else v b).
Proof.
move=> g ha hx; rewrite /mt_set_value (g_depth g) log2_le (ltnW ha) /= (g_vs g) hx eqxx /= ni_leaf (g_dig g).
pose v' b := if b == a then x else v b; pose hs0 := nm_set (mt_hashes t) (ni d a) (resize x n).
have := @set_loop d vs t v v' hs0 a d g ha; rewrite subnn => -[].
- by move=> b hb; rewrite /v' (negbTE hb).
- move=> l p hl hp; rewrite /nd nm_find_set.
  case: (@eqP _ (ni l p) (ni d a)) => [/(ni_inj hp ha)[-> ->]|hne] /=.
    by rewrite eqxx /v' eqxx resize_pad // hx (g_vs_le g).
  rewrite -/(nd t _ l p) (g_nodes g) //; case: eqP => [e|//].
  rewrite e subnn /= /v' ifF //; apply/eqP => e'; apply: hne; by rewrite e e'.
- by [].
move=> hs -> hs_ok /=; eexists; first by [].
split=> //=.
- exact: g_defaults g.
- move=> b hb; rewrite nm_find_set /v'; case: eqP => [//|_]; by rewrite (g_values g hb).
- by move=> b; rewrite /v'; case: eqP => // _; exact: g_size g b.
- exact: g_vs_le g.
Qed.

Lemma history_good d vs ops t v :
  good d vs t v -> all (fun op => (op.1 < 2 ^ d) && (size op.2 == vs)) ops ->
  exists2 t', ofold (fun t op => mt_set_value H t op.1 op.2) t ops = Ok t' &
    good d vs t' (fun a => last_written ops (v a) a).
Proof.
elim: ops t v => [|[a x] ops IH] t v g; first by exists t.
rewrite /= => /andP[/andP[ha /eqP hx] hops].
have [t1 -> g1] := set_good g ha hx.
have [t2 e g2] := IH _ _ g1 hops; exists t2; first by [].
case: g2 => h1 h2 h3 h4 h5 h6 h7 h8; split=> //.
- by move=> b hb; rewrite h5 //= eq_sym.
- by move=> b; have := h6 b; rewrite /= eq_sym.
- move=> l p hl hp; rewrite h8 //; apply: node_ext => b _; by rewrite /= eq_sym.
Qed.

(** ** Reading *)
Lemma get_value_good d vs t v a : good d vs t v -> a < 2 ^ d -> mt_get_value t a = Ok (v a).
Proof.
move=> g ha; rewrite /mt_get_value (g_depth g) log2_le (ltnW ha) /= (g_vs g) (g_dig g).
have hs := g_size g a; congr Ok; rewrite -(g_values g ha); move: (g_values g ha).
case: nm_find => [x|] /= e; last by rewrite resize_zeros.
by rewrite -hs -e resize_id.
Qed.

Lemma get_root_good d vs t v : good d vs t v -> mt_get_root t = Ok (merkle_root H (fun a => pad n (v a)) d).
Proof.
move=> g; rewrite /mt_get_root.
have := mt_node_nd (mt_hashes t) 0 g (leq0n d).
rewrite {1}/ni expn0 subnn addn0 => ->.
by rewrite (g_nodes g) // subn0.
Qed.

(** Entry [i] of the path: the sibling of the ancestor of [a] in layer [i+1]. *)
Definition siblings (v : nat -> bit_vector) (d a : nat) : seq bit_vector :=
  mkseq (fun i => node (fun a => pad n (v a)) (d - i.+1) (sib (a %/ 2 ^ (d - i.+1)))) d.

Lemma get_path_good d vs t v a : good d vs t v -> a < 2 ^ d -> mt_get_path t a = Ok (siblings v d a).
Proof.
move=> g ha; rewrite /mt_get_path (g_depth g) log2_le (ltnW ha) /= ni_leaf.
set F := fun st layer => _.
suff key k : k <= d -> ofold F (ni d a, [::]) (rev (iota (d - k).+1 k)) =
    Ok (ni (d - k) (a %/ 2 ^ k), drop (d - k) (siblings v d a)).
  by have := key d (leqnn d); rewrite subnn drop0 => ->.
elim: k => [|k IH] hk.
  by rewrite /= subn0 expn0 divn1 drop_oversize // size_mkseq.
have e1 : d - k = (d - k.+1).+1 by lia.
rewrite /= rev_cons -cats1 ofold_cat -e1 IH ?(ltnW hk) //= e1 ni_parent ni_sib.
have e2 : a %/ 2 ^ k %/ 2 = a %/ 2 ^ k.+1 by rewrite -divnMA -expnSr.
have hq : a %/ 2 ^ k < 2 ^ (d - k.+1).+1.
  by rewrite -e1 ltn_divLR ?expn2_gt0 // -expnD subnK // ltnW.
have e3 : drop (d - k.+1) (siblings v d a) = node (fun a => pad n (v a)) k (sib (a %/ 2 ^ k)) :: drop (d - k) (siblings v d a).
  rewrite (drop_nth [::]) ?size_mkseq; last by lia.
  rewrite nth_mkseq; last by lia.
  by rewrite -e1; have -> : d - (d - k) = k by lia.
rewrite e2 e3 -e1.
suff -> : (if d - k == d then Ok (resize (odflt (nseq (mt_value_size t) false)
     (nm_find (mt_values t) (ni (d - k) (sib (a %/ 2 ^ k)) - (2 ^ d - 1)))) (mt_digest_size t))
   else mt_node t (mt_hashes t) (ni (d - k) (sib (a %/ 2 ^ k))) (d - k)) =
   Ok (node (fun a => pad n (v a)) k (sib (a %/ 2 ^ k))) by [].
case: eqP => [ek|_].
  have k0 : k = 0 by lia.
  subst k; have hs : sib a < 2 ^ d.
    by move: hq; rewrite expn0 divn1 -e1 subn0; case: d hk {g ha F IH e1 e2 e3 ek} => // d _; exact: sib_lt.
  rewrite subn0 /ni (g_vs g) (g_dig g) addKn expn0 divn1.
  by rewrite (g_values g hs) resize_pad // (g_size g) (g_vs_le g).
rewrite (mt_node_nd _ _ g) ?leq_subr // (g_nodes g) ?leq_subr //.
  by have -> : d - (d - k) = k by lia.
by rewrite e1; apply: sib_lt.
Qed.

Lemma climb_siblings v d a k : k <= d ->
  climb H a (pad n (v a)) (take k (rev (siblings v d a))) = node (fun a => pad n (v a)) k (a %/ 2 ^ k).
Proof.
have climb_cat s1 s2 p x : climb H p x (s1 ++ s2) = climb H (p %/ 2 ^ size s1) (climb H p x s1) s2.
  elim: s1 p x => [|y s1 IH] p x /=; first by rewrite expn0 divn1.
  by rewrite IH expn2S divnMA.
elim: k => [|k IH] hk; first by rewrite take0 expn0 divn1.
rewrite (take_nth [::]); last by rewrite size_rev size_mkseq.
rewrite -cats1 climb_cat IH ?(ltnW hk) // size_take size_rev size_mkseq hk /=.
rewrite nth_rev ?size_mkseq // nth_mkseq; last by lia.
have -> : d - (d - k.+1).+1 = k by lia.
have e2 : a %/ 2 ^ k %/ 2 = a %/ 2 ^ k.+1 by rewrite -divnMA -expnSr.
rewrite -e2; move: (a %/ 2 ^ k) => q; rewrite /sib.
case: ifP => hq; congr (H (node _ _ _ ++ node _ _ _)); rewrite ?hq; lia.
Qed.

Lemma path_good v d a : a < 2 ^ d ->
  path_verifies H (merkle_root H (fun a => pad n (v a)) d) a (pad n (v a)) (siblings v d a).
Proof.
move=> ha; rewrite /path_verifies -(take_size (rev _)) size_rev size_mkseq climb_siblings //.
by rewrite divn_small.
Qed.
End Facts.
