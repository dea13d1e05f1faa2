(** The vector constructor, the boundary address, the set commitment and binding. *)
From mathcomp Require Import all_ssreflect zify.
From Verif Require Import Outcome StdMap MerkleTree MerkleSpec MerkleFacts.
Set Implicit Arguments.
Unset Strict Implicit.
Unset Printing Implicit Defensive.

Section More.
Variables (H : bit_vector -> bit_vector) (n : nat).
Local Notation node := (node_hash H).

(** ** The vector constructor *)
Lemma vector_values vs x y : vs <= n -> size x = vs -> size y = vs ->
  exists t, [/\ mt_of_vector H n 1 vs [:: x; y] = Ok t,
                mt_get_value t 0 = Ok (nseq vs false) & mt_get_value t 1 = Ok x].
Proof.
move=> h hx hy; rewrite /mt_of_vector /mt_new h /=; eexists; split; first by [].
- by rewrite /mt_get_value /= resize_zeros.
- by rewrite /mt_get_value /= -hx resize_id.
Qed.

Lemma vector_root vs x : vs <= n -> size x = vs ->
  exists t, mt_of_vector H n 2 vs [:: x] = Ok t /\
            mt_get_root t = Ok (merkle_root H (fun=> nseq n false) 2).
Proof.
move=> h hx; rewrite /mt_of_vector /mt_new h /=; eexists; split; first by [].
by rewrite /mt_get_root /mt_node.
Qed.

Lemma full_layer l dv g hs : (forall p, p < 2 ^ l.+1 -> nm_find hs (ni l.+1 p) = Some (g p)) ->
  forall p, p < 2 ^ l -> nm_find (vector_layer H dv (ni l.+1 0) (ni l.+2 0) hs) (ni l p) = Some (H (g (2 * p) ++ g (2 * p + 1))).
Proof.
move=> hg; rewrite /vector_layer.
have -> : (ni l.+2 0 - ni l.+1 0).+1 %/ 2 = 2 ^ l.
  by rewrite /ni (expn2S l.+1) (expn2S l); have := expn2_gt0 l; lia.
set F := fun hashes idx => _.
suff key k : k <= 2 ^ l -> let hs' := foldl F hs [seq ni l.+1 0 + 2 * i | i <- iota 0 k] in
    (forall p, p < 2 ^ l.+1 -> nm_find hs' (ni l.+1 p) = Some (g p)) /\
    (forall p, p < k -> nm_find hs' (ni l p) = Some (H (g (2 * p) ++ g (2 * p + 1)))).
  by have [_ h] := key _ (leqnn _).
elim: k => [|k IH] hk; first by split=> // p; rewrite ltn0.
have [h1 h2] := IH (ltnW hk).
rewrite -(addn1 k) iotaD map_cat foldl_cat /= add0n.
move: h1 h2; set hs1 := foldl F hs _; move: hs1 => hs1 h1 h2.
have e0 : ni l.+1 0 + 2 * k = ni l.+1 (2 * k) by rewrite /ni; lia.
have hk1 : 2 * k < 2 ^ l.+1 by rewrite expn2S; lia.
have hk2 : 2 * k + 1 < 2 ^ l.+1 by rewrite expn2S; lia.
have -> : F hs1 (ni l.+1 0 + 2 * k) = nm_set hs1 (ni l k) (H (g (2 * k) ++ g (2 * k + 1))).
  rewrite e0 /F /nm_index (h1 _ hk1).
  have -> : ni l.+1 (2 * k) + 1 < ni l.+2 0 by rewrite /ni (expn2S l.+1); have := expn2_gt0 l; lia.
  have -> : ni l.+1 (2 * k) + 1 = ni l.+1 (2 * k + 1) by rewrite /ni; lia.
  rewrite (h1 _ hk2) ni_parent; by have -> : 2 * k %/ 2 = k by lia.
split=> p hp; rewrite nm_find_set; case: eqP => [e|hne].
- by have [] := ni_inj hp hk e; lia.
- exact: h1.
- have hp' : p < 2 ^ l by lia.
  by have [_ ->] := ni_inj hp' hk e.
- have [e|hlt] : p = k \/ p < k by lia.
    by case: hne; rewrite e.
  exact: h2.
Qed.

Lemma vector_full d vs contents : d < 64 -> vs <= n -> size contents = 2 ^ d ->
  all (fun x => size x == vs) contents ->
  exists t, mt_of_vector H n d vs contents = Ok t /\
            mt_get_root t = Ok (merkle_root H (fun a => pad n (nth [::] contents a)) d).
Proof.
move=> hd hvs hsz /allP hall; rewrite /mt_of_vector.
have [t0 et g0] := @new_good H n d vs hd hvs; rewrite et /= hsz log2_le leqnn /=.
set leaves := zip _ _; set hs0 := foldl _ (mt_hashes t0) leaves.
have h0 p : p < 2 ^ d -> nm_find hs0 (ni d p) = Some (pad n (nth [::] contents p)).
  have key c (m : nmap bit_vector) b : 
    nm_find (foldl (fun m kv => nm_set m kv.1 (resize kv.2 (mt_digest_size t0))) m (zip (iota b (size c)) c)) (b + p) =
    if p < size c then Some (resize (nth [::] c p) n) else nm_find m (b + p).
    elim/last_ind: c => [|c x IH] //.
    rewrite size_rcons -(addn1 (size c)) iotaD -cats1 zip_cat ?size_iota // foldl_cat /= nm_find_set.
    rewrite eqn_add2l nth_cat (g_dig g0) -(g_dig g0) IH (g_dig g0).
    have -> : (p < size c + 1) = (p <= size c) by lia.
    by case: (ltngtP p (size c)) => h; rewrite ?h ?subnn.
  move=> hp; have := key contents (mt_hashes t0) (2 ^ d - 1); rewrite hsz hp => ->; rewrite resize_pad //.
  by rewrite (eqP (hall _ _)) // mem_nth // hsz.
pose g l p := node (fun a => pad n (nth [::] contents a)) (d - l) p.
have [k [hs [e1 e2 _]]] : exists k hs, [/\ ofold (fun st layer =>
                      let: (hashes, idx_begin, idx_end) := st in
                      let! dflt := oget (mt_hash_defaults t0) layer in
                      Ok (vector_layer H dflt idx_begin idx_end hashes,
                          (idx_begin - 1) %/ 2, (idx_end - 1) %/ 2))
                   (hs0, 2 ^ d - 1, 2 ^ d + (2 ^ d - 1)) (rev (iota (d - d).+1 d)) =
   Ok (hs, ni (d - d) 0, ni (d - d).+1 0), (forall p, p < 2 ^ (d - d) -> nm_find hs (ni (d - d) p) = Some (g (d - d) p)) & k = d].
  suff : forall k, k <= d -> exists hs, ofold (fun st layer =>
                      let: (hashes, idx_begin, idx_end) := st in
                      let! dflt := oget (mt_hash_defaults t0) layer in
                      Ok (vector_layer H dflt idx_begin idx_end hashes,
                          (idx_begin - 1) %/ 2, (idx_end - 1) %/ 2))
                   (hs0, 2 ^ d - 1, 2 ^ d + (2 ^ d - 1)) (rev (iota (d - k).+1 k)) =
   Ok (hs, ni (d - k) 0, ni (d - k).+1 0) /\ (forall p, p < 2 ^ (d - k) -> nm_find hs (ni (d - k) p) = Some (g (d - k) p)).
    by move=> /(_ d (leqnn d)) [hs [e1 e2]]; exists d, hs.
  elim=> [|k IH] hk.
    exists hs0; rewrite subn0; split; last by move=> p hp; rewrite h0 // /g subnn.
    by congr (Ok (_, _, _)); rewrite /ni ?expn2S; have := expn2_gt0 d; lia.
  have [hs [e1 e2]] := IH (ltnW hk).
  have ek : d - k = (d - k.+1).+1 by lia.
  rewrite /= rev_cons -cats1 ofold_cat -ek e1 /= ek.
  rewrite (g_defaults g0) (@oget_nth _ [::]) ?size_mkseq //=; last by lia.
  rewrite !ni_parent div0n; eexists; split; first by rewrite -ek.
  move=> p hp; rewrite ek; rewrite ek in e2; rewrite (full_layer _ e2) // /g.
  by have -> : d - (d - k.+1) = (d - (d - k.+1).+1).+1 by lia.
rewrite subnn in e1 e2; rewrite e1 /=; eexists; split; first by [].
rewrite /mt_get_root /mt_node /=.
by have := e2 0 isT; rewrite /g subn0 /ni => ->.
Qed.

(** ** The boundary address *)
Lemma boundary vs v w : vs <= n -> size v = vs -> size w = vs ->
  exists t, [/\ (let! t0 := mt_new H n 1 vs in let! t1 := mt_set_value H t0 2 v in mt_set_value H t1 1 w) = Ok t,
     mt_get_value t 0 = Ok (nseq vs false), mt_get_value t 1 = Ok w &
     mt_get_root t = Ok (H (H (pad n v ++ nseq n false) ++ pad n w))].
Proof.
move=> h hv hw; rewrite /mt_new h /= /mt_set_value /= -hv eqxx /= hv hw eqxx /=.
eexists; split; first by [].
- by rewrite /mt_get_value /= resize_zeros.
- by rewrite /mt_get_value /= -hw resize_id.
- by rewrite /mt_get_root /mt_node /= /two_to_one_CRH !resize_pad ?hv ?hw.
Qed.

Lemma set_out_of_range t a x : 2 ^ mt_depth t < a -> mt_set_value H t a x = AssertFail.
Proof. by move=> h; rewrite /mt_set_value log2_le leqNgt h. Qed.
Lemma get_out_of_range t a : 2 ^ mt_depth t < a -> mt_get_value t a = AssertFail /\ mt_get_path t a = AssertFail.
Proof. by move=> h; rewrite /mt_get_value /mt_get_path log2_le leqNgt h. Qed.

(** ** The set commitment *)
Section Set_.
Hypothesis Hsize : forall x, size (H x) = n.

Lemma distinct_rcons (T : eqType) (l : seq T) x :
  distinct (rcons l x) = if x \in distinct l then distinct l else rcons (distinct l) x.
Proof. by rewrite /distinct -cats1 foldl_cat. Qed.

Lemma mem_distinct (T : eqType) (l : seq T) : distinct l =i l.
Proof.
elim/last_ind: l => [|l x IH] // y; rewrite distinct_rcons mem_rcons in_cons -IH.
case: (boolP (x \in distinct l)) => h; last by rewrite mem_rcons in_cons.
by case: eqP => [->|].
Qed.

Lemma size_distinct_rcons (T : eqType) (l : seq T) x : size (distinct l) <= size (distinct (rcons l x)).
Proof. by rewrite distinct_rcons; case: ifP => // _; rewrite size_rcons. Qed.

Lemma uniq_distinct (T : eqType) (l : seq T) : uniq (distinct l).
Proof.
elim/last_ind: l => [|l x IH] //; rewrite distinct_rcons.
by case: ifP => // h; rewrite rcons_uniq h.
Qed.

Definition zval := nseq n false.

Record sgood (M vsz : nat) (xs : seq bit_vector) (s : set_commitment) : Prop := SGood {
  sg_tree : good H n (log2 M) n (sc_tree s) (fun a => nth zval (distinct (map H xs)) a);
  sg_pos : sc_hash_to_pos s = zip (distinct (map H xs)) (iota 0 (size (distinct (map H xs))));
  sg_vs : sc_value_size s = vsz }.

Lemma sc_find_index (l : seq bit_vector) (h : bit_vector) k : Option.map snd (ohead [seq kv <- zip l (iota k (size l)) | kv.1 == h]) =
  if h \in l then Some (k + index h l) else None.
Proof.
elim: l k => [|x l IH] k //=; rewrite in_cons (eq_sym h).
by case: eqP => [_|_] /=; rewrite ?addn0 // IH addSnnS.
Qed.

Lemma sg_find M vsz xs s h : sgood M vsz xs s -> 
  sc_find s h = if h \in map H xs then Some (index h (distinct (map H xs))) else None.
Proof. by move=> g; rewrite /sc_find (sg_pos g) sc_find_index mem_distinct. Qed.

Lemma sc_history M vsz xs :
  log2 M < 64 -> all (fun x => (vsz == 0) || (size x == vsz)) xs ->
  size (distinct (map H xs)) <= 2 ^ log2 M ->
  exists2 s, (let! s0 := sc_new H n M vsz in ofold (sc_add H) s0 xs) = Ok s & sgood M vsz xs s.
Proof.
move=> hM; elim/last_ind: xs => [|xs x IH].
  move=> _ _; have [t et gt] := @new_good H n (log2 M) n hM (leqnn n).
  rewrite /sc_new et /=; eexists; first by [].
  split=> //=; case: gt => h1 h2 h3 h4 h5 h6 h7 h8; split=> //.
  - by move=> a ha; rewrite h5 // nth_nil.
  - by move=> a; rewrite nth_nil size_nseq.
  - by move=> l p hl hp; rewrite h8 //; apply: node_ext => a _; rewrite nth_nil.
rewrite all_rcons map_rcons => /andP[hx hxs] hcap.
have [|s es gs] := IH hxs; first exact: leq_trans (size_distinct_rcons _ _) hcap.
move: es; case e0: (sc_new H n M vsz) => [s0| |] //= es.
rewrite -cats1 ofold_cat es /=.
have step : exists2 s', sc_add H s x = Ok s' & sgood M vsz (xs ++ [:: x]) s'.
  rewrite /sc_add (sg_vs gs) hx /= (sg_find _ gs).
  have ed := distinct_rcons (map H xs) (H x).
  case: ifP => hin.
    exists s => //; case: gs => h1 h2 h3; rewrite cats1 in ed *.
    by split; rewrite ?map_rcons ?ed ?mem_distinct ?hin.
  rewrite mem_distinct hin in ed.
  have hpos : size (sc_hash_to_pos s) = size (distinct (map H xs)).
    by rewrite (sg_pos gs) size_zip size_iota minnn.
  have hlt : size (distinct (map H xs)) < 2 ^ log2 M by move: hcap; rewrite ed size_rcons.
  have [t' et' gt'] := set_good (sg_tree gs) hlt (Hsize x).
  rewrite hpos et' /=; eexists; first by [].
  rewrite cats1; split; rewrite /= ?map_rcons ?ed; [|by rewrite (sg_pos gs) size_rcons -(addn1 (size _)) iotaD -!cats1 zip_cat ?size_iota|by []].
  case: gt' => h1 h2 h3 h4 h5 h6 h7 h8.
  have ef a : nth zval (rcons (distinct (map H xs)) (H x)) a =
    if a == size (distinct (map H xs)) then H x else nth zval (distinct (map H xs)) a.
    rewrite nth_rcons; case: ltngtP => // h; by rewrite nth_default // ltnW.
  split=> //.
  - by move=> a ha; rewrite h5 // ef.
  - by move=> a; have := h6 a; rewrite ef.
  - by move=> l p hl hp; rewrite h8 //; apply: node_ext => a _; rewrite ef.
by have [s' -> gs'] := step; exists s'.
Qed.

Lemma sg_is_in_set M vsz xs s v : sgood M vsz xs s -> (vsz == 0) || (size v == vsz) ->
  sc_is_in_set H s v = Ok (H v \in map H xs).
Proof. by move=> g hv; rewrite /sc_is_in_set (sg_vs g) hv /= (sg_find _ g); case: ifP. Qed.

Lemma sg_commitment M vsz xs s : sgood M vsz xs s ->
  sc_get_commitment s = Ok (merkle_root H (fun a => nth (nseq n false) (distinct (map H xs)) a) (log2 M)).
Proof.
move=> g; rewrite /sc_get_commitment (get_root_good (sg_tree g)).
congr Ok; apply: node_ext => a _.
by rewrite /pad (g_size (sg_tree g)) subnn cats0.
Qed.

Lemma sg_proof M vsz xs s v : sgood M vsz xs s -> size (distinct (map H xs)) <= 2 ^ log2 M ->
  if H v \in map H xs
  then exists2 path, sc_get_membership_proof H s v = Ok (index (H v) (distinct (map H xs)), path) &
    path_verifies H (merkle_root H (fun a => nth (nseq n false) (distinct (map H xs)) a) (log2 M))
      (index (H v) (distinct (map H xs))) (H v) path /\ (size path = log2 M /\ all (fun d => size d == n) path)
  else sc_get_membership_proof H s v = AssertFail.
Proof.
move=> g hcap; rewrite /sc_get_membership_proof; have ef := sg_find (H v) g.
case: ifP => hin; last by rewrite ef ifF.
rewrite ef ifT //; rewrite -mem_distinct in hin.
have hlt : index (H v) (distinct (map H xs)) < 2 ^ log2 M by apply: leq_trans hcap; rewrite index_mem.
rewrite /= (get_path_good (sg_tree g) hlt) /=; eexists; first by [].
split; last first.
  split; first by rewrite size_mkseq.
  apply/allP => d /mapP [i _ ->]; case: (log2 M - i.+1)%N => [|h] /=; last by rewrite Hsize.
  by rewrite /pad (g_size (sg_tree g)) subnn cats0 (g_size (sg_tree g)).
have := @path_good H n (fun a => nth zval (distinct (map H xs)) a) _ _ hlt.
rewrite /path_verifies nth_index // /pad Hsize subnn cats0 => ->.
apply: node_ext => a _.
by rewrite (g_size (sg_tree g)) subnn cats0.
Qed.

(** A third element in a set for two. *)
Lemma sc_overflow x y z vsz : all (fun x => (vsz == 0) || (size x == vsz)) [:: x; y; z] ->
  uniq [:: H x; H y; H z] ->
  exists s, [/\ (let! s0 := sc_new H n 2 vsz in ofold (sc_add H) s0 [:: x; y; z]) = Ok s,
    sc_is_in_set H s z = Ok true, sc_get_commitment s = Ok (H (H x ++ H y)) &
    sc_get_membership_proof H s z = Ok (2, [:: nseq n false])].
Proof.
rewrite /= !in_cons !in_nil !orbF !andbT => /and3P[hx hy hz] /andP[/norP[xy xz] yz].
rewrite /sc_new /mt_new leqnn /=.
rewrite {1}/sc_add /= hx /sc_find /= {1}/mt_set_value /= Hsize eqxx /=.
rewrite {1}/sc_add /= hy /sc_find /= (negbTE xy) /= {1}/mt_set_value /= Hsize eqxx /=.
rewrite {1}/sc_add /= hz /sc_find /= (negbTE xz) (negbTE yz) /= {1}/mt_set_value /= Hsize eqxx /=.
eexists; split; first by [].
- by rewrite /sc_is_in_set /= hz /sc_find /= (negbTE xz) (negbTE yz) eqxx.
- by rewrite /sc_get_commitment /mt_get_root /mt_node /= /two_to_one_CRH !resize_pad ?Hsize // /pad !Hsize subnn !cats0.
- by rewrite /sc_get_membership_proof /sc_find /= (negbTE xz) (negbTE yz) eqxx /= /mt_get_path /= resize_zeros.
Qed.
End Set_.

(** ** Binding *)
Lemma collision_sub us vs us' vs' : {subset us <= us'} -> {subset vs <= vs'} ->
  collision_in H us vs -> collision_in H us' vs'.
Proof. by move=> h1 h2 [u [v [hu hv h3 h4]]]; exists u, v; split=> //; [apply: h1|apply: h2]. Qed.
Lemma cat_neq (u v u' v' : seq bool) : size u = size u' -> u <> u' \/ v <> v' -> u ++ v <> u' ++ v'.
Proof. by move=> h1 h2 /eqP; rewrite eqseq_cat // => /andP[/eqP e1 /eqP e2]; case: h2. Qed.

Lemma path_binding p x y s s' :
  (forall z, size (H z) = n) -> size x = n -> size y = n ->
  all (fun z => size z == n) s -> all (fun z => size z == n) s' -> size s = size s' ->
  climb H p x s = climb H p y s' -> x <> y ->
  collision_in H (climb_blocks H p x s) (climb_blocks H p y s').
Proof.
move=> hH; elim: s p x y s' => [|a s IH] p x y [|b s'] //= hx hy /andP[/eqP ha hs] /andP[/eqP hb hs'] [hsz] e ne.
set u := if odd p then a ++ x else x ++ a; set v := if odd p then b ++ y else y ++ b.
have hu : (if odd p then H (a ++ x) else H (x ++ a)) = H u by rewrite /u; case: odd.
have hv : (if odd p then H (b ++ y) else H (y ++ b)) = H v by rewrite /v; case: odd.
rewrite hu hv in e; have [eq|/eqP neq] := eqVneq (H u) (H v).
  exists u, v; split=> //; rewrite ?inE ?eqxx //.
  by rewrite /u /v; case: odd; apply: cat_neq; rewrite ?ha ?hb ?hx ?hy //; [right|left].
apply: (collision_sub _ _ (IH _ _ _ _ _ _ hs hs' hsz e neq)) => // w hw; by rewrite inE hw orbT.
Qed.

Lemma root_binding f g d h p : (forall z, size (H z) = n) ->
  (forall a, a < 2 ^ d -> size (f a) = n /\ size (g a) = n) -> (p + 1) * 2 ^ h <= 2 ^ d ->
  node f h p = node g h p ->
  (forall a, p * 2 ^ h <= a < (p + 1) * 2 ^ h -> f a = g a) \/ collision_in H (node_blocks H f h p) (node_blocks H g h p).
Proof.
move=> hH hs; elim: h p => [|h IH] p hp /= e.
  left=> a ha; have -> : a = p by move: ha; rewrite expn0; lia. by [].
have hsz f' q : (forall a, a < 2 ^ d -> size (f' a) = n) -> (q + 1) * 2 ^ h <= 2 ^ d -> size (node f' h q) = n.
  case: h {IH hp e} => [|h] hf hq //=; apply: hf; move: hq; rewrite expn0; lia.
rewrite expn2S in hp *.
have h1 : (2 * p + 1) * 2 ^ h <= 2 ^ d by nia.
have h2 : (2 * p + 1 + 1) * 2 ^ h <= 2 ^ d by nia.
case: (@eqP _ (node f h (2 * p) ++ node f h (2 * p + 1)) (node g h (2 * p) ++ node g h (2 * p + 1))) => [/eqP|ne]; last first.
  by right; eexists; eexists; split; [exact: mem_head|exact: mem_head|exact: ne|exact: e].
rewrite eqseq_cat; last first.
  by rewrite !hsz // => a /hs [].
case/andP=> /eqP e1 /eqP e2.
have [r1|c1] := IH _ h1 e1; last first.
  by right; apply: (collision_sub _ _ c1) => w hw; rewrite inE mem_cat hw !orbT.
have [r2|c2] := IH _ h2 e2; last first.
  by right; apply: (collision_sub _ _ c2) => w hw; rewrite inE mem_cat hw !orbT.
left=> a ha; have [hlt|hge] := ltnP a ((2 * p + 1) * 2 ^ h); [apply: r1|apply: r2]; nia.
Qed.

(** ** Replacing a leaf *)
Lemma node_hash_S f h p : node f h.+1 p = node (fun q => H (f (2 * q) ++ f (2 * q + 1))) h p.
Proof. by elim: h p => [//|h IH] p; rewrite /= -!IH. Qed.
Lemma node_blocks_S f h p : {subset node_blocks H (fun q => H (f (2 * q) ++ f (2 * q + 1))) h p <= node_blocks H f h.+1 p}.
Proof.
have E g k q : node_blocks H g k.+1 q = (node g k (2 * q) ++ node g k (2 * q + 1)) :: node_blocks H g k (2 * q) ++ node_blocks H g k (2 * q + 1) by [].
elim: h p => [//|h IH] p w; rewrite (E f h.+1 p) (E _ h p) -!node_hash_S.
have := IH (2 * p) w; have := IH (2 * p + 1) w.
move: (node_blocks H f h.+1 (2 * p)) (node_blocks H f h.+1 (2 * p + 1)) => a b i1 i2.
by rewrite !in_cons !mem_cat; case/orP => [->//|/orP [/i2 ->|/i1 ->]]; rewrite !orbT.
Qed.
Lemma node_blocks_leaf f h p a : p %/ 2 ^ h = a -> f (2 * (p %/ 2)) ++ f (2 * (p %/ 2) + 1) \in node_blocks H f h.+1 (p %/ 2 ^ h.+1).
Proof.
elim: h p f a => [|h IH] p f a _; first by rewrite expn1 /= inE eqxx.
have E g k q : node_blocks H g k.+1 q = (node g k (2 * q) ++ node g k (2 * q + 1)) :: node_blocks H g k (2 * q) ++ node_blocks H g k (2 * q + 1) by [].
have := IH p f _ erefl; rewrite (E f h.+1 (p %/ 2 ^ h.+2)).
have e : p %/ 2 ^ h.+1 = 2 * (p %/ 2 ^ h.+2) \/ p %/ 2 ^ h.+1 = 2 * (p %/ 2 ^ h.+2) + 1.
  have -> : p %/ 2 ^ h.+2 = p %/ 2 ^ h.+1 %/ 2 by rewrite -divnMA -expnSr.
  have := divn_eq (p %/ 2 ^ h.+1) 2; have := ltn_pmod (p %/ 2 ^ h.+1) (isT : 0 < 2).
  by case: (p %/ 2 ^ h.+1 %% 2) => [|[|//]] _ e; [left|right]; lia.
by case: e => <-; move: (node_blocks H f h.+1 (p %/ 2 ^ h.+1)) => a' ha; rewrite in_cons mem_cat ha !orbT.
Qed.

Lemma climb_update d p x f s : (forall z, size (H z) = n) -> (forall a, size (f a) = n) -> size x = n ->
  all (fun z => size z == n) s -> size s = d -> climb H p x s = node f d (p %/ 2 ^ d) ->
  (x = f p /\ forall y, climb H p y s = node (fun a => if a == p then y else f a) d (p %/ 2 ^ d)) \/
  collision_in H (climb_blocks H p x s) (node_blocks H f d (p %/ 2 ^ d)).
Proof.
move=> hH; elim: d p x f s => [|d IH] p x f [|s0 s] //.
  by rewrite expn0 divn1 /= => _ _ _ _ ->; left; split=> // y; rewrite eqxx.
move=> hf hx /= /andP [/eqP h0 hs] [hd].
set u := if odd p then s0 ++ x else x ++ s0.
have eu : (if odd p then H (s0 ++ x) else H (x ++ s0)) = H u by rewrite /u; case: odd.
rewrite eu -!/(node f d.+1 _) node_hash_S => e.
have ed : p %/ 2 ^ d.+1 = p %/ 2 %/ 2 ^ d by rewrite -divnMA -expnS.
set f' := (fun q => H (f (2 * q) ++ f (2 * q + 1))) in e *.
have [||[e1 e2]|c] := IH (p %/ 2) (H u) f' s _ (hH u) hs hd.
- by move=> a; apply: hH.
- by rewrite -ed.
- have hp := divn_eq p 2; rewrite modn2 in hp.
  have [eq|/eqP ne] := eqVneq u (f (2 * (p %/ 2)) ++ f (2 * (p %/ 2) + 1)); last first.
    right; exists u, (f (2 * (p %/ 2)) ++ f (2 * (p %/ 2) + 1)); split=> //; first by rewrite inE eqxx.
    exact: (node_blocks_leaf f (erefl (p %/ 2 ^ d))).
  have [q1 q2] : x = f p /\ s0 = f (if odd p then 2 * (p %/ 2) else 2 * (p %/ 2) + 1).
    move: eq; rewrite /u; case: (odd p) hp => hp /eqP; rewrite eqseq_cat ?h0 ?hx ?hf // => /andP [/eqP q1 /eqP q2].
      by rewrite q2 q1; split=> //; congr f; lia.
    by rewrite q1 q2; split=> //; congr f; lia.
  left; split=> //.
  move=> y; have -> : (if odd p then H (s0 ++ y) else H (y ++ s0)) = H (if odd p then s0 ++ y else y ++ s0) by case: odd.
  rewrite -!/(node _ d.+1 _) node_hash_S ed e2; apply: node_ext => a _.
  case: eqP => [->|ne].
    case: (odd p) hp q2 => hp ->; last by rewrite ifT ?ifF //; [apply/eqP; lia|apply/eqP; lia].
    by rewrite ifF ?ifT //; apply/eqP; lia.
  by rewrite /f' !ifF //; apply/eqP; lia.
right; apply: (collision_sub _ _ c); first by move=> w hw; rewrite inE hw orbT.
by move=> w; rewrite -ed; apply: node_blocks_S.
Qed.
End More.
