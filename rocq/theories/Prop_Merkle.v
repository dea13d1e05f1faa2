(** C22-C24 and C52: Merkle trees and set commitments.

    [H] is any hash function on bit vectors and [n] the digest length.  A bit
    vector is a [seq bool]; [pad n v] is [v] filled up with zeros to [n] bits. *)
From mathcomp Require Import all_ssreflect.
From Verif Require Import Outcome StdMap MerkleTree MerkleSpec MerkleFacts MerkleMap MerkleMore.
Set Implicit Arguments.
Unset Strict Implicit.
Unset Printing Implicit Defensive.

(** * C22: any history of writes *)

(** Build an empty tree, then perform the writes in order. *)
Definition tree_after H n depth value_size (writes : seq (nat * seq bool)) : outcome merkle_tree :=
  let! t := mt_new H n depth value_size in
  ofold (fun t w => mt_set_value H t w.1 w.2) t writes.

Lemma tree_after_spec H n depth value_size writes :
  let current a := last_written writes (nseq value_size false) a in
  let root := merkle_root H (fun a => pad n (current a)) depth in
  depth < 64 -> value_size <= n ->
  all (fun w => (w.1 < 2 ^ depth) && (size w.2 == value_size)) writes ->
  exists t, [/\ tree_after H n depth value_size writes = Ok t,
    forall a, a < 2 ^ depth -> mt_get_value t a = Ok (current a),
    mt_get_root t = Ok root &
    forall a, a < 2 ^ depth -> exists path, [/\ mt_get_path t a = Ok path, size path = depth &
      path_verifies H root a (pad n (current a)) path]].
Proof.
move=> current root hd hvs hw; rewrite /tree_after.
have [t0 -> g0] := @new_good H n depth value_size hd hvs.
have [t e g] := history_good g0 hw; exists t; split=> //.
- by move=> a ha; exact: get_value_good g ha.
- exact: get_root_good g.
- move=> a ha; exists (siblings H n current depth a); split; first exact: get_path_good g ha.
  + by rewrite size_mkseq.
  + exact: path_good.
Qed.

(** The full statement: values, root and authentication paths after any history
    of writes of values of the declared size at addresses below 2^depth. *)
Theorem C22_merkle_history H n depth value_size writes :
  let current a := last_written writes (nseq value_size false) a in
  let root := merkle_root H (fun a => pad n (current a)) depth in
  depth < 64 -> value_size <= n ->
  all (fun w => (w.1 < 2 ^ depth) && (size w.2 == value_size)) writes ->
  exists t, [/\ tree_after H n depth value_size writes = Ok t,
    forall a, a < 2 ^ depth -> mt_get_value t a = Ok (current a),
    mt_get_root t = Ok root &
    forall a, a < 2 ^ depth -> exists path, [/\ mt_get_path t a = Ok path, size path = depth &
      path_verifies H root a (pad n (current a)) path]].
Proof. exact (@tree_after_spec H n depth value_size writes). Qed.
Print Assumptions C22_merkle_history.

(** Addresses above 2^depth are refused ... *)
Theorem C22_merkle_out_of_range H t a x : 2 ^ mt_depth t < a ->
  [/\ mt_set_value H t a x = AssertFail, mt_get_value t a = AssertFail & mt_get_path t a = AssertFail].
Proof. by move=> h; have [h1 h2] := get_out_of_range h; split; [exact: set_out_of_range|exact: h1|exact: h2]. Qed.
Print Assumptions C22_merkle_out_of_range.

(** ... but the address 2^depth itself is accepted, for every hash, and corrupts
    the tree: no leaf below 2^depth holds [v], yet the root depends on it. *)
Theorem C22_merkle_boundary_refuted H n value_size v w :
  value_size <= n -> size v = value_size -> size w = value_size ->
  exists t, [/\ tree_after H n 1 value_size [:: (2, v); (1, w)] = Ok t,
    mt_get_value t 0 = Ok (nseq value_size false), mt_get_value t 1 = Ok w &
    mt_get_root t = Ok (H (H (pad n v ++ nseq n false) ++ pad n w))].
Proof.
move=> h hv hw; have [t [e1 e2 e3 e4]] := boundary H h hv hw; exists t; split=> //.
move: e1; rewrite /tree_after; case: mt_new => //= t0.
by case: mt_set_value => //= t1; case: mt_set_value.
Qed.
Print Assumptions C22_merkle_boundary_refuted.

(** A toy hash to 2 bits. *)
Definition toy_hash (x : seq bool) : seq bool :=
  foldl (fun st b => [:: b != nth false st 1; nth false st 0 && b]) [:: true; false] x.
Example C22_merkle_history_example :
  let writes := [:: (3, [:: true; false]); (0, [:: true; true]); (3, [:: false; true])] in
  [&& 2 < 64, 2 <= 2, all (fun w => (w.1 < 2 ^ 2) && (size w.2 == 2)) writes &
      (if tree_after toy_hash 2 2 2 writes is Ok t then
         (if mt_get_value t 3 is Ok v then v == [:: false; true] else false) &&
         (if mt_get_root t is Ok r then r == toy_hash (toy_hash [:: true; true; false; false] ++ toy_hash [:: false; false; false; true]) else false)
       else false)].
Proof. by vm_compute. Qed.

(** * C23: the bulk constructors *)

(** Building from a map is writing its entries, in any order. *)
Lemma of_map_spec H n depth value_size (contents : nmap (seq bool)) writes :
  depth < 64 -> value_size <= n -> nm_ordered contents ->
  all (fun w => (w.1 < 2 ^ depth) && (size w.2 == value_size)) contents ->
  perm_eq writes contents ->
  exists t t', [/\ mt_of_map H n depth value_size contents = Ok t,
    tree_after H n depth value_size writes = Ok t', mt_get_root t = mt_get_root t' &
    forall a, a < 2 ^ depth -> mt_get_value t a = mt_get_value t' a /\ mt_get_path t a = mt_get_path t' a].
Proof.
move=> hd hvs ho hc hp.
have hkeys k : k \in nm_keys contents -> k < 2 ^ depth.
  by case/mapP=> kv /(allP hc) /andP[h _] ->.
have hsizes k x : nm_find contents k = Some x -> size x = value_size.
  move/(nm_find_In _ _ ho) => hin.
  suff : ((k, x) \in contents) by move/(allP hc) => /andP[_ /eqP].
  by elim: contents hin {ho hc hp hkeys} => //= kv c IH [->|/IH h]; rewrite in_cons ?eqxx // h orbT.
have [t e g] := @of_map_good H n depth value_size contents hd hvs ho hkeys hsizes.
have hw : all (fun w => (w.1 < 2 ^ depth) && (size w.2 == value_size)) writes by rewrite (perm_all _ hp).
have [t0 e0 g0] := @new_good H n depth value_size hd hvs.
have [t' e' g'] := history_good g0 hw.
have eqv a : last_written writes (nseq value_size false) a = odflt (nseq value_size false) (nm_find contents a).
  have hu : uniq (nm_keys contents).
    by apply: sorted_uniq ho => [? ? ?|?]; [apply: ltn_trans|rewrite /= ltnn].
  have hu' : uniq [seq w.1 | w <- writes] by rewrite (perm_uniq (perm_map _ hp)).
  have lw (l : seq (nat * seq bool)) z : uniq [seq w.1 | w <- l] ->
      last_written l z a = odflt z (nm_find l a).
    elim: l z => [|[k x] l IH] z //= /andP[hk hl]; rewrite /last_written /= -/(last_written l _ a) IH //.
    case: (@eqP _ k a) => [e1|//]; subst k.
    by have := nm_find_keys l a; rewrite /nm_keys (negbTE hk); case: nm_find.
  rewrite lw //; congr (odflt _ _).
  have fi (l : seq (nat * seq bool)) k x : uniq [seq w.1 | w <- l] -> ((k, x) \in l) = (nm_find l k == Some x).
    elim: l => [|[i y] l IH] //= /andP[hk hl]; rewrite in_cons IH // xpair_eqE (eq_sym k).
    case: (@eqP _ i k) => [e1|_] //=; subst i.
    have -> : nm_find l k = None by have := nm_find_keys l k; rewrite /nm_keys (negbTE hk); case: nm_find.
    by rewrite /= orbF; apply/eqP/eqP => [->|[]].
  case e1: (nm_find writes a) => [x|].
    by apply/esym/eqP; rewrite -fi // -(perm_mem hp) fi // e1.
  case e2: (nm_find contents a) => [x|//].
  by have := fi contents a x hu; rewrite e2 eqxx -(perm_mem hp) fi // e1.
exists t, t'; split=> //; first by rewrite /tree_after e0.
  rewrite (get_root_good g) (get_root_good g'); congr Ok.
  by apply: node_ext => a _; rewrite eqv.
move=> a ha; rewrite (get_value_good g ha) (get_value_good g' ha) (get_path_good g ha) (get_path_good g' ha).
split; first by rewrite eqv.
congr Ok; apply: eq_mkseq => i; apply: node_ext => b _; by rewrite eqv.
Qed.

Theorem C23_merkle_of_map H n depth value_size (contents : nmap (seq bool)) writes :
  depth < 64 -> value_size <= n -> nm_ordered contents ->
  all (fun w => (w.1 < 2 ^ depth) && (size w.2 == value_size)) contents ->
  perm_eq writes contents ->
  exists t t', [/\ mt_of_map H n depth value_size contents = Ok t,
    tree_after H n depth value_size writes = Ok t', mt_get_root t = mt_get_root t' &
    forall a, a < 2 ^ depth -> mt_get_value t a = mt_get_value t' a /\ mt_get_path t a = mt_get_path t' a].
Proof. exact (@of_map_spec H n depth value_size contents writes). Qed.
Print Assumptions C23_merkle_of_map.

Example C23_merkle_of_map_example :
  let contents := [:: (1, [:: true]); (2, [:: false]); (3, [:: true])] : nmap (seq bool) in
  [&& nm_ordered contents, all (fun w => (w.1 < 2 ^ 2) && (size w.2 == 1)) contents,
      perm_eq (rev contents) contents &
      (if mt_of_map toy_hash 2 2 1 contents is Ok t then
         (if mt_get_root t is Ok r then r == toy_hash (toy_hash [:: false; false; true; false] ++ toy_hash [:: false; false; true; false]) else false) &&
         (if mt_get_value t 3 is Ok v then v == [:: true] else false)
       else false)].
Proof. by vm_compute. Qed.

(** Building from a vector is not: the values are stored under wrong addresses
    (for every hash, and every two entries) ... *)
Theorem C23_vector_values_refuted H n value_size x y :
  value_size <= n -> size x = value_size -> size y = value_size ->
  exists t, [/\ mt_of_vector H n 1 value_size [:: x; y] = Ok t,
                mt_get_value t 0 = Ok (nseq value_size false) & mt_get_value t 1 = Ok x].
Proof. exact (@vector_values H n value_size x y). Qed.
Print Assumptions C23_vector_values_refuted.

(** ... and the root can ignore the contents altogether (for every hash and
    every entry), ... *)
Theorem C23_vector_root_refuted H n value_size x : value_size <= n -> size x = value_size ->
  exists t, mt_of_vector H n 2 value_size [:: x] = Ok t /\
            mt_get_root t = Ok (merkle_root H (fun=> nseq n false) 2).
Proof. exact (@vector_root H n value_size x). Qed.
Print Assumptions C23_vector_root_refuted.

(** ... although it is right when all leaves are given. *)
Theorem C23_vector_full_root H n depth value_size contents :
  depth < 64 -> value_size <= n -> size contents = 2 ^ depth ->
  all (fun x => size x == value_size) contents ->
  exists t, mt_of_vector H n depth value_size contents = Ok t /\
            mt_get_root t = Ok (merkle_root H (fun a => pad n (nth [::] contents a)) depth).
Proof. exact (@vector_full H n depth value_size contents). Qed.
Print Assumptions C23_vector_full_root.

Example C23_vector_full_root_example :
  (if mt_of_vector toy_hash 2 2 1 [:: [:: true]; [:: false]; [:: true]; [:: true]] is Ok t then
     (if mt_get_root t is Ok r then r == toy_hash (toy_hash [:: true; false; false; false] ++ toy_hash [:: true; false; true; false]) else false)
   else false).
Proof. by vm_compute. Qed.

(** * C24: set commitments *)

(** The additions in order, to an empty accumulator. *)
Definition set_after H n max_entries value_size (added : seq (seq bool)) : outcome set_commitment :=
  let! s := sc_new H n max_entries value_size in ofold (sc_add H) s added.

(** [2 ^ log2 max_entries] is the capacity; elements with equal hashes count
    once.  [log2] rounds up. *)
Theorem C24_set_commitment H n max_entries value_size added :
  (forall x, size (H x) = n) -> log2 max_entries < 64 ->
  all (fun x => (value_size == 0) || (size x == value_size)) added ->
  size (undup (map H added)) <= 2 ^ log2 max_entries ->
  exists s root, [/\ set_after H n max_entries value_size added = Ok s, sc_get_commitment s = Ok root,
    forall v, (value_size == 0) || (size v == value_size) -> sc_is_in_set H s v = Ok (H v \in map H added),
    forall v, H v \in map H added ->
      exists pos path, [/\ sc_get_membership_proof H s v = Ok (pos, path), pos < 2 ^ log2 max_entries,
        size path = log2 max_entries, all (fun d => size d == n) path & path_verifies H root pos (H v) path] &
    forall v, H v \notin map H added -> sc_get_membership_proof H s v = AssertFail].
Proof.
move=> hH hM hall hcap.
have hcap' : size (distinct (map H added)) <= 2 ^ log2 max_entries.
  apply: leq_trans hcap; apply: uniq_leq_size (uniq_distinct _) _ => x.
  by rewrite mem_distinct mem_undup.
have [s e g] := sc_history hH hM hall hcap'.
exists s, (merkle_root H (fun a => nth (nseq n false) (distinct (map H added)) a) (log2 max_entries)); split=> //.
- exact: sg_commitment g.
- by move=> v hv; exact: sg_is_in_set g hv.
- move=> v hv; have := @sg_proof H n hH max_entries value_size added s v g hcap'; rewrite hv => -[path e1 [e2 [e3 e4]]].
  exists (index (H v) (distinct (map H added))), path; split=> //.
  by apply: leq_trans hcap'; rewrite index_mem mem_distinct.
- by move=> v hv; have := @sg_proof H n hH max_entries value_size added s v g hcap'; rewrite (negbTE hv).
Qed.
Print Assumptions C24_set_commitment.

(** The commitment of the set: the Merkle root over the distinct hashes in order
    of addition. *)
Theorem C24_set_commitment_root H n max_entries value_size added :
  (forall x, size (H x) = n) -> log2 max_entries < 64 ->
  all (fun x => (value_size == 0) || (size x == value_size)) added ->
  size (distinct (map H added)) <= 2 ^ log2 max_entries ->
  exists2 s, set_after H n max_entries value_size added = Ok s &
    sc_get_commitment s =
    Ok (merkle_root H (fun a => nth (nseq n false) (distinct (map H added)) a) (log2 max_entries)).
Proof.
move=> hH hM hall hcap; have [s e g] := sc_history hH hM hall hcap.
by exists s => //; exact: sg_commitment g.
Qed.
Print Assumptions C24_set_commitment_root.

(** Beyond the capacity an element is accepted without being committed to: the
    commitment is the one of the first two elements, and the proof handed out
    for the third verifies only if it exhibits a collision with the block under the
    root. *)
Theorem C24_set_overflow_refuted H n value_size x y z :
  (forall x, size (H x) = n) ->
  all (fun x => (value_size == 0) || (size x == value_size)) [:: x; y; z] ->
  uniq [:: H x; H y; H z] ->
  exists s path, [/\ set_after H n 2 value_size [:: x; y; z] = Ok s,
    sc_is_in_set H s z = Ok true, sc_get_commitment s = Ok (H (H x ++ H y)),
    sc_get_membership_proof H s z = Ok (2, path) &
    path_verifies H (H (H x ++ H y)) 2 (H z) path ->
    collision_in H (path_blocks H 2 (H z) path) [:: H x ++ H y]].
Proof.
move=> hH hall hu; have [s [e1 e2 e3 e4]] := @sc_overflow H n hH x y z value_size hall hu.
exists s, [:: nseq n false]; split=> //.
rewrite /path_verifies /= => e; exists (H z ++ nseq n false), (H x ++ H y).
split; rewrite ?inE ?eqxx // => /eqP.
rewrite eqseq_cat ?hH // => /andP[/eqP ez _]; move: hu; by rewrite /= !in_cons ez eqxx orbT.
Qed.
Print Assumptions C24_set_overflow_refuted.

Lemma toy_hash_size x : size (toy_hash x) = 2.
Proof. by rewrite /toy_hash; elim/last_ind: x => [|x b _] //; rewrite -cats1 foldl_cat. Qed.
Example C24_set_commitment_example :
  let added := [:: [:: true; true]; [:: false; true]; [:: true; true]] in
  [&& size (undup (map toy_hash added)) == 2, all (fun x => (2 == 0) || (size x == 2)) added &
      (if set_after toy_hash 2 2 2 added is Ok s then
         (if sc_is_in_set toy_hash s [:: false; true] is Ok b then b else false) &&
         (if sc_is_in_set toy_hash s [:: false; false] is Ok b then ~~ b else false) else false)].
Proof. by vm_compute. Qed.
Example C24_set_overflow_example :
  uniq [:: toy_hash [:: true; true]; toy_hash [:: false; true]; toy_hash [:: false; false]].
Proof. by vm_compute. Qed.

(** * C52: binding *)

(** Two different leaf values that verify at the same address against the same
    root, with paths of the same length, exhibit a collision between the blocks
    hashed to verify them. *)
Theorem C52_path_binding H n root address x y path path' :
  (forall z, size (H z) = n) -> size x = n -> size y = n ->
  all (fun z => size z == n) path -> all (fun z => size z == n) path' -> size path = size path' ->
  path_verifies H root address x path -> path_verifies H root address y path' -> x <> y ->
  collision_in H (path_blocks H address x path) (path_blocks H address y path').
Proof.
move=> hH hx hy hp hp' hs h h' ne; apply: (@path_binding H n address x y (rev path) (rev path')) => //.
- by rewrite all_rev.
- by rewrite all_rev.
- by rewrite !size_rev.
- by rewrite h h'.
Qed.
Print Assumptions C52_path_binding.

(** Two write histories that lead to trees with the same root leave the same
    values at every address, or exhibit a collision between the blocks hashed to
    compute the two roots. *)
Theorem C52_root_binding H n depth value_size writes writes' t t' root :
  (forall z, size (H z) = n) -> depth < 64 -> value_size <= n ->
  all (fun w => (w.1 < 2 ^ depth) && (size w.2 == value_size)) (writes ++ writes') ->
  tree_after H n depth value_size writes = Ok t -> tree_after H n depth value_size writes' = Ok t' ->
  mt_get_root t = Ok root -> mt_get_root t' = Ok root ->
  let leaves ws a := pad n (last_written ws (nseq value_size false) a) in
  (forall a, a < 2 ^ depth -> mt_get_value t a = mt_get_value t' a) \/
  collision_in H (node_blocks H (leaves writes) depth 0) (node_blocks H (leaves writes') depth 0).
Proof.
move=> hH hd hvs; rewrite all_cat => /andP[hw hw'].
have [t1 [-> v1 r1 _]] := tree_after_spec H hd hvs hw; have [t2 [-> v2 r2 _]] := tree_after_spec H hd hvs hw'.
move=> -[<-] -[<-]; rewrite r1 r2 => -[<-] [e].
have lsz ws : all (fun w => (w.1 < 2 ^ depth) && (size w.2 == value_size)) ws ->
    forall a, size (last_written ws (nseq value_size false) a) = value_size.
  move=> h a; have : size (nseq value_size false) = value_size by rewrite size_nseq.
  elim: ws (nseq _ _) h => [|w ws IH] z //= /andP[/andP[_ /eqP h1] h2] hz.
  by rewrite /last_written /= -/(last_written ws _ a); apply: IH => //; case: ifP.
have psz v : size v = value_size -> size (pad n v) = n by move=> h; rewrite /pad size_cat size_nseq h subnKC.
have [||h|h] := @root_binding H n _ _ depth depth 0 hH _ _ (esym e).
- by move=> a _; rewrite !psz ?lsz.
- by rewrite add0n mul1n.
- left=> a ha; rewrite v1 // v2 //; congr Ok.
  have := h a; rewrite mul0n add0n mul1n leq0n ha => /(_ isT) /eqP.
  by rewrite /pad eqseq_cat ?lsz // => /andP[/eqP].
- by right.
Qed.
Print Assumptions C52_root_binding.

(** The toy hash has collisions, and they are what a second opening gives. *)
Example C52_path_binding_example :
  exists x y path path', [/\ x <> y, path_verifies toy_hash (toy_hash [:: false; false; false; false]) 0 x path,
    path_verifies toy_hash (toy_hash [:: false; false; false; false]) 0 y path', size x = 2 & size y = 2] /\
    all (fun z => size z == 2) path /\ all (fun z => size z == 2) path' /\ size path = size path'.
Proof.
exists [:: false; false], [:: false; true], [:: [:: false; false]], [:: [:: false; false]].
by vm_compute.
Qed.
