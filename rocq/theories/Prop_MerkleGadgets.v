(** C34, C35, C43 and C48: the Merkle-tree, knapsack and set-commitment gadgets.

    Vocabulary (GadgetSpec.v, MerkleSpec.v, MerkleGadgetSpec.v): [x] is the vector
    of variable values, [xval x v] the value of variable [v], [lval x l] that of a
    linear combination, [holds cs x] that all the constraints hold; [var_bits x vs]
    and [lc_bits x ls] are the bits carried by variables and by combinations,
    [var_isbits]/[lc_isbits] say that they are bits, [bits_nat] reads bits as a
    number, lowest first.  [path_verifies H root address leaf path] says that an
    authentication path hashes [leaf] at [address] to [root]; [path_connects rel]
    is the same for a hash relation instead of a function.  [path_siblings x path a]
    are the siblings that the path variable carries.  [pb0] is the protoboard before
    the gadget was constructed, [pb1] the one after, [pb] any later state in which the
    witness is generated, and [assigns m pb pb'] says that at most the variables in
    [m] changed. *)
From Coq Require Import NArith ZifyN.
From mathcomp Require Import all_ssreflect all_algebra zify.
From Verif Require Import Outcome Lincomb LincombSpec LincombFacts R1CS R1CSSpec R1CSFacts Fieldtac.
From Verif Require Import Protoboard GadgetSpec GadgetLogic BasicGadgets BasicGadgetsFacts BasicGadgetsMore BasicGadgetsCopy GadgetNew.
From Verif Require Import Sha256Spec Sha256Gadget Sha256Bits GadgetSeq Sha256Compress Sha256Hash GadgetPost.
From Verif Require Import MerkleSpec MerkleTree MerkleMore Prop_Merkle.
From Verif Require Import Prop_Gadgets Prop_Sha256 Knapsack MerkleGadget MerkleGadgetSpec MerkleSound KnapsackFacts MerkleHash MerkleComplete MerkleHashComplete SetGadget.
Set Implicit Arguments.
Unset Strict Implicit.
Unset Printing Implicit Defensive.
Local Open Scope ring_scope.
Import GRing.Theory.
Local Opaque allocate_array iota.
Delimit Scope N_scope with num.

Section Props.
Variable F : fieldType.
Variable R : bigint_repr F.
Implicit Types (x : seq F) (pb : protoboard F).
Local Notation SHA := (sha256_hash R).
Local Notation H2 := sha256_two_to_one.

Lemma sha_size z : size (H2 z) = 256%N.
Proof.
rewrite /sha256_two_to_one; have : size (sha256_compress H256 (words_of_bits 16 z)) = 8%N by exact: erefl.
move: (sha256_compress _ _) => ws h; have -> : 256%N = (size ws * 32)%N by rewrite h.
by elim: ws {h} => [|w ws IH] //=; rewrite size_cat IH size_map size_iota mulSn.
Qed.
Lemma capacity_gt0 : (0 < capacity R)%N.
Proof. by have := size_in_bits_gt1 R; rewrite /capacity; lia. Qed.

(** * C34: the read gadget *)

(** Soundness with SHA-256: if [read_successful] is not 0, the path variable, the
    address and the root consist of bits, and the constraints hold, then the path
    leads from the leaf at the address to the root. *)
Theorem C34_read_sound_sha256 pb0 depth (A : pb_linear_combination_array F) leaf root path rs g pb1 x :
  (2 ^ 35 <= fp_order R)%N -> pb_wf pb0 -> path_shape depth 256 path -> size leaf = 256%N -> size root = 256%N ->
  check_read_new R SHA pb0 depth A leaf root path rs = Ok (g, pb1) ->
  holds (path_variable_constraints F path) x -> lc_isbits x A -> var_isbits x root -> lval x rs <> 0 ->
  holds (check_read_constraints g) x ->
  var_isbits x leaf /\
  path_verifies H2 (var_bits x root) (bits_nat (lc_bits x A)) (var_bits x leaf) (path_siblings x path (lc_bits x A)).
Proof.
move=> hR hw hp hl hr e hpc hA hbr hrs hh.
have [h1 h2] := check_read_sound hw (sha_allocates hR) (sha_enforces hR) (sha_enforces_packed hR) hp hl hr e hpc hA hbr hrs hh.
by split=> //; apply/path_connects_graph.
Qed.

(** If moreover the root is that of a tree, the leaf is the one in the tree, or a
    collision of the hash is found between the path and the tree. *)
Theorem C34_read_tree_sha256 pb0 depth (A : pb_linear_combination_array F) leaf root path rs g pb1 x (leaves : nat -> seq bool) :
  (2 ^ 35 <= fp_order R)%N -> pb_wf pb0 -> path_shape depth 256 path -> size leaf = 256%N -> size root = 256%N ->
  check_read_new R SHA pb0 depth A leaf root path rs = Ok (g, pb1) ->
  holds (path_variable_constraints F path) x -> lc_isbits x A -> var_isbits x root -> lval x rs <> 0 ->
  holds (check_read_constraints g) x ->
  (forall a, size (leaves a) = 256%N) -> var_bits x root = merkle_root H2 leaves depth ->
  let address := bits_nat (lc_bits x A) in
  var_bits x leaf = leaves address \/
  collision_in H2 (path_blocks H2 address (var_bits x leaf) (path_siblings x path (lc_bits x A)))
    (node_blocks H2 leaves depth 0).
Proof.
move=> hR hw hp hl hr e hpc hA hbr hrs hh hls hroot address.
have [h1 h2] := C34_read_sound_sha256 hR hw hp hl hr e hpc hA hbr hrs hh.
have sA : size A = depth.
  move: e; rewrite /check_read_new => q0; have [_ q1] := oassert_Ok q0; have [/eqP q2 _] := oassert_Ok q1.
  by rewrite q2.
have lt : (address < 2 ^ depth)%N by have := bits_nat_lt (lc_bits x A); rewrite size_map sA.
have e0 : (address %/ 2 ^ depth)%N = 0%N by rewrite divn_small.
have ss : size (path_siblings x path (lc_bits x A)) = depth by rewrite size_map size_iota size_map.
have := @climb_update H2 256 depth address (var_bits x leaf) leaves (rev (path_siblings x path (lc_bits x A))) sha_size hls.
rewrite size_map e0 => /(_ hl) []; last by right.
- rewrite all_rev; apply/allP => s /mapP [i]; rewrite mem_iota size_map sA add0n => hi ->.
  have [s1 s2 s3 s4] := hp.
  case: ifP => _; rewrite size_map; [apply: (allP s3)|apply: (allP s4)]; apply: mem_nth; rewrite ?s1 ?s2 //.
- by rewrite size_rev.
- exact: etrans h2 hroot.
by case=> h _; left.
Qed.

(** The same with the knapsack hash with one row (the dimension the library
    uses), for which a digest of a block is any bits that pack to its subset sum:
    see C43. *)
Theorem C34_read_sound_knapsack rng cache pb0 depth (A : pb_linear_combination_array F) leaf root path rs g pb1 x :
  cache_ok rng cache -> (2 * size_in_bits R <= size cache)%N ->
  pb_wf pb0 -> path_shape depth (size_in_bits R) path -> size leaf = size_in_bits R -> size root = size_in_bits R ->
  check_read_new R (knapsack_hash R 1 rng cache) pb0 depth A leaf root path rs = Ok (g, pb1) ->
  holds (path_variable_constraints F path) x -> lc_isbits x A -> var_isbits x root -> lval x rs <> 0 ->
  holds (check_read_constraints g) x ->
  var_isbits x leaf /\
  path_connects (knapsack_rel R 1 rng) (var_bits x root) (bits_nat (lc_bits x A)) (var_bits x leaf)
    (path_siblings x path (lc_bits x A)).
Proof.
move=> hc hs hw hp hl hr e hpc hA hbr hrs hh.
have es : hg_digest_len (knapsack_hash R 1 rng cache) = size_in_bits R by rewrite /= /knapsack_digest_len mul1n.
have hs' : (1 * (2 * hg_digest_len (knapsack_hash R 1 rng cache)) <= size cache)%N by rewrite es mul1n.
apply: (check_read_sound hw (@knapsack_allocates F R 1 rng cache) (knapsack_enforces hc hs')
          (knapsack_enforces_packed hc erefl hs') _ _ _ e) => //; by rewrite es.
Qed.

(** Completeness, for both hashes: the gadget can be built whatever the depth, and
    the witness exists and satisfies all the constraints whenever the address, the
    leaf and the siblings on the path consist of bits.  With [read_successful = 1]
    the root that is written is the one that the path leads to.  Witness generation
    changes only the digests on the path, the root and the gadget's own variables. *)
Definition read_completes (HashT : hash_gadget F) (H : seq bool -> seq bool) : Prop :=
  let n := hg_digest_len HashT in
  (forall pb0 depth (A : pb_linear_combination_array F) leaf root path rs,
     pb_wf pb0 -> path_shape depth n path -> (0 < depth)%N -> size A = depth -> size leaf = n -> size root = n ->
     exists g pb1, check_read_new R HashT pb0 depth A leaf root path rs = Ok (g, pb1)) /\
  (forall slot pb0 depth (A : pb_linear_combination_array F) leaf root path rs g pb1 pb,
     pb_wf pb0 -> path_shape depth n path -> size leaf = n -> size root = n ->
     check_read_new R HashT pb0 depth A leaf root path rs = Ok (g, pb1) ->
     all (is_var pb0) (path_vars path ++ root) -> uniq (path_vars path ++ root) ->
     all (fun v => (v <= size (pb_values pb0))%N && (v \notin path_vars path ++ root)) leaf ->
     (forall l, List.In l (rs :: A) -> lc_proper slot (size (pb_values pb0)) (size (pb_lc_values pb0)) l /\
                                       avoids (path_vars path ++ root) (lc_terms l)) ->
     later pb1 pb -> (forall i, (size (pb_lc_values pb0) <= i < size (pb_lc_values pb1))%N ->
                        nth 0 (pb_lc_values pb) i = nth 0 (pb_lc_values pb1) i) ->
     let x := pb_values pb in let a := lc_bits x A in
     lc_isbits x A -> var_isbits x leaf -> (forall i, (i < depth)%N -> var_isbits x (path_sib path a i)) ->
     isbit (lval x rs) -> (lval x rs = 0 -> var_isbits x root) ->
     exists pb', let x' := pb_values pb' in
       [/\ check_read_witness g pb = Ok pb',
           assigns (flatten [seq path_side path a i | i <- iota 0 depth] ++ root ++ fresh_vars pb0 pb1) pb pb',
           holds (path_variable_constraints F path ++ check_read_constraints g) x',
           lval x rs <> 1 -> map (xval x') root = map (xval x) root &
           lval x rs = 1 -> var_isbits x' root /\
             path_verifies H (var_bits x' root) (bits_nat a) (var_bits x leaf) (path_siblings x path a)]).
Lemma read_completesP HashT H sl : hash_completes HashT (2 * hg_digest_len HashT) H sl -> read_completes HashT H.
Proof.
move=> hH; split; first by move=> *; apply: (read_build hH capacity_gt0).
move=> slot pb0 depth A leaf root path rs g pb1 pb hw hp h1 h2 e h3 h4 h5 h6 h7 h8 x a h9 h10 h11 h12 h13.
have [pb' [k1 k2 k3 k4 k5]] := check_read_run hH capacity_gt0 hw hp h1 h2 e h3 h4 h5 h6 h7 h8 h9 h10 h11 h12 h13.
by exists pb'; split=> // /k5 [k6 k7]; split=> //; apply/path_connects_graph.
Qed.
Theorem C34_read_complete_sha256 : (2 ^ 35 <= fp_order R)%N -> read_completes SHA H2.
Proof. by move=> hR; apply: read_completesP (sha_completes hR). Qed.
Theorem C34_read_complete_knapsack dimension rng cache : cache_ok rng cache ->
  (dimension * (2 * (dimension * size_in_bits R)) <= size cache)%N ->
  read_completes (knapsack_hash R dimension rng cache) (knapsack_digest R dimension rng).
Proof.
move=> hc hs; apply: (@read_completesP (knapsack_hash R dimension rng cache) _ (knapsack_slot R)).
exact: (@knapsack_completes F R dimension rng cache hc (2 * (dimension * size_in_bits R)) hs).
Qed.

(** * C35: the update gadget *)
Theorem C35_update_sound_sha256 pb0 depth (A : pb_variable_array) pleaf proot ppath nleaf nroot npath us g pb1 x :
  (2 ^ 35 <= fp_order R)%N -> pb_wf pb0 -> path_shape depth 256 ppath -> path_shape depth 256 npath ->
  size pleaf = 256%N -> size proot = 256%N -> size nleaf = 256%N -> size nroot = 256%N ->
  check_update_new R SHA pb0 depth A pleaf proot ppath nleaf nroot npath us = Ok (g, pb1) ->
  holds (path_variable_constraints F ppath) x -> var_isbits x A -> var_isbits x proot ->
  var_isbits x nleaf -> var_isbits x nroot -> lval x us <> 0 ->
  holds (check_update_constraints g) x ->
  let address := bits_nat (var_bits x A) in let siblings := path_siblings x ppath (var_bits x A) in
  [/\ var_isbits x pleaf, path_verifies H2 (var_bits x proot) address (var_bits x pleaf) siblings &
      path_verifies H2 (var_bits x nroot) address (var_bits x nleaf) siblings].
Proof.
move=> hR hw hpp hpn h1 h2 h3 h4 e hpc hA hbp hbn hbr hus hh address siblings.
have [k1 k2 k3] := check_update_sound hw (sha_allocates hR) (sha_enforces hR) hpp hpn h1 h2 h3 h4 e hpc hA hbp hh.
by split=> //; apply/path_connects_graph => //; apply: k3.
Qed.

(** So if the previous root is that of a tree, then the previous leaf is the one in
    the tree and the next root is that of the tree with just this leaf replaced, or a
    collision of the hash is found between the path and the tree. *)
Theorem C35_update_tree_sha256 pb0 depth (A : pb_variable_array) pleaf proot ppath nleaf nroot npath us g pb1 x
    (leaves : nat -> seq bool) :
  (2 ^ 35 <= fp_order R)%N -> pb_wf pb0 -> path_shape depth 256 ppath -> path_shape depth 256 npath ->
  size pleaf = 256%N -> size proot = 256%N -> size nleaf = 256%N -> size nroot = 256%N ->
  check_update_new R SHA pb0 depth A pleaf proot ppath nleaf nroot npath us = Ok (g, pb1) ->
  holds (path_variable_constraints F ppath) x -> var_isbits x A -> var_isbits x proot ->
  var_isbits x nleaf -> var_isbits x nroot -> lval x us <> 0 ->
  holds (check_update_constraints g) x ->
  (forall a, size (leaves a) = 256%N) -> var_bits x proot = merkle_root H2 leaves depth ->
  let address := bits_nat (var_bits x A) in
  (var_bits x pleaf = leaves address /\
   var_bits x nroot = merkle_root H2 (fun a => if a == address then var_bits x nleaf else leaves a) depth) \/
  collision_in H2 (path_blocks H2 address (var_bits x pleaf) (path_siblings x ppath (var_bits x A)))
    (node_blocks H2 leaves depth 0).
Proof.
move=> hR hw hpp hpn h1 h2 h3 h4 e hpc hA hbp hbn hbr hus hh hls hroot address.
have [k1 k2 k3] := C35_update_sound_sha256 hR hw hpp hpn h1 h2 h3 h4 e hpc hA hbp hbn hbr hus hh.
have sA : size A = depth.
  move: e; rewrite /check_update_new => q0; have [_ q1] := oassert_Ok q0; have [/eqP q2 _] := oassert_Ok q1.
  by rewrite q2.
have lt : (address < 2 ^ depth)%N by have := bits_nat_lt (var_bits x A); rewrite size_map sA.
have e0 : (address %/ 2 ^ depth)%N = 0%N by rewrite divn_small.
have ss : size (path_siblings x ppath (var_bits x A)) = depth by rewrite size_map size_iota size_map.
have := @climb_update H2 256 depth address (var_bits x pleaf) leaves (rev (path_siblings x ppath (var_bits x A))) sha_size hls.
rewrite size_map e0 => /(_ h1) []; last by right.
- rewrite all_rev; apply/allP => s /mapP [i]; rewrite mem_iota size_map sA add0n => hi ->.
  have [s1 s2 s3 s4] := hpp.
  case: ifP => _; rewrite size_map; [apply: (allP s3)|apply: (allP s4)]; apply: mem_nth; rewrite ?s1 ?s2 //.
- by rewrite size_rev.
- exact: etrans k2 hroot.
by case=> h h'; left; split=> //; exact: etrans (esym k3) (h' _).
Qed.

(** With the knapsack hash, of any dimension. *)
Theorem C35_update_sound_knapsack dimension rng cache pb0 depth (A : pb_variable_array) pleaf proot ppath nleaf nroot npath us g pb1 x :
  let n := (dimension * size_in_bits R)%N in
  cache_ok rng cache -> (dimension * (2 * n) <= size cache)%N ->
  pb_wf pb0 -> path_shape depth n ppath -> path_shape depth n npath ->
  size pleaf = n -> size proot = n -> size nleaf = n -> size nroot = n ->
  check_update_new R (knapsack_hash R dimension rng cache) pb0 depth A pleaf proot ppath nleaf nroot npath us = Ok (g, pb1) ->
  holds (path_variable_constraints F ppath) x -> var_isbits x A -> var_isbits x proot ->
  var_isbits x nleaf -> var_isbits x nroot -> lval x us <> 0 ->
  holds (check_update_constraints g) x ->
  let address := bits_nat (var_bits x A) in let siblings := path_siblings x ppath (var_bits x A) in
  [/\ var_isbits x pleaf, path_connects (knapsack_rel R dimension rng) (var_bits x proot) address (var_bits x pleaf) siblings &
      path_connects (knapsack_rel R dimension rng) (var_bits x nroot) address (var_bits x nleaf) siblings].
Proof.
move=> n hc hs hw hpp hpn h1 h2 h3 h4 e hpc hA hbp hbn hbr hus hh address siblings.
have [k1 k2 k3] := check_update_sound hw (@knapsack_allocates F R dimension rng cache) (knapsack_enforces hc hs) hpp hpn h1 h2 h3 h4 e hpc hA hbp hh.
by split=> //; apply: k3.
Qed.

(** * C43: the knapsack hash *)
Section Knapsack.
Variables (dimension : nat) (rng : nat -> F).

(** The static vector of coefficients, after any sequence of requests, holds the
    first coefficients of the generator, as many as were ever needed: it does not
    depend on the order of the requests. *)
Theorem C43_cache_history (lens : seq nat) :
  let cache := foldl (sample_randomness dimension rng) [::] lens in
  cache = [seq rng i | i <- iota 0 (\max_(len <- lens) (dimension * len))].
Proof.
move=> cache; have [h1 h2] : cache_ok rng cache /\ size cache = (\max_(len <- lens) (dimension * len))%N.
  rewrite /cache; elim/last_ind: lens {cache} => [|lens l [IH1 IH2]]; first by rewrite big_nil; split.
  by rewrite -cats1 foldl_cat /= big_cat big_seq1 /= -IH2; split; [apply: sample_ok|rewrite sample_size].
apply: (@eq_from_nth _ 0) => [|i hi]; first by rewrite h2 size_map size_iota.
by rewrite h1 // (nth_map 0%N) ?size_iota -?h2 // nth_iota // -h2.
Qed.

(** The field-output gadget: for boolean inputs the constraints say exactly that
    the outputs are the subset sums.  [cache] is any state of the static vector at
    or after construction. *)
Theorem C43_field_iff cache0 len block output g cache1 cache x :
  knapsack_field_new dimension rng cache0 len block output = Ok (g, cache1) ->
  cache_ok rng cache -> (dimension * len <= size cache)%N -> var_isbits x block ->
  holds (knapsack_field_constraints dimension cache g) x <->
  map (lval x) output = [seq subset_sum rng (var_bits x block) i | i <- iota 0 dimension].
Proof.
move=> e hc hs hb; have [eg hl ho _] := knapsack_field_newE e.
have := @knapsack_fieldE F dimension rng cache g x; rewrite eg /= => -> //; split=> h.
  apply: (@eq_from_nth _ 0); rewrite ?size_map ?size_iota ?ho // => i hi.
  by rewrite (nth_map (plc_of_var F 0%N)) ?ho // (nth_map 0%N) ?size_iota // nth_iota // h.
move=> i hi; have := congr1 (fun s => nth 0 s i) h.
by rewrite (nth_map (plc_of_var F 0%N)) ?ho // (nth_map 0%N) ?size_iota // nth_iota.
Qed.
(** Witness generation into output variables. *)
Theorem C43_field_complete cache0 len block out g cache1 cache pb :
  knapsack_field_new dimension rng cache0 len block (plcs_of_vars F out) = Ok (g, cache1) ->
  cache_ok rng cache -> (dimension * len <= size cache)%N ->
  pb_wf pb -> uniq out -> all (is_var pb) out ->
  all (fun v => [&& (v <= size (pb_values pb))%N, v \notin out & isbit (xval (pb_values pb) v)]) block ->
  exists pb', [/\ knapsack_field_witness dimension cache g pb = Ok pb', assigns out pb pb',
    map (xval (pb_values pb')) out = [seq subset_sum rng (var_bits (pb_values pb) block) i | i <- iota 0 dimension] &
    holds (knapsack_field_constraints dimension cache g) (pb_values pb')].
Proof.
move=> e hc hs hw hu ha hb; have [eg hl ho _] := knapsack_field_newE e; rewrite size_map in ho.
set x := pb_values pb; set bs := var_bits x block.
have sb : size bs = len by rewrite size_map.
pose vxs := zip out [seq subset_sum rng bs i | i <- iota 0 dimension].
have hz : map fst vxs = out by rewrite /vxs fst_zip // size_map size_iota ho.
have [|x' [h1 h2 h3]] := @set_all_ok F pb x (pb_lc_values pb) vxs; first by rewrite hz; split.
rewrite hz in h2; rewrite (board_of hw) in h1.
exists (upd pb x' (pb_lc_values pb)).
have eo : map (xval x') out = [seq subset_sum rng bs i | i <- iota 0 dimension].
  apply: (@eq_from_nth _ 0) => [|i]; rewrite size_map ?size_map ?size_iota // ho => hi.
  rewrite (nth_map 0%N) ?ho //; apply: h3; apply: In_zip_nth; rewrite ?size_map ?size_iota ?ho //.
have hbits : get_bits pb block = Ok bs.
  by apply: get_bits_ok => //; apply: sub_all hb => v /and3P [-> _ ->].
have hb' v : v \in block -> xval x' v = xval x v.
  by case: h2 => _ h2 hv; apply: h2; have /and3P [] := allP hb v hv.
have vb' : var_bits x' block = bs by apply/eq_in_map => v /hb' ->.
split=> //.
- rewrite eg /knapsack_field_witness /= hbits /= -h1 /set_all /vxs.
  have E m o : (m + size o = dimension)%N -> drop m out = o -> forall q,
    ofold (fun pb i => let! l := oget (plcs_of_vars F out) i in pb_lc_set pb l (knapsack_sum cache len i bs)) q (iota m (size o)) =
    ofold (fun pb vx => pb_set pb vx.1 vx.2) q (zip o [seq subset_sum rng bs i | i <- iota m (size o)]).
    elim: o m => [|v o IH] m hm hd q //=.
    have -> : iota m (size o).+1 = m :: iota m.+1 (size o) by [].
    rewrite /=.
    have hm' : (m < dimension)%N by rewrite -hm /=; lia.
    rewrite (oget_nth (plc_of_var F 0%N)) ?size_map ?ho // (nth_map 0%N) ?ho // [obind (Ok _) _]/=.
    have -> : nth 0%N out m = v by rewrite -[m]addn0 -nth_drop hd.
    rewrite (@knapsack_sumE F dimension rng) // /pb_lc_set /=; case: (pb_set q v _) => //= q'.
    by apply: IH; [rewrite -hm /=; lia|rewrite -add1n -drop_drop hd /= drop0].
  by have := E 0%N out; rewrite ho add0n => /(_ erefl (drop0 _) pb).
- by apply: (@assigns_upd _ (fun=> [::])) => //; apply: wstep_changes.
apply/(C43_field_iff e hc hs).
  by apply/allP => v hv; rewrite hb' //; have /and3P [] := allP hb v hv.
by rewrite vb' -eo -map_comp; apply: eq_map => v /=; rewrite lval_var.
Qed.

(** The bit-output gadget: for boolean inputs the constraints say exactly that the
    digest consists of bits (if asked for) and packs to the subset sums, in slices of
    [size_in_bits] bits. *)
Theorem C43_bit_iff cache0 cache pb0 len block digest g pb1 cache1 x :
  pb_wf pb0 -> knapsack_bit_new R dimension rng cache0 pb0 len block digest = Ok (g, pb1, cache1) ->
  cache_ok rng cache -> (dimension * len <= size cache)%N -> var_isbits x block ->
  holds (knapsack_bit_constraints dimension cache g true) x <->
  var_isbits x digest /\ knapsack_rel R dimension rng (var_bits x block) (var_bits x digest).
Proof.
move=> hw e hc hs hb; have [_ hl hd h3 _] := knapsack_bit_newE hw e.
have e' : knapsack_bit_new R dimension rng cache pb0 len block digest = Ok (g, pb1, cache).
  move: e; rewrite /knapsack_bit_new /knapsack_field_new; case: eqP => //= _; case: (new_all _ _ _) => //= r.
  rewrite hl eqxx /=; case: eqP => //= _ [-> -> _]; congr (Ok (_, _, _)).
  by rewrite ltnNge hs.
have hx := knapsack_bitE true hw hc e' (leqnn _) hb.
split.
  move=> /(iffLR hx) [h1 /(_ isT) h2]; split=> //; split; first by rewrite size_map.
  by move=> i hi; rewrite -h1 // pack_var_bits ?nslice_isbits // /var_bits nslice_map.
move=> [h1 [h2 h4]]; apply: (iffRL hx); split=> // i hi.
by rewrite -h4 // pack_var_bits ?nslice_isbits // /var_bits nslice_map.
Qed.

Lemma bit_new_cache cache0 cache pb0 len block digest g pb1 cache1 : pb_wf pb0 ->
  knapsack_bit_new R dimension rng cache0 pb0 len block digest = Ok (g, pb1, cache1) ->
  (dimension * len <= size cache)%N ->
  knapsack_bit_new R dimension rng cache pb0 len block digest = Ok (g, pb1, cache).
Proof.
move=> hw e hs; have [_ hl hd h3 _] := knapsack_bit_newE hw e.
move: e; rewrite /knapsack_bit_new /knapsack_field_new; case: eqP => //= _; case: (new_all _ _ _) => //= r.
rewrite hl eqxx /=; case: eqP => //= _ [-> -> _]; congr (Ok (_, _, _)).
by rewrite ltnNge hs.
Qed.
(** Witness generation satisfies the constraints with the digest [knapsack_digest]
    (the bits of the representatives of the subset sums), ... *)
Theorem C43_bit_complete cache0 cache pb0 len block digest g pb1 cache1 pb :
  pb_wf pb0 -> knapsack_bit_new R dimension rng cache0 pb0 len block digest = Ok (g, pb1, cache1) ->
  cache_ok rng cache -> (dimension * len <= size cache)%N -> later pb1 pb ->
  uniq digest -> all (is_var pb0) digest ->
  all (fun v => [&& (v <= size (pb_values pb0))%N, v \notin digest & isbit (xval (pb_values pb) v)]) block ->
  exists pb', [/\ knapsack_bit_witness R dimension cache g pb = Ok pb', assigns digest pb pb',
    var_bits (pb_values pb') digest = knapsack_digest R dimension rng (var_bits (pb_values pb) block),
    holds (knapsack_bit_constraints dimension cache g true) (pb_values pb') &
    N.of_nat (size (knapsack_bit_constraints dimension cache g true)) = knapsack_bit_expected_constraints R dimension true].
Proof.
move=> hw e hc hs [hwp h1 h2] hu ha hb; have [eg hl hd h3 [h4 h5 h6]] := knapsack_bit_newE hw e.
have e' := bit_new_cache hw e hs.
pose KH := knapsack_hash R dimension rng cache.
have en : hg_new KH pb0 len block digest = Ok (g, pb1) by rewrite /= e'.
have [_ _ k3 _ k5 k6] := knapsack_completes R hc hs.
pose slot := knapsack_slot R pb0 digest.
have hb' : all (fun v => (v <= size (pb_values pb0))%N && (v \notin digest)) block.
  by apply: sub_all hb => v /and3P [-> ->].
have ef : fresh_vars pb0 pb1 = [::] by rewrite /fresh_vars h5 subnn.
have Q := @k6 pb0 block digest g pb1 slot _ _ hw hl hd en h1 h2 (fun i _ => erefl) hb' hu ha.
rewrite ef cats0 in Q.
have hbits : var_isbits (pb_values pb) block by apply: sub_all hb => v /and3P [].
have hpre : var_isbits (pb_values pb) block /\
    ready slot (size (pb_lc_values pb0)) (size (pb_lc_values pb1)) (pb_lc_values pb).
  split=> // i hi hwi; have hi' : (i - size (pb_lc_values pb0) < dimension)%N by move: hi; rewrite h6; clear; lia.
  have d0 : all (fun v => 0 < v)%N digest by apply: sub_all ha => v /andP [].
  by have [v _ /(_ _ hwi)] := knapsack_slots_within hd hi' d0.
have [pb' [q1 q2 q3 [q4 _ q5]]] := gq_run hwp erefl erefl Q hpre.
exists pb'; split=> //; last exact: (k3 pb0 block digest g pb1 true hw hl hd en).
rewrite q5; congr (knapsack_digest R dimension rng _); apply/eq_in_map => v hv.
have /andP [_ hv'] := allP hb' _ hv; have [_ _ _ [_ hx]] := q2.
by rewrite hx.
Qed.

(** ... which is what [get_hash] computes, whatever the length of the input and
    the state of the cache of coefficients. *)
Theorem C43_get_hash cache input : cache_ok rng cache ->
  (knapsack_bit_get_hash R dimension rng cache input).1 = knapsack_digest R dimension rng input.
Proof.
move=> hc; rewrite /knapsack_bit_get_hash /knapsack_field_get_hash /knapsack_digest [LHS]/= -map_comp.
congr flatten; apply/eq_in_map => i; rewrite mem_iota add0n => hi; rewrite [LHS]/=; congr field_element_bits.
have he := @extended_ok F dimension rng cache (size input) hc.
apply: (@knapsack_sumE F dimension rng) => //; have := @extended_size F dimension rng cache (size input).
by rewrite /extended => ->; rewrite leq_maxr.
Qed.

(** The digest is NOT determined by the block and the constraints: a slice of the
    digest is any [size_in_bits] bits that pack to the subset sum, and the order of
    the field itself has that many bits.  So a block whose sums are 0 has (at least)
    two digests that satisfy the constraints. *)
Theorem C43_digest_unique_refuted block : (0 < dimension)%N ->
  (forall i, (i < dimension)%N -> subset_sum rng block i = 0) ->
  exists d1 d2, [/\ knapsack_rel R dimension rng block d1, knapsack_rel R dimension rng block d2,
    d1 = knapsack_digest R dimension rng block & d1 <> d2].
Proof.
move=> hd h0; have hp : (fp_order R < 2 ^ size_in_bits R)%N by rewrite -num_bits_le.
pose sl i := if i == 0%N then [seq test_bit (fp_order R) j | j <- iota 0 (size_in_bits R)]
             else field_element_bits R (subset_sum rng block i).
have ssl i : size (sl i) = size_in_bits R by rewrite /sl; case: ifP => _; rewrite size_map size_iota.
have sfl (f : nat -> seq bool) : (forall i, size (f i) = size_in_bits R) ->
    size (flatten [seq f i | i <- iota 0 dimension]) = (dimension * size_in_bits R)%N.
  move=> hf; have hh : forall s, size (flatten [seq f i | i <- s]) = (size s * size_in_bits R)%N.
    by elim=> [|a s IH] /=; rewrite ?size_cat ?IH ?hf ?mulSn.
  by rewrite hh size_iota.
exists (knapsack_digest R dimension rng block), (flatten [seq sl i | i <- iota 0 dimension]); split=> //.
- split; first by apply: sfl => i; apply: size_field_bits.
  by move=> i hi; rewrite nslice_flatten ?field_bits_nat // => j; apply: size_field_bits.
- split; first exact: sfl.
  move=> i hi; rewrite nslice_flatten // /sl; case: eqP => [->|_]; last exact: field_bits_nat.
  by rewrite bits_nat_test_bit modn_small // fp_order0 h0.
move=> /(congr1 (fun s => bits_nat (nslice s (size_in_bits R) 0))).
rewrite /knapsack_digest !nslice_flatten //; last by move=> j; apply: size_field_bits.
rewrite /sl eqxx /field_element_bits !bits_nat_test_bit !modn_small //; last exact: ltn_trans (as_bigint_lt R _) hp.
by have := as_bigint_lt R (subset_sum rng block 0); move=> + e; rewrite e ltnn.
Qed.
End Knapsack.

(** * C48: the set-commitment gadget *)

(** Soundness with SHA-256, whatever the capacity of the set: the hash of the
    element is at the address given by the proof, in the tree with the given root.  (A
    set for one element has a tree of depth 0: the root is the hash, whether or not
    [check_successful] is set.) *)
Theorem C48_sound_sha256 pb0 max_entries element root proof cs g pb1 x :
  (2 ^ 35 <= fp_order R)%N -> pb_wf pb0 -> size element = 512%N ->
  path_shape (log2 max_entries) 256 (sp_path proof) -> size (sp_address_bits proof) = log2 max_entries -> size root = 256%N ->
  set_gadget_new R SHA pb0 max_entries element root proof cs = Ok (g, pb1) ->
  holds (proof_variable_constraints F proof) x -> var_isbits x element -> var_isbits x root ->
  ((0 < log2 max_entries)%N -> lval x cs <> 0) -> holds (set_gadget_constraints g) x ->
  let a := var_bits x (sp_address_bits proof) in
  path_verifies H2 (var_bits x root) (bits_nat a) (H2 (var_bits x element)) (path_siblings x (sp_path proof) a).
Proof.
move=> hR hw se hp sA sr e hpc be br hcs hh a.
have hE : hash_enforces SHA (size element) (graph H2) by rewrite se; exact: sha_enforces.
have [d hd h] := set_sound hw (sha_allocates hR) hE (sha_enforces hR) (sha_enforces_packed hR) hp sA sr e hpc be br hcs hh.
by apply/path_connects_graph; rewrite -[H2 _]hd.
Qed.

(** With the knapsack hash with one row, the same holds for some digest of the
    element (see C43 on digests not being unique). *)
Theorem C48_sound_knapsack rng cache pb0 max_entries element root proof cs g pb1 x :
  let n := size_in_bits R in
  cache_ok rng cache -> (2 * n <= size cache)%N -> (size element <= size cache)%N ->
  pb_wf pb0 -> path_shape (log2 max_entries) n (sp_path proof) -> size (sp_address_bits proof) = log2 max_entries -> size root = n ->
  set_gadget_new R (knapsack_hash R 1 rng cache) pb0 max_entries element root proof cs = Ok (g, pb1) ->
  holds (proof_variable_constraints F proof) x -> var_isbits x element -> var_isbits x root ->
  ((0 < log2 max_entries)%N -> lval x cs <> 0) -> holds (set_gadget_constraints g) x ->
  let a := var_bits x (sp_address_bits proof) in
  exists2 d, knapsack_rel R 1 rng (var_bits x element) d &
    path_connects (knapsack_rel R 1 rng) (var_bits x root) (bits_nat a) d (path_siblings x (sp_path proof) a).
Proof.
move=> n hc hs hs2 hw hp sA sr e hpc be br hcs hh a.
have es : hg_digest_len (knapsack_hash R 1 rng cache) = n by rewrite /= /knapsack_digest_len mul1n.
have hs' : (1 * (2 * hg_digest_len (knapsack_hash R 1 rng cache)) <= size cache)%N by rewrite es mul1n.
have hs'' : (1 * size element <= size cache)%N by rewrite mul1n.
by apply: (set_sound hw (@knapsack_allocates F R 1 rng cache) (knapsack_enforces hc hs'') (knapsack_enforces hc hs')
          (knapsack_enforces_packed hc erefl hs') _ sA _ e hpc be br hcs hh); rewrite es.
Qed.

(** Completeness: a membership proof that verifies (as those that the accumulator
    hands out do, see C24) satisfies the gadget, with the root that it verifies
    against. *)
Definition set_completes (HashT : hash_gadget F) (len : nat) (H : seq bool -> seq bool) : Prop :=
  let n := hg_digest_len HashT in
  forall slot pb0 max_entries element root proof cs g pb1 pb address path rt,
  let D := log2 max_entries in let x := pb_values pb in
  let vs := sp_address_bits proof ++ path_vars (sp_path proof) ++ root in
  pb_wf pb0 -> (D <= 64)%N -> size element = len ->
  path_shape D n (sp_path proof) -> size (sp_address_bits proof) = D -> size root = n ->
  set_gadget_new R HashT pb0 max_entries element root proof cs = Ok (g, pb1) ->
  all (is_var pb0) vs -> uniq vs -> all (fun v => (v <= size (pb_values pb0))%N && (v \notin vs)) element ->
  lc_proper slot (size (pb_values pb0)) (size (pb_lc_values pb0)) cs -> avoids vs (lc_terms cs) ->
  later pb1 pb -> (forall i, (size (pb_lc_values pb0) <= i < size (pb_lc_values pb1))%N ->
                     nth 0 (pb_lc_values pb) i = nth 0 (pb_lc_values pb1) i) ->
  var_isbits x element -> lval x cs = 1 ->
  (address < 2 ^ D)%N -> (address < fp_order R)%N -> size path = D -> all (fun d => size d == n) path ->
  path_verifies H rt address (H (var_bits x element)) path ->
  exists pbp pb', let x' := pb_values pb' in
    [/\ proof_variable_witness R proof (address, path) pb = Ok pbp, set_gadget_witness g pbp = Ok pb',
        assigns (vs ++ fresh_vars pb0 pb1) pb pb',
        holds (proof_variable_constraints F proof ++ set_gadget_constraints g) x' &
        [/\ var_isbits x' root, var_bits x' root = rt & bits_nat (var_bits x' (sp_address_bits proof)) = address]].
Theorem C48_complete_sha256 : (2 ^ 35 <= fp_order R)%N -> set_completes SHA 512 H2.
Proof.
move=> hR slot pb0 me el root proof cs g pb1 pb address path rt.
exact: (set_complete (sha_completes hR) (sha_completes hR) capacity_gt0).
Qed.
Theorem C48_complete_knapsack dimension rng cache len : cache_ok rng cache ->
  (dimension * (2 * (dimension * size_in_bits R)) <= size cache)%N -> (dimension * len <= size cache)%N ->
  set_completes (knapsack_hash R dimension rng cache) len (knapsack_digest R dimension rng).
Proof.
move=> hc hs hs' slot pb0 me el root proof cs g pb1 pb address path rt.
exact: (set_complete (@knapsack_completes F R dimension rng cache hc _ hs) (@knapsack_completes F R dimension rng cache hc _ hs') capacity_gt0).
Qed.

(** In particular for the proofs of the accumulator: every element that was added
    to a set (not beyond its capacity) satisfies the gadget with the commitment as root. *)
Theorem C48_accumulator_sha256 max_entries added v slot pb0 element root proof cs g pb1 pb :
  let D := log2 max_entries in let x := pb_values pb in
  let vs := sp_address_bits proof ++ path_vars (sp_path proof) ++ root in
  (2 ^ 35 <= fp_order R)%N -> (D < 64)%N -> (2 ^ D <= fp_order R)%N -> all (fun w => size w == 512%N) added ->
  (size (undup (map H2 added)) <= 2 ^ D)%N -> v \in added ->
  pb_wf pb0 -> size element = 512%N ->
  path_shape D 256 (sp_path proof) -> size (sp_address_bits proof) = D -> size root = 256%N ->
  set_gadget_new R SHA pb0 max_entries element root proof cs = Ok (g, pb1) ->
  all (is_var pb0) vs -> uniq vs -> all (fun v => (v <= size (pb_values pb0))%N && (v \notin vs)) element ->
  lc_proper slot (size (pb_values pb0)) (size (pb_lc_values pb0)) cs -> avoids vs (lc_terms cs) ->
  later pb1 pb -> (forall i, (size (pb_lc_values pb0) <= i < size (pb_lc_values pb1))%N ->
                     nth 0 (pb_lc_values pb) i = nth 0 (pb_lc_values pb1) i) ->
  var_isbits x element -> var_bits x element = v -> lval x cs = 1 ->
  exists s commitment membership pbp pb', let x' := pb_values pb' in
    [/\ set_after H2 256 max_entries 512 added = Ok s, sc_get_commitment s = Ok commitment &
        sc_get_membership_proof H2 s v = Ok membership] /\
    [/\ proof_variable_witness R proof membership pb = Ok pbp, set_gadget_witness g pbp = Ok pb',
        holds (proof_variable_constraints F proof ++ set_gadget_constraints g) x',
        var_isbits x' root & var_bits x' root = commitment].
Proof.
move=> D x vs hR hD hD2 hadd hcap hv hw sel hp sA sr e h1 h2 h3 h4 h5 h6 h7 h8 hv' h9.
have hadd' : all (fun w => (512 == 0)%N || (size w == 512%N)) added by exact: hadd.
have [s [cm [k1 k2 _ k3 _]]] := C24_set_commitment (fun z => sha_size z) hD hadd' hcap.
have [|pos [path [m1 m2 m3 m4 m5]]] := k3 v; first exact: map_f.
have [||pbp [pb' [p1 p2 _ p3 [p4 p5 _]]]] := @C48_complete_sha256 hR slot pb0 max_entries element root proof cs g pb1 pb pos path cm
  hw (ltnW hD) sel hp sA sr e h1 h2 h3 h4 h5 h6 h7 h8 h9 m2 _ m3 m4.
- exact: leq_trans m2 hD2.
- by rewrite hv'.
by exists s, cm, (pos, path), pbp, pb'.
Qed.
End Props.

(** * Concrete cases *)
Section Sat.
Variable F : fieldType.
(** Running the satisfaction check of the constraint system. *)
Definition sat (cs : seq (r1cs_constraint F)) (x : seq F) : bool :=
  if check_constraints cs x is Ok b then b else false.
Lemma satP cs x : all (constraint_in_range (size x)) cs -> sat cs x -> holds cs x.
Proof.
move=> h; rewrite /sat check_constraintsE // => /all_InP hh c hc; apply/eqP; exact: (hh c hc).
Qed.
End Sat.

Definition F11 : fieldType := [fieldType of 'F_11].
Definition pb11 (n : nat) : protoboard F11 := (allocate_array (pb_new F11) n).2.
Definition rng11 (i : nat) : F11 := (i.+1)%:R.
Definition cache11 (n : nat) : seq F11 := [seq rng11 i | i <- iota 0 n].
Definition K2 := knapsack_hash repr11 2 rng11 (cache11 32).
Definition path2 := PathVariable [:: iota 2 8] [:: iota 10 8].
Definition x2 : seq F11 :=
  nseq 25 0 ++ [:: 0; 1; 1; 0; 1; 0; 0; 0] ++ [:: 0; 1; 1; 2%:R; 0; 0; 0; 0] ++ [:: 6%:R; 2%:R; 0] ++ [:: 6%:R; 2%:R; 0].
(** With two rows or more, soundness of the read gadget fails: the digest that
    the last hash outputs is not constrained to consist of bits, and the packed
    comparison with the root (in chunks of [capacity] bits, not aligned with the rows)
    does not make up for it. *)
Theorem C34_read_knapsack_refuted : exists (A : pb_linear_combination_array F11) leaf root path rs g pb0 pb1 x,
  let n := (2 * size_in_bits repr11)%N in
  [/\ cache_ok rng11 (cache11 32), (2 * (2 * n) <= size (cache11 32))%N, pb_wf pb0 &
      [/\ path_shape 1 n path, size leaf = n, size root = n & check_read_new repr11 K2 pb0 1 A leaf root path rs = Ok (g, pb1)]] /\
  [/\ size x = size (pb_values pb1), holds (path_variable_constraints F11 path) x, lc_isbits x A & var_isbits x root] /\
  [/\ var_isbits x leaf, lval x rs = 1, holds (check_read_constraints g) x &
      ~ path_connects (knapsack_rel repr11 2 rng11) (var_bits x root) (bits_nat (lc_bits x A)) (var_bits x leaf)
          (path_siblings x path (lc_bits x A))].
Proof.
pose A := plcs_of_vars F11 [:: 1%N].
exists A, (iota 18 8), (iota 26 8), path2, (plc_of_var F11 0%N).
have f1 : cache_ok rng11 (cache11 32).
  by move=> i; rewrite size_map size_iota => hi; rewrite (nth_map 0%N) ?size_iota // nth_iota.
have f2 : (2 * (2 * (2 * size_in_bits repr11)) <= size (cache11 32))%N by vm_compute.
have f3 : pb_wf (pb11 33) by split; vm_compute.
have f4 : path_shape 1 (2 * size_in_bits repr11) path2 by split; vm_compute.
have f5 : size (iota 18 8) = (2 * size_in_bits repr11)%N by vm_compute.
have f6 : size (iota 26 8) = (2 * size_in_bits repr11)%N by vm_compute.
have f7 : holds (path_variable_constraints F11 path2) x2 by apply: satP; vm_compute.
have f8 : lc_isbits x2 A by rewrite plcs_isbits; vm_compute.
have f9 : var_isbits x2 (iota 26 8) by vm_compute.
have f10 : var_isbits x2 (iota 18 8) by vm_compute.
have f11 : lval x2 (plc_of_var F11 0%N) = 1 by rewrite lval_var.
have f12 : ~ path_connects (knapsack_rel repr11 2 rng11) (var_bits x2 (iota 26 8)) (bits_nat (lc_bits x2 A)) (var_bits x2 (iota 18 8))
          (path_siblings x2 path2 (lc_bits x2 A)).
  have -> : var_bits x2 (iota 26 8) = [:: false; true; true; false; true; false; false; false] by vm_compute.
  rewrite plcs_bits; have -> : var_bits x2 [:: 1%N] = [:: false] by vm_compute.
  have -> : var_bits x2 (iota 18 8) = nseq 8 false by vm_compute.
  have -> : path_siblings x2 path2 [:: false] = [:: nseq 8 false] by vm_compute.
  case=> parent [_ hrel] e; rewrite -{}e in hrel; have {hrel} := hrel 0%N isT.
  rewrite /subset_sum big1; last first.
    by move=> [j hj]; change (nth false (nseq 16 false) j -> rng11 (16 * 0 + j) = 0); rewrite nth_nseq; case: ifP.
  by move/eqP; vm_compute.
have : (if check_read_new repr11 K2 (pb11 33) 1 A (iota 18 8) (iota 26 8) path2 (plc_of_var F11 0%N) is Ok gp
   then [&& size x2 == size (pb_values gp.2), all (constraint_in_range (size x2)) (check_read_constraints gp.1)
         & sat (check_read_constraints gp.1) x2] else false) by vm_compute.
case e: (check_read_new _ _ _ _ _ _ _ _ _) => [[g pb1]| |]; [|discriminate|discriminate].
case/and3P => /eqP h1 h2 h3; have h4 := satP h2 h3.
exists g, (pb11 33), pb1, x2; exact: (conj (And4 f1 f2 f3 (And4 f4 f5 f6 e)) (conj (And4 h1 f7 f8 f9) (And4 f10 f11 h4 f12))).
Qed.

(** The hypotheses of the soundness theorems are met, by the assignments that
    witness generation produces. *)
Section Example.
Variables (F : fieldType) (R : bigint_repr F) (HashT : hash_gadget F) (H : seq bool -> seq bool).
Local Notation n := (hg_digest_len HashT).
Definition pbz (m : nat) : protoboard F := (allocate_array (pb_new F) m).2.
Lemma pbz_facts m : [/\ pb_wf (pbz m), size (pb_values (pbz m)) = m & pb_values (pbz m) = nseq m 0].
Proof.
have hw : pb_wf (pb_new F) by split.
case e: (allocate_array (pb_new F) m) => [vs pb]; have [h1 h2 h3 h4 h5] := allocate_array_wf hw e.
by rewrite /pbz e /= h2 /= size_nseq.
Qed.
Lemma zero_val m zs v : (0 < v <= m)%N -> xval (nseq m (0 : F) ++ zs) v = 0.
Proof. by case: v => // v hv; rewrite /xval /= nth_cat size_nseq ifT ?nth_nseq //; case: ifP. Qed.
Lemma zero_isbits m zs (vs : pb_variable_array) : all (fun v => 0 < v <= m)%N vs -> var_isbits (nseq m (0 : F) ++ zs) vs.
Proof. by apply: sub_all => v hv; rewrite zero_val // /isbit eqxx. Qed.

Variable sl : protoboard F -> pb_variable_array -> nat -> linear_combination F.
Lemma read_example : hash_completes HashT (2 * n) H sl ->
  exists pb0 (A : pb_linear_combination_array F) leaf root path rs g pb1 x,
  [/\ pb_wf pb0, path_shape 1 n path, size leaf = n, size root = n & check_read_new R HashT pb0 1 A leaf root path rs = Ok (g, pb1)] /\
  [/\ holds (path_variable_constraints F path) x, lc_isbits x A, var_isbits x root, lval x rs <> 0 & holds (check_read_constraints g) x].
Proof.
move=> hH; have [hb hr] := read_completesP R hH; pose m := (1 + 4 * n)%N; have [hw hsz hv] := pbz_facts m.
pose A := plcs_of_vars F [:: 1%N]; pose path := PathVariable [:: iota 2 n] [:: iota (2 + n) n].
pose leaf := iota (2 + 2 * n) n; pose root := iota (2 + 3 * n) n; pose rs := plc_of_var F 0%N.
have hp : path_shape 1 n path by split; rewrite //= size_iota eqxx.
have slf : size leaf = n by rewrite size_iota.
have sr : size root = n by rewrite size_iota.
have [g [pb1 e]] := hb (pbz m) 1%N A leaf root path rs hw hp isT erefl slf sr.
have ha := read_alloc hH (capacity_gt0 R) hw hp e.
have pvE : path_vars path = iota 2 n ++ iota (2 + n) n by rewrite /path_vars /= !cats0.
have rng v : v \in path_vars path ++ root -> (1 < v <= m)%N.
  by rewrite pvE !mem_cat !mem_iota /m; clear; lia.
have [w1 [zs ezs] _ _] := ha; rewrite hv in ezs.
have [|||||||||||pb' [_ [_ _ _ [_ h2]] h3 _ h5]] := hr (fun=> [::]) (pbz m) 1%N A leaf root path rs g pb1 pb1 hw hp slf sr e.
- by apply/allP => v /rng; rewrite /is_var hsz; clear; lia.
- rewrite pvE -iotaD cat_uniq !iota_uniq andbT; apply/hasPn => v /=; rewrite !mem_iota; clear; lia.
- apply/allP => v; rewrite mem_iota hsz => hv'; rewrite pvE !mem_cat !mem_iota /m; move: hv'; clear; lia.
- move=> l hl; have [v hv' ->] : exists2 v, (v <= 1)%N & l = plc_of_var F v.
    by case: hl => [<-|[<-|//]]; [exists 0%N|exists 1%N].
  split; first by apply: lc_proper_plc_var; rewrite hsz /m; move: hv'; clear; lia.
  by rewrite /avoids /= andbT; apply/negP => /rng; move: hv'; clear; lia.
- by split.
- by [].
- by rewrite ezs plcs_isbits; apply: zero_isbits.
- by rewrite ezs; apply: zero_isbits; apply/allP => v; rewrite mem_iota /m; clear; lia.
- move=> i; case: i => // _; rewrite ezs; apply: zero_isbits; apply/allP => v /path_sib_sub hv'.
  by have := rng v; rewrite [v \in _]mem_cat hv' => /(_ isT); clear; lia.
- by rewrite lval_var /isbit eqxx orbT.
- by rewrite lval_var => /eqP; rewrite oner_eq0.
move: h3; rewrite holds_cat => -[h3 h4].
exists (pbz m), A, leaf, root, path, rs, g, pb1, (pb_values pb'); split=> //; split=> //.
- rewrite plcs_isbits /var_isbits /= andbT h2; first by rewrite ezs zero_val ?/isbit ?eqxx // /m; clear; lia.
  rewrite catA [1%N \in _]mem_cat mem_fresh // hsz negb_or; apply/andP; split; last by rewrite /m; clear; lia.
  rewrite [1%N \in _]mem_cat negb_or; apply/andP; split; apply/negP => h1; have := rng 1%N; rewrite [1%N \in _]mem_cat ?h1 ?orbT; try by move/(_ isT).
  move: h1 => /flattenP [s /mapP [i _ ->] /path_side_sub ->]; by move/(_ isT).
- by have [] := h5 (lval_var _ _).
by rewrite lval_var => /eqP; rewrite oner_eq0.
Qed.
End Example.

Example C34_ex_sha256 : exists pb0 (A : pb_linear_combination_array Fbig) leaf root path rs g pb1 x,
  [/\ pb_wf pb0, path_shape 1 256 path, size leaf = 256%N, size root = 256%N &
      check_read_new Rbig (sha256_hash Rbig) pb0 1 A leaf root path rs = Ok (g, pb1)] /\
  [/\ holds (path_variable_constraints Fbig path) x, lc_isbits x A, var_isbits x root, lval x rs <> 0 & holds (check_read_constraints g) x].
Proof. exact: (read_example Rbig (sha_completes Rbig_ok)). Qed.
Lemma cache11_ok n : cache_ok rng11 (cache11 n).
Proof. by move=> i; rewrite size_map size_iota => hi; rewrite (nth_map 0%N) ?size_iota // nth_iota. Qed.
Definition K1 := knapsack_hash repr11 1 rng11 (cache11 8).
Example C34_ex_knapsack : exists pb0 (A : pb_linear_combination_array F11) leaf root path rs g pb1 x,
  [/\ pb_wf pb0, path_shape 1 (size_in_bits repr11) path, size leaf = size_in_bits repr11, size root = size_in_bits repr11 &
      check_read_new repr11 K1 pb0 1 A leaf root path rs = Ok (g, pb1)] /\
  [/\ holds (path_variable_constraints F11 path) x, lc_isbits x A, var_isbits x root, lval x rs <> 0 & holds (check_read_constraints g) x].
Proof.
have hs : (1 * (2 * knapsack_digest_len repr11 1) <= size (cache11 8))%N by vm_compute.
have := read_example repr11 (@knapsack_completes _ repr11 1 rng11 (cache11 8) (@cache11_ok 8) _ hs).
by rewrite [hg_digest_len _]/= /knapsack_digest_len mul1n.
Qed.

(** An update of leaf 1 of a tree of depth 1, with the knapsack hash: the previous
    leaf is 3, its sibling 5, the next leaf is 6. *)
Definition kd11 (b : seq bool) : seq bool := (knapsack_bit_get_hash repr11 1 rng11 [::] b).1.
Definition lp (a b : nat) := PathVariable [:: iota a 4] [:: iota b 4].
Definition x35 : seq F11 := [:: 1] ++ [:: 1; 0; 1; 0] ++ nseq 4 0 ++ nseq 8 0 ++ [:: 1; 1; 0; 0] ++
  [seq bit_val F11 b | b <- kd11 [:: true; false; true; false; true; true; false; false]] ++
  [:: 0; 1; 1; 0] ++ nseq 4 0.
Definition upd35 := check_update_new repr11 K1 (upd (pb11 33) x35 [::]) 1 [:: 1%N] (iota 18 4) (iota 22 4) (lp 2 6)
  (iota 26 4) (iota 30 4) (lp 10 14) (plc_of_var F11 0%N).
Example C35_ex : (if upd35 is Ok gp then
    if check_update_witness gp.1 gp.2 is Ok pb then let x := pb_values pb in
      [&& sat (check_update_constraints gp.1) x, sat (path_variable_constraints F11 (lp 2 6)) x,
          var_isbits x [:: 1%N], var_isbits x (iota 22 4), var_isbits x (iota 26 4) && var_isbits x (iota 30 4) &
          var_bits x (iota 30 4) == kd11 [:: true; false; true; false; false; true; true; false]]
    else false else false).
Proof. by vm_compute. Qed.

Definition kb11 := knapsack_bit_new repr11 1 rng11 [::] (upd (pb11 12) (nseq 6 1 ++ nseq 6 0) [::]) 8 (iota 1 8) (iota 9 4).
Example C43_ex : (if kb11 is Ok gpc then
    if knapsack_bit_witness repr11 1 (cache11 8) gpc.1.1 gpc.1.2 is Ok pb then
      [&& sat (knapsack_bit_constraints 1 (cache11 8) gpc.1.1 true) (pb_values pb), gpc.2 == cache11 8 &
          var_bits (pb_values pb) (iota 9 4) == (knapsack_bit_get_hash repr11 1 rng11 [::] (nseq 6 true ++ nseq 2 false)).1]
    else false else false).
Proof. by vm_compute. Qed.
(** A block whose sums are 0. *)
Example C43_ex2 i : subset_sum rng11 (nseq 8 false) i = 0.
Proof. by rewrite /subset_sum big1 // => -[j hj]; rewrite [nat_of_ord _]/= nth_nseq; case: ifP. Qed.

(** A set of at most two elements of 8 bits. *)
Definition el48 : seq bool := [:: true; false; true; true; false; false; true; false].
Definition x48 : seq F11 := nseq 9 0 ++ [seq bit_val F11 b | b <- el48] ++ nseq 4 0.
Definition pv48 := ProofVariable [:: 1%N] (lp 2 6).
Definition sg48 := set_gadget_new repr11 K1 (upd (pb11 21) x48 [::]) 2 (iota 10 8) (iota 18 4) pv48 (plc_of_var F11 0%N).
Example C48_ex :
  let added := [:: nseq 8 true; el48] in
  if (sg48, set_after kd11 4 2 8 added) is (Ok gp, Ok s) then
    if (sc_get_commitment s, sc_get_membership_proof kd11 s el48) is (Ok root, Ok proof) then
      if (let! pb := proof_variable_witness repr11 pv48 proof gp.2 in set_gadget_witness gp.1 pb) is Ok pb then
        let x := pb_values pb in
        [&& sat (proof_variable_constraints F11 pv48 ++ set_gadget_constraints gp.1) x, var_bits x (iota 18 4) == root,
            var_isbits x (iota 10 8), var_isbits x (iota 18 4) & var_bits x [:: 1%N] == [:: true]]
      else false else false else false.
Proof. by vm_compute. Qed.

(** * Assumptions *)
Print Assumptions C34_read_sound_sha256.
Print Assumptions C34_read_tree_sha256.
Print Assumptions C34_read_sound_knapsack.
Print Assumptions C34_read_complete_sha256.
Print Assumptions C34_read_complete_knapsack.
Print Assumptions C35_update_sound_sha256.
Print Assumptions C35_update_tree_sha256.
Print Assumptions C35_update_sound_knapsack.
Print Assumptions C43_cache_history.
Print Assumptions C43_field_iff.
Print Assumptions C43_field_complete.
Print Assumptions C43_bit_iff.
Print Assumptions C43_bit_complete.
Print Assumptions C43_get_hash.
Print Assumptions C43_digest_unique_refuted.
Print Assumptions C48_sound_sha256.
Print Assumptions C48_sound_knapsack.
Print Assumptions C48_complete_sha256.
Print Assumptions C48_complete_knapsack.
Print Assumptions C48_accumulator_sha256.
Print Assumptions C34_read_knapsack_refuted.
