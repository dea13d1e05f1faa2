(** Facts about the knapsack gadgets. *)
From Coq Require Import NArith.
From mathcomp Require Import all_ssreflect all_algebra zify.
From Verif Require Import Outcome Lincomb LincombSpec LincombFacts R1CS R1CSSpec R1CSFacts Fieldtac.
From Verif Require Import Protoboard GadgetSpec GadgetLogic BasicGadgets BasicGadgetsFacts BasicGadgetsMore BasicGadgetsCopy GadgetNew.
From Verif Require Import Sha256Gadget GadgetSeq Knapsack MerkleGadget MerkleGadgetSpec MerkleSound.
Set Implicit Arguments.
Unset Strict Implicit.
Unset Printing Implicit Defensive.
Local Open Scope ring_scope.
Import GRing.Theory.

(** The subset-sum hash: the sum of the coefficients of row [i] at the positions of
    the bits that are set. *)
Definition subset_sum (F : fieldType) (rng : nat -> F) (bits : seq bool) (i : nat) : F :=
  \sum_(j < size bits | nth false bits j) rng (size bits * i + j)%N.
(** The cache holds the first coefficients. *)
Definition cache_ok (F : fieldType) (rng : nat -> F) (cache : seq F) : Prop :=
  forall i, (i < size cache)%N -> nth 0 cache i = rng i.

Section Facts.
Variable F : fieldType.
Variable R : bigint_repr F.
Variable dimension : nat.
Variable rng : nat -> F.
Implicit Types (x : seq F) (pb : protoboard F) (cache : seq F).
Local Notation sib := (size_in_bits R).

Lemma sample_ok cache len : cache_ok rng cache -> cache_ok rng (sample_randomness dimension rng cache len).
Proof.
move=> h i; rewrite /sample_randomness; case: ifP => hs; last exact: h.
rewrite size_cat size_map size_iota nth_cat => hi; case: ltnP => hi'; first exact: h.
have hj : (i - size cache < dimension * len - size cache)%N by lia.
by rewrite (nth_map 0%N) ?size_iota // nth_iota // subnKC.
Qed.
Lemma sample_size cache len : size (sample_randomness dimension rng cache len) = maxn (size cache) (dimension * len).
Proof. by rewrite /sample_randomness; case: ltnP => h; rewrite ?size_cat ?size_map ?size_iota; lia. Qed.
Definition extended cache len := if (size cache < dimension * len)%N then sample_randomness dimension rng cache len else cache.
Lemma extended_ok cache len : cache_ok rng cache -> cache_ok rng (extended cache len).
Proof. by rewrite /extended; case: ifP => // _; apply: sample_ok. Qed.
Lemma extended_size cache len : size (extended cache len) = maxn (size cache) (dimension * len).
Proof. by rewrite /extended; case: ifP => h; rewrite ?sample_size; lia. Qed.

Lemma knapsack_sumE cache len i input : cache_ok rng cache -> (dimension * len <= size cache)%N -> (i < dimension)%N ->
  size input = len -> knapsack_sum cache len i input = subset_sum rng input i.
Proof.
move=> hc hs hi hl; rewrite /knapsack_sum /subset_sum.
have hb : (len * i + len <= size cache)%N by rewrite -mulnSr mulnC; apply: leq_trans hs; rewrite leq_mul2r hi orbT.
rewrite -(big_mkord (fun j => nth false input j) (fun j => rng (size input * i + j)%N)) hl.
have H : forall a inp s, (a + size inp <= len)%N ->
   foldl (fun sum kb => if kb.2 then sum + nth 0 cache (len * i + kb.1) else sum) s (zip (iota a (size inp)) inp) =
   s + \sum_(0 <= j < size inp | nth false inp j) rng (len * i + (a + j))%N.
  move=> a inp; elim: inp a => [|b inp IH] a s hh; first by rewrite big_geq // addr0.
  rewrite [LHS]/= IH; last by move: hh => /=; lia.
  rewrite [size _]/= [in RHS]big_mkcond [in RHS]big_nat_recl //= addn0.
  have -> : nth 0 cache (len * i + a) = rng (len * i + a)%N by apply: hc; move: hh => /=; lia.
  have -> : \sum_(0 <= i0 < size inp) (if nth false inp i0 then rng (len * i + (a + i0.+1))%N else 0) =
            \sum_(0 <= j < size inp | nth false inp j) rng (len * i + (a.+1 + j))%N.
    by rewrite [RHS]big_mkcond; apply: eq_bigr => j _; rewrite addSnnS.
  by case: b {hh}; rewrite ?add0r // addrA.
have := H 0%N input 0; rewrite hl leqnn add0r => -> //.
Qed.

Lemma knapsack_rowE cache (g : knapsack_field F) i x : cache_ok rng cache -> (dimension * kf_input_len g <= size cache)%N ->
  (i < dimension)%N -> size (kf_block g) = kf_input_len g -> var_isbits x (kf_block g) ->
  formal_sum (knapsack_row cache g i) x = subset_sum rng (var_bits x (kf_block g)) i.
Proof.
move=> hc hs hi hl hb; set len := kf_input_len g in hs hl *.
have hlen : (len * i + len <= size cache)%N by rewrite -mulnSr mulnC; apply: leq_trans hs; rewrite leq_mul2r hi orbT.
have sn : size (nslice cache len i) = len by rewrite /nslice size_take size_drop; case: ltnP; lia.
rewrite /knapsack_row; have [|l -> ->] := @pb_coeff_sumE F (plcs_of_vars F (kf_block g)) (nslice cache len i) x.
  by rewrite size_map sn hl.
rewrite /subset_sum size_map hl.
have -> : zip (plcs_of_vars F (kf_block g)) (nslice cache len i) =
  [seq (plc_of_var F (nth 0%N (kf_block g) j), rng (len * i + j)%N) | j <- iota 0 len].
  apply: (@eq_from_nth _ (plc_of_var F 0%N, 0)); first by rewrite size_zip size_map sn hl minnn size_map size_iota.
  rewrite size_zip size_map sn hl minnn => j hj.
  rewrite nth_zip ?size_map ?sn // (nth_map 0%N) ?hl // (nth_map 0%N) ?size_iota // nth_iota // add0n; congr (_, _).
  by rewrite /nslice nth_take // nth_drop hc //; lia.
have ei : iota 0 len = index_iota 0 len by rewrite /index_iota subn0.
rewrite big_map ei big_mkord [RHS]big_mkcond; apply: eq_bigr => j _ /=.
rewrite (nth_map 0%N) ?hl // lval_var.
have hbj : isbit (xval x (nth 0%N (kf_block g) j)) by apply: (allP hb); rewrite mem_nth // hl.
by rewrite {1}(isbitP hbj); case: (bit_of _); rewrite ?mulr1 ?mulr0.
Qed.

Lemma knapsack_fieldE cache (g : knapsack_field F) x : cache_ok rng cache -> (dimension * kf_input_len g <= size cache)%N ->
  size (kf_block g) = kf_input_len g -> var_isbits x (kf_block g) ->
  holds (knapsack_field_constraints dimension cache g) x <->
  forall i, (i < dimension)%N -> lval x (nth (plc_of_var F 0%N) (kf_output g) i) = subset_sum rng (var_bits x (kf_block g)) i.
Proof.
move=> hc hs hl hb; rewrite /knapsack_field_constraints holds_iota; split=> h i hi.
  by have := h i hi; rewrite /constraint_holds /= formal_sum_int mulr1z mul1r knapsack_rowE // => <-.
by rewrite /constraint_holds /= formal_sum_int mulr1z mul1r knapsack_rowE // -h.
Qed.

Lemma knapsack_field_newE cache len block output g cache' : knapsack_field_new dimension rng cache len block output = Ok (g, cache') ->
  [/\ g = KnapsackField len block output, size block = len, size output = dimension & cache' = extended cache len].
Proof. by rewrite /knapsack_field_new /oassert; case: eqP => //= h1; case: eqP => //= h2 [<- <-]. Qed.

(** * Bits *)
Lemma size_nslice (T : Type) (s : seq T) m i : size s = (dimension * m)%N -> (i < dimension)%N -> size (nslice s m i) = m.
Proof.
move=> hs hi; rewrite /nslice size_take size_drop hs.
have : (m * i + m <= dimension * m)%N by rewrite -mulnSr mulnC leq_mul2r hi orbT.
by case: ltnP; lia.
Qed.
Lemma nslice_map (A B : Type) (f : A -> B) s m i : nslice (map f s) m i = map f (nslice s m i).
Proof. by rewrite /nslice map_take map_drop. Qed.

Lemma lc_assign_terms pb l o pb' : lc_assign pb l = (o, pb') :> pb_linear_combination F * protoboard F -> lc_terms o = l.
Proof. by rewrite /lc_assign; case=> <- _. Qed.

Lemma new_outputs pb (ls : nat -> linear_combination F) ts os pb' : pb_wf pb ->
  new_all (fun i pb => Ok (lc_assign pb (ls i))) ts pb = Ok (os, pb') ->
  [/\ allocates pb pb', pb_values pb' = pb_values pb, size (pb_lc_values pb') = (size (pb_lc_values pb) + size ts)%N &
      os = [seq PbLc false (size (pb_lc_values pb) + j) (ls (nth 0%N ts j)) | j <- iota 0 (size ts)]].
Proof.
move=> hw; apply: (new_all_ind (Inv := fun ts os pb' => [/\ allocates pb pb', pb_values pb' = pb_values pb, size (pb_lc_values pb') = (size (pb_lc_values pb) + size ts)%N &
      os = [seq PbLc false (size (pb_lc_values pb) + j) (ls (nth 0%N ts j)) | j <- iota 0 (size ts)]])).
  by split=> //=; [exact: allocates_refl|rewrite addn0].
move=> ts1 t ts2 gs1 s g s' _ _ [a1 v1 k1 ->] e0.
have {e0} e : lc_assign s (ls t) = (g, s') by move: e0; case: (lc_assign s (ls t)) => a b [-> ->].
have [h1 h2 [h3 h4]] := lc_assign_new (allocates_wf a1) e.
have [_ h5 _ _ _] := lc_assign_wf (allocates_wf a1) e.
split.
- exact: allocates_trans a1 h1.
- by rewrite h5.
- by rewrite size_rcons h4 k1 addnS.
rewrite size_rcons -(addn1 (size ts1)) iotaD map_cat /= -cats1; congr (_ ++ [:: _]).
  by apply/eq_in_map => j; rewrite mem_iota add0n => /= hj; rewrite nth_rcons hj.
by rewrite nth_rcons add0n ltnn eqxx h2 k1.
Qed.

(** What the constructor of the bit-output gadget makes. *)
Lemma knapsack_bit_newE cache pb len block digest g pb' cache' : pb_wf pb ->
  knapsack_bit_new R dimension rng cache pb len block digest = Ok (g, pb', cache') ->
  let outs := [seq PbLc false (size (pb_lc_values pb) + j) (pb_packing_sum (plcs_of_vars F (nslice digest sib j))) | j <- iota 0 dimension] in
  [/\ g = KnapsackBit outs (KnapsackField len block outs) digest, size block = len, size digest = (dimension * sib)%N, cache' = extended cache len &
      [/\ allocates pb pb', pb_values pb' = pb_values pb & size (pb_lc_values pb') = (size (pb_lc_values pb) + dimension)%N]].
Proof.
move=> hw; rewrite /knapsack_bit_new /knapsack_digest_len; case: eqP => //= hs.
case e: (new_all _ _ pb) => [[os pb1]| |] //=.
have [h1 h2 h3] := new_outputs hw e; rewrite size_iota => h4.
case e2: (knapsack_field_new _ _ _ _ _ _) => [[hf c]| |] //= -[<- <- <-].
have [-> h5 h6 ->] := knapsack_field_newE e2.
have {}h4 : os = [seq PbLc false (size (pb_lc_values pb) + j) (pb_packing_sum (plcs_of_vars F (nslice digest sib j))) | j <- iota 0 dimension].
  by rewrite h4; apply/eq_in_map => j; rewrite mem_iota add0n => /= hj; rewrite nth_iota.
by rewrite h4; split=> //; split=> //; rewrite h3 size_iota.
Qed.

(** [digest] is a hash of [block] if its slices are binary representations of the
    subset sums. *)
Definition knapsack_rel (block digest : seq bool) : Prop :=
  size digest = (dimension * sib)%N /\
  forall i, (i < dimension)%N -> (bits_nat (nslice digest sib i))%:R = subset_sum rng block i.

Lemma knapsack_bitE cache0 cache pb len block digest g pb' cache' e x : pb_wf pb -> cache_ok rng cache ->
  knapsack_bit_new R dimension rng cache0 pb len block digest = Ok (g, pb', cache') -> (size cache' <= size cache)%N ->
  var_isbits x block ->
  holds (knapsack_bit_constraints dimension cache g e) x <->
  (forall i, (i < dimension)%N -> pack (map (xval x) (nslice digest sib i)) = subset_sum rng (var_bits x block) i) /\
  (e -> var_isbits x digest).
Proof.
move=> hw hc he hs hb; have [-> h1 h2 h3 [h4 h5 h6]] := knapsack_bit_newE hw he.
rewrite /knapsack_bit_constraints holds_cat [kb_hasher _]/= [kb_digest _]/=.
have hl : (dimension * len <= size cache)%N by apply: leq_trans hs; rewrite h3 extended_size leq_maxr.
rewrite knapsack_fieldE //=.
have ev i : (i < dimension)%N -> lval x (nth (plc_of_var F 0%N)
    [seq PbLc false (size (pb_lc_values pb) + j) (pb_packing_sum (plcs_of_vars F (nslice digest sib j))) | j <- iota 0 dimension] i) =
    pack (map (xval x) (nslice digest sib i)).
  by move=> hi; rewrite (nth_map 0%N) ?size_iota // nth_iota // add0n /lval /= packing_sumE lval_vars.
split=> -[g1 g2]; (split; [move=> i hi|]).
- by rewrite -ev // g1.
- by case: e {he} g2 => // g2 _; apply/digest_constraintsE.
- by rewrite ev // g1.
- by case: e {he} g2 => [/(_ isT) g2|_]; [apply/digest_constraintsE|rewrite holds_nil].
Qed.

Lemma pack_var_bits x vs : var_isbits x vs -> pack (map (xval x) vs) = (bits_nat (var_bits x vs))%:R.
Proof. by move=> h; rewrite pack_bits ?all_map // -map_comp. Qed.
Lemma nslice_isbits x vs m i : var_isbits x vs -> var_isbits x (nslice vs m i).
Proof. by move=> /allP h; apply/allP => v /mem_take /mem_drop /h. Qed.

Lemma pack_chunks c (u v : seq F) : (0 < c)%N -> size u = size v ->
  map (@pack F) (chunks u c) = map (@pack F) (chunks v c) -> pack u = pack v.
Proof.
move=> hc hs h; rewrite -(chunks_flatten u hc) -(chunks_flatten v hc).
have : map size (chunks u c) = map size (chunks v c).
  by rewrite /chunks hs -!map_comp; apply: eq_map => i /=; rewrite /chunk_slice !size_drop !size_take hs.
move: (chunks u c) (chunks v c) h => a b; elim: a b => [|s a IH] [|t b] //= [h1 h2] [h3 h4].
by rewrite !pack_cat h1 h3 (IH _ h2 h4).
Qed.

Lemma size_in_bits_gt1 : (1 < sib)%N.
Proof. by rewrite ltnNge /size_in_bits num_bits_le expn1 -leqNgt; apply: prime_gt1; exact: fp_prime. Qed.

Variable cache : seq F.
Hypothesis hcache : cache_ok rng cache.
Local Notation KH := (knapsack_hash R dimension rng cache).

Lemma knapsack_allocates : hash_allocates KH.
Proof.
move=> pb0 len block out g pb1 hw _ _ /=; case e: (knapsack_bit_new _ _ _ _ _ _ _ _) => [[[g' pb'] c]| |] //= -[_ <-].
by have [_ _ _ _ []] := knapsack_bit_newE hw e.
Qed.
Lemma knapsack_enforces len : (dimension * len <= size cache)%N -> hash_enforces KH len knapsack_rel.
Proof.
move=> hsz pb0 block out g pb1 ee x hw hb ho /=; case e: (knapsack_bit_new _ _ _ _ _ _ _ _) => [[[g' pb'] c]| |] //= -[<- _] bb hh.
have [_ _ h2 h3 _] := knapsack_bit_newE hw e.
have hc : (size c <= size cache)%N by rewrite h3 extended_size; lia.
have [k1 k2] := iffLR (knapsack_bitE ee hw hcache e hc bb) hh; split=> // bo; split; first by rewrite size_map.
by move=> i hi; rewrite -k1 // pack_var_bits ?nslice_isbits // /var_bits nslice_map.
Qed.
(** With one row the packed values are enough. *)
Lemma knapsack_enforces_packed len : dimension = 1%N -> (dimension * len <= size cache)%N ->
  hash_enforces_packed KH (capacity R) len knapsack_rel.
Proof.
move=> hd hsz pb0 block out g pb1 ee x d hw hb ho /=; case e: (knapsack_bit_new _ _ _ _ _ _ _ _) => [[[g' pb'] c]| |] //= -[<- _] bb hh.
rewrite /knapsack_digest_len => sd ed.
have [_ _ h2 h3 _] := knapsack_bit_newE hw e.
have hc : (size c <= size cache)%N by rewrite h3 extended_size; lia.
have [k1 k2] := iffLR (knapsack_bitE ee hw hcache e hc bb) hh; split=> // i hi.
rewrite -k1 //.
have ns (T : Type) (s : seq T) : size s = sib -> nslice s sib i = s.
  by move=> hs; have -> : i = 0%N by [move: hi; rewrite hd; case: i]; rewrite /nslice muln0 drop0 take_oversize // hs.
rewrite hd mul1n in h2 sd; rewrite !ns //.
have hcap : (0 < capacity R)%N by rewrite /capacity; have := size_in_bits_gt1; lia.
rewrite (pack_chunks hcap _ ed) ?size_map ?h2 ?sd // pack_bits; last by rewrite all_map; apply/allP => b _ /=; rewrite bit_valE isbit_nat.
by congr (bits_nat _)%:R; rewrite -map_comp -[LHS]map_id; apply: eq_map => b /=; rewrite bit_valE bit_of_nat.
Qed.
End Facts.
