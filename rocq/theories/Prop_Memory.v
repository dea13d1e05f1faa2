(** C37: the memories of the RAM relations behave as memories. *)
From Coq Require Import NArith.
From mathcomp Require Import all_ssreflect zify.
From Verif Require Import Outcome StdMap MerkleTree MerkleSpec MerkleFacts MerkleMap Memory Prop_Merkle.
Set Implicit Arguments.
Unset Strict Implicit.
Unset Printing Implicit Defensive.
Delimit Scope N_scope with num.

(** ** Specification *)

(** The value at [a] after the given writes, when [init] gives the initial values:
    the last value written to [a] if there is one. *)
Definition value_at (init : nat -> N) (writes : seq (nat * N)) (a : nat) : N :=
  last (init a) [seq w.2 | w <- writes & w.1 == a].

(** The low [k] bits of a value, least significant first. *)
Definition low_bits (k : nat) (v : N) : seq bool := [seq N.testbit v (N.of_nat j) | j <- iota 0 k].
Definition truncate (k : nat) (v : N) : N := (v mod 2 ^ N.of_nat k)%num.

(** The three ways to build a plain memory, with the initial contents they stand for. *)
Inductive plain_init := FromNothing | FromVector of seq N | FromMap of memory_contents.
Definition plain_new (num_addresses value_size : nat) (i : plain_init) : ra_memory :=
  match i with
  | FromNothing => rm_new num_addresses value_size
  | FromVector v => rm_of_vector num_addresses value_size v
  | FromMap m => rm_of_map num_addresses value_size m
  end.
Definition initial_value (i : plain_init) (a : nat) : N :=
  match i with
  | FromNothing => 0%num
  | FromVector v => nth 0%num v a
  | FromMap m => odflt 0%num (nm_find m a)
  end.

Definition plain_after num_addresses value_size i (writes : seq (nat * N)) : ra_memory :=
  foldl (fun m w => rm_set_value m w.1 w.2) (plain_new num_addresses value_size i) writes.

Definition delegated_after H n num_addresses value_size (init : option memory_contents) (writes : seq (nat * N)) :=
  let! m := if init is Some c then dm_of_map H n num_addresses value_size c else dm_new H n num_addresses value_size in
  ofold (fun m w => dm_set_value H m w.1 w.2) m writes.

(** ** Lemmas *)

Lemma value_at_cons init w ws a :
  value_at init (w :: ws) a = value_at (fun b => if b == w.1 then w.2 else init b) ws a.
Proof. by rewrite /value_at /= eq_sym; case: eqP => [->|]. Qed.

Lemma of_vector_find (v : seq N) k m a :
  nm_find (foldl (fun m kv => nm_set m kv.1 kv.2) m (zip (iota k (size v)) v)) a =
  if k <= a < k + size v then Some (nth 0%num v (a - k)) else nm_find m a.
Proof.
elim: v k m => [|x v IH] k m /=; first by rewrite addn0; case: ifP => //; lia.
rewrite IH nm_find_set /=.
case: (eqVneq a k) => [->|ne].
  by rewrite ltnn leqnn /= subnn addnS ltnS leq_addr.
have -> : (k <= a < k + (size v).+1) = (k < a < k.+1 + size v) by move: ne; lia.
case: ifP => // h; congr Some.
have -> : a - k = (a - k.+1).+1 by move: h; lia.
by [].
Qed.

Lemma plain_spec num vs i ws a :
  let m := plain_after num vs i ws in
  rm_num_addresses m = num /\ odflt 0%num (nm_find (rm_contents m) a) = value_at (initial_value i) ws a.
Proof.
rewrite /plain_after.
have : rm_num_addresses (plain_new num vs i) = num /\
   forall b, odflt 0%num (nm_find (rm_contents (plain_new num vs i)) b) = initial_value i b.
  case: i => [|v|m] /=; split=> // b; rewrite of_vector_find add0n subn0 /=.
  by case: ltnP => // h; rewrite nth_default.
move: (plain_new num vs i) (initial_value i) => m f [hn hf].
elim: ws m f hn hf => [|w ws IH] m f hn hf /=; first by split.
rewrite value_at_cons; apply: IH => //= b; rewrite nm_find_set; by case: eqP.
Qed.

Lemma land_pow i k : N.land i (N.shiftl 1 k) = (if N.testbit i k then 2 ^ k else 0)%num.
Proof.
apply: N.bits_inj => j; rewrite N.land_spec N.shiftl_1_l N.pow2_bits_eqb.
case: N.eqb_spec => [<-|h].
  by case: (N.testbit i k); rewrite ?N.bits_0 ?N.pow2_bits_true.
by case: (N.testbit i k); rewrite ?N.bits_0 ?N.pow2_bits_false ?andbF.
Qed.

Lemma to_elem vs i : vs <= 64 -> int_to_tree_elem vs i = Ok (low_bits vs i).
Proof.
move=> h; rewrite /int_to_tree_elem ltnNge h /=; congr Ok; apply: eq_map => k; rewrite land_pow.
case: N.testbit => //; apply/eqP; exact: N.pow_nonzero.
Qed.

Lemma size_low_bits vs i : size (low_bits vs i) = vs.
Proof. by rewrite size_map size_iota. Qed.
Lemma low_bits0 vs : low_bits vs 0 = nseq vs false.
Proof.
apply: (@eq_from_nth _ false) => [|i]; rewrite size_low_bits ?size_nseq // => h.
by rewrite (nth_map 0) ?size_iota // nth_iota // nth_nseq h.
Qed.

Lemma from_elem vs i : vs <= 64 -> int_from_tree_elem vs (low_bits vs i) = Ok (truncate vs i).
Proof.
move=> h; rewrite /int_from_tree_elem ltnNge h /=.
have key k : k <= vs ->
  ofold (fun r j => let! b := oget (low_bits vs i) j in
     Ok (N.lor r (N.shiftl (if b then 1%num else 0%num) (N.of_nat j)))) 0%num (iota 0 k) = Ok (truncate k i).
  elim: k => [|k IH] hk; first by rewrite /truncate N.mod_1_r.
  rewrite -addn1 iotaD ofold_cat IH 1?ltnW //= add0n.
  have -> : oget (low_bits vs i) k = Ok (N.testbit i (N.of_nat k)).
    by rewrite (oget_nth false) ?size_low_bits // (nth_map 0) ?size_iota // nth_iota.
  congr Ok; apply: N.bits_inj => j; rewrite N.lor_spec /truncate.
  case: (N.ltb_spec j (N.of_nat k)) => hj.
    rewrite !N.mod_pow2_bits_low; try by move: hj; lia.
    by rewrite N.shiftl_spec_low // orbF.
  rewrite (N.mod_pow2_bits_high _ _ _ hj) /= N.shiftl_spec_high' //.
  case: (N.eqb_spec j (N.of_nat k)) => [->|ne].
    rewrite N.sub_diag N.mod_pow2_bits_low; last by lia.
    by case: (N.testbit i (N.of_nat k)).
  rewrite N.mod_pow2_bits_high; last by move: ne hj; lia.
  have : (j - N.of_nat k)%num <> 0%num by move: ne hj; lia.
  case: (N.testbit i (N.of_nat k)) => // h0.
  by rewrite (_ : 1%num = (2 ^ 0)%num) // N.pow2_bits_false //; move: h0; lia.
exact: key.
Qed.

(** The tree of a delegated memory holds the low bits of the values. *)
Definition holds_values H n num vs (m : delegated_memory) (f : nat -> N) : Prop :=
  [/\ dm_num_addresses m = num, dm_value_size m = vs &
      good H n (log2 num) vs (dm_contents m) (fun a => low_bits vs (f a))].

Lemma good_ext H n d vs t f g : f =1 g -> good H n d vs t f -> good H n d vs t g.
Proof.
move=> e [h1 h2 h3 h4 h5 h6 h7 h8]; split=> //.
- by move=> a ha; rewrite -e; apply: h5.
- by move=> a; rewrite -e.
- by move=> l p hl hp; rewrite h8 //; apply: node_ext => a _; rewrite e.
Qed.

Lemma delegated_spec H n num vs init ws :
  let init_value a := odflt 0%num (nm_find (odflt [::] init) a) in
  log2 num < 64 -> vs <= 64 -> vs <= n ->
  nm_ordered (odflt [::] init) -> all (fun k => k < 2 ^ log2 num) (nm_keys (odflt [::] init)) ->
  all (fun w => w.1 < 2 ^ log2 num) ws ->
  exists2 m, delegated_after H n num vs init ws = Ok m & holds_values H n num vs m (value_at init_value ws).
Proof.
move=> init_value hd hv hn ho hk hw; rewrite /delegated_after.
have [m0 -> g0] : exists2 m, (if init is Some c then dm_of_map H n num vs c else dm_new H n num vs) = Ok m &
    holds_values H n num vs m init_value.
  rewrite /init_value; case: init ho hk {init_value} => [c|] /= ho hk; last first.
    have [t e g] := @new_good H n (log2 num) vs hd hn.
    rewrite /dm_new e; eexists; first by []; split=> //=.
    by apply: good_ext g => a; rewrite low_bits0.
  rewrite /dm_of_map.
  have hb (c' : memory_contents) (acc : nmap bit_vector) : exists2 b,
      ofold (fun acc kv => let! v := int_to_tree_elem vs kv.2 in Ok (nm_set acc kv.1 v)) acc c' = Ok b &
      (nm_ordered acc -> nm_ordered b) /\ (forall a, nm_find b a =
         last (nm_find acc a) [seq Some (low_bits vs kv.2) | kv <- c' & kv.1 == a]).
    elim: c' acc => [|[k x] c' IH] acc /=; first by exists acc.
    rewrite (to_elem _ hv) /=; have [b -> [hob hb]] := IH (nm_set acc k (low_bits vs x)).
    exists b => //; split=> [h|a]; first by apply: hob; apply: nm_set_ordered.
    by rewrite hb nm_find_set eq_sym; case: eqP.
  have [b -> [hob hb']] := hb c [::]; have {}hob := hob isT; cbn [obind].
  have hfind a : nm_find b a = Option.map (low_bits vs) (nm_find c a).
    rewrite hb'; move: ho; clear; rewrite /nm_ordered.
    elim: c => [|[k x] c IH] //= ho.
    case: (eqVneq k a) => [e|ne] /=; last by rewrite IH // (path_sorted ho).
    subst k; suff -> : [seq kv <- c | kv.1 == a] = [::] by [].
    have := order_path_min ltn_trans ho; clear; elim: c => [|[k y] c IH] //= /andP[h1 h2].
    by rewrite IH // gtn_eqF.
  have [||t -> g] := @of_map_good H n (log2 num) vs b hd hn hob.
  - move=> k; rewrite -nm_find_keys hfind => h; apply: (allP hk).
    by rewrite -nm_find_keys; case: nm_find h.
  - by move=> k x; rewrite hfind; case: nm_find => //= y [<-]; rewrite size_low_bits.
  eexists; first by []; split=> //=.
  by apply: good_ext g => a; rewrite hfind; case: nm_find => [x|] /=; rewrite ?low_bits0.
rewrite /=; move: m0 init_value g0 hw; clear ho hk.
elim: ws => [|[a x] ws IH] m f g /=; first by exists m.
case/andP=> ha hw; have [g1 g2 g3] := g.
rewrite /dm_set_value g2 (to_elem _ hv) /=.
have [t -> g'] := set_good g3 ha (size_low_bits vs x); cbn [obind].
have [|m' -> hm'] := IH (DelegatedMemory (dm_num_addresses m) vs t) (fun b => if b == a then x else f b) _ hw; last first.
  exists m' => //; case: hm' => h1 h2 h3; split=> //.
  by apply: good_ext h3 => b; rewrite value_at_cons.
split=> //=; apply: good_ext g' => b; by case: eqP.
Qed.

(** ** C37 *)

(** The plain memory: after construction in any of the three ways and any history of
    writes, reading an address below the number of addresses gives the last value written
    there, or else the initial one; reading any other address aborts. *)
Theorem C37_plain_history num_addresses value_size init writes a :
  rm_get_value (plain_after num_addresses value_size init writes) a =
  if a < num_addresses then Ok (value_at (initial_value init) writes a) else AssertFail.
Proof.
have [h1 h2] := plain_spec num_addresses value_size init writes a.
by rewrite /rm_get_value h1; case: (a < num_addresses) => //=; rewrite h2.
Qed.
Print Assumptions C37_plain_history.

(** The delegated memory, for every hash function: after construction and any history of
    writes at addresses of the tree, reading gives the last value written (or the initial one)
    truncated to the value size; the root is the Merkle root of the low bits of the values and
    the authentication paths verify against it. *)
Theorem C37_delegated_history H n num_addresses value_size init writes :
  let initial a := odflt 0%num (nm_find (odflt [::] init) a) in
  let depth := log2 num_addresses in
  let leaf a := pad n (low_bits value_size (value_at initial writes a)) in
  let root := merkle_root H leaf depth in
  depth < 64 -> value_size <= 64 -> value_size <= n ->
  nm_ordered (odflt [::] init) -> all (fun k => k < 2 ^ depth) (nm_keys (odflt [::] init)) ->
  all (fun w => w.1 < 2 ^ depth) writes ->
  exists m, [/\ delegated_after H n num_addresses value_size init writes = Ok m,
    forall a, a < 2 ^ depth -> dm_get_value m a = Ok (truncate value_size (value_at initial writes a)),
    dm_get_root m = Ok root &
    forall a, a < 2 ^ depth -> exists path, [/\ dm_get_path m a = Ok path, size path = depth &
      path_verifies H root a (leaf a) path]].
Proof.
move=> initial depth leaf root hd hv hn ho hk hw.
have [m e [g1 g2 g]] := delegated_spec H hd hv hn ho hk hw; exists m; split=> //.
- move=> a ha; rewrite /dm_get_value (get_value_good g ha) g2; exact: from_elem.
- exact: get_root_good g.
- move=> a ha; eexists; split; [exact: get_path_good g ha|by rewrite size_mkseq|exact: path_good].
Qed.
Print Assumptions C37_delegated_history.

(** The two memories agree on every history of in-range addresses and values, whatever the hash. *)
Theorem C37_agreement H n num_addresses value_size init writes :
  let contents := odflt [::] init in
  log2 num_addresses < 64 -> value_size <= 64 -> value_size <= n ->
  nm_ordered contents ->
  all (fun w => (w.1 < num_addresses) && (w.2 <? 2 ^ N.of_nat value_size)%num) (contents ++ writes) ->
  exists2 m, delegated_after H n num_addresses value_size init writes = Ok m &
  forall a, a < num_addresses ->
    dm_get_value m a = rm_get_value (plain_after num_addresses value_size (FromMap contents) writes) a.
Proof.
move=> contents hd hv hn ho; rewrite all_cat => /andP[hc hw].
have hle a : a < num_addresses -> a < 2 ^ log2 num_addresses.
  by move=> h; apply: leq_trans h _; rewrite -log2_le.
have [|| m [e hg _ _]] := @C37_delegated_history H n num_addresses value_size init writes hd hv hn ho.
- rewrite -/contents; apply/allP => k /mapP[kv /(allP hc) /andP[h _] ->]; exact: hle.
- by apply/allP => w /(allP hw) /andP[h _]; exact: hle.
exists m => // a ha; rewrite (hg _ (hle _ ha)) C37_plain_history ha; congr Ok.
suff h : (value_at (fun a => odflt 0%num (nm_find contents a)) writes a < 2 ^ N.of_nat value_size)%num.
  exact: N.mod_small.
rewrite /value_at.
have h0 : (odflt 0%num (nm_find contents a) < 2 ^ N.of_nat value_size)%num.
  case ef: (nm_find contents a) => [x|] /=; last by have := N.pow_nonzero 2 (N.of_nat value_size); lia.
  move/(nm_find_In _ _ ho): ef => hin.
  have /(allP hc) /andP[_ h] : (a, x) \in contents.
    by elim: contents hin {ho hc hg} => //= kv c IH [->|/IH h]; rewrite in_cons ?eqxx // h orbT.
  exact: (proj1 (N.ltb_lt _ _) h).
move: (odflt _ _) h0 => x; elim: writes x hw {e hg} => [|w ws IH] x //= /andP[/andP[_ hx] hw] h0.
by case: eqP => _ /=; apply: IH => //; exact: (proj1 (N.ltb_lt _ _) hx).
Qed.
Print Assumptions C37_agreement.

(** Writes to the plain memory are not range-checked: one outside the range never aborts and has
    no effect on any later in-range read. *)
Theorem C37_plain_write_unchecked num_addresses value_size init writes a v b :
  num_addresses <= a -> b < num_addresses ->
  rm_get_value (plain_after num_addresses value_size init (rcons writes (a, v))) b =
  rm_get_value (plain_after num_addresses value_size init writes) b.
Proof.
move=> ha hb; rewrite !C37_plain_history hb /value_at filter_rcons /=.
by rewrite gtn_eqF // (leq_trans hb).
Qed.
Print Assumptions C37_plain_write_unchecked.

(** The two memories differ when values do not fit ... *)
Theorem C37_wide_values_refuted H n num_addresses value_size a v :
  log2 num_addresses < 64 -> value_size <= 64 -> value_size <= n -> a < num_addresses ->
  (2 ^ N.of_nat value_size <= v)%num ->
  exists m v', [/\ delegated_after H n num_addresses value_size None [:: (a, v)] = Ok m,
    dm_get_value m a = Ok v', v' <> v &
    rm_get_value (plain_after num_addresses value_size FromNothing [:: (a, v)]) a = Ok v].
Proof.
move=> hd hv hn ha hbig.
have ha' : a < 2 ^ log2 num_addresses by apply: leq_trans ha _; rewrite -log2_le.
have hk : all (fun w : nat * N => w.1 < 2 ^ log2 num_addresses) [:: (a, v)] by rewrite /= ha'.
have [m [e hg _ _]] := @C37_delegated_history H n num_addresses value_size None [:: (a, v)] hd hv hn isT isT hk.
exists m, (truncate value_size v); split=> //.
- by rewrite hg //= /value_at /= eqxx.
- rewrite /truncate => h; have := N.mod_lt v (2 ^ N.of_nat value_size); rewrite h.
  have := N.pow_nonzero 2 (N.of_nat value_size); lia.
- by rewrite C37_plain_history ha /value_at /= eqxx.
Qed.
Print Assumptions C37_wide_values_refuted.

(** ... and at the addresses between the number of addresses and the next power of two, which
    only the plain memory refuses. *)
Theorem C37_range_refuted H n num_addresses value_size a v :
  log2 num_addresses < 64 -> value_size <= 64 -> value_size <= n ->
  num_addresses <= a -> a < 2 ^ log2 num_addresses ->
  exists m, [/\ delegated_after H n num_addresses value_size None [:: (a, v)] = Ok m,
    dm_get_value m a = Ok (truncate value_size v) &
    rm_get_value (plain_after num_addresses value_size FromNothing [:: (a, v)]) a = AssertFail].
Proof.
move=> hd hv hn ha ha'.
have hk : all (fun w : nat * N => w.1 < 2 ^ log2 num_addresses) [:: (a, v)] by rewrite /= ha'.
have [m [e hg _ _]] := @C37_delegated_history H n num_addresses value_size None [:: (a, v)] hd hv hn isT isT hk.
exists m; split=> //; first by rewrite hg //= /value_at /= eqxx.
by rewrite C37_plain_history ltnNge ha.
Qed.
Print Assumptions C37_range_refuted.

(** Far out of range the delegated memory aborts; values wider than a machine word are undefined. *)
Theorem C37_delegated_out_of_range H m a v :
  2 ^ mt_depth (dm_contents m) < a -> dm_value_size m <= 64 ->
  [/\ dm_get_value m a = AssertFail, dm_set_value H m a v = AssertFail & dm_get_path m a = AssertFail].
Proof.
move=> ha hv; rewrite /dm_get_value /dm_set_value /dm_get_path to_elem //=.
by have [-> -> ->] := C22_merkle_out_of_range H (low_bits (dm_value_size m) v) ha.
Qed.
Print Assumptions C37_delegated_out_of_range.

Theorem C37_word_size_refuted H n m a v : 64 < dm_value_size m ->
  dm_set_value H m a v = UB /\
  (forall num c, c <> [::] -> dm_of_map H n num (dm_value_size m) c = UB).
Proof.
move=> h; rewrite /dm_set_value /dm_of_map /int_to_tree_elem h; split=> // num [|kv c] //.
Qed.
Print Assumptions C37_word_size_refuted.

(** *** The store trace *)

(** The trace after setting the entries in any order. *)
Definition trace_after (sets : seq (nat * (nat * N))) : memory_store_trace :=
  foldl (fun t s => set_trace_entry t s.1 s.2) [::] sets.

Lemma trace_find sets t ts :
  nm_find (foldl (fun t s => set_trace_entry t s.1 s.2) t sets) ts =
  last (nm_find t ts) [seq Some s.2 | s <- sets & s.1 == ts].
Proof.
elim: sets t => [|s ss IH] t //=; rewrite IH nm_find_set eq_sym; by case: eqP.
Qed.
Lemma trace_ordered sets : nm_ordered (trace_after sets).
Proof.
rewrite /trace_after; have : nm_ordered ([::] : memory_store_trace) by [].
elim: sets ([::] : memory_store_trace) => [|s ss IH] t //= h; apply: IH; exact: nm_set_ordered.
Qed.

Theorem C37_trace_entries sets ts :
  get_trace_entry (trace_after sets) ts = last (0, 0%num) [seq s.2 | s <- sets & s.1 == ts].
Proof.
rewrite /get_trace_entry trace_find /=.
have e (l : seq (nat * (nat * N))) o :
  odflt (0, 0%num) (last o [seq Some s.2 | s <- l]) = last (odflt (0, 0%num) o) [seq s.2 | s <- l].
  by elim: l o => //= s l IH o; rewrite IH.
by rewrite e.
Qed.
Print Assumptions C37_trace_entries.

(** The contents after a trace: the value at an address is the one stored with the latest timestamp. *)
Theorem C37_trace_contents sets a v :
  let t := trace_after sets in
  nm_find (as_memory_contents t) a = Some v <->
  exists2 ts, nm_find t ts = Some (a, v) &
    forall ts' v', nm_find t ts' = Some (a, v') -> ts' <= ts.
Proof.
move=> t; have ho : nm_ordered t := trace_ordered sets.
have fold0 (l : memory_store_trace) m : nm_find (foldl (fun m e => nm_set m e.2.1 e.2.2) m l) a =
    last (nm_find m a) [seq Some e.2.2 | e <- l & e.2.1 == a].
  elim: l m => [|e l IH] m //=; rewrite IH nm_find_set eq_sym; by case: eqP.
rewrite /as_memory_contents fold0 /=; move: t ho => t; clear fold0.
elim/last_ind: t => [|t [ts [b x]] IH] ho; first by split=> // -[].
have hsub : nm_ordered t by move: ho; rewrite /nm_ordered /nm_keys map_rcons -cats1; case/cat_sorted2.
have hbig ts' y : nm_find t ts' = Some y -> ts' < ts.
  move=> h; have hk : ts' \in nm_keys t by rewrite -nm_find_keys h.
  move: ho; rewrite /nm_ordered /nm_keys map_rcons /= => hs.
  have : pairwise ltn (rcons [seq kv.1 | kv <- t] ts) by rewrite -(sorted_pairwise ltn_trans).
  by rewrite pairwise_rcons => /andP[/allP /(_ _ hk)].
have fr ts' : nm_find (rcons t (ts, (b, x))) ts' = if ts' == ts then Some (b, x) else nm_find t ts'.
  have [e|ne] := eqVneq ts' ts.
    apply/(nm_find_In _ _ ho); rewrite e -cats1; apply: List.in_or_app; right; by left.
  clear -ne; elim: t => [|[k y] t IH] /=; first by rewrite eq_sym (negbTE ne).
  by case: eqP.
rewrite filter_rcons /=; have [e|ne] := eqVneq b a.
  rewrite map_rcons last_rcons /=; split=> [[<-]|[ts' h1 h2]].
    exists ts; first by rewrite fr eqxx e.
    by move=> ts' v'; rewrite fr; case: eqP => [->//|_ /hbig /ltnW].
  have hts := h2 ts x; rewrite fr eqxx e in hts; have {}hts := hts erefl.
  move: h1; rewrite fr; case: eqP => [_ [_ ->]//|ne /hbig h].
  by move: hts; rewrite leqNgt h.
rewrite (IH hsub); split=> -[ts' h1 h2]; exists ts'.
- by rewrite fr; case: eqP => // e; move: (hbig _ _ h1); rewrite e ltnn.
- by move=> ts2 v'; rewrite fr; case: eqP => [_ [e _]|_ /h2 //]; rewrite e eqxx in ne.
- by move: h1; rewrite fr; case: eqP => // _ [e _]; rewrite e eqxx in ne.
- move=> ts2 v' h3; apply: (h2 _ v'); rewrite fr; case: eqP => // e.
  by move: (hbig _ _ h3); rewrite e ltnn.
Qed.
Print Assumptions C37_trace_contents.

(** ** Examples *)

Example C37_plain_example :
  let m := plain_after 4 8 (FromVector [:: 5; 6; 7]%num) [:: (1, 9%num); (3, 2%num); (1, 300%num)] in
  [&& (if rm_get_value m 0 is Ok v then N.eqb v 5 else false),
      (if rm_get_value m 1 is Ok v then N.eqb v 300 else false),
      (if rm_get_value m 3 is Ok v then N.eqb v 2 else false) &
      (if rm_get_value m 4 is AssertFail then true else false)].
Proof. by vm_compute. Qed.

Example C37_delegated_example :
  let writes := [:: (2, 3%num); (0, 1%num); (2, 2%num)] in
  let init := [:: (1, 3%num); (2, 1%num)] in
  [&& log2 3 < 64, 2 <= 64, nm_ordered init, all (fun k => k < 2 ^ log2 3) (nm_keys init),
      all (fun w => w.1 < 2 ^ log2 3) writes,
      all (fun w => (w.1 < 3) && (w.2 <? 2 ^ N.of_nat 2)%num) (init ++ writes) &
      (if delegated_after toy_hash 2 3 2 (Some init) writes is Ok m then
         [&& (if dm_get_value m 2 is Ok v then N.eqb v 2 else false),
             (if dm_get_value m 1 is Ok v then N.eqb v 3 else false) &
             (if dm_get_value m 0 is Ok v then N.eqb v 1 else false)] else false)].
Proof. by vm_compute. Qed.

Example C37_trace_example :
  let t := trace_after [:: (5, (1, 7%num)); (2, (1, 9%num)); (3, (0, 4%num))] in
  (if nm_find (as_memory_contents t) 1 is Some v then N.eqb v 7 else false) &&
  (if nm_find (as_memory_contents t) 0 is Some v then N.eqb v 4 else false).
Proof. by vm_compute. Qed.
