(** The two hash gadgets satisfy the contract of MerkleComplete.v. *)
From Coq Require Import NArith ZifyN.
From mathcomp Require Import all_ssreflect all_algebra zify.
From Verif Require Import Outcome Lincomb LincombSpec LincombFacts R1CS R1CSSpec R1CSFacts Fieldtac.
From Verif Require Import Protoboard GadgetSpec GadgetLogic BasicGadgets BasicGadgetsFacts BasicGadgetsMore BasicGadgetsCopy GadgetNew.
From Verif Require Import Sha256Spec Sha256Gadget Sha256Bits GadgetSeq Sha256Compress Sha256Hash GadgetPost.
From Verif Require Import Knapsack MerkleGadget MerkleGadgetSpec MerkleSound KnapsackFacts MerkleHash MerkleComplete.
Set Implicit Arguments.
Unset Strict Implicit.
Unset Printing Implicit Defensive.
Local Open Scope ring_scope.
Import GRing.Theory.
Local Opaque allocate_array iota.
Delimit Scope N_scope with num.

Section Sha.
Variable F : fieldType.
Variable R : bigint_repr F.
Hypothesis hR : (2 ^ (32 + 3) <= fp_order R)%N.
Local Notation ksz pb := (size (pb_lc_values pb)).
Local Notation sz pb := (size (pb_values pb)).
Local Notation HT := (sha256_hash R).

Definition sha_slot (pb : protoboard F) (_ : pb_variable_array) (i : nat) : linear_combination F :=
  if (i - ksz pb < 256)%N then iv_term F (i - ksz pb) else lc_of_var F 1%N.

Lemma iv_within P i : within P (iv_term F i).
Proof. by rewrite /within /iv_term /=. Qed.

Lemma sha_completes : hash_completes HT (2 * hg_digest_len HT) sha256_two_to_one sha_slot.
Proof.
split.
- move=> pb block out hw hb ho; have hb' : size block = (32 * 16)%N by rewrite hb.
  have [g [pb' [e _]]] := hash_len hw hb' ho; exists g, pb'.
  by rewrite /= /two_to_one_new_block hb; cbn [oassert]; exact: e.
- exact: sha_allocates.
- move=> pb block out g pb1 ee hw hb ho /sha_new_inv [hb' e].
  have [g' [pb' [e' h]]] := hash_len hw hb' ho.
  have hg : g' = g by move: e; rewrite e' => -[hg _].
  by rewrite /= /two_to_one_constraints -hg h /sha256_expected_constraints; clear; lia.
- by [].
- move=> pb block out g pb1 i hw hb ho hv /sha_new_inv [hb' e] hi; rewrite /sha_slot.
  have [pb2 [e2 a2 v2 l2]] := hash_inv hw e; clear e.
  have a3 := compression_alloc (allocates_wf a2) hR (size_iv F _) hb' ho e2; clear e2.
  have hs2 : ksz pb2 = (ksz pb + 256)%N by rewrite l2 size_cat size_map size_iota.
  case: ltnP => h2 hw'; last by [].
  case: a3 => _ _ [zs ->] _; rewrite nth_cat hs2 ifT; last by move: hi h2; clear; lia.
  rewrite l2 nth_cat ltnNge; case/andP: hi => -> _ /=.
  rewrite (nth_map 0%N) ?size_iota // nth_iota // add0n.
  by rewrite /iv_term /formal_sum /= big_seq1 /= /xval /= mulr1.
move=> pb block out g pb1 slot N Ks hw hb ho en hN hK hs hv hu hou.
have [hb' e] := sha_new_inv en; move/Hid: en => en.
have [pb2 [e2 a2 v2 l2]] := hash_inv hw e; clear e; move/Hid: e2 => e2.
have hs2 : ksz pb2 = (ksz pb + 256)%N by rewrite l2 size_cat size_map size_iota.
have a3 := compression_alloc (allocates_wf a2) hR (size_iv F _) hb' ho (unhid e2).
have k3 := allocates_ksize a3.
have -> : fresh_vars pb pb1 = fresh_vars pb2 pb1 by rewrite /fresh_vars v2.
have ivIn l : List.In l (iv F (ksz pb)) -> exists2 i, (i < 256)%N & l = iv_lc F (ksz pb) i.
  move=> hin; have [i [el hi]] := iffLR (List.in_map_iff (iv_lc F (ksz pb)) (iota 0 256) l) hin.
  by exists i => //; move: (iffLR (CircuitsFacts.In_mem _ _) hi); rewrite mem_iota.
have slE i : (i < 256)%N -> slot (ksz pb + i)%N = iv_term F i.
  move=> hi; rewrite hs; last by move: hi hs2 k3; clear; lia.
  by rewrite /sha_slot addKn hi.
have [_ G] : allocates pb2 pb1 /\
  gok slot N Ks (mem block) (out ++ fresh_vars pb2 pb1) (compression_witness R g) (compression_constraints g)
    (fun x k => bits_ready (iv F (ksz pb)) x k /\ all_bits (plcs_of_vars F block) x k).
  apply: (@compression_gok F R slot N Ks (mem block) pb2 _ _ _ _ _ (allocates_wf a2) hR (size_iv F _) hb' ho (unhid e2) hN).
  - by move=> v hvv; rewrite v2; have /andP [] := allP hv v hvv.
  - split=> // v hvv; rewrite v2; split; first exact: (allP hou).
    by apply/negP => hvb; have /andP [_] := allP hv v hvb; rewrite hvv.
  - move=> l /ivIn [i hi ->]; split; last exact: iv_within.
    rewrite /lc_proper /= slE //; split=> //.
    by move: hi hs2 k3 hK; clear; lia.
  - exact/allP.
have Sp : stable slot N Ks (mem block) (fun x k => var_isbits x block /\ ready slot (ksz pb) (ksz pb1) k).
  move=> m x k x' k' sx sk hws hm [q1 q2]; split; last exact: (stable_ready0 sx sk hws hm q2).
  by apply: (stable_isbits _ sx sk hws hm q1); apply/allP.
have Q : gq slot N Ks (mem block) (out ++ fresh_vars pb2 pb1) (compression_witness R g)
   (fun x k => var_isbits x block /\ ready slot (ksz pb) (ksz pb1) k) (fun x _ => holds (compression_constraints g) x).
  apply: (gq_pre (gok_gq G)) => x k sx sk [q1 q2]; split.
    move=> l /ivIn [i hi ->]; split; first by rewrite lval_iv; exact: isbit_bit_val.
    right; rewrite /= q2; first by rewrite slE // lval_iv /iv_term /formal_sum /= big_seq1 /= /xval /= mulr1.
      by move: hi hs2 k3; clear; lia.
    by rewrite slE //; exact: iv_within.
  by rewrite /all_bits all_isbit_plcs.
have [Hst _ _] := Q.
apply: (gq_post (gq_keep Q Sp)); last first.
  move=> x k [[q1 _] q2]; have [h1 h2] := @sha_bits F R hR pb block out g pb1 true x hw ho (unhid en) q1 q2.
  by split.
move=> m x k x' k' sx sk hws hm [q1 q2 q3]; split.
- exact: (Hst _ _ _ _ _ sx sk hws hm q1).
- apply: (stable_isbits _ sx sk hws hm q2); apply/allP => v hvv; apply/orP; right.
  by rewrite /= mem_cat hvv.
move: (sha256_two_to_one) q3 => H q3; move: q3; clear en e2 G Q Hst Sp.
have h : all [predU mem block & mem (out ++ fresh_vars pb2 pb1)] (out ++ block).
  apply/allP => v; rewrite mem_cat => /orP [hvv|hvv]; apply/orP; [right|by left].
  by rewrite /= mem_cat hvv.
have := @stable_vals F slot N Ks _ (out ++ block) (fun l => map (@bit_of F) (take (size out) l) = H (map (@bit_of F) (drop (size out) l))) h m x k x' k' sx sk hws hm.
by rewrite !map_cat !take_size_cat ?drop_size_cat ?size_map // -!map_comp.
Qed.
End Sha.

Section Knapsack.
Variable F : fieldType.
Variable R : bigint_repr F.
Variable dimension : nat.
Variable rng : nat -> F.
Variable cache : seq F.
Hypothesis hcache : cache_ok rng cache.
Local Notation ksz pb := (size (pb_lc_values pb)).
Local Notation sz pb := (size (pb_values pb)).
Local Notation KH := (knapsack_hash R dimension rng cache).
Local Notation sib := (size_in_bits R).
Implicit Types (x k : seq F) (pb : protoboard F).

(** The digest of [get_hash]. *)
Definition knapsack_digest (b : seq bool) : seq bool :=
  flatten [seq field_element_bits R (subset_sum rng b i) | i <- iota 0 dimension].
Definition knapsack_slot pb (out : pb_variable_array) (i : nat) : linear_combination F :=
  pb_packing_sum (plcs_of_vars F (nslice out sib (i - ksz pb))).

Lemma fill_with_bits_of_lcs pb vs r : fill_with_bits_of pb vs r = lcs_fill_with_bits_of pb (plcs_of_vars F vs) r.
Proof.
rewrite /fill_with_bits_of /lcs_fill_with_bits_of /plcs_of_vars size_map.
elim: vs (iota 0 (size vs)) pb => [|v vs IH] [|i is'] pb //=.
by rewrite /pb_lc_set /=; case: (pb_set pb v _) => //= pb'.
Qed.
Lemma take_step (T : Type) (s : seq T) m i : take (m * i.+1) s = take (m * i) s ++ nslice s m i.
Proof. by rewrite mulnSr takeD. Qed.
Lemma size_field_bits a : size (field_element_bits R a) = sib.
Proof. by rewrite size_map size_iota. Qed.

Lemma lc_sets_ok pb x k base (f : nat -> F) m : (base + m <= size k)%N ->
  exists k', [/\ ofold (fun pb i => pb_lc_set pb (PbLc false (base + i) (@lc_zero F)) (f i)) (upd pb x k) (iota 0 m) = Ok (upd pb x k'),
    size k' = size k, forall i, (i < m)%N -> nth 0 k' (base + i) = f i &
    forall j, ~~ (base <= j < base + m)%N -> nth 0 k' j = nth 0 k j].
Proof.
elim: m => [|m IH] hm; first by exists k.
have [|k' [e sk h1 h2]] := IH; first by lia.
exists (set_nth 0 k' (base + m) (f m)).
have hk : (base + m < size k')%N by rewrite sk; lia.
have sk' : size (set_nth 0 k' (base + m) (f m)) = size k by rewrite size_set_nth sk; lia.
have -> : iota 0 m.+1 = iota 0 m ++ [:: m] by rewrite -addn1 iotaD.
rewrite ofold_cat e /=; split=> //.
- by rewrite /pb_lc_set /= hk /= (oput_set_nth 0).
- move=> i hi; rewrite nth_set_nth /= eqn_add2l; case: eqP => [->//|hne]; apply: h1; lia.
move=> j hj; rewrite nth_set_nth /=; case: eqP => [e0|hne]; first by move: hj; rewrite e0; lia.
by apply: h2; lia.
Qed.

Lemma fills_ok pb x k out base (f : nat -> F) : assignable (size x) out -> size out = (dimension * sib)%N ->
  (base + dimension <= size k)%N -> (forall i, (i < dimension)%N -> nth 0 k (base + i) = f i) ->
  exists x', [/\ ofold (fun pb i => let! v := pb_lc_val pb (PbLc false (base + i) (@lc_zero F)) in
                          fill_with_bits_of pb (nslice out sib i) (as_bigint R v)) (upd pb x k) (iota 0 dimension) = Ok (upd pb x' k),
    changes_only out x x' & map (xval x') out = map (bit_val F) (flatten [seq field_element_bits R (f i) | i <- iota 0 dimension])].
Proof.
move=> [uo ao] so hk hf.
suff H : forall m, (m <= dimension)%N -> exists x', [/\ ofold (fun pb i => let! v := pb_lc_val pb (PbLc false (base + i) (@lc_zero F)) in
                          fill_with_bits_of pb (nslice out sib i) (as_bigint R v)) (upd pb x k) (iota 0 m) = Ok (upd pb x' k),
    changes_only (take (sib * m) out) x x' &
    map (xval x') (take (sib * m) out) = map (bit_val F) (flatten [seq field_element_bits R (f i) | i <- iota 0 m])].
  by have := H dimension (leqnn _); rewrite take_oversize // so mulnC.
elim=> [|m IH] hm; first by exists x; split=> //; rewrite muln0 take0.
have [|x' [e [sx hc] hv]] := IH; first exact: ltnW.
have hsub : {subset nslice out sib m <= out} by move=> v /mem_take /mem_drop.
have [|x2 [e2 [sx2 hc2] hv2]] := @fill_bits_ok F pb x' k (nslice out sib m) (as_bigint R (f m)).
  by split; [apply: take_uniq; apply: drop_uniq|apply/allP => v /hsub hvv; rewrite sx (allP ao v hvv)].
have sn : size (nslice out sib m) = sib by apply: (@size_nslice dimension).
have dis v : v \in take (sib * m) out -> v \notin nslice out sib m.
  move=> h1; have : uniq (take (sib * m.+1) out) by apply: take_uniq.
  by rewrite take_step cat_uniq => /and3P [_ /hasPn h2 _]; apply/negP => /h2 /negP.
exists x2; have -> : iota 0 m.+1 = iota 0 m ++ [:: m] by rewrite -addn1 iotaD.
rewrite ofold_cat e take_step; split.
- cbn [ofold obind]; rewrite /pb_lc_val [lc_is_variable _]/= [lc_index _]/=; cbn [pb_lc_values upd].
  have hlt : (base + m < size k)%N by lia.
  by rewrite hlt /= (oget_nth 0) //= hf // fill_with_bits_of_lcs e2.
- split; first by rewrite sx2.
  by move=> v; rewrite mem_cat negb_or => /andP [h1 h2]; rewrite hc2 // hc.
rewrite 2!map_cat flatten_cat map_cat /= cats0; congr (_ ++ _).
  by rewrite -hv; apply/eq_in_map => v /dis h; rewrite hc2.
by rewrite hv2 sn /field_element_bits -[in RHS]map_comp; apply: eq_map => i /=; rewrite bit_valE.
Qed.

Lemma knapsack_cs_within P g : all P (kf_block g) -> (forall i, (i < dimension)%N -> within P (lc_terms (nth (plc_of_var F 0%N) (kf_output g) i))) ->
  cs_within P (knapsack_field_constraints dimension cache g).
Proof.
move=> h1 h2; rewrite /cs_within all_map; apply/allP => i; rewrite mem_iota add0n => hi.
rewrite /= /cwithin [c_a _]/= [c_b _]/= [c_c _]/= within_int h2 // andbT /= /knapsack_row /pb_coeff_sum /oassert.
case: eqP => //= _; rewrite within_from_terms; move: (nslice _ _ _) => cs; clear h2.
elim: (kf_block g) cs h1 => [|v vs IH] [|c cs] //= /andP [hv hvs].
by rewrite hv orbT /=; apply: IH.
Qed.

Lemma new_outputs_ok (ls : nat -> linear_combination F) ts pb :
  exists os pb', new_all (fun i pb => Ok (lc_assign pb (ls i))) ts pb = Ok (os, pb').
Proof.
elim: ts pb => [|i l IH] pb; first by exists [::], pb.
have [os [pb2 e]] := IH (lc_assign pb (ls i)).2.
by exists ((lc_assign pb (ls i)).1 :: os), pb2; rewrite /= e.
Qed.

Lemma knapsack_slots_within out (i : nat) : size out = (dimension * sib)%N -> (i < dimension)%N ->
  all (fun v => 0 < v)%N out -> exists2 v, v \in out & forall P, within P (pb_packing_sum (plcs_of_vars F (nslice out sib i))) -> P v.
Proof.
move=> so hi h0; have sn : size (nslice out sib i) = sib by apply: (@size_nslice dimension).
have hsib := size_in_bits_gt1 R.
have hv : nth 0%N (nslice out sib i) 0 \in nslice out sib i by apply: mem_nth; rewrite sn ltnW.
have ho : nth 0%N (nslice out sib i) 0 \in out by move: hv => /mem_take /mem_drop.
exists (nth 0%N (nslice out sib i) 0) => // P; rewrite within_packing_sum all_map => /allP /(_ _ hv) /=.
by rewrite andbT; case/orP => // /eqP e; have := allP h0 _ ho; rewrite e.
Qed.

Lemma eq_in_ofold (T : eqType) (St : Type) (f g : St -> T -> outcome St) s (ts : seq T) :
  (forall s t, t \in ts -> f s t = g s t) -> ofold f s ts = ofold g s ts.
Proof.
elim: ts s => //= t ts IH s h; rewrite h ?inE ?eqxx //; case: (g s t) => //= s'.
by apply: IH => u v hv; apply: h; rewrite inE hv orbT.
Qed.
Lemma nslice_flatten (T : Type) (g : nat -> seq T) m d i : (forall j, size (g j) = m) -> (i < d)%N ->
  nslice (flatten [seq g j | j <- iota 0 d]) m i = g i.
Proof.
move=> hg hi; have -> : iota 0 d = iota 0 i ++ i :: iota i.+1 (d - i.+1).
  have -> : i :: iota i.+1 (d - i.+1) = iota (0 + i) (d - i.+1).+1 by rewrite add0n.
  by rewrite -iotaD; congr iota; lia.
rewrite map_cat flatten_cat /= /nslice drop_size_cat; last first.
  elim: (i) 0%N => [|j IH] a /=; first by rewrite muln0.
  by rewrite size_cat hg IH mulnS.
by rewrite take_size_cat.
Qed.
Lemma field_bits_nat a : (bits_nat (field_element_bits R a))%:R = a.
Proof.
rewrite /field_element_bits bits_nat_test_bit modn_small ?as_bigintK //.
apply: leq_trans (as_bigint_lt R a) _; apply: ltnW; by rewrite -num_bits_le.
Qed.

Lemma knapsack_completes len : (dimension * len <= size cache)%N ->
  hash_completes KH len knapsack_digest knapsack_slot.
Proof.
move=> hsz; have hsib := size_in_bits_gt1 R.
have hex : extended dimension rng cache len = cache by rewrite /extended ltnNge hsz.
split.
- move=> pb block out hw hb ho /=; rewrite /knapsack_bit_new ho eqxx /=.
  have [os [pb' e]] := new_outputs_ok (fun i => pb_packing_sum (plcs_of_vars F (nslice out sib i))) (iota 0 dimension) pb.
  rewrite e /= /knapsack_field_new hb eqxx /= (new_all_size e) size_iota eqxx /=.
  by eexists; eexists.
- exact: knapsack_allocates.
- move=> pb block out g pb1 ee hw hb ho /=; case e: (knapsack_bit_new _ _ _ _ _ _ _ _) => [[[g' pb'] c]| |] //= -[<- _].
  have [-> _ h2 _ _] := knapsack_bit_newE hw e.
  rewrite /knapsack_bit_constraints size_cat size_map size_iota /knapsack_bit_expected_constraints.
  by case: ee => /=; rewrite ?size_map ?h2.
- by move=> g x /=; rewrite /knapsack_bit_constraints cats0 holds_cat => -[].
- move=> pb block out g pb1 i hw hb ho hov /=; case e: (knapsack_bit_new _ _ _ _ _ _ _ _) => [[[g' pb'] c]| |] //= -[_ <-].
  have [_ _ h2 _ [_ _ ->]] := knapsack_bit_newE hw e => hi hwi.
  have [||v _ /(_ _ hwi) //] := @knapsack_slots_within out (i - ksz pb) h2; first by move: hi; clear; lia.
  by apply: sub_all hov => v /andP [].
move=> pb block out g pb1 slot N Ks hw hb ho /=; case e: (knapsack_bit_new _ _ _ _ _ _ _ _) => [[[g' pb'] c]| |] //= -[<- <-].
have [eg h1 h2 h3 [h4 h5 h6]] := knapsack_bit_newE hw e.
move=> hN hK hs hbl uo ao; rewrite h5 in hN; rewrite h6 in hK hs.
have ef : fresh_vars pb pb' = [::] by rewrite /fresh_vars h5 subnn.
rewrite ef cats0.
have o0 : all (fun v => 0 < v)%N out by apply: sub_all ao => v /andP [].
have hslot i : (i < dimension)%N -> slot (ksz pb + i)%N = pb_packing_sum (plcs_of_vars F (nslice out sib i)).
  by move=> hi; rewrite hs /knapsack_slot ?addKn //; lia.
have hcs : cs_within [predU mem block & mem out] (knapsack_bit_constraints dimension cache g' true).
  rewrite eg /knapsack_bit_constraints /cs_within all_cat; apply/andP; split.
    apply: knapsack_cs_within => /=; first by apply/allP => v hv; apply/orP; left.
    move=> i hi; rewrite (nth_map 0%N) ?size_iota // nth_iota // add0n [lc_terms _]/= within_packing_sum.
    by apply: within_plcs; apply/allP => v /mem_take /mem_drop hv; apply/orP; right.
  by rewrite /= all_map; apply/allP => v hv /=; rewrite /cwithin /= !wiE ?within_plc /= hv !orbT.
split.
- move=> m x k x' k' sx sk hws hm [q1 q2 q3]; split.
  + exact: (stable_holds hcs sx sk hws hm q1).
  + apply: (stable_isbits _ sx sk hws hm q2); apply/allP => v hvv; by apply/orP; right.
  move: (knapsack_digest) q3 => H; clear hcs.
  have h : all [predU mem block & mem out] (out ++ block).
    by apply/allP => v; rewrite mem_cat => /orP [hvv|hvv]; apply/orP; [right|left].
  have := @stable_vals F slot N Ks _ (out ++ block) (fun l => map (@bit_of F) (take (size out) l) = H (map (@bit_of F) (drop (size out) l))) h m x k x' k' sx sk hws hm.
  by rewrite !map_cat !take_size_cat ?drop_size_cat ?size_map // -!map_comp.
- move=> v hv; have /andP [q1 q2] := allP ao v hv; split; first by rewrite q1 (leq_trans q2).
  by apply/negP => hvb; have /andP [_] := allP hbl v hvb; rewrite hv.
move=> pb2 x k sx sk [hbits hready].
have hwx : pb_wf (upd pb2 x k) -> True by [].
have hinput pb3 k3 : get_bits (upd pb3 x k3) block = Ok (var_bits x block).
  rewrite /get_bits /var_bits; elim: (block) hbl hbits => [|v vs IH] //= /andP [/andP [q1 _] q2] /andP [q3 q4].
  rewrite pb_val_upd ?sx ?(leq_trans q1) //= /as_bit; move: q3; rewrite /isbit => ->.
  by rewrite /= IH.
have szb : size (var_bits x block) = len by rewrite size_map.
have [|k' [e1 sk' hk1 hk2]] := @lc_sets_ok pb2 x k (ksz pb) (subset_sum rng (var_bits x block)) dimension.
  by rewrite sk.
have [||x' [e2 hc2 hv2]] := @fills_ok pb2 x k' out (ksz pb) (subset_sum rng (var_bits x block)) _ h2 _ hk1.
- by split=> //; apply: sub_all ao => v /andP [-> q] /=; rewrite sx (leq_trans q).
- by rewrite sk' sk.
have hbl' v : v \in block -> xval x' v = xval x v.
  by case: hc2 => _ hc2 hv; apply: hc2; have /andP [] := allP hbl v hv.
have vb' : var_bits x' block = var_bits x block by apply/eq_in_map => v /hbl' ->.
have hob : var_isbits x' out.
  have : all (@isbit F) (map (xval x') out) by rewrite hv2 all_map; apply/allP => b _ /=; apply: isbit_bit_val.
  by rewrite all_map.
have hbd : var_bits x' out = knapsack_digest (var_bits x' block).
  rewrite vb' /var_bits (map_comp (@bit_of F) (xval x')) hv2 -map_comp.
  by rewrite -[RHS]map_id; apply: eq_map => b /=; rewrite bit_of_bit_val.
exists x', k'; split.
- rewrite eg /knapsack_bit_witness /knapsack_field_witness /= hinput /=.
  rewrite (eq_in_ofold (g := fun q i => pb_lc_set q (PbLc false (ksz pb + i) (@lc_zero F)) (subset_sum rng (var_bits x block) i))); last first.
    move=> s i; rewrite mem_iota add0n => hi.
    rewrite (oget_nth (plc_of_var F 0%N)) ?size_map ?size_iota // [obind _ _]/=.
    by rewrite (nth_map 0%N) ?size_iota // nth_iota // add0n /pb_lc_set /= (@knapsack_sumE F dimension rng).
  rewrite e1 /= hinput /=.
  rewrite (eq_in_ofold (g := fun q i => let! v := pb_lc_val q (PbLc false (ksz pb + i) (@lc_zero F)) in
                          fill_with_bits_of q (nslice out sib i) (as_bigint R v))) ?e2 //.
  move=> s i; rewrite mem_iota add0n => hi.
  rewrite (oget_nth (plc_of_var F 0%N)) ?size_map ?size_iota // [obind (Ok _) _]/=.
  by rewrite (nth_map 0%N) ?size_iota // nth_iota // add0n.
- split=> //.
  move=> i hav; left; apply: hk2; apply/negP => hi.
  have hi' : (i - ksz pb < dimension)%N by move: hi; clear; lia.
  have [v hv hP] := knapsack_slots_within h2 hi' o0.
  have hii : (ksz pb + (i - ksz pb))%N = i by move: hi; clear; lia.
  have hw2 : within (predC (mem out)) (slot i) by apply: sub_all hav => t /= ->; rewrite orbT.
  by rewrite -hii hslot // in hw2; have := hP _ hw2; rewrite /= hv.
split=> //.
have hbits' : var_isbits x' block.
  by apply/allP => v hv; rewrite hbl' //; apply: (allP hbits).
apply: (iffRL (knapsack_bitE true hw hcache e _ hbits')); first by rewrite h3 hex.
split=> // i hi; rewrite pack_var_bits ?nslice_isbits //.
have -> : var_bits x' (nslice out sib i) = nslice (var_bits x' out) sib i by rewrite nslice_map.
by rewrite hbd vb' /knapsack_digest nslice_flatten ?field_bits_nat // => j; apply: size_field_bits.
Qed.
End Knapsack.
