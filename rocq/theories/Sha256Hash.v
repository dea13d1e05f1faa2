(** The two-to-one hash gadget and the hash function made from it. *)
From Coq Require Import NArith.
From mathcomp Require Import all_ssreflect all_algebra zify.
From Verif Require Import Outcome Lincomb LincombSpec LincombFacts R1CS R1CSSpec R1CSFacts CircuitsFacts Fieldtac.
From Verif Require Import Protoboard GadgetSpec GadgetLogic BasicGadgets BasicGadgetsFacts BasicGadgetsMore GadgetNew.
From Verif Require Import Sha256Spec Sha256Bits Sha256Gadget GadgetSeq Sha256Facts Sha256Word Sha256Word2 Sha256Sched Sha256Sched2 Sha256Round Sha256Rounds Sha256Compress Sha256Count.
Set Implicit Arguments.
Unset Strict Implicit.
Unset Printing Implicit Defensive.
Local Open Scope ring_scope.
Import GRing.Theory.
Delimit Scope N_scope with num.
Local Opaque allocate_array iota.

Section Hash.
Variable F : fieldType.
Variable R : bigint_repr F.
Implicit Types (x : seq F) (pb : protoboard F) (P : pred nat).
Local Notation plcs := (plcs_of_vars F).
Local Notation plc := (plc_of_var F).
Local Notation arr := (pb_linear_combination_array F).
Local Notation sz pb := (size (pb_values pb)).

(** ** The initial value *)
Definition iv_term (i : nat) : linear_combination F := lc_of_term (var_scale ONE (bit_val F (default_IV_bit i))).
Definition iv_lc (base i : nat) : pb_linear_combination F := PbLc false (base + i) (iv_term i).
Definition iv_bits (n : nat) : seq bool := [seq default_IV_bit i | i <- iota 0 n].

Lemma oput_rcons (A : Type) (v : seq A) (a b : A) : oput (rcons v a) (size v) b = Ok (rcons v b).
Proof. by elim: v => //= c v ->. Qed.

Lemma iv_step pb i : pb_wf pb ->
  exists pb', [/\ (let: (l, pb1) := lc_assign pb (iv_term i) in let! pb2 := lc_evaluate pb1 l in Ok (l, pb2)) =
     Ok (PbLc false (size (pb_lc_values pb)) (iv_term i), pb'), allocates pb pb',
     pb_values pb' = pb_values pb & pb_lc_values pb' = rcons (pb_lc_values pb) (bit_val F (default_IV_bit i))].
Proof.
case: pb => c vs nv nl lv cs [/= -> -> -> hn].
rewrite /lc_assign /allocate_lc /lc_evaluate /=.
rewrite add0r mulr1 /pb_lc_set /= size_rcons ltnS leqnn oput_rcons /=.
eexists; split; first reflexivity.
- split=> //=.
  + by split=> //=; rewrite size_rcons.
  + by exists [::]; rewrite cats0.
  by exists [:: bit_val F (default_IV_bit i)]; rewrite cats1.
- by [].
by [].
Qed.

Lemma iv_all b n a pb : pb_wf pb -> size (pb_lc_values pb) = (b + a)%N ->
  exists pb', [/\ new_all (fun i pb => let: (l, pb1) := lc_assign pb (iv_term i) in
                     let! pb2 := lc_evaluate pb1 l in Ok (l, pb2)) (iota a n) pb =
     Ok ([seq iv_lc b i | i <- iota a n], pb'),
     allocates pb pb',
     pb_values pb' = pb_values pb &
     pb_lc_values pb' = pb_lc_values pb ++ [seq bit_val F (default_IV_bit i) | i <- iota a n]].
Proof.
elim: n a pb => [|n IH] a pb hwf hb.
  exists pb; split=> //=; last by rewrite cats0.
  exact: allocates_refl.
have [pb1 [e1 a1 v1 l1]] := iv_step a hwf.
have [|pb2 [e2 a2 v2 l2]] := IH a.+1 pb1 (let: And4 h _ _ _ := a1 in h).
  by rewrite l1 size_rcons hb addnS.
have hi : iota a n.+1 = a :: iota a.+1 n by [].
exists pb2; split.
- rewrite hi; cbn [new_all]. rewrite e1. cbn [obind fst snd]. rewrite e2. cbn [obind fst snd map].
  by rewrite /iv_lc hb.
- exact: allocates_trans a1 a2.
- by rewrite v2.
by rewrite l2 l1 hi /= -cats1 -catA.
Qed.

Definition iv (b : nat) : arr := [seq iv_lc b i | i <- iota 0 256].
Lemma size_iv b : size (iv b) = (32 * 8)%N. Proof. by rewrite size_map size_iota. Qed.
Lemma default_IVE pb : pb_wf pb ->
  exists pb', [/\ SHA256_default_IV pb = Ok (iv (size (pb_lc_values pb)), pb'), allocates pb pb',
     pb_values pb' = pb_values pb &
     pb_lc_values pb' = pb_lc_values pb ++ [seq bit_val F (default_IV_bit i) | i <- iota 0 256]].
Proof. by move=> h; apply: iv_all; rewrite ?addn0. Qed.
Lemma lval_iv x b i : lval x (iv_lc b i) = bit_val F (default_IV_bit i).
Proof. by rewrite /lval /formal_sum /= big_seq1 /= /xval /= mulr1. Qed.
Lemma isbit_iv x b : all (fun l => isbit (lval x l)) (iv b).
Proof. by rewrite all_map; apply/allP => i _ /=; rewrite lval_iv /isbit /bit_val; case: ifP; rewrite eqxx ?orbT. Qed.
Lemma bools_iv x b : bools x (iv b) = iv_bits 256.
Proof.
rewrite /bools -map_comp; apply: eq_map => i /=; rewrite lval_iv /bit_val.
by rewrite /bit_of; case: (default_IV_bit i); rewrite ?eqxx // eq_sym oner_eq0.
Qed.
Lemma iv_words x b : words_of_bits 8 (bools x (iv b)) = H256.
Proof. rewrite bools_iv. by vm_compute. Qed.

(** ** Running a gadget *)
Lemma gok_run slot P m W cs pre pb : pb_wf pb ->
  gok slot (size (pb_values pb)) (size (pb_lc_values pb)) P m W cs pre -> pre (pb_values pb) (pb_lc_values pb) ->
  exists pb', [/\ W pb = Ok pb', assigns m pb pb' & holds cs (pb_values pb')].
Proof.
move=> hw [_ _ h] hp; have [x' [k' [e hs hh]]] := h pb _ _ erefl erefl hp.
exists (upd pb x' k'); split=> //; first by rewrite -e (board_of hw).
exact: assigns_upd hw hs.
Qed.

(** The variables of [pb] except those of [m]. *)
Definition others pb (m : seq nat) : pred nat := fun v => (v <= sz pb)%N && (v \notin m).
Lemma below_others pb m : below pb (others pb m). Proof. by move=> v /andP []. Qed.
Lemma outs_others pb m : uniq m -> all (is_var pb) m -> outs pb (others pb m) m.
Proof. by move=> hu /allP ha; split=> // v hv; split; [exact: ha|rewrite negb_and hv orbT]. Qed.
Lemma inp_others slot N Ks pb m (l : pb_linear_combination F) :
  lc_proper slot (sz pb) (size (pb_lc_values pb)) l -> avoids m (lc_terms l) ->
  (sz pb <= N)%N -> (size (pb_lc_values pb) <= Ks)%N -> inp slot N Ks (others pb m) l.
Proof.
move=> hp ha hN hK; split; first exact: lc_proper_le hp.
have hr := lc_proper_range hp; apply/allP => t ht; rewrite /others.
by rewrite (allP ha t ht) andbT; apply/orP; right; exact: (allP hr t ht).
Qed.

Lemma compression_alloc pb0 prev new_block output g pb1 : pb_wf pb0 -> (2 ^ (32 + 3) <= fp_order R)%N ->
  size prev = (32 * 8)%N -> size new_block = (32 * 16)%N -> size output = (32 * 8)%N ->
  compression_new pb0 prev new_block output = Ok (g, pb1) -> allocates pb0 pb1.
Proof.
move=> hw hR hp hb ho e.
have [pb2 [pb3 [sd [rs [st1 [pb5 [red]]]]]]] := compression_inv hw hR hp hb ho e; clear e.
case=> -[a1 z1] [e2 a2] [e3 a3] [a4 z4 e4 a5] _.
exact: allocates_trans (allocates_trans a1 a2) (allocates_trans a3 (allocates_trans a4 a5)).
Qed.

Theorem compression_complete slot pb0 prev new_block output g pb1 pb : pb_wf pb0 -> (2 ^ (32 + 3) <= fp_order R)%N ->
  size prev = (32 * 8)%N -> size new_block = (32 * 16)%N -> size output = (32 * 8)%N ->
  compression_new pb0 prev new_block output = Ok (g, pb1) -> later pb1 pb ->
  uniq output -> all (is_var pb0) output ->
  (forall l, List.In l prev -> [/\ lc_proper slot (sz pb0) (size (pb_lc_values pb0)) l, avoids output (lc_terms l),
      isbit (lval (pb_values pb) l) & pb_lc_val pb l = Ok (lval (pb_values pb) l)]) ->
  all (fun v => [&& (v <= sz pb0)%N, v \notin output & isbit (xval (pb_values pb) v)]) new_block ->
  exists pb', [/\ compression_witness R g pb = Ok pb', assigns (output ++ fresh_vars pb0 pb1) pb pb' &
     holds (compression_constraints g) (pb_values pb')].
Proof.
move=> hw hR hp hb ho e hl hu hv hprev hnew.
have [hwp hs hks] := hl.
have al := compression_alloc hw hR hp hb ho e.
have hsz := leq_trans (allocates_size al) hs; have hksz := leq_trans (allocates_ksize al) hks.
have [||_ hg] := @compression_gok F R slot (sz pb) (size (pb_lc_values pb)) (others pb0 output) pb0 prev new_block
  output g pb1 hw hR hp hb ho e hs (@below_others pb0 output) (outs_others hu hv).
- by clear e; move=> l hin; have [h1 h2 _ _] := hprev l hin; apply: inp_others h1 h2 hsz hksz.
- by apply: sub_all hnew => v /and3P [h1 h2 _]; rewrite /others h1.
clear e; apply: (gok_run hwp hg); split.
  move=> l hin; have [h1 h2 h3 h4] := hprev l hin; split=> //.
  have hpr := lc_proper_le hsz hksz h1.
  rewrite /cached; case hv1: (lc_is_variable l); [by left|right].
  move: h4; rewrite -(board_of hwp) pb_lc_val_slot ?hv1 //; first by case.
  by move: hpr; rewrite /lc_proper hv1 => -[].
by rewrite /all_bits all_map; apply: sub_all hnew => v /and3P [_ _ h] /=; rewrite lval_var.
Qed.

(** ** Two to one *)
Definition bits_at x (vs : pb_variable_array) : seq bool := [seq bit_of (xval x v) | v <- vs].
Lemma bools_plcs x vs : bools x (plcs vs) = bits_at x vs.
Proof. by rewrite /bools -map_comp; apply: eq_map => v /=; rewrite lval_var. Qed.
Lemma all_isbit_plcs x vs : all (fun l => isbit (lval x l)) (plcs vs) = all (fun v => isbit (xval x v)) vs.
Proof. by rewrite all_map; apply: eq_all => v /=; rewrite lval_var. Qed.

Definition hash_new pb (block output : pb_variable_array) : outcome (compression F * protoboard F) :=
  let! iv := SHA256_default_IV pb in compression_new iv.2 iv.1 block output.

Lemma hash_inv pb0 block output g pb1 : pb_wf pb0 -> hash_new pb0 block output = Ok (g, pb1) ->
  exists pb, [/\ compression_new pb (iv (size (pb_lc_values pb0))) block output = Ok (g, pb1), allocates pb0 pb,
     pb_values pb = pb_values pb0 &
     pb_lc_values pb = pb_lc_values pb0 ++ [seq bit_val F (default_IV_bit i) | i <- iota 0 256]].
Proof.
move=> hw; have [pb [e1 a1 v1 l1]] := default_IVE hw.
by rewrite /hash_new e1 => e; exists pb; split=> //; exact: e.
Qed.

Theorem hash_sound pb0 block output g pb1 x : pb_wf pb0 -> (2 ^ (32 + 3) <= fp_order R)%N ->
  size block = (32 * 16)%N -> size output = (32 * 8)%N -> hash_new pb0 block output = Ok (g, pb1) ->
  all (fun v => isbit (xval x v)) block -> holds (compression_constraints g) x ->
  all (fun v => isbit (xval x v)) output /\
  words_of_bits 8 (bits_at x output) = sha256_compress H256 (words_of_bits 16 (bits_at x block)).
Proof.
move=> hw hR hb ho /(hash_inv hw) [pb [e a _ _]] hbl hh.
rewrite -all_isbit_plcs in hbl.
have := compression_sound (allocates_wf a) hR (size_iv _) hb ho e (isbit_iv x _) hbl hh.
by rewrite iv_words !bools_plcs all_isbit_plcs.
Qed.

Theorem hash_complete pb0 block output g pb1 pb : pb_wf pb0 -> (2 ^ (32 + 3) <= fp_order R)%N ->
  size block = (32 * 16)%N -> size output = (32 * 8)%N -> hash_new pb0 block output = Ok (g, pb1) -> later pb1 pb ->
  uniq output -> all (is_var pb0) output ->
  all (fun v => [&& (v <= sz pb0)%N, v \notin output & isbit (xval (pb_values pb) v)]) block ->
  (forall i, (size (pb_lc_values pb0) <= i < size (pb_lc_values pb1))%N ->
     nth 0 (pb_lc_values pb) i = nth 0 (pb_lc_values pb1) i) ->
  exists pb', [/\ compression_witness R g pb = Ok pb', assigns (output ++ fresh_vars pb0 pb1) pb pb' &
     holds (compression_constraints g) (pb_values pb')].
Proof.
move=> hw hR hb ho e hl hu hv hnew hk.
have [pb2 [e2 a2 v2 l2]] := hash_inv hw e.
have hw2 := allocates_wf a2; set b := size (pb_lc_values pb0) in e2 hk.
have a3 := compression_alloc hw2 hR (size_iv _) hb ho e2.
have -> : fresh_vars pb0 pb1 = fresh_vars pb2 pb1 by rewrite /fresh_vars v2.
have hs2 : size (pb_lc_values pb2) = (b + 256)%N by rewrite l2 size_cat size_map size_iota.
have [zs hzs] : exists zs, pb_lc_values pb1 = pb_lc_values pb2 ++ zs by case: a3.
have [hwp hs hks] := hl; clear e.
apply: (@compression_complete (fun i => iv_term (i - b)) pb2 _ _ _ _ _ _ hw2 hR (size_iv b) hb ho e2 hl hu).
- by rewrite /is_var v2.
- move=> l hin; have [i [el hi]] := iffLR (List.in_map_iff (iv_lc b) (iota 0 256) l) hin; subst l; clear hin e2 hnew.
  have {}hi : (i < 256)%N by move: (iffLR (CircuitsFacts.In_mem _ _) hi); rewrite mem_iota.
  split.
  + by rewrite /lc_proper /= addKn; split=> //; rewrite hs2; clear - hi; lia.
  + rewrite /avoids /= andbT; apply/negP => h0; by have := allP hv _ h0.
  + by rewrite lval_iv /isbit /bit_val; case: (default_IV_bit i); rewrite eqxx ?orbT.
  have hlt : (b + i < size (pb_lc_values pb))%N by move: hks; rewrite hzs size_cat hs2; clear - hi; lia.
  have hg : oget (pb_lc_values pb) (b + i) = Ok (nth 0 (pb_lc_values pb) (b + i)) by apply: oget_nth.
  rewrite lval_iv /pb_lc_val /= hlt /= hg; congr Ok.
  rewrite hk; last by rewrite hzs size_cat hs2; clear - hi; lia.
  rewrite hzs nth_cat hs2 ifT; last by lia.
  rewrite l2 nth_cat ltnNge leq_addr /= addKn (nth_map 0%N) ?size_iota // nth_iota //.
by rewrite v2.
Qed.

(** ** Filling in and reading bits *)
Lemma isbit_bit_val b : isbit (bit_val F b). Proof. by case: b; rewrite /isbit eqxx ?orbT. Qed.
Lemma bit_of_bit_val b : bit_of (bit_val F b) = b.
Proof. by rewrite /bit_of /bit_val; case: b; rewrite ?eqxx // eq_sym oner_eq0. Qed.
Lemma isbitP (a : F) : isbit a -> a = bit_val F (bit_of a).
Proof. by rewrite /isbit /bit_of /bit_val; case: eqP => [->|_ /eqP ->]; rewrite ?eqxx // eq_sym oner_eq0. Qed.

Lemma fill_with_bits_ok pb x k vs bs : assignable (size x) vs -> size vs = size bs ->
  exists x', [/\ fill_with_bits (upd pb x k) vs bs = Ok (upd pb x' k), changes_only vs x x' &
     map (xval x') vs = map (bit_val F) bs].
Proof.
move=> hv hs.
have hz : map fst (zip vs (map (bit_val F) bs)) = vs by rewrite fst_zip // size_map.
have [|x' [h1 h2 h3]] := @set_all_ok F pb x k (zip vs (map (bit_val F) bs)); first by rewrite hz.
rewrite hz in h2; exists x'; split=> //.
  rewrite /fill_with_bits hs eqxx -h1 /set_all /=.
  elim: vs bs (upd pb x k) {hv hs hz h1 h2 h3} => [|v vs IH] [|b bs] pb1 //=.
  by case: (pb_set pb1 v _) => //= pb2; rewrite IH.
apply: (@eq_from_nth _ 0) => [|i]; first by rewrite !size_map.
rewrite size_map => hi; rewrite (nth_map 0%N) //; apply: h3; apply: In_zip_nth => //; by rewrite size_map.
Qed.
Lemma fill_with_bits_bad pb vs bs : size vs != size bs -> fill_with_bits pb vs bs = AssertFail.
Proof. by rewrite /fill_with_bits => /negbTE ->. Qed.
Lemma get_bits_ok pb vs : pb_wf pb -> all (fun v => (v <= sz pb)%N && isbit (xval (pb_values pb) v)) vs ->
  get_bits pb vs = Ok (bits_at (pb_values pb) vs).
Proof.
move=> hw; rewrite /get_bits; elim: vs => [|v vs IH] //= /andP [/andP [h1 h2] /IH ->].
rewrite -(board_of hw) pb_val_upd //= /as_bit; move: h2; rewrite /isbit => ->.
by [].
Qed.

Lemma hash_len pb block output : pb_wf pb -> size block = (32 * 16)%N -> size output = (32 * 8)%N ->
  exists g pb', hash_new pb block output = Ok (g, pb') /\
    size (compression_constraints g) = (16 + 48 * 154 + (64 * 306 + (4 * 2 + 8 * 35)))%N.
Proof.
move=> hw hb ho; have [pb1 [e1 a1 v1 l1]] := default_IVE hw.
have [g [pb2 [e2 n2]]] := compression_len pb1 (size_iv (size (pb_lc_values pb))) hb ho.
exists g, pb2; split; [rewrite /hash_new e1 1!obindE; exact: e2|exact: n2].
Qed.

Theorem get_hash_ok input : (2 ^ (32 + 3) <= fp_order R)%N -> size input = (32 * 16)%N ->
  exists out, [/\ sha256_get_hash R input = Ok out, size out = (32 * 8)%N &
     words_of_bits 8 out = sha256_compress H256 (words_of_bits 16 input)].
Proof.
move=> hR hi; have hw0 : pb_wf (pb_new F) by [].
rewrite /sha256_get_hash /block_variable_new /digest_variable_new.
case e1: (allocate_array _ _) => [block pb1]; have [a1 n1 z1] := allocate_array_new hw0 e1; clear e1.
case e2: (allocate_array _ _) => [output pb2]; have [a2 n2 z2] := allocate_array_new (allocates_wf a1) e2; clear e2.
have hw2 := allocates_wf a2.
have sb : size block = (32 * 16)%N by rewrite n1 size_iota.
have so : size output = (32 * 8)%N by rewrite n2 size_iota.
have [g [pb3 [e3 _]]] := hash_len hw2 sb so.
have -> : two_to_one_new_block pb2 SHA256_block_size block output = Ok (g, pb3).
  rewrite -e3 /two_to_one_new_block sb; reflexivity.
rewrite 1!obindE; cbn [fst snd].
have a3 : allocates pb2 pb3.
  have [pb [e a _ _]] := hash_inv hw2 e3.
  exact: allocates_trans a (compression_alloc (allocates_wf a) hR (size_iv _) sb so e).
move/Hid: e3 => h3.
have hw3 := allocates_wf a3; have hs3 := allocates_size a3.
have zb : size (pb_values pb2) = (32 * 16 + 32 * 8)%N by rewrite z2 z1.
have memb v : v \in block -> (0 < v <= 32 * 16)%N by rewrite n1 mem_iota.
have memo v : v \in output -> (32 * 16 < v <= 32 * 16 + 32 * 8)%N by rewrite n2 z1 mem_iota /SHA256_block_size /SHA256_digest_size /=; clear; lia.
have ub : uniq block by rewrite n1 iota_uniq.
have uo : uniq output by rewrite n2 iota_uniq.
clear n1 n2.
have [||x' [h4 h5 h6]] := @fill_with_bits_ok pb3 (pb_values pb3) (pb_lc_values pb3) block input.
- split=> //; apply/allP => v /memb; move: hs3; rewrite zb; clear; lia.
- by rewrite sb hi.
rewrite (board_of hw3) in h4.
rewrite /block_variable_witness h4 1!obindE; clear h4.
set pb4 := upd pb3 x' _.
have sx : size x' = size (pb_values pb3) by case: h5.
have hw4 : pb_wf pb4 by case: (hw3) => q1 q2 q3 q4; split=> //=; rewrite sx.
have hl4 : later pb3 pb4 by split=> //=; rewrite sx.
have bx v : v \in block -> isbit (xval x' v).
  move=> hv; have : xval x' v \in map (xval x') block by apply: map_f.
  by rewrite h6 => /mapP [b _ ->]; apply: isbit_bit_val.
have [|||pb5 [e5 a5 hh]] := @hash_complete pb2 block output g pb3 pb4 hw2 hR sb so (unhid h3) hl4 uo.
- apply/allP => v /memo; rewrite /is_var zb; clear; lia.
- apply/allP => v hv; apply/and3P; split; last exact: bx.
    by move: (memb v hv); rewrite zb; clear; lia.
  by apply/negP => /memo; move: (memb v hv); clear; lia.
- by [].
rewrite /two_to_one_witness e5 1!obindE; clear e5.
have [_ hw5 _ hc] := a5.
have sv5 : size (pb_values pb5) = size (pb_values pb3) by case: hc => ->.
have xb v : v \in block -> xval (pb_values pb5) v = xval x' v.
  move=> hv; case: hc => _ ->; rewrite // mem_cat negb_or; apply/andP; split.
    by apply/negP => /memo; move: (memb v hv); clear; lia.
  by rewrite mem_fresh // zb; move: (memb v hv); clear; lia.
have hbb : bits_at (pb_values pb5) block = input.
  have -> : bits_at (pb_values pb5) block = map (@bit_of F) (map (xval x') block).
    by rewrite -map_comp; apply/eq_in_map => v hv /=; rewrite xb.
  by rewrite h6 -map_comp -[RHS]map_id; apply: eq_map => b /=; rewrite bit_of_bit_val.
have [|hob hos] := hash_sound hw2 hR sb so (unhid h3) _ hh.
  by apply/allP => v hv; rewrite xb // bx.
exists (bits_at (pb_values pb5) output); split; last by rewrite hos hbb.
  rewrite /get_digest get_bits_ok //; apply/allP => v hv; rewrite (allP hob v hv) andbT sv5.
  by move: (memo v hv) hs3; rewrite zb; clear; lia.
by rewrite size_map.
Qed.

Theorem get_hash_bad input : size input != (32 * 16)%N -> sha256_get_hash R input = AssertFail.
Proof.
move=> hi; have hw0 : pb_wf (pb_new F) by [].
rewrite /sha256_get_hash /block_variable_new /digest_variable_new.
case e1: (allocate_array _ _) => [block pb1]; have [a1 n1 z1] := allocate_array_new hw0 e1; clear e1.
case e2: (allocate_array _ _) => [output pb2]; have [a2 n2 z2] := allocate_array_new (allocates_wf a1) e2; clear e2.
have hw2 := allocates_wf a2.
have sb : size block = (32 * 16)%N by rewrite n1 size_iota.
have so : size output = (32 * 8)%N by rewrite n2 size_iota.
have [g [pb3 [e3 _]]] := hash_len hw2 sb so.
have -> : two_to_one_new_block pb2 SHA256_block_size block output = Ok (g, pb3).
  rewrite -e3 /two_to_one_new_block sb; reflexivity.
rewrite 1!obindE; clear e3; rewrite /block_variable_witness fill_with_bits_bad //.
by rewrite sb eq_sym.
Qed.
End Hash.
