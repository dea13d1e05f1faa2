(** Completeness of the Merkle-tree gadgets. *)
From Coq Require Import NArith ZifyN.
From mathcomp Require Import all_ssreflect all_algebra zify.
From Verif Require Import Outcome Lincomb LincombSpec LincombFacts R1CS R1CSSpec R1CSFacts Fieldtac.
From Verif Require Import Protoboard GadgetSpec GadgetLogic BasicGadgets BasicGadgetsFacts BasicGadgetsMore BasicGadgetsCopy GadgetNew.
From Verif Require Import Sha256Gadget GadgetSeq Sha256Hash GadgetPost Knapsack MerkleSpec MerkleGadget MerkleGadgetSpec MerkleSound.
Set Implicit Arguments.
Unset Strict Implicit.
Unset Printing Implicit Defensive.
Local Open Scope ring_scope.
Import GRing.Theory.
Delimit Scope N_scope with num.

Section Complete.
Variable F : fieldType.
Variable R : bigint_repr F.
Variable HashT : hash_gadget F.
Local Notation n := (hg_digest_len HashT).
Implicit Types (x k : seq F) (pb : protoboard F).
Local Notation sz pb := (size (pb_values pb)).
Local Notation ksz pb := (size (pb_lc_values pb)).

(** What a hash gadget must do for the completeness of the Merkle-tree gadgets;
    [sl pb out i] is the combination that owns slot [i] after the constructor was
    called on [pb] with output [out]. *)
Record hash_completes (len : nat) (H : seq bool -> seq bool)
    (sl : protoboard F -> pb_variable_array -> nat -> linear_combination F) : Prop := HashCompletes {
  hc_new : forall pb block out, pb_wf pb -> size block = len -> size out = n ->
    exists g pb1, hg_new HashT pb len block out = Ok (g, pb1);
  hc_alloc : hash_allocates HashT;
  hc_count : forall pb block out g pb1 e, pb_wf pb -> size block = len -> size out = n ->
    hg_new HashT pb len block out = Ok (g, pb1) -> N.of_nat (size (hg_constraints g e)) = hg_expected HashT e;
  hc_weaken : forall (g : hg_type HashT) x, holds (hg_constraints g true) x -> holds (hg_constraints g false) x;
  hc_slots : forall pb block out g pb1 i, pb_wf pb -> size block = len -> size out = n -> all (is_var pb) out ->
    hg_new HashT pb len block out = Ok (g, pb1) -> (ksz pb <= i < ksz pb1)%N -> within pred0 (sl pb out i) ->
    nth 0 (pb_lc_values pb1) i = formal_sum (sl pb out i) [::];
  hc_run : forall pb block out g pb1 slot N Ks, pb_wf pb -> size block = len -> size out = n ->
    hg_new HashT pb len block out = Ok (g, pb1) -> (sz pb1 <= N)%N -> (ksz pb1 <= Ks)%N ->
    (forall i, (ksz pb <= i < ksz pb1)%N -> slot i = sl pb out i) ->
    all (fun v => (v <= sz pb)%N && (v \notin out)) block -> uniq out -> all (is_var pb) out ->
    gq slot N Ks (mem block) (out ++ fresh_vars pb pb1) (hg_witness g)
      (fun x k => var_isbits x block /\ ready slot (ksz pb) (ksz pb1) k)
      (fun x k => [/\ holds (hg_constraints g true) x, var_isbits x out & var_bits x out = H (var_bits x block)]) }.

(** * Loops of constructors, by their states *)
Lemma new_all_states (T G St : Type) (mk : T -> St -> outcome (G * St)) ts s0 gs s1 :
  new_all mk ts s0 = Ok (gs, s1) ->
  exists st : nat -> St, [/\ st 0%N = s0, st (size ts) = s1 &
    forall i, (i < size ts)%N -> exists t g, [/\ oget ts i = Ok t, oget gs i = Ok g & mk t (st i) = Ok (g, st i.+1)]].
Proof.
elim: ts s0 gs => [|t ts IH] s0 gs /=; first by case=> _ <-; exists (fun=> s0).
case e: (mk t s0) => [[g s]| |] //=; case e': (new_all mk ts s) => [[gs' s']| |] //= -[<- es].
rewrite es in e'; have [st [h1 h2 h3]] := IH _ _ e'.
exists (fun i => if i is j.+1 then st j else s0); split=> // -[|i] hi.
  by exists t, g; rewrite h1.
by have [t' [g' [k1 k2 k3]]] := h3 i hi; exists t', g'.
Qed.
Lemma new_all_iota_states (G St : Type) (mk : nat -> St -> outcome (G * St)) D s0 gs s1 :
  new_all mk (iota 0 D) s0 = Ok (gs, s1) ->
  exists st : nat -> St, [/\ st 0%N = s0, st D = s1 &
    forall i, (i < D)%N -> exists g, oget gs i = Ok g /\ mk i (st i) = Ok (g, st i.+1)].
Proof.
move=> h; have [st] := new_all_states h; rewrite size_iota => -[h1 h2 h3]; exists st; split=> // i hi.
have [t [g [k1 k2 k3]]] := h3 i hi; exists g.
have e : oget (iota 0 D) i = Ok i.
  by have -> : oget (iota 0 D) i = Ok (nth 0%N (iota 0 D) i) by [apply: oget_nth; rewrite size_iota]; rewrite nth_iota.
by move: k1 k3; rewrite e => -[<-].
Qed.

(** * The selector *)
Lemma copy_digestE pb m (t s : seq nat) : size t = m -> size s = m -> copy_digest pb m t s = copy_vars pb (zip s t).
Proof.
rewrite /copy_digest /copy_vars; elim: m t s pb => [|m IH] [|a t] [|b s] pb //= [ht] [hs].
rewrite -[1%N]add0n -(add0n 1%N) addnC iotaDl.
case: (pb_val pb b) => //= v; case: (pb_set pb a v) => //= pb'; rewrite -IH //.
by elim: (iota 0 m) pb' => [|i l IHl] pb' //=; case: (pb_val pb' _) => //= w; case: (pb_set pb' _ w) => //= pb2.
Qed.

Lemma selector_gq slot N Ks P (g : digest_selector F) (b : bool) :
  let side := if b then ds_right g else ds_left g in
  size (ds_input g) = ds_size g -> size side = ds_size g -> uniq side -> outside N P side ->
  all (fun v => (v <= N)%N && P v) (ds_input g) -> inp slot N Ks P (ds_is_right g) ->
  gq slot N Ks P side (digest_selector_witness g) (fun x k => lval x (ds_is_right g) = b%:R)
    (fun x k => map (xval x) side = map (xval x) (ds_input g)).
Proof.
move=> side hs1 hs2 hu ho hin [hp hw]; split=> //.
  have h : stable slot N Ks [predU P & mem side] (fun x _ => (fun l => take (size side) l = drop (size side) l) (map (xval x) (side ++ ds_input g))).
    apply: (@stable_vals F slot N Ks _ (side ++ ds_input g) (fun l => take (size side) l = drop (size side) l)).
    apply/allP => v; rewrite mem_cat => /orP [hv|hv]; apply/orP; first by right.
    by left; have /andP [] := allP hin v hv.
  move=> m x k x' k' sx sk hws hm; have := h m x k x' k' sx sk hws hm.
  by rewrite !map_cat !take_size_cat ?size_map // !drop_size_cat ?size_map.
move=> pb x k sx sk hb.
have hp' : lc_proper slot (size x) (size k) (ds_is_right g) by rewrite sx sk.
have [k1 [e1 w1 c1]] := @wstep_eval F pb slot x k _ hp'.
have hrd := read_cached pb (wstep_proper w1 hp') c1.
have hn : all (fun v => v \notin side) (ds_input g).
  by apply/allP => v hv; apply/negP => /ho [_]; have /andP [_ ->] := allP hin v hv.
have [|||//|x' [e2 h2 h3]] := @copy_vars_ok F pb x k1 (ds_input g) side.
- by rewrite hs1 hs2.
- by split=> //; apply/allP => v /ho []; rewrite sx.
- by apply: sub_all hin => v /andP []; rewrite sx.
have hws : wstep slot side x k x' k1.
  by apply: wstep_trans w1 (wstep_changes slot k1 h2) => // v; rewrite in_nil.
have hvv : map (xval x') side = map (xval x') (ds_input g) by rewrite h3 (changes_map h2 hn).
exists x', k1; split=> //.
rewrite /digest_selector_witness e1 /= hrd /= hb.
move: e2 hs2; rewrite /side; case: (b) => /= e2 hs2.
  by rewrite eqxx /= copy_digestE.
have -> : (0 == 1 :> F) = false by rewrite eq_sym oner_eq0.
by rewrite eqxx /= copy_digestE.
Qed.

Lemma selector_holds (g : digest_selector F) (b : bool) x :
  let side := if b then ds_right g else ds_left g in
  size (ds_input g) = ds_size g -> size side = ds_size g ->
  lval x (ds_is_right g) = b%:R -> map (xval x) side = map (xval x) (ds_input g) ->
  holds (digest_selector_constraints g) x.
Proof.
move=> side hs1 hs2 hb hv; rewrite /digest_selector_constraints; apply/holds_iota => i hi.
have := congr1 (fun l => nth 0 l i) hv; rewrite !(nth_map 0%N) ?hs1 ?hs2 // => e.
rewrite /constraint_holds [c_a _]/= [c_b _]/= [c_c _]/= !formal_sum_var_sub -!/(lval x _) hb.
have lv v : formal_sum (lc_of_var F v) x = xval x v by rewrite -lval_var.
rewrite !lv -e /side; case: (b) => /=; first by rewrite mul1r.
by rewrite mul0r subrr.
Qed.

(** * One level *)
Lemma hasher_inv (path : path_variable) depth out i pb h pb' : path_shape depth n path -> (i < depth)%N ->
  hasher_new HashT path out i pb = Ok (h, pb') ->
  let block := nth [::] (pv_left path) i ++ nth [::] (pv_right path) i in
  size block = (2 * n)%N /\ hg_new HashT pb (2 * n) block out = Ok (h, pb').
Proof.
move=> [p1 p2 p3 p4] hi; rewrite /hasher_new.
have s1 : size (nth [::] (pv_left path) i) = n by apply/eqP; apply: (allP p3); rewrite mem_nth ?p1.
have s2 : size (nth [::] (pv_right path) i) = n by apply/eqP; apply: (allP p4); rewrite mem_nth ?p2.
have g1 : oget (pv_left path) i = Ok (nth [::] (pv_left path) i) by apply: oget_nth; rewrite p1.
have g2 : oget (pv_right path) i = Ok (nth [::] (pv_right path) i) by apply: oget_nth; rewrite p2.
by rewrite g1 g2 /= /block_variable_pair s1 s2 eqxx /= => e; split=> //; rewrite size_cat s1 s2; lia.
Qed.

Section Level.
Variables (H : seq bool -> seq bool) (sl : protoboard F -> pb_variable_array -> nat -> linear_combination F).
Hypothesis hH : hash_completes (2 * n) H sl.
Variables (slot : nat -> linear_combination F) (N Ks : nat).

Definition level_post (path : path_variable) (a : pb_linear_combination F) inp out i (b : bool) (h : hg_type HashT) x : Prop :=
  let l := nth [::] (pv_left path) i in let r := nth [::] (pv_right path) i in
  [/\ lval x a = b%:R, var_isbits x inp, map (xval x) (if b then r else l) = map (xval x) inp,
      var_isbits x (if b then l else r) &
      [/\ holds (hg_constraints h true) x, var_isbits x out & var_bits x out = H (var_bits x (l ++ r))]].

Lemma hasher_gq Q (path : path_variable) depth out i pb pb' h :
  pb_wf pb -> path_shape depth n path -> (i < depth)%N -> size out = n ->
  hasher_new HashT path out i pb = Ok (h, pb') -> (sz pb' <= N)%N -> (ksz pb' <= Ks)%N ->
  (forall j, (ksz pb <= j < ksz pb')%N -> slot j = sl pb out j) ->
  let l := nth [::] (pv_left path) i in let r := nth [::] (pv_right path) i in
  all (fun v => [&& v <= sz pb, v \notin out & Q v]%N) (l ++ r) -> uniq out -> all (is_var pb) out ->
  outside N Q (out ++ fresh_vars pb pb') ->
  gq slot N Ks Q (out ++ fresh_vars pb pb') (hg_witness h)
    (fun x k => var_isbits x (l ++ r) /\ ready slot (ksz pb) (ksz pb') k)
    (fun x k => [/\ holds (hg_constraints h true) x, var_isbits x out & var_bits x out = H (var_bits x (l ++ r))]).
Proof.
move=> hw hp hi so e hN hK hs l r hv hu ho hQ; have [sb eh] := hasher_inv hp hi e.
apply: (gq_sub (hc_run hH hw sb so eh hN hK hs _ hu ho)) => //.
  by apply: sub_all hv => v /and3P [-> ->].
by move=> v hvv; have /and3P [] := allP hv v hvv.
Qed.

Lemma level_gq Q (path : path_variable) depth (A : pb_linear_combination_array F) inp out i pb pb' h (b : bool) :
  pb_wf pb -> path_shape depth n path -> (i < depth)%N -> size inp = n -> size out = n ->
  hasher_new HashT path out i pb = Ok (h, pb') -> (sz pb' <= N)%N -> (ksz pb' <= Ks)%N ->
  (forall j, (ksz pb <= j < ksz pb')%N -> slot j = sl pb out j) ->
  let a := lc_nth A (depth - 1 - i) in
  let l := nth [::] (pv_left path) i in let r := nth [::] (pv_right path) i in
  let side := if b then r else l in let sib := if b then l else r in
  all (fun v => v <= sz pb)%N (l ++ r) -> all (fun v => v \notin out) side -> uniq side -> uniq out -> all (is_var pb) out ->
  all (fun v => (v <= N)%N && Q v) inp -> all (fun v => (v \notin out) && Q v) sib -> GadgetSeq.inp slot N Ks Q a ->
  outside N Q (side ++ (out ++ fresh_vars pb pb')) ->
  gq slot N Ks Q (side ++ (out ++ fresh_vars pb pb'))
    (fun pb => let! pb := digest_selector_witness (propagator HashT depth A path inp i) pb in hg_witness h pb)
    (fun x k => [/\ lval x a = b%:R, var_isbits x inp, var_isbits x sib & ready slot (ksz pb) (ksz pb') k])
    (fun x k => level_post path a inp out i b h x).
Proof.
move=> hw hp hi si so e hN hK hs a l r side sib hlr hso hsu hu ho hin hsib ha hQ.
have sl' : size l = n by case: hp => p1 _ p3 _; apply/eqP; apply: (allP p3); rewrite mem_nth ?p1.
have sr' : size r = n by case: hp => _ p1 _ p3; apply/eqP; apply: (allP p3); rewrite mem_nth ?p1.
have hQ1 : outside N Q side by move=> v hv; apply: hQ; rewrite mem_cat hv.
have hQ2 : outside N Q (out ++ fresh_vars pb pb') by move=> v hv; apply: hQ; rewrite mem_cat hv orbT.
have hal : allocates pb pb' by have [sb eh] := hasher_inv hp hi e; apply: hc_alloc hH _ _ _ _ _ _ hw sb so eh.
have hbe : all (fun v => (v <= sz pb)%N) side.
  by apply/allP => v hv; apply: (allP hlr); rewrite mem_cat; move: hv; rewrite /side; case: (b) => ->; rewrite ?orbT.
have h1 := @selector_gq slot N Ks Q (propagator HashT depth A path inp i) b si _ hsu hQ1 hin ha.
have h2 : gq slot N Ks [predU Q & mem side] (out ++ fresh_vars pb pb') (hg_witness h)
    (fun x k => [/\ lval x a = b%:R, var_isbits x inp, var_isbits x sib & ready slot (ksz pb) (ksz pb') k]
       /\ map (xval x) side = map (xval x) inp)
    (fun x k => [/\ holds (hg_constraints h true) x, var_isbits x out & var_bits x out = H (var_bits x (l ++ r))]).
  apply: (gq_pre (hasher_gq hw hp hi so e hN hK hs _ hu ho _)) => //.
  - have hss v : v \in l ++ r -> (v \in side) || (v \in sib).
      by rewrite mem_cat /side /sib; case: (b) => // /orP [] ->; rewrite ?orbT.
    apply/allP => v hv; rewrite (allP hlr v hv) /=; move: (hss v hv) => /orP [hh|hh].
      by rewrite (allP hso v hh) /=; apply/orP; right.
    by have /andP [-> hq] := allP hsib v hh; apply/orP; left.
  - move=> v hv; have [h3 h4] := hQ2 v hv; split=> //=; rewrite negb_or h4 /=.
    apply/negP => hvs; move: hv; rewrite mem_cat (negbTE (allP hso v hvs)) /= mem_fresh //.
    by have := allP hbe v hvs; lia.
  move=> x k sx sk [[_ b1 b2 hr] ev]; split=> //; rewrite var_isbits_cat.
  have b3 : var_isbits x side by rewrite (eq_var_isbits ev).
  by move: b2 b3; rewrite /side /sib; case: (b) => -> ->.
have hst : stable slot N Ks Q (fun x k => [/\ lval x a = b%:R, var_isbits x inp, var_isbits x sib & ready slot (ksz pb) (ksz pb') k]).
  move=> m x k x' k' sx sk hws hm [q1 q2 q3 q4]; split.
  - by rewrite /lval (wstep_fs hws) //; apply: avoids_within hm (ha.2).
  - by apply: (stable_isbits _ sx sk hws hm q2); apply: sub_all hin => v /andP [].
  - by apply: (stable_isbits _ sx sk hws hm q3); apply: sub_all hsib => v /andP [].
  - exact: (stable_ready0 sx sk hws hm q4).
have h1' : gq slot N Ks Q side (digest_selector_witness (propagator HashT depth A path inp i))
    (fun x k => [/\ lval x a = b%:R, var_isbits x inp, var_isbits x sib & ready slot (ksz pb) (ksz pb') k])
    (fun x k => map (xval x) side = map (xval x) inp).
  by apply: (gq_pre (h1 _)) => [|x k sx sk []]; rewrite /side; case: (b).
have h3 := gq_keep (gq_seq h1' hst h2) hst.
apply: (gq_post h3); last by move=> x k [[q1 q2 q3 _] [q4 q5]].
case: h3 => hs3 _ _; case: h1' => hs1 _ _; case: h2 => hs2 _ _.
move=> m x k x' k' sx sk hws hm [q1 q2 q3 q4 q5].
have hmQ : outside N Q m by move=> v /hm [-> /=]; rewrite negb_or => /andP [].
split.
- by rewrite /lval (wstep_fs hws) //; apply: avoids_within hmQ (ha.2).
- by apply: (stable_isbits _ sx sk hws hmQ q2); apply: sub_all hin => v /andP [].
- apply: (hs1 _ _ _ _ _ sx sk hws _ q3) => v /hm [-> /=]; rewrite !negb_or mem_cat negb_or => /and3P [-> ->] //.
- by apply: (stable_isbits _ sx sk hws hmQ q4); apply: sub_all hsib => v /andP [].
apply: (hs2 _ _ _ _ _ sx sk hws _ q5) => v /hm [-> /=]; rewrite !negb_or !mem_cat !negb_or.
by move=> /and4P [-> -> -> ->].
Qed.
End Level.

(** * Allocation of the digests *)
Lemma new_digests_ranges (T : Type) (ts : seq T) pb ds pb' m : pb_wf pb ->
  new_all (fun (_ : T) pb => Ok (digest_variable_new pb m)) ts pb = Ok (ds, pb') ->
  [/\ allocates pb pb', sz pb' = (sz pb + size ts * m)%N, ksz pb' = ksz pb &
      forall i, (i < size ts)%N -> nth [::] ds i = iota (sz pb + i * m).+1 m].
Proof.
elim: ts pb ds pb' => [|t ts IH] pb ds pb' hw /=.
  by case=> _ <-; split=> //; [apply: allocates_refl|rewrite mul0n addn0].
rewrite /digest_variable_new; case e: (allocate_array pb m) => [vs pb2] /=.
have [a2 ev s2] := allocate_array_new hw e; have [_ _ k2 _ _] := allocate_array_wf hw e.
case e': (new_all _ ts pb2) => [[ds' pb3]| |] //= -[<- <-].
have [a3 s3 k3 h3] := IH _ _ _ (allocates_wf a2) e'.
split; [exact: allocates_trans a2 a3|by rewrite s3 s2; lia|by rewrite k3 k2|].
case=> [|i] hi /=; first by rewrite mul0n addn0 ev.
by rewrite h3 // s2 mulSn addnA.
Qed.
Lemma new_digests_Ok (T : Type) (ts : seq T) pb m : exists ds pb',
  new_all (fun (_ : T) pb => Ok (digest_variable_new pb m)) ts pb = Ok (ds, pb').
Proof.
elim: ts pb => [|t ts IH] pb; first by exists [::], pb.
cbn [new_all obind]; case: (digest_variable_new pb m) => vs pb2; cbn [fst snd].
by have [ds [pb3 ->]] := IH pb2; cbn [obind]; eexists; eexists.
Qed.
Lemma bit_vector_copy_Ok pb source target (d : pb_linear_combination F) c : pb_wf pb -> (0 < c)%N ->
  size source = size target -> exists g pb', bit_vector_copy_new pb source target d c = Ok (g, pb').
Proof.
move=> hw hc hs; rewrite /bit_vector_copy_new; have c0 : (c == 0%N) = false by case: c hc.
rewrite c0.
rewrite hs eqxx; cbn [oassert].
case e1: (allocate_array pb _) => [ps pb1]; have [h1 ep s1] := allocate_array_new hw e1.
rewrite {1}/multipacking_new c0.
rewrite !size_map hs ep size_iota eqxx; cbn [oassert obind].
case e3: (allocate_array pb1 _) => [pt pb2]; have [h2 et s2] := allocate_array_new (allocates_wf h1) e3.
rewrite /multipacking_new c0.
rewrite !size_map et size_iota eqxx; cbn [oassert obind].
by rewrite /field_vector_copy_new !size_iota eqxx /=; eexists; eexists.
Qed.
Lemma bit_vector_copy_weaken (g : bit_vector_copy F) c x : bc_shape g c ->
  holds (bit_vector_copy_constraints g true true) x -> holds (bit_vector_copy_constraints g false false) x.
Proof.
move=> hs; rewrite /bit_vector_copy_constraints !holds_cat => -[h1 [h2 h3]].
move/(multipackingE _ _ (bcs_source hs)): h1 => [h1 _].
move/(multipackingE _ _ (bcs_target hs)): h2 => [h2 _].
split; first by apply/(multipackingE _ _ (bcs_source hs)).
by split=> //; apply/(multipackingE _ _ (bcs_target hs)).
Qed.

Lemma rev_iota_split D ts1 i ts2 : rev (iota 0 D) = ts1 ++ i :: ts2 ->
  (i < D)%N /\ forall j, List.In j ts1 <-> (i < j < D)%N.
Proof.
move=> e; have e' : iota 0 D = rev ts2 ++ i :: rev ts1.
  by rewrite -[iota 0 D]revK e rev_cat rev_cons cat_rcons.
have [h1 [h2 h3]] := iota_split e'; rewrite add0n in h2.
have hi : (i < D)%N by rewrite h2.
split=> // j; rewrite (GadgetLogic.In_mem _ _) -mem_rev.
have e2 : rev ts1 = iota i.+1 (D - i.+1).
  have := congr1 (drop (size (rev ts2)).+1) e'; rewrite -cat_rcons drop_size_cat ?size_rcons // => <-.
  by rewrite drop_iota add0n -h2.
by rewrite e2 mem_iota; lia.
Qed.

(** * The slots of several hashers *)
Section Slots.
Variable sl : protoboard F -> pb_variable_array -> nat -> linear_combination F.
Definition slot_of (slot0 : nat -> linear_combination F) (K0 : nat) (st : nat -> protoboard F)
    (out : nat -> pb_variable_array) (D j : nat) : linear_combination F :=
  if (j < K0)%N then slot0 j else let i := find (fun i => j < ksz (st i.+1))%N (iota 0 D) in sl (st i) (out i) j.
Lemma slot_of0 slot0 K0 st out D j : (j < K0)%N -> slot_of slot0 K0 st out D j = slot0 j.
Proof. by rewrite /slot_of => ->. Qed.
Lemma slot_ofE slot0 K0 st out D i j :
  (forall a b, (a <= b <= D)%N -> (ksz (st a) <= ksz (st b))%N) -> (K0 <= ksz (st 0%N))%N -> (i < D)%N ->
  (ksz (st i) <= j < ksz (st i.+1))%N -> slot_of slot0 K0 st out D j = sl (st i) (out i) j.
Proof.
move=> hm h0 hi /andP [h1 h2]; rewrite /slot_of.
have hj : (j < K0)%N = false by have := hm 0%N i ltac:(lia); lia.
rewrite hj; suff -> : find (fun i => j < ksz (st i.+1))%N (iota 0 D) = i by [].
have hh : has (fun i => j < ksz (st i.+1))%N (iota 0 D) by apply/hasP; exists i => //; rewrite mem_iota.
set f := find _ _; have hf : (f < D)%N by have := hh; rewrite has_find size_iota.
have hn := nth_find 0%N hh; rewrite -/f nth_iota // add0n in hn.
case: (ltngtP f i) => // hlt.
  by have := hm f.+1 i ltac:(lia); lia.
by have := @before_find _ 0%N (fun i => j < ksz (st i.+1))%N (iota 0 D) i hlt; rewrite nth_iota // add0n h2.
Qed.
Lemma lc_proper_slot slot slot' n0 m (l : pb_linear_combination F) : (forall j, (j < m)%N -> slot' j = slot j) ->
  lc_proper slot n0 m l -> lc_proper slot' n0 m l.
Proof. by move=> h; rewrite /lc_proper; case: ifP => // _ [h1 h2 h3]; split=> //; rewrite h. Qed.
End Slots.

Lemma states_mono (st : nat -> protoboard F) M : pb_wf (st 0%N) ->
  (forall i, (i < M)%N -> pb_wf (st i) -> allocates (st i) (st i.+1)) ->
  forall i j, (i <= j <= M)%N -> allocates (st i) (st j).
Proof.
move=> h0 hS; have hw i : (i <= M)%N -> pb_wf (st i).
  by elim: i => [//|i IH] hi; apply: allocates_wf (hS i hi (IH (ltnW hi))).
move=> i j /andP []; elim: j => [|j IH]; first by rewrite leqn0 => /eqP -> _; apply: allocates_refl.
rewrite leq_eqVlt => /orP [/eqP -> hj|hi hj]; first exact: allocates_refl (hw _ hj).
by apply: allocates_trans (IH hi (ltnW hj)) (hS j hj (hw _ (ltnW hj))).
Qed.

(** * The read gadget *)
Section Read.
Variables (H : seq bool -> seq bool) (sl : protoboard F -> pb_variable_array -> nat -> linear_combination F).
Hypothesis hH : hash_completes (2 * n) H sl.
Hypothesis hcap : (0 < capacity R)%N.

(** What the constructor did. *)
Record read_built pb0 depth (A : pb_linear_combination_array F) leaf root path rs (g : check_read HashT) pb1
    (lv : nat -> pb_variable_array) (st : nat -> protoboard F) : Prop := ReadBuilt {
  rb_lv : forall i, (i < depth)%N -> exists2 b, (sz pb0 <= b /\ b + n <= sz (st 0%N))%N & lv i = iota b.+1 n;
  rb_leaf : lv depth = leaf;
  rb_disj : forall i j v, (i < j < depth)%N -> v \in lv i -> v \notin lv j;
  rb_alloc0 : allocates pb0 (st 0%N);
  rb_mono : forall i j, (i <= j <= depth)%N -> allocates (st i) (st j);
  rb_hash : forall i, (i < depth)%N -> exists h, oget (cr_hashers g) i = Ok h /\ hasher_new HashT path (lv i) i (st i) = Ok (h, st i.+1);
  rb_hsize : size (cr_hashers g) = depth;
  rb_props : cr_propagators g = [seq propagator HashT depth A path (lv i.+1) i | i <- iota 0 depth];
  rb_copy : bit_vector_copy_new (st depth) (lv 0%N) root rs (capacity R) = Ok (cr_check_root g, pb1) }.

Lemma read_build pb0 depth (A : pb_linear_combination_array F) leaf root path rs :
  pb_wf pb0 -> path_shape depth n path -> (0 < depth)%N -> size A = depth -> size leaf = n -> size root = n ->
  exists g pb1, check_read_new R HashT pb0 depth A leaf root path rs = Ok (g, pb1).
Proof.
move=> hw hp hd hA hl hr; rewrite /check_read_new hd hA eqxx; cbn [oassert obind].
have [ds [pb2 e1]] := new_digests_Ok (iota 0 (depth - 1)) pb0 n; rewrite /new_digests e1; cbn [obind].
have [a2 s2 k2 h2] := new_digests_ranges hw e1.
case e2: (digest_variable_new pb2 n) => [croot pb3].
have [a3 ev s3] := allocate_array_new (allocates_wf a2) e2.
have [_ sds ads] := new_digests_shape hw e1; rewrite size_iota in sds.
have hout i : (i < depth)%N -> size (level_output ds croot i) = n.
  rewrite /level_output => hi; case: eqP => h; first by rewrite ev size_iota.
  by apply/eqP; apply: (allP ads); rewrite mem_nth // sds; lia.
have : forall ts, {subset ts <= iota 0 depth} -> forall pb, pb_wf pb -> exists hs pb4, pb_wf pb4 /\
   new_all (fun i pb => hasher_new HashT path (level_output ds croot i) i pb) ts pb = Ok (hs, pb4).
  elim=> [|i ts IH] hts pb hwb; first by exists [::], pb.
  have hi : (i < depth)%N by have := hts i (mem_head _ _); rewrite mem_iota.
  have [h [pb' eh]] : exists h pb', hasher_new HashT path (level_output ds croot i) i pb = Ok (h, pb').
    rewrite /hasher_new; case: (hp) => p1 p2 p3 p4.
    have s1' : size (nth [::] (pv_left path) i) = n by apply/eqP; apply: (allP p3); rewrite mem_nth ?p1.
    have s2' : size (nth [::] (pv_right path) i) = n by apply/eqP; apply: (allP p4); rewrite mem_nth ?p2.
    have g1 : oget (pv_left path) i = Ok (nth [::] (pv_left path) i) by apply: oget_nth; rewrite p1.
    have g2 : oget (pv_right path) i = Ok (nth [::] (pv_right path) i) by apply: oget_nth; rewrite p2.
    rewrite g1 g2 /= /block_variable_pair s1' s2' eqxx /=; apply: hc_new hH _ _ _ hwb _ (hout i hi).
    by rewrite size_cat s1' s2'; lia.
  have hw' := hasher_wf (hc_alloc hH) hwb hp hi (hout i hi) eh.
  have [|hs [pb4 [w4 e4]]] := IH _ pb' hw'; first by move=> j hj; apply: hts; rewrite inE hj orbT.
  by exists (h :: hs), pb4; split=> //=; rewrite eh /= e4.
move=> /(_ (iota 0 depth) (fun i hi => hi) pb3 (allocates_wf a3)) [hs [pb4 [w4 e4]]].
rewrite e4; cbn [obind fst snd].
have [|cp [pb5 e5]] := @bit_vector_copy_Ok pb4 croot root rs (capacity R) w4 hcap.
  by rewrite ev size_iota.
by rewrite e5 /=; eexists; eexists.
Qed.

Lemma read_inv pb0 depth (A : pb_linear_combination_array F) leaf root path rs g pb1 :
  pb_wf pb0 -> path_shape depth n path ->
  check_read_new R HashT pb0 depth A leaf root path rs = Ok (g, pb1) ->
  [/\ (0 < depth)%N, size A = depth & exists lv st, read_built pb0 depth A leaf root path rs g pb1 lv st].
Proof.
move=> hw hp; rewrite /check_read_new; case hd: (0 < depth)%N => //=; case: eqP => //= hA.
case e1: (new_digests HashT pb0 (depth - 1)) => [[internal pb2]| |] //=.
have [a2 s2 k2 r2] := new_digests_ranges hw e1; rewrite size_iota in s2 r2.
have [_ sds ads] := new_digests_shape hw e1; rewrite size_iota in sds.
case e2: (digest_variable_new pb2 n) => [croot pb3].
have [a3 ev s3] := allocate_array_new (allocates_wf a2) e2.
case e3: (new_all _ _ pb3) => [[hs pb4]| |] //=.
case e5: (bit_vector_copy_new pb4 croot root rs _) => [[cp pb5]| |] //= -[<- <-].
split=> //.
have [st [st0 stD hst]] := new_all_iota_states e3.
pose lv i := nth [::] (croot :: rcons internal leaf) i.
have einp i : (i < depth)%N -> level_input depth internal leaf i = lv i.+1.
  by move=> hi; rewrite /level_input level_inputE.
have eout i : (i < depth)%N -> level_output internal croot i = lv i.
  rewrite /level_output; case: i => [//|i] hi /=; rewrite subn1 /= /lv /= nth_rcons sds ifT //; lia.
have elv i : (i < depth)%N -> lv i = iota (sz pb0 + (if i == 0 then depth - 1 else i - 1) * n)%N.+1 n.
  case: i => [|i] hi; first by rewrite /lv /= ev s2.
  rewrite /lv /= nth_rcons sds ifT; last by lia.
  by rewrite r2; [rewrite subn1|lia].
have so i : (i < depth)%N -> size (lv i) = n by move=> hi; rewrite elv // size_iota.
exists lv, st; split=> //=.
- move=> i hi; exists (sz pb0 + (if i == 0 then depth - 1 else i - 1) * n)%N; last exact: elv.
  have h : ((if i == 0 then depth - 1 else i - 1) * n + n <= (depth - 1) * n + n)%N.
    by rewrite leq_add2r; apply: leq_mul => //; case: ifP => _; lia.
  by rewrite st0 s3 s2; lia.
- by rewrite /lv; case: (depth) hd sds => [//|d] _ sds /=; rewrite nth_rcons sds subn1 /= ltnn eqxx.
- move=> i j v /andP [hij hj]; rewrite !elv //; last by lia.
  rewrite !mem_iota; have -> : (j == 0)%N = false by lia.
  have h1 : ((if i == 0 then depth - 1 else i - 1) * n + n <= (j - 1) * n \/ (j - 1) * n + n <= (if i == 0 then depth - 1 else i - 1) * n)%N.
    by case: (i =P 0%N) => hi0; [right|left]; rewrite -mulSnr; apply: leq_mul => //; lia.
  move: h1; move: ((if i == 0 then depth - 1 else i - 1) * n)%N ((j - 1) * n)%N => a b; lia.
- by rewrite st0; apply: allocates_trans a2 a3.
- apply: states_mono; first by rewrite st0; apply: allocates_wf a3.
  move=> i hi hwi; have [h [_ eh]] := hst i hi; rewrite eout // in eh.
  have [sb eh'] := hasher_inv hp hi eh; exact: hc_alloc hH _ _ _ _ _ _ hwi sb (so i hi) eh'.
- by move=> i hi; have [h [h1 h2]] := hst i hi; exists h; rewrite -eout.
- by have [|//|s _ _] := new_all_zip (I := fun=> True) _ _ e3 => //; rewrite s size_iota.
- by apply/eq_in_map => i; rewrite mem_iota => /andP [_ hi]; rewrite einp.
by rewrite stD.
Qed.

(** The digests of the path that lie on the way from the root to the leaf, and
    those that do not. *)
Lemma read_alloc pb0 depth (A : pb_linear_combination_array F) leaf root path rs g pb1 :
  pb_wf pb0 -> path_shape depth n path ->
  check_read_new R HashT pb0 depth A leaf root path rs = Ok (g, pb1) -> allocates pb0 pb1.
Proof.
move=> hw hp e; have [hD sA' [lv [st [_ _ _ r4 r5 _ _ _ r8]]]] := read_inv hw hp e.
have wst : pb_wf (st depth) by apply: allocates_wf (r5 0%N depth _); rewrite leqnn.
have [r9 _ _ _] := bit_vector_copy_new_spec wst r8.
by apply: allocates_trans r4 (allocates_trans (r5 0%N depth _) r9); rewrite leqnn.
Qed.

Lemma mem_path_l path i v : v \in nth [::] (pv_left path) i -> v \in path_vars path.
Proof.
move=> hv; rewrite mem_cat; apply/orP; left; apply/flattenP; exists (nth [::] (pv_left path) i) => //.
by apply: mem_nth; case: ltnP => // /(nth_default [::]) h; rewrite h in hv.
Qed.
Lemma mem_path_r path i v : v \in nth [::] (pv_right path) i -> v \in path_vars path.
Proof.
move=> hv; rewrite mem_cat; apply/orP; right; apply/flattenP; exists (nth [::] (pv_right path) i) => //.
by apply: mem_nth; case: ltnP => // /(nth_default [::]) h; rewrite h in hv.
Qed.
Lemma uniq_flatten (T : eqType) (ss : seq (seq T)) : uniq (flatten ss) ->
  (forall i, uniq (nth [::] ss i)) /\ forall i j v, i <> j -> v \in nth [::] ss i -> v \notin nth [::] ss j.
Proof.
elim: ss => [|s ss IH] /=; first by move=> _; split=> i; rewrite nth_nil.
rewrite cat_uniq => /and3P [hu /hasPn hd /IH [h1 h2]]; split=> [[|i]//=|].
have hin i v : v \in nth [::] ss i -> v \notin s.
  move=> hv; apply: hd; apply/flattenP; exists (nth [::] ss i) => //.
  by apply: mem_nth; case: ltnP => // /(nth_default [::]) h; rewrite h in hv.
case=> [|i] [|j] v //= hij.
- by move=> hv; apply/negP => /hin; rewrite hv.
- exact: hin.
by apply: h2 => e; apply: hij; rewrite e.
Qed.
Lemma path_disj path a i j v : uniq (path_vars path) ->
  [/\ uniq (path_side path a i), (v \in path_side path a i -> v \notin path_sib path a j) &
      i <> j -> v \in path_side path a i -> v \notin path_side path a j].
Proof.
rewrite /path_vars cat_uniq => /and3P [/uniq_flatten [l1 l2] /hasPn hd /uniq_flatten [r1 r2]].
have hlr i' j' u : u \in nth [::] (pv_right path) i' -> u \notin nth [::] (pv_left path) j'.
  move=> hu; apply/negP => hu'; have : u \in flatten (pv_right path).
    apply/flattenP; exists (nth [::] (pv_right path) i') => //.
    by apply: mem_nth; case: ltnP => // /(nth_default [::]) h; rewrite h in hu.
  move=> /hd /negP; apply; apply/flattenP; exists (nth [::] (pv_left path) j') => //.
  by apply: mem_nth; case: ltnP => // /(nth_default [::]) h; rewrite h in hu'.
have hrl i' j' u : u \in nth [::] (pv_left path) i' -> u \notin nth [::] (pv_right path) j'.
  by move=> hu; apply/negP => /hlr => /(_ i'); rewrite hu.
split.
- by rewrite /path_side; case: ifP.
- case: (i =P j) => [<-|hij]; first by rewrite /path_side /path_sib; case: ifP => _; [apply: hlr|apply: hrl].
  by rewrite /path_side /path_sib; do 2 case: ifP => _; [apply: hlr|apply: r2|apply: l2|apply: hrl].
by move=> hij; rewrite /path_side; do 2 case: ifP => _; [apply: r2|apply: hlr|apply: hrl|apply: l2].
Qed.
Lemma path_side_sub path a i v : v \in path_side path a i -> v \in path_vars path.
Proof. by rewrite /path_side; case: ifP => _; [apply: mem_path_r|apply: mem_path_l]. Qed.
Lemma path_sib_sub path a i v : v \in path_sib path a i -> v \in path_vars path.
Proof. by rewrite /path_sib; case: ifP => _; [apply: mem_path_l|apply: mem_path_r]. Qed.

Lemma ofold_map (T U St : Type) (f : St -> U -> outcome St) (h : T -> U) s ts :
  ofold f s (map h ts) = ofold (fun s t => f s (h t)) s ts.
Proof. by elim: ts s => //= t ts IH s; case: (f s (h t)). Qed.

Lemma check_read_run slot0 pb0 depth (A : pb_linear_combination_array F) leaf root path rs g pb1 pb :
  pb_wf pb0 -> path_shape depth n path -> size leaf = n -> size root = n ->
  check_read_new R HashT pb0 depth A leaf root path rs = Ok (g, pb1) ->
  all (is_var pb0) (path_vars path ++ root) -> uniq (path_vars path ++ root) ->
  all (fun v => (v <= sz pb0)%N && (v \notin path_vars path ++ root)) leaf ->
  (forall l, List.In l (rs :: A) -> lc_proper slot0 (sz pb0) (ksz pb0) l /\ avoids (path_vars path ++ root) (lc_terms l)) ->
  later pb1 pb -> (forall i, (ksz pb0 <= i < ksz pb1)%N -> nth 0 (pb_lc_values pb) i = nth 0 (pb_lc_values pb1) i) ->
  let x := pb_values pb in let a := lc_bits x A in
  lc_isbits x A -> var_isbits x leaf -> (forall i, (i < depth)%N -> var_isbits x (path_sib path a i)) ->
  isbit (lval x rs) -> (lval x rs = 0 -> var_isbits x root) ->
  exists pb', let x' := pb_values pb' in
    [/\ check_read_witness g pb = Ok pb',
        assigns (flatten [seq path_side path a i | i <- iota 0 depth] ++ root ++ fresh_vars pb0 pb1) pb pb',
        holds (path_variable_constraints F path ++ check_read_constraints g) x',
        lval x rs <> 1 -> map (xval x') root = map (xval x) root &
        lval x rs = 1 -> var_isbits x' root /\
          path_connects (graph H) (var_bits x' root) (bits_nat a) (var_bits x leaf) (path_siblings x path a)].
Proof.
move=> hw hp sleaf sroot eg hvars huniq hleaf hlc [hwp hsz hks] hslots x a hA bleaf bsib brs broot.
have [hd sA [lv [st [r1 r2 r3 r4 r5 r6 r6' r7 r8]]]] := read_inv hw hp eg.
set D := depth in hd sA r1 r2 r3 r5 r6 r6' r7 r8 hp eg bsib *.
have wst i : (i <= D)%N -> pb_wf (st i) by move=> hi; apply: allocates_wf (r5 i i _); rewrite leqnn.
have [r9 r10 [r11 r12 r13] r14] := bit_vector_copy_new_spec (wst D (leqnn _)) r8.
have szm i j : (i <= j <= D)%N -> (sz (st i) <= sz (st j))%N by move=> /r5 /allocates_size.
have kszm i j : (i <= j <= D)%N -> (ksz (st i) <= ksz (st j))%N by move=> /r5 /allocates_ksize.
have sz0 := allocates_size r4; have ksz0 := allocates_ksize r4.
have sz1 := allocates_size r9; have ksz1 := allocates_ksize r9.
have s0D : (sz (st 0%N) <= sz (st D))%N by apply: szm; rewrite leqnn.
have k0D : (ksz (st 0%N) <= ksz (st D))%N by apply: kszm; rewrite leqnn.
have sa : size a = D by rewrite size_map.
have [h0 _] := r6 0%N hd.
pose h i := nth h0 (cr_hashers g) i.
have hh i : (i < D)%N -> hasher_new HashT path (lv i) i (st i) = Ok (h i, st i.+1).
  move=> hi; have [h' [e1 e2]] := r6 i hi.
  have e3 : oget (cr_hashers g) i = Ok (h i) by apply: oget_nth; rewrite r6'.
  by rewrite e2; move: e1; rewrite e3 => -[->].
pose slot := slot_of sl slot0 (ksz pb0) st lv D.
have slotE i j : (i < D)%N -> (ksz (st i) <= j < ksz (st i.+1))%N -> slot j = sl (st i) (lv i) j.
  by move=> hi hj; apply: slot_ofE.
have slot0E j : (j < ksz pb0)%N -> slot j = slot0 j by apply: slot_of0.
pose N := sz pb; pose Ks := ksz pb.
have sDN : (sz (st D) <= N)%N by apply: leq_trans sz1 hsz.
have kDN : (ksz (st D) <= Ks)%N by apply: leq_trans ksz1 hks.
have s0N : (sz pb0 <= N)%N by move: sz0 s0D sDN; clear; lia.
have k0N : (ksz pb0 <= Ks)%N by move: ksz0 k0D kDN; clear; lia.
have szi i : (i <= D)%N -> (sz (st 0%N) <= sz (st i) <= sz (st D))%N.
  by move=> hi; rewrite !szm ?hi ?leqnn.
have kszi i : (i <= D)%N -> (ksz (st 0%N) <= ksz (st i) <= ksz (st D))%N.
  by move=> hi; rewrite !kszm ?hi ?leqnn.
pose sides := flatten [seq path_side path a i | i <- iota 0 D].
pose P := others pb0 (sides ++ root).
have sidesub v : v \in sides -> v \in path_vars path.
  by move=> /flattenP [s /mapP [i _ ->]]; apply: path_side_sub.
have subr v : v \in sides ++ root -> v \in path_vars path ++ root.
  by rewrite [v \in sides ++ root]mem_cat => /orP [/sidesub hv|hv]; rewrite mem_cat hv ?orbT.
have lvsz i : (i < D)%N -> size (lv i) = n by move=> hi; have [b _ ->] := r1 i hi; rewrite size_iota.
have lvrange i v : (i < D)%N -> v \in lv i -> (sz pb0 < v <= sz (st 0%N))%N.
  by move=> hi; have [b [b1 b2] ->] := r1 i hi; rewrite mem_iota; move: b1 b2; clear; lia.
have upath : uniq (path_vars path) by move: huniq; rewrite cat_uniq => /andP [].
have varange v : v \in path_vars path ++ root -> (0 < v <= sz pb0)%N by move=> hv; exact: (allP hvars).
pose mods i := path_side path a i ++ (lv i ++ fresh_vars (st i) (st i.+1)).
have freshE i v : (i < D)%N -> (v \in fresh_vars (st i) (st i.+1)) = (sz (st i) < v <= sz (st i.+1))%N.
  by move=> hi; apply: mem_fresh; apply: r5; rewrite leqnSn.
have modsrange i v : (i < D)%N -> v \in mods i -> v \in path_side path a i \/ (sz pb0 < v <= sz (st D))%N.
  move=> hi; rewrite !mem_cat freshE // => /orP [->|/orP [/(lvrange _ _ hi) hv|hv]]; [by left|right|right].
    by move: s0D hv; clear; lia.
  by move: hv (szi _ (ltnW hi)) (szi _ hi) sz0; clear; lia.
have NP v : v \in sides ++ root -> ~~ P v by move=> hv; rewrite /P /others hv andbF.
have NPf v : (sz pb0 < v)%N -> ~~ P v by move=> hv; rewrite /P /others leqNgt hv.
have sideIn i v : (i < D)%N -> v \in path_side path a i -> v \in sides.
  move=> hi hv; apply/flattenP; exists (path_side path a i) => //; apply/mapP; exists i => //.
  by rewrite mem_iota.
have modsP i v : (i < D)%N -> v \in mods i -> (0 < v <= N)%N /\ ~~ P v.
  move=> hi hv; case: (modsrange i v hi hv) => hv'.
    have hs := sideIn i v hi hv'; split; last by apply: NP; rewrite mem_cat hs.
    have := varange v; rewrite mem_cat (sidesub _ hs) => /(_ isT); move: s0N; clear; lia.
  split; last by apply: NPf; move: hv'; clear; lia.
  by move: hv' sDN; clear; lia.
have modsdisj i j v : (i < D)%N -> (j < D)%N -> i <> j -> v \in mods i -> v \notin mods j.
  move=> hi hj hij hv; apply/negP => hv'.
  have sr (q u : nat) : (q < D)%N -> u \in path_side path a q -> (u <= sz pb0)%N.
    by move=> hk hu; have := varange u; rewrite mem_cat (path_side_sub hu) => /(_ isT) /andP [].
  move: hv hv'; rewrite !mem_cat !freshE // => /orP [h1|/orP [h1|h1]] /orP [h2|/orP [h2|h2]].
  - by have [_ _ k3] := @path_disj path a i j v upath; have := k3 hij h1; rewrite h2.
  - by move: (sr i v hi h1) (lvrange j v hj h2); clear; lia.
  - by move: (sr i v hi h1) (szi _ (ltnW hj)) h2 sz0; clear; lia.
  - by move: (sr j v hj h2) (lvrange i v hi h1); clear; lia.
  - case: (ltngtP i j) hij => // hlt _.
      by have := r3 i j v; rewrite hlt hj h1 h2 => /(_ isT isT).
    by have := r3 j i v; rewrite hlt hi h1 h2 => /(_ isT isT).
  - by move: (lvrange i v hi h1) (szi _ (ltnW hj)) h2; clear; lia.
  - by move: (sr j v hj h2) (szi _ (ltnW hi)) h1 sz0; clear; lia.
  - by move: (lvrange j v hj h2) (szi _ (ltnW hi)) h1; clear; lia.
  case: (ltngtP i j) hij => // hlt _.
    by have := szm i.+1 j; rewrite hlt (ltnW hj) => /(_ isT); move: h1 h2; clear; lia.
  by have := szm j.+1 i; rewrite hlt (ltnW hi) => /(_ isT); move: h1 h2; clear; lia.
have inpP (l : pb_linear_combination F) : List.In l (rs :: A) -> inp slot N Ks P l.
  move=> hl; have [l1 l2] := hlc l hl.
  apply: inp_others s0N k0N.
    exact: lc_proper_slot slot0E l1.
  by apply: avoids_subset l2 => v; apply: subr.
have Ai i : (i < D)%N -> List.In (lc_nth A (D - 1 - i)) (rs :: A).
  by move=> hi; right; apply: lc_nth_In; rewrite sA; move: hi; clear; lia.
pose pre := fun (y k : seq F) => [/\ forall i, (i < D)%N -> lval y (lc_nth A (D - 1 - i)) = (nth false a (D - 1 - i))%:R,
   var_isbits y leaf, forall i, (i < D)%N -> var_isbits y (path_sib path a i) & ready slot (ksz (st 0%N)) (ksz (st D)) k].
have Pleaf : all P leaf.
  apply: sub_all hleaf => v /andP [h1 h2]; rewrite /P /others h1; apply: contra h2.
  exact: subr.
have Psib i : (i < D)%N -> all P (path_sib path a i).
  move=> hi; apply/allP => v hv; have hin := path_sib_sub hv.
  rewrite /P /others; have := varange v; rewrite mem_cat hin => /(_ isT) /andP [_ ->] /=.
  rewrite mem_cat negb_or; apply/andP; split.
    apply/negP => /flattenP [s /mapP [j _ ->] hs].
    by have [_ k2 _] := @path_disj path a j i v upath; have := k2 hs; rewrite hv.
  by move: huniq; rewrite cat_uniq => /and3P [_ /hasPn hd' _]; apply/negP => /hd' /negP; apply.
have stpre : stable slot N Ks P pre.
  move=> m y k y' k' sy sk hws hm [q1 q2 q3 q4]; split.
  - by move=> i hi; rewrite -q1 // /lval (wstep_fs hws) //; apply: avoids_within hm (inpP _ (Ai i hi)).2.
  - exact: (stable_isbits Pleaf sy sk hws hm q2).
  - by move=> i hi; apply: (stable_isbits (Psib i hi) sy sk hws hm); apply: q3.
  - exact: (stable_ready0 sy sk hws hm q4).
pose post i (y k : seq F) := level_post H path (lc_nth A (D - 1 - i)) (lv i.+1) (lv i) i (nth false a (D - 1 - i)) (h i) y.
pose Wit i (pb : protoboard F) := let! pb := digest_selector_witness (propagator HashT D A path (lv i.+1) i) pb in hg_witness (h i) pb.
have esd i : path_side path a i = (if nth false a (D - 1 - i) then nth [::] (pv_right path) i else nth [::] (pv_left path) i).
  by rewrite /path_side sa.
have esb i : path_sib path a i = (if nth false a (D - 1 - i) then nth [::] (pv_left path) i else nth [::] (pv_right path) i).
  by rewrite /path_sib sa.
have loop : gq slot N Ks P (flatten (map mods (rev (iota 0 D)))) (fun pb => ofold (fun pb i => Wit i pb) pb (rev (iota 0 D)))
     pre (fun y k => forall i, List.In i (rev (iota 0 D)) -> post i y k).
  apply: gq_loop => // ts1 i ts2 /rev_iota_split [hi hts].
  set Q := [predU P & _].
  have QP v : P v -> Q v by move=> hv; apply/orP; left.
  have Qm j v : (i < j < D)%N -> v \in mods j -> Q v.
    move=> hj hv; apply/orP; right; apply/flattenP; exists (mods j) => //.
    by apply/mapP; exists j => //; apply/(iffLR (GadgetLogic.In_mem _ _)); apply/hts.
  have oQ : outside N Q (mods i).
    move=> v hv; have [k1 k2] := modsP i v hi hv; split=> //; rewrite negb_or k2 /=.
    apply/negP => /flattenP [s /mapP [j hj ->] hv'].
    have {}hj : (i < j < D)%N by apply/hts; apply/(iffRL (GadgetLogic.In_mem _ _)).
    by have := @modsdisj i j v hi ltac:(move: hj; clear; lia) ltac:(move: hj; clear; lia) hv; rewrite hv'.
  have binp : all (fun v => (v <= N)%N && Q v) (lv i.+1).
    apply/allP => v; case: (ltnP i.+1 D) => hi1 hv.
      have hm : v \in mods i.+1 by rewrite !mem_cat hv orbT.
      by have [/andP [_ ->] _] := modsP _ v hi1 hm; apply: Qm hm; rewrite ltnSn.
    have ei : i.+1 = D by move: hi hi1; clear; lia.
    rewrite ei r2 in hv; rewrite (QP _ (allP Pleaf v hv)) andbT.
    by have /andP [h1 _] := allP hleaf v hv; apply: leq_trans h1 s0N.
  have lrr v : v \in nth [::] (pv_left path) i ++ nth [::] (pv_right path) i -> (v <= sz pb0)%N.
    move=> hv; have : v \in path_vars path by move: hv; rewrite mem_cat => /orP [/mem_path_l|/mem_path_r].
    by move=> hv'; have := varange v; rewrite mem_cat hv' => /(_ isT) /andP [].
  have nlv v : (v <= sz pb0)%N -> v \notin lv i.
    by move=> hv; apply/negP => /(lvrange _ _ hi); move: hv; clear; lia.
  have sinp : size (lv i.+1) = n.
    case: (ltnP i.+1 D) => hi1; first exact: lvsz.
    by have -> : i.+1 = D by [move: hi hi1; clear; lia]; rewrite r2.
  have := @level_gq H sl hH slot N Ks Q path D A (lv i.+1) (lv i) i (st i) (st i.+1) (h i) (nth false a (D - 1 - i))
    (wst i (ltnW hi)) hp hi sinp (lvsz i hi) (hh i hi).
  rewrite /= -esd -esb => G; apply: gq_pre; first apply: G.
  - by move: (szi _ hi) sDN; clear; lia.
  - by move: (kszi _ hi) kDN; clear; lia.
  - by move=> j hj; apply: slotE.
  - by apply/allP => v /lrr; move: sz0 (szi _ (ltnW hi)); clear; lia.
  - apply/allP => v hv; apply: nlv; apply: lrr; rewrite mem_cat; move: hv; rewrite esd.
    by case: ifP => _ ->; rewrite ?orbT.
  - by have [] := @path_disj path a i i 0%N upath.
  - by have [b _ ->] := r1 i hi; apply: iota_uniq.
  - by apply/allP => v /(lvrange _ _ hi); move: (szi _ (ltnW hi)); rewrite /is_var; clear; lia.
  - exact: binp.
  - apply/allP => v hv; apply/andP; split; last exact: QP _ (allP (Psib i hi) v hv).
    by apply: nlv; apply: lrr; rewrite mem_cat; move: hv; rewrite esb; case: ifP => _ ->; rewrite ?orbT.
  - by apply: inp_sub (inpP _ (Ai i hi)) => v; apply: QP.
  - exact: oQ.
  move=> y k sy sk [[q1 q2 q3 q4] qs]; split.
  - exact: q1.
  - case: (ltnP i.+1 D) => hi1; last by have -> : i.+1 = D by [move: hi hi1; clear; lia]; rewrite r2.
    by have [_ _ _ _ []] := qs i.+1 (iffRL (hts i.+1) ltac:(by rewrite ltnSn hi1)).
  - exact: q3.
  - apply: ready_sub q4; first by have /andP [] := kszi _ (ltnW hi).
    by have /andP [] := kszi _ hi.
have hready : ready slot (ksz (st 0%N)) (ksz (st D)) (pb_lc_values pb).
  move=> j /andP [hj1 hj2]; have [i hi hij] : exists2 i, (i < D)%N & (ksz (st i) <= j < ksz (st i.+1))%N.
    elim: (D) hj2 => [|d IH]; first by move=> hj2; move: (leq_trans hj2 hj1); rewrite ltnn.
    case: (ltnP j (ksz (st d))) => hjd hj2; last by exists d => //; rewrite hjd.
    by have [i hi hij] := IH hjd; exists i => //; apply: ltnW.
  rewrite (slotE i j hi hij) => hwi.
  have [sb eh] := hasher_inv hp hi (hh i hi).
  have oi : all (is_var (st i)) (lv i).
    by apply/allP => v /(lvrange _ _ hi); move: (szi _ (ltnW hi)); rewrite /is_var; clear; lia.
  rewrite -(hc_slots hH (wst i (ltnW hi)) sb (lvsz i hi) oi eh hij hwi).
  have ha : allocates (st i.+1) pb1 by apply: allocates_trans r9; apply: r5; rewrite hi leqnn.
  rewrite hslots; last first.
    by move: hij (kszi _ (ltnW hi)) (kszi _ hi) ksz0 ksz1; clear; lia.
  by case: ha => _ _ [zs ->] _; rewrite nth_cat; case/andP: hij => _ ->.
have pre0 : pre x (pb_lc_values pb).
  split=> // i hi; have h' : (D - 1 - i < size A)%N by rewrite sA; move: hi; clear; lia.
  have hb : isbit (lval x (lc_nth A (D - 1 - i))) by move/all_InP: hA; apply; apply: lc_nth_In.
  by rewrite /a (nth_map (PbLc false 0%N [::])) //; exact: (BasicGadgetsFacts.isbitP hb).
have [pbm [em asm wsm psm]] := gq_run hwp erefl erefl loop pre0.
set M := flatten (map mods (rev (iota 0 D))) in loop asm wsm.
have memM v : v \in M -> exists2 i, (i < D)%N & v \in mods i.
  move=> /flattenP [s /mapP [i hi ->] hv]; exists i => //.
  by move: hi; rewrite mem_rev mem_iota.
have rootM v : v \in root -> v \notin M.
  move=> hv; apply/negP => /memM [i hi hv'].
  have hv2 : v \in path_vars path ++ root by rewrite mem_cat hv orbT.
  case: (modsrange i v hi hv') => [hs|]; last by move: (varange v hv2); clear; lia.
  move: huniq; rewrite cat_uniq => /and3P [_ /hasPn hd' _]; move/hd': hv => /negP; apply.
  exact: path_side_sub hs.
set y := pb_values pbm in wsm psm; set k := pb_lc_values pbm in wsm psm.
have sy : size y = N by rewrite (wstep_size wsm).
have sk : size k = Ks by rewrite (wstep_ksize wsm).
have oM : outside N P M by case: loop.
have eqrs : lval y rs = lval x rs.
  by rewrite /lval (wstep_fs wsm) //; apply: avoids_within oM (inpP rs (or_introl erefl)).2.
have eqroot : map (xval y) root = map (xval x) root.
  by apply/eq_in_map => v /rootM; apply: (wstep_val wsm).
have wpm : pb_wf pbm by case: asm.
pose m2 := root ++ fresh_vars (st D) pb1.
have o2 : outside N [predU P & mem M] m2.
  move=> v; rewrite mem_cat mem_fresh // => /orP [hv|hv].
    have hv2 : v \in path_vars path ++ root by rewrite mem_cat hv orbT.
    split; first by move: (varange v hv2) s0N; clear; lia.
    rewrite /= negb_or (rootM v hv) andbT; apply: NP.
    by rewrite mem_cat hv orbT.
  split; first by move: hv hsz; rewrite /N; clear; lia.
  rewrite /= negb_or; apply/andP; split; first by apply: NPf; move: hv s0D sz0; clear; lia.
  apply/negP => /memM [i hi hv'].
  case: (modsrange i v hi hv') => [hs|]; last by move: hv; clear; lia.
  have := varange v; rewrite mem_cat (path_side_sub hs) => /(_ isT).
  by move: hv s0D sz0; clear; lia.
have o2P : outside N P m2 by move=> v /o2 [-> /=]; rewrite negb_or => /andP [].
have uroot : uniq root by move: huniq; rewrite cat_uniq => /and3P [].
have vroot : all (is_var (st D)) root.
  apply/allP => v hv; have hv2 : v \in path_vars path ++ root by rewrite mem_cat hv orbT.
  by move: (varange v hv2) sz0 s0D; rewrite /is_var; clear; lia.
have rsP := inpP rs (or_introl erefl).
have lv0 v : v \in lv 0%N -> v \in M.
  move=> hv; apply/flattenP; exists (mods 0%N); last by rewrite !mem_cat hv orbT.
  by apply/mapP; exists 0%N => //; rewrite mem_rev mem_iota.
have ps i : (i < D)%N -> post i y k.
  by move=> hi; apply: psm; apply/(iffRL (GadgetLogic.In_mem _ _)); rewrite mem_rev mem_iota.
have [||||||||z [k2 [h1 h2 h3 h4]]] := @bit_vector_copy_ok F pbm y k slot _ _ r10.
- by rewrite r14 sy; apply: assignable_fresh.
- rewrite r11 sy; apply/allP => v hv; have [/andP [_ ->] _] // := oM v (lv0 v hv).
- rewrite r11 r14; apply/allP => v hv; apply/negP => /o2 [_] /=.
  by rewrite negb_or (lv0 v hv) andbF.
- by rewrite r13 sy sk; case: rsP.
- by rewrite r13 r14; apply: avoids_within o2P rsP.2.
- by rewrite r13 eqrs.
- by rewrite r11; have [_ _ _ _ []] := ps 0%N hd.
- rewrite r12 r13 eqrs => hrs; apply/allP => v hv; have hn := rootM v hv; rewrite (wstep_val wsm hn).
  exact: (allP (broot hrs) v hv).
rewrite r14 -/m2 in h2; rewrite r12 r11 r13 eqrs in h4.
have sz' : size z = N by rewrite (wstep_size h2).
have post2 i : (i < D)%N -> post i z k2.
  move=> hi; case: loop => hst _ _; apply: (hst _ _ _ _ _ sy sk h2 o2 psm).
  by apply/(iffRL (GadgetLogic.In_mem _ _)); rewrite mem_rev mem_iota.
have Pz v : P v -> xval z v = xval x v.
  move=> hv; rewrite (wstep_val h2) ?(wstep_val wsm) //; apply/negP.
    by move=> /oM [_]; rewrite hv.
  by move=> /o2P [_]; rewrite hv.
have esz s : all P s -> var_bits z s = var_bits x s.
  by move=> hs; apply/eq_in_map => v hv; rewrite Pz // (allP hs v hv).
have eb0 i : nth false a (D - 1 - i) = nth false a (size a - 1 - i) by rewrite sa.
have ehs : cr_hashers g = [seq h i | i <- iota 0 D] by rewrite -r6' -/(mkseq _ _) mkseq_nth.
exists (upd pbm z k2); split.
- rewrite /check_read_witness -h1 /= r7.
  rewrite ehs zip_map -map_rev ofold_map.
  have -> : ofold (fun s t => let! pb2 := digest_selector_witness (propagator HashT depth A path (lv t.+1) t, h t).1 s in hg_witness (propagator HashT depth A path (lv t.+1) t, h t).2 pb2) pb (rev (iota 0 D)) = Ok pbm by [].
  by rewrite [LHS]/= /y /k (board_of wpm).
- case: asm => a1 a2 a3 a4; have [b1 b2 b3 b4] := assigns_upd wpm h2.
  split; [by rewrite b1|exact: b2|by rewrite b3|].
  apply: changes_trans_in a4 b4 => v.
    move=> /memM [i hi hv]; case: (modsrange i v hi hv) => hv'.
      by rewrite mem_cat (sideIn i v hi hv').
    rewrite !mem_cat mem_fresh; last by apply: allocates_trans r4 (allocates_trans (r5 0%N D _) r9); rewrite leqnn.
    by apply/orP; right; apply/orP; right; move: hv' sz1; clear; lia.
  rewrite mem_cat => /orP [hv|]; first by rewrite !mem_cat hv orbT.
  rewrite !mem_cat !mem_fresh //; last by apply: allocates_trans r4 (allocates_trans (r5 0%N D _) r9); rewrite leqnn.
  by move=> hv; apply/orP; right; apply/orP; right; move: hv s0D sz0; clear; lia.
- rewrite holds_cat; split.
    apply/(path_constraintsE _ hp) => i hi; have [_ q2 q3 q4 _] := post2 i hi.
    have q5 : var_isbits z (if nth false a (D - 1 - i) then nth [::] (pv_right path) i else nth [::] (pv_left path) i).
      by rewrite (eq_var_isbits q3).
    by move: q4 q5; case: (nth false a _) => -> ->.
  rewrite /check_read_constraints 2!holds_cat; split.
    rewrite ehs -map_comp; apply/holds_flatten_iota => i hi; have [_ _ _ _ [q5 _ _]] := post2 i hi.
    exact: (hc_weaken hH) q5.
  split; last exact: (bit_vector_copy_weaken r10 h3).
  rewrite r7 -map_comp; apply/holds_flatten_iota => i hi; have [q1 q2 q3 q4 _] := post2 i hi.
  have sp : size (path_side path a i) = n.
    case: (hp) => p1 p2 p3 p4; rewrite /path_side.
    by case: ifP => _; apply/eqP; [apply: (allP p4)|apply: (allP p3)]; rewrite mem_nth ?p1 ?p2.
  apply: (@selector_holds (propagator HashT D A path (lv i.+1) i) (nth false a (D - 1 - i))) => //.
  - case: (ltnP i.+1 D) => hi1; first exact: lvsz.
    by have -> : i.+1 = D by [move: hi hi1; clear; lia]; rewrite r2.
  - by rewrite /= -esd.
- move=> hrs; rewrite h4; case: eqP => // _; exact: eqroot.
move=> hrs; rewrite hrs eqxx in h4.
split.
  have [_ _ _ _ [_ q6 _]] := ps 0%N hd; rewrite /var_isbits -(all_map (xval z) (@isbit F)) h4.
  by rewrite all_map.
have eroot : var_bits z root = var_bits z (lv 0%N).
  apply: eq_var_bits; rewrite h4; apply/eq_in_map => v hv; rewrite (wstep_val h2) //; apply/negP => /o2 [_] /=.
  by rewrite negb_or (lv0 v hv) andbF.
have esib : path_siblings z path a = path_siblings x path a.
  apply: (@eq_from_nth _ [::]); rewrite !size_path_siblings // sa => i hi.
  rewrite !nth_path_siblings ?sa //; have := esz _ (Psib i hi).
  by rewrite esb; case: (nth false a _).
rewrite -(esz _ Pleaf) -esib.
pose lvs := [seq lv i | i <- iota 0 D.+1].
have nlv i : (i <= D)%N -> nth [::] lvs i = lv i by move=> hi; rewrite (nth_map 0%N) ?size_iota // nth_iota.
have <- : last [::] lvs = leaf by rewrite -nth_last size_map size_iota /= nlv.
have LB i : (i < D)%N -> graph H (level_block z path a (nth [::] lvs i.+1) i) (var_bits z (lv i)).
  move=> hi; have [q1 q2 q3 q4 [q5 q6 q7]] := post2 i hi; rewrite nlv // /graph q7; congr H.
  rewrite /level_block nth_path_siblings ?sa // var_bits_cat -(eq_var_bits q3).
  by case: (nth false a _).
apply: levels_connect; rewrite ?sa //.
- by rewrite size_map size_iota.
- by rewrite eroot; apply: LB.
by move=> i /andP [_ hi]; rewrite [nth [::] lvs i]nlv ?(ltnW hi) //; apply: LB.
Qed.
End Read.
End Complete.
