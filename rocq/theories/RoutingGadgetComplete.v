(** Witness generation of the routing gadgets (for C36).  Models nothing of /repo. *)
From mathcomp Require Import all_ssreflect all_algebra zify.
From Verif Require Import Outcome StdMap Lincomb LincombSpec LincombFacts R1CS R1CSSpec R1CSFacts Fieldtac.
From Verif Require Import Protoboard GadgetSpec GadgetLogic BasicGadgets BasicGadgetsFacts BasicGadgetsMore.
From Verif Require Import BasicGadgetsCopy GadgetNew GadgetSeq Sha256Gadget Knapsack MerkleSound.
From Verif Require Import IntegerPermutation Benes AsWaksman Prop_Routing RoutingGadget RoutingGadgetFacts RoutingGadgetSound.
Set Implicit Arguments.
Unset Strict Implicit.
Unset Printing Implicit Defensive.
Local Open Scope ring_scope.
Import GRing.Theory.

(** ** Following packets through a network *)
Section Follow.
Variable T : Type.
Local Open Scope nat_scope.
Variables (n nc : nat) (next : nat -> nat -> nat) (pay0 : nat -> T).
Fixpoint follow c x := if c is c'.+1 then next c' (follow c' x) else x.
Hypothesis hlt : forall c x, c < nc -> x < n -> next c x < n.
Hypothesis hinj : forall x y, x < n -> y < n -> follow nc x = follow nc y -> x = y.

Lemma follow_lt c x : c <= nc -> x < n -> follow c x < n.
Proof. by elim: c => [|c IH] //= hc hx; apply: hlt => //; apply: IH => //; apply: ltnW. Qed.
Lemma follow_inj c x y : c <= nc -> x < n -> y < n -> follow c x = follow c y -> x = y.
Proof.
move=> hc hx hy e; apply: hinj => //; rewrite -(subnKC hc); elim: (nc - c) => [|j IH]; first by rewrite addn0.
by rewrite addnS /= IH.
Qed.
Lemma follow_onto c y : c <= nc -> y < n -> exists2 x, x < n & follow c x = y.
Proof.
move=> hc hy; have hu : uniq [seq follow c x | x <- iota 0 n].
  by apply/map_uniqP; first exact: iota_uniq; move=> x1 x2; rewrite !mem_iota /= => h1 h2; apply: follow_inj.
have hs : {subset [seq follow c x | x <- iota 0 n] <= iota 0 n}.
  by move=> z /mapP [x]; rewrite mem_iota /= => hx ->; rewrite mem_iota /=; apply: follow_lt.
have [|_ em] := uniq_min_size hu hs; first by rewrite size_map.
have : y \in iota 0 n by rewrite mem_iota.
by rewrite -em => /mapP [x]; rewrite mem_iota /= => hx ->; exists x.
Qed.
Definition pay_at c y := pay0 (index y [seq follow c x | x <- iota 0 n]).
Lemma pay_at_follow c x : c <= nc -> x < n -> pay_at c (follow c x) = pay0 x.
Proof.
move=> hc hx; rewrite /pay_at; have hu : uniq [seq follow c x | x <- iota 0 n].
  by apply/map_uniqP; first exact: iota_uniq; move=> x1 x2; rewrite !mem_iota /= => h1 h2; apply: follow_inj.
have -> : follow c x = nth 0 [seq follow c x | x <- iota 0 n] x by rewrite (nth_map 0) ?size_iota // nth_iota.
by rewrite index_uniq // size_map size_iota.
Qed.
Lemma pay_at_next c x : c < nc -> x < n -> pay_at c.+1 (next c x) = pay_at c x.
Proof.
move=> hc hx; have [y hy <-] := follow_onto (ltnW hc) hx.
by rewrite -[next c _]/(follow c.+1 y) !pay_at_follow // ltnW.
Qed.
Lemma next_onto c y : c < nc -> y < n -> exists2 x, x < n & next c x = y.
Proof. by move=> hc hy; have [x hx e] := follow_onto hc hy; exists (follow c x) => //; apply: follow_lt (ltnW hc) hx. Qed.
End Follow.

Section Complete.
Variable F : fieldType.
Variable R : bigint_repr F.
Hypothesis hcap : (0 < capacity R)%N.
Implicit Types (x kk : seq F).
Variables (pb0 pb1 : protoboard F) (n nc k l : nat) (t : seq (seq (nat * nat))) (sw : nat -> nat -> bool) (wires : bool).
Variables (inputs outputs : seq pb_variable_array) (g : routing_gadget F).
Hypothesis hb : built R pb0 pb1 n nc k l t sw wires inputs outputs g.
Let N0 := size (pb_values pb0).
Let N1 := size (pb_values pb1).
Variables (pb : protoboard F) (val : nat -> F) (pay : nat -> nat -> seq F) (b : nat -> nat -> F) (m : seq nat) (N K : nat).
Hypothesis hN : (N1 <= N)%N.
Hypothesis hcar : forall c y, (c <= nc)%N -> (y < n)%N -> carried val N0 N1 k (rg_packet g c y) (pay c y).
Hypothesis hm : forall v, (N0 < v <= N1)%N -> v \in m.
Hypothesis hbit : (1 < k)%N -> forall c r, (c < nc)%N -> sw c r ->
  (N0 < rg_bit g c r <= N1)%N /\ val (rg_bit g c r) = b c r.

(** Every change is towards the valuation [val]. *)
Definition toward x kk x' kk' : Prop :=
  [/\ size x' = size x, size kk' = size kk & forall v, xval x' v = xval x v \/ (v \in m /\ xval x' v = val v)].
Definition state x kk : Prop := size x = N /\ size kk = K.
Definition ok x c y : Prop := map (xval x) (rg_packet g c y) = pay c y.

Lemma toward_refl x kk : toward x kk x kk. Proof. by split=> // v; left. Qed.
Lemma toward_trans x1 k1 x2 k2 x3 k3 : toward x1 k1 x2 k2 -> toward x2 k2 x3 k3 -> toward x1 k1 x3 k3.
Proof.
move=> [h1 h2 h3] [h4 h5 h6]; split; rewrite ?h4 ?h5 // => v.
by case: (h6 v) => [->|h]; [apply: h3|right].
Qed.
Lemma toward_state x kk x' kk' : toward x kk x' kk' -> state x kk -> state x' kk'.
Proof. by case=> h1 h2 _; rewrite /state h1 h2. Qed.
Lemma toward_val x kk x' kk' v : toward x kk x' kk' -> xval x v = val v -> xval x' v = val v.
Proof. by case=> _ _ h e; case: (h v) => [->|[]]. Qed.
Lemma toward_vals x kk x' kk' vs : toward x kk x' kk' -> map (xval x) vs = map val vs -> map (xval x') vs = map val vs.
Proof. by move=> h /eq_in_map e; apply/eq_in_map => v /e; apply: toward_val h. Qed.
Lemma okE x c y : (c <= nc)%N -> (y < n)%N -> ok x c y <-> map (xval x) (rg_packet g c y) = map val (rg_packet g c y).
Proof. by move=> hc hy; have [_ _ e] := hcar hc hy; rewrite /ok e. Qed.
Lemma toward_ok x kk x' kk' c y : (c <= nc)%N -> (y < n)%N -> toward x kk x' kk' -> ok x c y -> ok x' c y.
Proof. by move=> hc hy h; rewrite !okE //; apply: toward_vals h. Qed.

(** One assignment of the intended value. *)
Lemma set_ok x kk v : state x kk -> v \in m -> (0 < v <= N)%N ->
  exists x', [/\ pb_set (upd pb x kk) v (val v) = Ok (upd pb x' kk), toward x kk x' kk & xval x' v = val v].
Proof.
move=> [hx _] hv hr; exists (put x v (val v)).
have hr' : (0 < v <= size x)%N by rewrite hx.
split; [exact: pb_set_upd| |by rewrite xval_put_eq].
split=> //; first by apply: size_put; case/andP: hr'.
by move=> w; rewrite xval_put //; case: eqP => [->|_]; [right|left].
Qed.

(** Sequences of steps *)
Lemma fold_ok (A : Type) (f : protoboard F -> A -> outcome (protoboard F)) (inv : seq F -> Prop) (post : A -> seq F -> Prop) (s : seq A) :
  (forall x kk x' kk', toward x kk x' kk' -> inv x -> inv x') ->
  (forall a x kk x' kk', List.In a s -> toward x kk x' kk' -> post a x -> post a x') ->
  (forall a x kk, List.In a s -> state x kk -> inv x ->
     exists x' kk', [/\ f (upd pb x kk) a = Ok (upd pb x' kk'), toward x kk x' kk' & post a x']) ->
  forall x kk, state x kk -> inv x ->
  exists x' kk', [/\ ofold f (upd pb x kk) s = Ok (upd pb x' kk'), toward x kk x' kk' & forall a, List.In a s -> post a x'].
Proof.
move=> hi; elim: s => [|a s IH] hp hf x kk hs hv.
  by exists x, kk; split=> //; apply: toward_refl.
have [x1 [k1 [e1 t1 p1]]] := hf a x kk (or_introl erefl) hs hv.
have [||x2 [k2 [e2 t2 p2]]] := IH _ _ x1 k1 (toward_state t1 hs) (hi _ _ _ _ t1 hv).
- by move=> a' x' kk' x'' kk'' ha; apply: hp; right.
- by move=> a' x' kk' ha; apply: hf; right.
exists x2, k2; split.
- by cbn [ofold]; rewrite e1; cbn [obind].
- exact: toward_trans t1 t2.
by move=> a' [<-|/p2 //]; apply: (hp a _ _ _ _ (or_introl erefl) t2).
Qed.

Lemma sub_in c y sub : (c <= nc)%N -> (y < n)%N -> (sub < k)%N ->
  rg_sub g c y sub \in rg_packet g c y /\ val (rg_sub g c y sub) = nth 0 (pay c y) sub.
Proof.
move=> hc hy hs; have [[sz _] _ <-] := hcar hc hy.
by rewrite /rg_sub mem_nth ?sz // (nth_map 0%N) ?sz.
Qed.
Lemma copy_packet_ok x kk c y c' y' : (c <= nc)%N -> (y < n)%N -> (c' <= nc)%N -> (y' < n)%N -> state x kk ->
  ok x c y -> pay c' y' = pay c y ->
  exists x' kk', [/\ copy_packet g (rg_sub g c' y') (rg_sub g c y) (upd pb x kk) = Ok (upd pb x' kk'),
    toward x kk x' kk' & ok x' c' y'].
Proof.
move=> hc hy hc' hy' hs ho ep; rewrite /copy_packet (bu_k hb).
have [[sz _] /allP h1 h2] := hcar hc hy; have [[sz' _] /allP h1' h2'] := hcar hc' hy'.
have [|||x' [kk' [e1 e2 e3]]] := @fold_ok nat (fun pb sub => obind (pb_val pb (rg_sub g c y sub)) (fun v => pb_set pb (rg_sub g c' y' sub) v))
  (fun x => ok x c y) (fun sub x => xval x (rg_sub g c' y' sub) = val (rg_sub g c' y' sub)) (iota 0 k) _ _ _ x kk hs ho.
- by move=> x1 k1 x2 k2; apply: toward_ok.
- by move=> a x1 k1 x2 k2 _; apply: toward_val.
- move=> a x1 k1 /GadgetLogic.In_mem; rewrite mem_iota add0n => /= ha s1 o1.
  have [m1 v1] := sub_in hc hy ha; have [m2 v2] := sub_in hc' hy' ha.
  have e : xval x1 (rg_sub g c y a) = val (rg_sub g c y a) by move/(okE _ hc hy)/eq_in_map: o1; apply.
  have l1 := h1 _ m1; have l2 := h1' _ m2.
  have [||x2 [k2 k3 k4]] := @set_ok x1 k1 (rg_sub g c' y' a) s1; [exact: hm|by move: l2 hN; clear; lia|].
  exists x2, k1; split=> //; rewrite pb_val_upd; last by case: s1 => -> _; move: l1 hN; clear; lia.
  by cbn [obind]; rewrite e v1 -ep -v2.
exists x', kk'; split=> //; apply/(okE _ hc' hy'); apply/eq_in_map => v hv.
have hi : (index v (rg_packet g c' y') < k)%N by rewrite -sz' index_mem.
have := e3 (index v (rg_packet g c' y')); rewrite /rg_sub nth_index //; apply.
by apply/GadgetLogic.In_mem; rewrite mem_iota.
Qed.

(** ** Packing the inputs and unpacking the outputs *)
Hypothesis hin : forall i, (i < n)%N -> [/\ all (fun v => (v <= N0)%N) (nth [::] inputs i),
  all (@isbit F) (map val (nth [::] inputs i)) & pay 0%N i = packed_of R (map val (nth [::] inputs i))].
Definition inputs_ok x : Prop := forall i, (i < n)%N -> map (xval x) (nth [::] inputs i) = map val (nth [::] inputs i).
Lemma toward_inputs x kk x' kk' : toward x kk x' kk' -> inputs_ok x -> inputs_ok x'.
Proof. by move=> h hi i /hi; apply: toward_vals h. Qed.

Lemma In_plcs (vs : seq nat) o : List.In o (plcs_of_vars F vs) -> exists2 v, v \in vs & o = plc_of_var F v.
Proof.
rewrite /plcs_of_vars => /List.in_map_iff [v [<- hv]]; exists v => //; exact/GadgetLogic.In_mem.
Qed.
Lemma plc_proper v N' K' : (v <= N')%N -> lc_proper (fun=> [::]) N' K' (plc_of_var F v).
Proof. by []. Qed.

Lemma pack_step x kk i : (i < n)%N -> state x kk -> inputs_ok x ->
  exists x' kk', [/\ obind (oget (rg_pack g) i) (fun mp => multipacking_witness_from_bits mp (upd pb x kk)) = Ok (upd pb x' kk'),
    toward x kk x' kk' & ok x' 0 i].
Proof.
move=> hi hs hx; have [sp hp] := bu_pack hb.
rewrite (oget_nth [::]) ?sp //; cbn [obind].
have [h1 h2 h3] := hin hi; have [[sz su] /allP hr hv] := hcar (leq0n nc) hi.
have [sx sk] := hs.
have [||||x' [k' [e1 e2 e3 e4]]] := @multipacking_from_bits_ok F pb x kk (fun=> [::]) _ _ _ _ (hp i hi).
- by move=> o /In_plcs [v hv' ->]; apply: plc_proper; rewrite sx; have := allP h1 v hv'; move: hN (allocates_size (bu_alloc hb)); rewrite /N0 /N1; clear; lia.
- split; first exact: su.
  by apply/allP => v /hr; rewrite sx; move: hN; clear; lia.
- apply/all_InP => o /In_plcs [v hv' ->]; rewrite /avoids /= andbT.
  by apply/negP => /hr; have := allP h1 v hv'; clear; lia.
- apply/all_InP => o /In_plcs [v hv' ->]; rewrite lval_var.
  have -> : xval x v = val v by move/eq_in_map: (hx i hi); apply.
  by apply: (allP h2); apply: map_f.
have e5 : map (xval x') (nth [::] (nth [::] (rg_packets g) 0) i) = pay 0%N i.
  rewrite e3 h3 /packed_of -(hx i hi) /plcs_of_vars !chunks_map -!map_comp; apply: eq_map => p /=.
  by rewrite -map_comp; congr pack; apply: eq_map => v /=; rewrite lval_var.
exists x', k'; split=> //.
split; [exact: wstep_size e2|exact: wstep_ksize e2|move=> v].
case hv': (v \in nth [::] (nth [::] (rg_packets g) 0) i); last by left; apply: (wstep_val e2); rewrite hv'.
right; split; first exact/hm/hr.
by move: e5; rewrite -hv => /eq_in_map; apply.
Qed.

Hypothesis hln : (l <= n)%N.
Hypothesis hout : forall i, (i < l)%N -> [/\ all (fun v => (0 < v <= N0)%N && (v \in m)) (nth [::] outputs i), uniq (nth [::] outputs i),
  all (@isbit F) (map val (nth [::] outputs i)) & pay nc i = packed_of R (map val (nth [::] outputs i))].
Definition column_done x c : Prop := forall y, (y < n)%N -> ok x c y.

Lemma unpack_step x kk i : (i < l)%N -> state x kk -> column_done x nc ->
  exists x' kk', [/\ obind (oget (rg_unpack g) i) (fun mp => multipacking_witness_from_packed R mp (upd pb x kk)) = Ok (upd pb x' kk'),
    toward x kk x' kk' & map (xval x') (nth [::] outputs i) = map val (nth [::] outputs i)].
Proof.
move=> hi hs hx; have [sp hp] := bu_unpack hb; have hin' := leq_trans hi hln.
rewrite (oget_nth [::]) ?sp //; cbn [obind].
have [/allP h1 hu h2 h3] := hout hi; have [[sz su] /allP hr hv] := hcar (leqnn nc) hin'.
have [sx sk] := hs.
have hl := allocates_size (bu_alloc hb).
move: (hp i hi) (hx i hin'); rewrite -/(rg_packet g nc i).
set bits := nth [::] outputs i in h1 hu h2 h3 *; set pk := rg_packet g nc i in sz su hr hv * => hmp ok1.
have [_ hs' _] := multipacking_new_zip hmp; rewrite /plcs_of_vars !size_map in hs'.
have hdis v : v \in pk -> v \notin bits.
  by move=> hv'; apply/negP => /h1; have := hr v hv'; clear; lia.
have [||||x' [k' [e1 e2 e3]]] := @multipacking_from_packed_ok F R pb x kk (fun=> [::]) _ _ _ _ hmp.
- split=> //; apply/allP => v /h1; rewrite sx; move: hN hl; rewrite /N0 /N1; clear; lia.
- move=> o /In_plcs [v hv' ->]; apply: plc_proper; rewrite sx; have := hr v hv'; move: hN; clear; lia.
- by apply/all_InP => o /In_plcs [v hv' ->]; rewrite /avoids /= andbT; apply: hdis.
- move=> j; rewrite size_map => hj; rewrite plc_nth // lval_var.
  have -> : xval x (nth 0%N pk j) = nth 0 (pay nc i) j by rewrite -ok1 (nth_map 0%N).
  rewrite h3 /packed_of (nth_map [::]) ?size_chunks ?size_map -?hs' //.
  have -> : nth [::] (chunks (map val bits) (capacity R)) j = chunk_slice (map val bits) (capacity R) j.
    by rewrite /chunks (nth_map 0%N) ?size_iota ?size_map -?hs' // nth_iota -?hs'.
  rewrite chunk_slice_map; set ch := chunk_slice bits _ _.
  have hbt : all (@isbit F) (map val ch).
    apply/allP => _ /mapP [v hv' ->]; apply: (allP h2); apply: map_f.
    by apply/GadgetLogic.In_mem; apply: (@chunk_slice_In _ _ (capacity R) j); apply/GadgetLogic.In_mem.
  rewrite (pack_bits hbt); have hlt := bits_nat_lt (map (@bit_of F) (map val ch)); rewrite !size_map in hlt.
  rewrite as_bigint_nat //; apply: leq_trans hlt _; apply: leq_trans (capacity_lt R); rewrite leq_exp2l //.
  rewrite /ch /chunk_slice size_drop size_takel ?geq_minr // mulSn; move: (capacity R) (j * _)%N (size bits); clear; lia.
have e4 : map (xval x') bits = map val bits.
  move: e3; rewrite (packs_sat x' true hmp) => -[e3 /(_ isT) e4].
  apply: (@packed_inj F R) => //; first by rewrite !size_map.
  rewrite -e3 -h3 -ok1; apply/eq_in_map => v hv'; apply: (wstep_val e2); exact: hdis.
exists x', k'; split=> //.
split; [exact: wstep_size e2|exact: wstep_ksize e2|move=> v].
case hv': (v \in bits); last by left; apply: (wstep_val e2); rewrite hv'.
right; split; first by have /andP [] := h1 v hv'.
by move/eq_in_map: e4; apply.
Qed.

(** ** The whole witness: [col] processes one column *)
Variable col : protoboard F -> nat -> outcome (protoboard F).
Definition bits_done x c : Prop := (1 < k)%N -> forall r, sw c r -> xval x (rg_bit g c r) = b c r.
Hypothesis hcol : forall c x kk, (c < nc)%N -> state x kk -> column_done x c ->
  exists x' kk', [/\ col (upd pb x kk) c = Ok (upd pb x' kk'), toward x kk x' kk', column_done x' c.+1 & bits_done x' c].

Lemma toward_column x kk x' kk' c : (c <= nc)%N -> toward x kk x' kk' -> column_done x c -> column_done x' c.
Proof. by move=> hc h hd y hy; apply: (toward_ok hc hy h); apply: hd. Qed.
Lemma toward_bits x kk x' kk' c : (c < nc)%N -> toward x kk x' kk' -> bits_done x c -> bits_done x' c.
Proof.
move=> hc h hd k1 r hr; have [_ e] := hbit k1 hc hr; rewrite -e; apply: (toward_val h); rewrite e; exact: hd.
Qed.

Lemma columns_ok x kk c : (c <= nc)%N -> state x kk -> column_done x 0 ->
  exists x' kk', [/\ ofold col (upd pb x kk) (iota 0 c) = Ok (upd pb x' kk'), toward x kk x' kk',
    forall c', (c' <= c)%N -> column_done x' c' & forall c', (c' < c)%N -> bits_done x' c'].
Proof.
move=> + hs h0; elim: c => [|c IH] hc.
  by exists x, kk; split=> //; [exact: toward_refl|case].
have [x1 [k1 [e1 t1 d1 b1]]] := IH (ltnW hc).
have [x2 [k2 [e2 t2 d2 b2]]] := hcol hc (toward_state t1 hs) (d1 c (leqnn c)).
exists x2, k2; split.
- by rewrite -addn1 iotaD ofold_cat e1; cbn [iota obind ofold]; rewrite add0n e2.
- exact: toward_trans t1 t2.
- move=> c'; rewrite leq_eqVlt => /orP [/eqP -> //|]; rewrite ltnS => h; apply: toward_column t2 (d1 _ h).
  exact: leq_trans h (ltnW hc).
- move=> c'; rewrite ltnS leq_eqVlt => /orP [/eqP -> //|h]; apply: toward_bits t2 (b1 _ h).
  exact: ltn_trans h hc.
Qed.

Lemma witness_ok x kk : state x kk -> inputs_ok x ->
  exists x1 k1 x2 k2 x' kk', [/\
    ofold (fun pb i => obind (oget (rg_pack g) i) (fun mp => multipacking_witness_from_bits mp pb)) (upd pb x kk) (iota 0 n) = Ok (upd pb x1 k1),
    ofold col (upd pb x1 k1) (iota 0 nc) = Ok (upd pb x2 k2) /\
    ofold (fun pb i => obind (oget (rg_unpack g) i) (fun mp => multipacking_witness_from_packed R mp pb)) (upd pb x2 k2) (iota 0 l)
      = Ok (upd pb x' kk'), toward x kk x' kk',
    inputs_ok x' /\ (forall i, (i < l)%N -> map (xval x') (nth [::] outputs i) = map val (nth [::] outputs i)) &
    (forall c, (c <= nc)%N -> column_done x' c) /\ (forall c, (c < nc)%N -> bits_done x' c)].
Proof.
move=> hs hi.
have hIn i j : List.In i (iota 0 j) -> (i < j)%N by move/GadgetLogic.In_mem; rewrite mem_iota.
have [|||x1 [k1 [e1 t1 p1]]] := @fold_ok nat (fun pb i => obind (oget (rg_pack g) i) (fun mp => multipacking_witness_from_bits mp pb))
  inputs_ok (fun i x => ok x 0 i) (iota 0 n) _ _ _ x kk hs hi.
- exact: toward_inputs.
- by move=> i x1 k1 x2 k2 /hIn hi'; apply: toward_ok.
- by move=> i x1 k1 /hIn hi'; apply: pack_step.
have s1 := toward_state t1 hs.
have d0 : column_done x1 0 by move=> y hy; apply: p1; apply/GadgetLogic.In_mem; rewrite mem_iota.
have [x2 [k2 [e2 t2 d2 b2]]] := columns_ok (leqnn nc) s1 d0.
have s2 := toward_state t2 s1.
have [|||x3 [k3 [e3 t3 p3]]] := @fold_ok nat (fun pb i => obind (oget (rg_unpack g) i) (fun mp => multipacking_witness_from_packed R mp pb))
  (fun x => column_done x nc) (fun i x => map (xval x) (nth [::] outputs i) = map val (nth [::] outputs i)) (iota 0 l) _ _ _ x2 k2 s2 (d2 nc (leqnn nc)).
- by move=> y1 j1 y2 j2; apply: toward_column.
- by move=> i y1 j1 y2 j2 _; apply: toward_vals.
- by move=> i y1 j1 /hIn hi'; apply: unpack_step.
exists x1, k1, x2, k2, x3, k3; split=> //; first exact: toward_trans t1 (toward_trans t2 t3).
  split; first exact: toward_inputs t3 (toward_inputs t2 (toward_inputs t1 hi)).
  by move=> i hi'; apply: p3; apply/GadgetLogic.In_mem; rewrite mem_iota.
split=> c hc; first exact: toward_column t3 (d2 c hc).
exact: toward_bits t3 (b2 c hc).
Qed.

(** ** The constraints hold of the intended values *)
Lemma packing_holds x i : inputs_ok x -> column_done x 0 -> (i < n)%N -> holds (multipacking_constraints (nth [::] (rg_pack g) i) false) x.
Proof.
move=> hi h0 hin'; have [_ hp] := bu_pack hb; rewrite (packs_sat x false (hp i hin')); split=> //.
by rewrite -/(rg_packet g 0 i) (h0 i hin') hi //; case: (hin hin').
Qed.
Lemma unpacking_holds x i : (forall i, (i < l)%N -> map (xval x) (nth [::] outputs i) = map val (nth [::] outputs i)) ->
  column_done x nc -> (i < l)%N -> holds (multipacking_constraints (nth [::] (rg_unpack g) i) true) x.
Proof.
move=> ho hc hi; have [_ hp] := bu_unpack hb; rewrite (packs_sat x true (hp i hi)); have [_ _ h2 h3] := hout hi.
by split; [rewrite -/(rg_packet g nc i) (hc i (leq_trans hi hln)) ho|rewrite ho].
Qed.
Lemma sub_val x c y sub : ok x c y -> (c <= nc)%N -> (y < n)%N -> (sub < k)%N -> xval x (rg_sub g c y sub) = nth 0 (pay c y) sub.
Proof.
by move=> h hc hy hs; have [[sz _] _ _] := hcar hc hy; rewrite -h (nth_map 0%N) ?sz.
Qed.
Lemma easy_holds x c r : (c < nc)%N -> (r < n)%N -> ((rg_edges g c r).1 < n)%N -> ((rg_edges g c r).2 < n)%N -> (0 < k)%N ->
  column_done x c -> column_done x c.+1 ->
  pay c r = pay c.+1 (rg_edges g c r).1 \/ pay c r = pay c.+1 (rg_edges g c r).2 -> constraint_holds (easy_route g c r) x.
Proof.
move=> hc hr h1 h2 k0 d1 d2 h; apply/easy_routeE; have lc := ltnW hc.
rewrite !sub_val //; try exact: d1; try exact: d2.
by case: h => ->; [left|right].
Qed.
Lemma route_holds x bit c r sub (bv : bool) : (c < nc)%N -> (r < n)%N -> ((rg_edges g c r).1 < n)%N -> ((rg_edges g c r).2 < n)%N ->
  (sub < k)%N -> column_done x c -> column_done x c.+1 -> xval x bit = bv%:R ->
  pay c r = pay c.+1 (if bv then (rg_edges g c r).2 else (rg_edges g c r).1) -> constraint_holds (route_forward g bit c r sub) x.
Proof.
move=> hc hr h1 h2 hs d1 d2 hv h; apply/route_forwardE; have lc := ltnW hc.
rewrite !sub_val //; try exact: d1; try exact: d2.
by rewrite hv h; case: bv {hv h}; rewrite ?mul1r ?mul0r ?subrr.
Qed.
End Complete.

(** ** Intended values of the outputs *)
Section Targets.
Variable F : fieldType.
Lemma map_targets (A : seq (seq nat)) (B : seq (seq F)) j : size A = size B -> (forall i, (i < size A)%N -> size (nth [::] A i) = size (nth [::] B i)) ->
  uniq (flatten A) -> (j < size A)%N -> [seq nth 0 (flatten B) (index v (flatten A)) | v <- nth [::] A j] = nth [::] B j.
Proof.
elim: A B j => [|a A IH] [|b B] // j [hs] hz; rewrite [flatten (a :: A)]/= cat_uniq => /and3P [ua hd uA] hj.
have sa := hz 0%N isT; rewrite /= in sa.
case: j hj => [|j] hj /=.
  apply: (@eq_from_nth _ 0); rewrite size_map // => i hi; rewrite (nth_map 0%N) //.
  by rewrite index_cat mem_nth // index_uniq // nth_cat -sa hi.
rewrite -(IH B j hs) //; last by move=> i hi; apply: (hz i.+1).
apply/eq_in_map => v hv.
have hv' : v \in flatten A by apply/flattenP; exists (nth [::] A j) => //; apply: mem_nth.
have hva : (v \in a) = false by apply/negP => h; move/hasP: hd; apply; exists v.
by rewrite index_cat hva nth_cat -sa ltnNge leq_addr /= addKn.
Qed.

Variable R : bigint_repr F.
Hypothesis hcap : (0 < capacity R)%N.
Variables (pb0 pb1 pb : protoboard F) (n nc s l : nat) (t : seq (seq (nat * nat))) (sw : nat -> nat -> bool) (wires : bool).
Variables (inputs outputs : seq pb_variable_array) (g : routing_gadget F).
Let k := div_ceil s (capacity R).
Hypothesis hb : built R pb0 pb1 n nc k l t sw wires inputs outputs g.
Hypothesis hl : later pb1 pb.
Hypotheses (hn : (0 < n)%N) (hln : (l <= n)%N) (si : size inputs = n) (so : (l <= size outputs)%N).
Hypothesis ai : all (fun v : pb_variable_array => size v == s) inputs.
Hypothesis ao : all (fun v : pb_variable_array => size v == s) outputs.
Hypothesis vi : all (is_var pb0) (flatten inputs).
Hypothesis vo : all (is_var pb0) (flatten (take l outputs)).
Hypothesis uo : uniq (flatten (take l outputs)).
Hypothesis dio : ~~ has (mem (flatten inputs)) (flatten (take l outputs)).
Hypothesis bi : all (all (@isbit F)) (map (map (xval (pb_values pb))) inputs).
Variables (next : nat -> nat -> nat) (b : nat -> nat -> F).
Hypothesis hlt : forall c y, (c < nc)%N -> (y < n)%N -> (next c y < n)%N.
Hypothesis hinj : forall y z, (y < n)%N -> (z < n)%N -> follow next nc y = follow next nc z -> y = z.
Hypothesis hwr : wires -> forall c r, (c < nc)%N -> (r < n)%N -> (rg_edges g c r).1 = (rg_edges g c r).2 -> next c r = (rg_edges g c r).1.
Let x := pb_values pb.
Let inp i := map (xval x) (nth (head [::] inputs) inputs i).
Let pay c y := pay_at n next (fun i => packed_of R (inp i)) c y.
Let m := fresh_vars pb0 pb1 ++ flatten (take l outputs).

Lemma inp_size i : size (inp i) = s.
Proof.
rewrite /inp size_map; case: (ltnP i (size inputs)) => h; first exact/eqP/(all_nthP _ ai).
rewrite nth_default //; case: inputs si ai hn => [<- //|v vs] _ /= /andP [/eqP -> _] //.
Qed.
Lemma inp_bits i : all (@isbit F) (inp i).
Proof.
apply: (allP bi); rewrite /inp /x; apply: map_f; case: (ltnP i (size inputs)) => h; first exact: mem_nth.
by rewrite nth_default //; case: inputs si hn => [<-|v vs] //= _ _; rewrite mem_head.
Qed.
Lemma packed_size a : size (packed_of R a) = div_ceil (size a) (capacity R).
Proof. by rewrite /packed_of (size_map (@pack F)) size_chunks. Qed.

(** The inverse of the permutation *)
Let src j := index j [seq follow next nc i | i <- iota 0 n].

Lemma valuation : exists val : nat -> F,
  [/\ forall c y, (c <= nc)%N -> (y < n)%N -> carried val (size (pb_values pb0)) (size (pb_values pb1)) k (rg_packet g c y) (pay c y),
      (1 < k)%N -> forall c r, (c < nc)%N -> sw c r ->
        (size (pb_values pb0) < rg_bit g c r <= size (pb_values pb1))%N /\ val (rg_bit g c r) = b c r,
      forall i, (i < n)%N -> [/\ all (fun v => (v <= size (pb_values pb0))%N) (nth [::] inputs i),
        all (@isbit F) (map val (nth [::] inputs i)) & pay 0%N i = packed_of R (map val (nth [::] inputs i))],
      forall i, (i < n)%N -> map (xval x) (nth [::] inputs i) = map val (nth [::] inputs i) &
      forall i, (i < l)%N -> [/\ all (fun v => (0 < v <= size (pb_values pb0))%N && (v \in m)) (nth [::] outputs i),
        uniq (nth [::] outputs i), map val (nth [::] outputs i) = inp (src i) & pay nc i = packed_of R (map val (nth [::] outputs i))]].
Proof.
pose outs := flatten (take l outputs); pose tgt := flatten [seq inp (src j) | j <- iota 0 l].
pose val0 v := if v \in outs then nth 0 tgt (index v outs) else xval x v.
have st : size (take l outputs) = l by rewrite size_takel.
have [||val [h1 h2 h3]] := bu_val hb val0 (pay := pay) b.
- by move=> c y hy; rewrite /pay /pay_at packed_size inp_size.
- move=> hwi c r hc hr he; rewrite -(hwr hwi hc hr he) /pay; exact: (pay_at_next _ hlt hinj).
exists val.
have hi i : (i < n)%N -> nth (head [::] inputs) inputs i = nth [::] inputs i by move=> hi; apply: set_nth_default; rewrite si.
have vin i : (i < n)%N -> {subset nth [::] inputs i <= flatten inputs}.
  by move=> hi' v hv; apply/flattenP; exists (nth [::] inputs i) => //; apply: mem_nth; rewrite si.
have vout i : (i < l)%N -> {subset nth [::] outputs i <= outs}.
  move=> hi' v hv; apply/flattenP; exists (nth [::] outputs i) => //.
  by rewrite -(nth_take [::] hi'); apply: mem_nth; rewrite st.
have ein i : (i < n)%N -> map (xval x) (nth [::] inputs i) = map val (nth [::] inputs i).
  move=> hi'; apply/eq_in_map => v hv; have hv' := vin i hi' v hv.
  rewrite h1; last by case/andP: (allP vi _ hv').
  rewrite /val0 ifN //; apply/negP => h; move/hasP: dio; apply; exists v => //.
have eout i : (i < l)%N -> map val (nth [::] outputs i) = inp (src i).
  move=> hi'; transitivity (map val0 (nth [::] outputs i)).
    by apply/eq_in_map => v hv; apply: h1; case/andP: (allP vo _ (vout i hi' v hv)).
  transitivity [seq nth 0 tgt (index v outs) | v <- nth [::] (take l outputs) i].
    by rewrite nth_take //; apply/eq_in_map => v hv; rewrite /val0 (vout i hi' v hv).
  rewrite map_targets ?st //.
  - by rewrite (nth_map 0%N) ?size_iota // nth_iota.
  - by rewrite size_map size_iota.
  - move=> j hj; rewrite (nth_map 0%N) ?size_iota // nth_iota // inp_size nth_take //.
    by apply/eqP; apply: (all_nthP [::] ao); apply: leq_trans hj so.
split=> //.
- move=> i hi'; rewrite -ein //; split.
  + by apply/allP => v /(vin i hi') /(allP vi) /andP [].
  + by have := inp_bits i; rewrite /inp hi.
  + by rewrite /pay -[i in pay_at _ _ _ _ i]/(follow next 0 i) (pay_at_follow _ hinj) // /inp hi.
- move=> i hi'; rewrite eout //; split=> //.
  + apply/allP => v hv; have hv' := vout i hi' v hv; rewrite /m mem_cat hv' orbT andbT; exact: (allP vo).
  + have : nth [::] outputs i \in take l outputs by rewrite -(nth_take [::] hi'); apply: mem_nth; rewrite st.
    move: uo; elim: (take l outputs) => [|a A IH] //=; rewrite cat_uniq inE => /and3P [u1 _ u2] /orP [/eqP -> //|]; exact: IH.
Qed.

(** Changes towards a valuation are an assignment. *)
Lemma toward_assigns val x' kk' : toward val m x (pb_lc_values pb) x' kk' -> assigns m pb (upd pb x' kk').
Proof.
move=> [h1 h2 h3]; case: hl => -[w1 w2 w3 w4] _ _; split=> //.
  by split=> //=; rewrite ?h1 ?h2.
split=> // v hv; case: (h3 v) => // -[hv' _]; by rewrite hv' in hv.
Qed.
Lemma fresh_m v : (size (pb_values pb0) < v <= size (pb_values pb1))%N -> v \in m.
Proof.
move=> h; rewrite /m mem_cat /fresh_vars mem_iota; apply/orP; left; move: h (allocates_size (bu_alloc hb)); clear; lia.
Qed.
End Targets.

Lemma aw_followE t rt c x : aw_follow t rt 0 c x = follow (aw_next t rt) c x.
Proof.
have h c0 j y : aw_follow t rt c0 j.+1 y = aw_next t rt (c0 + j) (aw_follow t rt c0 j y).
  by elim: j c0 y => [|j IH] c0 y; [rewrite /= addn0|rewrite -[LHS]/(aw_follow t rt c0.+1 j.+1 _) IH addSnnS].
by elim: c => [|c IH] //; rewrite h add0n IH.
Qed.
Definition benes_next (t : seq (seq (nat * nat))) (rt : benes_routing) (c x : nat) : nat :=
  let e := nth (0, 0)%N (nth [::] t c) x in if nth false (nth [::] rt c) x then e.2 else e.1.
Lemma benes_followE t rt c x : benes_follow t rt 0 c x = follow (benes_next t rt) c x.
Proof.
have h c0 j y : benes_follow t rt c0 j.+1 y = benes_next t rt (c0 + j) (benes_follow t rt c0 j y).
  by elim: j c0 y => [|j IH] c0 y; [rewrite /= addn0|rewrite -[LHS]/(benes_follow t rt c0.+1 j.+1 _) IH addSnnS].
by elim: c => [|c IH] //; rewrite h add0n IH.
Qed.

Section Theorems.
Variable F : fieldType.
Variable R : bigint_repr F.
Hypothesis hcap : (0 < capacity R)%N.

(** A switch of an AS-Waksman network: the next rows of its two packets. *)
Lemma aw_next_top n t rt c r : column_ok n (nth [::] t c) -> is_top n (nth [::] t c) r ->
  let sv := odflt false (nm_find (nth [::] rt c) r) in let e := nth (0, 0)%N (nth [::] t c) in
  aw_next t rt c r = (if sv then (e r).2 else (e r).1) /\ aw_next t rt c r.+1 = (if sv then (e r.+1).2 else (e r.+1).1).
Proof.
move=> hok ht sv e; have hne := top_neq ht; have hlt := top_lt ht.
have hsv : (nm_find (nth [::] rt c) r == Some true) = sv by rewrite /sv; case: (nm_find _ _) => [[]|].
have h1 : aw_switch_at t c r by case/and3P: ht => a1 a2 _; rewrite /aw_switch_at /aw_edges a1.
have h2 : aw_switch_at t c r.+1 = false.
  apply/negP => /andP [a1 a2].
  have hb : is_bottom n (nth [::] t c) r.+1 by rewrite /is_bottom /= ht.
  have hnt : ~~ is_top n (nth [::] t c) r.+1 by apply/negP => /(not_both hok hlt); rewrite hb.
  case/negP: hnt; apply/and3P; split=> //.
  rewrite ltnNge; apply/negP => hge; move/eqP: a2 => a2; move: a1; rewrite /aw_edges in a2 *.
  have e2 : nth (0, 0)%N (nth [::] t c) r.+2 = (0, 0)%N by rewrite nth_default // (co_size hok).
  by move: a2; rewrite e2; case: (nth _ _ r.+1) => u w [-> ->]; rewrite eqxx.
have hne' : (e r.+1).1 <> (e r.+1).2 by rewrite /e (top_next ht) /= => h; apply: hne.
rewrite /aw_next /aw_edges /aw_bit h1 h2 /= -/(e r) -/(e r.+1) hsv.
by move/eqP/negbTE: hne => ->; move/eqP/negbTE: hne' => ->.
Qed.

Lemma asw_complete unset (pb0 : protoboard F) n s (inputs outputs : seq pb_variable_array) g pb1 pb p :
  (1 < n)%N -> (0 < s)%N -> pb_wf pb0 -> size inputs = n -> size outputs = n ->
  all (fun v : pb_variable_array => size v == s) inputs -> all (fun v : pb_variable_array => size v == s) outputs ->
  all (is_var pb0) (flatten inputs) -> all (is_var pb0) (flatten outputs) -> uniq (flatten outputs) ->
  ~~ has (mem (flatten inputs)) (flatten outputs) ->
  asw_routing_new R unset pb0 n inputs outputs = Ok (g, pb1) -> later pb1 pb ->
  all (all (@isbit F)) (map (map (xval (pb_values pb))) inputs) ->
  ip_wf p -> ip_bounds p 0 (n - 1) -> ip_is_valid p ->
  exists pb', [/\ asw_routing_witness R g p pb = Ok pb', assigns (fresh_vars pb0 pb1 ++ flatten outputs) pb pb',
    holds (asw_routing_constraints g) (pb_values pb') &
    forall i, (i < n)%N -> map (xval (pb_values pb')) (nth [::] outputs (ip_at p i)) = map (xval (pb_values pb)) (nth [::] inputs i)].
Proof.
move=> hn hs hw si so ai ao vi vo uo dio hg hl bi pw pbd pv.
have [t [g' [pb1' [et eg hok st hb]]]] := asw_built (R := R) hcap unset hn hw si so ai ao.
move: eg; rewrite hg => -[e1 e2]; rewrite -{}e1 -{}e2 in hb; clear g' pb1' hg.
have [t' [rt [et' er sr _ hf]]] := C27_routing_realises_every_permutation unset hn pw pbd pv.
move: et'; rewrite et => -[e]; rewrite -{}e in hf; clear t'.
have ew : aw_num_columns n = (2 * ceil_log2 n - 1)%N by rewrite /aw_num_columns hn.
rewrite -ew in sr hf; clear ew.
have {}hf i : (i < n)%N -> follow (aw_next t rt) (aw_num_columns n) i = ip_at p i by move=> hi; rewrite -aw_followE hf.
set nc := aw_num_columns n in hb hok st sr hf; set k := div_ceil s (capacity R) in hb.
have hE c r : rg_edges g c r = nth (0, 0)%N (nth [::] t c) r by rewrite /rg_edges (bu_nb hb).
have hnx c r : (c < nc)%N -> (r < n)%N -> aw_next t rt c r = (rg_edges g c r).1 \/ aw_next t rt c r = (rg_edges g c r).2.
  move=> hc hr; rewrite hE /aw_next /aw_edges; case: eqP => _; first by left.
  by case: ifP => _; [right|left].
have hlt c r : (c < nc)%N -> (r < n)%N -> ((rg_edges g c r).1 < n)%N /\ ((rg_edges g c r).2 < n)%N.
  by move=> hc hr; rewrite hE; apply: (co_lt (hok c hc)).
have hnl c r : (c < nc)%N -> (r < n)%N -> (aw_next t rt c r < n)%N.
  by move=> hc hr; have [l1 l2] := hlt c r hc hr; case: (hnx c r hc hr) => ->.
have hinj y z : (y < n)%N -> (z < n)%N -> follow (aw_next t rt) nc y = follow (aw_next t rt) nc z -> y = z.
  move=> hy hz; rewrite !hf //; have [_ hbi _] := iffLR (ip_validP pw pbd) pv.
  by apply: hbi; rewrite /between; move: hy hz; clear; lia.
have tk : take n outputs = outputs by rewrite take_oversize // so.
have n0 : (0 < n)%N by exact: ltnW.
have lo : (n <= size outputs)%N by rewrite so.
pose sv c r := odflt false (nm_find (nth [::] rt c) r).
have hwr : true -> forall c r, (c < nc)%N -> (r < n)%N -> (rg_edges g c r).1 = (rg_edges g c r).2 -> aw_next t rt c r = (rg_edges g c r).1.
  by move=> _ c r hc hr; rewrite hE /aw_next /aw_edges => ->; rewrite eqxx.
rewrite -tk in vo uo dio.
have [val [v1 v2 v3 v4 v5]] := valuation hb n0 si lo ai ao vi vo uo dio bi (next := aw_next t rt) (fun c r => (sv c r)%:R) hnl hinj hwr.
set pay := pay_at n _ _ in v1 v3 v5; set m := fresh_vars pb0 pb1 ++ flatten (take n outputs) in v5.
have hpay c r : (c < nc)%N -> (r < n)%N -> pay c r = pay c.+1 (aw_next t rt c r).
  by move=> hc hr; rewrite /pay (pay_at_next _ hnl hinj).
have hm v : (size (pb_values pb0) < v <= size (pb_values pb1))%N -> v \in m by exact: fresh_m hb v.
have [wpb sz1 sz2] := hl.
have hout i : (i < n)%N -> [/\ all (fun v => (0 < v <= size (pb_values pb0))%N && (v \in m)) (nth [::] outputs i),
        uniq (nth [::] outputs i), all (@isbit F) (map val (nth [::] outputs i)) &
        pay nc i = packed_of R (map val (nth [::] outputs i))].
  by move=> hi; have [a1 a2 a3 a4] := v5 i hi; split=> //; rewrite a3; exact: inp_bits n0 si bi _.
pose col := fun pb c => ofold (asw_row_witness g rt c) pb (visited (nth [::] t c) false 0 n).
have hcol c x kk : (c < nc)%N -> state (size (pb_values pb)) (size (pb_lc_values pb)) x kk -> column_done n g pay x c ->
  exists x' kk', [/\ col (upd pb x kk) c = Ok (upd pb x' kk'), toward val m x kk x' kk', column_done n g pay x' c.+1 &
    bits_done k (fun c x => is_top n (nth [::] t c) x) g (fun c r => (sv c r)%:R) x' c].
  move=> hc hst hd; have ck := hok c hc; have lc := ltnW hc.
  pose post r x := ok g pay x c.+1 (aw_next t rt c r) /\ (is_top n (nth [::] t c) r -> ok g pay x c.+1 (aw_next t rt c r.+1) /\
    ((1 < k)%N -> xval x (rg_bit g c r) = val (rg_bit g c r))).
  have hrow r : List.In r (visited (nth [::] t c) false 0 n) -> (r < n)%N /\ ~~ is_bottom n (nth [::] t c) r.
    by move/GadgetLogic.In_mem; rewrite (mem_visited ck) => /andP.
  have [|||x' [kk' [f1 f2 f3]]] := @fold_ok F pb val m (size (pb_values pb)) (size (pb_lc_values pb)) nat (asw_row_witness g rt c)
    (fun x => column_done n g pay x c) post (visited (nth [::] t c) false 0 n) _ _ _ x kk hst hd.
  - by move=> x1 k1 x2 k2; apply: (toward_column v1).
  - move=> r x1 k1 x2 k2 /hrow [hr _] htw [p1 p2]; split; first by apply: (toward_ok v1 _ _ htw) => //; apply: hnl.
    move=> ht; have [p3 p4] := p2 ht; split; first by apply: (toward_ok v1 _ _ htw) => //; apply: hnl => //; apply: top_lt ht.
    by move=> k1'; apply: (toward_val htw); apply: p4.
  - move=> r x1 k1 /hrow [hr hnb] s1 d1; rewrite /asw_row_witness.
    case: eqP => he.
      have en : aw_next t rt c r = (rg_edges g c r).1 by apply: hwr.
      have [x2 [k2 [g1 g2 g3]]] := copy_packet_ok hb pb sz1 v1 hm lc hr hc (hnl c r hc hr) s1 (d1 r hr) (esym (hpay c r hc hr)).
      exists x2, k2; split=> //; first by rewrite -en.
      split=> // ht; exfalso; apply: (top_neq ht); by rewrite -hE.
    have ht : is_top n (nth [::] t c) r by rewrite -(top_of ck hr hnb) -hE; apply/eqP.
    have hr1 := top_lt ht.
    have [n1 n2] := aw_next_top rt ck ht.
    rewrite (oget_nth [::]) ?sr //; cbn [obind]; rewrite -/(sv c r) (bu_k hb).
    have hset : exists x2, [/\ (if (1 < k)%N then pb_set (upd pb x1 k1) (rg_bit g c r) (if sv c r then 1 else 0) else Ok (upd pb x1 k1)) = Ok (upd pb x2 k1),
        toward val m x1 k1 x2 k1 & ((1 < k)%N -> xval x2 (rg_bit g c r) = val (rg_bit g c r))].
      case hk: (1 < k)%N; last by exists x1; split=> //; apply: toward_refl.
      have [b1 b2] := v2 hk c r hc ht.
      have [||x2 [q1 q2 q3]] := @set_ok F pb val m (size (pb_values pb)) (size (pb_lc_values pb)) x1 k1 (rg_bit g c r) s1.
      - exact: hm.
      - by move: b1 sz1; clear; lia.
      exists x2; split=> //; rewrite -q1 b2; by case: (sv c r).
    have [x2 [q1 q2 q3]] := hset; rewrite q1; cbn [obind ofold].
    have s2 := toward_state q2 s1; have d2 := toward_column v1 lc q2 d1.
    rewrite hE.
    have [x3 [k3 [g1 g2 g3]]] := copy_packet_ok hb pb sz1 v1 hm lc hr hc (hnl c r hc hr) s2 (d2 r hr) (esym (hpay c r hc hr)).
    have s3 := toward_state g2 s2; have d3 := toward_column v1 lc g2 d2.
    have [x4 [k4 [g4 g5 g6]]] := copy_packet_ok hb pb sz1 v1 hm lc hr1 hc (hnl c r.+1 hc hr1) s3 (d3 r.+1 hr1) (esym (hpay c r.+1 hc hr1)).
    exists x4, k4; split.
    + by rewrite -n1 g1; cbn [obind]; rewrite hE -n2 g4.
    + exact: toward_trans q2 (toward_trans g2 g5).
    split; first by apply: (toward_ok v1 _ _ g5) => //; apply: hnl.
    move=> _; split=> // k1'; apply: (toward_val g5); apply: (toward_val g2); exact: q3.
  exists x', kk'; split=> //.
  - move=> y hy; have [r hr <-] := next_onto hnl hinj hc hy.
    case hbt: (is_bottom n (nth [::] t c) r).
      case/andP: hbt => r0 ht; have [|_ /(_ ht) []] := f3 r.-1; last by rewrite prednK.
      have rl : (r.-1 < n)%N by move: hr; clear; lia.
      by apply/GadgetLogic.In_mem; rewrite (mem_visited ck) rl (not_both ck).
    by have [|] := f3 r; first by apply/GadgetLogic.In_mem; rewrite (mem_visited ck) hr hbt.
  - move=> k1 r ht; have hr := ltnW (top_lt ht).
    have [|_ /(_ ht) [_ h]] := f3 r; first by apply/GadgetLogic.In_mem; rewrite (mem_visited ck) hr (not_both ck).
    by rewrite h //; case: (v2 k1 c r hc ht).
have hst0 : state (size (pb_values pb)) (size (pb_lc_values pb)) (pb_values pb) (pb_lc_values pb) by [].
have [x1 [k1 [x2 [k2 [x3 [k3 [g1 [g2 g3] g4 [g5 g6] [g7 g8]]]]]]]] := witness_ok hcap hb sz1 v1 hm v2 v3 (leqnn n) hout hcol hst0 v4.
have k0 : (0 < k)%N by rewrite /k /div_ceil divn_gt0 //; move: hs hcap; clear; lia.
exists (upd pb x3 k3); split.
- rewrite /asw_routing_witness (bu_n hb) (bu_nc hb) (bu_nb hb) -{1}(board_of wpb) g1; cbn [obind].
  by rewrite er; cbn [obind]; rewrite -/col g2; cbn [obind].
- by rewrite -tk; apply: (toward_assigns hl g4).
- rewrite /asw_routing_constraints holds_cat (bu_n hb) (bu_nc hb) (bu_nb hb); split.
    apply/holds_flatten_iota => i hi; rewrite /packing_part holds_cat; split.
      exact: (packing_holds hb v3 g5 (g7 0%N (leq0n _)) hi).
    exact: (unpacking_holds hb (leqnn n) hout g6 (g7 nc (leqnn _)) hi).
  apply/holds_flatten_iota => c hc; apply/holds_flatten => r; have ck := hok c hc.
  move/GadgetLogic.In_mem; rewrite (mem_visited ck) => /andP [hr hnb].
  rewrite /asw_switch_constraints; case: eqP => he; first by apply/holds_nil.
  have ht : is_top n (nth [::] t c) r by rewrite -(top_of ck hr hnb) -hE; apply/eqP.
  have hr1 := top_lt ht; have [n1 n2] := aw_next_top rt ck ht; rewrite -!hE in n1 n2.
  have [l1 l2] := hlt c r hc hr; have [l3 l4] := hlt c r.+1 hc hr1.
  have d1 := g7 c (ltnW hc); have d2 := g7 c.+1 hc.
  rewrite (bu_k hb); case: eqP => ek.
    have he' r' : (r' < n)%N -> constraint_holds (easy_route g c r') x3.
      move=> hr'; have [l5 l6] := hlt c r' hc hr'; apply: (easy_holds v1 hc hr' l5 l6 k0 d1 d2).
      by rewrite (hpay c r' hc hr'); case: (hnx c r' hc hr') => ->; [left|right].
    by apply/holds_cons; split; [exact: he'|apply/holds_cons; split; [exact: he'|apply/holds_nil]].
  have hk1 : (1 < k)%N by move: k0 ek; clear; lia.
  have hv : xval x3 (rg_bit g c r) = (sv c r)%:R by apply: (g8 c hc hk1).
  apply/holds_cons; split; first by apply/bit_constraintE; rewrite hv /isbit; case: (sv c r); rewrite eqxx ?orbT.
  apply/holds_flatten_iota => sub hsub; apply/holds_cons; split.
    by apply: (route_holds v1 hc hr l1 l2 hsub d1 d2 hv); rewrite (hpay c r hc hr) n1.
  apply/holds_cons; split; last by apply/holds_nil.
  by apply: (route_holds v1 hc hr1 l3 l4 hsub d1 d2 hv); rewrite (hpay c r.+1 hc hr1) n2.
- move=> i hi; have hpi : (ip_at p i < n)%N by rewrite -hf //; apply: (follow_lt hnl).
  rewrite g6 //; have [_ _ -> _] := v5 _ hpi.
  rewrite -hf //; congr (map _ _).
  have -> : index (follow (aw_next t rt) nc i) [seq follow (aw_next t rt) nc i0 | i0 <- iota 0 n] = i.
    have := @pay_at_follow nat n nc (aw_next t rt) id hinj nc i (leqnn nc) hi; by [].
  by apply: set_nth_default; rewrite si.
Qed.

Lemma benes_complete (pb0 : protoboard F) d l s (inputs outputs : seq pb_variable_array) g pb1 pb p :
  (0 < s)%N -> pb_wf pb0 -> size inputs = (2 ^ d)%N -> (l <= size outputs)%N ->
  all (fun v : pb_variable_array => size v == s) inputs -> all (fun v : pb_variable_array => size v == s) outputs ->
  all (is_var pb0) (flatten inputs) -> all (is_var pb0) (flatten (take l outputs)) -> uniq (flatten (take l outputs)) ->
  ~~ has (mem (flatten inputs)) (flatten (take l outputs)) ->
  benes_routing_new R pb0 (2 ^ d) inputs outputs l = Ok (g, pb1) -> later pb1 pb ->
  all (all (@isbit F)) (map (map (xval (pb_values pb))) inputs) ->
  ip_wf p -> ip_bounds p 0 (2 ^ d - 1) -> ip_is_valid p ->
  (forall i, (l <= i)%N -> (i < 2 ^ d)%N -> ip_at p i = i) ->
  exists pb', [/\ benes_routing_witness R g p pb = Ok pb', assigns (fresh_vars pb0 pb1 ++ flatten (take l outputs)) pb pb',
    holds (benes_routing_constraints g) (pb_values pb') &
    forall i, (i < l)%N -> map (xval (pb_values pb')) (nth [::] outputs (ip_at p i)) = map (xval (pb_values pb)) (nth [::] inputs i)].
Proof.
move=> hs hw si so ai ao vi vo uo dio hg hl bi pw pbd pv pfix.
have hln : (l <= 2 ^ d)%N.
  move: hg; rewrite /benes_routing_new; case: benes_num_columns => //= nc; case: oget => //= f.
  by case hl': (l <= size inputs)%N => //= _; rewrite -si.
have [t [g' [pb1' [et eg hb]]]] := benes_built (R := R) hcap hw si so hln ai ao.
move: eg; rewrite hg => -[e1 e2]; rewrite -{}e1 -{}e2 in hb; clear g' pb1' hg.
have [t' [et' st ht]] := C26_topology d.
move: et'; rewrite et => -[e]; rewrite -{}e in st ht; clear t'.
have [t' [rt [et' er sr sr2 hf]]] := C26_routing_realises_every_permutation pw pbd pv.
move: et'; rewrite et => -[e]; rewrite -{}e in hf; clear t'.
have n0 : (0 < 2 ^ d)%N by rewrite expn_gt0.
move: si hln hb ht pfix pbd sr2 hf n0; set n := (2 ^ d)%N => si hln hb ht pfix pbd sr2 hf n0.
have {}hf i : (i < n)%N -> follow (benes_next t rt) (2 * d) i = ip_at p i by move=> hi; rewrite -benes_followE hf.
move: hb ht st sr sr2 hf; set nc := (2 * d)%N => hb ht st sr sr2 hf; set k := div_ceil s (capacity R) in hb.
have hE c r : rg_edges g c r = nth (0, 0)%N (nth [::] t c) r by rewrite /rg_edges (bu_nb hb).
pose sv c r := nth false (nth [::] rt c) r.
have hnx c r : benes_next t rt c r = if sv c r then (rg_edges g c r).2 else (rg_edges g c r).1 by rewrite hE.
have hlt c r : (c < nc)%N -> (r < n)%N -> ((rg_edges g c r).1 < n)%N /\ ((rg_edges g c r).2 < n)%N.
  by move=> hc hr; rewrite hE; have [_ -> _ h2] := ht c r hc hr.
have hnl c r : (c < nc)%N -> (r < n)%N -> (benes_next t rt c r < n)%N.
  by move=> hc hr; have [l1 l2] := hlt c r hc hr; rewrite hnx; case: ifP.
have [prange pinj psurj] := iffLR (ip_validP pw pbd) pv.
have hinj y z : (y < n)%N -> (z < n)%N -> follow (benes_next t rt) nc y = follow (benes_next t rt) nc z -> y = z.
  move=> hy hz; rewrite !hf //.
  by apply: pinj; rewrite /between; move: hy hz; clear; lia.
have hwr : false -> forall c r, (c < nc)%N -> (r < n)%N -> (rg_edges g c r).1 = (rg_edges g c r).2 -> benes_next t rt c r = (rg_edges g c r).1.
  by [].
have [val [v1 v2 v3 v4 v5]] := valuation hb n0 si so ai ao vi vo uo dio bi (next := benes_next t rt) (fun c r => (sv c r)%:R) hnl hinj hwr.
set pay := pay_at n _ _ in v1 v3 v5; set m := fresh_vars pb0 pb1 ++ flatten (take l outputs) in v5.
have hpay c r : (c < nc)%N -> (r < n)%N -> pay c r = pay c.+1 (benes_next t rt c r).
  by move=> hc hr; rewrite /pay (pay_at_next _ hnl hinj).
have hm v : (size (pb_values pb0) < v <= size (pb_values pb1))%N -> v \in m by exact: fresh_m hb v.
have [wpb sz1 sz2] := hl.
have hout i : (i < l)%N -> [/\ all (fun v => (0 < v <= size (pb_values pb0))%N && (v \in m)) (nth [::] outputs i),
        uniq (nth [::] outputs i), all (@isbit F) (map val (nth [::] outputs i)) &
        pay nc i = packed_of R (map val (nth [::] outputs i))].
  by move=> hi; have [a1 a2 a3 a4] := v5 i hi; split=> //; rewrite a3; exact: inp_bits n0 si bi _.
pose col := fun pb c => ofold (benes_row_witness g rt c) pb (iota 0 n).
have hcol c x kk : (c < nc)%N -> state (size (pb_values pb)) (size (pb_lc_values pb)) x kk -> column_done n g pay x c ->
  exists x' kk', [/\ col (upd pb x kk) c = Ok (upd pb x' kk'), toward val m x kk x' kk', column_done n g pay x' c.+1 &
    bits_done k (fun c x => x < n)%N g (fun c r => (sv c r)%:R) x' c].
  move=> hc hst hd; have lc := ltnW hc.
  pose post r x := ok g pay x c.+1 (benes_next t rt c r) /\ ((1 < k)%N -> xval x (rg_bit g c r) = val (rg_bit g c r)).
  have hrow r : List.In r (iota 0 n) -> (r < n)%N by move/GadgetLogic.In_mem; rewrite mem_iota.
  have [|||x' [kk' [f1 f2 f3]]] := @fold_ok F pb val m (size (pb_values pb)) (size (pb_lc_values pb)) nat (benes_row_witness g rt c)
    (fun x => column_done n g pay x c) post (iota 0 n) _ _ _ x kk hst hd.
  - by move=> x1 k1 x2 k2; apply: (toward_column v1).
  - move=> r x1 k1 x2 k2 /hrow hr htw [p1 p2]; split; first by apply: (toward_ok v1 _ _ htw) => //; apply: hnl.
    by move=> k1'; apply: (toward_val htw); apply: p2.
  - move=> r x1 k1 /hrow hr s1 d1; rewrite /benes_row_witness.
    rewrite (oget_nth [::]) ?sr //; cbn [obind]; rewrite (oget_nth false) ?sr2 //; cbn [obind]; rewrite -/(sv c r) (bu_k hb).
    have hset : exists x2, [/\ (if (1 < k)%N then pb_set (upd pb x1 k1) (rg_bit g c r) (if sv c r then 1 else 0) else Ok (upd pb x1 k1)) = Ok (upd pb x2 k1),
        toward val m x1 k1 x2 k1 & ((1 < k)%N -> xval x2 (rg_bit g c r) = val (rg_bit g c r))].
      case hk: (1 < k)%N; last by exists x1; split=> //; apply: toward_refl.
      have [b1 b2] := v2 hk c r hc hr.
      have [||x2 [q1 q2 q3]] := @set_ok F pb val m (size (pb_values pb)) (size (pb_lc_values pb)) x1 k1 (rg_bit g c r) s1.
      - exact: hm.
      - by move: b1 sz1; clear; lia.
      exists x2; split=> //; rewrite -q1 b2; by case: (sv c r).
    have [x2 [q1 q2 q3]] := hset; rewrite q1; cbn [obind].
    have s2 := toward_state q2 s1; have d2 := toward_column v1 lc q2 d1.
    rewrite -hnx.
    have [x3 [k3 [g1 g2 g3]]] := copy_packet_ok hb pb sz1 v1 hm lc hr hc (hnl c r hc hr) s2 (d2 r hr) (esym (hpay c r hc hr)).
    exists x3, k3; split.
    + exact: g1.
    + exact: toward_trans q2 g2.
    by split=> // k1'; apply: (toward_val g2); exact: q3.
  exists x', kk'; split=> //.
  - move=> y hy; have [r hr <-] := next_onto hnl hinj hc hy.
    by have [|] := f3 r; first by apply/GadgetLogic.In_mem; rewrite mem_iota hr.
  - move=> k1 r hr.
    have [|_ h] := f3 r; first by apply/GadgetLogic.In_mem; rewrite mem_iota hr.
    by rewrite h //; case: (v2 k1 c r hc hr).
have hst0 : state (size (pb_values pb)) (size (pb_lc_values pb)) (pb_values pb) (pb_lc_values pb) by [].
have [x1 [k1 [x2 [k2 [x3 [k3 [g1 [g2 g3] g4 [g5 g6] [g7 g8]]]]]]]] := witness_ok hcap hb sz1 v1 hm v2 v3 hln hout hcol hst0 v4.
have k0 : (0 < k)%N by rewrite /k /div_ceil divn_gt0 //; move: hs hcap; clear; lia.
have su : size (rg_unpack g) = l by case: (bu_unpack hb).
have eix i : (i < n)%N -> index (follow (benes_next t rt) nc i) [seq follow (benes_next t rt) nc i0 | i0 <- iota 0 n] = i.
  by move=> hi; have := @pay_at_follow nat n nc (benes_next t rt) id hinj nc i (leqnn nc) hi.
exists (upd pb x3 k3); split.
- rewrite /benes_routing_witness (bu_n hb) (bu_nc hb) -{1}(board_of wpb) g1; cbn [obind].
  by rewrite er; cbn [obind]; rewrite -/col g2; cbn [obind]; rewrite su.
- exact: (toward_assigns hl g4).
- rewrite /benes_routing_constraints holds_cat (bu_n hb) (bu_nc hb); split.
    apply/holds_flatten_iota => i hi; rewrite /benes_packing_part holds_cat; split.
      exact: (packing_holds hb v3 g5 (g7 0%N (leq0n _)) hi).
    rewrite su; case: ifP => hil.
      exact: (unpacking_holds hb hln hout g6 (g7 nc (leqnn _)) hil).
    rewrite (bu_k hb) (bu_nc hb); apply/holds_iota => sub hsub.
    have li : (l <= i)%N by rewrite leqNgt hil.
    have h0 := g7 0%N (leq0n _) i hi; have h1 := g7 nc (leqnn _) i hi.
    have ep : pay nc i = pay 0%N i.
      have {1}-> : i = follow (benes_next t rt) nc i by rewrite hf // pfix.
      have {2}-> : i = follow (benes_next t rt) 0 i by [].
      by rewrite /pay !(pay_at_follow _ hinj).
    rewrite /constraint_holds /= !fsE mul1r /rg_sub.
    have [s0 _] := v1 0%N i (leq0n _) hi; have [s1 _] := v1 nc i (leqnn _) hi.
    rewrite -(nth_map 0%N 0 (xval x3)) -?(nth_map 0%N 0 (xval x3)); last first.
    + by have := (@bu_size _ _ _ _ _ _ _ _ _ _ _ _ _ _ hb) => ->.
    + by have := (@bu_size _ _ _ _ _ _ _ _ _ _ _ _ _ _ hb) => ->.
    by rewrite h0 h1 ep.
  apply/holds_flatten_iota => c hc; apply/holds_flatten_iota => r hr.
  rewrite /benes_row_constraints.
  have [l1 l2] := hlt c r hc hr.
  have d1 := g7 c (ltnW hc); have d2 := g7 c.+1 hc.
  rewrite (bu_k hb); case: eqP => ek.
    apply/holds_cons; split; last by apply/holds_nil.
    apply: (easy_holds v1 hc hr l1 l2 k0 d1 d2).
    by rewrite (hpay c r hc hr) hnx; case: ifP => _; [right|left].
  have hk1 : (1 < k)%N by move: k0 ek; clear; lia.
  have hv : xval x3 (rg_bit g c r) = (sv c r)%:R by apply: (g8 c hc hk1).
  apply/holds_cons; split; first by apply/bit_constraintE; rewrite hv /isbit; case: (sv c r); rewrite eqxx ?orbT.
  apply/holds_iota => sub hsub.
  by apply: (route_holds v1 hc hr l1 l2 hsub d1 d2 hv); rewrite (hpay c r hc hr) hnx.
- move=> i hi; have hin := leq_trans hi hln.
  have hpi : (ip_at p i < l)%N.
    rewrite ltnNge; apply/negP => hge.
    have hpn : (ip_at p i < n)%N by rewrite -hf //; apply: (follow_lt hnl).
    have := pfix _ hge hpn => hh.
    have : ip_at p i = i by apply: pinj => //; rewrite /between; move: hin hpn n0; clear; lia.
    by move: hge hi; clear; lia.
  rewrite g6 //; have [_ _ -> _] := v5 _ hpi.
  rewrite -hf //; congr (map _ _).
  by rewrite eix //; apply: set_nth_default; rewrite si.
Qed.
End Theorems.
