(** C36: the routing-network gadgets.

    Vocabulary (GadgetSpec.v): [x] is the vector of variable values, [xval x v] the value of
    variable [v], [holds cs x] that all the constraints hold; [pb0] is the protoboard before the
    gadget was constructed, [pb1] the one after, [pb] any later state in which the witness is
    generated, and [assigns m pb pb'] says that at most the variables in [m] changed.  A packet is
    a vector of variables; [packets x vs] are the packets' values.  A permutation sends packet
    [i] to line [ip_at p i]. *)
From mathcomp Require Import all_ssreflect all_algebra zify.
From Verif Require Import Outcome StdMap Lincomb LincombSpec LincombFacts R1CS R1CSSpec R1CSFacts Fieldtac.
From Verif Require Import Protoboard GadgetSpec GadgetLogic BasicGadgets BasicGadgetsFacts BasicGadgetsMore.
From Verif Require Import BasicGadgetsCopy GadgetNew GadgetSeq Sha256Gadget Knapsack KnapsackFacts MerkleSound.
From Verif Require Import IntegerPermutation Benes AsWaksman Prop_Routing Prop_Gadgets.
From Verif Require Import RoutingGadget RoutingGadgetFacts RoutingGadgetSound RoutingGadgetComplete.
Set Implicit Arguments.
Unset Strict Implicit.
Unset Printing Implicit Defensive.
Local Open Scope ring_scope.
Import GRing.Theory.

(** The values of a vector of packets. *)
Definition packets (F : fieldType) (x : seq F) (vs : seq pb_variable_array) : seq (seq F) :=
  [seq [seq xval x v | v <- packet] | packet <- vs].
(** All the packets have [s] bits. *)
Definition packets_of_size (s : nat) (vs : seq pb_variable_array) : bool :=
  all (fun packet : pb_variable_array => size packet == s) vs.
(** The value [xval x v] is 0 or 1 for all the bits of the packets. *)
Definition packets_boolean (F : fieldType) (x : seq F) (vs : seq pb_variable_array) : bool :=
  all (all (@isbit F)) (packets x vs).

Section Props.
Variable F : fieldType.
Variable R : bigint_repr F.
Implicit Types (pb : protoboard F) (inputs outputs : seq pb_variable_array).

Lemma hcap : (0 < capacity R)%N.
Proof. by have := size_in_bits_gt1 R; rewrite /capacity; lia. Qed.

(** * AS-Waksman *)

(** The constructor succeeds and allocates at the end of the protoboard. *)
Theorem C36_as_waksman_new unset pb0 n s inputs outputs :
  (1 < n)%N -> pb_wf pb0 -> size inputs = n -> size outputs = n ->
  packets_of_size s inputs -> packets_of_size s outputs ->
  exists g pb1, asw_routing_new R unset pb0 n inputs outputs = Ok (g, pb1) /\ allocates pb0 pb1.
Proof.
move=> hn hw si so ai ao.
have [t [g [pb1 [_ eg _ _ hb]]]] := asw_built (R := R) hcap unset hn hw si so ai ao.
by exists g, pb1; split=> //; apply: bu_alloc hb.
Qed.

(** Soundness: the outputs are a permutation of the inputs.  Packets that fit into one field
    element must be pairwise distinct. *)
Theorem C36_as_waksman_sound unset pb0 n s inputs outputs g pb1 x :
  (1 < n)%N -> (0 < s)%N -> pb_wf pb0 -> size inputs = n -> size outputs = n ->
  packets_of_size s inputs -> packets_of_size s outputs ->
  asw_routing_new R unset pb0 n inputs outputs = Ok (g, pb1) ->
  packets_boolean x inputs -> (s <= capacity R -> uniq (packets x inputs))%N ->
  holds (asw_routing_constraints g) x ->
  packets_boolean x outputs /\ perm_eq (packets x outputs) (packets x inputs).
Proof. move=> *; apply: (@asw_sound F R hcap unset pb0 n s inputs outputs g pb1 x) => //. Qed.

(** Completeness: witness generation with a permutation succeeds, changes only the gadget's own
    variables and the outputs, satisfies the constraints and delivers the packets permuted. *)
Theorem C36_as_waksman_complete unset pb0 n s inputs outputs g pb1 pb p :
  (1 < n)%N -> (0 < s)%N -> pb_wf pb0 -> size inputs = n -> size outputs = n ->
  packets_of_size s inputs -> packets_of_size s outputs ->
  all (is_var pb0) (flatten inputs) -> all (is_var pb0) (flatten outputs) -> uniq (flatten outputs) ->
  ~~ has (mem (flatten inputs)) (flatten outputs) ->
  asw_routing_new R unset pb0 n inputs outputs = Ok (g, pb1) -> later pb1 pb ->
  packets_boolean (pb_values pb) inputs ->
  ip_wf p -> ip_bounds p 0 (n - 1) -> ip_is_valid p ->
  exists pb', [/\ asw_routing_witness R g p pb = Ok pb', assigns (fresh_vars pb0 pb1 ++ flatten outputs) pb pb',
    holds (asw_routing_constraints g) (pb_values pb') &
    forall i, (i < n)%N ->
      nth [::] (packets (pb_values pb') outputs) (ip_at p i) = nth [::] (packets (pb_values pb) inputs) i].
Proof.
move=> hn hs hw si so ai ao vi vo uo dio hg hl bi pw pbd pv.
have [pb' [h1 h2 h3 h4]] := asw_complete hcap hn hs hw si so ai ao vi vo uo dio hg hl bi pw pbd pv.
have [prange _ _] := iffLR (ip_validP pw pbd) pv.
exists pb'; split=> // i hi; rewrite /packets !(nth_map [::]) ?si ?so ?h4 //.
have := prange i; rewrite /between; move: hi; clear; lia.
Qed.

(** * Benes *)
Theorem C36_benes_new pb0 d l s inputs outputs :
  pb_wf pb0 -> size inputs = (2 ^ d)%N -> (l <= size outputs)%N -> (l <= 2 ^ d)%N ->
  packets_of_size s inputs -> packets_of_size s outputs ->
  exists g pb1, benes_routing_new R pb0 (2 ^ d) inputs outputs l = Ok (g, pb1) /\ allocates pb0 pb1.
Proof.
move=> hw si so hl ai ao.
have [t [g [pb1 [_ eg hb]]]] := benes_built (R := R) hcap hw si so hl ai ao.
by exists g, pb1; split=> //; apply: bu_alloc hb.
Qed.

(** Soundness, for [l] unpacked lines: the first [l] outputs are a permutation of the first [l]
    inputs if all the inputs are pairwise distinct. *)
Theorem C36_benes_sound pb0 d l s inputs outputs g pb1 x :
  (0 < s)%N -> pb_wf pb0 -> size inputs = (2 ^ d)%N -> (l <= size outputs)%N ->
  packets_of_size s inputs -> packets_of_size s outputs ->
  benes_routing_new R pb0 (2 ^ d) inputs outputs l = Ok (g, pb1) ->
  packets_boolean x inputs -> uniq (packets x inputs) ->
  holds (benes_routing_constraints g) x ->
  packets_boolean x (take l outputs) /\ perm_eq (packets x (take l outputs)) (packets x (take l inputs)).
Proof. move=> *; apply: (@benes_sound F R hcap pb0 d l s inputs outputs g pb1 x) => //. Qed.

(** Completeness, for a permutation that keeps the lines from [l] on in place. *)
Theorem C36_benes_complete pb0 d l s inputs outputs g pb1 pb p :
  (0 < s)%N -> pb_wf pb0 -> size inputs = (2 ^ d)%N -> (l <= size outputs)%N ->
  packets_of_size s inputs -> packets_of_size s outputs ->
  all (is_var pb0) (flatten inputs) -> all (is_var pb0) (flatten (take l outputs)) -> uniq (flatten (take l outputs)) ->
  ~~ has (mem (flatten inputs)) (flatten (take l outputs)) ->
  benes_routing_new R pb0 (2 ^ d) inputs outputs l = Ok (g, pb1) -> later pb1 pb ->
  packets_boolean (pb_values pb) inputs ->
  ip_wf p -> ip_bounds p 0 (2 ^ d - 1) -> ip_is_valid p ->
  (forall i, (l <= i)%N -> (i < 2 ^ d)%N -> ip_at p i = i) ->
  exists pb', [/\ benes_routing_witness R g p pb = Ok pb', assigns (fresh_vars pb0 pb1 ++ flatten (take l outputs)) pb pb',
    holds (benes_routing_constraints g) (pb_values pb') &
    forall i, (i < l)%N ->
      nth [::] (packets (pb_values pb') outputs) (ip_at p i) = nth [::] (packets (pb_values pb) inputs) i].
Proof.
move=> hs hw si so ai ao vi vo uo dio hg hl bi pw pbd pv pf.
have [pb' [h1 h2 h3 h4]] := benes_complete hcap hs hw si so ai ao vi vo uo dio hg hl bi pw pbd pv pf.
have hln : (l <= 2 ^ d)%N.
  move: hg; rewrite /benes_routing_new; case: benes_num_columns => //= nc; case: oget => //= f.
  by case hl': (l <= size inputs)%N => //= _; rewrite -si.
have [prange pinj _] := iffLR (ip_validP pw pbd) pv.
exists pb'; split=> // i hi.
have hin : (i < 2 ^ d)%N by exact: leq_trans hi hln.
have hr : (ip_at p i < 2 ^ d)%N.
  by have := prange i; rewrite /between; move: hin; set q := (2 ^ d)%N; clearbody q; clear; lia.
have hp : (ip_at p i < l)%N.
  rewrite ltnNge; apply/negP => hge.
  have e : ip_at p i = i.
    apply: pinj; [| |exact: pf] => //; rewrite /between; move: hin hr; set q := (2 ^ d)%N; clearbody q; clear; lia.
  by move: hge hi; rewrite e; clear; lia.
by rewrite /packets !(nth_map [::]) ?si ?h4 //; exact: leq_trans hp so.
Qed.

(** * Repeated packets *)

(** Any values can be given to a gadget's own variables, and to inputs and outputs that are
    different variables. *)
Lemma forge pb0 pb1 n nc s l t sw wires inputs outputs (g : routing_gadget F)
    (inb outb : seq (seq F)) (pay : nat -> nat -> seq F) (b : nat -> nat -> F) :
  built R pb0 pb1 n nc (div_ceil s (capacity R)) l t sw wires inputs outputs g ->
  size inputs = n -> size outputs = l -> size inb = n -> size outb = l -> (l <= n)%N ->
  packets_of_size s (inputs ++ outputs) -> all (fun a : seq F => size a == s) (inb ++ outb) -> all (all (@isbit F)) (inb ++ outb) ->
  all (is_var pb0) (flatten (inputs ++ outputs)) -> uniq (flatten (inputs ++ outputs)) ->
  (forall c y, (y < n)%N -> size (pay c y) = div_ceil s (capacity R)) ->
  (wires -> forall c x, (c < nc)%N -> (x < n)%N -> (rg_edges g c x).1 = (rg_edges g c x).2 ->
     pay c.+1 (rg_edges g c x).1 = pay c x) ->
  (forall i, (i < n)%N -> pay 0%N i = packed_of R (nth [::] inb i)) ->
  (forall i, (i < l)%N -> pay nc i = packed_of R (nth [::] outb i)) ->
  exists x val,
    [/\ (packets x inputs = inb /\ packets x outputs = outb),
        (forall c y, (c <= nc)%N -> (y < n)%N -> carried val (size (pb_values pb0)) (size (pb_values pb1))
           (div_ceil s (capacity R)) (rg_packet g c y) (pay c y)),
        (forall c, (c <= nc)%N -> column_done n g pay x c),
        ((1 < div_ceil s (capacity R))%N -> forall c y, (c < nc)%N -> sw c y -> xval x (rg_bit g c y) = b c y) &
        (forall i, (i < n)%N -> holds (multipacking_constraints (nth [::] (rg_pack g) i) false) x) /\
        (forall i, (i < l)%N -> holds (multipacking_constraints (nth [::] (rg_unpack g) i) true) x)].
Proof.
move=> hb si so sib sob hln hs hs2 hbits hv hu hps hwr hp0 hpn.
pose vs := inputs ++ outputs; pose tgt := inb ++ outb.
pose val0 v := if v == 0%N then 1 else nth 0 (flatten tgt) (index v (flatten vs)).
have [val [h1 h2 h3]] := bu_val hb val0 b hps hwr.
have hle := allocates_size (bu_alloc hb).
pose x := [seq val v | v <- iota 1 (size (pb_values pb1))].
have xv v : (0 < v <= size (pb_values pb1))%N -> xval x v = val v.
  case: v => // v /= h; rewrite /xval /= (nth_map 0%N) ?size_iota // nth_iota //.
have svs : size vs = size tgt by rewrite !size_cat si so sib sob.
have map0 j : (j < size vs)%N -> [seq xval x v | v <- nth [::] vs j] = nth [::] tgt j.
  move=> hj; rewrite -(map_targets (A := vs) (B := tgt) svs _ hu hj); last first.
    move=> i hi; rewrite (eqP (all_nthP [::] hs i hi)); symmetry; apply/eqP; apply: (all_nthP [::] hs2).
    by rewrite -/tgt -svs.
  apply/eq_in_map => v hv'.
  have hf : v \in flatten vs by apply/flattenP; exists (nth [::] vs j) => //; apply: mem_nth.
  have /andP [v0 v1] := allP hv v hf.
  rewrite xv; last by rewrite v0 (leq_trans v1 hle).
  by rewrite h1 // /val0 gtn_eqF.
have min i : (i < n)%N -> map (xval x) (nth [::] inputs i) = nth [::] inb i.
  by move=> hi; have := map0 i; rewrite /vs /tgt size_cat !nth_cat si sib hi; apply; apply: ltn_addr.
have mout i : (i < l)%N -> map (xval x) (nth [::] outputs i) = nth [::] outb i.
  move=> hi; have := map0 (n + i)%N; rewrite /vs /tgt size_cat !nth_cat si so sib.
  have -> : (n + i < n)%N = false by rewrite ltnNge leq_addr.
  by rewrite addKn ltn_add2l; apply.
have vin i v : (i < n)%N -> v \in nth [::] inputs i -> (0 < v <= size (pb_values pb0))%N.
  move=> hi hv'; apply: (allP hv); apply/flattenP; exists (nth [::] inputs i) => //.
  by rewrite mem_cat mem_nth ?si.
have vout i v : (i < l)%N -> v \in nth [::] outputs i -> (0 < v <= size (pb_values pb0))%N.
  move=> hi hv'; apply: (allP hv); apply/flattenP; exists (nth [::] outputs i) => //.
  by rewrite mem_cat (mem_nth _ (_ : i < size outputs)%N) ?so // orbT.
have valx v : (0 < v <= size (pb_values pb0))%N -> val v = xval x v.
  by move=> /andP [a1 a2]; rewrite xv // a1 (leq_trans a2 hle).
have ein i : (i < n)%N -> map (xval x) (nth [::] inputs i) = map val (nth [::] inputs i).
  by move=> hi; apply/eq_in_map => v hv'; rewrite (valx v (vin i v hi hv')).
have eout i : (i < l)%N -> map (xval x) (nth [::] outputs i) = map val (nth [::] outputs i).
  by move=> hi; apply/eq_in_map => v hv'; rewrite (valx v (vout i v hi hv')).
have bin i : (i < n)%N -> all (@isbit F) (nth [::] inb i).
  by move=> hi; apply: (allP hbits); rewrite mem_cat mem_nth ?sib.
have bout i : (i < l)%N -> all (@isbit F) (nth [::] outb i).
  by move=> hi; apply: (allP hbits); rewrite mem_cat (mem_nth _ (_ : i < size outb)%N) ?sob // orbT.
have cd c : (c <= nc)%N -> column_done n g pay x c.
  move=> hc y hy; have [_ h4 h5] := h2 c y hc hy; rewrite /ok -h5; apply/eq_in_map => v /(allP h4) /andP [a1 a2].
  by rewrite xv // a2 (leq_ltn_trans _ a1).
exists x, val; split=> //.
- split; apply: (@eq_from_nth _ [::]); rewrite size_map ?si ?so ?sib ?sob // => i hi;
    rewrite (nth_map [::]) ?si ?so //; [exact: min|exact: mout].
- move=> hk c y hc hsw; have [/andP [a1 a2] a3] := h3 hk c y hc hsw; rewrite xv // a2 (leq_ltn_trans _ a1) //.
split=> i hi.
  apply: (packing_holds (val := val) hb _ _ (cd 0%N (leq0n _)) hi); last by move=> j hj; apply: ein.
  move=> j hj; rewrite -ein // min //; split; [|exact: bin|exact: hp0].
  by apply/allP => v /(vin j v hj) /andP [].
apply: (unpacking_holds (val := val) (m := flatten outputs) hb hln _ _ (cd nc (leqnn _)) hi); last by move=> j hj; apply: eout.
move=> j hj; rewrite -eout // mout //.
have inf : nth [::] outputs j \in outputs by apply: mem_nth; rewrite so.
split; [| |exact: bout|exact: hpn].
  apply/allP => v hv'; rewrite (vout j v hj hv') /=; apply/flattenP; by exists (nth [::] outputs j).
move: hu; rewrite flatten_cat cat_uniq => /and3P [_ _]; move: inf; move: (nth [::] outputs j) => u.
elim: (outputs) => [|a A IH] //=; rewrite cat_uniq inE => /orP [/eqP -> /and3P [] //|h /and3P [_ _]]; exact: IH.
Qed.

Lemma packed_of_size (a : seq F) s : size a = s -> size (packed_of R a) = div_ceil s (capacity R).
Proof. by move=> <-; rewrite /packed_of (size_map (@pack F)) size_chunks. Qed.

(** Two equal packets that fit into one field element: any second output is accepted. *)
Theorem C36_as_waksman_repeated_packets_refuted unset pb0 s inputs outputs g pb1 (a z : seq F) :
  (0 < s)%N -> (s <= capacity R)%N -> pb_wf pb0 -> size inputs = 2%N -> size outputs = 2%N ->
  packets_of_size s (inputs ++ outputs) -> all (is_var pb0) (flatten (inputs ++ outputs)) -> uniq (flatten (inputs ++ outputs)) ->
  asw_routing_new R unset pb0 2 inputs outputs = Ok (g, pb1) ->
  size a = s -> size z = s -> all (@isbit F) a -> all (@isbit F) z ->
  exists x, [/\ holds (asw_routing_constraints g) x, packets x inputs = [:: a; a] & packets x outputs = [:: a; z]].
Proof.
move=> hs hs1 hw si so hss hv hu hg sa sz ba bz.
have [ai ao] : packets_of_size s inputs /\ packets_of_size s outputs by apply/andP; rewrite -all_cat.
have [t [g' [pb1' [et eg hok st hb]]]] := asw_built (R := R) hcap unset (isT : (1 < 2)%N) hw si so ai ao.
move: eg; rewrite hg => -[e1 e2]; rewrite -{}e1 -{}e2 in hb; clear g' pb1' hg.
have enc : aw_num_columns 2 = 1%N by [].
rewrite {}enc in hb hok st.
have ck := hok 0%N isT.
have ek : div_ceil s (capacity R) = 1%N.
  have c0 := hcap; rewrite /div_ceil; move: (capacity R) c0 hs hs1; clear => c c0 hs hs1.
  have -> : (s + (c - 1) = 1 * c + (s - 1))%N by lia.
  by rewrite divnMDl // divn_small //; lia.
have he r : (r < 2)%N -> rg_edges g 0 r = (if r == 0%N then (0, 1)%N else (1, 0)%N).
  rewrite /rg_edges (bu_nb hb).
  move: et; vm_compute aw_generate => -[<-].
  by case: r => [|[|]].
pose pay c y := packed_of R (if (c == 1%N) && (y == 1%N) then z else a).
have [||||||x [val [[x1 x2] x3 x4 x5 [x6 x7]]]] := @forge _ _ _ _ _ _ _ _ _ _ _ _ [:: a; a] [:: a; z] pay (fun _ _ => 0) hb si so erefl erefl isT hss _ _ hv hu.
- by rewrite /= sa sz eqxx.
- by rewrite /= ba bz.
- by move=> c y _; apply: packed_of_size; case: ifP.
- by move=> _ [|//] [|[|//]] _ _; rewrite he.
- by move=> [|[|]].
- by move=> [|[|]].
exists x; split=> //.
rewrite /asw_routing_constraints holds_cat (bu_n hb) (bu_nc hb) (bu_nb hb); split.
  by apply/holds_flatten_iota => i hi; rewrite /packing_part holds_cat; split; [exact: x6|exact: x7].
apply/holds_flatten_iota => -[|//] _; apply/holds_flatten => r /GadgetLogic.In_mem.
rewrite (mem_visited ck) => /andP [hr hnb].
rewrite /asw_switch_constraints; case: eqP => // hne; first by apply/holds_nil.
have ht : is_top 2 (nth [::] t 0) r.
  by rewrite -(top_of ck hr hnb); apply/eqP; move: hne; rewrite /rg_edges (bu_nb hb).
have hr1 := top_lt ht; have er : r = 0%N by move: hr1; clear; lia.
have hh r' : (r' < 2)%N -> constraint_holds (easy_route g 0 r') x.
  move=> hr'.
  have l1 : ((rg_edges g 0 r').1 < 2)%N by rewrite he //; case: ifP.
  have l2 : ((rg_edges g 0 r').2 < 2)%N by rewrite he //; case: ifP.
  have k0 : (0 < div_ceil s (capacity R))%N by rewrite ek.
  apply: (@easy_holds _ _ _ _ _ _ _ _ _ x3 x 0 r' isT hr' l1 l2 k0 (x4 0%N isT) (x4 1%N isT)).
  rewrite he // /pay; move: hr'; case: r' {l1 l2} => [|[|//]] _; [by left|by right].
rewrite (bu_k hb) ek eqxx er.
by apply/holds_cons; split; [exact: hh|apply/holds_cons; split; [exact: hh|apply/holds_nil]].
Qed.

(** In a Benes network every packet has its own switch bit: there, two equal packets of any size
    leave the second output free. *)
Theorem C36_benes_repeated_packets_refuted pb0 s inputs outputs g pb1 (a z : seq F) :
  (0 < s)%N -> pb_wf pb0 -> size inputs = 2%N -> size outputs = 2%N ->
  packets_of_size s (inputs ++ outputs) -> all (is_var pb0) (flatten (inputs ++ outputs)) -> uniq (flatten (inputs ++ outputs)) ->
  benes_routing_new R pb0 2 inputs outputs 2 = Ok (g, pb1) ->
  size a = s -> size z = s -> all (@isbit F) a -> all (@isbit F) z ->
  exists x, [/\ holds (benes_routing_constraints g) x, packets x inputs = [:: a; a] & packets x outputs = [:: a; z]].
Proof.
move=> hs hw si so hss hv hu hg sa sz ba bz.
have [ai ao] : packets_of_size s inputs /\ packets_of_size s outputs by apply/andP; rewrite -all_cat.
have so' : (2 <= size outputs)%N by rewrite so.
have [t [g' [pb1' [et eg hb]]]] := benes_built (d := 1) (l := 2) (R := R) hcap hw si so' isT ai ao.
have e21 : (2 ^ 1)%N = 2%N by [].
move: eg; rewrite e21 hg => -[e1 e2]; rewrite -{}e1 -{}e2 e21 muln1 in hb; clear g' pb1' hg.
have [t' [et' st ht]] := C26_topology 1.
move: et'; rewrite et => -[e]; rewrite -{}e e21 muln1 in st ht; clear t'.
have he c r : (c < 2)%N -> (r < 2)%N -> rg_edges g c r = (if r == 0%N then (0, 1)%N else (1, 0)%N).
  move=> hc hr; rewrite /rg_edges (bu_nb hb); have [_] := ht c r hc hr.
  case: (nth _ _ _) => u w /= -> -> _; move: hc hr.
  by case: c => [|[|//]] _; case: r => [|[|//]].
pose pay c y := packed_of R (if (0 < c)%N && (y == 1%N) then z else a).
pose b (c y : nat) : F := if (c == 0%N) && (y == 1%N) then 1 else 0.
have [||||||x [val [[x1 x2] x3 x4 x5 [x6 x7]]]] := @forge _ _ _ _ _ _ _ _ _ _ _ _ [:: a; a] [:: a; z] pay b hb si so erefl erefl isT hss _ _ hv hu.
- by rewrite /= sa sz eqxx.
- by rewrite /= ba bz.
- by move=> c y _; apply: packed_of_size; case: ifP.
- by [].
- by move=> [|[|]].
- by move=> [|[|]].
exists x; split=> //.
have su : size (rg_unpack g) = 2%N by case: (bu_unpack hb).
have k0 : (0 < div_ceil s (capacity R))%N by rewrite /div_ceil divn_gt0 //; move: hs hcap; clear; lia.
rewrite /benes_routing_constraints holds_cat (bu_n hb) (bu_nc hb); split.
  by apply/holds_flatten_iota => i hi; rewrite /benes_packing_part holds_cat su hi; split; [exact: x6|exact: x7].
apply/holds_flatten_iota => c hc; apply/holds_flatten_iota => r hr.
have l1 : ((rg_edges g c r).1 < 2)%N by rewrite he //; case: ifP.
have l2 : ((rg_edges g c r).2 < 2)%N by rewrite he //; case: ifP.
have d1 := x4 c (ltnW hc); have d2 := x4 c.+1 hc.
have hp : pay c r = pay c.+1 (if (c == 0%N) && (r == 1%N) then (rg_edges g c r).2 else (rg_edges g c r).1).
  by rewrite he // /pay; move: hc hr; case: c {l1 l2 d1 d2} => [|[|//]] _; case: r => [|[|//]].
rewrite /benes_row_constraints (bu_k hb); case: eqP => ek.
  apply/holds_cons; split; last by apply/holds_nil.
  by apply: (easy_holds x3 hc hr l1 l2 k0 d1 d2); rewrite hp; case: ifP => _; [right|left].
have hk1 : (1 < div_ceil s (capacity R))%N by move: k0 ek; clear; lia.
have hvb : xval x (rg_bit g c r) = ((c == 0%N) && (r == 1%N))%:R by rewrite (x5 hk1 c r hc hr) /b; case: ifP.
apply/holds_cons; split; first by apply/bit_constraintE; rewrite hvb /isbit; case: (_ && _); rewrite eqxx ?orbT.
by apply/holds_iota => sub hsub; apply: (route_holds x3 hc hr l1 l2 hsub d1 d2 hvb).
Qed.
End Props.
Print Assumptions C36_as_waksman_new.
Print Assumptions C36_as_waksman_sound.
Print Assumptions C36_as_waksman_complete.
Print Assumptions C36_benes_new.
Print Assumptions C36_benes_sound.
Print Assumptions C36_benes_complete.
Print Assumptions C36_as_waksman_repeated_packets_refuted.
Print Assumptions C36_benes_repeated_packets_refuted.

(** * Cases *)
Local Notation F11 := [fieldType of 'F_11].
(** [n] packets of [s] bits over F_11, where three bits fit into a field element: packet [i] has
    the value [f i]; its variables are [i * s + 1 ...], and the outputs follow. *)
Definition ex_bits (s n from : nat) : seq pb_variable_array := [seq iota (from + i * s).+1 s | i <- iota 0 n].
Definition ex_val (s : nat) (f : nat -> nat) (i : nat) : seq 'F_11 := [seq (if odd (f i %/ 2 ^ j) then 1 else 0) | j <- iota 0 s].
Definition ex_board (n s : nat) (f : nat -> nat) : protoboard F11 :=
  upd (allocate_array (pb_new F11) (2 * n * s)).2 (flatten [seq ex_val s f i | i <- iota 0 n] ++ nseq (n * s) 0) [::].
(** Right after construction, witness generation satisfies the constraints and delivers the packets. *)
Definition ex_run (new : outcome (routing_gadget F11 * protoboard F11))
    (witness : routing_gadget F11 -> protoboard F11 -> outcome (protoboard F11)) (cs : routing_gadget F11 -> seq (r1cs_constraint F11))
    (outs : seq pb_variable_array) (expected : seq (seq 'F_11)) : bool :=
  if new is Ok gp then if witness gp.1 gp.2 is Ok pb then
    let ev := foldr (fun (t : nat * 'F_11) (acc : 'F_11) => t.2 * xval (pb_values pb) t.1 + acc) 0 in
    all (fun c => ev (c_a c) * ev (c_b c) == ev (c_c c)) (cs gp.1)
    && (packets (pb_values pb) outs == expected) else false else false.
Definition ip_rot3 := (IntPerm [:: 2; 0; 1]%N 0 (Some 2))%N.
Example C36_ex1 : [/\ ip_wf ip_rot3, ip_bounds ip_rot3 0 (3 - 1) & ip_is_valid ip_rot3]. Proof. by []. Qed.
Example C36_ex2 (s := 2%N) : ex_run (asw_routing_new repr11 77 (ex_board 3 s id) 3 (ex_bits s 3 0) (ex_bits s 3 (3 * s)))
  (fun g pb => asw_routing_witness repr11 g ip_rot3 pb) (@asw_routing_constraints F11) (ex_bits s 3 (3 * s))
  [seq ex_val s id i | i <- [:: 1; 2; 0]%N].
Proof. by vm_compute. Qed.
Example C36_ex3 (s := 5%N) : ex_run (asw_routing_new repr11 77 (ex_board 3 s (fun i => 9 + i)%N) 3 (ex_bits s 3 0) (ex_bits s 3 (3 * s)))
  (fun g pb => asw_routing_witness repr11 g ip_rot3 pb) (@asw_routing_constraints F11) (ex_bits s 3 (3 * s))
  [seq ex_val s (fun i => 9 + i)%N i | i <- [:: 1; 2; 0]%N].
Proof. by vm_compute. Qed.
(** A Benes network of four packets of which three are unpacked; the last one stays in place. *)
Definition ip_rot34 := (IntPerm [:: 2; 0; 1; 3]%N 0 (Some 3))%N.
Example C36_ex4 : [/\ ip_wf ip_rot34, ip_bounds ip_rot34 0 (2 ^ 2 - 1), ip_is_valid ip_rot34 & ip_at ip_rot34 3 = 3%N]. Proof. by []. Qed.
Example C36_ex5 (s := 5%N) : ex_run (benes_routing_new repr11 (ex_board 4 s (fun i => 9 + i)%N) 4 (ex_bits s 4 0) (ex_bits s 3 (4 * s)) 3)
  (fun g pb => benes_routing_witness repr11 g ip_rot34 pb) (@benes_routing_constraints F11) (ex_bits s 3 (4 * s))
  [seq ex_val s (fun i => 9 + i)%N i | i <- [:: 1; 2; 0]%N].
Proof. by vm_compute. Qed.
Example C36_ex6 (s := 2%N) : ex_run (benes_routing_new repr11 (ex_board 4 s id) 4 (ex_bits s 4 0) (ex_bits s 3 (4 * s)) 3)
  (fun g pb => benes_routing_witness repr11 g ip_rot34 pb) (@benes_routing_constraints F11) (ex_bits s 3 (4 * s))
  [seq ex_val s id i | i <- [:: 1; 2; 0]%N].
Proof. by vm_compute. Qed.
(** The hypotheses on the packets. *)
Example C36_ex7 (s := 5%N) (pb := ex_board 4 s (fun i => 9 + i)%N) (ins := ex_bits s 4 0) (outs := ex_bits s 3 (4 * s)) :
  [&& packets_of_size s ins, packets_of_size s outs, all (is_var pb) (flatten ins), all (is_var pb) (flatten outs),
    uniq (flatten (ins ++ outs)), ~~ has (mem (flatten ins)) (flatten outs), packets_boolean (pb_values pb) ins,
    uniq (packets (pb_values pb) ins) & (s <= 2 * capacity repr11)%N && (capacity repr11 < s)%N].
Proof. by vm_compute. Qed.
Example C36_ex8 : pb_wf (ex_board 4 5 (fun i => 9 + i)%N). Proof. by split. Qed.
