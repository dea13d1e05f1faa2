(** Facts about the compression function gadget. *)
From Coq Require Import NArith.
From mathcomp Require Import all_ssreflect all_algebra zify.
From Verif Require Import Outcome Lincomb LincombSpec LincombFacts R1CS R1CSSpec R1CSFacts Fieldtac.
From Verif Require Import Protoboard GadgetSpec GadgetLogic BasicGadgets BasicGadgetsFacts BasicGadgetsMore GadgetNew.
From Verif Require Import Sha256Spec Sha256Bits Sha256Gadget GadgetSeq Sha256Facts Sha256Word Sha256Word2 Sha256Sched Sha256Sched2 Sha256Round Sha256Rounds.
Set Implicit Arguments.
Unset Strict Implicit.
Unset Printing Implicit Defensive.
Local Open Scope ring_scope.
Import GRing.Theory.
Delimit Scope N_scope with num.
Local Opaque allocate_array iota.

(** * The specification *)
Definition wk (S : working) : seq word := [:: va S; vb S; vc S; vd S; ve S; vf S; vg S; vh S].
Lemma compress_nth H M i : (i < 8)%N ->
  nth 0%num (sha256_compress H M) i = wadd (nth 0%num (wk (rounds (working_of H) (schedule M) 64)) i) (nth 0%num (wk (working_of H)) i).
Proof. rewrite /sha256_compress; cbv zeta; move: (rounds _ _ _) => s; move: (working_of H) => s0; by do 8 (case: i => [|i] //=). Qed.
Lemma shift_b s W n : vb (rounds s W n.+1) = va (rounds s W n). Proof. by rewrite roundsS. Qed.
Lemma shift_c s W n : vc (rounds s W n.+1) = vb (rounds s W n). Proof. by rewrite roundsS. Qed.
Lemma shift_d s W n : vd (rounds s W n.+1) = vc (rounds s W n). Proof. by rewrite roundsS. Qed.
Lemma shift_f s W n : vf (rounds s W n.+1) = ve (rounds s W n). Proof. by rewrite roundsS. Qed.
Lemma shift_g s W n : vg (rounds s W n.+1) = vf (rounds s W n). Proof. by rewrite roundsS. Qed.
Lemma shift_h s W n : vh (rounds s W n.+1) = vg (rounds s W n). Proof. by rewrite roundsS. Qed.
(** The words that the code adds at the end. *)
Lemma shift_all s W n i : (i < 4)%N ->
  [/\ vd (rounds s W (3 - i)) = nth 0%num (wk s) i, vh (rounds s W (3 - i)) = nth 0%num (wk s) (4 + i),
      va (rounds s W (n.+4 - i)) = nth 0%num (wk (rounds s W n.+4)) i &
      ve (rounds s W (n.+4 - i)) = nth 0%num (wk (rounds s W n.+4)) (4 + i)].
Proof.
case: i => [|[|[|[|i]]]] // _; rewrite /wk !(subn0, subSS, addn0) /nth;
  by rewrite ?(shift_d, shift_h, shift_c, shift_g, shift_b, shift_f, rounds0).
Qed.

Section Compress.
Variable F : fieldType.
Variable R : bigint_repr F.
Add Field Ff8 : (Fth F).
Implicit Types (x : seq F) (pb : protoboard F) (P : pred nat).
Local Notation plcs := (plcs_of_vars F).
Local Notation plc := (plc_of_var F).
Local Notation wval := (wval F).
Local Notation vlc := (lc_of_var F).
Local Notation one_lc := (lc_of_int F 1).
Local Notation arr := (pb_linear_combination_array F).
Local Notation sz pb := (size (pb_values pb)).

Definition start_state (prev : arr) pb : round_state F :=
  RoundState (slice32 prev 0) (slice32 prev 1) (slice32 prev 2) (slice32 prev 3)
             (slice32 prev 4) (slice32 prev 5) (slice32 prev 6) (slice32 prev 7) pb.
Definition reduce_new (lo : nat) (output : pb_variable_array) (i : nat) pb : outcome (lastbits F * protoboard F) :=
  Ok (lastbits_new pb (lo + i).+1 (32 + 1) (lo + 8 + i).+1 (slice32 output i)).
Lemma start_src prev pb0 pb : size prev = (32 * 8)%N -> st_src prev pb0 (start_state prev pb).
Proof.
move=> hp; have h i : (i < 8)%N -> src prev pb0 pb (slice32 prev i).
  by move=> hi; split; [apply: size_slice32 hp hi|left; exists i].
by split; split; apply: h.
Qed.

Lemma reduce_alloc lo output ts pb0 gs pb1 : pb_wf pb0 -> new_all (reduce_new lo output) ts pb0 = Ok (gs, pb1) -> allocates pb0 pb1.
Proof.
move=> hw; apply: (new_all_ind (Inv := fun _ _ pb => allocates pb0 pb)); first exact: allocates_refl.
move=> ts1 t ts2 gs1 s g s' _ _ IH; rewrite /reduce_new; case e: (lastbits_new _ _ _ _ _) => [g' s''] [_ <-].
exact: allocates_trans IH (lastbits_alloc e (allocates_wf IH)).
Qed.

Lemma compression_inv pb0 prev new_block output g pb1 : pb_wf pb0 -> (2 ^ (32 + 3) <= fp_order R)%N ->
  size prev = (32 * 8)%N -> size new_block = (32 * 16)%N -> size output = (32 * 8)%N ->
  compression_new pb0 prev new_block output = Ok (g, pb1) ->
  exists pb2 pb3 sd rs st1 pb5 red, let packed_W := iota (sz pb0).+1 64 in let s4 := sz (st_pb st1) in
  [/\ allocates pb0 pb2 /\ sz pb2 = (sz pb0 + 64)%N,
      hid (schedule_new pb2 new_block packed_W = Ok (sd, pb3)) /\ allocates pb2 pb3,
      hid (new_all (round_step_new packed_W) (iota 0 64) (start_state prev pb3) = Ok (rs, st1)) /\ allocates pb3 (st_pb st1),
      [/\ allocates (st_pb st1) pb5, sz pb5 = (s4 + 16)%N, hid (new_all (reduce_new s4 output) (iota 0 8) pb5 = Ok (red, pb1)) &
          allocates pb5 pb1] &
      g = Compression sd rs (iota s4.+1 8) (iota (s4 + 8).+1 8) red].
Proof.
move=> hw hR hp hb ho; rewrite /compression_new.
case e1: (allocate_array pb0 64) => [pW pb2]; have [a1 n1 z1] := allocate_array_new hw e1; clear e1.
move=> H; have {H} [[sd pb3] e2 H] := obind_Ok H.
have sW : size pW = 64%N by rewrite n1 size_iota.
have h34 : (2 ^ (32 + 2) <= fp_order R)%N by apply: leq_trans hR; rewrite !expnD; clear; lia.
have a2 := schedule_alloc (allocates_wf a1) hb sW h34 e2; move/Hid: e2 => e2.
have r7 := @rslice_ok _ prev 8 0 hp isT; have r6 := @rslice_ok _ prev 8 1 hp isT; have r5 := @rslice_ok _ prev 8 2 hp isT.
have r4 := @rslice_ok _ prev 8 3 hp isT; have r3 := @rslice_ok _ prev 8 4 hp isT; have r2 := @rslice_ok _ prev 8 5 hp isT.
have r1 := @rslice_ok _ prev 8 6 hp isT; have r0 := @rslice_ok _ prev 8 7 hp isT.
rewrite !(subSS, subn0) in r7 r6 r5 r4 r3 r2 r1 r0.
move: H; rewrite r7 1!obindE r6 1!obindE r5 1!obindE r4 1!obindE r3 1!obindE r2 1!obindE r1 1!obindE r0 1!obindE => H.
have {H} [[rs st1] e3 H] := obind_Ok H.
rewrite [(sd, pb3).2]/= -/(start_state prev pb3) in e3; rewrite [(rs, st1).2]/= [(rs, st1).1]/= [(sd, pb3).1]/= in H.
move: H; move/Hid: e3 => e3.
have hI := rounds_inv_all (allocates_wf a2) (erefl : st_pb (start_state prev pb3) = pb3) (start_src pb3 pb3 hp) sW hR
  (ex_intro _ [::] (esym (cats0 _))) e3.
have {hI} [a3 _ _ _] := hI.
case e4: (allocate_array (st_pb st1) 8) => [un q1]; have [a4 n4 z4] := allocate_array_new (allocates_wf a3) e4; clear e4.
case e5: (allocate_array q1 8) => [rd pb5]; have [a5 n5 z5] := allocate_array_new (allocates_wf a4) e5; clear e5.
rewrite (@new_all_eq _ _ _ _ (reduce_new (sz (st_pb st1)) output)); last first.
  move=> t pb; rewrite mem_iota add0n leq0n andTb => ht.
  have -> : (7 - t = 8 - 1 - t)%N by clear; lia.
  rewrite (rslice_ok ho ht) 1!obindE (oget_nth 0%N) ?n4 ?size_iota // 1!obindE (oget_nth 0%N) ?n5 ?size_iota // 1!obindE.
  by rewrite /reduce_new !nth_iota // z4; congr (Ok (lastbits_new _ _ _ _ _)); clear; lia.
move=> H; have {H} [[red pb1'] e6 [eg epb]] := obind_Ok H; rewrite /= in eg epb; rewrite -eg; rewrite epb in e6.
have a6 := reduce_alloc (allocates_wf a5) e6.
exists pb2, pb3, sd, rs, st1, pb5, red; rewrite -n1; split.
- by split; [exact: a1|exact: z1].
- by split; [exact: e2|exact: a2].
- by split; [exact: e3|exact: a3].
- split; [exact: allocates_trans a4 a5|by rewrite z5 z4; clear; lia|exact: Hid e6|exact: a6].
by rewrite n4 n5 z4.
Qed.

(** The sums of the last step. *)
Lemma sum2_holds x (n0 n1 : nat) a b u : xval x a = n0%:R -> xval x b = n1%:R ->
  constraint_holds (R1csConstraint one_lc (var_add_lc a (vlc b)) (vlc u)) x -> xval x u = (n0 + n1)%N%:R.
Proof. by move=> ea eb; rewrite /constraint_holds /= !fsE ea eb natrD mulr1z => <-; fring F. Qed.

Definition final_ok x lo (Hout : seq word) : Prop :=
  forall i, (i < 8)%N -> exists n, [/\ xval x (lo + i).+1 = n%:R, (n < 2 ^ (32 + 1))%N & N.of_nat (n %% 2 ^ 32) = nth 0%num Hout i].

Lemma st_is_lt x st S i : st_is x st S -> (i < 8)%N -> (N.to_nat (nth 0%num (wk S) i) < 2 ^ 32)%N.
Proof.
move=> [[h1 h2 h3 h4] [h5 h6 h7 h8]].
by case: i => [|[|[|[|[|[|[|[|i]]]]]]]] // _; apply: is_word_lt; eassumption.
Qed.
Lemma sum_word (a b : word) : (N.to_nat a < 2 ^ 32)%N -> (N.to_nat b < 2 ^ 32)%N ->
  (N.to_nat a + N.to_nat b < 2 ^ (32 + 1))%N /\ N.of_nat ((N.to_nat a + N.to_nat b) %% 2 ^ 32) = wadd b a.
Proof.
move=> ha hb; split; last by rewrite (wadd_of hb ha) addnC.
by rewrite expnD; move: ha hb; move: (N.to_nat a) (N.to_nat b) (2 ^ 32)%N; clear; lia.
Qed.

Lemma final_sound x sd rs st1 un rd red st0 H M lo :
  un = iota lo.+1 8 -> st_is x st0 (working_of H) -> st_is x st1 (rounds (working_of H) (schedule M) 64) ->
  (forall j, (j < 64)%N -> packed_ok x rs (working_of H) (schedule M) j) ->
  holds (flatten [seq final_sum (Compression sd rs un rd red) i | i <- iota 0 4]) x ->
  final_ok x lo (sha256_compress H M).
Proof.
move=> eu h0 h1 hp /holds_flatten_iota hh i hi; rewrite compress_nth //.
set S0 := working_of H in h0 h1 hp *; set W := schedule M in h1 hp *.
have l0 j : (j < 8)%N -> _ := st_is_lt h0; have l1 j : (j < 8)%N -> _ := st_is_lt h1.
have un_nth j : (j < 8)%N -> nth 0%N un j = (lo + j).+1 by move=> hj; rewrite eu nth_iota // addSn.
have [j hj [ei|ei]] : exists2 j, (j < 4)%N & i = j \/ i = (4 + j)%N.
  by case: (ltnP i 4) => h; [exists i => //; left|exists (i - 4)%N; [lia|right; lia]].
all: have [q1 q2 q3 q4] := shift_all S0 W 60 hj.
all: have hj3 : (3 - j < 64)%N by clear; lia.
all: have hj63 : (63 - j < 64)%N by clear; lia.
all: have e64 : ((63 - j).+1 = 64 - j)%N by clear - hj; lia.
all: have [p1 p2 _ _] := hp _ hj3; have [_ _ p3 p4] := hp _ hj63; rewrite e64 in p3 p4.
all: have := hh j hj; rewrite /final_sum => /holds_cons [c1 /holds_cons [c2 _]].
- rewrite /= un_nth in c1; last by clear - hj; lia.
  have e := sum2_holds p1 p3 c1; rewrite q1 q3 -ei in e.
  by have [s1 s2] := sum_word (l0 _ hi) (l1 _ hi); exists (N.to_nat (nth 0%num (wk S0) i) + N.to_nat (nth 0%num (wk (rounds S0 W 64)) i))%N.
rewrite /= un_nth in c2; last by clear - hj; lia.
have e := sum2_holds p2 p4 c2; rewrite q2 q4 -ei in e.
by have [s1 s2] := sum_word (l0 _ hi) (l1 _ hi); exists (N.to_nat (nth 0%num (wk S0) i) + N.to_nat (nth 0%num (wk (rounds S0 W 64)) i))%N.
Qed.

Lemma is_word_inj x (ls : arr) w w' : is_word x ls w -> is_word x ls w' -> w = w'.
Proof. by move=> [_ _ <-] [_ _ <-]. Qed.
Lemma all_slices (T : Type) (p : pred T) (s : seq T) n : size s = (32 * n)%N ->
  (forall i, (i < n)%N -> all p (slice32 s i)) -> all p s.
Proof.
elim: n s => [|n IH] s hs h; first by move: hs; rewrite muln0 => /size0nil ->.
rewrite -(cat_take_drop 32 s) all_cat; apply/andP; split.
  by have := h 0%N isT; rewrite /slice32 muln0 drop0 all_rev.
apply: IH; first by rewrite size_drop hs; clear; lia.
by move=> i hi; have := h i.+1 hi; rewrite /slice32 mulnS drop_drop addnC.
Qed.
Lemma working_ofE H : working_of H = Working (nth 0%num H 0) (nth 0%num H 1) (nth 0%num H 2) (nth 0%num H 3)
  (nth 0%num H 4) (nth 0%num H 5) (nth 0%num H 6) (nth 0%num H 7).
Proof. by rewrite /working_of !std_nth. Qed.
Lemma start_is x (prev : arr) pb : size prev = (32 * 8)%N -> all (fun l => isbit (lval x l)) prev ->
  st_is x (start_state prev pb) (working_of (words_of_bits 8 (bools x prev))).
Proof. by move=> hs hb; have h i (hi : (i < 8)%N) := slice_word hs hi hb; rewrite working_ofE; split; split; apply: h. Qed.

Lemma reduce_sound x lo output pb0 gs pb1 Hout : pb_wf pb0 -> (2 ^ (32 + 1) <= fp_order R)%N ->
  size output = (32 * 8)%N ->
  new_all (reduce_new lo output) (iota 0 8) pb0 = Ok (gs, pb1) -> final_ok x lo Hout ->
  holds (flatten [seq lastbits_constraints r | r <- gs]) x ->
  forall i, (i < 8)%N -> is_word x (plcs (slice32 output i)) (nth 0%num Hout i).
Proof.
move=> hw hR ho e hf hh.
have {e} : allocates pb0 pb1 /\ (holds (flatten [seq lastbits_constraints r | r <- gs]) x ->
   forall i, (i < size (iota 0 8))%N -> is_word x (plcs (slice32 output i)) (nth 0%num Hout i)).
  move: e hh => e _; move: e; apply: (new_all_ind (Inv := fun ts gs pb => allocates pb0 pb /\
    (holds (flatten [seq lastbits_constraints r | r <- gs]) x ->
     forall i, (i < size ts)%N -> is_word x (plcs (slice32 output i)) (nth 0%num Hout i)))).
    by split=> //; apply: allocates_refl.
  move=> ts1 t ts2 gs1 s g s' ets _ [a1 IH]; rewrite /reduce_new; case e: (lastbits_new _ _ _ _ _) => [g' s''] [<- <-].
  have [_ [et lt]] := iota_split ets; rewrite add0n in et.
  split; first exact: allocates_trans a1 (lastbits_alloc e (allocates_wf a1)).
  rewrite map_rcons -cats1 flatten_cat /= cats0 => /holds_cat [hg1 hg2] i.
  rewrite size_rcons ltnS leq_eqVlt => /orP [/eqP ->|hi]; last exact: IH.
  have [n [n1 n2 n3]] := hf _ lt; rewrite -et in n1 n3 *; rewrite -n3.
  have hs : size (slice32 output t) = 32%N by apply: size_slice32 ho _; rewrite et.
  by have [] := lastbits_sound e (allocates_wf a1) hs _ hR n1 n2 hg2.
by case=> _ H; have := H hh; rewrite size_iota.
Qed.

Lemma compression_sound_mid pb0 prev new_block x pb2 pb3 sd rs st1 red :
  let packed_W := iota (sz pb0).+1 64 in
  pb_wf pb0 -> (2 ^ (32 + 3) <= fp_order R)%N ->
  size prev = (32 * 8)%N -> size new_block = (32 * 16)%N ->
  allocates pb0 pb2 -> hid (schedule_new pb2 new_block packed_W = Ok (sd, pb3)) -> allocates pb2 pb3 ->
  hid (new_all (round_step_new packed_W) (iota 0 64) (start_state prev pb3) = Ok (rs, st1)) ->
  all (fun l => isbit (lval x l)) prev -> all (fun l => isbit (lval x l)) (plcs new_block) ->
  holds (schedule_constraints sd) x ->
  holds (flatten [seq round_constraints r | r <- rs]) x ->
  holds (flatten [seq final_sum (Compression sd rs (iota (sz (st_pb st1)).+1 8) (iota (sz (st_pb st1) + 8).+1 8) red) i | i <- iota 0 4]) x ->
  final_ok x (sz (st_pb st1)) (sha256_compress (words_of_bits 8 (bools x prev)) (words_of_bits 16 (bools x (plcs new_block)))).
Proof.
move=> pW hw hR hp hb a1 [e2] a2 e3 bp bb hc1 hc2 hc3.
have sW : size pW = 64%N by rewrite size_iota.
have h34 : (2 ^ (32 + 2) <= fp_order R)%N by apply: leq_trans hR; rewrite !expnD; clear; lia.
have [_ hW] := schedule_sound (allocates_wf a1) hb sW h34 e2 bb hc1; clear e2.
have [_ _ _ hI] := rounds_inv_all (allocates_wf a2) (erefl : st_pb (start_state prev pb3) = pb3) (start_src pb3 pb3 hp) sW hR
  (ex_intro _ [::] (esym (cats0 _))) e3.
have h0 := start_is pb3 hp bp.
have [h1 hpk] := hI x _ _ h0 hW hc2; rewrite size_iota in h1 hpk.
exact: final_sound (erefl _) h0 h1 hpk hc3.
Qed.


Lemma compression_sound pb0 prev new_block output g pb1 x : pb_wf pb0 -> (2 ^ (32 + 3) <= fp_order R)%N ->
  size prev = (32 * 8)%N -> size new_block = (32 * 16)%N -> size output = (32 * 8)%N ->
  compression_new pb0 prev new_block output = Ok (g, pb1) ->
  all (fun l => isbit (lval x l)) prev -> all (fun l => isbit (lval x l)) (plcs new_block) ->
  holds (compression_constraints g) x ->
  all (fun l => isbit (lval x l)) (plcs output) /\
  words_of_bits 8 (bools x (plcs output)) =
  sha256_compress (words_of_bits 8 (bools x prev)) (words_of_bits 16 (bools x (plcs new_block))).
Proof.
move=> hw hR hp hb ho e bp bb.
have [pb2 [pb3 [sd [rs [st1 [pb5 [red]]]]]]] := compression_inv hw hR hp hb ho e; clear e.
case=> -[a1 z1] [e2 a2] [e3 a3] [a4 z4 e4 a5] ->.
move=> /holds_cat [hc1 /holds_cat [hc2 /holds_cat [hc3 hc4]]].
have hf := compression_sound_mid hw hR hp hb a1 e2 a2 e3 bp bb hc1 hc2 hc3.
have h33 : (2 ^ (32 + 1) <= fp_order R)%N by apply: leq_trans hR; rewrite !expnD; clear; lia.
have hr := reduce_sound (allocates_wf a4) h33 ho (unhid e4) hf hc4.
have ho' : size (plcs output) = (32 * 8)%N by rewrite size_map.
have hall : all (fun l => isbit (lval x l)) (plcs output).
  by apply: (all_slices ho') => i hi; have [_ h _] := hr i hi; rewrite -plcs_slice.
split=> //; apply: (@eq_from_nth _ 0%num); rewrite size_words // => i hi.
by have := slice_word ho' hi hall; rewrite -plcs_slice => h; apply: is_word_inj h (hr i hi).
Qed.


(** * Completeness *)
Definition packed_vars (G : round_gadget F) : seq nat := [:: rg_packed_d G; rg_packed_a G; rg_packed_h G; rg_packed_e G].
Lemma round_step_vars packed_W i st G st' : pb_wf (st_pb st) -> size packed_W = 64%N -> (i < 64)%N ->
  size (st_a st) = 32%N -> size (st_e st) = 32%N ->
  round_step_new packed_W i st = Ok (G, st') ->
  allocates (st_pb st) (st_pb st') /\ all (fun v => sz (st_pb st) < v <= sz (st_pb st'))%N (packed_vars G).
Proof.
move=> hw hW hi sa se E; have [pb2 [a1 z1 a2 e _]] := round_step_inv hw hW hi sa se E; clear E.
split; first exact: allocates_trans a1 a2.
have [pb3 [pb4 [pb5 [pb6 [pb7 [pb8 [pb9 [pb10 [pb11 [c0 [c1 [cch [cmj [ra [re]]]]]]]]]]]]]]] := round_inv (allocates_wf a1) sa se (unhid e); clear e.
case=> -[b1 [b2 b3] [b4 b5] [b6 b7] [b8 b9 b10]] [_ _ _ z9] _ _ [_ _ ->].
have d1 := allocates_trans (allocates_trans b1 (allocates_trans b2 b3)) (allocates_trans b4 b5).
have d2 := allocates_trans b6 b7; have d3 := allocates_trans b9 b10.
have s1 := allocates_size d1; have s2 := allocates_size d2; have s3 := allocates_size d3.
by rewrite /packed_vars /= andbT; clear - s1 s2 s3 z9 z1; lia.
Qed.
Lemma rounds_vars prev pb0 packed_W st0 gs st : pb_wf pb0 -> st_pb st0 = pb0 -> st_src prev pb0 st0 ->
  size packed_W = 64%N -> (2 ^ (32 + 3) <= fp_order R)%N ->
  hid (new_all (round_step_new packed_W) (iota 0 64) st0 = Ok (gs, st)) ->
  all (fun G => all (fun v => sz pb0 < v <= sz (st_pb st))%N (packed_vars G)) gs.
Proof.
move=> hw e0 hs hW hR [e]; move: (e).
apply: (new_all_ind (Inv := fun ts gs s => all (fun G => all (fun v => sz pb0 < v <= sz (st_pb s))%N (packed_vars G)) gs)); first by [].
move=> ts1 t ts2 gs1 s g s' ets e1 IH e2; have [_ [et lt]] := iota_split ets; rewrite add0n in et.
have [a1 _ [[ra _ _ _] [re _ _ _]] _] := rounds_inv_all hw e0 hs hW hR (ex_intro _ _ ets) (Hid e1); clear e1.
rewrite et in e2; have [a2 h] := round_step_vars (allocates_wf a1) hW lt ra.1 re.1 e2; clear e2.
have s1 := allocates_size a1; have s2 := allocates_size a2.
rewrite all_rcons; apply/andP; split; first by apply: sub_all h => v; clear - s1; lia.
by apply: sub_all IH => G; apply: sub_all => v; clear - s2; lia.
Qed.

Section Gok.
Variable slot : nat -> linear_combination F.
Variables N Ks : nat.
Local Notation gok := (gok slot N Ks).
Local Notation stable := (stable slot N Ks).
Local Notation inps P := (inps slot N Ks P).

Lemma sum2_gok P v a b : (0 < v <= N)%N -> ~~ P v -> all (fun w => (w <= N)%N && P w) [:: a; b] ->
  gok P [:: v] (fun pb => set_sum pb v [:: a; b] 0) [:: R1csConstraint one_lc (var_add_lc a (vlc b)) (vlc v)] (fun _ _ => True).
Proof.
move=> hv hP hab; apply: set_sum_gok => //.
- by move: hab => /= /and3P [/andP [_ ha] /andP [_ hb] _]; rewrite ?wiE ha hb ?orbT.
by move=> x; rewrite !fsE /= addr0.
Qed.

Lemma final_gok P sd rs rd red lo pre : 
  let g := Compression sd rs (iota lo.+1 8) rd red in
  (lo + 8 <= N)%N -> (forall v, (lo < v)%N -> ~~ P v) -> size rs = 64%N ->
  all (fun G => all (fun v => (v <= N)%N && P v) (packed_vars G)) rs -> stable P pre ->
  gok P (iota lo.+1 8) (fun pb => ofold (final_sum_witness g) pb (iota 0 4)) (flatten [seq final_sum g i | i <- iota 0 4]) pre.
Proof.
move=> g hN hP hrs hall hst.
have hv j : (j < 64)%N -> all (fun v => (v <= N)%N && P v)
    [:: nth_round g j (@rg_packed_d F); nth_round g j (@rg_packed_a F); nth_round g j (@rg_packed_h F); nth_round g j (@rg_packed_e F)].
  case: rs @g hrs hall => [|G0 rs'] // g hrs hall hj; rewrite /nth_round /g /cf_rounds.
  have hj' : (j < size (G0 :: rs'))%N by rewrite hrs.
  by rewrite !(nth_map G0) //; apply: (all_nthP G0 hall).
set mods := fun i => [:: (lo + i).+1; (lo + (4 + i)).+1].
have memm j v : v \in flatten (map mods (iota 0 j)) -> exists2 i, (i < j)%N & v = (lo + i).+1 \/ v = (lo + (4 + i)).+1.
  move=> /flattenP [m /mapP [i]]; rewrite mem_iota add0n leq0n andTb => hi ->; rewrite !inE => /orP [] /eqP ->; exists i => //; by [left|right].
have un_nth j : (j < 8)%N -> nth 0%N (iota lo.+1 8) j = (lo + j).+1 by move=> hj; rewrite nth_iota // addSn.
have h : gok P (flatten (map mods (iota 0 4))) (fun pb => ofold (fun pb i => final_sum_witness g pb i) pb (iota 0 4))
   (flatten [seq final_sum g i | i <- iota 0 4]) pre.
  apply: (@gok_loop F slot N Ks nat (fun i pb => final_sum_witness g pb i) (final_sum g) mods) => // gs1 j gs2 ets.
  have [ets1 [et lt]] := iota_split ets; rewrite add0n in et.
  set P' := [predU P & _].
  have hn v : (lo < v)%N -> (forall i, (i < j)%N -> v <> (lo + i).+1 /\ v <> (lo + (4 + i)).+1) -> ~~ P' v.
    move=> h1 h2; rewrite predUE negb_or hP //; apply/negP; rewrite ets1 => /memm [i hi [e|e]].
    - by case: (h2 i _) => //; rewrite et.
    by case: (h2 i _) => //; rewrite et.
  have hP' a b : (a < 64)%N -> (b < 64)%N -> 
    all (fun v => (v <= N)%N && P' v) [:: nth_round g a (@rg_packed_d F); nth_round g b (@rg_packed_a F)] /\
    all (fun v => (v <= N)%N && P' v) [:: nth_round g a (@rg_packed_h F); nth_round g b (@rg_packed_e F)].
    move=> ha hb; have := hv a ha; have := hv b hb; rewrite /= !andbT => /and4P [_ b1 _ b2] /and4P [a1 _ a2 _].
    have up v : (v <= N)%N && P v -> (v <= N)%N && P' v by move=> /andP [h1 h2]; rewrite h1 /P' predUE h2.
    by split; apply/andP; split; apply: up.
  have [ha hb] : all (fun v => (v <= N)%N && P' v) [:: nth_round g (3 - j) (@rg_packed_d F); nth_round g (63 - j) (@rg_packed_a F)] /\
    all (fun v => (v <= N)%N && P' v) [:: nth_round g (3 - j) (@rg_packed_h F); nth_round g (63 - j) (@rg_packed_e F)].
    by apply: hP'; clear; lia.
  rewrite -et in lt.
  have g1 : gok P' [:: (lo + j).+1] _ _ _ := sum2_gok _ _ ha.
  have {}g1 := g1 _ _.
  have nj : (j < 8)%N by clear - lt; lia.
  have nj4 : (4 + j < 8)%N by clear - lt; lia.
  have hs : gok P' ([:: (lo + j).+1] ++ [:: (lo + (4 + j)).+1]) (final_sum_witness g ^~ j) (final_sum g j) (fun _ _ => True).
    rewrite /final_sum /final_sum_witness (_ : cf_unreduced g = iota lo.+1 8) // (un_nth _ nj) (un_nth _ nj4).
    apply: (gok_seq (cs1 := [:: _]) (cs2 := [:: _])).
    - apply: g1; first by clear - lt hN; lia.
      by apply: hn; [clear; lia|move=> i hi; clear - hi lt; lia].
    - exact: stable_true.
    apply: (gok_pre (pre := fun _ _ => True)) => //; apply: sum2_gok.
    - by clear - lt hN; lia.
    - rewrite predUE negb_or; apply/andP; split; last by rewrite inE; clear; lia.
      by apply: hn; [clear; lia|move=> i hi; clear - hi lt; lia].
    by apply: sub_all hb => v /andP [h1 h2]; rewrite h1 predUE h2.
  exact: gok_pre hs _.
apply: (gok_conv h) => //.
- by move=> v; rewrite mem_iota => hv'; split; [clear - hv' hN; lia|apply: hP; clear - hv'; lia].
by move=> v /memm [i hi [->|->]]; rewrite mem_iota; clear - hi; lia.
Qed.


Lemma mem_slice32 (s : seq nat) i v : uniq s -> v \in slice32 s i -> v \in s /\ (32 * i <= index v s < 32 * i + 32)%N.
Proof.
move=> hu; rewrite /slice32 mem_rev => h.
have hv : v \in s by exact: mem_drop (mem_take h).
split=> //; have e := cat_take_drop (32 * i) s; have e' := cat_take_drop 32 (drop (32 * i) s).
have hni : v \notin take (32 * i) s.
  move: hu; rewrite -{1}e cat_uniq => /and3P [_ /hasPn hn _]; by apply: hn; apply: mem_take h.
have st : size (take (32 * i) s) = (32 * i)%N.
  have := mem_take h; rewrite size_take; case: ltnP => // hle; by rewrite drop_oversize.
rewrite -{1 2}e index_cat (negbTE hni) st leq_addr ltn_add2l andTb -e' index_cat h.
by apply: leq_trans (geq_minl 32 (size (drop (32 * i) s))); rewrite -size_take_min -?index_mem //; rewrite index_mem.
Qed.

Lemma reduce_gok P pb0 lo output gs pb1 pre : pb_wf pb0 -> (2 ^ (32 + 1) <= fp_order R)%N ->
  size output = (32 * 8)%N -> sz pb0 = (lo + 16)%N ->
  hid (new_all (reduce_new lo output) (iota 0 8) pb0 = Ok (gs, pb1)) -> (sz pb1 <= N)%N ->
  (forall v, P v -> v <= lo + 8)%N -> uniq output -> (forall v, v \in output -> (0 < v <= lo)%N /\ ~~ P v) ->
  (forall i, (i < 8)%N -> P (lo + i).+1) -> stable P pre ->
  (forall x k, pre x k -> exists Hout, final_ok x lo Hout) ->
  gok P (iota (lo + 8).+1 8 ++ output ++ fresh_vars pb0 pb1) (fun pb => ofold (fun pb g => lastbits_witness R g pb) pb gs)
    (flatten [seq lastbits_constraints r | r <- gs]) pre.
Proof.
move=> hw hR ho z0 [e] hN hb hu hou hX hst hpre.
have aall := reduce_alloc hw e; have sall := allocates_size aall.
set M := fun (ts : seq nat) pb => iota (lo + 8).+1 (size ts) ++ flatten [seq slice32 output i | i <- ts] ++ fresh_vars pb0 pb.
have hM : gok P (M (iota 0 8) pb1) (fun pb => ofold (fun pb g => lastbits_witness R g pb) pb gs)
    (flatten [seq lastbits_constraints r | r <- gs]) pre.
  apply: (@gok_new_all_st F slot N Ks nat _ _ (reduce_new lo output) (lastbits_witness R) (@lastbits_constraints F) M) (e) => //.
    by move=> v; rewrite /M /fresh_vars subnn.
  move=> ts1 t ts2 gs1 pb g pb' gs2 ets e1 e2 e3 egs _; clear e.
  have [ets1 [et lt]] := iota_split ets; rewrite add0n in et.
  have a1 := reduce_alloc hw e1; clear e1.
  move: e2; rewrite /reduce_new; case e2: (lastbits_new _ _ _ _ _) => [g' pb''] [eg epb]; rewrite eg epb in e2; clear eg epb.
  have a2 := lastbits_alloc e2 (allocates_wf a1).
  have a3 := reduce_alloc (allocates_wf a2) e3; clear e3.
  have s1 := allocates_size a1; have s2 := allocates_size a2; have s3 := allocates_size a3.
  have hsz : size (slice32 output t) = 32%N by apply: size_slice32 ho _; rewrite et.
  set P' := [predU P & mem (M ts1 pb)].
  have inout i v : v \in slice32 output i -> v \in output by move=> /(mem_slice32 hu) [].
  have P'E v : P' v = [|| P v, (lo + 8 < v <= lo + 8 + t)%N, v \in flatten [seq slice32 output i | i <- ts1] |
        (sz pb0 < v <= sz pb)%N].
    rewrite /P' predUE /M !mem_cat (mem_fresh _ a1) mem_iota et; congr (_ || (_ || _)); clear; lia.
  have inflat v : v \in flatten [seq slice32 output i | i <- ts1] -> exists2 i, (i < t)%N & v \in slice32 output i.
    by move=> /flattenP [m /mapP [i]]; rewrite ets1 mem_iota add0n leq0n andTb -et => hi -> hv; exists i.
  exists (((lo + 8 + t).+1 :: slice32 output t) ++ fresh_vars pb pb'); split; last first.
    move=> v; rewrite /M size_rcons map_rcons -cats1 flatten_cat /= cats0 !(mem_cat, in_cons).
    rewrite (mem_fresh _ a1) (mem_fresh _ a2) (mem_fresh _ (allocates_trans a1 a2)) !mem_iota.
    move: (v \in flatten _) (v \in slice32 _ _) => b1 b2; rewrite et; clear - s1 s2; lia.
  have [] := @lastbits_gok F R slot N Ks P' pb _ _ _ _ g pb' e2 (allocates_wf a1) _ hR.
  - by rewrite hsz.
  - by clear - hN s3; lia.
  - move=> v; rewrite P'E => /or4P [/hb h|h|/inflat [i _ /inout /hou [h _]]|h]; move: h; rewrite -?et in lt *; clear - s1 z0 lt; lia.
  - split.
      have hus : uniq (slice32 output t) by rewrite /slice32 rev_uniq take_uniq // drop_uniq.
      rewrite cons_uniq hus andbT.
      by apply/negP => /inout /hou [h _]; move: h; clear; lia.
    move=> v; rewrite in_cons => /orP [/eqP ->|hv].
      split; first by clear - lt et s1 z0; lia.
      rewrite P'E !negb_or; apply/and4P; split.
      + by apply/negP => /hb; clear; lia.
      + by clear; lia.
      + by apply/negP => /inflat [i _ /inout /hou [h _]]; move: h; clear; lia.
      by rewrite z0; clear - lt et; lia.
    have [h1 h2] := hou _ (inout _ _ hv); split; first by clear - h1 s1 z0; lia.
    rewrite P'E !negb_or h2 andTb; apply/and3P; split.
    + by clear - h1; lia.
    + apply/negP => /inflat [i hi hvi]; have [_ h3] := mem_slice32 hu hvi; have [_ h4] := mem_slice32 hu hv.
      by move: h3 h4 hi; move: (index v output); clear; lia.
    by rewrite z0; clear - h1; lia.
  - by rewrite P'E hX // et.
  - by [].
  move=> _ h; apply: (gok_pre h) => x k _ _ [hp _]; have [Hout hf] := hpre _ _ hp.
  rewrite -et in lt; have [n [n1 n2 _]] := hf t lt; by exists n.
have ou v : v \in iota (lo + 8).+1 8 ++ output ++ fresh_vars pb0 pb1 -> (0 < v <= N)%N /\ ~~ P v.
  rewrite !mem_cat mem_iota (mem_fresh _ aall) z0 => /or3P [h|/hou [h1 h2]|h].
  - split; [by clear - h hN sall z0; lia|by apply/negP => /hb; clear - h; lia].
  - split; [by clear - h1 hN sall z0; lia|exact: h2].
  split; [by clear - h hN; lia|by apply/negP => /hb; clear - h; lia].
apply: (gok_conv hM) => //.
move: (iota 0 8) (size_iota 0 8) => ts hts v; rewrite /M hts !mem_cat => /or3P [h|h|h]; [by rewrite h| |by rewrite h !orbT].
move: h => /flattenP [m /mapP [i _ ->] hv].
by have [hvo _] := mem_slice32 hu hv; rewrite hvo orbT.
Qed.

Lemma compression_gok P pb0 prev new_block output g pb1 : pb_wf pb0 -> (2 ^ (32 + 3) <= fp_order R)%N ->
  size prev = (32 * 8)%N -> size new_block = (32 * 16)%N -> size output = (32 * 8)%N ->
  compression_new pb0 prev new_block output = Ok (g, pb1) ->
  (sz pb1 <= N)%N -> below pb0 P -> outs pb0 P output -> inps P prev -> all P new_block ->
  allocates pb0 pb1 /\
  gok P (output ++ fresh_vars pb0 pb1) (compression_witness R g) (compression_constraints g)
    (fun x k => bits_ready prev x k /\ all_bits (plcs new_block) x k).
Proof.
move=> hw hR hp hb ho e hN hbl [hu hou] hip hPb.
have [pb2 [pb3 [sd [rs [st1 [pb5 [red]]]]]]] := compression_inv hw hR hp hb ho e; clear e.
case=> -[a1 z1] [e2 a2] [e3 a3] [a4 z4 e4 a5] ->.
set lo := sz (st_pb st1) in z4 e4 *; set pW := iota (sz pb0).+1 64 in e2 e3.
have aall := allocates_trans (allocates_trans a1 a2) (allocates_trans a3 (allocates_trans a4 a5)).
split; first exact: aall.
have s2 := allocates_size a2; have s3 := allocates_size a3; have s5 := allocates_size a5; rewrite -/lo in s3.
have sW : size pW = 64%N by rewrite size_iota.
have mW v : (v \in pW) = (sz pb0 < v <= sz pb2)%N by rewrite mem_iota z1; clear; lia.
have h34 : (2 ^ (32 + 2) <= fp_order R)%N by apply: leq_trans hR; rewrite !expnD; clear; lia.
have h33 : (2 ^ (32 + 1) <= fp_order R)%N by apply: leq_trans hR; rewrite !expnD; clear; lia.
set pre := fun x k => bits_ready prev x k /\ all_bits (plcs new_block) x k.
have hib : inps P (plcs new_block).
  by apply: inps_vars; apply: sub_all hPb => v hv; rewrite hv andbT; have := hbl v hv; clear - hN s2 s3 s5 z1 z4; lia.
have hst : stable P pre by apply: stable_and; [exact: stable_ready|exact: stable_bits].
have g1 : gok P (pW ++ fresh_vars pb2 pb3) (schedule_witness R sd) (schedule_constraints sd) pre.
  have h : gok P (pW ++ fresh_vars pb2 pb3) (schedule_witness R sd) (schedule_constraints sd) (all_bits (plcs new_block)).
    apply: (@schedule_gok F R slot N Ks P pb2 new_block pW sd pb3 (allocates_wf a1) hb sW h34 (unhid e2) _ _ _ hPb).
    - by clear - hN s3 s5 z4; lia.
    - by move=> v /hbl; clear - z1; lia.
    split; first exact: iota_uniq.
    move=> v; rewrite mW => hv; split; first by clear - hv; lia.
    by apply/negP => /hbl; clear - hv; lia.
  by apply: (gok_pre h) => x k _ _ [].
have st1' := stable_next g1 hst.
set P1 := [predU P & mem (pW ++ fresh_vars pb2 pb3)] in st1'.
have P1E v : P1 v = P v || (sz pb0 < v <= sz pb3)%N.
  by rewrite /P1 predUE mem_cat mW (mem_fresh _ a2); congr (_ || _); clear - s2 z1; lia.
have g2 : gok P1 (fresh_vars pb3 (st_pb st1)) (fun pb => ofold (fun pb g => round_witness R g pb) pb rs)
    (flatten (map (@round_constraints F) rs)) (fun x k => pre x k /\ holds (schedule_constraints sd) x).
  apply: (rounds_gok (allocates_wf a2) (erefl : st_pb (start_state prev pb3) = pb3) (start_src pb3 pb3 hp) sW hR e3 _ _ _ _ st1').
  - by rewrite -/lo; clear - hN s5 z4; lia.
  - by move=> v; rewrite P1E => /orP [/hbl|]; clear - s2 z1; lia.
  - by apply: inps_sub hip => v h; rewrite P1E h.
  - by apply/allP => v; rewrite P1E mW; clear - s2; lia.
  move=> x k [[hbr hbb] hh]; split; first exact: hbr.
  have [_ hW] := schedule_sound (allocates_wf a1) hb sW h34 (unhid e2) hbb hh.
  by have h0 := start_is pb3 hp (ready_bits hbr); eexists; exists (schedule (words_of_bits 16 (bools x (plcs new_block)))); split; [exact: h0|exact: hW].
have st2 := stable_next g2 st1'.
set P2 := [predU P1 & mem (fresh_vars pb3 (st_pb st1))] in st2.
have P2E v : P2 v = P v || (sz pb0 < v <= lo)%N.
  by rewrite /P2 predUE P1E (mem_fresh _ a3) -/lo; case: (P v) => //=; clear - s2 s3 z1; lia.
have hrs : size rs = 64%N by rewrite (new_all_size (unhid e3)) size_iota.
have hvars := rounds_vars (allocates_wf a2) (erefl : st_pb (start_state prev pb3) = pb3) (start_src pb3 pb3 hp) sW hR e3.
set G := Compression sd rs (iota lo.+1 8) (iota (lo + 8).+1 8) red.
have g3 : gok P2 (iota lo.+1 8) (fun pb => ofold (final_sum_witness G) pb (iota 0 4)) (flatten [seq final_sum G i | i <- iota 0 4])
   (fun x k => (pre x k /\ holds (schedule_constraints sd) x) /\ holds (flatten (map (@round_constraints F) rs)) x).
  apply: final_gok => //.
  - by clear - hN s5 z4; lia.
  - by move=> v hv; rewrite P2E negb_or; apply/andP; split; [apply/negP => /hbl; clear - hv s2 s3 z1; lia|clear - hv; lia].
  apply: sub_all hvars => Gr; apply: sub_all => v; rewrite P2E -/lo => hv.
  by apply/andP; split; [clear - hv hN s5 z4; lia|apply/orP; right; clear - hv s2 z1; lia].
have st3 := stable_next g3 st2.
set P3 := [predU P2 & mem (iota lo.+1 8)] in st3.
have P3E v : P3 v = P v || (sz pb0 < v <= lo + 8)%N.
  by rewrite /P3 predUE P2E mem_iota; case: (P v) => //=; clear - s2 s3 z1; lia.
have g4 : gok P3 (iota (lo + 8).+1 8 ++ output ++ fresh_vars pb5 pb1) (fun pb => ofold (fun pb g => lastbits_witness R g pb) pb red)
   (flatten [seq lastbits_constraints r | r <- red])
   (fun x k => ((pre x k /\ holds (schedule_constraints sd) x) /\ holds (flatten (map (@round_constraints F) rs)) x) /\
       holds (flatten [seq final_sum G i | i <- iota 0 4]) x).
  apply: (reduce_gok (allocates_wf a4) h33 ho z4 e4 hN _ hu _ _ st3).
  - by move=> v; rewrite P3E => /orP [/hbl|]; clear - s2 s3 z1; lia.
  - move=> v /hou [h1 h2]; split; first by clear - h1 s2 s3 z1; lia.
    by rewrite P3E negb_or h2; clear - h1; lia.
  - by move=> i hi; rewrite P3E; apply/orP; right; clear - hi s2 s3 z1; lia.
  move=> x k [[[[hbr hbb] hc1] hc2] hc3]; eexists.
  exact: (compression_sound_mid hw hR hp hb a1 e2 a2 e3 (ready_bits hbr) hbb hc1 hc2 hc3).
have g34 := gok_seq g3 st2 g4; have g234 := gok_seq g2 st1' g34; have gall := gok_seq g1 hst g234.
have mall v := mem_fresh v aall.
apply: (gok_conv gall).
- by [].
- move=> v; rewrite mem_cat mall => /orP [/hou [h1 h2]|h]; split.
  + by clear - h1 hN s2 s3 s5 z1 z4; lia.
  + exact: h2.
  + by clear - h hN; lia.
  by apply/negP => /hbl; clear - h; lia.
- move=> v; rewrite !mem_cat mW mall !mem_fresh // !mem_iota -/lo z4.
  move: (v \in output) => bo; clear - hN s2 s3 s5 z1 z4; lia.
- by [].
- exact: (fun _ hc => hc).
by [].
Qed.
End Gok.
End Compress.
