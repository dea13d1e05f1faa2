(** Facts about the message schedule gadget of sha256_components: the whole
    schedule. *)
From Coq Require Import NArith.
From mathcomp Require Import all_ssreflect all_algebra zify.
From Verif Require Import Outcome Lincomb LincombSpec LincombFacts R1CS R1CSSpec R1CSFacts Fieldtac.
From Verif Require Import Protoboard GadgetSpec GadgetLogic BasicGadgets BasicGadgetsFacts BasicGadgetsMore GadgetNew.
From Verif Require Import Sha256Spec Sha256Bits Sha256Gadget GadgetSeq Sha256Facts Sha256Word Sha256Word2 Sha256Sched.
Set Implicit Arguments.
Unset Strict Implicit.
Unset Printing Implicit Defensive.
Local Open Scope ring_scope.
Import GRing.Theory.
Delimit Scope N_scope with num.
Local Opaque allocate_array iota.

Section Sched2.
Variable F : fieldType.
Variable R : bigint_repr F.
Add Field Ff5 : (Fth F).
Implicit Types (x k : seq F) (pb : protoboard F) (P : pred nat).
Local Notation plcs := (plcs_of_vars F).
Local Notation plc := (plc_of_var F).
Local Notation wval := (wval F).

Lemma zip_iota (T U : Type) (f : nat -> T) (g : nat -> U) n :
  zip [seq f i | i <- iota 0 n] [seq g i | i <- iota 0 n] = [seq (f i, g i) | i <- iota 0 n].
Proof. by elim: (iota 0 n) => //= i s ->. Qed.

Lemma schedule_inv pb0 M packed_W g pb1 : size M = (32 * 16)%N -> size packed_W = 64%N ->
  schedule_new pb0 M packed_W = Ok (g, pb1) ->
  exists gs Wb, hid (new_all (@schedule_step_new F packed_W) (iota 16 48) ([seq slice32 M i | i <- iota 0 16], pb0) = Ok (gs, (Wb, pb1))) /\
   g = ScheduleGadget [seq Packing (plcs (slice32 M i)) (plc (nth 0%N packed_W i)) | i <- iota 0 16] gs.
Proof.
move=> hM hW; rewrite /schedule_new.
rewrite (@omapm_Ok _ _ _ (fun i => slice32 M i)); last by move=> i /In_iota hi; apply: (@rslice_ok _ M 16).
rewrite (@omapm_Ok _ _ _ (fun i => nth 0%N packed_W i)); last first.
  by move=> i /In_iota hi; rewrite (oget_nth 0%N) // hW; lia.
rewrite 2!obindE => h; have {h} [[gs [Wb pb2]] e [<- <-]] := obind_Ok h.
exists gs, Wb; split; first exact: Hid.
by rewrite zip_iota -map_comp.
Qed.

Definition spec_word x (M : pb_variable_array) (j : nat) : word :=
  nth 0%num (schedule (words_of_bits 16 (bools x (plcs M)))) j.
Definition word_ok x (Wb : seq pb_variable_array) (packed_W : pb_variable_array) M (j : nat) : Prop :=
  is_word x (plcs (nth [::] Wb j)) (spec_word x M j) /\ xval x (nth 0%N packed_W j) = wval (spec_word x M j).

Lemma plcs_slice M i : plcs (slice32 M i) = slice32 (plcs M) i.
Proof. by rewrite slice32_map. Qed.

Lemma first_words x M packed_W : size M = (32 * 16)%N -> all (fun l => isbit (lval x l)) (plcs M) ->
  holds (flatten [seq packing_constraints p false | p <- [seq Packing (plcs (slice32 M i)) (plc (nth 0%N packed_W i)) | i <- iota 0 16]]) x ->
  forall j, (j < 16)%N -> word_ok x [seq slice32 M i | i <- iota 0 16] packed_W M j.
Proof.
move=> hM hb; rewrite -map_comp => /holds_flatten_iota hc j hj.
have hw : is_word x (plcs (slice32 M j)) (spec_word x M j).
  rewrite plcs_slice /spec_word schedule_low ?size_words //.
  by apply: (@slice_word F x (plcs M) 16); rewrite // size_map hM.
rewrite /word_ok (nth_map 0%N) ?size_iota // nth_iota //; split=> //.
by have := packing_word (hc j hj) hw; rewrite lval_var.
Qed.

(** What the loop of constructors has made after [n] steps. *)
Definition sched_state pb0 M packed_W n (gs : seq (schedule_step F)) (s : seq pb_variable_array * protoboard F) : Prop :=
  [/\ allocates pb0 s.2, size s.1 = (16 + n)%N, all (fun W => size W == 32%N) s.1,
      (forall j, (j < 16)%N -> nth [::] s.1 j = slice32 M j) /\
      (forall j v, (16 <= j)%N -> v \in nth [::] s.1 j -> v \in fresh_vars pb0 s.2) &
      forall x, (forall j, (j < 16)%N -> word_ok x [seq slice32 M i | i <- iota 0 16] packed_W M j) ->
        holds (flatten (map (@schedule_step_constraints F) gs)) x ->
        forall j, (j < 16 + n)%N -> word_ok x s.1 packed_W M j].
Lemma words_in x Wb packed_W M i : (16 <= i < 64)%N ->
  (forall j, (j < i)%N -> word_ok x Wb packed_W M j) ->
  step_in x (nth [::] Wb (i - 15)) (nth [::] Wb (i - 2)) (nth 0%N packed_W (i - 16)) (nth 0%N packed_W (i - 7))
    (spec_word x M (i - 15)) (spec_word x M (i - 2)) (spec_word x M (i - 16)) (spec_word x M (i - 7)).
Proof.
move=> hi h.
have [|h15 _] := h (i - 15)%N; first by lia.
have [|h2 _] := h (i - 2)%N; first by lia.
have [|h16 e16] := h (i - 16)%N; first by lia.
have [|h7 e7] := h (i - 7)%N; first by lia.
split; [exact: h15|exact: h2|by split|exact: is_word_lt h16|exact: is_word_lt h7].
Qed.
Lemma spec_word_high x M i : (16 <= i < 64)%N ->
  spec_word x M i = step_out (spec_word x M (i - 15)) (spec_word x M (i - 2)) (spec_word x M (i - 16)) (spec_word x M (i - 7)).
Proof. by move=> hi; rewrite /spec_word schedule_high ?size_words. Qed.

Lemma sched_state0 pb0 M packed_W : pb_wf pb0 -> size M = (32 * 16)%N ->
  sched_state pb0 M packed_W 0 [::] ([seq slice32 M i | i <- iota 0 16], pb0).
Proof.
move=> hw hM; split.
- exact: allocates_refl.
- by rewrite size_map size_iota.
- apply/allP => W /mapP [i]; rewrite mem_iota => hi ->; apply/eqP; exact: (size_slice32 hM).
- split=> [j hj|j v hj]; first by rewrite (nth_map 0%N) ?size_iota // nth_iota.
  by rewrite nth_default // size_map size_iota.
by move=> x h _ j hj; apply: h.
Qed.
Lemma sched_stateS pb0 M packed_W n gs s g s' : (n < 48)%N -> size packed_W = 64%N -> (2 ^ (32 + 2) <= fp_order R)%N ->
  sched_state pb0 M packed_W n gs s -> schedule_step_new packed_W (16 + n) s = Ok (g, s') ->
  sched_state pb0 M packed_W n.+1 (rcons gs g) s'.
Proof.
case: s => Wb pb; case: s' => Wb' pb' hn hPW hR [/= a1 sW hall [h1 h2] hso] e.
have hi1 : (16 <= 16 + n)%N by lia.
have hi2 : (16 + n < size packed_W)%N by lia.
have hi3 : (16 + n <= size Wb)%N by lia.
have [pb2 [pb3 [pb4 [pb5 [c0 [c1 [red [[b1 b2 b3 b4 b5] [z2 z5] n1 n2 [n3 [eg eW]]]]]]]]]] :=
  schedule_step_inv (allocates_wf a1) hi1 hi2 hi3 hall e.
have b13 := allocates_trans b1 (allocates_trans b2 b3).
have b15 := allocates_trans b13 (allocates_trans b4 b5).
have hnth j : nth [::] Wb' j = if (j < size Wb)%N then nth [::] Wb j else if j == size Wb then iota (size (pb_values pb4)).+2 32 else [::].
  by rewrite eW nth_rcons.
split.
- exact: allocates_trans a1 b15.
- by rewrite eW size_rcons sW addnS.
- by rewrite eW all_rcons hall andbT size_iota.
- split=> [j hj|j v hj].
    by rewrite hnth sW ltn_addr ?h1.
  rewrite hnth; case: ifP => [_ hv|_].
    have := h2 _ _ hj hv; rewrite (mem_fresh _ a1) (mem_fresh _ (allocates_trans a1 b15)) /=.
    by have := allocates_size b15; clear; lia.
  case: ifP => // _; rewrite mem_iota (mem_fresh _ (allocates_trans a1 b15)) /=.
  have := allocates_size a1; have := allocates_size b13; have := allocates_size b5; rewrite z5; clear; lia.
move=> x h16; rewrite map_rcons -cats1 flatten_cat /= cats0 => /holds_cat [hg1 hg2].
have hp := hso x h16 hg1.
have hi : (16 <= 16 + n < 64)%N by clear - hn; lia.
have [w1 w2] := schedule_step_sound (allocates_wf a1) hR hi1 hi2 hi3 hall e (words_in (x := x) (M := M) hi hp) hg2.
move=> j; rewrite addnS ltnS leq_eqVlt => /orP [/eqP ->|hj].
  by rewrite /word_ok spec_word_high //; rewrite sW in w1.
by have := hp j hj; rewrite /word_ok hnth sW hj.
Qed.
Lemma sched_state_all pb0 M packed_W ts gs s : pb_wf pb0 -> size M = (32 * 16)%N -> size packed_W = 64%N ->
  (2 ^ (32 + 2) <= fp_order R)%N ->
  (exists ts2, iota 16 48 = ts ++ ts2) ->
  hid (new_all (@schedule_step_new F packed_W) ts ([seq slice32 M i | i <- iota 0 16], pb0) = Ok (gs, s)) ->
  sched_state pb0 M packed_W (size ts) gs s.
Proof.
move=> hw hM hPW hR [ts2 ets] [e]; move: e.
apply: (new_all_ind (Inv := fun ts gs s => sched_state pb0 M packed_W (size ts) gs s)); first exact: sched_state0.
move=> ts1 t ts3 gs1 u g u' ets1 _ IH e.
have ets' : iota 16 48 = ts1 ++ t :: (ts3 ++ ts2) by rewrite ets ets1 -catA.
have [_ [et lt]] := iota_split ets'.
by rewrite size_rcons; rewrite et in e; apply: sched_stateS IH e.
Qed.

Lemma sched_step_alloc pb0 M packed_W n gs s g s' : (n < 48)%N -> size packed_W = 64%N ->
  sched_state pb0 M packed_W n gs s -> schedule_step_new packed_W (16 + n) s = Ok (g, s') -> allocates s.2 s'.2.
Proof.
case: s => Wb pb; case: s' => Wb' pb' hn hPW [/= a1 sW hall _ _] e.
have hi1 : (16 <= 16 + n)%N by lia.
have hi2 : (16 + n < size packed_W)%N by lia.
have hi3 : (16 + n <= size Wb)%N by lia.
have [pb2 [pb3 [pb4 [pb5 [c0 [c1 [red [[b1 b2 b3 b4 b5] _ _ _ _]]]]]]]] :=
  schedule_step_inv (allocates_wf a1) hi1 hi2 hi3 hall e.
exact: allocates_trans (allocates_trans b1 (allocates_trans b2 b3)) (allocates_trans b4 b5).
Qed.
Lemma sched_rest pb0 M packed_W ts1 ts2 gs s gs2 s1 : (2 ^ (32 + 2) <= fp_order R)%N -> size packed_W = 64%N ->
  sched_state pb0 M packed_W (size ts1) gs s -> iota 16 48 = ts1 ++ ts2 ->
  hid (new_all (@schedule_step_new F packed_W) ts2 s = Ok (gs2, s1)) -> allocates s.2 s1.2.
Proof.
move=> hR hPW h0 ets [e].
suff [] : allocates s.2 s1.2 /\ exists gs', sched_state pb0 M packed_W (size ts1 + size ts2) gs' s1 by [].
move: e; apply: (new_all_ind (Inv := fun ts _ u => allocates s.2 u.2 /\
   exists gs', sched_state pb0 M packed_W (size ts1 + size ts) gs' u)).
  by split; [apply: allocates_refl; case: h0 => a1 *; apply: allocates_wf a1|exists gs; rewrite addn0].
move=> ts3 t ts4 gs3 u g u' ets3 _ [a1 [gs' IH]] e.
have ets' : iota 16 48 = (ts1 ++ ts3) ++ t :: ts4 by rewrite ets ets3 catA.
have [_ [et lt]] := iota_split ets'; rewrite size_cat in et lt; rewrite et in e.
split; first exact: allocates_trans a1 (sched_step_alloc lt hPW IH e).
by rewrite size_rcons addnS; exists (rcons gs' g); apply: sched_stateS IH e.
Qed.

Lemma schedule_sound pb0 M packed_W g pb1 x : pb_wf pb0 -> size M = (32 * 16)%N -> size packed_W = 64%N ->
  (2 ^ (32 + 2) <= fp_order R)%N ->
  schedule_new pb0 M packed_W = Ok (g, pb1) -> all (fun l => isbit (lval x l)) (plcs M) ->
  holds (schedule_constraints g) x ->
  allocates pb0 pb1 /\ forall j, (j < 64)%N ->
    xval x (nth 0%N packed_W j) = wval (spec_word x M j) /\ (N.to_nat (spec_word x M j) < 2 ^ 32)%N.
Proof.
move=> hw hM hPW hR e hb; have [gs [Wb [en ->]]] := schedule_inv hM hPW e; clear e.
move=> /holds_cat [hc1 hc2]; have h16 := first_words hM hb hc1.
have [|a1 _ _ _ hs] := sched_state_all hw hM hPW hR _ en; first by exists [::]; rewrite cats0.
split=> // j hj; have [|h1 h2] := hs x h16 hc2 j; first by rewrite size_iota.
by split=> //; apply: is_word_lt h1.
Qed.

Lemma schedule_alloc pb0 M packed_W g pb1 : pb_wf pb0 -> size M = (32 * 16)%N -> size packed_W = 64%N ->
  (2 ^ (32 + 2) <= fp_order R)%N -> schedule_new pb0 M packed_W = Ok (g, pb1) -> allocates pb0 pb1.
Proof.
move=> hw hM hPW hR e; have [gs [Wb [en _]]] := schedule_inv hM hPW e; clear e.
by have [|a1 _ _ _ _] := sched_state_all hw hM hPW hR _ en; first by exists [::]; rewrite cats0.
Qed.

Section Gok.
Variable slot : nat -> linear_combination F.
Variables N K : nat.
Local Notation gok := (gok slot N K).
Local Notation stable := (stable slot N K).

Lemma predUE P (m : seq nat) v : [predU P & mem m] v = P v || (v \in m). Proof. by []. Qed.
Lemma nth_take_uniq (s : seq nat) n i : uniq s -> (i < size s)%N -> (nth 0%N s i \in take n s) = (i < n)%N.
Proof. by move=> hu hi; rewrite in_take ?mem_nth // index_uniq. Qed.
Lemma flatten_seq1 (T : Type) (f : T -> nat) (s : seq T) : flatten [seq [:: f t] | t <- s] = map f s.
Proof. by elim: s => //= t s ->. Qed.

Lemma schedule_gok P pb0 M packed_W g pb1 : pb_wf pb0 -> size M = (32 * 16)%N -> size packed_W = 64%N ->
  (2 ^ (32 + 2) <= fp_order R)%N -> schedule_new pb0 M packed_W = Ok (g, pb1) ->
  (size (pb_values pb1) <= N)%N -> below pb0 P -> outs pb0 P packed_W -> all P M ->
  gok P (packed_W ++ fresh_vars pb0 pb1) (schedule_witness R g) (schedule_constraints g) (all_bits (plcs M)).
Proof.
move=> hw hM hPW hR e hN hb [hu ho] hPM; have a1 := schedule_alloc hw hM hPW hR e; have s1 := allocates_size a1.
have [gs [Wb [en ->]]] := schedule_inv hM hPW e; clear e.
have hiM : inps slot N K P (plcs M).
  by apply: inps_vars; apply: sub_all hPM => v hv; rewrite hv andbT; have := hb v hv; lia.
have hst := stable_bits hiM.
have hPs i : all P (slice32 M i) by exact: slice32_all.
(* the packing of the first words *)
have e16 : [seq nth 0%N packed_W i | i <- iota 0 16] = take 16 packed_W by rewrite map_nth_iota0 // hPW.
have h1 : gok P (take 16 packed_W)
  (fun pb => ofold (fun pb p => packing_witness_from_bits p pb) pb [seq Packing (plcs (slice32 M i)) (plc (nth 0%N packed_W i)) | i <- iota 0 16])
  (flatten [seq packing_constraints p false | p <- [seq Packing (plcs (slice32 M i)) (plc (nth 0%N packed_W i)) | i <- iota 0 16]])
  (all_bits (plcs M)).
  rewrite -e16 -flatten_seq1.
  apply: (@gok_map_loop F slot N K nat _ (fun i => Packing (plcs (slice32 M i)) (plc (nth 0%N packed_W i)))
    (@packing_witness_from_bits F) (fun p => packing_constraints p false) (fun i => [:: nth 0%N packed_W i])) => // ts1 t ts2 ets.
  have [ets1 [et lt]] := iota_split ets; rewrite add0n in et.
  have hin : nth 0%N packed_W t \in packed_W by rewrite mem_nth // hPW et; clear - lt; lia.
  have [o1 o2] := ho _ hin.
  apply: (gok_pre (gok_pack false _ _ _)).
  - apply: inps_vars; apply: sub_all (hPs t) => v hv; apply/andP; split; last by apply/orP; left.
    by have := hb v hv; clear - hN s1; lia.
  - by clear - o1 hN s1; lia.
  - rewrite predUE flatten_seq1 negb_or o2 andTb ets1 map_nth_iota0; last by rewrite hPW; clear - lt; lia.
    by rewrite nth_take_uniq // -?et; [rewrite et ltnn|rewrite hPW et; clear - lt; lia].
  by move=> x k _ _ hx; rewrite /all_bits plcs_slice; apply: slice32_all.
have st1 := stable_next h1 hst.
set P1 := [predU P & mem (take 16 packed_W)].
have P1W j : (j < 64)%N -> P1 (nth 0%N packed_W j) = (j < 16)%N.
  move=> hj; have [|_ o2] := ho (nth 0%N packed_W j); first by rewrite mem_nth // hPW.
  by rewrite /P1 predUE (negbTE o2) nth_take_uniq // hPW.
set mods := fun (ts : seq nat) (s : seq pb_variable_array * protoboard F) =>
  drop 16 (take (16 + size ts) packed_W) ++ fresh_vars pb0 s.2.
have h2 : gok P1 (mods (iota 16 48) (Wb, pb1)) (fun pb => ofold (fun pb s => schedule_step_witness R s pb) pb gs)
  (flatten (map (@schedule_step_constraints F) gs))
  (fun x k => all_bits (plcs M) x k /\ holds (flatten [seq packing_constraints p false | p <-
     [seq Packing (plcs (slice32 M i)) (plc (nth 0%N packed_W i)) | i <- iota 0 16]]) x).
  apply: (gok_new_all_st st1 _ _ (unhid en)).
  - move=> v; rewrite /mods addn0 /fresh_vars subnn cats0 drop_oversize // size_take hPW //.
  move=> ts1 t ts2 gs1 [Wb1 pb] g' [Wb' pb'] gs2 ets n1 n2 n3 egs hstb.
  have [ets1 [et lt]] := iota_split ets.
  have [|b1 sW hall [hlow hhigh] hso] := sched_state_all hw hM hPW hR _ (Hid n1); first by exists (t :: ts2).
  rewrite /= in b1 sW hall hlow hhigh hso *.
  have hS1 := sched_stateS lt hPW hR (sched_state_all hw hM hPW hR (ex_intro _ _ ets) (Hid n1)).
  have hS0 := sched_state_all hw hM hPW hR (ex_intro _ _ ets) (Hid n1).
  have n2' := n2; rewrite et in n2'.
  have b2 := sched_step_alloc lt hPW hS0 n2'; have {}hS1 := hS1 _ _ n2'.
  have b3 := @sched_rest _ _ _ (rcons ts1 t) ts2 _ _ _ _ hR hPW _ _ (Hid n3).
  have {}b3 := b3 pb0 M (rcons gs1 g'); rewrite size_rcons in b3; have {}b3 := b3 hS1.
  rewrite cat_rcons in b3; have {hS1 n2' hS0 n1 n3} b3 := b3 ets; rewrite /= in b2 b3.
  have hN' : (size (pb_values pb') <= N)%N by have := allocates_size b3; clear - hN; lia.
  have sb1 := allocates_size b1; have sb2 := allocates_size b2.
  have hPm v : [predU P1 & mem (mods ts1 (Wb1, pb))] v =
     [|| P v, v \in take t packed_W | (size (pb_values pb0) < v <= size (pb_values pb))%N].
    rewrite 2!predUE mem_cat mem_fresh // et; case: (P v) => //=; rewrite orbA; congr (_ || _).
    rewrite -[X in _ = (v \in X)](cat_take_drop 16 (take (16 + size ts1) packed_W)) mem_cat.
    by rewrite take_take // leq_addr.
  have htW : (t < size packed_W)%N by rewrite hPW et; clear - lt; lia.
  have hin : nth 0%N packed_W t \in packed_W by rewrite mem_nth.
  have [o1 o2] := ho _ hin.
  have hsub v : P v -> [predU P1 & mem (mods ts1 (Wb1, pb))] v by rewrite hPm => ->.
  have hWb j : (j < t)%N -> all [predU P1 & mem (mods ts1 (Wb1, pb))] (nth [::] Wb1 j).
    move=> hj; case: (ltnP j 16) => h16; first by rewrite hlow //; apply: sub_all (hPs j); exact: hsub.
    by apply/allP => v /(hhigh _ _ h16); rewrite hPm mem_fresh // => ->; rewrite !orbT.
  exists (nth 0%N packed_W t :: fresh_vars pb pb'); split.
    apply: (step_gok (R := R) (allocates_wf b1) hR _ htW _ hall n2 hN').
    - by rewrite et leq_addr.
    - by rewrite et sW.
    - move=> v; rewrite hPm => /or3P [/hb h|/mem_take /ho [h _]|h]; clear - h sb1; lia.
    - apply: outs1; first by clear - o1 sb1; lia.
      by rewrite hPm (negbTE o2) nth_take_uniq // ltnn; clear - o1; lia.
    - by apply: hWb; rewrite et; clear; lia.
    - by apply: hWb; rewrite et; clear; lia.
    - by rewrite hPm nth_take_uniq; [apply/or3P; apply: Or32; clear - et; lia|by []|exact: leq_ltn_trans (leq_subr _ _) htW].
    - by rewrite hPm nth_take_uniq; [apply/or3P; apply: Or32; clear - et; lia|by []|exact: leq_ltn_trans (leq_subr _ _) htW].
    - exact: hstb.
    move=> x k [[hx1 hx2] hx3]; have h16 := first_words hM hx1 hx2; have hall' := hso x h16 hx3.
    do 4!eexists; apply: words_in => [|j hj]; last by apply: hall'; rewrite -et.
    by rewrite et; clear - lt; lia.
  move=> v; rewrite [in RHS]mem_cat in_cons /mods size_rcons /= addnS (take_nth 0%N); last by rewrite -et.
  rewrite drop_rcons; last first.
    have et' : (16 + size ts1 <= size packed_W)%N by rewrite -et; apply: ltnW.
    by rewrite (size_takel et') leq_addr.
  rewrite !mem_cat mem_rcons in_cons -et !mem_fresh //; last exact: allocates_trans b1 b2.
  by case: (v == _); case: (v \in drop _ _) => //=; clear - sb1 sb2; lia.
apply: (gok_conv (gok_seq h1 hst h2)) => //.
- by have [] := outs_fresh (N := N) a1 hb (conj hu ho) hN.
move=> v; rewrite /mods size_iota catA [in X in X -> _]mem_cat [in X in _ -> X]mem_cat; have -> : (16 + 48)%N = size packed_W by rewrite hPW.
by rewrite take_size cat_take_drop.
Qed.
End Gok.
End Sched2.
