(** Facts about the loop of rounds of the compression function gadget. *)
From Coq Require Import NArith.
From mathcomp Require Import all_ssreflect all_algebra zify.
From Verif Require Import Outcome Lincomb LincombSpec LincombFacts R1CS R1CSSpec R1CSFacts Fieldtac.
From Verif Require Import Protoboard GadgetSpec GadgetLogic BasicGadgets BasicGadgetsFacts BasicGadgetsMore GadgetNew.
From Verif Require Import Sha256Spec Sha256Bits Sha256Gadget GadgetSeq Sha256Facts Sha256Word Sha256Word2 Sha256Sched Sha256Sched2 Sha256Round.
Set Implicit Arguments.
Unset Strict Implicit.
Unset Printing Implicit Defensive.
Local Open Scope ring_scope.
Import GRing.Theory.
Delimit Scope N_scope with num.
Local Opaque allocate_array iota.

(** * The specification *)
Lemma foldl_ext (A B : Type) (f g : A -> B -> A) (l : seq B) a : (forall a b, f a b = g a b) -> foldl f a l = foldl g a l.
Proof. by move=> h; elim: l a => //= b l IH a; rewrite h IH. Qed.
Lemma roundsE s W n : rounds s W n = foldl (fun s t => round s (nth 0%num K256 t) (nth 0%num W t)) s (iota 0 n).
Proof. by rewrite /rounds std_fold std_seq; apply: foldl_ext => a b; rewrite !std_nth. Qed.
Lemma rounds0 s W : rounds s W 0 = s. Proof. by rewrite roundsE. Qed.
Lemma roundsS s W n : rounds s W n.+1 = round (rounds s W n) (nth 0%num K256 n) (nth 0%num W n).
Proof. by rewrite !roundsE -addn1 iotaD foldl_cat add0n. Qed.
Lemma SHA256_K_ok : SHA256_K = K256. Proof. by vm_compute. Qed.
Lemma K256_size : size K256 = 64%N. Proof. by vm_compute. Qed.
Lemma lt_word (k : N) : N.ltb k 4294967296 -> (N.to_nat k < 2 ^ 32)%N.
Proof. by move/N.ltb_spec0 => h; lia. Qed.

Section Rounds.
Variable F : fieldType.
Variable R : bigint_repr F.
Add Field Ff7 : (Fth F).
Implicit Types (x : seq F) (pb : protoboard F) (P : pred nat).
Local Notation plcs := (plcs_of_vars F).
Local Notation plc := (plc_of_var F).
Local Notation wval := (wval F).
Local Notation arr := (pb_linear_combination_array F).
Local Notation sz pb := (size (pb_values pb)).

Lemma K256_lt n : (n < 64)%N -> (N.to_nat (nth 0%num K256 n) < 2 ^ 32)%N.
Proof.
move=> hn; apply: lt_word; have h : all (fun k => N.ltb k 4294967296) K256 by vm_compute.
by apply: (all_nthP 0%num h); rewrite K256_size.
Qed.

Definition st_is x (st : round_state F) (S : working) : Prop :=
  is_state x (st_a st) (st_b st) (st_c st) (st_d st) (st_e st) (st_f st) (st_g st) (st_h st) S.
(** Where the arrays of the state come from: the previous output or fresh
    variables. *)
Definition src (prev : arr) pb0 pb (l : arr) : Prop :=
  size l = 32%N /\ ((exists2 i, (i < 8)%N & l = slice32 prev i) \/
                    exists2 vs, l = plcs vs & {subset vs <= fresh_vars pb0 pb}).
Definition st_src prev pb0 (st : round_state F) : Prop :=
  [/\ [/\ src prev pb0 (st_pb st) (st_a st), src prev pb0 (st_pb st) (st_b st),
          src prev pb0 (st_pb st) (st_c st) & src prev pb0 (st_pb st) (st_d st)] &
      [/\ src prev pb0 (st_pb st) (st_e st), src prev pb0 (st_pb st) (st_f st),
          src prev pb0 (st_pb st) (st_g st) & src prev pb0 (st_pb st) (st_h st)]].
Lemma src_le prev pb0 pb pb' l : allocates pb0 pb -> allocates pb pb' -> src prev pb0 pb l -> src prev pb0 pb' l.
Proof.
move=> a1 a2 [h1 h2]; split=> //; case: h2 => [|[vs e h]]; [by left|right; exists vs => // v /h].
rewrite !mem_fresh //; last exact: allocates_trans a1 a2.
by have := allocates_size a2; clear; lia.
Qed.

(** The new arrays of a round. *)
Lemma round_step_inv packed_W i st G st' : pb_wf (st_pb st) -> size packed_W = 64%N -> (i < 64)%N ->
  size (st_a st) = 32%N -> size (st_e st) = 32%N ->
  round_step_new packed_W i st = Ok (G, st') ->
  exists pb2, let s := sz (st_pb st) in let new_a := iota s.+1 32 in let new_e := iota (s + 32).+1 32 in
  [/\ allocates (st_pb st) pb2, sz pb2 = (s + 64)%N, allocates pb2 (st_pb st'),
      hid (round_new pb2 (st_a st) (st_b st) (st_c st) (st_d st) (st_e st) (st_f st) (st_g st) (st_h st)
            (nth 0%N packed_W i) (nth 0%num K256 i) new_a new_e = Ok (G, st_pb st')) &
      st' = RoundState (plcs new_a) (st_a st) (st_b st) (st_c st) (plcs new_e) (st_e st) (st_f st) (st_g st) (st_pb st')].
Proof.
move=> hw hW hi sa se.
have gW : oget packed_W i = Ok (nth 0%N packed_W i) by apply: oget_nth; rewrite hW.
have gK : oget K256 i = Ok (nth 0%num K256 i) by apply: oget_nth; rewrite K256_size.
rewrite /round_step_new.
case e1: (allocate_array (st_pb st) 32) => [na q1]; have [a1 n1 z1] := allocate_array_new hw e1; clear e1.
case e2: (allocate_array q1 32) => [ne pb2]; have [a2 n2 z2] := allocate_array_new (allocates_wf a1) e2; clear e2.
have a12 := allocates_trans a1 a2.
rewrite SHA256_K_ok gW 1!obindE gK 1!obindE => H.
have {H} [[G' pb1] e3 [<- <-]] := obind_Ok H.
rewrite z1 in n2; rewrite n1 n2 in e3 *.
have [pb3 [pb4 [pb5 [pb6 [pb7 [pb8 [pb9 [pb10 [pb11 [c0 [c1 [cch [cmj [ra [re]]]]]]]]]]]]]]] := round_inv (allocates_wf a12) sa se e3.
case=> -[b1 [b2 b3] [b4 b5] [b6 b7] [b8 b9 b10]] _ _ _ _.
move/Hid: e3 => e3.
have d1 := allocates_trans (allocates_trans b1 (allocates_trans b2 b3)) (allocates_trans b4 b5).
have d2 := allocates_trans (allocates_trans b6 b7) (allocates_trans b8 (allocates_trans b9 b10)).
exists pb2; split.
- exact: a12.
- by rewrite z2 z1; clear; lia.
- exact: allocates_trans d1 d2.
- exact: e3.
reflexivity.
Qed.

Definition packed_ok x (gs : seq (round_gadget F)) (S0 : working) (Wl : seq word) (j : nat) : Prop :=
  [/\ xval x (nth 0%N (map (@rg_packed_d F) gs) j) = wval (vd (rounds S0 Wl j)),
      xval x (nth 0%N (map (@rg_packed_h F) gs) j) = wval (vh (rounds S0 Wl j)),
      xval x (nth 0%N (map (@rg_packed_a F) gs) j) = wval (va (rounds S0 Wl j.+1)) &
      xval x (nth 0%N (map (@rg_packed_e F) gs) j) = wval (ve (rounds S0 Wl j.+1))].

Definition rounds_inv prev pb0 packed_W st0 n (gs : seq (round_gadget F)) (st : round_state F) : Prop :=
  [/\ allocates pb0 (st_pb st), size gs = n, st_src prev pb0 st &
    forall x S0 Wl, st_is x st0 S0 ->
      (forall j, (j < 64)%N -> xval x (nth 0%N packed_W j) = wval (nth 0%num Wl j) /\ (N.to_nat (nth 0%num Wl j) < 2 ^ 32)%N) ->
      holds (flatten (map (@round_constraints F) gs)) x ->
      st_is x st (rounds S0 Wl n) /\ forall j, (j < n)%N -> packed_ok x gs S0 Wl j].

Lemma rounds_inv0 prev pb0 packed_W st0 : pb_wf pb0 -> st_pb st0 = pb0 -> st_src prev pb0 st0 ->
  rounds_inv prev pb0 packed_W st0 0 [::] st0.
Proof.
move=> hw e hs; split.
- by rewrite e; apply: allocates_refl.
- by [].
- exact: hs.
by move=> x S0 Wl h0 _ _; rewrite rounds0.
Qed.
Lemma src_fresh prev pb0 pb pb2 pb' lo : allocates pb0 pb -> allocates pb pb2 -> allocates pb2 pb' ->
  (sz pb <= lo)%N -> (lo + 32 <= sz pb2)%N -> src prev pb0 pb' (plcs (iota lo.+1 32)).
Proof.
move=> a1 a2 a3 h1 h2; split; first by rewrite size_map size_iota.
right; exists (iota lo.+1 32) => // v; rewrite mem_iota mem_fresh; last exact: allocates_trans a1 (allocates_trans a2 a3).
have := allocates_size a1; have := allocates_size a3; clear - h1 h2; lia.
Qed.
Lemma rounds_invS prev pb0 packed_W st0 n gs st G st' : (n < 64)%N -> size packed_W = 64%N ->
  (2 ^ (32 + 3) <= fp_order R)%N ->
  rounds_inv prev pb0 packed_W st0 n gs st -> round_step_new packed_W n st = Ok (G, st') ->
  rounds_inv prev pb0 packed_W st0 n.+1 (rcons gs G) st'.
Proof.
move=> hn hW hR [a1 sg hsrc hso] E; have w1 := allocates_wf a1.
have [[ra rb rc rd] [re rf rg rh]] := hsrc; have za := ra.1; have ze := re.1.
have [pb2 [b1 z2 b2 n1 es]] := round_step_inv w1 hW hn za ze E; clear E.
have b12 := allocates_trans b1 b2.
split.
- exact: allocates_trans a1 b12.
- by rewrite size_rcons sg.
- rewrite es; split; split; rewrite /=; try exact: (src_le a1 b12).
  + by apply: (src_fresh prev a1 b1 b2); rewrite ?z2; clear; lia.
  by apply: (src_fresh prev a1 b1 b2); rewrite ?z2; clear; lia.
move=> x S0 Wl h0 hWl; rewrite map_rcons -cats1 flatten_cat /= cats0 => /holds_cat [hg1 hg2].
have [hst hpk] := hso x S0 Wl h0 hWl hg1.
have [eW lW] := hWl n hn.
have [q1 q2 q3 q4 q5] := round_sound (allocates_wf b1) hR (size_iota _ _) (size_iota _ _) (K256_lt hn) (unhid n1) hst eW lW hg2.
rewrite -roundsS in q1 q4 q5; split; first by rewrite es; exact: q1.
move=> j; rewrite ltnS leq_eqVlt => /orP [/eqP ->|hj].
  by rewrite /packed_ok !map_rcons !nth_rcons !size_map sg ltnn eqxx.
by have := hpk j hj; rewrite /packed_ok !map_rcons !nth_rcons !size_map sg hj.
Qed.
Lemma rounds_inv_all prev pb0 packed_W st0 ts gs st : pb_wf pb0 -> st_pb st0 = pb0 -> st_src prev pb0 st0 ->
  size packed_W = 64%N -> (2 ^ (32 + 3) <= fp_order R)%N -> (exists ts2, iota 0 64 = ts ++ ts2) ->
  hid (new_all (round_step_new packed_W) ts st0 = Ok (gs, st)) ->
  rounds_inv prev pb0 packed_W st0 (size ts) gs st.
Proof.
move=> hw e0 hs hW hR [ts2 ets] [e]; move: e.
apply: (new_all_ind (Inv := fun ts gs s => rounds_inv prev pb0 packed_W st0 (size ts) gs s)); first exact: rounds_inv0.
move=> ts1 t ts3 gs1 u g u' ets1 _ IH e.
have ets' : iota 0 64 = ts1 ++ t :: (ts3 ++ ts2) by rewrite ets ets1 -catA.
have [_ [et lt]] := iota_split ets'.
by rewrite size_rcons; rewrite et in e; apply: rounds_invS IH e.
Qed.
Lemma rounds_rest prev pb0 packed_W st0 ts1 ts2 gs st gs2 st1 : (2 ^ (32 + 3) <= fp_order R)%N -> size packed_W = 64%N ->
  rounds_inv prev pb0 packed_W st0 (size ts1) gs st -> iota 0 64 = ts1 ++ ts2 ->
  hid (new_all (round_step_new packed_W) ts2 st = Ok (gs2, st1)) -> allocates (st_pb st) (st_pb st1).
Proof.
move=> hR hW h0 ets [e].
suff [] : allocates (st_pb st) (st_pb st1) /\ exists gs', rounds_inv prev pb0 packed_W st0 (size ts1 + size ts2) gs' st1 by [].
move: e; apply: (new_all_ind (Inv := fun ts _ u => allocates (st_pb st) (st_pb u) /\
   exists gs', rounds_inv prev pb0 packed_W st0 (size ts1 + size ts) gs' u)).
  by split; [apply: allocates_refl; case: h0 => a1 *; apply: allocates_wf a1|exists gs; rewrite addn0].
move=> ts3 t ts4 gs3 u g u' ets3 _ [a1 [gs' IH]] e.
have ets' : iota 0 64 = (ts1 ++ ts3) ++ t :: ts4 by rewrite ets ets3 catA.
have [_ [et lt]] := iota_split ets'; rewrite size_cat in et lt; rewrite et in e.
split; last by rewrite size_rcons addnS; exists (rcons gs' g); apply: rounds_invS IH e.
have [c1 _ [[ra _ _ _] [re _ _ _]] _] := IH.
have [pb2 [b1 _ b2 _ _]] := round_step_inv (allocates_wf c1) hW lt ra.1 re.1 e.
exact: allocates_trans a1 (allocates_trans b1 b2).
Qed.

(** Completeness of the loop. *)
Variable slot : nat -> linear_combination F.
Variables N Ks : nat.
Local Notation gok := (gok slot N Ks).
Local Notation stable := (stable slot N Ks).
Local Notation inps P := (inps slot N Ks P).

Lemma In_slice32 (l : pb_linear_combination F) prev i : List.In l (slice32 prev i) -> List.In l prev.
Proof.
have hr (s : arr) : List.In l (rev s) -> List.In l s.
  elim: s => //= a s IH; rewrite rev_cons -cats1 => /(List.in_app_or _ _ _) [/IH|[|//]]; by [right|left].
move=> /hr h; rewrite -(cat_take_drop (32 * i) prev); apply: List.in_or_app; right.
by rewrite -(cat_take_drop 32 (drop _ _)); apply: List.in_or_app; left.
Qed.

Lemma src_inps P prev pb0 pb l : allocates pb0 pb -> (sz pb <= N)%N -> inps P prev ->
  (forall v, v \in fresh_vars pb0 pb -> P v) -> src prev pb0 pb l -> inps P l.
Proof.
move=> a1 hN hp hf [_ [[i _ ->]|[vs -> hs]]]; first by move=> l' /In_slice32; apply: hp.
apply: inps_vars; apply/allP => v /hs hv; rewrite (hf _ hv) andbT.
by move: hv; rewrite mem_fresh //; clear - hN; lia.
Qed.
Lemma src_ready prev pb0 pb l x k w : bits_ready prev x k -> src prev pb0 pb l -> is_word x l w -> bits_ready l x k.
Proof.
move=> hp [_ [[i _ ->]|[vs -> hs]]]; first by move=> _ l' /In_slice32; apply: hp.
by case=> _ h _; apply: vars_ready.
Qed.

Lemma rounds_gok P prev pb0 packed_W st0 gs st1 pre : pb_wf pb0 -> st_pb st0 = pb0 -> st_src prev pb0 st0 ->
  size packed_W = 64%N -> (2 ^ (32 + 3) <= fp_order R)%N ->
  hid (new_all (round_step_new packed_W) (iota 0 64) st0 = Ok (gs, st1)) ->
  (sz (st_pb st1) <= N)%N -> below pb0 P -> inps P prev -> all P packed_W -> stable P pre ->
  (forall x k, pre x k -> bits_ready prev x k /\ exists S0 Wl, st_is x st0 S0 /\
     forall j, (j < 64)%N -> xval x (nth 0%N packed_W j) = wval (nth 0%num Wl j) /\ (N.to_nat (nth 0%num Wl j) < 2 ^ 32)%N) ->
  gok P (fresh_vars pb0 (st_pb st1)) (fun pb => ofold (fun pb g => round_witness R g pb) pb gs)
    (flatten (map (@round_constraints F) gs)) pre.
Proof.
move=> hw e0 hs hW hR en hN hb hi hPW hst hpre.
apply: (@gok_new_all_st F slot N Ks nat _ _ (round_step_new packed_W) (round_witness R) (@round_constraints F)
  (fun _ s => fresh_vars pb0 (st_pb s)) _ _ _ _ _ _ hst _ _ (unhid en)); clear en.
  by move=> v; rewrite e0 /fresh_vars subnn.
move=> ts1 t ts2 gs1 st g st' gs2 ets n1 n2 n3 egs hstb.
have [ets1 [et lt]] := iota_split ets; rewrite add0n in et.
have hI := rounds_inv_all hw e0 hs hW hR (ex_intro _ _ ets) (Hid n1).
have n2' := n2; rewrite et in n2'.
have hI1 := rounds_invS lt hW hR hI n2'.
have b3 : allocates (st_pb st') (st_pb st1).
  apply: (@rounds_rest prev pb0 packed_W st0 (rcons ts1 t) ts2 (rcons gs1 g) st' gs2 st1 hR hW _ _ (Hid n3)).
    by rewrite size_rcons.
  by rewrite cat_rcons.
clear n1 n3 n2 hI1.
have [b1 sg hsrc hso] := hI; have [[ra rb rc rd] [re rf rg rh]] := hsrc.
have [pb2 [c1 z2 c2 n4 es]] := round_step_inv (allocates_wf b1) hW lt ra.1 re.1 n2'; clear n2'.
have sb1 := allocates_size b1; have sb2 := allocates_size c2; have sb3 := allocates_size b3.
have m1 v := mem_fresh v b1.
set P1 := [predU P & mem (fresh_vars pb0 (st_pb st))].
have P1E v : P1 v = P v || (sz pb0 < v <= sz (st_pb st))%N by rewrite /P1 predUE m1.
have hi1 : inps P1 prev by apply: inps_sub hi => v h; rewrite P1E h.
have hb1 v : P1 v -> (v <= sz (st_pb st))%N by rewrite P1E => /orP [/hb|]; clear - sb1; lia.
have hf v : v \in fresh_vars pb0 (st_pb st) -> P1 v by move=> h; rewrite P1E -m1 h orbT.
have hN1 : (sz (st_pb st) <= N)%N by clear - hN sb2 sb3 z2; lia.
have hin l : src prev pb0 (st_pb st) l -> inps P1 l by apply: src_inps.
set new_a := iota (sz (st_pb st)).+1 32 in n4 es; set new_e := iota (sz (st_pb st) + 32).+1 32 in n4 es.
have ma v : (v \in new_a) = (sz (st_pb st) < v <= sz (st_pb st) + 32)%N by rewrite mem_iota; clear; lia.
have me v : (v \in new_e) = (sz (st_pb st) + 32 < v <= sz (st_pb st) + 64)%N by rewrite mem_iota; clear; lia.
exists (new_a ++ new_e ++ fresh_vars pb2 (st_pb st')); split; last first.
  move=> v; rewrite !mem_cat ma me mem_fresh ?mem_fresh //; last exact: allocates_trans b1 (allocates_trans c1 c2).
  by clear - z2 sb1 sb2; lia.
have sa3 : [/\ size (st_a st) = 32%N, size (st_b st) = 32%N & size (st_c st) = 32%N] := And3 ra.1 rb.1 rc.1.
have se3 : [/\ size (st_e st) = 32%N, size (st_f st) = 32%N & size (st_g st) = 32%N] := And3 re.1 rf.1 rg.1.
have hN2 : (sz (st_pb st') <= N)%N by clear - hN sb3; lia.
have hb2 : below pb2 P1 by move=> v /hb1; clear - z2; lia.
have ho2 : outs pb2 P1 (new_a ++ new_e).
  split; last first.
    move=> v hv; have hlt : (sz (st_pb st) < v <= sz (st_pb st) + 64)%N by move: hv; rewrite mem_cat ma me; clear; lia.
    split; first by clear - hlt z2; lia.
    by apply/negP => /hb1; clear - hlt; lia.
  rewrite cat_uniq !iota_uniq andbT; apply/hasPn => v; rewrite me => hv; apply/negP => /=; rewrite ma; clear - hv; lia.
have hPW1 : P1 (nth 0%N packed_W (size ts1)) by rewrite P1E (allP hPW) // mem_nth // hW.
have [] := round_gok (allocates_wf c1) hR (size_iota _ _) (size_iota _ _) (K256_lt lt) sa3 se3 (unhid n4) hN2 hb2 ho2
   (And4 (hin _ ra) (hin _ rb) (hin _ rc) (hin _ rd)) (And4 (hin _ re) (hin _ rf) (hin _ rg) (hin _ rh)) hPW1 hstb; last by [].
move=> x k [hp hh]; have [hbr [S0 [Wl [h0 hWl]]]] := hpre x k hp.
have [hst1 _] := hso x S0 Wl h0 hWl hh; have [eW lW] := hWl _ lt.
split; last by exists (rounds S0 Wl (size ts1)), (nth 0%num Wl (size ts1)).
have [[wa wb wc wd] [we wf' wg wh]] := hst1.
split; [split| |split|].
- exact: src_ready hbr ra wa.
- exact: src_ready hbr rb wb.
- exact: src_ready hbr rc wc.
- exact: ready_bits (src_ready hbr rd wd).
- exact: src_ready hbr re we.
- exact: src_ready hbr rf wf'.
- exact: src_ready hbr rg wg.
exact: ready_bits (src_ready hbr rh wh).
Qed.
End Rounds.
