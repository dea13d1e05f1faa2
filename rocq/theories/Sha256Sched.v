(** Facts about the message schedule gadget of sha256_components. *)
From Coq Require Import NArith.
From mathcomp Require Import all_ssreflect all_algebra zify.
From Verif Require Import Outcome Lincomb LincombSpec LincombFacts R1CS R1CSSpec R1CSFacts Fieldtac.
From Verif Require Import Protoboard GadgetSpec GadgetLogic BasicGadgets BasicGadgetsFacts BasicGadgetsMore GadgetNew.
From Verif Require Import Sha256Spec Sha256Bits Sha256Gadget GadgetSeq Sha256Facts Sha256Word Sha256Word2.
Set Implicit Arguments.
Unset Strict Implicit.
Unset Printing Implicit Defensive.
Local Open Scope ring_scope.
Import GRing.Theory.
Delimit Scope N_scope with num.
Local Opaque allocate_array iota.

(** * Words *)
Lemma of_word w : (N.to_nat w < 2 ^ 32)%N -> w = N.of_nat (N.to_nat w %% 2 ^ 32).
Proof. by move=> h; rewrite modn_small // Nnat.N2Nat.id. Qed.
Lemma wadd_mod (a b : nat) : wadd (N.of_nat (a %% 2 ^ 32)) (N.of_nat (b %% 2 ^ 32)) = N.of_nat ((a + b) %% 2 ^ 32).
Proof.
rewrite -[LHS]Nnat.N2Nat.id wadd_nat !Nnat.Nat2N.id; congr N.of_nat.
by rewrite modnDm.
Qed.
Lemma wadd_lt a b : (N.to_nat (wadd a b) < 2 ^ 32)%N.
Proof. by rewrite wadd_nat ltn_mod expn_gt0. Qed.
Lemma bitsN_lt bs : size bs = 32%N -> (N.to_nat (bitsN bs) < 2 ^ 32)%N.
Proof. by move=> h; rewrite bitsN_to_nat -h; apply: bits_nat_lt. Qed.

(** * Slices *)
Definition slice32 (T : Type) (s : seq T) (i : nat) : seq T := rev (take 32 (drop (32 * i) s)).
Lemma rslice_ok (T : Type) (s : seq T) n i : size s = (32 * n)%N -> (i < n)%N ->
  rslice s (n - 1 - i) = Ok (slice32 s i).
Proof.
move=> hs hi; rewrite /rslice hs.
have -> : ((n - 1 - i).+1 * 32 <= 32 * n)%N by lia.
congr Ok; rewrite /slice32 drop_rev take_rev size_takel hs; last by lia.
congr rev; rewrite take_drop; congr (drop _ (take _ _)); lia.
Qed.
Lemma size_slice32 (T : Type) (s : seq T) n i : size s = (32 * n)%N -> (i < n)%N -> size (slice32 s i) = 32%N.
Proof. by move=> hs hi; rewrite size_rev size_takel // size_drop hs; lia. Qed.
Lemma slice32_map (T U : Type) (f : T -> U) (s : seq T) i : slice32 (map f s) i = map f (slice32 s i).
Proof. by rewrite /slice32 map_rev map_take map_drop. Qed.
Lemma slice32_all (T : Type) (p : pred T) (s : seq T) i : all p s -> all p (slice32 s i).
Proof.
move=> h; rewrite all_rev; move: h; rewrite -{1}(cat_take_drop (32 * i) s) -{1}(cat_take_drop 32 (drop (32 * i) s)) !all_cat.
by case/and3P.
Qed.

(** * The specification of the schedule *)
Section Spec.
Local Notation step := (fun w t => w ++ [:: schedule_word w t]).
Lemma sched_size ts w : size (foldl step w ts) = (size w + size ts)%N.
Proof. by elim: ts w => [|t ts IH] w /=; rewrite ?addn0 // IH size_cat /=; lia. Qed.
Lemma sched_prefix ts w j : (j < size w)%N -> nth 0%num (foldl step w ts) j = nth 0%num w j.
Proof.
elim: ts w => [|t ts IH] w hj //=; rewrite IH; last by rewrite size_cat; lia.
by rewrite nth_cat hj.
Qed.
Lemma scheduleE M : schedule M = foldl step M (iota 16 48).
Proof. by rewrite /schedule std_fold std_seq. Qed.
Lemma size_schedule M : size M = 16%N -> size (schedule M) = 64%N.
Proof. by move=> h; rewrite scheduleE sched_size h size_iota. Qed.
Lemma schedule_low M i : size M = 16%N -> (i < 16)%N -> nth 0%num (schedule M) i = nth 0%num M i.
Proof. by move=> h hi; rewrite scheduleE sched_prefix // h. Qed.
Lemma schedule_high M i : size M = 16%N -> (16 <= i < 64)%N ->
  let S j := nth 0%num (schedule M) j in
  S i = wadd (wadd (sigma1 (S (i - 2)%N)) (S (i - 7)%N)) (wadd (sigma0 (S (i - 15)%N)) (S (i - 16)%N)).
Proof.
move=> h hi; cbv zeta.
have e : iota 16 48 = iota 16 (i - 16) ++ i :: iota i.+1 (63 - i).
  have h48 : 48%N = ((i - 16) + (63 - i).+1)%N by lia.
  rewrite [in LHS]h48 iotaD; congr (_ ++ _); have -> : (16 + (i - 16) = i)%N by lia.
  by [].
set w := foldl step M (iota 16 (i - 16)).
have sw : size w = i by rewrite sched_size h size_iota; lia.
have hS : schedule M = foldl step (w ++ [:: schedule_word w i]) (iota i.+1 (63 - i)).
  by rewrite scheduleE e foldl_cat.
have hj j : (j < i)%N -> nth 0%num (schedule M) j = nth 0%num w j.
  move=> hji; rewrite hS sched_prefix; last by rewrite size_cat sw /=; lia.
  by rewrite nth_cat sw hji.
rewrite (hj (i - 2)%N) ?(hj (i - 7)%N) ?(hj (i - 15)%N) ?(hj (i - 16)%N); try by lia.
rewrite hS sched_prefix; last by rewrite size_cat sw /=; lia.
by rewrite nth_cat sw ltnn subnn /schedule_word !std_nth.
Qed.
End Spec.

Section Sched.
Variable F : fieldType.
Variable R : bigint_repr F.
Add Field Ff4 : (Fth F).
Implicit Types (x k : seq F) (pb : protoboard F) (P : pred nat).
Local Notation plcs := (plcs_of_vars F).
Local Notation wval := (wval F).
Local Notation vlc := (lc_of_var F).
Local Notation one_lc := (lc_of_int F 1).

Lemma is_word_lt x ls w : is_word x ls w -> (N.to_nat w < 2 ^ 32)%N.
Proof. by case=> h _ <-; apply: bitsN_lt; rewrite size_bools. Qed.

(** The words of a block of bits. *)
Lemma slice_word x (ls : pb_linear_combination_array F) n i : size ls = (32 * n)%N -> (i < n)%N ->
  all (fun l => isbit (lval x l)) ls ->
  is_word x (slice32 ls i) (nth 0%num (words_of_bits n (bools x ls)) i).
Proof.
move=> hs hi hb; rewrite words_of_bits_nth //; split.
- exact: size_slice32 hs hi.
- exact: slice32_all.
by rewrite -/(slice32 (bools x ls) i) /bools slice32_map.
Qed.

Lemma small_sigma_alloc pb0 W res r1 r2 s g pb1 : size W = 32%N ->
  small_sigma_new pb0 W res r1 r2 s = Ok (g, pb1) -> pb_wf pb0 -> allocates pb0 pb1.
Proof.
move=> hs e hw; have [rb [pb2 [gs [ea en eg]]]] := small_sigma_inv hs e; clear e.
have [a2 erb sz2] := allocate_array_new hw ea; clear ea.
exact: allocates_trans a2 (xor_all_mono (allocates_wf a2) (unhid en)).
Qed.
Lemma big_sigma_alloc pb0 W res r1 r2 r3 g pb1 : size W = 32%N ->
  big_sigma_new pb0 W res r1 r2 r3 = Ok (g, pb1) -> pb_wf pb0 -> allocates pb0 pb1.
Proof.
move=> hs e hw; have [rb [pb2 [gs [ea en eg]]]] := big_sigma_inv hs e; clear e.
have [a2 erb sz2] := allocate_array_new hw ea; clear ea.
exact: allocates_trans a2 (xor_all_mono (allocates_wf a2) (unhid en)).
Qed.
Lemma lastbits_alloc pb0 X Xb res rb g pb1 : lastbits_new pb0 X Xb res rb = (g, pb1) -> pb_wf pb0 -> allocates pb0 pb1.
Proof.
rewrite /lastbits_new; case ea: (allocate_array pb0 _) => [ov pb2] [_ <-] hw.
by have [] := allocate_array_new hw ea.
Qed.

(** ** One step *)
Lemma schedule_step_inv packed_W i Wb pb0 g Wb' pb1 : pb_wf pb0 ->
  (16 <= i)%N -> (i < size packed_W)%N -> (i <= size Wb)%N -> all (fun W => size W == 32%N) Wb ->
  schedule_step_new packed_W i (Wb, pb0) = Ok (g, (Wb', pb1)) ->
  let s0 := size (pb_values pb0) in
  exists pb2 pb3 pb4 pb5 c0 c1 red, let s4 := size (pb_values pb4) in
  [/\ [/\ allocates pb0 pb2, allocates pb2 pb3, allocates pb3 pb4, allocates pb4 pb5 & allocates pb5 pb1],
      size (pb_values pb2) = s0.+2 /\ size (pb_values pb5) = (s4 + 33)%N,
      hid (small_sigma_new pb2 (nth [::] Wb (i - 15)) s0.+1 7 18 3 = Ok (c0, pb3)),
      hid (small_sigma_new pb3 (nth [::] Wb (i - 2)) s0.+2 17 19 10 = Ok (c1, pb4)) &
      hid (lastbits_new pb5 s4.+1 (32 + 2) (nth 0%N packed_W i) (iota s4.+2 32) = (red, pb1)) /\
      g = ScheduleStep s0.+1 s0.+2 c0 c1 s4.+1 red (nth 0%N packed_W (i - 16)) (nth 0%N packed_W (i - 7)) /\
      Wb' = rcons Wb (iota s4.+2 32)].
Proof.
move=> hw h16 hP hWb hall; rewrite /schedule_step_new.
case e1: (allocate_var pb0) => [v0 pba]; have [a1 v1 z1] := allocate_var_new hw e1; clear e1.
case e2: (allocate_var pba) => [v0' pb2]; have [a2 v2 z2] := allocate_var_new (allocates_wf a1) e2; clear e2.
have g1 j : (j < size Wb)%N -> oget Wb j = Ok (nth [::] Wb j) by move=> hj; rewrite (oget_nth [::]).
have g2 j : (j < size packed_W)%N -> oget packed_W j = Ok (nth 0%N packed_W j) by move=> hj; rewrite (oget_nth 0%N).
rewrite (g1 (i - 15)%N) ?(g1 (i - 2)%N); try by clear - h16 hWb; lia.
have hsz j : (j < size Wb)%N -> size (nth [::] Wb j) = 32%N.
  by move=> hj; apply/eqP; apply: (all_nthP [::] hall).
rewrite 2!obindE => h; have {h} [[c0 pb3] e3 h] := obind_Ok h; have {h} [[c1 pb4] e4 h] := obind_Ok h.
have a12 := allocates_trans a1 a2.
have a3 := small_sigma_alloc (hsz _ _) e3 (allocates_wf a2); have {}a3 : allocates pb2 pb3 by apply: a3; lia.
have a4 := small_sigma_alloc (hsz _ _) e4 (allocates_wf a3); have {}a4 : allocates pb3 pb4 by apply: a4; lia.
move/Hid: e3 => e3; move/Hid: e4 => e4.
move: h; rewrite [(_, pb4).2]/= [(_, pb4).1]/=.
case e5: (allocate_var pb4) => [v5 pb5]; have [a5 v5e z5] := allocate_var_new (allocates_wf a4) e5; clear e5.
case e6: (allocate_array pb5 32) => [bits pb6]; have [a6 v6 z6] := allocate_array_new (allocates_wf a5) e6; clear e6.
rewrite !g2; try by clear - h16 hP; lia.
rewrite 3!obindE.
case e7: (lastbits_new _ _ _ _ _) => [red pb7] [<- <- <-].
have a7 := lastbits_alloc e7 (allocates_wf a6); move/Hid: e7 => e7.
exists pb2, pb3, pb4, pb6, c0, c1, red; rewrite v1 v2 z1 in e3 e4 *; rewrite v5e v6 z5 in e7 *.
split; [|by split; [rewrite z2 z1|rewrite z6 z5; lia]|exact: e3|exact: e4|].
  split; [exact: a12|exact: a3|exact: a4|exact: allocates_trans a5 a6|exact: a7].
by split; [exact: e7|].
Qed.

(** The words that a step reads. *)
Definition step_in x (W15 W2 : pb_variable_array) (w16 w7 : pb_variable) a15 a2 a16 a7 : Prop :=
  [/\ is_word x (plcs W15) a15, is_word x (plcs W2) a2, xval x w16 = wval a16 /\ xval x w7 = wval a7,
      (N.to_nat a16 < 2 ^ 32)%N & (N.to_nat a7 < 2 ^ 32)%N].
Definition step_out a15 a2 a16 a7 : N := wadd (wadd (sigma1 a2) a7) (wadd (sigma0 a15) a16).

Lemma sigma_lt bs : size bs = 32%N -> (N.to_nat (bitsN bs) < 2 ^ 32)%N. Proof. exact: bitsN_lt. Qed.

Lemma sum4_holds x (n0 n1 n2 n3 : nat) s0 s1 w16 w7 u :
  xval x s0 = n0%:R -> xval x s1 = n1%:R -> xval x w16 = n2%:R -> xval x w7 = n3%:R ->
  holds [:: R1csConstraint one_lc (lc_add (lc_add (var_add_lc s0 (vlc s1)) (vlc w16)) (vlc w7)) (vlc u)] x ->
  xval x u = (n1 + n3 + (n0 + n2))%N%:R.
Proof.
move=> e0 e1 e2 e3 /holds_cons [hc _].
by move: hc; rewrite /constraint_holds /= !fsE e0 e1 e2 e3 !natrD mulr1z => <-; fring F.
Qed.
Lemma schedule_sum x a15 a2 a16 a7 s0 s1 w16 w7 u :
  (N.to_nat (sigma0 a15) < 2 ^ 32)%N -> (N.to_nat (sigma1 a2) < 2 ^ 32)%N ->
  (N.to_nat a16 < 2 ^ 32)%N -> (N.to_nat a7 < 2 ^ 32)%N ->
  xval x s0 = wval (sigma0 a15) -> xval x s1 = wval (sigma1 a2) -> xval x w16 = wval a16 -> xval x w7 = wval a7 ->
  holds [:: R1csConstraint one_lc (lc_add (lc_add (var_add_lc s0 (vlc s1)) (vlc w16)) (vlc w7)) (vlc u)] x ->
  exists n, [/\ xval x u = n%:R, (n < 2 ^ (32 + 2))%N & N.of_nat (n %% 2 ^ 32) = step_out a15 a2 a16 a7].
Proof.
move=> l0 l1 l2 l3 e0 e1 e2 e3 hc.
exists (N.to_nat (sigma1 a2) + N.to_nat a7 + (N.to_nat (sigma0 a15) + N.to_nat a16))%N; split.
- exact: sum4_holds e0 e1 e2 e3 hc.
- rewrite addnC expnD; move: l0 l1 l2 l3; move: (N.to_nat _) (N.to_nat _) (N.to_nat _) (N.to_nat _).
  by set p := (2 ^ 32)%N; clear; lia.
rewrite /step_out [X in wadd _ (wadd X _)](of_word l0) [X in wadd (wadd X _) _](of_word l1).
by rewrite [X in wadd _ (wadd _ X)](of_word l2) [X in wadd (wadd _ X) _](of_word l3) !wadd_mod.
Qed.

Lemma small_sigma_value0 pb0 W res g pb1 x w : small_sigma_new pb0 W res 7 18 3 = Ok (g, pb1) -> pb_wf pb0 ->
  holds (sigma_constraints g) x -> is_word x (plcs W) w ->
  xval x res = wval (sigma0 w) /\ (N.to_nat (sigma0 w) < 2 ^ 32)%N.
Proof.
move=> e hw hc h; have r := small_sigma_sound e hw hc h; have [s _ v] := h; clear e.
rewrite -v sigma0_bits ?size_bools //; split; first by [].
by apply: bitsN_lt; rewrite size_map size_iota.
Qed.
Lemma small_sigma_value1 pb0 W res g pb1 x w : small_sigma_new pb0 W res 17 19 10 = Ok (g, pb1) -> pb_wf pb0 ->
  holds (sigma_constraints g) x -> is_word x (plcs W) w ->
  xval x res = wval (sigma1 w) /\ (N.to_nat (sigma1 w) < 2 ^ 32)%N.
Proof.
move=> e hw hc h; have r := small_sigma_sound e hw hc h; have [s _ v] := h; clear e.
rewrite -v sigma1_bits ?size_bools //; split; first by [].
by apply: bitsN_lt; rewrite size_map size_iota.
Qed.
Lemma schedule_step_sound packed_W i Wb pb0 g Wb' pb1 x a15 a2 a16 a7 : pb_wf pb0 -> (2 ^ (32 + 2) <= fp_order R)%N ->
  (16 <= i)%N -> (i < size packed_W)%N -> (i <= size Wb)%N -> all (fun W => size W == 32%N) Wb ->
  schedule_step_new packed_W i (Wb, pb0) = Ok (g, (Wb', pb1)) ->
  step_in x (nth [::] Wb (i - 15)) (nth [::] Wb (i - 2)) (nth 0%N packed_W (i - 16)) (nth 0%N packed_W (i - 7)) a15 a2 a16 a7 ->
  holds (schedule_step_constraints g) x ->
  is_word x (plcs (nth [::] Wb' (size Wb))) (step_out a15 a2 a16 a7) /\
  xval x (nth 0%N packed_W i) = wval (step_out a15 a2 a16 a7).
Proof.
move=> hw hR h16 hP hWb hall e [h15 h2 [e16 e7] l16 l7].
have [pb2 [pb3 [pb4 [pb5 [c0 [c1 [red [[a1 a2' a3 a4 a5] [z2 z5] n1 n2 [n3 [eg eW]]]]]]]]]] :=
  schedule_step_inv hw h16 hP hWb hall e; clear e.
rewrite eg => /holds_cat [hc0 /holds_cat [hc1 /holds_cat [hc2 hc3]]].
have [r0 l0] := small_sigma_value0 (unhid n1) (allocates_wf a1) hc0 h15.
have [r1 l1] := small_sigma_value1 (unhid n2) (allocates_wf a2') hc1 h2.
have [n [en ln <-]] := schedule_sum l0 l1 l16 l7 r0 r1 e16 e7 hc2.
rewrite eW nth_rcons ltnn eqxx.
by apply: (lastbits_sound (unhid n3) (allocates_wf a4) _ _ hR en ln hc3); rewrite ?size_iota.
Qed.

(** ** Witnesses *)
Section Gok.
Variable slot : nat -> linear_combination F.
Variables N K : nat.
Local Notation gok := (gok slot N K).
Local Notation stable := (stable slot N K).
Local Notation inp P := (inp slot N K P).
Local Notation inps P := (inps slot N K P).

Lemma set_sum_ok pb x k v s c : all (fun w => w <= size x)%N s ->
  set_sum (upd pb x k) v s c = pb_set (upd pb x k) v (foldr +%R c (map (xval x) s)).
Proof.
move=> h; rewrite /set_sum; suff -> : omapm (pb_val (upd pb x k)) s = Ok (map (xval x) s) by [].
elim: s h => [|w s IH] //= /andP [hw hs]; by rewrite -/(pb_val _ w) pb_val_upd // IH.
Qed.
Lemma set_sum_gok P v s c (L : linear_combination F) : (0 < v <= N)%N -> ~~ P v ->
  all (fun w => (w <= N)%N && P w) s -> within P L ->
  (forall x, formal_sum L x = foldr +%R c (map (xval x) s)) ->
  gok P [:: v] (fun pb => set_sum pb v s c) [:: R1csConstraint one_lc L (vlc v)] (fun _ _ => True).
Proof.
move=> hv hP hs hL hf; apply: (@gok_set F slot N K P v _ _ _ (fun x : seq F => foldr +%R c (map (xval x) s))) => //.
- rewrite cs_within_cons andbT; apply/and3P; split; rewrite ?wiE /= ?inE ?eqxx ?orbT //.
  by apply: within_sub hL => w h; apply/orP; left.
- move=> pb x k sx sk _; apply: set_sum_ok; apply: sub_all hs => w /andP [h _]; by rewrite sx.
move=> x k sx sk _; apply/holds_cons; split; last by apply/holds_nil.
rewrite /constraint_holds /= !fsE xval_put_eq ?sx // mulr1z mul1r hf; congr (foldr _ _ _).
apply/eq_in_map => w hw; rewrite xval_put_neq ?sx //; first by lia.
by apply: contraNneq hP => <-; have /andP [] := allP hs _ hw.
Qed.

Lemma step_gok P packed_W i Wb pb0 g Wb' pb1 pre : pb_wf pb0 -> (2 ^ (32 + 2) <= fp_order R)%N ->
  (16 <= i)%N -> (i < size packed_W)%N -> (i <= size Wb)%N -> all (fun W => size W == 32%N) Wb ->
  schedule_step_new packed_W i (Wb, pb0) = Ok (g, (Wb', pb1)) ->
  (size (pb_values pb1) <= N)%N -> below pb0 P -> outs pb0 P [:: nth 0%N packed_W i] ->
  all P (nth [::] Wb (i - 15)) -> all P (nth [::] Wb (i - 2)) ->
  P (nth 0%N packed_W (i - 16)) -> P (nth 0%N packed_W (i - 7)) ->
  stable P pre ->
  (forall x k, pre x k -> exists a15 a2 a16 a7, step_in x (nth [::] Wb (i - 15)) (nth [::] Wb (i - 2))
     (nth 0%N packed_W (i - 16)) (nth 0%N packed_W (i - 7)) a15 a2 a16 a7) ->
  gok P (nth 0%N packed_W i :: fresh_vars pb0 pb1) (schedule_step_witness R g) (schedule_step_constraints g) pre.
Proof.
move=> hw hR h16 hPW hWb hall e hN hb ho p15 p2 p16 p7 hst hpre.
have [pb2 [pb3 [pb4 [pb5 [c0 [c1 [red [[a1 a2 a3 a4 a5] [z2 z5] n1 n2 [n3 [eg eW]]]]]]]]]] :=
  schedule_step_inv hw h16 hPW hWb hall e; clear e.
have hsz j : (j < size Wb)%N -> size (nth [::] Wb j) = 32%N.
  by move=> hj; apply/eqP; apply: (all_nthP [::] hall).
have s15 : size (nth [::] Wb (i - 15)) = 32%N by apply: hsz; clear - h16 hWb; lia.
have s2 : size (nth [::] Wb (i - 2)) = 32%N by apply: hsz; clear - h16 hWb; lia.
clear hsz hall.
have t1 := allocates_size a1; have t2 := allocates_size a2; have t3 := allocates_size a3.
have t4 := allocates_size a4; have t5 := allocates_size a5.
have [_ /(_ _ (mem_head _ _)) [ow ow']] := ho.
move: z2 z5 n1 n2 n3 eg eW; set q0 := size (pb_values pb0); set q4 := size (pb_values pb4).
move=> z2 z5 n1 n2 n3 eg eW.
have b0 : below pb2 P by move=> v /hb; rewrite z2 -/q0; clear; lia.
have P0 v : (q0 < v)%N -> P v = false by move=> hv; apply/negP => /hb; rewrite -/q0; clear - hv; lia.
have vin Q vs : subpred P Q -> all P vs -> inps Q (plcs vs).
  move=> hPQ hvs; apply: inps_vars; apply: sub_all hvs => v hv; rewrite (hPQ _ hv) andbT.
  by have := hb v hv; clear - hN t1 t2 t3 t4 t5; lia.
have m3 v : (v \in fresh_vars pb2 pb3) = (q0.+2 < v <= size (pb_values pb3))%N by rewrite mem_fresh // z2.
have m4 v : (v \in fresh_vars pb3 pb4) = (size (pb_values pb3) < v <= q4)%N by rewrite mem_fresh.
have m5 v : (v \in fresh_vars pb5 pb1) = (q4 + 33 < v <= size (pb_values pb1))%N by rewrite mem_fresh // z5.
have mb v : (v \in iota q4.+2 32) = (q4.+2 <= v < q4.+2 + 32)%N by rewrite mem_iota.
have m0 v : (v \in fresh_vars pb0 pb1) = (q0 < v <= size (pb_values pb1))%N.
  by rewrite mem_fresh //; do 4!(apply: allocates_trans; [eassumption|]).
rewrite z2 -/q4 in t1 t2 t3 t4 t5 *; rewrite z5 in t4 t5.
have Pb v : P v -> (v <= q0)%N by exact: hb.
have [||_ h1] := small_sigma_gok (slot := slot) (K := K) (P := P) (unhid n1) (allocates_wf a1) s15 _ b0 _ (vin _ _ (fun _ h => h) p15).
- by clear - hN t2 t3 t4 t5; lia.
- by apply: outs1; rewrite ?z2 ?P0 //; clear; lia.
set P1 := [predU P & mem (q0.+1 :: fresh_vars pb2 pb3)].
have P1E v : P1 v = [|| P v, v == q0.+1 | (q0.+2 < v <= size (pb_values pb3))%N] by rewrite /= !inE m3.
have [||||_ h2] := small_sigma_gok (slot := slot) (K := K) (P := P1) (unhid n2) (allocates_wf a2) s2 _ _ _ (vin _ _ _ p2).
- by clear - hN t2 t3 t4 t5; lia.
- by move=> v; rewrite P1E; have := Pb v; clear - t2; lia.
- by apply: outs1; rewrite ?P1E ?P0 //; clear - t2; lia.
- by move=> v hv; rewrite P1E hv.
set P2 := [predU P1 & mem (q0.+2 :: fresh_vars pb3 pb4)].
have P2E v : P2 v = P v || (q0 < v <= q4)%N.
  by rewrite /= !inE m3 m4; have := Pb v; clear - t2 t3; lia.
set vs := [:: q0.+1; q0.+2; nth 0%N packed_W (i - 16); nth 0%N packed_W (i - 7)].
set L := lc_add (lc_add (var_add_lc q0.+1 (vlc q0.+2)) (vlc (nth 0%N packed_W (i - 16)))) (vlc (nth 0%N packed_W (i - 7))).
have h3 : gok P2 [:: q4.+1] (fun pb => set_sum pb q4.+1 vs 0) [:: R1csConstraint one_lc L (vlc q4.+1)] (fun _ _ => True).
  apply: set_sum_gok.
  - by clear - hN t2 t3 t4 t5; lia.
  - by rewrite P2E P0; clear - t2 t3; lia.
  - apply/allP => w; rewrite P2E /vs !inE; have := Pb _ p16; have := Pb _ p7; move: p16 p7.
    by move=> p16 p7 b16 b7 /or4P [] /eqP ->; rewrite ?p16 ?p7; clear - b16 b7 hN t2 t3 t4 t5; lia.
  - by rewrite !wiE !P2E p16 p7 !orbT; clear - t2 t3; lia.
  by move=> x; rewrite !fsE /= addr0 !addrA.
set P3 := [predU P2 & mem [:: q4.+1]].
have P3E v : P3 v = P v || (q0 < v <= q4.+1)%N.
  by rewrite /= !inE -!/(P2 v) m3 m4; have := Pb v; clear - t2 t3; lia.
have [|||||_ h4] := @lastbits_gok F R slot N K P3 _ _ _ _ _ _ _ (unhid n3) (allocates_wf a4) _ hR hN.
- by rewrite size_iota.
- by move=> v; rewrite P3E; have := Pb v; rewrite z5; clear - t2 t3; lia.
- split; first by rewrite /= mb iota_uniq andbT; clear - ow t2 t3; lia.
  move=> v; rewrite inE => /orP [/eqP ->|]; first by rewrite P3E (negbTE ow') z5; clear - ow t2 t3; lia.
  by rewrite mb P3E z5 => hv; rewrite P0; clear - hv t2 t3; lia.
- by rewrite P3E; clear - t2 t3; lia.
- by [].
have wb x W a : is_word x (plcs W) a -> forall k, all_bits (plcs W) x k by case=> _ hx _ k.
have {}h1 : gok P (q0.+1 :: fresh_vars pb2 pb3) (sigma_witness c0) (sigma_constraints c0) pre.
  by apply: (gok_pre h1) => x k _ _ /hpre [b15 [b2 [b16 [b7 [i15 _ _ _ _]]]]]; apply: wb i15 k.
have st1 := stable_next h1 hst.
have {}h2 : gok P1 (q0.+2 :: fresh_vars pb3 pb4) (sigma_witness c1) (sigma_constraints c1)
   (fun x k => pre x k /\ holds (sigma_constraints c0) x).
  by apply: (gok_pre h2) => x k _ _ [/hpre [b15 [b2 [b16 [b7 [_ i2 _ _ _]]]]] _]; apply: wb i2 k.
have st2 := stable_next h2 st1.
have {}h3 := gok_pre (pre' := fun x k => (pre x k /\ holds (sigma_constraints c0) x) /\ holds (sigma_constraints c1) x)
  h3 (fun _ _ _ _ _ => I).
have st3 := stable_next h3 st2.
have {}h4 : gok P3 ((nth 0%N packed_W i :: iota q4.+2 32) ++ fresh_vars pb5 pb1) (lastbits_witness R red) (lastbits_constraints red)
   (fun x k => ((pre x k /\ holds (sigma_constraints c0) x) /\ holds (sigma_constraints c1) x) /\
      holds [:: R1csConstraint one_lc L (vlc q4.+1)] x).
  apply: (gok_pre h4) => x k _ _ [[[/hpre [b15 [b2 [b16 [b7 [i15 i2 [e16 e7] l16 l7]]]]] hc0] hc1] hc2].
  have [r0 l0] := small_sigma_value0 (unhid n1) (allocates_wf a1) hc0 i15.
  have [r1 l1] := small_sigma_value1 (unhid n2) (allocates_wf a2) hc1 i2.
  by have [n [en ln _]] := schedule_sum l0 l1 l16 l7 r0 r1 e16 e7 hc2; exists n.
have hall := gok_seq h1 hst (gok_seq h2 st1 (gok_seq h3 st2 h4)).
rewrite eg; apply: (gok_conv hall) => //.
- move=> v; rewrite inE m0 => /orP [/eqP ->|hv]; first by split=> //; clear - ow hN t2 t3 t4 t5; lia.
  by rewrite P0; [split=> //; clear - hv hN; lia|clear - hv; lia].
- move=> v; rewrite 4!mem_cat (in_cons q0.+1) (in_cons q0.+2) mem_seq1 !(in_cons (nth _ _ _)) m0 m3 m4 m5 mb.
  by clear - t2 t3 t4 t5; lia.
Qed.
End Gok.
End Sched.
