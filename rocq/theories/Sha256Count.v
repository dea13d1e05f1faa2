(** The constructors of the SHA-256 gadgets succeed, and the number of their
    constraints. *)
From Coq Require Import NArith.
From mathcomp Require Import all_ssreflect all_algebra zify.
From Verif Require Import Outcome Lincomb LincombSpec LincombFacts R1CS R1CSSpec R1CSFacts Fieldtac.
From Verif Require Import Protoboard GadgetSpec GadgetLogic BasicGadgets BasicGadgetsFacts BasicGadgetsMore GadgetNew.
From Verif Require Import Sha256Spec Sha256Bits Sha256Gadget GadgetSeq Sha256Facts Sha256Word Sha256Word2 Sha256Sched Sha256Sched2 Sha256Round Sha256Rounds Sha256Compress.
Set Implicit Arguments.
Unset Strict Implicit.
Unset Printing Implicit Defensive.
Local Open Scope ring_scope.
Import GRing.Theory.
Delimit Scope N_scope with num.

Lemma size_allocate_array (F : fieldType) (pb : protoboard F) n vs pb' : allocate_array pb n = (vs, pb') -> size vs = n.
Proof.
elim: n pb vs pb' => [|n IH] pb vs pb' /=; first by case=> <-.
case e: (allocate_array _ n) => [vs' pb2] [<- _] /=.
by rewrite (IH _ _ _ e).
Qed.

Lemma sum_small s : (s <= 32)%N -> (sumn [seq (if (31 < i + s)%N then 1%N else 2%N) | i <- iota 0 32]).+1 = (65 - s)%N.
Proof. by do 33 (case: s => [|s] //). Qed.
Local Opaque allocate_array iota.

Section Count.
Variable F : fieldType.
Variable R : bigint_repr F.
Implicit Types (x : seq F) (pb : protoboard F) (P : pred nat).
Local Notation plcs := (plcs_of_vars F).
Local Notation plc := (plc_of_var F).
Local Notation arr := (pb_linear_combination_array F).

Lemma new_all_len (T G St : Type) (mk : T -> St -> outcome (G * St)) (Con : G -> seq (r1cs_constraint F)) (f : T -> nat)
    (I : nat -> St -> Prop) ts s0 : I 0%N s0 ->
  (forall ts1 t ts2 s, ts = ts1 ++ t :: ts2 -> I (size ts1) s ->
     exists g s', [/\ mk t s = Ok (g, s'), I (size ts1).+1 s' & size (Con g) = f t]) ->
  exists gs s1, [/\ new_all mk ts s0 = Ok (gs, s1), I (size ts) s1 & size (flatten (map Con gs)) = sumn (map f ts)].
Proof.
move=> h0 hS.
have H : forall ts1 ts2, ts = ts1 ++ ts2 -> exists gs s1, [/\ new_all mk ts1 s0 = Ok (gs, s1), I (size ts1) s1 &
    size (flatten (map Con gs)) = sumn (map f ts1)].
  elim/last_ind => [|ts1 t IH] ts2 ets; first by exists [::], s0.
  have ets' : ts = ts1 ++ t :: ts2 by rewrite ets cat_rcons.
  have [gs [s1 [e1 i1 c1]]] := IH _ ets'; have [g [s' [e2 i2 c2]]] := hS _ _ _ _ ets' i1.
  exists (rcons gs g), s'; rewrite size_rcons; split=> //; first by rewrite new_all_rcons e1 /= e2.
  by rewrite !map_rcons -!cats1 flatten_cat sumn_cat size_cat c1 /= cats0 c2 addn0.
by have [gs [s1 [e1 i1 c1]]] := H ts [::] (esym (cats0 ts)); exists gs, s1.
Qed.

Lemma xor3_len pb A B C z out g pb' : xor3_new pb A B C z out = (g, pb') -> size (xor3_constraints (F := F) g) = (if z then 1 else 2)%N.
Proof. by rewrite /xor3_new; case: z => [[<- _]|] //; case: (allocate_var pb) => v pb1 [<- _]. Qed.

Lemma size4 (T : Type) (a b c d : seq T) : size (a ++ b ++ c ++ d) = (size a + (size b + (size c + size d)))%N.
Proof. by rewrite !size_cat. Qed.
Lemma size9 (T : Type) (a b c d e f g h i : seq T) : size (a ++ b ++ c ++ d ++ e ++ f ++ g ++ h ++ i) =
  (size a + (size b + (size c + (size d + (size e + (size f + (size g + (size h + size i))))))))%N.
Proof. by rewrite !size_cat. Qed.
Lemma sumn_const (T : Type) (c : nat) (ts : seq T) : sumn (map (fun _ => c) ts) = (size ts * c)%N.
Proof. by elim: ts => //= t ts ->; rewrite mulSn. Qed.

Lemma small_sigma_len pb W res r1 r2 s : size W = 32%N -> (s <= 32)%N ->
  exists g pb', small_sigma_new (F := F) pb W res r1 r2 s = Ok (g, pb') /\ size (sigma_constraints g) = (65 - s)%N.
Proof.
move=> hW hs; rewrite /small_sigma_new; case e: (allocate_array pb 32) => [bs pb1]; have hb := size_allocate_array e; clear e.
have gW j : (j < 32)%N -> oget W j = Ok (nth 0%N W j) by move=> hj; apply: oget_nth; rewrite hW.
have gb j : (j < 32)%N -> oget bs j = Ok (nth 0%N bs j) by move=> hj; apply: oget_nth; rewrite hb.
set mk := fun (i : nat) (pb : protoboard F) => _.
have H : forall ts1 t ts2 st, iota 0 32 = ts1 ++ t :: ts2 -> True ->
  exists g s', [/\ mk t st = Ok (g, s'), True & size (xor3_constraints g) = (if 32 <= t + s then 1 else 2)%N].
  move=> ts1 t ts2 st ets _; have [_ [et lt]] := iota_split ets; rewrite add0n in et.
  have ht : (t < 32)%N by rewrite et.
  rewrite /mk (gW _ (ltn_pmod (t + r1) (isT : 0 < 32)%N)) 1!obindE (gW _ (ltn_pmod (t + r2) (isT : 0 < 32)%N)) 1!obindE.
  have -> : (if t + s < 32 then oget W (t + s) else Ok ONE)%N = Ok (if t + s < 32 then nth 0%N W (t + s) else ONE)%N.
    by case: ifP => // h; rewrite gW.
  rewrite 1!obindE gb // 1!obindE; case e: (xor3_new _ _ _ _ _ _) => [g s'].
  by exists g, s'; split=> //; rewrite (xor3_len e).
have [gs [s1 [-> _ c1]]] := @new_all_len _ _ _ mk (@xor3_constraints F) (fun i => if 32 <= i + s then 1 else 2)%N (fun _ _ => True) (iota 0 32) pb1 I H.
eexists; eexists; split; first by rewrite obindE; reflexivity.
rewrite /sigma_constraints size_cat c1 /= addn1.
exact: sum_small.
Qed.
Lemma big_sigma_len pb W res r1 r2 r3 : size W = 32%N ->
  exists g pb', big_sigma_new (F := F) pb W res r1 r2 r3 = Ok (g, pb') /\ size (sigma_constraints g) = 65%N.
Proof.
move=> hW; rewrite /big_sigma_new; case e: (allocate_array pb 32) => [bs pb1]; have hb := size_allocate_array e; clear e.
have gW j : (j < 32)%N -> oget W j = Ok (nth (plc 0%N) W j) by move=> hj; apply: oget_nth; rewrite hW.
have gb j : (j < 32)%N -> oget bs j = Ok (nth 0%N bs j) by move=> hj; apply: oget_nth; rewrite hb.
set mk := fun (i : nat) (pb : protoboard F) => _.
have H : forall ts1 t ts2 st, iota 0 32 = ts1 ++ t :: ts2 -> True ->
  exists g s', [/\ mk t st = Ok (g, s'), True & size (xor3_constraints g) = 2%N].
  move=> ts1 t ts2 st ets _; have [_ [et lt]] := iota_split ets; rewrite add0n in et.
  have ht : (t < 32)%N by rewrite et.
  rewrite /mk (gW _ (ltn_pmod (t + r1) (isT : 0 < 32)%N)) 1!obindE (gW _ (ltn_pmod (t + r2) (isT : 0 < 32)%N)) 1!obindE.
  rewrite (gW _ (ltn_pmod (t + r3) (isT : 0 < 32)%N)) 1!obindE gb // 1!obindE; case e: (xor3_new _ _ _ _ _ _) => [g s'].
  by exists g, s'; split=> //; rewrite (xor3_len e).
have [gs [s1 [-> _ c1]]] := @new_all_len _ _ _ mk (@xor3_constraints F) (fun i => 2%N) (fun _ _ => True) (iota 0 32) pb1 I H.
eexists; eexists; split; first by rewrite obindE; reflexivity.
by rewrite /sigma_constraints size_cat c1 sumn_const size_iota.
Qed.
Lemma lastbits_len pb X Xb res rb g pb' : lastbits_new (F := F) pb X Xb res rb = (g, pb') -> (size rb <= Xb)%N ->
  size (lastbits_constraints g) = Xb.+2.
Proof.
rewrite /lastbits_new; case e: (allocate_array _ _) => [ov pb1] [<- _] h; have hs := size_allocate_array e; clear e.
by rewrite /lastbits_constraints size_cat /= !size_map size_cat hs subnKC // addn1.
Qed.
Lemma size_loop (T : Type) (f : nat -> seq T) c n : (forall i, size (f i) = c) -> size (flatten [seq f i | i <- iota 0 n]) = (n * c)%N.
Proof. by move=> h; rewrite size_flatten /shape -map_comp (eq_map (f2 := fun _ => c)) ?sumn_const ?size_iota. Qed.
Lemma choice_len g : size (choice_constraints (F := F) g) = 33%N.
Proof. by rewrite /choice_constraints size_cat (@size_loop _ _ 1). Qed.
Lemma majority_len g : size (majority_constraints (F := F) g) = 65%N.
Proof. by rewrite /majority_constraints size_cat (@size_loop _ _ 2). Qed.

(** The message schedule. *)
Lemma schedule_step_len packed_W i Wb pb : size packed_W = 64%N -> (16 <= i < 64)%N -> size Wb = i ->
  all (fun W => size W == 32%N) Wb ->
  exists g st, [/\ schedule_step_new packed_W i (Wb, pb) = Ok (g, st), size st.1 = i.+1 /\ all (fun W => size W == 32%N) st.1 &
    size (schedule_step_constraints (F := F) g) = 154%N].
Proof.
move=> hP hi hW hall; rewrite /schedule_step_new.
case: (allocate_var pb) => v0 pb0; case: (allocate_var pb0) => v1 pb1.
have g1 j : (j < i)%N -> oget Wb j = Ok (nth [::] Wb j) by move=> hj; apply: oget_nth; rewrite hW.
have g2 j : (j < 64)%N -> oget packed_W j = Ok (nth 0%N packed_W j) by move=> hj; apply: oget_nth; rewrite hP.
have hsz j : (j < i)%N -> size (nth [::] Wb j) = 32%N by move=> hj; apply/eqP; apply: (all_nthP [::] hall); rewrite hW.
have l15 : (i - 15 < i)%N by clear - hi; lia.
have l2 : (i - 2 < i)%N by clear - hi; lia.
have l16 : (i - 16 < 64)%N by clear - hi; lia.
have l7 : (i - 7 < 64)%N by clear - hi; lia.
have l0 : (i < 64)%N by clear - hi; lia.
rewrite (g1 _ l15) 1!obindE (g1 _ l2) 1!obindE.
have [c0 [q0 [-> n0]]] := small_sigma_len pb1 v0 7 18 (hsz _ l15) (isT : 3 <= 32)%N; rewrite 1!obindE.
have [c1 [q1 [-> n1]]] := small_sigma_len (c0, q0).2 v1 17 19 (hsz _ l2) (isT : 10 <= 32)%N; rewrite 1!obindE.
case: (allocate_var _) => u pb2; case e: (allocate_array pb2 32) => [bits pb3]; have hb := size_allocate_array e; clear e.
rewrite (g2 _ l0) 1!obindE (g2 _ l16) 1!obindE (g2 _ l7) 1!obindE.
case e: (lastbits_new _ _ _ _ _) => [red pb4]; have hl := lastbits_len e; clear e.
eexists; eexists; split; first reflexivity.
  by rewrite /= size_rcons hW all_rcons hb eqxx hall.
rewrite /schedule_step_constraints; cbn [ss_compute_sigma0 ss_compute_sigma1 ss_mod_reduce fst snd].
by rewrite size4 n0 n1 hl // hb.
Qed.
Lemma schedule_len pb M packed_W : size M = (32 * 16)%N -> size packed_W = 64%N ->
  exists g pb', schedule_new pb M packed_W = Ok (g, pb') /\ size (schedule_constraints (F := F) g) = (16 + 48 * 154)%N.
Proof.
move=> hM hW; rewrite /schedule_new.
rewrite (@omapm_Ok _ _ _ (fun i => slice32 M i)); last by move=> i /In_iota hi; apply: (@rslice_ok _ M 16).
rewrite (@omapm_Ok _ _ _ (fun i => nth 0%N packed_W i)); last first.
  by move=> i /In_iota hi; rewrite (oget_nth 0%N) // hW; lia.
rewrite 2!obindE.
have i0 : size [seq slice32 M i | i <- iota 0 16] = (16 + 0)%N /\ all (fun W => size W == 32%N) [seq slice32 M i | i <- iota 0 16].
  rewrite size_map size_iota; split=> //; apply/allP => s /mapP [i]; rewrite mem_iota => hi ->.
  by apply/eqP; apply: size_slice32 hM _; move: hi; clear; lia.
set I := fun n (s : seq pb_variable_array * protoboard F) => size s.1 = (16 + n)%N /\ all (fun W => size W == 32%N) s.1.
have H : forall ts1 t ts2 st, iota 16 48 = ts1 ++ t :: ts2 -> I (size ts1) st ->
  exists g s', [/\ schedule_step_new packed_W t st = Ok (g, s'), I (size ts1).+1 s' & size (schedule_step_constraints g) = 154%N].
  move=> ts1 t ts2 [Wb pb1] ets [h1 h2]; have [_ [et lt]] := iota_split ets.
  rewrite [_.1]/= in h1 h2; rewrite -et in h1.
  have ht : (16 <= t < 64)%N by rewrite et; clear - lt; lia.
  have [g [st [e1 e2 e3]]] := schedule_step_len pb1 hW ht h1 h2.
  by exists g, st; split=> //; rewrite /I addnS -et.
have [gs [s1 [-> _ c1]]] := @new_all_len _ _ _ (@schedule_step_new F packed_W) (@schedule_step_constraints F) (fun _ => 154%N)
  I (iota 16 48) (_, pb) i0 H.
eexists; eexists; split; first by rewrite obindE; reflexivity.
rewrite /schedule_constraints size_cat c1 sumn_const size_iota [sd_pack _]/=; congr (_ + _)%N.
Qed.

(** The rounds. *)
Definition st_sizes (st : round_state F) : bool :=
  all (fun a : arr => size a == 32%N) [:: st_a st; st_b st; st_c st; st_d st; st_e st; st_f st; st_g st; st_h st].
Lemma round_step_len packed_W i st : size packed_W = 64%N -> (i < 64)%N -> st_sizes st ->
  exists g st', [/\ round_step_new packed_W i st = Ok (g, st'), st_sizes st' & size (round_constraints g) = 306%N].
Proof.
move=> hW hi hst; have [za ze] : size (st_a st) = 32%N /\ size (st_e st) = 32%N.
  by move: hst => /and5P [/eqP -> _ _ _ /andP [/eqP -> _]].
rewrite /round_step_new.
case e: (allocate_array (st_pb st) 32) => [new_a pb0]; have sa := size_allocate_array e; clear e.
case e: (allocate_array pb0 32) => [new_e pb1]; have se := size_allocate_array e; clear e.
have gW : oget packed_W i = Ok (nth 0%N packed_W i) by apply: oget_nth; rewrite hW.
have gK : oget K256 i = Ok (nth 0%num K256 i) by apply: oget_nth; rewrite K256_size.
rewrite SHA256_K_ok gW 1!obindE gK 1!obindE /round_new.
case: (allocate_var pb1) => v2 pb2; case: (allocate_var pb2) => v3 pb3.
have [c0 [q0 [-> n0]]] := big_sigma_len pb3 v2 2 13 22 za; rewrite 1!obindE.
have [c1 [q1 [-> n1]]] := big_sigma_len (c0, q0).2 v3 6 11 25 ze; rewrite 1!obindE.
case: (allocate_var _) => v4 pb4; case: (bitwise3_new _ _ _ _ _) => cch pb5.
case: (allocate_var _) => v6 pb6; case: (bitwise3_new _ _ _ _ _) => cmj pb7.
case: (allocate_var _) => w1 pb8; case: (allocate_var _) => w2 pb9; case: (allocate_var _) => w3 pb10.
case: (allocate_var _) => w4 pb11; case: (allocate_var _) => w5 pb12; case: (allocate_var _) => w6 pb13.
case e1: (lastbits_new _ _ _ _ _) => [ra pb14]; case e2: (lastbits_new _ _ _ _ _) => [re pb15].
have l1 := lastbits_len e1; have l2 := lastbits_len e2; clear e1 e2.
eexists; eexists; split; first by rewrite obindE; reflexivity.
  move: hst => /= /and5P [h1 h2 h3 _ /and4P [h5 h6 h7 _]].
  by rewrite /st_sizes /= !size_map sa se h1 h2 h3 h5 h6 h7.
rewrite /round_constraints; cbn [rg_compute_sigma0 rg_compute_sigma1 rg_compute_choice rg_compute_majority rg_reduce_a rg_reduce_e fst snd].
by rewrite size9 n0 n1 choice_len majority_len l1 ?l2 ?sa ?se.
Qed.
Lemma compression_len pb prev new_block output : size prev = (32 * 8)%N -> size new_block = (32 * 16)%N -> size output = (32 * 8)%N ->
  exists g pb', compression_new pb prev new_block output = Ok (g, pb') /\
    size (compression_constraints (F := F) g) = (16 + 48 * 154 + (64 * 306 + (4 * 2 + 8 * 35)))%N.
Proof.
move=> hp hb ho; rewrite /compression_new.
case e: (allocate_array pb 64) => [pW pb0]; have sW := size_allocate_array e; clear e.
have [sd [q0 [-> n0]]] := schedule_len pb0 hb sW; rewrite 1!obindE.
have r7 := @rslice_ok _ prev 8 0 hp isT; have r6 := @rslice_ok _ prev 8 1 hp isT; have r5 := @rslice_ok _ prev 8 2 hp isT.
have r4 := @rslice_ok _ prev 8 3 hp isT; have r3 := @rslice_ok _ prev 8 4 hp isT; have r2 := @rslice_ok _ prev 8 5 hp isT.
have r1 := @rslice_ok _ prev 8 6 hp isT; have r0 := @rslice_ok _ prev 8 7 hp isT.
rewrite !(subSS, subn0) in r7 r6 r5 r4 r3 r2 r1 r0.
rewrite r7 1!obindE r6 1!obindE r5 1!obindE r4 1!obindE r3 1!obindE r2 1!obindE r1 1!obindE r0 1!obindE -/(start_state prev (sd, q0).2).
have i0 : st_sizes (start_state prev q0).
  have h i (hi : (i < 8)%N) : size (slice32 prev i) == 32%N by rewrite (size_slice32 hp hi).
  by rewrite /st_sizes /= !h.
have H : forall ts1 t ts2 st, iota 0 64 = ts1 ++ t :: ts2 -> st_sizes st ->
  exists g s', [/\ round_step_new pW t st = Ok (g, s'), st_sizes s' & size (round_constraints g) = 306%N].
  by move=> ts1 t ts2 st ets h; have [_ [et lt]] := iota_split ets; apply: round_step_len; rewrite // et.
have [gs [s1 [-> _ c1]]] := @new_all_len _ _ _ (round_step_new pW) (@round_constraints F) (fun _ => 306%N)
  (fun _ st => st_sizes st) (iota 0 64) (start_state prev q0) i0 H.
rewrite 1!obindE.
case e: (allocate_array _ 8) => [un pb1]; have su := size_allocate_array e; clear e.
case e: (allocate_array _ 8) => [rd pb2]; have sr := size_allocate_array e; clear e.
set mk := fun (i : nat) (pb : protoboard F) => _.
have H2 : forall ts1 t ts2 st, iota 0 8 = ts1 ++ t :: ts2 -> True ->
  exists g s', [/\ mk t st = Ok (g, s'), True & size (lastbits_constraints g) = 35%N].
  move=> ts1 t ts2 st ets _; have [_ [et lt]] := iota_split ets; rewrite add0n in et; rewrite -et in lt.
  have e7 : rslice output (7 - t) = Ok (slice32 output t) by have := rslice_ok ho lt; rewrite (_ : (8 - 1 = 7)%N).
  have eu : oget un t = Ok (nth 0%N un t) by apply: oget_nth; rewrite su.
  have er : oget rd t = Ok (nth 0%N rd t) by apply: oget_nth; rewrite sr.
  rewrite /mk e7 1!obindE eu 1!obindE er 1!obindE.
  case e: (lastbits_new _ _ _ _ _) => [g s']; exists g, s'; split=> //.
  by rewrite (lastbits_len e) // (size_slice32 ho lt).
have [red [s2 [-> _ c2]]] := @new_all_len _ _ _ mk (@lastbits_constraints F) (fun _ => 35%N) (fun _ _ => True) (iota 0 8) pb2 I H2.
eexists; eexists; split; first by rewrite obindE; reflexivity.
rewrite /compression_constraints size4.
rewrite [size (schedule_constraints _)]n0 [size (flatten [seq round_constraints i | i <- _])]c1.
rewrite [size (flatten [seq lastbits_constraints i | i <- _])]c2 (@size_loop _ _ 2) // !sumn_const !size_iota.
Qed.
End Count.
