(** Facts about the round function gadget of sha256_components. *)
From Coq Require Import NArith.
From mathcomp Require Import all_ssreflect all_algebra zify.
From Verif Require Import Outcome Lincomb LincombSpec LincombFacts R1CS R1CSSpec R1CSFacts Fieldtac.
From Verif Require Import Protoboard GadgetSpec GadgetLogic BasicGadgets BasicGadgetsFacts BasicGadgetsMore GadgetNew.
From Verif Require Import Sha256Spec Sha256Bits Sha256Gadget GadgetSeq Sha256Facts Sha256Word Sha256Word2 Sha256Sched Sha256Sched2.
Set Implicit Arguments.
Unset Strict Implicit.
Unset Printing Implicit Defensive.
Local Open Scope ring_scope.
Import GRing.Theory.
Delimit Scope N_scope with num.
Local Opaque allocate_array iota.

Section Round.
Variable F : fieldType.
Variable R : bigint_repr F.
Add Field Ff6 : (Fth F).
Implicit Types (x : seq F) (pb : protoboard F) (P : pred nat).
Local Notation plcs := (plcs_of_vars F).
Local Notation plc := (plc_of_var F).
Local Notation wval := (wval F).
Local Notation vlc := (lc_of_var F).
Local Notation one_lc := (lc_of_int F 1).
Local Notation arr := (pb_linear_combination_array F).
Local Notation sz pb := (size (pb_values pb)).

Lemma bitwise3_alloc pb0 X Y Z res g pb1 : pb_wf pb0 -> bitwise3_new pb0 X Y Z res = (g, pb1) ->
  allocates pb0 pb1 /\ sz pb1 = (sz pb0 + 32)%N.
Proof.
move=> hw; rewrite /bitwise3_new; case ea: (allocate_array pb0 32) => [rb pb2].
by have [a2 erb sz2] := allocate_array_new hw ea; clear ea => -[_ <-].
Qed.

Lemma round_inv pb0 (a b c d e f g h : arr) W K new_a new_e G pb1 : pb_wf pb0 -> size a = 32%N -> size e = 32%N ->
  round_new pb0 a b c d e f g h W K new_a new_e = Ok (G, pb1) ->
  let s0 := sz pb0 in
  exists pb2 pb3 pb4 pb5 pb6 pb7 pb8 pb9 pb10 c0 c1 cch cmj ra re,
  let s4 := sz pb4 in let s6 := sz pb6 in let s8 := sz pb8 in
  [/\ [/\ allocates pb0 pb2, allocates pb2 pb3 /\ allocates pb3 pb4, allocates pb4 pb5 /\ allocates pb5 pb6,
          allocates pb6 pb7 /\ allocates pb7 pb8 & [/\ allocates pb8 pb9, allocates pb9 pb10 & allocates pb10 pb1]],
      [/\ sz pb2 = s0.+2, sz pb5 = s4.+1, sz pb7 = s6.+1 & sz pb9 = (s8 + 6)%N],
      hid (big_sigma_new pb2 a s0.+1 2 13 22 = Ok (c0, pb3)) /\
      hid (big_sigma_new pb3 e s0.+2 6 11 25 = Ok (c1, pb4)),
      hid (bitwise3_new pb5 e f g s4.+1 = (cch, pb6)) /\ hid (bitwise3_new pb7 a b c s6.+1 = (cmj, pb8)) &
      [/\ hid (lastbits_new pb9 s8.+3 (32 + 3) s8.+4.+1 new_a = (ra, pb10)),
          hid (lastbits_new pb10 s8.+4 (32 + 3) s8.+4.+2 new_e = (re, pb1)) &
      G = RoundGadget s0.+1 s0.+2 c0 c1 s4.+1 cch s6.+1 cmj s8.+1 (Packing d (plc s8.+1))
            s8.+2 (Packing h (plc s8.+2)) s8.+3 s8.+4 s8.+4.+1 s8.+4.+2 ra re W K]].
Proof.
move=> hw sa se; rewrite /round_new.
case e1: (allocate_var pb0) => [v0 pba]; have [a1 v1 z1] := allocate_var_new hw e1; clear e1.
case e2: (allocate_var pba) => [v0' pb2]; have [a2 v2 z2] := allocate_var_new (allocates_wf a1) e2; clear e2.
move=> H; have {H} [[c0 pb3] e3 H] := obind_Ok H; have {H} [[c1 pb4] e4 H] := obind_Ok H.
have a3 := big_sigma_alloc sa e3 (allocates_wf a2); have a4 := big_sigma_alloc se e4 (allocates_wf a3).
move/Hid: e3 => e3; move/Hid: e4 => e4.
move: H; rewrite [(_, pb4).2]/= [(_, pb4).1]/=.
case e5: (allocate_var pb4) => [v5 pb5]; have [a5 v5e z5] := allocate_var_new (allocates_wf a4) e5; clear e5.
case e6: (bitwise3_new pb5 _ _ _ _) => [cch pb6]; have [a6 z6] := bitwise3_alloc (allocates_wf a5) e6; move/Hid: e6 => e6.
case e7: (allocate_var pb6) => [v7 pb7]; have [a7 v7e z7] := allocate_var_new (allocates_wf a6) e7; clear e7.
case e8: (bitwise3_new pb7 _ _ _ _) => [cmj pb8]; have [a8 z8] := bitwise3_alloc (allocates_wf a7) e8; move/Hid: e8 => e8.
case f1: (allocate_var pb8) => [u1 q1]; have [b1 u1e y1] := allocate_var_new (allocates_wf a8) f1; clear f1.
case f2: (allocate_var q1) => [u2 q2]; have [b2 u2e y2] := allocate_var_new (allocates_wf b1) f2; clear f2.
case f3: (allocate_var q2) => [u3 q3]; have [b3 u3e y3] := allocate_var_new (allocates_wf b2) f3; clear f3.
case f4: (allocate_var q3) => [u4 q4]; have [b4 u4e y4] := allocate_var_new (allocates_wf b3) f4; clear f4.
case f5: (allocate_var q4) => [u5 q5]; have [b5 u5e y5] := allocate_var_new (allocates_wf b4) f5; clear f5.
case f6: (allocate_var q5) => [u6 pb9]; have [b6 u6e y6] := allocate_var_new (allocates_wf b5) f6; clear f6.
case g1: (lastbits_new _ _ _ _ _) => [ra pb10]; have a10 := lastbits_alloc g1 (allocates_wf b6); move/Hid: g1 => g1.
case g2: (lastbits_new _ _ _ _ _) => [re pb11]; have a11 := lastbits_alloc g2 (allocates_wf a10); move/Hid: g2 => g2.
case=> <- <-; exists pb2, pb3, pb4, pb5, pb6, pb7, pb8, pb9, pb10, c0, c1, cch, cmj, ra, re.
rewrite v1 v2 z1 in e3 e4 *; rewrite v5e in e6 *; rewrite v7e in e8 *.
rewrite u1e u2e u3e u4e u5e u6e y5 y4 y3 y2 y1 in g1 g2 *.
have b14 := allocates_trans (allocates_trans b1 b2) (allocates_trans b3 b4).
have b16 := allocates_trans b14 (allocates_trans b5 b6).
split.
- split; [exact: allocates_trans a1 a2|by split|by split|by split|split; [exact: b16|exact: a10|exact: a11]].
- split; [by rewrite z2 z1|exact: z5|exact: z7|by rewrite y6 y5 y4 y3 y2 y1; clear; lia].
- by split; [exact: e3|exact: e4].
- by split; [exact: e6|exact: e8].
by split; [exact: g1|exact: g2|].
Qed.

Definition is_state x (a b c d e f g h : arr) (s : working) : Prop :=
  [/\ [/\ is_word x a (va s), is_word x b (vb s), is_word x c (vc s) & is_word x d (vd s)] &
      [/\ is_word x e (ve s), is_word x f (vf s), is_word x g (vg s) & is_word x h (vh s)]].

Lemma Sigma_value0 pb0 (W : arr) res g pb1 x w : big_sigma_new pb0 W res 2 13 22 = Ok (g, pb1) -> pb_wf pb0 ->
  holds (sigma_constraints g) x -> is_word x W w ->
  xval x res = wval (Sigma0 w) /\ (N.to_nat (Sigma0 w) < 2 ^ 32)%N.
Proof.
move=> e hw hc h; have r := big_sigma_sound e hw hc h; have [s _ v] := h; clear e.
rewrite -v Sigma0_bits ?size_bools //; split; first by [].
by apply: bitsN_lt; rewrite size_map size_iota.
Qed.
Lemma Sigma_value1 pb0 (W : arr) res g pb1 x w : big_sigma_new pb0 W res 6 11 25 = Ok (g, pb1) -> pb_wf pb0 ->
  holds (sigma_constraints g) x -> is_word x W w ->
  xval x res = wval (Sigma1 w) /\ (N.to_nat (Sigma1 w) < 2 ^ 32)%N.
Proof.
move=> e hw hc h; have r := big_sigma_sound e hw hc h; have [s _ v] := h; clear e.
rewrite -v Sigma1_bits ?size_bools //; split; first by [].
by apply: bitsN_lt; rewrite size_map size_iota.
Qed.
Lemma Ch_lt x (X Y Z : arr) a b c : is_word x X a -> is_word x Y b -> is_word x Z c -> (N.to_nat (Ch a b c) < 2 ^ 32)%N.
Proof.
case=> s1 _ <- [s2 _ <-] [s3 _ <-]; rewrite Ch_bits ?size_bools //.
by apply: bitsN_lt; rewrite size_map size_iota.
Qed.
Lemma Maj_lt x (X Y Z : arr) a b c : is_word x X a -> is_word x Y b -> is_word x Z c -> (N.to_nat (Maj a b c) < 2 ^ 32)%N.
Proof.
case=> s1 _ <- [s2 _ <-] [s3 _ <-]; rewrite Maj_bits ?size_bools //.
by apply: bitsN_lt; rewrite size_map size_iota.
Qed.

(** The two sums. *)
Definition sum_a ph s1 ch (K : N) W s0 mj : linear_combination F :=
  lc_add (lc_add (lc_add (lc_add (lc_add (var_add_lc ph (vlc s1)) (vlc ch)) (lc_of_int F (Posz (N.to_nat K)))) (vlc W)) (vlc s0)) (vlc mj).
Definition sum_e pd ph s1 ch (K : N) W : linear_combination F :=
  lc_add (lc_add (lc_add (lc_add (var_add_lc pd (vlc ph)) (vlc s1)) (vlc ch)) (lc_of_int F (Posz (N.to_nat K)))) (vlc W).
Lemma sum_a_eq ph s1 ch K W s0 mj x :
  formal_sum (sum_a ph s1 ch K W s0 mj) x = foldr +%R (N.to_nat K)%:R (map (xval x) [:: ph; s1; ch; W; s0; mj]).
Proof. by rewrite !fsE -pmulrn [RHS]/=; move: (_%:R) => k; fring F. Qed.
Lemma sum_e_eq pd ph s1 ch K W x :
  formal_sum (sum_e pd ph s1 ch K W) x = foldr +%R (N.to_nat K)%:R (map (xval x) [:: pd; ph; s1; ch; W]).
Proof. by rewrite !fsE -pmulrn [RHS]/=; move: (_%:R) => k; fring F. Qed.
Lemma sum_holds (L : linear_combination F) (u : nat) x : holds [:: R1csConstraint one_lc L (vlc u)] x ->
  xval x u = formal_sum L x.
Proof. by move=> /holds_cons [hc _]; move: hc; rewrite /constraint_holds /= !fsE mulr1z mul1r. Qed.

Definition T1 (s : working) (k w : word) : word :=
  wadd (wadd (wadd (vh s) (Sigma1 (ve s))) (wadd (Ch (ve s) (vf s) (vg s)) k)) w.
Lemma wadd_of (a b : N) : (N.to_nat a < 2 ^ 32)%N -> (N.to_nat b < 2 ^ 32)%N ->
  wadd a b = N.of_nat ((N.to_nat a + N.to_nat b) %% 2 ^ 32).
Proof. by move=> ha hb; rewrite [in LHS](of_word ha) [in LHS](of_word hb) wadd_mod. Qed.
Lemma new_a_sum (vh' S1 ch k w S0 mj : N) :
  (N.to_nat vh' < 2 ^ 32)%N -> (N.to_nat S1 < 2 ^ 32)%N -> (N.to_nat ch < 2 ^ 32)%N -> (N.to_nat k < 2 ^ 32)%N ->
  (N.to_nat w < 2 ^ 32)%N -> (N.to_nat S0 < 2 ^ 32)%N -> (N.to_nat mj < 2 ^ 32)%N ->
  let n := (N.to_nat vh' + (N.to_nat S1 + (N.to_nat ch + (N.to_nat w + (N.to_nat S0 + (N.to_nat mj + N.to_nat k))))))%N in
  (n < 2 ^ (32 + 3))%N /\ N.of_nat (n %% 2 ^ 32) = wadd (wadd (wadd (wadd vh' S1) (wadd ch k)) w) (wadd S0 mj).
Proof.
move=> l1 l2 l3 l4 l5 l6 l7; cbv zeta; split.
  rewrite addnC expnD; move: l1 l2 l3 l4 l5 l6 l7.
  do 7!move: (N.to_nat _); by set p := (2 ^ 32)%N; clear; lia.
rewrite (wadd_of l1 l2) (wadd_of l3 l4) (wadd_of l6 l7) wadd_mod {2}(of_word l5) !wadd_mod.
by congr (N.of_nat (_ %% _)); clear; lia.
Qed.
Lemma new_e_sum (vd' vh' S1 ch k w : N) :
  (N.to_nat vd' < 2 ^ 32)%N ->
  (N.to_nat vh' < 2 ^ 32)%N -> (N.to_nat S1 < 2 ^ 32)%N -> (N.to_nat ch < 2 ^ 32)%N -> (N.to_nat k < 2 ^ 32)%N ->
  (N.to_nat w < 2 ^ 32)%N ->
  let n := (N.to_nat vd' + (N.to_nat vh' + (N.to_nat S1 + (N.to_nat ch + (N.to_nat w + N.to_nat k)))))%N in
  (n < 2 ^ (32 + 3))%N /\ N.of_nat (n %% 2 ^ 32) = wadd vd' (wadd (wadd (wadd vh' S1) (wadd ch k)) w).
Proof.
move=> l0 l1 l2 l3 l4 l5; cbv zeta; split.
  rewrite addnC expnD; move: l0 l1 l2 l3 l4 l5.
  do 6!move: (N.to_nat _); by set p := (2 ^ 32)%N; clear; lia.
rewrite (wadd_of l1 l2) (wadd_of l3 l4) wadd_mod {2}(of_word l5) {2}(of_word l0) !wadd_mod.
by congr (N.of_nat (_ %% _)); clear; lia.
Qed.

(** What the gadget computes before the reductions. *)
Lemma round_a x pb2 pb3 pb4 pb5 pb6 pb7 pb8 (a b c e f g h : arr) c0 c1 cch cmj s0 s1 ch mj ph ua W K S w eph :
  (3 < fp_order R)%N -> pb_wf pb2 -> pb_wf pb3 -> pb_wf pb5 -> pb_wf pb7 ->
  hid (big_sigma_new pb2 a s0 2 13 22 = Ok (c0, pb3)) -> hid (big_sigma_new pb3 e s1 6 11 25 = Ok (c1, pb4)) ->
  hid (bitwise3_new pb5 e f g ch = (cch, pb6)) -> hid (bitwise3_new pb7 a b c mj = (cmj, pb8)) ->
  [/\ is_word x a (va S), is_word x b (vb S) & is_word x c (vc S)] ->
  [/\ is_word x e (ve S), is_word x f (vf S), is_word x g (vg S) & is_word x h (vh S)] ->
  xval x W = wval w -> (N.to_nat w < 2 ^ 32)%N -> (N.to_nat K < 2 ^ 32)%N ->
  holds (sigma_constraints c0) x -> holds (sigma_constraints c1) x ->
  holds (choice_constraints cch) x -> holds (majority_constraints cmj) x ->
  holds (packing_constraints (Packing h (plc ph)) eph) x ->
  holds [:: R1csConstraint one_lc (sum_a ph s1 ch K W s0 mj) (vlc ua)] x ->
  exists n, [/\ xval x ua = n%:R, (n < 2 ^ (32 + 3))%N & N.of_nat (n %% 2 ^ 32) = va (round S K w)].
Proof.
move=> h3 w2 w3 w5 w7 n1 n2 n3 n4 [ia ib ic] [ie ig jf ih] eW lw lK hc0 hc1 hc2 hc3 hc4 hc5.
have [r0 l0] := Sigma_value0 (unhid n1) w2 hc0 ia; have [r1 l1] := Sigma_value1 (unhid n2) w3 hc1 ie.
have r2 := choice_sound (unhid n3) w5 hc2 ie ig jf; have l2 := Ch_lt ie ig jf.
have r3 := majority_sound h3 (unhid n4) w7 hc3 ia ib ic; have l3 := Maj_lt ia ib ic.
have r4 := packing_word hc4 ih; rewrite lval_var in r4; have l4 := is_word_lt ih.
have [ln en] := new_a_sum l4 l1 l2 lK lw l0 l3.
rewrite /round [va (Working _ _ _ _ _ _ _ _)]/= -en; eexists; split; [|exact: ln|reflexivity].
rewrite (sum_holds hc5) sum_a_eq [LHS]/= r0 r1 r2 r3 r4 eW /wval; clear.
by rewrite !natrD.
Qed.
Lemma round_e x pb3 pb4 pb5 pb6 (d e f g h : arr) c1 cch s1 ch pd ph ue W K S w epd eph :
  pb_wf pb3 -> pb_wf pb5 ->
  hid (big_sigma_new pb3 e s1 6 11 25 = Ok (c1, pb4)) ->
  hid (bitwise3_new pb5 e f g ch = (cch, pb6)) ->
  is_word x d (vd S) ->
  [/\ is_word x e (ve S), is_word x f (vf S), is_word x g (vg S) & is_word x h (vh S)] ->
  xval x W = wval w -> (N.to_nat w < 2 ^ 32)%N -> (N.to_nat K < 2 ^ 32)%N ->
  holds (sigma_constraints c1) x ->
  holds (choice_constraints cch) x ->
  holds (packing_constraints (Packing d (plc pd)) epd) x ->
  holds (packing_constraints (Packing h (plc ph)) eph) x ->
  holds [:: R1csConstraint one_lc (sum_e pd ph s1 ch K W) (vlc ue)] x ->
  exists n, [/\ xval x ue = n%:R, (n < 2 ^ (32 + 3))%N & N.of_nat (n %% 2 ^ 32) = ve (round S K w)].
Proof.
move=> w3 w5 n2 n3 id' [ie ig jf ih] eW lw lK hc1 hc2 hc3 hc4 hc5.
have [r1 l1] := Sigma_value1 (unhid n2) w3 hc1 ie.
have r2 := choice_sound (unhid n3) w5 hc2 ie ig jf; have l2 := Ch_lt ie ig jf.
have r3 := packing_word hc3 id'; rewrite lval_var in r3; have l3 := is_word_lt id'.
have r4 := packing_word hc4 ih; rewrite lval_var in r4; have l4 := is_word_lt ih.
have [ln en] := new_e_sum l3 l4 l1 l2 lK lw.
rewrite /round [ve (Working _ _ _ _ _ _ _ _)]/= -en; eexists; split; [|exact: ln|reflexivity].
rewrite (sum_holds hc5) sum_e_eq [LHS]/= r1 r2 r3 r4 eW /wval; clear.
by rewrite !natrD.
Qed.

Lemma round_sound pb0 (a b c d e f g h : arr) W K new_a new_e G pb1 x S w : pb_wf pb0 ->
  (2 ^ (32 + 3) <= fp_order R)%N -> size new_a = 32%N -> size new_e = 32%N -> (N.to_nat K < 2 ^ 32)%N ->
  round_new pb0 a b c d e f g h W K new_a new_e = Ok (G, pb1) ->
  is_state x a b c d e f g h S -> xval x W = wval w -> (N.to_nat w < 2 ^ 32)%N ->
  holds (round_constraints G) x ->
  [/\ is_state x (plcs new_a) a b c (plcs new_e) e f g (round S K w),
      xval x (rg_packed_d G) = wval (vd S), xval x (rg_packed_h G) = wval (vh S),
      xval x (rg_packed_a G) = wval (va (round S K w)) & xval x (rg_packed_e G) = wval (ve (round S K w))].
Proof.
move=> hw hR sa se lK E [[ia ib ic id'] [ie jf ig ih]] eW lw.
have [za _ _] := ia; have [ze _ _] := ie.
have [pb2 [pb3 [pb4 [pb5 [pb6 [pb7 [pb8 [pb9 [pb10 [c0 [c1 [cch [cmj [ra [re]]]]]]]]]]]]]]] := round_inv hw za ze E; clear E.
case=> -[a1 [a2 a3] [a4 a5] [a6 a7] [a8 a9 a10]] [z2 z5 z7 z9] [n1 n2] [n3 n4] [n5 n6 ->].
rewrite /round_constraints => /holds_cat [h1 /holds_cat [h2 /holds_cat [h3 /holds_cat [h4 /holds_cat [h5 /holds_cat [h6 /holds_cat [h7 /holds_cat [h8 h9]]]]]]]].
have h73 : (3 < fp_order R)%N by apply: leq_trans hR; rewrite expnD; clear; lia.
move: h7; rewrite -(cat1s _ [:: _]) => /holds_cat [h7a h7e].
have [na [ea la va']] := round_a h73 (allocates_wf a1) (allocates_wf a2) (allocates_wf a4) (allocates_wf a6) n1 n2 n3 n4
  (And3 ia ib ic) (And4 ie jf ig ih) eW lw lK h1 h2 h3 h4 h6 h7a.
have [ne [ee le' ve']] := round_e (allocates_wf a2) (allocates_wf a4) n2 n3 id' (And4 ie jf ig ih) eW lw lK h2 h3 h5 h6 h7e.
have [ja xa] := lastbits_sound (unhid n5) (allocates_wf a8) sa (leq_addr _ _) hR ea la h8.
have [je xe] := lastbits_sound (unhid n6) (allocates_wf a9) se (leq_addr _ _) hR ee le' h9.
rewrite va' in ja xa; rewrite ve' in je xe.
have r3 := packing_word h5 id'; have r4 := packing_word h6 ih; rewrite !lval_var in r3 r4.
split; [split; split|exact: r3|exact: r4|exact: xa|exact: xe].
- exact: ja.
- exact: ia.
- exact: ib.
- exact: ic.
- exact: je.
- exact: ie.
- exact: jf.
exact: ig.
Qed.

Section Gok.
Variable slot : nat -> linear_combination F.
Variables N Ks : nat.
Local Notation gok := (gok slot N Ks).
Local Notation stable := (stable slot N Ks).
Local Notation inps P := (inps slot N Ks P).

Definition state_ready (a b c d e f g h : arr) x (k : seq F) : Prop :=
  [/\ [/\ bits_ready a x k, bits_ready b x k & bits_ready c x k], all_bits d x k,
      [/\ bits_ready e x k, bits_ready f x k & bits_ready g x k] & all_bits h x k].

Lemma round_gok P pb0 (a b c d e f g h : arr) W K new_a new_e G pb1 pre : pb_wf pb0 ->
  (2 ^ (32 + 3) <= fp_order R)%N -> size new_a = 32%N -> size new_e = 32%N -> (N.to_nat K < 2 ^ 32)%N ->
  [/\ size a = 32%N, size b = 32%N & size c = 32%N] -> [/\ size e = 32%N, size f = 32%N & size g = 32%N] ->
  round_new pb0 a b c d e f g h W K new_a new_e = Ok (G, pb1) ->
  (sz pb1 <= N)%N -> below pb0 P -> outs pb0 P (new_a ++ new_e) ->
  [/\ inps P a, inps P b, inps P c & inps P d] -> [/\ inps P e, inps P f, inps P g & inps P h] -> P W ->
  stable P pre ->
  (forall x k, pre x k -> state_ready a b c d e f g h x k /\
     exists S w, [/\ is_state x a b c d e f g h S, xval x W = wval w & (N.to_nat w < 2 ^ 32)%N]) ->
  allocates pb0 pb1 /\
  gok P (new_a ++ new_e ++ fresh_vars pb0 pb1) (round_witness R G) (round_constraints G) pre.
Proof.
move=> hw hR sa se lK [za zb zc] [ze zf zg] E hN hb ho [ia ib ic id'] [ie jf ig ih] pW hst hpre.
have [pb2 [pb3 [pb4 [pb5 [pb6 [pb7 [pb8 [pb9 [pb10 [c0 [c1 [cch [cmj [ra [re]]]]]]]]]]]]]]] := round_inv hw za ze E; clear E.
case=> -[a1 [a2 a3] [a4 a5] [a6 a7] [a8 a9 a10]] [z2 z5 z7 z9] [n1 n2] [n3 n4] [n5 n6 ->].
have h73 : (3 < fp_order R)%N by apply: leq_trans hR; rewrite expnD; clear; lia.
have b1 := allocates_trans (allocates_trans a1 (allocates_trans a2 a3)) (allocates_trans a4 a5).
have b2 := allocates_trans (allocates_trans a6 a7) (allocates_trans a8 (allocates_trans a9 a10)).
have ball := allocates_trans b1 b2; clear b1 b2; split; first exact: ball.
have t2 := allocates_size a2; have t3 := allocates_size a3; have t5 := allocates_size a5; have t7 := allocates_size a7.
have t9 := allocates_size a9; have t10 := allocates_size a10.
have m0 v := mem_fresh v ball; have m1 v := mem_fresh v a2; have m2 v := mem_fresh v a3.
have m3 v := mem_fresh v a5; have m4 v := mem_fresh v a7; have m5 v := mem_fresh v a9; have m6 v := mem_fresh v a10.
have [hu hov] := ho.
have hova v : v \in new_a -> (0 < v <= sz pb0)%N /\ P v = false.
  by move=> hv; have [|h1 /negbTE ->] := hov v; first by rewrite mem_cat hv.
have hove v : v \in new_e -> (0 < v <= sz pb0)%N /\ P v = false.
  by move=> hv; have [|h1 /negbTE ->] := hov v; first by rewrite mem_cat hv orbT.
have hdis v : v \in new_e -> (v \in new_a) = false.
  move=> hv; apply/negP => hv'; move: hu; rewrite cat_uniq => /and3P [_ /hasPn /(_ v hv) /=]; by rewrite hv'.
have hua : uniq new_a by move: hu; rewrite cat_uniq => /and3P [].
have hue : uniq new_e by move: hu; rewrite cat_uniq => /and3P [].
clear hu hov.
rewrite z2 in t2 m1; rewrite z5 in t5 m3; rewrite z7 in t7 m4; rewrite z9 in t9 m5.
have bP v : P v -> (v <= sz pb0)%N by exact: hb.
have P0 v : (sz pb0 < v)%N -> P v = false by move=> hv; apply/negP => /bP; clear - hv; lia.
move: z2 z5 z7 z9 hN; set q0 := sz pb0; set q3 := sz pb3; set q4 := sz pb4; set q6 := sz pb6; set q8 := sz pb8.
set q10 := sz pb10; set q1 := sz pb1 => z2 z5 z7 z9 hN.
rewrite -?/q0 -?/q3 -?/q4 -?/q6 -?/q8 -?/q10 -?/q1 in t2 t3 t5 t7 t9 t10 m0 m1 m2 m3 m4 m5 m6 bP P0 hova hove.
have sub Q (ls : arr) : subpred P Q -> inps P ls -> inps Q ls by exact: inps_sub.
(* 1 *)
have [|||_ h1] := big_sigma_gok (slot := slot) (K := Ks) (P := P) (N := N) (unhid n1) (allocates_wf a1) za _ _ _ ia.
- by rewrite -/q3; clear - hN t3 t5 t7 t9 t10; lia.
- by move=> v /bP; rewrite z2; clear; lia.
- by apply: outs1; rewrite ?z2 ?P0 //; clear; lia.
have {}h1 : gok P (q0.+1 :: fresh_vars pb2 pb3) (sigma_witness c0) (sigma_constraints c0) pre.
  by apply: (gok_pre h1) => x k _ _ /hpre [[[]]].
have st1 := stable_next h1 hst.
set P1 := [predU P & mem (q0.+1 :: fresh_vars pb2 pb3)].
have P1E v : P1 v = [|| P v, v == q0.+1 | (q0.+2 < v <= q3)%N] by rewrite /P1 predUE inE m1.
have s1 : subpred P P1 by move=> v hv; rewrite P1E hv.
(* 2 *)
have [|||_ h2] := big_sigma_gok (slot := slot) (K := Ks) (P := P1) (N := N) (unhid n2) (allocates_wf a2) ze _ _ _ (sub _ _ s1 ie).
- by rewrite -/q4; clear - hN t3 t5 t7 t9 t10; lia.
- by move=> v; rewrite P1E -/q3; have := bP v; clear - t2; lia.
- by apply: outs1; rewrite ?P1E ?P0 // -?/q3; clear - t2; lia.
have {}h2 : gok P1 (q0.+2 :: fresh_vars pb3 pb4) (sigma_witness c1) (sigma_constraints c1)
   (fun x k => pre x k /\ holds (sigma_constraints c0) x).
  by apply: (gok_pre h2) => x k _ _ [/hpre [[_ _ []]]].
have st2 := stable_next h2 st1.
set P2 := [predU P1 & mem (q0.+2 :: fresh_vars pb3 pb4)].
have P2E v : P2 v = P v || (q0 < v <= q4)%N.
  by rewrite /P2 predUE P1E inE m2; have := bP v; clear - t2 t3; lia.
have s2 : subpred P P2 by move=> v hv; rewrite P2E hv.
(* 3 *)
have [|||_ h3] := choice_gok (slot := slot) (K := Ks) (P := P2) (N := N) (unhid n3) (allocates_wf a4) ze zf zg _ _ _
   (sub _ _ s2 ie) (sub _ _ s2 jf) (sub _ _ s2 ig).
- by rewrite -/q6; clear - hN t3 t5 t7 t9 t10; lia.
- by move=> v; rewrite P2E z5; have := bP v; clear - t2 t3; lia.
- by apply: outs1; rewrite ?P2E ?P0 ?z5 //; clear - t2 t3; lia.
have {}h3 : gok P2 (q4.+1 :: fresh_vars pb5 pb6) (choice_witness cch) (choice_constraints cch)
   (fun x k => (pre x k /\ holds (sigma_constraints c0) x) /\ holds (sigma_constraints c1) x).
  by apply: (gok_pre h3) => x k _ _ [[/hpre [[_ _ []]]]].
have st3 := stable_next h3 st2.
set P3 := [predU P2 & mem (q4.+1 :: fresh_vars pb5 pb6)].
have P3E v : P3 v = P v || (q0 < v <= q6)%N.
  by rewrite /P3 predUE P2E inE m3; have := bP v; clear - t2 t3 t5; lia.
have s3 : subpred P P3 by move=> v hv; rewrite P3E hv.
(* 4 *)
have [|||_ h4] := majority_gok (slot := slot) (K := Ks) (P := P3) (N := N) h73 (unhid n4) (allocates_wf a6) za zb zc _ _ _
   (sub _ _ s3 ia) (sub _ _ s3 ib) (sub _ _ s3 ic).
- by rewrite -/q8; clear - hN t3 t5 t7 t9 t10; lia.
- by move=> v; rewrite P3E z7; have := bP v; clear - t2 t3 t5; lia.
- by apply: outs1; rewrite ?P3E ?P0 ?z7 //; clear - t2 t3 t5; lia.
have {}h4 : gok P3 (q6.+1 :: fresh_vars pb7 pb8) (majority_witness R cmj) (majority_constraints cmj)
   (fun x k => ((pre x k /\ holds (sigma_constraints c0) x) /\ holds (sigma_constraints c1) x) /\ holds (choice_constraints cch) x).
  by apply: (gok_pre h4) => x k _ _ [[[/hpre [[[]]]]]].
have st4 := stable_next h4 st3.
set P4 := [predU P3 & mem (q6.+1 :: fresh_vars pb7 pb8)].
have P4E v : P4 v = P v || (q0 < v <= q8)%N.
  by rewrite /P4 predUE P3E inE m4; have := bP v; clear - t2 t3 t5 t7; lia.
have s4 : subpred P P4 by move=> v hv; rewrite P4E hv.
(* 5 *)
set cd := packing_constraints (Packing d (plc q8.+1)) false.
set chh := packing_constraints (Packing h (plc q8.+2)) false.
have h5 : gok P4 [:: q8.+1] (packing_witness_from_bits (Packing d (plc q8.+1))) cd
   (fun x k => (((pre x k /\ holds (sigma_constraints c0) x) /\ holds (sigma_constraints c1) x) /\
     holds (choice_constraints cch) x) /\ holds (majority_constraints cmj) x).
  apply: (gok_pre (gok_pack false (sub _ _ s4 id') _ _)).
  - by clear - hN t9 t10; lia.
  - by rewrite P4E P0; clear - t2 t3 t5 t7; lia.
  by move=> x k _ _ [[[[/hpre [[]]]]]].
have st5 := stable_next h5 st4.
set P5 := [predU P4 & mem [:: q8.+1]].
have P5E v : P5 v = P v || (q0 < v <= q8.+1)%N.
  by rewrite /P5 predUE P4E inE; have := bP v; clear - t2 t3 t5 t7; lia.
have s5 : subpred P P5 by move=> v hv; rewrite P5E hv.
(* 6 *)
have h6 : gok P5 [:: q8.+2] (packing_witness_from_bits (Packing h (plc q8.+2))) chh
   (fun x k => ((((pre x k /\ holds (sigma_constraints c0) x) /\ holds (sigma_constraints c1) x) /\
     holds (choice_constraints cch) x) /\ holds (majority_constraints cmj) x) /\ holds cd x).
  apply: (gok_pre (gok_pack false (sub _ _ s5 ih) _ _)).
  - by clear - hN t9 t10; lia.
  - by rewrite P5E P0; clear - t2 t3 t5 t7; lia.
  by move=> x k _ _ [[[[[/hpre [[]]]]]]].
have st6 := stable_next h6 st5.
set P6 := [predU P5 & mem [:: q8.+2]].
have P6E v : P6 v = P v || (q0 < v <= q8.+2)%N.
  by rewrite /P6 predUE P5E inE; have := bP v; clear - t2 t3 t5 t7; lia.
have WN : (W <= q0)%N by exact: bP.
(* 7 *)
set La := sum_a q8.+2 q0.+2 q4.+1 K W q0.+1 q6.+1.
set Le := sum_e q8.+1 q8.+2 q0.+2 q4.+1 K W.
have h7 : gok P6 [:: q8.+3] (fun pb => set_sum pb q8.+3 [:: q8.+2; q0.+2; q4.+1; W; q0.+1; q6.+1] (N.to_nat K)%:R)
   [:: R1csConstraint one_lc La (vlc q8.+3)]
   (fun x k => (((((pre x k /\ holds (sigma_constraints c0) x) /\ holds (sigma_constraints c1) x) /\
     holds (choice_constraints cch) x) /\ holds (majority_constraints cmj) x) /\ holds cd x) /\ holds chh x).
  apply: (gok_pre (pre := fun _ _ => True)) => //; apply: set_sum_gok.
  - by clear - hN t9 t10; lia.
  - by rewrite P6E P0; clear - t2 t3 t5 t7; lia.
  - apply/allP => v; rewrite P6E !inE => /or4P [/eqP ->|/eqP ->|/eqP ->|/or3P [/eqP ->|/eqP ->|/eqP ->]];
      rewrite ?pW; clear - WN hN t2 t3 t5 t7 t9 t10; lia.
  - rewrite !wiE !P6E pW; clear - t2 t3 t5 t7; lia.
  by move=> x; apply: sum_a_eq.
have st7 := stable_next h7 st6.
set P7 := [predU P6 & mem [:: q8.+3]].
have P7E v : P7 v = P v || (q0 < v <= q8.+3)%N.
  by rewrite /P7 predUE P6E inE; have := bP v; clear - t2 t3 t5 t7; lia.
(* 8 *)
have h8 : gok P7 [:: q8.+4] (fun pb => set_sum pb q8.+4 [:: q8.+1; q8.+2; q0.+2; q4.+1; W] (N.to_nat K)%:R)
   [:: R1csConstraint one_lc Le (vlc q8.+4)]
   (fun x k => ((((((pre x k /\ holds (sigma_constraints c0) x) /\ holds (sigma_constraints c1) x) /\
     holds (choice_constraints cch) x) /\ holds (majority_constraints cmj) x) /\ holds cd x) /\ holds chh x) /\
     holds [:: R1csConstraint one_lc La (vlc q8.+3)] x).
  apply: (gok_pre (pre := fun _ _ => True)) => //; apply: set_sum_gok.
  - by clear - hN t9 t10; lia.
  - by rewrite P7E P0; clear - t2 t3 t5 t7; lia.
  - apply/allP => v; rewrite P7E !inE => /or4P [/eqP ->|/eqP ->|/eqP ->|/orP [/eqP ->|/eqP ->]];
      rewrite ?pW; clear - WN hN t2 t3 t5 t7 t9 t10; lia.
  - rewrite !wiE !P7E pW; clear - t2 t3 t5 t7; lia.
  by move=> x; apply: sum_e_eq.
have st8 := stable_next h8 st7.
set P8 := [predU P7 & mem [:: q8.+4]].
have P8E v : P8 v = P v || (q0 < v <= q8.+4)%N.
  by rewrite /P8 predUE P7E inE; have := bP v; clear - t2 t3 t5 t7; lia.
(* 9 *)
have t8 : (q0 <= q8)%N by clear - t2 t3 t5 t7; lia.
have [||||||_ h9] := @lastbits_gok F R slot N Ks P8 _ _ _ _ _ _ _ (unhid n5) (allocates_wf a8) _ hR.
- by rewrite sa.
- by rewrite -/q10; clear - hN t10; lia.
- by move=> v; rewrite P8E z9; have := bP v; clear - t8; lia.
- split.
    by rewrite /= hua andbT; apply/negP => /hova [hv _]; clear - hv t8; lia.
  move=> v; rewrite in_cons => /orP [/eqP ->|/hova [hv hP]]; rewrite P8E z9 ?hP; last by clear - hv t8; lia.
  by rewrite P0; clear - t8; lia.
- by rewrite P8E; clear - t8; lia.
- by [].
have {}h9 : gok P8 ((q8.+4.+1 :: new_a) ++ fresh_vars pb9 pb10) (lastbits_witness R ra) (lastbits_constraints ra)
   (fun x k => (((((((pre x k /\ holds (sigma_constraints c0) x) /\ holds (sigma_constraints c1) x) /\
     holds (choice_constraints cch) x) /\ holds (majority_constraints cmj) x) /\ holds cd x) /\ holds chh x) /\
     holds [:: R1csConstraint one_lc La (vlc q8.+3)] x) /\ holds [:: R1csConstraint one_lc Le (vlc q8.+4)] x).
  apply: (gok_pre h9) => x k _ _ [[[[[[[[/hpre [_ [S [w [[[ja jb jc jd] [je jf' jg jh]] eW lw]]]] g1] g2] g3] g4] g5] g6] g7] g8].
  have [n [en ln _]] := round_a h73 (allocates_wf a1) (allocates_wf a2) (allocates_wf a4) (allocates_wf a6) n1 n2 n3 n4
    (And3 ja jb jc) (And4 je jf' jg jh) eW lw lK g1 g2 g3 g4 g6 g7.
  by exists n.
have st9 := stable_next h9 st8.
set P9 := [predU P8 & mem ((q8.+4.+1 :: new_a) ++ fresh_vars pb9 pb10)].
have P9E v : P9 v = [|| P v, v \in new_a, (q0 < v <= q8.+4.+1)%N | (q8 + 6 < v <= q10)%N].
  rewrite /P9 predUE P8E mem_cat in_cons m5; have := bP v; move: (v \in new_a) => bb; clear - t8; lia.
(* 10 *)
have [||||||_ h10] := @lastbits_gok F R slot N Ks P9 _ _ _ _ _ _ _ (unhid n6) (allocates_wf a9) _ hR.
- by rewrite se.
- by rewrite -/q1.
- move=> v; rewrite P9E -/q10 => /or4P [/bP hv|/hova [hv _]|hv|hv]; clear - hv t8 t9; lia.
- split.
    by rewrite /= hue andbT; apply/negP => /hove [hv _]; clear - hv t8; lia.
  move=> v; rewrite in_cons => /orP [/eqP ->|hv0].
    rewrite P9E P0; last by clear - t8; lia.
    have -> : (q8.+4.+2 \in new_a) = false by apply/negP => /hova [hv _]; clear - hv t8; lia.
    by rewrite -/q10; clear - t8 t9; lia.
  have [hv hP] := hove v hv0; rewrite P9E hP hdis // -/q10; clear - hv t8 t9; lia.
- rewrite P9E; apply/or4P; apply: Or43; clear - t8; lia.
- by [].
have {}h10 : gok P9 ((q8.+4.+2 :: new_e) ++ fresh_vars pb10 pb1) (lastbits_witness R re) (lastbits_constraints re)
   (fun x k => ((((((((pre x k /\ holds (sigma_constraints c0) x) /\ holds (sigma_constraints c1) x) /\
     holds (choice_constraints cch) x) /\ holds (majority_constraints cmj) x) /\ holds cd x) /\ holds chh x) /\
     holds [:: R1csConstraint one_lc La (vlc q8.+3)] x) /\ holds [:: R1csConstraint one_lc Le (vlc q8.+4)] x) /\
     holds (lastbits_constraints ra) x).
  apply: (gok_pre h10) => x k _ _ [[[[[[[[[/hpre [_ [S [w [[[ja jb jc jd] [je jf' jg jh]] eW lw]]]] g1] g2] g3] g4] g5] g6] g7] g8] g9].
  have [n [en ln _]] := round_e (allocates_wf a2) (allocates_wf a4) n2 n3
    jd (And4 je jf' jg jh) eW lw lK g2 g3 g5 g6 g8.
  by exists n.
have hall := gok_seq h1 hst (gok_seq h2 st1 (gok_seq h3 st2 (gok_seq h4 st3 (gok_seq h5 st4 (gok_seq h6 st5
  (gok_seq h7 st6 (gok_seq h8 st7 (gok_seq h9 st8 h10)))))))).
apply: (gok_conv hall); [by []| | |by []| |by []].
- have [h0 _] := outs_fresh (N := N) ball hb ho hN; rewrite catA; exact: h0.
- move=> v; rewrite !mem_cat !in_cons !in_nil m0 m1 m2 m3 m4 m5 m6.
  case: (v \in new_a) => //; case: (v \in new_e); first by rewrite !orbT.
  by clear - t2 t3 t5 t7 t9 t10; lia.
exact: (fun _ hc => hc).
Qed.
End Gok.
End Round.
