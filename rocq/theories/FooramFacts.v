(** What the constraints of the FOORAM CPU checker force.  Models nothing of /repo. *)
From mathcomp Require Import all_ssreflect all_algebra zify.
From Verif Require Import Outcome Lincomb LincombSpec LincombFacts R1CS R1CSSpec R1CSFacts Fieldtac.
From Verif Require Import Protoboard GadgetSpec GadgetLogic BasicGadgets BasicGadgetsFacts BasicGadgetsMore.
From Verif Require Import BasicGadgetsCopy GadgetNew GadgetSeq Benes Alu AluSpec AluFacts FieldGadgetsFacts TinyramCpuFacts Fooram.
Set Implicit Arguments.
Unset Strict Implicit.
Unset Printing Implicit Defensive.
Local Open Scope ring_scope.
Import GRing.Theory.

Section Facts.
Variable F : fieldType.
Variable R : bigint_repr F.
Add Field Ff : (Fth F).
Implicit Types (x : seq F) (pb : protoboard F).
Let bit (b : bool) : F := (nat_of_bool b)%:R.

(** linear combinations with the values of the bits [bs] *)
Definition lbits_are x (ls : pb_linear_combination_array F) (bs : seq bool) : Prop :=
  map (lval x) ls = [seq (nat_of_bool b)%:R | b <- bs].
Lemma lbits_vars x vs bs : bits_are x vs bs -> lbits_are x (plcs_of_vars F vs) bs.
Proof. by rewrite /lbits_are lval_vars. Qed.
Lemma pack_lbits x ls bs : lbits_are x ls bs -> pack (map (lval x) ls) = (bits_nat bs)%:R.
Proof. by move=> ->; elim: bs => [|b bs IH] //=; rewrite IH natrD natrM. Qed.
Lemma lbits_size x ls bs : lbits_are x ls bs -> size ls = size bs.
Proof. by move/(congr1 size); rewrite !size_map. Qed.

Lemma bar_new_spec pb X a Y b Z g pb' : pb_wf pb -> bar_new pb X a Y b Z = Ok (g, pb') ->
  [/\ allocates pb pb', size X = size Y, [/\ bar_X g = X, bar_a g = a, bar_Y g = Y, bar_b g = b & bar_Z g = Z],
      size (bar_Z_bits g) = size X & size (bar_overflow g) = (2 * size X)%N].
Proof.
move=> hw; rewrite /bar_new; case: eqP => [s1|]; last by []. cbn [obind oassert].
case e1: (allocate_var pb) => [p1 pb1]; have [h1 _ _] := allocate_var_new hw e1.
case e2: (allocate_array pb1 _) => [p2 pb2]; have [h2 f2 _] := allocate_array_new (allocates_wf h1) e2.
case e3: (allocate_array pb2 _) => [p3 pb3]; have [h3 f3 _] := allocate_array_new (allocates_wf h2) e3.
case=> <- <-; split=> //; first exact: allocates_trans h1 (allocates_trans h2 h3).
- by rewrite f2 size_iota.
- by rewrite f3 size_iota.
Qed.

Theorem bar_sound pb X (a : nat) Y (b : nat) Z g pb' x bs cs :
  pb_wf pb -> bar_new pb X a%:R Y b%:R Z = Ok (g, pb') ->
  (2 ^ (3 * size X) <= fp_order R)%N -> (a + b <= 2 ^ (2 * size X))%N ->
  lbits_are x X bs -> lbits_are x Y cs -> holds (bar_constraints g) x ->
  xval x Z = ((a * bits_nat bs + b * bits_nat cs) %% 2 ^ size X)%:R.
Proof.
move=> hw hg hp hab hx hy; have [_ es [eX ea eY eb eZ] sZ sO] := bar_new_spec hw hg.
rewrite /bar_constraints 2!holds_cat => [[/pv_true [rs [hrs vr]] [h2 /holds1 h3]]].
have vres : xval x (bar_result g) = (a * bits_nat bs + b * bits_nat cs)%:R.
  move: h3; rewrite /constraint_holds [c_a _]/= [c_b _]/= [c_c _]/= !fsE !packing_sumE eX eY ea eb (pack_lbits hx) (pack_lbits hy).
  by move=> <-; rewrite mul1r natrD !natrM.
have hb := bits_nat_lt bs; have hc := bits_nat_lt cs.
rewrite -(lbits_size hx) in hb; rewrite -(lbits_size hy) -es in hc.
have hlt : (a * bits_nat bs + b * bits_nat cs < 2 ^ (3 * size X))%N.
  have -> : (3 * size X = 2 * size X + size X)%N by lia.
  have hM0 : (0 < 2 ^ (2 * size X))%N by rewrite expn_gt0.
  rewrite expnD; move: (2 ^ (2 * size X))%N (2 ^ size X)%N hab hb hc hM0 => M N; clear => h1 h2 h3 hM.
  have h4 : (a * bits_nat bs <= a * N.-1)%N by rewrite leq_mul2l; apply/orP; right; move: h2; clear; lia.
  have h5 : (b * bits_nat cs <= b * N.-1)%N by rewrite leq_mul2l; apply/orP; right; move: h3; clear; lia.
  have h6 : ((a + b) * N.-1 <= M * N.-1)%N by rewrite leq_mul2r h1 orbT.
  have hN : (0 < N)%N by move: h2; clear; lia.
  have h7 : (M * N.-1 < M * N)%N by rewrite ltn_mul2l hM /=; move: hN; clear; lia.
  by move: h4 h5 h6 h7; rewrite mulnDl; clear; lia.
have srs : size rs = (3 * size X)%N by rewrite -(bits_size hrs) size_cat sZ sO; lia.
have hn : bits_nat rs = (a * bits_nat bs + b * bits_nat cs)%N.
  apply: (natF_eq (R := R)); last by rewrite -vr -vres.
    by apply: leq_trans hp; rewrite -srs; exact: bits_nat_lt.
  exact: leq_trans hlt hp.
have [hz _] := bits_catP hrs.
move/(pv_false (bar_Z g) hz): h2; rewrite eZ sZ => ->; rewrite -hn.
have {2}-> : rs = take (size X) rs ++ drop (size X) rs by rewrite cat_take_drop.
have st : size (take (size X) rs) = size X by rewrite size_takel // srs; lia.
rewrite bits_nat_cat st addnC [(2 ^ size X * _)%N]mulnC modnMDl modn_small //.
by have := bits_nat_lt (take (size X) rs); rewrite st.
Qed.

Lemma const_bits_spec pb (bs : seq bool) ls pb' : pb_wf pb ->
  const_bits pb [seq Posz (nat_of_bool b) | b <- bs] = (ls, pb') ->
  allocates pb pb' /\ forall x, lbits_are x ls bs.
Proof.
elim: bs pb ls pb' => [|b bs IH] pb ls pb' hw.
  by case=> <- <-; split=> //; exact: allocates_refl.
rewrite [map _ _]/=; cbn [const_bits].
case e1: (lc_assign pb _) => [l pb1]; have [h1 _ _] := lc_assign_new hw e1.
case e2: (const_bits pb1 _) => [ls' pb2] [<- <-].
have [h2 h3] := IH _ _ _ (allocates_wf h1) e2; split; first exact: allocates_trans h1 h2.
by move=> x; rewrite /lbits_are /= (assign_lval x e1) h3 formal_sum_int.
Qed.

Lemma select_sound x (x0 a b out : nat) (s : bool) : holds [:: select_constraint F x0 a b out] x -> xval x x0 = bit s ->
  xval x out = if s then xval x a else xval x b.
Proof.
move=> /holds1; rewrite /select_constraint /constraint_holds [c_a _]/= [c_b _]/= [c_c _]/= !fsE => h e.
transitivity (xval x out - xval x b + xval x b); first by fring F.
by rewrite -h e; case: s {h e}; rewrite /bit /= ?mulr1n ?mulr0n; fring F.
Qed.

Lemma foo_x0_bit x io vs : bits_are x (fi_pc_val io) vs -> (0 < size vs)%N -> xval x (foo_x0 io) = bit (odd (bits_nat vs)).
Proof.
move=> h hs; rewrite /foo_x0 (bits_nth h) // /bit; case: vs hs {h} => [|b vs] //= _.
by rewrite oddD mul2n odd_double addbF; case: b.
Qed.

Lemma pack_eq x vs bs v n : bits_are x vs bs -> holds (packing_constraints (Packing (plcs_of_vars F vs) (plc_of_var F v)) false) x ->
  xval x v = n%:R -> (n < fp_order R)%N -> (2 ^ size vs <= fp_order R)%N -> bits_nat bs = n.
Proof.
move=> hb /(pv_false v hb) -> e hn hs; apply: (natF_eq (R := R)) => //; exact: lt_bits hb hs.
Qed.


Lemma const_one n : (1%:Z :: nseq n 0%:Z) = [seq Posz (nat_of_bool b) | b <- true :: nseq n false].
Proof. by rewrite /= map_nseq. Qed.
Lemma bits_nat_one n : bits_nat (true :: nseq n false) = 1%N.
Proof. by rewrite /=; elim: n => [|n IH] //=; move: IH; lia. Qed.

Lemma foo_new_spec pb io g pb' x : pb_wf pb -> foo_cpu_new pb io = Ok (g, pb') ->
  exists pb1 pb2 pb3 pb4 pb5 pb6 pb7 pb8, [/\ (0 < size (fi_next_pc io))%N,
   [/\ pb_wf pb1, bar_new pb1 (plcs_of_vars F (fi_pc_addr io)) 1%:R (fc_one g) 1%:R (fc_packed_next_pc g) = Ok (fc_increment g, pb2) &
       lbits_are x (fc_one g) (true :: nseq (size (fi_next_pc io)).-1 false)],
   pb_wf pb3 /\ bar_new pb3 (plcs_of_vars F (fi_pc_addr io)) 1%:R (plcs_of_vars F (fi_pc_val io)) 1%:R (fc_packed_store_addr g) = Ok (fc_store_addr g, pb4),
   pb_wf pb5 /\ bar_new pb5 (plcs_of_vars F (fi_pc_val io)) 2%:R (plcs_of_vars F (fi_next_pc io)) 1%:R (fc_packed_load_addr g) = Ok (fc_load_addr g, pb6) &
   pb_wf pb7 /\ bar_new pb7 (plcs_of_vars F (fi_state io)) 1%:R (plcs_of_vars F (fi_pc_addr io)) 1%:R (fc_packed_store_val g) = Ok (fc_store_val g, pb8)].
Proof.
move=> hw; rewrite /foo_cpu_new.
case e1: (allocate_var pb) => [p1 q1]; have [h1 _ _] := allocate_var_new hw e1.
case: eqP => [//|/eqP hn]; rewrite -lt0n in hn.
rewrite const_one; case e2: (const_bits _ _) => [one q2].
have [h2 ho] := const_bits_spec (allocates_wf h1) e2.
move=> hh; have [[inc q3] f1 {}hh] := obind_Ok hh; cbn [fst snd] in hh.
have [a1 _ _ _ _] := bar_new_spec (allocates_wf h2) f1.
case e3: (allocate_var q3) hh => [p3 q4] hh; have [h3 _ _] := allocate_var_new (allocates_wf a1) e3.
have [[sa q5] f2 {}hh] := obind_Ok hh; cbn [fst snd] in hh.
have [a2 _ _ _ _] := bar_new_spec (allocates_wf h3) f2.
case e4: (allocate_var q5) hh => [p4 q6] hh; have [h4 _ _] := allocate_var_new (allocates_wf a2) e4.
have [[la q7] f3 {}hh] := obind_Ok hh; cbn [fst snd] in hh.
have [a3 _ _ _ _] := bar_new_spec (allocates_wf h4) f3.
case e5: (allocate_var q7) hh => [p5 q8] hh; have [h5 _ _] := allocate_var_new (allocates_wf a3) e5.
case e6: (allocate_var q8) hh => [p6 q9] hh; have [h6 _ _] := allocate_var_new (allocates_wf h5) e6.
have [[sv q10] f4 {}hh] := obind_Ok hh; cbn [fst snd] in hh.
move: hh; case: (allocate_var q10) => [? ?]; case: (allocate_var _) => [? ?]; case: (allocate_var _) => [? ?]; case: (allocate_var _) => [? ?].
case=> <- _; exists q2, q3, q4, q5, q6, q7, q9, q10.
split=> //; split=> //; [exact: allocates_wf h2|exact: allocates_wf h3|exact: allocates_wf h4|exact: allocates_wf h6].
Qed.

Theorem foo_sound pb io g pb' x w A V S_ P N L M T :
  pb_wf pb -> foo_cpu_new pb io = Ok (g, pb') -> (2 ^ (3 * w) <= fp_order R)%N ->
  [/\ size A = w, size V = w, size S_ = w & size P = w] -> [/\ size N = w, size L = w, size M = w & size T = w] ->
  bits_are x (fi_pc_addr io) A -> bits_are x (fi_pc_val io) V -> bits_are x (fi_state io) S_ -> bits_are x (fi_ls_prev io) P ->
  bits_are x (fi_next_pc io) N -> bits_are x (fi_ls_addr io) L -> bits_are x (fi_ls_next io) M -> bits_are x (fi_next_state io) T ->
  holds (foo_cpu_constraints io g) x ->
  let pc := ((bits_nat A + 1) %% 2 ^ w)%N in
  [/\ bits_nat N = pc,
      bits_nat L = (if odd (bits_nat V) then (2 * bits_nat V + pc) %% 2 ^ w else (bits_nat A + bits_nat V) %% 2 ^ w)%N,
      bits_nat M = (if odd (bits_nat V) then bits_nat P else (bits_nat S_ + bits_nat A) %% 2 ^ w)%N,
      bits_nat T = (if odd (bits_nat V) then bits_nat P else bits_nat S_) &
      xval x (fi_accepted io) = 1].
Proof.
move=> hw hg hp [sA sV sS sP] [sN sL sM sT] hA hV hS hP hN hL hM hT.
rewrite /foo_cpu_constraints 13!holds_cat => [[c1 [c2 [c3 [c4 [c5 [c6 [c7 [c8 [c9 [c10 [c11 [c12 [c13 c14]]]]]]]]]]]]]].
have [q1 [q2 [q3 [q4 [q5 [q6 [q7 [q8 [hn [w1 f1 ho] [w2 f2] [w3 f3] [w4 f4]]]]]]]]]] := foo_new_spec x hw hg.
have ssA : size (plcs_of_vars F (fi_pc_addr io)) = w by rewrite size_plcs (bits_size hA).
have ssV : size (plcs_of_vars F (fi_pc_val io)) = w by rewrite size_plcs (bits_size hV).
have ssS : size (plcs_of_vars F (fi_state io)) = w by rewrite size_plcs (bits_size hS).
have w0 : (0 < w)%N by rewrite -sN -(bits_size hN).
have h4 : (4 <= 2 ^ (2 * w))%N by rewrite (@leq_pexp2l 2 2) //; move: w0; clear; lia.
have h2w : (2 ^ w <= fp_order R)%N by apply: leq_trans hp; rewrite leq_exp2l //; lia.
have lt n : (n %% 2 ^ w < fp_order R)%N by apply: leq_trans h2w; rewrite ltn_mod expn_gt0.
have lt' bs : size bs = w -> (bits_nat bs < fp_order R)%N by move=> hs; apply: leq_trans h2w; rewrite -hs; exact: bits_nat_lt.
have hx0 := foo_x0_bit hV; rewrite sV in hx0; move: (hx0 w0); clear hx0 => hx0.
have v1 := bar_sound w1 f1 _ _ (lbits_vars hA) ho c2; rewrite ssA in v1.
have v2 := bar_sound w2 f2 _ _ (lbits_vars hA) (lbits_vars hV) c3; rewrite ssA in v2.
have v3 := bar_sound w3 f3 _ _ (lbits_vars hV) (lbits_vars hN) c4; rewrite ssV in v3.
have v4 := bar_sound w4 f4 _ _ (lbits_vars hS) (lbits_vars hA) c7; rewrite ssS in v4.
have {}v1 := v1 hp (ltnW (ltnW h4)).
have {}v2 := v2 hp (ltnW (ltnW h4)).
have {}v3 := v3 hp (ltnW h4).
have {}v4 := v4 hp (ltnW (ltnW h4)).
rewrite bits_nat_one !mul1n in v1; rewrite !mul1n in v2; rewrite !mul1n in v3; rewrite !mul1n in v4.
have eN := pack_eq hN c1 v1 (lt _); rewrite (bits_size hN) sN in eN; move/(_ h2w): eN => eN.
have s6 := select_sound c6 hx0; have s10 := select_sound c10 hx0; have s13 := select_sound c13 hx0.
have vP := (pv_false (fc_packed_ls_prev g) hP).1 c8; have vS := (pv_false (fc_packed_state g) hS).1 c11.
rewrite v2 v3 eN in s6; rewrite vP v4 in s10; rewrite vP vS in s13.
have ifn (c : bool) (m n : nat) : (if c then m%:R else n%:R) = (if c then m else n)%:R :> F by case: c.
rewrite !ifn in s6 s10 s13.
split=> //.
- by apply: (pack_eq hL c5 s6); rewrite ?(bits_size hL) ?sL //; case: ifP.
- by apply: (pack_eq hM c9 s10); rewrite ?(bits_size hM) ?sM //; case: ifP => // _; apply: lt'.
- by apply: (pack_eq hT c12 s13); rewrite ?(bits_size hT) ?sT //; case: ifP => _; apply: lt'.
- by move/holds1: c14; rewrite /constraint_holds [c_a _]/= [c_b _]/= [c_c _]/= !fsE mul1r.
Qed.
End Facts.
