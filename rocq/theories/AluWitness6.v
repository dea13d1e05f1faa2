(** Witness generation of the multiplication and comparison ALU gadgets.  Models nothing of /repo. *)
From mathcomp Require Import all_ssreflect all_algebra zify.
From Verif Require Import Outcome Lincomb LincombSpec LincombFacts R1CS R1CSSpec R1CSFacts Fieldtac.
From Verif Require Import Protoboard GadgetSpec GadgetLogic BasicGadgets BasicGadgetsFacts BasicGadgetsMore.
From Verif Require Import BasicGadgetsCopy GadgetNew GadgetSeq Prop_Gadgets MemoryCheckerFacts Benes.
From Verif Require Import Alu AluSpec AluFacts AluSound AluSound2 AluWitness AluWitness2 AluWitness3 AluWitness4 AluWitness5.
Set Implicit Arguments.
Unset Strict Implicit.
Unset Printing Implicit Defensive.
Local Open Scope ring_scope.
Import GRing.Theory.


Section Witness.
Variable F : fieldType.
Variable R : bigint_repr F.
Add Field Ff : (Fth F).
Implicit Types (x : seq F) (pb : protoboard F).
Let bit (b : bool) : F := (nat_of_bool b)%:R.
Let inv1 (b : bool) : 1 - bit b = bit (~~ b).
Proof. by case: b; rewrite /bit /= ?subrr ?subr0. Qed.
Let size_of pb := size (pb_values pb).

(** ** cmpg, cmpge *)
Lemma top_word x d cs b : is_word x d (rcons cs b) -> top_bit d \in dv_bits d /\ xval x (top_bit d) = bit b.
Proof.
case=> h _; rewrite /top_bit; case/lastP: (dv_bits d) h => [|vs v] h; first by have := bits_size h; rewrite size_rcons.
have [b' [cs' [e _ h3]]] := bits_rconsP h; have [_ e2] := rcons_inj e.
by rewrite last_rcons mem_rcons mem_head h3 -e2.
Qed.
Lemma cmps_bits x d (n : nat) cs b : is_word x d (rcons cs b) -> xval x n = 1 - xval x (top_bit d) ->
  bits_are x (rcons (but_last (dv_bits d)) n) (rcons cs (~~ b)).
Proof.
move=> hd hn; have [_ ht] := top_word hd; case: hd => h1 _; rewrite ht inv1 in hn.
case/lastP: (dv_bits d) h1 => [|vs v] h1; first by have := bits_size h1; rewrite size_rcons.
have [b' [cs' [e h2 h3]]] := bits_rconsP h1; have [e1 _] := rcons_inj e; subst cs'.
by rewrite but_last_rcons; apply: bits_rcons h2 hn.
Qed.
Lemma mem_but_last (vs : seq nat) v : v \in but_last vs -> v \in vs.
Proof. exact: mem_take. Qed.

Definition cmps_vars (o : cmps_outs) : seq nat := [:: cs_g o; cs_g_flag o; cs_ge o; cs_ge_flag o].
Lemma cmps_ok pb0 pb1 pb w des arg1 arg2 o g bs cs :
  pb_wf pb0 -> alu_cmps_new pb0 w o = Ok (g, pb1) -> later pb1 pb -> (0 < w)%N -> (2 ^ w.+1 <= fp_order R)%N ->
  all (is_var pb0) (cmps_vars o) -> uniq (cmps_vars o) -> all (operand pb0 (cmps_vars o)) [:: des; arg1; arg2] ->
  size bs = w -> size cs = w -> is_word (pb_values pb) arg1 bs -> is_word (pb_values pb) arg2 cs ->
  exists pb', [/\ alu_cmps_witness R des arg1 arg2 o g pb = Ok pb', assigns (cmps_vars o ++ fresh_vars pb0 pb1) pb pb' &
    holds (alu_cmps_constraints des arg1 arg2 o g) (pb_values pb')].
Proof.
rewrite /alu_cmps_new /cmps_vars; case: o => e ef a af; cbn [cs_g cs_g_flag cs_ge cs_ge_flag].
move=> hw.
case e1: (allocate_var pb0) => [v1 q1]; have [h1 ev1 s1] := allocate_var_new hw e1.
case e2: (allocate_var q1) => [v2 q2]; have [h2 ev2 s2] := allocate_var_new (allocates_wf h1) e2.
case e3: (allocate_var q2) => [v3 q3]; have [h3 ev3 s3] := allocate_var_new (allocates_wf h2) e3.
case e4: (allocate_var q3) => [v4 q4]; have [h4 ev4 s4] := allocate_var_new (allocates_wf h3) e4.
case e5: (comparison_new _ _ _ _ _ _) => [[c q5]| |] //; cbn [obind fst snd].
move=> heq; have {heq} [eg eq] : AluCmps v1 v2 v3 v4 c = g /\ q5 = pb1 by case: heq.
rewrite -{}eg -{}eq {g pb1} => hlat w0 hp.
rewrite s1 in ev2 s2; rewrite s2 in ev3 s3; rewrite s3 in ev4 s4.
set outs := [:: e; ef; a; af] => hv hu /= /and4P [od o1 o2 _] sb sc w1 w2.
have hv' v : v \in outs -> (0 < v <= size (pb_values pb0))%N by move/(allP hv).
have [a0 [h5 _ _ _ _]] := comparison_new_spec (allocates_wf h4) e5.
have l5 := allocates_size h5; rewrite s4 in l5.
case: (hlat) => hwp hl _; have hl0 := leq_trans l5 hl.
have [bs' [b eb]] : exists cs b, bs = rcons cs b by apply: last_negate; rewrite sb.
have [cs' [c' ec]] : exists ds b, cs = rcons ds b by apply: last_negate; rewrite sc.
subst bs cs.
rewrite /fresh_vars.
move: hv' hl0 l5 ev1 ev2 ev3 ev4 s4; set N := size (pb_values pb0) => hv' hl0 l5 ev1 ev2 ev3 ev4 s4.
have opl d v : operand pb0 outs d -> v \in dv_packed d :: dv_bits d -> (0 < v <= N)%N /\ v \notin outs.
  by move=> /allP ho /ho /andP [].
have [t1m t1v] := top_word w1; have [t2m t2v] := top_word w2.
have [t1l t1n] : (0 < top_bit arg1 <= N)%N /\ top_bit arg1 \notin outs by apply: (opl _ _ o1); rewrite inE t1m orbT.
have [t2l t2n] : (0 < top_bit arg2 <= N)%N /\ top_bit arg2 \notin outs by apply: (opl _ _ o2); rewrite inE t2m orbT.
rewrite /alu_cmps_witness; cbn [cs_neg1 cs_neg2 cs_packed1 cs_packed2 cs_comparator cs_g cs_ge cs_g_flag cs_ge_flag].
rewrite (pb_val_ok hwp); last by move: t1l hl0; clear; lia.
cbn [obind]; rewrite t1v inv1.
have [|pa [-> a1 x1]] := step_set (pb := pb) (v := v1) (bit (~~ b)) hwp; first by rewrite /is_var ev1; move: hl0; clear; lia.
cbn [obind]; have z1 := assigns_sz a1.
have as1 : aside pb0 outs [:: v1] by rewrite /aside /= ev1 -/N ltnSn orbT.
have w2a := operand_kept o2 a1 as1 w2; have w1a := operand_kept o1 a1 as1 w1.
have [_ t2v'] := top_word w2a.
rewrite (pb_val_ok (assigns_wf a1)); last by rewrite z1; move: t2l hl0; clear; lia.
cbn [obind]; rewrite t2v' inv1.
have [|pc [-> a2 x2]] := step_set (pb := pa) (v := v2) (bit (~~ c')) (assigns_wf a1).
  by rewrite /is_var z1 ev2; move: hl0; clear; lia.
cbn [obind]; have z2 := assigns_sz a2; rewrite z1 in z2.
have as2 : aside pb0 outs [:: v2] by rewrite /aside /= ev2 -/N; apply/andP; split=> //; apply/orP; right; clear; lia.
have w1b := operand_kept o1 a2 as2 w1a; have w2b := operand_kept o2 a2 as2 w2a.
have [_ t1w] := top_word w1b; have [_ t2w] := top_word w2b.
have y1 : xval (pb_values pc) v1 = bit (~~ b).
  by rewrite (assigns_val a2) ?x1 // inE ev1 ev2; clear; lia.
have B1 : bits_are (pb_values pc) (rcons (but_last (dv_bits arg1)) v1) (rcons bs' (~~ b)).
  by apply: (cmps_bits w1b); rewrite y1 t1w inv1.
have B2 : bits_are (pb_values pc) (rcons (but_last (dv_bits arg2)) v2) (rcons cs' (~~ c')).
  by apply: (cmps_bits w2b); rewrite [LHS]x2 t2w inv1.
have mb d n v : operand pb0 outs d -> v \in rcons (but_last (dv_bits d)) n -> v = n \/ ((0 < v <= N)%N /\ v \notin outs).
  move=> ho; rewrite mem_rcons inE => /orP [/eqP|/mem_but_last hm]; [by left|right].
  by apply: (opl _ _ ho); rewrite inE hm orbT.
have [|||pd [-> a3 x3]] := step_bits (pb := pc) (v := v3) (assigns_wf a2) _ _ _ B1.
- by rewrite /is_var z2 ev3; move: hl0; clear; lia.
- by apply/allP => v /(mb _ _ _ o1) [->|[hvv _]]; rewrite z2 ?ev1; [|move: hvv]; move: hl0; clear; lia.
- by apply/negP => /(mb _ _ _ o1) [|[]]; rewrite ev3 ?ev1; clear; lia.
cbn [obind]; have z3 := assigns_sz a3; rewrite z2 in z3.
have B2' : bits_are (pb_values pd) (rcons (but_last (dv_bits arg2)) v2) (rcons cs' (~~ c')).
  apply: (assigns_bits a3) B2; apply/allP => v /(mb _ _ _ o2) [->|[hvv _]]; rewrite inE ev3 ?ev2; [|move: hvv]; clear; lia.
have [|||pe [-> a4 x4]] := step_bits (pb := pd) (v := v4) (assigns_wf a3) _ _ _ B2'.
- by rewrite /is_var z3 ev4; move: hl0; clear; lia.
- by apply/allP => v /(mb _ _ _ o2) [->|[hvv _]]; rewrite z3 ?ev2; [|move: hvv]; move: hl0; clear; lia.
- by apply/negP => /(mb _ _ _ o2) [|[]]; rewrite ev4 ?ev2; clear; lia.
cbn [obind]; have z4 := assigns_sz a4; rewrite z3 in z4.
have lat4 : later q5 pe by exact: (assigns_later a4 (assigns_later a3 (assigns_later a2 (assigns_later a1 hlat)))).
have y3 : xval (pb_values pe) v3 = (bits_nat (rcons bs' (~~ b)))%:R.
  by rewrite (assigns_val a4) ?inE ?ev3 ?ev4; [rewrite -ev3; exact: x3|clear; lia].
have lb := bits_nat_lt (rcons bs' (~~ b)); have lc := bits_nat_lt (rcons cs' (~~ c')).
have sb' : size (rcons bs' (~~ b)) = w by rewrite -sb !size_rcons.
have sc' : size (rcons cs' (~~ c')) = w by rewrite -sc !size_rcons.
rewrite sb' in lb; rewrite sc' in lc.
have [oe oef oa oaf] : [/\ e \in outs, ef \in outs, a \in outs & af \in outs] by rewrite !inE !eqxx !orbT.
uniq_split hu; have hne : ef != af by neqs.
have up v : v \in outs -> is_var q4 v by move/hv'; rewrite /is_var s4; clear; lia.
have high v : (N < v)%N -> forall u, u \in outs -> v != u.
  by move=> hNv u /hv' hh; apply/eqP => ee; move: hNv hh; rewrite ee; clear; lia.
have [|||pf [-> a5 [x5 x6] hcmp]] := compare_vars (allocates_wf h4) e5 lat4 hp _ hne _ _ x4 y3 lc lb.
- by rewrite /= (up ef oef) (up af oaf) /is_var s4 ev4 ev3; clear; lia.
- by rewrite !inE negb_or !(high v4) // ev4; clear; lia.
- by rewrite !inE negb_or !(high v3) // ev3; clear; lia.
cbn [obind]; have z5 := assigns_sz a5; rewrite z4 in z5.
have upd pb' v : size (pb_values pb') = size (pb_values pb) -> v \in outs -> is_var pb' v.
  by move=> ez /hv'; rewrite /is_var ez; move: hl0; clear; lia.
rewrite (pb_val_ok (assigns_wf a5)); last by have := operand_le od; rewrite z5 -/N; move: hl0; clear; lia.
cbn [obind]; set dv := xval (pb_values pf) (dv_packed des).
have [|pg [-> a6 x7]] := step_set (pb := pf) (v := e) dv (assigns_wf a5); first exact: upd.
cbn [obind]; have z6 := assigns_sz a6; rewrite z5 in z6.
have [|ph [-> a7 x8]] := step_set (pb := pg) (v := a) dv (assigns_wf a6); first exact: upd.
have a67 := assigns_cat a6 a7; rewrite /= in a67.
have a14 := assigns_cat (assigns_cat (assigns_cat a1 a2) a3) a4; rewrite /= in a14.
have a57 := assigns_cat a5 a67.
have a17 := assigns_cat a14 a57.
have efr : fresh_vars q4 q5 = iota N.+4.+1 (size (pb_values q5) - N.+4) by rewrite /fresh_vars s4.
rewrite efr in a5 a57 a17 hcmp.
have in17 v : v \in [:: v1; v2; v3; v4] ++ ([:: ef; af] ++ iota N.+4.+1 (size (pb_values q5) - N.+4)) ++ [:: e; a] ->
    v \in outs ++ iota N.+1 (size (pb_values q5) - N).
  rewrite !mem_cat !inE !mem_iota ev1 ev2 ev3 ev4 -!orbA.
  do 4![case/orP => [/eqP ->|]; first by apply/orP; right; apply/orP; right; apply/orP; right; apply/orP; right; move: l5; clear; lia].
  case/or4P => [->|->| |]; rewrite ?orbT //.
    by move=> hh; apply/orP; right; apply/orP; right; apply/orP; right; apply/orP; right; move: hh l5; clear; lia.
  by case/orP => ->; rewrite ?orbT.
have a17' := assigns_sub in17 a17.
have asd : aside pb0 outs (outs ++ iota N.+1 (size (pb_values q5) - N)).
  by rewrite aside_cat aside_iota // andbT; apply/allP => v ->.
have w1' := operand_kept o1 a17' asd w1; have w2' := operand_kept o2 a17' asd w2.
exists ph; split; [by []|exact: a17'|].
have kp v : (N < v <= N.+4)%N -> xval (pb_values ph) v = xval (pb_values pe) v.
  move=> hvv; apply: (assigns_val a57); have hN : (N < v)%N by case/andP: hvv.
  rewrite !mem_cat !inE !negb_or !(high v) // mem_iota; move: hvv; clear; lia.
have [_ t1z] := top_word w1'; have [_ t2z] := top_word w2'.
have f1 : xval (pb_values ph) v1 = bit (~~ b).
  rewrite kp ?ev1; last by clear; lia.
  rewrite (assigns_val a4) ?inE ?ev4; last by clear; lia.
  by rewrite (assigns_val a3) ?inE ?ev3 -?ev1 ?y1 // ev1; clear; lia.
have f2 : xval (pb_values ph) v2 = bit (~~ c').
  rewrite kp ?ev2; last by clear; lia.
  rewrite (assigns_val a4) ?inE ?ev4; last by clear; lia.
  by rewrite (assigns_val a3) ?inE ?ev3 -?ev2 ?[LHS]x2 // ev2; clear; lia.
rewrite /alu_cmps_constraints; cbn [cs_neg1 cs_neg2 cs_packed1 cs_packed2 cs_comparator cs_g cs_ge cs_g_flag cs_ge_flag].
rewrite 4!holds_cat !holds_rc !holds_nil; cbn [foldr]; rewrite !vrE !tmE !addr0 ?xone !mul1r !mulN1r.
have g1 : 1 - xval (pb_values ph) (top_bit arg1) = xval (pb_values ph) v1 by rewrite t1z f1 inv1.
have g2 : 1 - xval (pb_values ph) (top_bit arg2) = xval (pb_values ph) v2 by rewrite t2z f2 inv1.
split; first by split=> //; split.
split; first by apply/(cmps_modified _ erefl w1' (esym g1)); rewrite kp ?y3 // ev3; clear; lia.
split; first by apply/(cmps_modified _ erefl w2' (esym g2)); rewrite kp ?[LHS]x4 // ev4; clear; lia.
split.
  apply: (hcmp _ _ a67); apply/allP => v hvm.
  have hvo : v \in outs by move: hvm; rewrite !inE => /orP [] ->; rewrite ?orbT.
  have hvb := hv' v hvo; have v0 : (0 < v)%N by case/andP: hvb.
  rewrite v0 andTb mem_cat negb_or; apply/andP; split; last by rewrite mem_iota; move: hvb; clear; lia.
  rewrite !inE !negb_or; apply/and4P; split; try by rewrite eq_sym (high _ _ v hvo) // ?ev3 ?ev4; clear; lia.
  - by move: hvm; rewrite !inE => /orP [] /eqP ->; neqs.
  - by move: hvm; rewrite !inE => /orP [] /eqP ->; neqs.
have nd : dv_packed des \notin [:: e; a].
  by apply: contra (operand_notin od); rewrite !inE => /orP [] ->; rewrite ?orbT.
rewrite !(assigns_val a67 nd) -/dv.
split; last by split; [exact: esym x8|].
by rewrite (assigns_val a7) ?inE; [exact: esym x7|neqs].
Qed.
End Witness.
