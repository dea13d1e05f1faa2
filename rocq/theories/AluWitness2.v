(** Witness generation of the ALU gadgets, continued.  Models nothing of /repo. *)
From mathcomp Require Import all_ssreflect all_algebra zify.
From Verif Require Import Outcome Lincomb LincombSpec LincombFacts R1CS R1CSSpec R1CSFacts Fieldtac.
From Verif Require Import Protoboard GadgetSpec GadgetLogic BasicGadgets BasicGadgetsFacts BasicGadgetsMore.
From Verif Require Import BasicGadgetsCopy GadgetNew GadgetSeq Prop_Gadgets MemoryCheckerFacts Benes.
From Verif Require Import Alu AluSpec AluFacts AluSound AluSound2 AluWitness.
Set Implicit Arguments.
Unset Strict Implicit.
Unset Printing Implicit Defensive.
Local Open Scope ring_scope.
Import GRing.Theory.

Section Witness.
Variable F : fieldType.
Variable R : bigint_repr F.
Add Field Ff : (Fth F).
Implicit Types (x : seq F) (pb : protoboard F).
Let bit (b : bool) : F := (nat_of_bool b)%:R.
Let inv1 (b : bool) : 1 - bit b = bit (~~ b).
Proof. by case: b; rewrite /bit /= ?subrr ?subr0. Qed.
Let size_of pb := size (pb_values pb).

(** The variables that do not matter to an operand *)
Definition aside pb0 (outs : seq nat) (m : seq nat) : bool := all (fun v => (v \in outs) || (size_of pb0 < v)%N) m.
Lemma operand_out pb0 outs d m v : operand pb0 outs d -> aside pb0 outs m -> v \in dv_packed d :: dv_bits d -> v \notin m.
Proof.
move=> /allP hd /allP hm /hd /andP [/andP [_ h1] h2]; apply/negP => /hm.
by rewrite (negbTE h2) /= ltnNge h1.
Qed.
Lemma operand_kept pb0 outs d m pb pb' bs : operand pb0 outs d -> assigns m pb pb' -> aside pb0 outs m ->
  is_word (pb_values pb) d bs -> is_word (pb_values pb') d bs.
Proof. by move=> hd h hm; apply: (word_kept h); apply/allP => v; exact: operand_out hd hm. Qed.
Lemma operand_val pb0 outs d m pb pb' : operand pb0 outs d -> assigns m pb pb' -> aside pb0 outs m ->
  xval (pb_values pb') (dv_packed d) = xval (pb_values pb) (dv_packed d).
Proof. by move=> hd h hm; apply: (assigns_val h); apply: (operand_out hd hm); exact: mem_head. Qed.
Lemma operand_var pb0 outs d : operand pb0 outs d -> is_var pb0 (dv_packed d).
Proof. by case/andP => /andP []. Qed.
Lemma operand_le pb0 outs d : operand pb0 outs d -> (dv_packed d <= size_of pb0)%N.
Proof. by case/operand_var/andP. Qed.
Lemma operand_bits_le pb0 outs d : operand pb0 outs d -> all (fun v => v <= size_of pb0)%N (dv_bits d).
Proof. by case/andP => _; apply: sub_all => v /andP [/andP [_ ->]]. Qed.
Lemma operand_notin pb0 outs d : operand pb0 outs d -> dv_packed d \notin outs.
Proof. by case/andP => /andP []. Qed.
Lemma aside_iota pb0 outs k n : (size_of pb0 < k)%N -> aside pb0 outs (iota k n).
Proof. by move=> h; apply/allP => v; rewrite mem_iota => /andP [hv _]; rewrite (leq_trans h hv) orbT. Qed.
Lemma aside_cat pb0 outs a b : aside pb0 outs (a ++ b) = aside pb0 outs a && aside pb0 outs b.
Proof. exact: all_cat. Qed.

(** ** add *)
Lemma add_ok pb0 pb1 pb w (r rf : nat) g arg1 arg2 bs cs :
  pb_wf pb0 -> alu_add_new pb0 w r rf = (g, pb1) -> later pb1 pb -> (2 ^ w.+1 <= fp_order R)%N ->
  all (is_var pb0) [:: r; rf] -> r != rf -> operand pb0 [:: r; rf] arg1 -> operand pb0 [:: r; rf] arg2 ->
  size bs = w -> size cs = w -> is_word (pb_values pb) arg1 bs -> is_word (pb_values pb) arg2 cs ->
  exists pb', [/\ alu_add_witness R arg1 arg2 g pb = Ok pb', assigns ([:: r; rf] ++ fresh_vars pb0 pb1) pb pb' &
    holds (alu_add_constraints F arg1 arg2 g) (pb_values pb')].
Proof.
move=> hw; rewrite /alu_add_new.
case e1: (allocate_var pb0) => [sm q1]; have [h1 es s1] := allocate_var_new hw e1.
case e2: (allocate_array q1 w) => [a q2]; have [h2 ea s2] := allocate_array_new (allocates_wf h1) e2.
case=> <- <- [hwp hl _] hp /= /and3P [/andP [r0 hr] /andP [rf0 hrf] _] hne o1 o2 sb sc w1 w2.
rewrite s1 in ea s2; rewrite s2 in hl; rewrite /fresh_vars s2 {e1 e2 h1 h2 s1}.
have p1 := operand_le o1; have p2 := operand_le o2.
move: hr hrf hl p1 p2 es ea; rewrite /size_of; set N := size (pb_values pb0) => hr hrf hl p1 p2 es ea.
rewrite {}es {}ea {s2} /alu_add_witness /=.
have [M1 M2] : (dv_packed arg1 <= size (pb_values pb))%N /\ (dv_packed arg2 <= size (pb_values pb))%N by move: hl p1 p2; clear; lia.
rewrite !(pb_val_ok hwp) //; cbn [obind]; case: (w1) (w2) => [b1 v1] [b2 v2]; rewrite v1 v2 -natrD.
set n := (_ + _)%N.
have hn : (n < 2 ^ w.+1)%N by rewrite expnS; have := bits_nat_lt bs; have := bits_nat_lt cs; rewrite sb sc /n; clear; lia.
have [|pa [-> a1 x1]] := step_set (pb := pb) (v := N.+1) n%:R hwp; first by rewrite /is_var; move: hl; clear; lia.
cbn [obind].
have z1 := assigns_sz a1.
have [|||||||pc [ds [-> a2 hb hd]]] := step_packed (R := R) (pb := pa) (vs := rcons (iota N.+2 w) rf) (v := N.+1) (n := n) (assigns_wf a1).
- by rewrite z1; move: hl; clear; lia.
- by rewrite rcons_uniq iota_uniq mem_iota; move: hrf; clear; lia.
- rewrite all_rcons /is_var z1; apply/andP; split; first by move: hrf rf0 hl; clear; lia.
  by apply/allP => v; rewrite mem_iota; move: hl; clear; lia.
- by rewrite mem_rcons inE mem_iota; move: hrf; clear; lia.
- exact: x1.
- by rewrite size_rcons size_iota.
- by rewrite size_rcons size_iota.
cbn [obind]; have z2 := assigns_sz a2.
have [b [ds' [eds hb1 hb2]]] := bits_rconsP hb.
have [||||pd [-> a3 x3]] := step_bits (pb := pc) (vs := iota N.+2 w) (v := r) (bs := ds') (assigns_wf a2).
- by rewrite /is_var z2 z1; move: hr r0 hl; clear; lia.
- by apply/allP => v; rewrite mem_iota z2 z1; move: hl; clear; lia.
- by rewrite mem_iota; move: hr; clear; lia.
- exact: hb1.
have as1 : aside pb0 [:: r; rf] [:: N.+1] by rewrite /aside /= ltnSn orbT.
have as2 : aside pb0 [:: r; rf] (rcons (iota N.+2 w) rf).
  by rewrite -cats1 aside_cat aside_iota // /aside /= !inE eqxx !orbT.
have as3 : aside pb0 [:: r; rf] [:: r] by rewrite /aside /= !inE eqxx.
have K v : v \in iota N.+1 w.+1 -> v != r.
  by rewrite mem_iota; move: hr; clear; lia.
have w1' := operand_kept o1 a3 as3 (operand_kept o1 a2 as2 (operand_kept o1 a1 as1 w1)).
have w2' := operand_kept o2 a3 as3 (operand_kept o2 a2 as2 (operand_kept o2 a1 as1 w2)).
have hb' : bits_are (pb_values pd) (rcons (iota N.+2 w) rf) ds.
  apply: (assigns_bits a3) hb; rewrite all_rcons inE eq_sym hne /=.
  by apply/allP => v hv; rewrite inE K //=; rewrite inE hv orbT.
have hs' : xval (pb_values pd) N.+1 = n%:R.
  rewrite (assigns_val a3) ?inE ?K ?mem_head // (assigns_val a2); first exact: x1.
  by rewrite mem_rcons inE mem_iota; move: hrf; clear; lia.
exists pd; split=> //.
  have a12 : assigns (N.+1 :: rcons (iota N.+2 w) rf) pb pc.
    by apply: (assigns_trans _ _ a1 a2) => v; rewrite ?inE => -> //; rewrite orbT.
  apply: (assigns_trans _ _ a12 a3) => v; last by rewrite !inE => /eqP ->; rewrite eqxx.
  rewrite !inE mem_rcons inE !mem_iota; clear; lia.
rewrite /alu_add_constraints holds_rc holds_cat; cbn [foldr ad_sum ad_res_word ad_result_flag ad_result].
rewrite !vrE !addr0 xone mul1r; case: (w1') (w2') => [_ ->] [_ ->]; split; first by rewrite -natrD hs'.
split; first by apply/(pv_true_iff _ hb'); rewrite hs' hd.
have hb1' : bits_are (pb_values pd) (iota N.+2 w) ds'.
  by apply: (assigns_bits a3) hb1; apply/allP => v hv; rewrite inE K //= inE hv orbT.
by apply/(pv_false _ hb1'); exact: x3.
Qed.
(** ** sub *)
Lemma sub_ok pb0 pb1 pb w (r rf : nat) g arg1 arg2 bs cs :
  pb_wf pb0 -> alu_sub_new pb0 w r rf = (g, pb1) -> later pb1 pb -> (2 ^ w.+1 <= fp_order R)%N ->
  all (is_var pb0) [:: r; rf] -> r != rf -> operand pb0 [:: r; rf] arg1 -> operand pb0 [:: r; rf] arg2 ->
  size bs = w -> size cs = w -> is_word (pb_values pb) arg1 bs -> is_word (pb_values pb) arg2 cs ->
  exists pb', [/\ alu_sub_witness R w arg1 arg2 g pb = Ok pb', assigns ([:: r; rf] ++ fresh_vars pb0 pb1) pb pb' &
    holds (alu_sub_constraints F w arg1 arg2 g) (pb_values pb')].
Proof.
move=> hw; rewrite /alu_sub_new.
case e1: (allocate_var pb0) => [sm q1]; have [h1 es s1] := allocate_var_new hw e1.
case e3: (allocate_var q1) => [ng q3]; have [h3 en s3] := allocate_var_new (allocates_wf h1) e3.
case e2: (allocate_array q3 w) => [a q2]; have [h2 ea s2] := allocate_array_new (allocates_wf h3) e2.
case=> <- <- [hwp hl _] hp /= /and3P [/andP [r0 hr] /andP [rf0 hrf] _] hne o1 o2 sb sc w1 w2.
rewrite s1 in en s3; rewrite s3 in ea s2; rewrite s2 in hl; rewrite /fresh_vars s2 {e1 e2 e3 h1 h2 h3 s1 s3}.
have p1 := operand_le o1; have p2 := operand_le o2.
move: hr hrf hl p1 p2 es en ea; rewrite /size_of; set N := size (pb_values pb0) => hr hrf hl p1 p2 es en ea.
rewrite {}es {}en {}ea {s2} /alu_sub_witness /=.
have [M1 M2] : (dv_packed arg1 <= size (pb_values pb))%N /\ (dv_packed arg2 <= size (pb_values pb))%N by move: hl p1 p2; clear; lia.
rewrite !(pb_val_ok hwp) //; cbn [obind]; case: (w1) (w2) => [b1 v1] [b2 v2]; rewrite v1 v2 -natrX -natrD.
have l1 := bits_nat_lt bs; have l2 := bits_nat_lt cs; rewrite sb in l1; rewrite sc in l2.
rewrite -natrB; last by move: l2; clear; lia.
set n := (_ - _)%N.
have hn : (n < 2 ^ w.+1)%N by rewrite expnS /n; move: l1 l2; clear; lia.
have [|pa [-> a1 x1]] := step_set (pb := pb) (v := N.+1) n%:R hwp; first by rewrite /is_var; move: hl; clear; lia.
cbn [obind].
have z1 := assigns_sz a1.
have [|||||||pc [ds [-> a2 hb hd]]] := step_packed (R := R) (pb := pa) (vs := rcons (iota N.+3 w) N.+2) (v := N.+1) (n := n) (assigns_wf a1).
- by rewrite z1; move: hl; clear; lia.
- by rewrite rcons_uniq iota_uniq mem_iota; clear; lia.
- rewrite all_rcons /is_var z1; apply/andP; split; first by move: hl; clear; lia.
  by apply/allP => v; rewrite mem_iota; move: hl; clear; lia.
- by rewrite mem_rcons inE mem_iota; clear; lia.
- exact: x1.
- by rewrite size_rcons size_iota.
- by rewrite size_rcons size_iota.
cbn [obind]; have z2 := assigns_sz a2.
have [b [ds' [eds hb1 hb2]]] := bits_rconsP hb.
have [||||pd [-> a3 x3]] := step_bits (pb := pc) (vs := iota N.+3 w) (v := r) (bs := ds') (assigns_wf a2).
- by rewrite /is_var z2 z1; move: hr r0 hl; clear; lia.
- by apply/allP => v; rewrite mem_iota z2 z1; move: hl; clear; lia.
- by rewrite mem_iota; move: hr; clear; lia.
- exact: hb1.
cbn [obind]; have z3 := assigns_sz a3.
rewrite (pb_val_ok (assigns_wf a3)); last by rewrite z3 z2 z1; move: hl; clear; lia.
cbn [obind].
have [|pe [-> a4 x4]] := step_set (pb := pd) (v := rf) (1 - xval (pb_values pd) N.+2) (assigns_wf a3).
  by rewrite /is_var z3 z2 z1; move: hrf rf0 hl; clear; lia.
have a34 : assigns [:: r; rf] pc pe by apply: (assigns_trans _ _ a3 a4); subset_tac.
have as1 : aside pb0 [:: r; rf] [:: N.+1] by rewrite /aside /= ltnSn orbT.
have as2 : aside pb0 [:: r; rf] (rcons (iota N.+3 w) N.+2).
  by rewrite -cats1 aside_cat aside_iota // /aside /= ?leqnSn ?orbT // /size_of -/N; clear; lia.
have as3 : aside pb0 [:: r; rf] [:: r; rf] by rewrite /aside /= !inE !eqxx orbT.
have K v : v \in iota N.+1 w.+2 -> v \notin [:: r; rf].
  by rewrite mem_iota !inE; move: hr hrf; clear; lia.
have w1' := operand_kept o1 a34 as3 (operand_kept o1 a2 as2 (operand_kept o1 a1 as1 w1)).
have w2' := operand_kept o2 a34 as3 (operand_kept o2 a2 as2 (operand_kept o2 a1 as1 w2)).
have hb' : bits_are (pb_values pe) (rcons (iota N.+3 w) N.+2) ds.
  apply: (assigns_bits a34) hb; apply/allP => v; rewrite mem_rcons inE => hv; apply: K.
  by rewrite !inE; case/orP: hv => ->; rewrite ?orbT.
have hb1' : bits_are (pb_values pe) (iota N.+3 w) ds'.
  by apply: (assigns_bits a34) hb1; apply/allP => v hv; apply: K; rewrite !inE hv !orbT.
have hs' : xval (pb_values pe) N.+1 = n%:R.
  rewrite (assigns_val a34) ?K ?mem_head // (assigns_val a2); first exact: x1.
  by rewrite mem_rcons inE mem_iota; clear; lia.
exists pe; split=> //.
  have a12 : assigns (N.+1 :: rcons (iota N.+3 w) N.+2) pb pc.
    by apply: (assigns_trans _ _ a1 a2) => v; rewrite ?inE => -> //; rewrite orbT.
  apply: (assigns_trans _ _ a12 a34) => v; last by rewrite !inE => /orP [] ->; rewrite ?orbT.
  by rewrite !inE mem_rcons inE !mem_iota; clear; lia.
rewrite /alu_sub_constraints; cbn [sb_inter sb_negated_flag sb_res_word sb_result sb_result_flag].
rewrite holds_cons !holds_cat (holds1 (r1cs_constraint_of_lists _ _ _)) rcE /constraint_holds; cbn [c_a c_b c_c foldr].
rewrite !vrE !tmE lc3E ?lc1E !addr0 ?xone !mul1r ?mulr1 !mulN1r.
case: (w1') (w2') => [_ ->] [_ ->]; split.
  by rewrite hs' /n natrB ?natrD ?natrX //; move: l2; clear; lia.
split; first by apply/(pv_true_iff _ hb'); rewrite hs' hd.
split; first by apply/(pv_false _ hb1'); rewrite (assigns_val a4) ?inE //; exact: x3.
rewrite [RHS]x4 (assigns_val a4) // inE; move: hrf; clear; lia.
Qed.
End Witness.
