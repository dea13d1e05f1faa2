(** Witness generation of the multiplication and comparison ALU gadgets.  Models nothing of /repo. *)
From mathcomp Require Import all_ssreflect all_algebra zify.
From Verif Require Import Outcome Lincomb LincombSpec LincombFacts R1CS R1CSSpec R1CSFacts Fieldtac.
From Verif Require Import Protoboard GadgetSpec GadgetLogic BasicGadgets BasicGadgetsFacts BasicGadgetsMore.
From Verif Require Import BasicGadgetsCopy GadgetNew GadgetSeq Prop_Gadgets MemoryCheckerFacts Benes.
From Verif Require Import Alu AluSpec AluFacts AluSound AluSound2 AluWitness AluWitness2 AluWitness3 AluWitness4.
Set Implicit Arguments.
Unset Strict Implicit.
Unset Printing Implicit Defensive.
Local Open Scope ring_scope.
Import GRing.Theory.


Section Witness.
Variable F : fieldType.
Variable R : bigint_repr F.
Add Field Ff : (Fth F).
Implicit Types (x : seq F) (pb : protoboard F).
Let bit (b : bool) : F := (nat_of_bool b)%:R.
Let size_of pb := size (pb_values pb).

(** ** mull, umulh *)
Definition umul_vars (o : umul_outs) : seq nat := [:: um_mull o; um_mull_flag o; um_umulh o; um_umulh_flag o].
Lemma umul_ok pb0 pb1 pb w arg1 arg2 o g bs cs :
  pb_wf pb0 -> alu_umul_new pb0 w = Ok (g, pb1) -> later pb1 pb -> (2 ^ (2 * w) <= fp_order R)%N ->
  all (is_var pb0) (umul_vars o) -> uniq (umul_vars o) -> all (operand pb0 (umul_vars o)) [:: arg1; arg2] ->
  size bs = w -> size cs = w -> is_word (pb_values pb) arg1 bs -> is_word (pb_values pb) arg2 cs ->
  exists pb', [/\ alu_umul_witness R w arg1 arg2 o g pb = Ok pb', assigns (umul_vars o ++ fresh_vars pb0 pb1) pb pb' &
    holds (alu_umul_constraints F w arg1 arg2 o g) (pb_values pb')].
Proof.
rewrite /alu_umul_new /umul_vars /dual_variable_new; case: o => l lf h hf; cbn [um_mull um_mull_flag um_umulh um_umulh_flag].
move=> hw.
case e1: (allocate_var pb0) => [p q1]; have [h1 ep s1] := allocate_var_new hw e1.
case e2: (allocate_array q1 _) => [a q2]; have [h2 ea s2] := allocate_array_new (allocates_wf h1) e2.
case e3: (allocate_var q2) => [f q3]; have [h3 ef s3] := allocate_var_new (allocates_wf h2) e3.
case e4: (disjunction_new _ _ _) => [[d q4]| |] //; cbn [dv_bits] in e4; cbn [obind fst snd].
move=> heq; have {heq} [eg eq] : AluUmul (DualVariable p a) f d = g /\ q4 = pb1 by case: heq.
rewrite -{}eg -{}eq {g pb1} => hlat hp.
rewrite s1 in ea s2; rewrite s2 in ef s3.
set outs := [:: l; lf; h; hf] => hv hu /= /and3P [o1 o2 _] sb sc w1 w2.
have hv' v : v \in outs -> (0 < v <= size (pb_values pb0))%N by move/(allP hv).
have [_ h4 ei eo efr] := disjunction_new_spec (allocates_wf h3) e4.
have s4 : size (pb_values q4) = (size (pb_values q3)).+1.
  by have := congr1 size efr; have := allocates_size h4; rewrite size_iota /=; clear; lia.
case: (hlat) => hwp hl _; rewrite s4 s3 in hl.
have p1 := operand_le o1; have p2 := operand_le o2.
rewrite /fresh_vars s4 s3.
move: hv' hl p1 p2 ep ea ef s3; rewrite /size_of; set N := size (pb_values pb0) => hv' hl p1 p2 ep ea ef s3.
rewrite /alu_umul_witness; cbn [um_mul um_result_flag um_compute_flag dv_packed dv_bits um_mull um_mull_flag um_umulh um_umulh_flag].
have [M1 M2] : (dv_packed arg1 <= size (pb_values pb))%N /\ (dv_packed arg2 <= size (pb_values pb))%N by move: hl p1 p2; clear; lia.
rewrite !(pb_val_ok hwp) //; cbn [obind]; case: (w1) (w2) => [b1 v1] [b2 v2]; rewrite v1 v2 -natrM.
have l1 := bits_nat_lt bs; have l2 := bits_nat_lt cs; rewrite sb in l1; rewrite sc in l2.
set n := (_ * _)%N.
have hn : (n < 2 ^ (2 * w))%N by rewrite mul2n -addnn expnD; apply: ltn_mul.
have sa : size a = (2 * w)%N by rewrite ea size_iota.
have mem_a v : v \in a -> (N.+1 < v <= N.+1 + 2 * w)%N by rewrite ea mem_iota; clear; lia.
have [|pa [-> a1 x1]] := step_set (pb := pb) (v := p) n%:R hwp; first by rewrite /is_var ep; move: hl; clear; lia.
cbn [obind]; have z1 := assigns_sz a1.
rewrite /dual_variable_witness_from_packed /dual_variable_check; cbn [dv_packed dv_bits].
have [|||||||pc [ds [-> a2 hb hd]]] := step_packed (R := R) (pb := pa) (vs := a) (v := p) (n := n) (assigns_wf a1).
- by rewrite z1 ep; move: hl; clear; lia.
- by rewrite ea iota_uniq.
- by apply/allP => v /mem_a; rewrite /is_var z1; move: hl; clear; lia.
- by apply/negP => /mem_a; rewrite ep; clear; lia.
- exact: x1.
- by rewrite sa.
- by rewrite sa.
cbn [obind]; have z2 := assigns_sz a2; rewrite z1 in z2.
have mt v : v \in take w a -> v \in a by exact: mem_take.
have md v : v \in drop w a -> v \in a by exact: mem_drop.
have vl v : v \in outs -> forall pb', size (pb_values pb') = size (pb_values pb) -> is_var pb' v.
  by move=> /hv' hh pb' e; rewrite /is_var e; move: hh hl; clear; lia.
have na v : v \in outs -> v \notin a by move=> /hv' hh; apply/negP => /mem_a; move: hh; clear; lia.
have ol : l \in outs by rewrite !inE eqxx.
have olf : lf \in outs by rewrite !inE eqxx orbT.
have oh : h \in outs by rewrite !inE eqxx !orbT.
have ohf : hf \in outs by rewrite !inE eqxx !orbT.
have [||||pd [-> a3 x3]] := step_bits (pb := pc) (vs := take w a) (v := l) (bs := take w ds) (assigns_wf a2).
- exact: vl.
- by apply/allP => v /mt /mem_a; rewrite z2; move: hl; clear; lia.
- by apply: contra (na _ ol) => /mt.
- exact: bits_take.
cbn [obind]; have z3 := assigns_sz a3; rewrite z2 in z3.
have hb3 : bits_are (pb_values pd) a ds.
  by apply: (assigns_bits a3) hb; apply/allP => v hva; rewrite inE; apply: contra (na _ ol) => /eqP <-.
have [||||pe [-> a4 x4]] := step_bits (pb := pd) (vs := drop w a) (v := h) (bs := drop w ds) (assigns_wf a3).
- exact: vl.
- by apply/allP => v /md /mem_a; rewrite z3; move: hl; clear; lia.
- by apply: contra (na _ oh) => /md.
- exact: bits_drop.
cbn [obind]; have z4 := assigns_sz a4; rewrite z3 in z4.
have hlat4 : later q4 pe.
  exact: (assigns_later a4 (assigns_later a3 (assigns_later a2 (assigns_later a1 hlat)))).
have [|||pf [-> a5 s5 hdis]] := step_disj (allocates_wf h3) e4 hlat4.
- by rewrite /is_var s3 ef; clear; lia.
- by apply/allP => v /md /mem_a; rewrite s3; clear; lia.
- by apply/negP => /md /mem_a; rewrite ef; clear; lia.
cbn [obind]; have z5 := assigns_sz a5; rewrite z4 in z5.
rewrite (pb_val_ok (assigns_wf a5)); last by rewrite z5 ef; move: hl; clear; lia.
cbn [obind]; set fv := xval (pb_values pf) f.
have [|pg [-> a6 x6]] := step_set (pb := pf) (v := lf) fv (assigns_wf a5); first exact: vl.
cbn [obind]; have z6 := assigns_sz a6; rewrite z5 in z6.
have [|ph [-> a7 x7]] := step_set (pb := pg) (v := hf) fv (assigns_wf a6); first exact: vl.
have a36 := assigns_cat (assigns_cat (assigns_cat (assigns_cat a3 a4) a5) a6) a7; rewrite /= in a36.
have a17 := assigns_cat (assigns_cat a1 a2) a36.
rewrite s3 in a36 a17 a5 hdis.
have asd : aside pb0 outs (([:: p] ++ a) ++ [:: l; h; f; (N.+1 + 2 * w).+2; lf; hf]).
  apply/allP => v; rewrite !mem_cat !inE -!orbA; rewrite ep ef -/N.
  case/orP => [/eqP -> |]; first by rewrite ltnSn !orbT.
  case/orP => [/mem_a /andP [hva _]|]; first by rewrite (ltnW hva) !orbT.
  case/or4P => [->|->|/eqP ->|]; rewrite ?orbT //; first by apply/orP; right; apply/orP; right; apply/orP; right; apply/orP; right; clear; lia.
  case/or3P => [/eqP ->|->|->]; rewrite ?orbT //; apply/orP; right; apply/orP; right; apply/orP; right; apply/orP; right; clear; lia.
have w1' := operand_kept o1 a17 asd w1; have w2' := operand_kept o2 a17 asd w2.
have own v : (N < v)%N -> v != l /\ v != h /\ v != lf /\ v != hf.
  move=> hNv; have aux u : u \in outs -> v != u by move/hv' => hh; apply/eqP => e; move: hh hNv; rewrite e; clear; lia.
  by split; [|split; [|split]]; exact: aux.
have k36 v : (N < v <= N.+1 + 2 * w)%N -> xval (pb_values ph) v = xval (pb_values pc) v.
  move=> hvv; have [|n1 [n2 [n3 n4]]] := own v; first by move: hvv; clear; lia.
  apply: (assigns_val a36); rewrite !inE !negb_or n1 n2 n3 n4 ef /= !andbT.
  by move: hvv; clear; lia.
have hb' : bits_are (pb_values ph) a ds.
  rewrite /bits_are -hb; apply/eq_in_map => v /mem_a hva; apply: k36; move: hva; clear; lia.
have hp' : xval (pb_values ph) p = n%:R.
  rewrite k36 ?ep; last by clear; lia.
  rewrite (assigns_val a2) -?ep; first exact: x1.
  by apply/negP => /mem_a; rewrite ep; clear; lia.
uniq_split hu.
have hl' : xval (pb_values ph) l = (bits_nat (take w ds))%:R.
  have := hv' _ ol => hll.
  rewrite (assigns_val a7); last by rewrite inE; neqs.
  rewrite (assigns_val a6); last by rewrite inE; neqs.
  rewrite (assigns_val a5); last by rewrite !inE negb_or ef; move: hll; clear; lia.
  rewrite (assigns_val a4); [exact: x3|by rewrite inE; neqs].
have hh' : xval (pb_values ph) h = (bits_nat (drop w ds))%:R.
  have := hv' _ oh => hll.
  rewrite (assigns_val a7); last by rewrite inE; neqs.
  rewrite (assigns_val a6); last by rewrite inE; neqs.
  by rewrite (assigns_val a5); [exact: x4|rewrite !inE negb_or ef; move: hll; clear; lia].
have hlf' : xval (pb_values ph) lf = fv by rewrite (assigns_val a7) ?inE //; exact: x6.
have hff' : xval (pb_values ph) f = fv.
  have [|_ [_ [n3 n4]]] := own f; first by rewrite ef; clear; lia.
  by rewrite (assigns_val a7) ?inE // (assigns_val a6) ?inE.
exists ph; split=> //.
  change (assigns (outs ++ iota N.+1 ((N.+1 + 2 * w).+2 - N)) pb ph).
  apply: (assigns_sub _ a17) => v; rewrite !mem_cat mem_iota -orbA; case/or3P.
  - by rewrite inE ep => /eqP ->; apply/orP; right; clear; lia.
  - by move/mem_a => hva; apply/orP; right; move: hva; clear; lia.
  rewrite !inE; case/or4P => [->|->|/eqP ->|]; rewrite ?orbT ?ef //; first by apply/orP; right; clear; lia.
  case/or3P => [/eqP ->|->|->]; rewrite ?orbT //; apply/orP; right; clear; lia.
rewrite /alu_umul_constraints; cbn [um_mul um_result_flag um_compute_flag dv_packed dv_bits um_mull um_mull_flag um_umulh um_umulh_flag].
rewrite holds_rc !holds_cat !holds_rc holds_nil; cbn [foldr]; rewrite !vrE !addr0 ?xone !mul1r.
case: (w1') (w2') => [_ ->] [_ ->]; rewrite -natrM.
split; first by rewrite hp'.
split; first by apply/(pv_true_iff _ hb'); rewrite hp' hd.
split; first by apply/(pv_false _ (bits_take w hb')).
split; first by apply/(pv_false _ (bits_drop w hb')).
split; last by split; [rewrite hff' hlf'|split=> //; rewrite hff'; exact: esym x7].
apply: hdis => u hu; have hNu : (N < u)%N.
  by move: hu; rewrite !inE; case/or3P => [/eqP ->|/eqP ->|/md /mem_a]; rewrite ?ef; clear; lia.
have [_ [_ [n3 n4]]] := own u hNu.
by rewrite (assigns_val a7) ?inE // (assigns_val a6) ?inE.
Qed.
End Witness.
