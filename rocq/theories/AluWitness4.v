(** Witness generation of the comparison and multiplication ALU gadgets.  Models nothing of /repo. *)
From mathcomp Require Import all_ssreflect all_algebra zify.
From Verif Require Import Outcome Lincomb LincombSpec LincombFacts R1CS R1CSSpec R1CSFacts Fieldtac.
From Verif Require Import Protoboard GadgetSpec GadgetLogic BasicGadgets BasicGadgetsFacts BasicGadgetsMore.
From Verif Require Import BasicGadgetsCopy GadgetNew GadgetSeq Prop_Gadgets MemoryCheckerFacts Benes.
From Verif Require Import Alu AluSpec AluFacts AluSound AluSound2 AluWitness AluWitness2 AluWitness3.
Set Implicit Arguments.
Unset Strict Implicit.
Unset Printing Implicit Defensive.
Local Open Scope ring_scope.
Import GRing.Theory.

(** Inequalities between the members of an explicit duplicate-free list *)
Ltac uniq_split h := move: h; rewrite /= ?inE ?negb_or -?andbA ?andbT;
  repeat match goal with |- is_true (_ && _) -> _ => let H := fresh "ne" in case/andP => H end; let H := fresh "ne" in move=> H.
Ltac neqs := rewrite ?inE ?negb_or; repeat (apply/andP; split); first [assumption | rewrite eq_sym; assumption].

Section Witness.
Variable F : fieldType.
Variable R : bigint_repr F.
Add Field Ff : (Fth F).
Implicit Types (x : seq F) (pb : protoboard F).
Let bit (b : bool) : F := (nat_of_bool b)%:R.
Let inv1 (b : bool) : 1 - bit b = bit (~~ b).
Proof. by case: b; rewrite /bit /= ?subrr ?subr0. Qed.
Let size_of pb := size (pb_values pb).

Lemma assigns_cat m1 m2 pb1 pb2 pb3 : assigns m1 pb1 pb2 -> assigns m2 pb2 pb3 -> assigns (m1 ++ m2) pb1 pb3.
Proof. by move=> h1 h2; apply: (assigns_trans _ _ h1 h2) => v hv; rewrite mem_cat hv ?orbT. Qed.
Lemma bit_eq0 (b : bool) : (bit b == 0) = ~~ b.
Proof. by rewrite /bit; case: b; rewrite ?eqxx ?oner_eq0. Qed.

Definition cmp_vars (o : cmp_outs) : seq nat := [:: co_e o; co_e_flag o; co_a o; co_a_flag o; co_ae o; co_ae_flag o].
Lemma cmp_ok pb0 pb1 pb w des arg1 arg2 o g bs cs :
  pb_wf pb0 -> alu_cmp_new pb0 w arg1 arg2 o = Ok (g, pb1) -> later pb1 pb -> (2 ^ w.+1 <= fp_order R)%N ->
  all (is_var pb0) (cmp_vars o) -> uniq (cmp_vars o) ->
  all (operand pb0 (cmp_vars o)) [:: des; arg1; arg2] ->
  size bs = w -> size cs = w -> is_word (pb_values pb) arg1 bs -> is_word (pb_values pb) arg2 cs ->
  exists pb', [/\ alu_cmp_witness R des o g pb = Ok pb', assigns (cmp_vars o ++ fresh_vars pb0 pb1) pb pb' &
    holds (alu_cmp_constraints des o g) (pb_values pb')].
Proof.
rewrite /alu_cmp_new /cmp_vars; case: o => e ef a af ae aef; cbn [co_e co_e_flag co_a co_a_flag co_ae co_ae_flag].
move=> hw hn hl hp hv hu /= /and4P [od o1 o2 _] sb sc [_ w1] [_ w2].
set outs := [:: e; ef; a; af; ae; aef] in hv hu od o1 o2 *.
have hv' v : v \in outs -> is_var pb0 v by move/allP: hv; apply.
have [ve vef va vaf [vae vaef]] : [/\ is_var pb0 e, is_var pb0 ef, is_var pb0 a, is_var pb0 af & is_var pb0 ae /\ is_var pb0 aef].
  by split; [| | | |split]; apply: hv'; rewrite !inE eqxx ?orbT.
have [l1 l2] := (bits_nat_lt bs, bits_nat_lt cs); rewrite sb in l1; rewrite sc in l2.
have nout v : v \notin outs -> v \notin [:: af; aef].
  by apply: contra; rewrite !inE => /orP [] ->; rewrite ?orbT.
uniq_split hu; have hne : af != aef by neqs.
rewrite /alu_cmp_witness; have [|||pc [-> a1 [x1 x2] hcmp]] := compare_vars hw hn hl hp _ hne _ _ w2 w1 l2 l1.
- by rewrite /= vaf vaef (operand_var o1) (operand_var o2).
- exact: nout (operand_notin o2).
- exact: nout (operand_notin o1).
cbn [obind]; have z1 := assigns_sz a1; have [wf hs _] := hl; have [a0 [al _ _ _ _]] := comparison_new_spec hw hn.
have hs0 := leq_trans (allocates_size al) hs.
have up pb2 v : size (pb_values pb2) = size (pb_values pc) -> is_var pb0 v -> is_var pb2 v.
  by move=> e2 /andP [h1 h2]; rewrite /is_var h1 e2 z1 (leq_trans h2 hs0).
rewrite (pb_val_ok (assigns_wf a1)); last by case/andP: (up pc _ erefl (operand_var od)).
cbn [obind].
have [pd [-> a2 x3]] := step_set (xval (pb_values pc) (dv_packed des)) (assigns_wf a1) (up _ _ erefl ve).
cbn [obind]; have z2 := assigns_sz a2.
have [pe [-> a3 x4]] := step_set (xval (pb_values pc) (dv_packed des)) (assigns_wf a2) (up _ _ z2 va).
cbn [obind]; have z3 := assigns_sz a3; rewrite z2 in z3.
have [pf [-> a4 x5]] := step_set (xval (pb_values pc) (dv_packed des)) (assigns_wf a3) (up _ _ z3 vae).
cbn [obind]; have z4 := assigns_sz a4; rewrite z3 in z4.
rewrite (pb_val_ok (assigns_wf a4)); last by case/andP: (up _ _ z4 vaef).
cbn [obind]; rewrite (pb_val_ok (assigns_wf a4)); last by case/andP: (up _ _ z4 vaf).
cbn [obind].
have a24 := assigns_cat (assigns_cat a2 a3) a4; rewrite /= in a24.
have [] : [/\ aef \notin [:: e; a; ae; ef], af \notin [:: e; a; ae; ef], a != ae /\ a != ef, ae != ef &
   [/\ e != a, e != ae & e != ef]].
  by split; [neqs|neqs|split; neqs|neqs|split; neqs].
move=> n1 n2 [n3 n3'] n4 [n5 n6 n7].
have sub34 : {subset [:: e; a; ae] <= [:: e; a; ae; ef]} by subset_tac.
have out34 v : v \notin [:: e; a; ae; ef] -> v \notin [:: e; a; ae] by apply: contra; exact: sub34.
have y1 : xval (pb_values pf) aef = bit (bits_nat cs <= bits_nat bs)%N by rewrite (assigns_val a24 (out34 _ n1)); exact: x2.
have y2 : xval (pb_values pf) af = bit (bits_nat cs < bits_nat bs)%N by rewrite (assigns_val a24 (out34 _ n2)); exact: x1.
rewrite y1 y2 bit_eq1 bit_eq0 bits_val.
have [pg [-> a5 x6]] := step_set (bit ((bits_nat cs <= bits_nat bs)%N && ~~ (bits_nat cs < bits_nat bs)%N)) (assigns_wf a4) (up _ _ z4 vef).
have a25 := assigns_cat a24 a5; rewrite /= in a25.
have nd : dv_packed des \notin [:: e; a; ae; ef].
  by apply: contra (operand_notin od); rewrite !inE => /or4P [] ->; rewrite ?orbT.
exists pg; split=> //.
  apply: (assigns_trans _ _ a1 a25) => v; rewrite !inE; last by case/or4P => ->; rewrite ?orbT.
  by case/or3P => ->; rewrite ?orbT.
rewrite /alu_cmp_constraints holds_cat; split.
  apply: (hcmp _ _ a25); apply/allP => v hvm.
  have hvo : v \in outs by move: hvm; rewrite !inE => /or4P [] ->; rewrite ?orbT.
  have /andP [v0 vle] := hv' v hvo; rewrite v0 andTb mem_cat negb_or.
  have nn d : operand pb0 outs d -> v != dv_packed d.
    by move/operand_notin => hno; apply: contra hno => /eqP <-.
  apply/andP; split; last by rewrite mem_iota; move: vle; clear; lia.
  rewrite !inE !negb_or (nn _ o2) (nn _ o1) !andTb.
  by apply/andP; split; apply/negP => /eqP ev; move: hvm; rewrite ev; apply/negP.
rewrite !holds_rc holds_nil; cbn [foldr]; rewrite !vrE !tmE !addr0 ?xone !mul1r !mulN1r.
rewrite !(assigns_val a25 nd).
have kp v : v != ef -> xval (pb_values pg) v = xval (pb_values pf) v by move=> h; rewrite (assigns_val a5) ?inE.
have y1' : xval (pb_values pg) aef = bit (bits_nat cs <= bits_nat bs)%N by rewrite kp //; move: n1; rewrite !inE !negb_or => /and4P [].
have y2' : xval (pb_values pg) af = bit (bits_nat cs < bits_nat bs)%N by rewrite kp //; move: n2; rewrite !inE !negb_or => /and4P [].
split; first by rewrite y1' y2' inv1 [RHS]x6 /bit; case: leqP => h; case: ltnP => h'; rewrite /= ?mulr0 ?mul0r ?mulr1.
split; first by rewrite kp // (assigns_val a4) ?inE // (assigns_val a3) ?inE.
split; first by rewrite kp // (assigns_val a4) ?inE.
by rewrite kp.
Qed.
End Witness.
