(** Witness generation of the bitwise ALU gadgets.  Models nothing of /repo. *)
From mathcomp Require Import all_ssreflect all_algebra zify.
From Verif Require Import Outcome Lincomb LincombSpec LincombFacts R1CS R1CSSpec R1CSFacts Fieldtac.
From Verif Require Import Protoboard GadgetSpec GadgetLogic BasicGadgets BasicGadgetsFacts BasicGadgetsMore.
From Verif Require Import BasicGadgetsCopy GadgetNew GadgetSeq Prop_Gadgets MemoryCheckerFacts Benes.
From Verif Require Import Alu AluSpec AluFacts AluSound AluSound2 AluWitness AluWitness2.
Set Implicit Arguments.
Unset Strict Implicit.
Unset Printing Implicit Defensive.
Local Open Scope ring_scope.
Import GRing.Theory.

Section Witness.
Variable F : fieldType.
Variable R : bigint_repr F.
Add Field Ff : (Fth F).
Implicit Types (x : seq F) (pb : protoboard F).
Let bit (b : bool) : F := (nat_of_bool b)%:R.
Let inv1 (b : bool) : 1 - bit b = bit (~~ b).
Proof. by case: b; rewrite /bit /= ?subrr ?subr0. Qed.
Let size_of pb := size (pb_values pb).

Lemma bits_val (b : bool) : bit_val F b = bit b.
Proof. by case: b. Qed.
(** The loop over the bits *)
Lemma bits_loop (op : bool -> bool -> bool) v1 v2 res bs cs pb : pb_wf pb ->
  bits_are (pb_values pb) v1 bs -> bits_are (pb_values pb) v2 cs -> size v1 = size v2 -> size res = size v1 ->
  uniq res -> all (is_var pb) res -> all (fun v => (v <= size_of pb)%N && (v \notin res)) (v1 ++ v2) ->
  exists pb', [/\ ofold (fun pb (t : pb_variable * pb_variable * pb_variable) =>
      let! b1 := pb_val pb t.1.1 in
      let! b2 := pb_val pb t.1.2 in
      pb_set pb t.2 (bit_val F (op (b1 == 1) (b2 == 1)))) pb (zip (zip v1 v2) res) = Ok pb',
    assigns res pb pb' & bits_are (pb_values pb') res (bitwise op bs cs)].
Proof.
elim: v1 v2 res bs cs pb => [|a v1 IH] [|b v2] [|r res] // bs cs pb hw hb1 hb2 e1 e2 hu hv hle.
  exists pb; split; first by []; first by split.
  by move: (bits_size hb1); case: (bs) => // _; rewrite /bitwise; case: (cs).
case: bs cs hb1 hb2 => [|p bs] [|q cs] // [ha hb1] [hb hb2].
move: e1 e2 hu hv => [e1] [e2] /= /andP [hnr hu] /andP [hr hv].
move: hle; rewrite /= !all_cat /= => /andP [/andP [la na] /andP [l1 /andP [/andP [lb nb] l2]]].
rewrite (pb_val_ok hw la); cbn [obind]; rewrite (pb_val_ok hw lb); cbn [obind].
have ea : (xval (pb_values pb) a == 1) = p by rewrite ha bit_eq1.
have eb : (xval (pb_values pb) b == 1) = q by rewrite hb bit_eq1.
rewrite ea eb bits_val.
have [pa [-> a1 x1]] := step_set (bit (op p q)) hw hr; cbn [obind].
have z1 := assigns_sz a1.
have away l : all (fun v => (v <= size_of pb)%N && (v \notin r :: res)) l -> all (fun v => v \notin [:: r]) l.
  by apply: sub_all => v /andP [_]; rewrite !inE negb_or => /andP [].
have away' l : all (fun v => (v <= size_of pb)%N && (v \notin r :: res)) l -> all (fun v => (v <= size_of pa)%N && (v \notin res)) l.
  by apply: sub_all => v; rewrite inE negb_or /size_of z1 => /and3P [-> _ ->].
have [|||||||pc [h2 a2 hres]] := IH v2 res bs cs pa (assigns_wf a1).
- exact: assigns_bits a1 (away _ l1) hb1.
- exact: assigns_bits a1 (away _ l2) hb2.
- exact: e1.
- exact: e2.
- exact: hu.
- by apply: sub_all hv => v; rewrite /is_var z1.
- by rewrite all_cat !away'.
exists pc; split.
- exact: h2.
- by apply: (assigns_trans _ _ a1 a2) => v; rewrite !inE => ->; rewrite ?orbT.
rewrite /bits_are /bitwise /= (assigns_val a2 hnr); congr (_ :: _); [exact: x1|exact: hres].
Qed.
Lemma bitwise_in (op : bool -> bool -> bool) x v1 v2 res bs cs t :
  bits_are x v1 bs -> bits_are x v2 cs -> bits_are x res (bitwise op bs cs) -> List.In t (zip (zip v1 v2) res) ->
  exists p q, [/\ xval x t.1.1 = bit p, xval x t.1.2 = bit q & xval x t.2 = bit (op p q)].
Proof.
rewrite /bits_are /bitwise.
elim: v1 v2 res bs cs => [|a v1 IH] [|b v2] [|r res] [|p bs] [|q cs] //= [h1 h2] [h3 h4] [h5 h6] [<-|ht].
  by exists p, q.
exact: IH h2 h4 h6 ht.
Qed.

Lemma bitwise_ok op pb0 pb1 pb w (r rf : nat) g arg1 arg2 bs cs :
  pb_wf pb0 -> alu_bitwise_new pb0 w r rf = Ok (g, pb1) -> later pb1 pb ->
  all (is_var pb0) [:: r; rf] -> r != rf -> operand pb0 [:: r; rf] arg1 -> operand pb0 [:: r; rf] arg2 ->
  size bs = w -> size cs = w -> is_word (pb_values pb) arg1 bs -> is_word (pb_values pb) arg2 cs ->
  exists pb', [/\ alu_bitwise_witness op arg1 arg2 g pb = Ok pb', assigns ([:: r; rf] ++ fresh_vars pb0 pb1) pb pb',
    is_word (pb_values pb') arg1 bs /\ is_word (pb_values pb') arg2 cs,
    bits_are (pb_values pb') (bw_res_word g) (bitwise op bs cs) &
    holds (alu_bitwise_tail F g) (pb_values pb')].
Proof.
move=> hw hnew; have [sr ei eo er erf] := bitwise_new_spec hw hnew.
move: hnew; rewrite /alu_bitwise_new.
case e1: (allocate_array pb0 w) => [a q1]; have [h1 ea s1] := allocate_array_new hw e1.
case e2: (allocate_var q1) => [nz q2]; have [h2 en s2] := allocate_var_new (allocates_wf h1) e2.
case e3: (disjunction_new _ _ _) => [[d q3]| |] //; cbn [obind fst snd].
move=> heq; have {heq} [eg eq] : AluBitwise a nz r rf d = g /\ q3 = pb1 by case: heq.
rewrite -{}eg -{}eq {g pb1 er erf} in sr ei eo *; move: sr ei eo.
cbn [bw_res_word bw_nz_result bw_not_all_zeros] => sr ei eo hlat.
move=> /= /and3P [/andP [r0 hr] /andP [rf0 hrf] _] hne o1 o2 sb sc w1 w2.
case: (hlat) => hwp hl _.
have [_ h3 _ _ ef] := disjunction_new_spec (allocates_wf h2) e3.
have s3 : (size (pb_values q2) < size (pb_values q3))%N.
  by have := congr1 size ef; rewrite size_iota /=; clear; lia.
rewrite s1 in en s2.
rewrite /alu_bitwise_witness /alu_triples; cbn [bw_res_word bw_nz_result bw_not_all_zeros bw_result bw_result_flag].
case: (w1) (w2) => [b1 v1] [b2 v2].
have mem_a v : v \in a -> (size (pb_values pb0) < v <= size (pb_values pb0) + w)%N by rewrite ea mem_iota; clear; lia.
have hla : all (fun v => (v <= size (pb_values pb))%N && (v \notin a)) (dv_bits arg1 ++ dv_bits arg2).
  apply/allP => v hv; have /andP [/andP [_ lv] _] : is_var pb0 v && (v \notin [:: r; rf]).
    by move: hv; rewrite mem_cat => /orP [hv|hv]; [move/allP: o1|move/allP: o2]; apply; rewrite inE hv orbT.
  apply/andP; split; first by move: lv hl s3 s2; clear; lia.
  by apply/negP => /mem_a; move: lv; clear; lia.
have [|||||pa [h4 a1 hb]] := bits_loop op (res := a) (pb := pb) hwp b1 b2.
- by rewrite (bits_size b1) (bits_size b2) sb sc.
- by rewrite sr (bits_size b1) sb.
- by rewrite ea iota_uniq.
- by apply/allP => v /mem_a; rewrite /is_var; move: hl s3 s2; clear; lia.
- exact: hla.
rewrite {}h4; cbn [obind]; have z1 := assigns_sz a1.
have [||||pc [-> a2 x2]] := step_bits (pb := pa) (vs := a) (v := r) (bs := bitwise op bs cs) (assigns_wf a1).
- by rewrite /is_var z1; move: hr r0 hl s3 s2; clear; lia.
- by apply/allP => v /mem_a; rewrite z1; move: hl s3 s2; clear; lia.
- by apply/negP => /mem_a; move: hr; clear; lia.
- exact: hb.
cbn [obind]; have z2 := assigns_sz a2.
have hlat2 : later q3 pc by apply: (assigns_later a2); apply: (assigns_later a1).
have [|||pd [-> a3 s3' hdis]] := step_disj (allocates_wf h2) e3 hlat2.
- by rewrite /is_var s2 en; clear; lia.
- by apply/allP => v /mem_a; rewrite s2; clear; lia.
- by apply/negP => /mem_a; rewrite en; clear; lia.
cbn [obind]; have z3 := assigns_sz a3.
rewrite (pb_val_ok (assigns_wf a3)); last by rewrite z3 z2 z1 en; move: hl s3 s2; clear; lia.
cbn [obind].
have [|pe [-> a4 x4]] := step_set (pb := pd) (v := rf) (1 - xval (pb_values pd) nz) (assigns_wf a3).
  by rewrite /is_var z3 z2 z1; move: hrf rf0 hl s3 s2; clear; lia.
rewrite s2 in s3' a3 hdis; move: mem_a hl hr hrf en s2 s3 s3' a3 hdis.
set N := size (pb_values pb0) => mem_a hl hr hrf en s2 s3 s3' a3 hdis.
have as1 : aside pb0 [:: r; rf] a by apply/allP => v /mem_a /andP [hv _]; rewrite hv orbT.
have as2 : aside pb0 [:: r; rf] [:: r] by rewrite /aside /= !inE eqxx.
have as3 : aside pb0 [:: r; rf] [:: nz; (N + w).+2].
  by rewrite /aside /= en -/N; apply/andP; split; [|rewrite andbT]; apply/orP; right; clear; lia.
have as4 : aside pb0 [:: r; rf] [:: rf] by rewrite /aside /= !inE eqxx orbT.
have kp arg ds : operand pb0 [:: r; rf] arg -> is_word (pb_values pb) arg ds -> is_word (pb_values pe) arg ds.
  move=> o h; exact: (operand_kept o a4 as4 (operand_kept o a3 as3 (operand_kept o a2 as2 (operand_kept o a1 as1 h)))).
have A v : v \in a -> [/\ v != r, v != rf, v != nz & v != (N + w).+2].
  by move/mem_a; rewrite en; move: hr hrf; clear => *; split; lia.
have hba : bits_are (pb_values pe) a (bitwise op bs cs).
  apply: (assigns_bits a4); first by apply/allP => v /A [_ h _ _]; rewrite inE.
  apply: (assigns_bits a3); first by apply/allP => v /A [_ _ h h']; rewrite !inE negb_or h.
  by apply: (assigns_bits a2) hb; apply/allP => v /A [h _ _ _]; rewrite inE.
exists pe; split=> //.
- have S m : (forall v, v \in m -> v \in [:: r; rf] \/ (N < v <= (N + w).+2)%N) ->
     {subset m <= [:: r; rf] ++ fresh_vars pb0 q3}.
    move=> h v /h; rewrite mem_cat => -[->//|hv]; rewrite /fresh_vars s3' mem_iota -/N; apply/orP; right; move: hv; clear; lia.
  have S1 : {subset a <= [:: r; rf] ++ fresh_vars pb0 q3}.
    by apply: S => v /mem_a h; right; move: h; clear; lia.
  have S2 : {subset [:: r] <= [:: r; rf] ++ fresh_vars pb0 q3} by apply: S => v; rewrite !inE => ->; left.
  have S3 : {subset [:: nz; (N + w).+2] <= [:: r; rf] ++ fresh_vars pb0 q3}.
    by apply: S => v; rewrite !inE en => h; right; move: h; clear; lia.
  have S4 : {subset [:: rf] <= [:: r; rf] ++ fresh_vars pb0 q3} by apply: S => v; rewrite !inE => ->; left; rewrite orbT.
  apply: (assigns_trans _ S4 _ a4); last first.
    apply: (assigns_trans _ S3 _ a3); last exact: (assigns_trans S1 S2 a1 a2).
    by [].
  by [].
- by split; [exact: kp o1 w1|exact: kp o2 w2].
have [nr1 nr2 nr3] : [/\ nz != rf, r != nz & r != (N + w).+2] by rewrite en; move: hr hrf; clear => *; split; lia.
apply/(bitwise_tail_iff (g := AluBitwise a nz r rf d) ei eo hba); cbn [bw_result bw_not_all_zeros bw_nz_result bw_result_flag]; split.
- rewrite (assigns_val a4) ?inE // (assigns_val a3) ?inE ?negb_or ?nr2 //; exact: x2.
- apply: hdis => v; rewrite in_cons in_cons => hv; apply: (assigns_val a4); rewrite inE.
  case/or3P: hv => [/eqP->//|/eqP->|/A [_ h _ _] //]; move: hrf; clear; lia.
- by rewrite [RHS]x4 (assigns_val a4) // inE.
Qed.

(** The four gadgets *)
Lemma bitwise_complete op (f : nat * nat * nat -> r1cs_constraint F) pb0 pb1 pb w (r rf : nat) g arg1 arg2 bs cs :
  (forall x t p q, xval x t.1.1 = bit p -> xval x t.1.2 = bit q -> xval x t.2 = bit (op p q) -> constraint_holds (f t) x) ->
  pb_wf pb0 -> alu_bitwise_new pb0 w r rf = Ok (g, pb1) -> later pb1 pb ->
  all (is_var pb0) [:: r; rf] -> r != rf -> operand pb0 [:: r; rf] arg1 -> operand pb0 [:: r; rf] arg2 ->
  size bs = w -> size cs = w -> is_word (pb_values pb) arg1 bs -> is_word (pb_values pb) arg2 cs ->
  exists pb', [/\ alu_bitwise_witness op arg1 arg2 g pb = Ok pb', assigns ([:: r; rf] ++ fresh_vars pb0 pb1) pb pb' &
    holds (map f (alu_triples arg1 arg2 g) ++ alu_bitwise_tail F g) (pb_values pb')].
Proof.
move=> hf h1 h2 h3 h4 h5 h6 h7 h8 h9 h10 h11.
have [pb' [e1 e2 [[e3 _] [e4 _]] e5 e6]] := bitwise_ok op h1 h2 h3 h4 h5 h6 h7 h8 h9 h10 h11.
exists pb'; split=> //; apply/holds_cat; split=> //; apply/AluSound2.holds_map => t ht.
have [p [q [t1 t2 t3]]] := bitwise_in e3 e4 e5 ht; exact: hf t1 t2 t3.
Qed.
Lemma not_complete pb0 pb1 pb w (r rf : nat) g arg2 cs :
  pb_wf pb0 -> alu_bitwise_new pb0 w r rf = Ok (g, pb1) -> later pb1 pb ->
  all (is_var pb0) [:: r; rf] -> r != rf -> operand pb0 [:: r; rf] arg2 ->
  size cs = w -> is_word (pb_values pb) arg2 cs ->
  exists pb', [/\ alu_bitwise_witness (fun _ b => ~~ b) arg2 arg2 g pb = Ok pb',
    assigns ([:: r; rf] ++ fresh_vars pb0 pb1) pb pb' & holds (alu_not_constraints F arg2 g) (pb_values pb')].
Proof.
move=> h1 h2 h3 h4 h5 h6 h7 h8.
have [pb' [e1 e2 [[e3 _] _] e5 e6]] := bitwise_ok (fun _ b => ~~ b) h1 h2 h3 h4 h5 h6 h6 h7 h7 h8 h8.
exists pb'; split=> //; apply/holds_cat; split=> //; apply/AluSound2.holds_map => t ht.
have [q [t1 t2]] : exists q, xval (pb_values pb') t.1 = bit q /\ xval (pb_values pb') t.2 = bit (~~ q).
  move: e3 e5 ht; rewrite /bits_are /bitwise; clear.
  elim: (dv_bits arg2) cs (bw_res_word g) => [|a v IH] [|c cs] [|u res] //= [ea h] [eb h'] [<-|ht]; first by exists c.
  exact: IH h h' ht.
by apply/(not_step _ t1).
Qed.
End Witness.
