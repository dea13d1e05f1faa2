(** Witness generation of the signed multiplication gadget.  Models nothing of /repo. *)
From mathcomp Require Import all_ssreflect all_algebra zify.
From Verif Require Import Outcome Lincomb LincombSpec LincombFacts R1CS R1CSSpec R1CSFacts Fieldtac.
From Verif Require Import Protoboard GadgetSpec GadgetLogic BasicGadgets BasicGadgetsFacts BasicGadgetsMore.
From Verif Require Import BasicGadgetsCopy GadgetNew GadgetSeq Prop_Gadgets MemoryCheckerFacts Benes.
From Verif Require Import Alu AluSpec AluFacts AluSound AluSound2 AluWitness AluWitness2 AluWitness3 AluWitness4 AluWitness5 AluWitness6.
Set Implicit Arguments.
Unset Strict Implicit.
Unset Printing Implicit Defensive.
Local Open Scope ring_scope.
Import GRing.Theory Num.Theory.

Section Witness.
Variable F : fieldType.
Variable R : bigint_repr F.
Add Field Ff : (Fth F).
Implicit Types (x : seq F) (pb : protoboard F).
Let bit (b : bool) : F := (nat_of_bool b)%:R.
Let size_of pb := size (pb_values pb).

Lemma top_bit_in x d bs : is_word x d bs -> (0 < size bs)%N -> top_bit d \in dv_bits d.
Proof. by case/lastP: bs => // bs b /top_word []. Qed.

(** A value and its inverse, or 0: the constraints of a zero test. *)
Lemma zero_test (t : F) : (if t == 0 then 0 else t^-1) * t = 1 - bit_val F (t == 0) /\ bit_val F (t == 0) * t = 0.
Proof.
rewrite bits_val; case: eqP => [->|/eqP h]; first by rewrite !mulr0 subrr.
by rewrite mulVf // subr0 mul0r.
Qed.

(** The signed product, lifted by 2^(2w), is a natural number of 2w+1 bits. *)
Lemma smul_value w x arg1 arg2 bs cs : size bs = w.+1 -> size cs = w.+1 -> is_word x arg1 bs -> is_word x arg2 cs ->
  exists m : nat, (m < 2 ^ (2 * w.+1).+1)%N /\
    (xval x (dv_packed arg1) - xval x (top_bit arg1) * 2%:R ^+ w.+1) *
    (xval x (dv_packed arg2) - xval x (top_bit arg2) * 2%:R ^+ w.+1) + 2%:R ^+ (2 * w.+1) = m%:R.
Proof.
move=> sb sc h1 h2.
have hf1 := signed_field (x := x) (d := arg1) (bs := bs); have hf2 := signed_field (x := x) (d := arg2) (bs := cs).
rewrite sb in hf1; rewrite sc in hf2; have {}hf1 := hf1 isT h1; have {}hf2 := hf2 isT h2.
rewrite ![xval x (top_bit _) * _]mulrC -hf1 -hf2 -rmorphM /=.
have r1 := signed_range sb; have r2 := signed_range sc.
have hpr : - (2 ^ w * 2 ^ w)%N%:Z <= signed bs * signed cs <= (2 ^ w * 2 ^ w)%N%:Z.
  by move: r1 r2; move: (signed bs) (signed cs) (2 ^ w)%N => u v K; clear; nia.
move: (signed bs * signed cs : int) hpr => p hpr.
have K0 : (0 < 2 ^ w)%N by rewrite expn_gt0.
have e22 : (2 ^ (2 * w.+1) = 4 * 2 ^ w * 2 ^ w)%N by rewrite mul2n -addnn expnD expnS; move: (2 ^ w)%N; clear; nia.
have [m hm] : exists m : nat, m%:Z = p + (4 * 2 ^ w * 2 ^ w)%:Z.
  exists (absz (p + (4 * 2 ^ w * 2 ^ w)%:Z)); move: hpr; move: (2 ^ w)%N; clear; nia.
exists m; split.
  by rewrite expnS e22; move: hm hpr K0; move: (2 ^ w)%N; clear; nia.
by rewrite [RHS]pmulrn hm rmorphD /= -e22 -pmulrn natrX.
Qed.

(** ** smulh *)
Lemma smul_ok pb0 pb1 pb w arg1 arg2 (r rf : nat) g bs cs :
  pb_wf pb0 -> alu_smul_new pb0 w = (g, pb1) -> later pb1 pb -> (0 < w < 63)%N -> (2 ^ (2 * w).+1 <= fp_order R)%N ->
  all (is_var pb0) [:: r; rf] -> r != rf -> all (operand pb0 [:: r; rf]) [:: arg1; arg2] ->
  size bs = w -> size cs = w -> is_word (pb_values pb) arg1 bs -> is_word (pb_values pb) arg2 cs ->
  exists pb' c, [/\ alu_smul_witness R w arg1 arg2 r rf g pb = Ok pb', assigns ([:: r; rf] ++ fresh_vars pb0 pb1) pb pb',
    alu_smul_constraints F w arg1 arg2 r rf g = Ok c & holds c (pb_values pb')].
Proof.
rewrite /alu_smul_new /dual_variable_new.
move=> hw.
case e1: (allocate_var pb0) => [p q1]; have [h1 ep s1] := allocate_var_new hw e1.
case e2: (allocate_array q1 _) => [a q2]; have [h2 ea s2] := allocate_array_new (allocates_wf h1) e2.
case e3: (allocate_var q2) => [tp q3]; have [h3 et s3] := allocate_var_new (allocates_wf h2) e3.
case e4: (allocate_var q3) => [em q4]; have [h4 eem s4] := allocate_var_new (allocates_wf h3) e4.
case e5: (allocate_var q4) => [ex q5]; have [h5 eex s5] := allocate_var_new (allocates_wf h4) e5.
case e6: (allocate_var q5) => [fu q6]; have [h6 efu s6] := allocate_var_new (allocates_wf h5) e6.
case e7: (allocate_var q6) => [fx q7]; have [h7 efx s7] := allocate_var_new (allocates_wf h6) e7.
case e8: (allocate_var q7) => [un q8]; have [h8 _ s8] := allocate_var_new (allocates_wf h7) e8.
case=> <- <- {g pb1} hlat /andP [w0 w63] hp.
rewrite s1 in ea s2; rewrite s2 in et s3; rewrite s3 in eem s4; rewrite s4 in eex s5; rewrite s5 in efu s6.
rewrite s6 in efx s7; rewrite s7 in s8.
set outs := [:: r; rf] => hv hu /= /and3P [o1 o2 _] sb sc w1 w2.
have hv' v : v \in outs -> (0 < v <= size (pb_values pb0))%N by move/(allP hv).
case: (hlat) => hwp hl _; rewrite s8 in hl.
have p1 := operand_le o1; have p2 := operand_le o2.
have [m [lm em0]] : exists m : nat, (m < 2 ^ (2 * w).+1)%N /\
    (xval (pb_values pb) (dv_packed arg1) - xval (pb_values pb) (top_bit arg1) * 2%:R ^+ w) *
    (xval (pb_values pb) (dv_packed arg2) - xval (pb_values pb) (top_bit arg2) * 2%:R ^+ w) + 2%:R ^+ (2 * w) = m%:R.
  by case: (w) w0 sb sc => // n _ sb sc; exact: smul_value sb sc w1 w2.
have [t1 t2] : (top_bit arg1 \in dv_bits arg1) /\ (top_bit arg2 \in dv_bits arg2).
  by split; [apply: (top_bit_in w1); rewrite sb|apply: (top_bit_in w2); rewrite sc].
have pt1 := allP (operand_bits_le o1) _ t1; have pt2 := allP (operand_bits_le o2) _ t2.
rewrite /= in pt1 pt2.
rewrite /fresh_vars s8.
move: hv' hl p1 p2 pt1 pt2 ep ea et eem eex efu efx; rewrite /size_of; set N := size (pb_values pb0).
set T := (N.+1 + (2 * w).+1)%N => hv' hl p1 p2 pt1 pt2 ep ea et eem eex efu efx.
rewrite /alu_smul_witness; cbn [sm_mul sm_top sm_empty sm_empty_aux sm_full sm_full_aux dv_packed dv_bits].
have hNT : (N < T)%N by rewrite /T; clear; lia.
rewrite (pb_val_ok hwp); last by move: p1 hl hNT; clear; lia.
cbn [obind]; rewrite (pb_val_ok hwp); last by move: pt1 hl hNT; clear; lia.
cbn [obind]; rewrite (pb_val_ok hwp); last by move: p2 hl hNT; clear; lia.
cbn [obind]; rewrite (pb_val_ok hwp); last by move: pt2 hl hNT; clear; lia.
cbn [obind]; rewrite em0.
have sa : size a = (2 * w).+1 by rewrite ea size_iota.
have mem_a v : v \in a -> (N.+1 < v <= T)%N by rewrite ea mem_iota /T; clear; lia.
have [|pa [-> a1 x1]] := step_set (pb := pb) (v := p) m%:R hwp; first by rewrite /is_var ep; move: hl hNT; clear; lia.
cbn [obind]; have z1 := assigns_sz a1.
rewrite /dual_variable_witness_from_packed /dual_variable_check; cbn [dv_packed dv_bits].
have [|||||||pc [ds [-> a2 hb hd]]] := step_packed (R := R) (pb := pa) (vs := a) (v := p) (n := m) (assigns_wf a1).
- by rewrite z1 ep; move: hl hNT; clear; lia.
- by rewrite ea iota_uniq.
- by apply/allP => v /mem_a; rewrite /is_var z1; move: hl; clear; lia.
- by apply/negP => /mem_a; rewrite ep; clear; lia.
- exact: x1.
- by rewrite sa.
- by rewrite sa.
cbn [obind]; have z2 := assigns_sz a2; rewrite z1 in z2.
rewrite /sm_high_bits /sm_top_bits; cbn [sm_mul dv_bits].
have mtd i j v : v \in take i (drop j a) -> v \in a by move/mem_take/mem_drop.
have vl v : v \in outs -> forall pb', size (pb_values pb') = size (pb_values pb) -> is_var pb' v.
  by move=> /hv' hh pb' e; rewrite /is_var e; move: hh hl hNT; clear; lia.
have na v : v \in outs -> v \notin a by move=> /hv' hh; apply/negP => /mem_a; move: hh; clear; lia.
have vT k pb' : (0 < k <= 6)%N -> size (pb_values pb') = size (pb_values pb) -> is_var pb' (T + k)%N.
  by move=> hk e; rewrite /is_var e; move: hk hl; clear; lia.
have or_ : r \in outs by rewrite !inE eqxx.
have orf : rf \in outs by rewrite !inE eqxx orbT.
have [||||pd [-> a3 x3]] := step_bits (pb := pc) (vs := take w (drop w a)) (v := r) (bs := take w (drop w ds)) (assigns_wf a2).
- exact: vl.
- by apply/allP => v /mtd /mem_a; rewrite z2; move: hl; clear; lia.
- by apply: contra (na _ or_) => /mtd.
- exact: bits_take (bits_drop _ hb).
cbn [obind]; have z3 := assigns_sz a3; rewrite z2 in z3.
have hb3 : bits_are (pb_values pd) a ds.
  by apply: (assigns_bits a3) hb; apply/allP => v hva; rewrite inE; apply: contra (na _ or_) => /eqP <-.
have [||||pe [-> a4 x4]] := step_bits (pb := pd) (vs := take w.+1 (drop w.-1 a)) (v := tp) (bs := take w.+1 (drop w.-1 ds)) (assigns_wf a3).
- by rewrite /is_var z3 et; move: hl; clear; lia.
- by apply/allP => v /mtd /mem_a; rewrite z3; move: hl; clear; lia.
- by apply/negP => /mtd /mem_a; rewrite et; clear; lia.
- exact: bits_take (bits_drop _ hb3).
cbn [obind]; have z4 := assigns_sz a4; rewrite z3 in z4.
rewrite (pb_val_ok (assigns_wf a4)); last by rewrite z4 et; move: hl; clear; lia.
cbn [obind]; set t := xval (pb_values pe) tp; have n64 : (64 <= w.+1)%N = false by move: w63; clear; lia.
rewrite n64; set full := 2%:R ^+ w.+1 - 1.
have [|pf [-> a5 x5]] := step_set (pb := pe) (v := em) (bit_val F (t == 0)) (assigns_wf a4).
  by rewrite /is_var z4 eem; move: hl; clear; lia.
cbn [obind]; have z5 := assigns_sz a5; rewrite z4 in z5.
have [|pg [-> a6 x6]] := step_set (pb := pf) (v := ex) (if t == 0 then 0 else t^-1) (assigns_wf a5).
  by rewrite /is_var z5 eex; move: hl; clear; lia.
cbn [obind]; have z6 := assigns_sz a6; rewrite z5 in z6.
have [|ph [-> a7 x7]] := step_set (pb := pg) (v := fu) (bit_val F (t == full)) (assigns_wf a6).
  by rewrite /is_var z6 efu; move: hl; clear; lia.
cbn [obind]; have z7 := assigns_sz a7; rewrite z6 in z7.
have [|pi [-> a8 x8]] := step_set (pb := ph) (v := fx) (if t == full then 0 else (t - full)^-1) (assigns_wf a7).
  by rewrite /is_var z7 efx; move: hl; clear; lia.
cbn [obind]; have z8 := assigns_sz a8; rewrite z7 in z8.
rewrite (pb_val_ok (assigns_wf a8)); last by rewrite z8 eem; move: hl; clear; lia.
cbn [obind]; rewrite (pb_val_ok (assigns_wf a8)); last by rewrite z8 efu; move: hl; clear; lia.
cbn [obind]; set ev := xval (pb_values pi) em; set fv := xval (pb_values pi) fu.
have [|pj [-> a9 x9]] := step_set (pb := pi) (v := rf) (1 - (fv + ev)) (assigns_wf a8); first exact: vl.
have a39 := assigns_cat (assigns_cat (assigns_cat (assigns_cat (assigns_cat (assigns_cat a3 a4) a5) a6) a7) a8) a9; rewrite /= in a39.
have a19 := assigns_cat (assigns_cat a1 a2) a39.
have own v : (N < v)%N -> v != r /\ v != rf.
  move=> hNv; have aux u : u \in outs -> v != u by move/hv' => hh; apply/eqP => e; move: hh hNv; rewrite e; clear; lia.
  by split; exact: aux.
have asd : aside pb0 outs (([:: p] ++ a) ++ [:: r; tp; em; ex; fu; fx; rf]).
  apply/allP => v; rewrite !mem_cat inE -orbA -/N.
  case/orP => [/eqP -> |]; first by rewrite ep ltnSn orbT.
  case/orP => [/mem_a /andP [hva _]|]; first by rewrite (ltnW hva) orbT.
  rewrite !inE; case/orP => [->//|hm].
  do 5![case/orP: hm => [/eqP ->|hm]; first by apply/orP; right; rewrite ?et ?eem ?eex ?efu ?efx; move: hNT; clear; lia].
  by rewrite hm !orbT.
have w1' := operand_kept o1 a19 asd w1; have w2' := operand_kept o2 a19 asd w2.
have kop d : operand pb0 outs d -> forall v, v \in dv_packed d :: dv_bits d -> xval (pb_values pj) v = xval (pb_values pb) v.
  by move=> od v hvd; apply: (assigns_val a19); exact: (operand_out od asd hvd).
have kp1 := kop _ o1 _ (mem_head _ _); have kp2 := kop _ o2 _ (mem_head _ _).
have kt1 : xval (pb_values pj) (top_bit arg1) = xval (pb_values pb) (top_bit arg1) by apply: (kop _ o1); rewrite inE t1 orbT.
have kt2 : xval (pb_values pj) (top_bit arg2) = xval (pb_values pb) (top_bit arg2) by apply: (kop _ o2); rewrite inE t2 orbT.
have k39 v : (N < v <= T)%N -> xval (pb_values pj) v = xval (pb_values pc) v.
  move=> hvv; have [|n1 n2] := own v; first by move: hvv; clear; lia.
  apply: (assigns_val a39); rewrite !inE !negb_or n1 n2 et eem eex efu efx /= !andbT.
  by move: hvv; clear; lia.
have hb' : bits_are (pb_values pj) a ds.
  rewrite /bits_are -hb; apply/eq_in_map => v /mem_a hva; apply: k39; move: hva; clear; lia.
have hp' : xval (pb_values pj) p = m%:R.
  rewrite k39 ?ep; last by move: hNT; clear; lia.
  rewrite (assigns_val a2) -?ep; first exact: x1.
  by apply/negP => /mem_a; rewrite ep; clear; lia.
have n9 v : (N < v)%N -> v \notin [:: rf] by move=> h; rewrite inE; have [] := own v h.
have hNt : (N < T)%N by [].
have ltT v : (T < v)%N -> (N < v)%N by move: hNT; clear; lia.
have kem : xval (pb_values pj) em = bit_val F (t == 0).
  rewrite (assigns_val a9); last by apply: n9; apply: ltT; rewrite eem; clear; lia.
  rewrite (assigns_val a8); last by rewrite inE eem efx; clear; lia.
  rewrite (assigns_val a7); last by rewrite inE eem efu; clear; lia.
  by rewrite (assigns_val a6); [exact: x5|rewrite inE eem eex; clear; lia].
have kex : xval (pb_values pj) ex = (if t == 0 then 0 else t^-1).
  rewrite (assigns_val a9); last by apply: n9; apply: ltT; rewrite eex; clear; lia.
  rewrite (assigns_val a8); last by rewrite inE eex efx; clear; lia.
  by rewrite (assigns_val a7); [exact: x6|rewrite inE eex efu; clear; lia].
have kfu : xval (pb_values pj) fu = bit_val F (t == full).
  rewrite (assigns_val a9); last by apply: n9; apply: ltT; rewrite efu; clear; lia.
  by rewrite (assigns_val a8); [exact: x7|rewrite inE efu efx; clear; lia].
have kfx : xval (pb_values pj) fx = (if t == full then 0 else (t - full)^-1).
  by rewrite (assigns_val a9); [exact: x8|apply: n9; apply: ltT; rewrite efx; clear; lia].
have ktp : xval (pb_values pj) tp = t.
  rewrite (assigns_val a9); last by apply: n9; apply: ltT; rewrite et; clear; lia.
  rewrite (assigns_val a8); last by rewrite inE et efx; clear; lia.
  rewrite (assigns_val a7); last by rewrite inE et efu; clear; lia.
  rewrite (assigns_val a6); last by rewrite inE et eex; clear; lia.
  by rewrite (assigns_val a5); [|rewrite inE et eem; clear; lia].
have kr : xval (pb_values pj) r = (bits_nat (take w (drop w ds)))%:R.
  have hr := hv' _ or_.
  rewrite (assigns_val a9); last by rewrite inE; neqs.
  rewrite (assigns_val a8); last by rewrite inE efx; move: hr hNT; clear; lia.
  rewrite (assigns_val a7); last by rewrite inE efu; move: hr hNT; clear; lia.
  rewrite (assigns_val a6); last by rewrite inE eex; move: hr hNT; clear; lia.
  rewrite (assigns_val a5); last by rewrite inE eem; move: hr hNT; clear; lia.
  by rewrite (assigns_val a4); [exact: x3|rewrite inE et; move: hr hNT; clear; lia].
have evE : ev = bit_val F (t == 0).
  by rewrite -kem (assigns_val a9) //; apply: n9; apply: ltT; rewrite eem; clear; lia.
have fvE : fv = bit_val F (t == full).
  by rewrite -kfu (assigns_val a9) //; apply: n9; apply: ltT; rewrite efu; clear; lia.
exists pj; eexists; split=> //.
- change (assigns (outs ++ iota N.+1 (T.+4.+2 - N)) pb pj).
  apply: (assigns_sub _ a19) => v; rewrite !mem_cat mem_iota -orbA; case/or3P.
  + by rewrite inE ep => /eqP ->; apply/orP; right; move: hNT; clear; lia.
  + by move/mem_a => hva; apply/orP; right; move: hva; clear; lia.
  rewrite !inE; case/orP => [->//|hm].
  do 5![case/orP: hm => [/eqP ->|hm]; first by apply/orP; right; rewrite ?et ?eem ?eex ?efu ?efx; move: hNT; clear; lia].
  by rewrite hm !orbT.
- by rewrite /alu_smul_constraints n64; reflexivity.
rewrite /sm_high_bits /sm_top_bits; cbn [sm_mul sm_top sm_empty sm_empty_aux sm_full sm_full_aux dv_packed dv_bits].
rewrite holds_cons !holds_cat !holds_rc holds_nil /constraint_holds; cbn [c_a c_b c_c foldr].
rewrite !lc2E !vrE !tmE !addr0 ?xone !mul1r ?mulN1r ?mulr1 ?mul0r.
rewrite kp1 kp2 kt1 kt2 hp' ktp kem kex kfu kfx.
have [zt1 zt2] := zero_test t; have [zf1 zf2] := zero_test (t - full).
split.
  by rewrite -em0 !mulNr ![2%:R ^+ w * _]mulrC addrK.
split; first by apply/(pv_true_iff _ hb'); rewrite hp' hd.
split; first by apply/(pv_false _ (bits_take w (bits_drop w hb'))).
split.
  apply/(pv_false _ (bits_take w.+1 (bits_drop w.-1 hb'))); rewrite ktp; exact: x4.
have ef : 1 - 2%:R ^+ w.+1 = - full by rewrite /full opprB.
rewrite ef.
have ez : (t == full) = (t - full == 0) by rewrite subr_eq0.
rewrite ez.
split; first exact: zt1.
split; first exact: zt2.
split; first exact: zf1.
split; first exact: zf2.
by split=> //; rewrite [RHS]x9 evE fvE ez opprD addrA.
Qed.
End Witness.
