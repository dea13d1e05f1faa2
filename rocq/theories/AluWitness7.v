(** Witness generation of the division ALU gadget.  Models nothing of /repo. *)
From mathcomp Require Import all_ssreflect all_algebra zify.
From Verif Require Import Outcome Lincomb LincombSpec LincombFacts R1CS R1CSSpec R1CSFacts Fieldtac.
From Verif Require Import Protoboard GadgetSpec GadgetLogic BasicGadgets BasicGadgetsFacts BasicGadgetsMore.
From Verif Require Import BasicGadgetsCopy VectorsFacts GadgetNew GadgetSeq Prop_Gadgets MemoryCheckerFacts Benes.
From Verif Require Import Alu AluSpec AluFacts AluSound AluSound2 AluWitness AluWitness2 AluWitness3 AluWitness4 AluWitness5 AluWitness6.
Set Implicit Arguments.
Unset Strict Implicit.
Unset Printing Implicit Defensive.
Local Open Scope ring_scope.
Import GRing.Theory.


Section Witness.
Variable F : fieldType.
Variable R : bigint_repr F.
Add Field Ff : (Fth F).
Implicit Types (x : seq F) (pb : protoboard F).
Let bit (b : bool) : F := (nat_of_bool b)%:R.
Let size_of pb := size (pb_values pb).

(** Packing whose top bit is the constant: the value must have that bit. *)
Lemma step_packed_one pb vs v (n : nat) : pb_wf pb -> (v <= size_of pb)%N -> uniq vs -> all (is_var pb) vs ->
  xval (pb_values pb) v = n%:R -> (2 ^ size vs <= n < 2 ^ (size vs).+1)%N -> (2 ^ (size vs).+1 <= fp_order R)%N ->
  exists pb' bs,
  [/\ packing_witness_from_packed R (Packing (plcs_of_vars F (rcons vs 0%N)) (plc_of_var F v)) pb = Ok pb', assigns vs pb pb',
      bits_are (pb_values pb') vs bs & bits_nat bs = (n - 2 ^ size vs)%N].
Proof.
move=> hw hv hu hvs en /andP [hn1 hn2] hp.
rewrite /packing_witness_from_packed; cbn [pk_packed pk_bits lc_evaluate lc_is_variable plc_of_var obind].
rewrite /pb_lc_val; cbn [plc_of_var lc_is_variable lc_index]; rewrite (pb_val_ok hw hv); cbn [obind].
rewrite en as_bigint_nat; last exact: leq_trans hn2 hp.
rewrite num_bits_le size_map size_rcons hn2; cbn [oassert].
have htop : test_bit n (size vs) = true.
  have e : (n = 1 * 2 ^ size vs + (n - 2 ^ size vs))%N by rewrite mul1n subnKC.
  rewrite /test_bit {1}e divnMDl ?expn_gt0 // divn_small //.
  by move: hn1 hn2; rewrite expnS; clear; lia.
have [x' [h1 h2 h3]] := @fill_bits_ok F pb (pb_values pb) (pb_lc_values pb) vs n (conj hu hvs).
rewrite (board_of hw) in h1; set q := upd pb x' (pb_lc_values pb) in h1.
have hq : assigns vs pb q by apply: (assigns_upd (slot := fun=> [::]) hw); exact: wstep_changes h2.
exists q, [seq test_bit n i | i <- iota 0 (size vs)]; split=> //.
- cbn [obind]; move: h1; rewrite !lcs_fill_with_bits_of_vars size_rcons -addn1 iotaD map_cat cats1 add0n.
  rewrite zip_rcons ?size_map ?size_iota // /set_all -cats1 ofold_cat => ->; cbn [obind].
  rewrite htop ofold_cons; cbn [fst snd]; rewrite /pb_set /=; case: (assigns_wf hq) => h _ _ _.
  by move: h; case: (q) => c ? ? ? ? ? /= ->.
- by rewrite /bits_are -map_comp; exact: h3.
rewrite bits_nat_test_bit; have e : (n = 1 * 2 ^ size vs + (n - 2 ^ size vs))%N by rewrite mul1n subnKC.
rewrite {1}e modnMDl // modn_small //; move: hn1 hn2; rewrite expnS; clear; lia.
Qed.

(** The comparison gadget given the constant 1 as its second output *)
Lemma cmp_one_ok pb0 pb1 pb n (vA vB less : nat) g (a b : nat) : pb_wf pb0 ->
  comparison_new pb0 n (plc_of_var F vA) (plc_of_var F vB) less ONE = Ok (g, pb1) -> later pb1 pb ->
  (2 ^ n.+1 <= fp_order R)%N -> is_var pb0 less -> all (fun v => (v <= size_of pb0)%N && (v != less)) [:: vA; vB] ->
  xval (pb_values pb) vA = a%:R -> xval (pb_values pb) vB = b%:R -> (a <= b < 2 ^ n)%N ->
  exists pb', [/\ comparison_witness R g pb = Ok pb', assigns (less :: fresh_vars pb0 pb1) pb pb',
    xval (pb_values pb') less = (a < b)%N%:R & holds (comparison_constraints g) (pb_values pb')].
Proof.
move=> hw hn hlat hp hless /= /and3P [/andP [lA nA] /andP [lB nB] _] eA eB /andP [hab hb].
have [a0' [_ hsh _ _ _]] := comparison_new_spec hw hn; have es := cms_inputs hsh.
move: hn; rewrite /comparison_new.
case e1: (allocate_array pb0 n) => [a0 q1]; have [h1 ea s1] := allocate_array_new hw e1.
case e2: (allocate_var q1) => [ap q2]; have [h2 eap s2] := allocate_var_new (allocates_wf h1) e2.
case e3: (allocate_var q2) => [nz q3]; have [h3 enz s3] := allocate_var_new (allocates_wf h2) e3.
have sz : size a0 = n by rewrite ea size_iota.
have tk : take n (rcons a0 ONE) = a0 by rewrite -cats1 take_cat sz ltnn subnn take0 cats0.
rewrite tk; case e4: (disjunction_new q3 _ _) => [[d q4]| |] //; cbn [obind fst snd].
move=> heq; have {heq} [eg eq] : Comparison n (plc_of_var F vA) (plc_of_var F vB) less ONE (rcons a0 ONE) ap nz
  (Packing (plcs_of_vars F (rcons a0 ONE)) (plc_of_var F ap)) d = g /\ q4 = pb1 by case: heq.
have [_ h4 ei eo efr] := disjunction_new_spec (allocates_wf h3) e4.
have s4 : size (pb_values q4) = (size (pb_values q3)).+1.
  by have := congr1 size efr; have := allocates_size h4; rewrite size_iota /=; clear; lia.
rewrite -eg in es; cbn [cm_all_zeros_test] in es; rewrite -{}eq in hlat *.
have ea0 : a0' = a0 by rewrite -es ei.
rewrite ea0 in hsh; rewrite s1 in eap s2; rewrite s2 in enz s3; rewrite s3 in s4.
case: (hlat) => hwp hl _; rewrite s4 in hl; rewrite /fresh_vars s4.
move: hl lA lB ea eap enz s3 hless; rewrite /is_var /size_of; set N := size (pb_values pb0) => hl lA lB ea eap enz s3 hless.
have mem_a v : v \in a0 -> (N < v <= N + n)%N by rewrite ea mem_iota; clear; lia.
rewrite -{1}eg /comparison_witness; cbn [cm_A cm_B cm_alpha_packed cm_n cm_pack_alpha cm_all_zeros_test cm_less_or_eq cm_not_all_zeros cm_less].
cbn [lc_evaluate plc_of_var lc_is_variable obind]; rewrite /pb_lc_val; cbn [plc_of_var lc_is_variable lc_index].
rewrite !(pb_val_ok hwp); [|by move: lA hl; clear; lia|by move: lB hl; clear; lia].
cbn [obind]; rewrite eA eB -natrX -natrD -natrB; last by move: hab hb; clear; lia.
set m := (_ - _)%N.
have hm : (2 ^ n <= m < 2 ^ n.+1)%N by rewrite /m expnS; move: hab hb; clear; lia.
have [|pa [-> a1 x1]] := step_set (pb := pb) (v := ap) m%:R hwp; first by rewrite /is_var eap; move: hl; clear; lia.
cbn [obind]; have z1 := assigns_sz a1.
have [||||||pc [ds [-> a2 hbt hd]]] := step_packed_one (pb := pa) (vs := a0) (v := ap) (n := m) (assigns_wf a1).
- by rewrite /size_of z1 eap; move: hl; clear; lia.
- by rewrite ea iota_uniq.
- by apply/allP => v /mem_a; rewrite /is_var z1; move: hl; clear; lia.
- exact: x1.
- by rewrite sz.
- by rewrite sz.
cbn [obind]; have z2 := assigns_sz a2; rewrite z1 in z2.
have lat2 : later q4 pc by exact: (assigns_later a2 (assigns_later a1 hlat)).
have [|||pd [-> a3 s5 hdis]] := step_disj (allocates_wf h3) e4 lat2.
- by rewrite /is_var s3 enz; clear; lia.
- by apply/allP => v /mem_a; rewrite s3; clear; lia.
- by apply/negP => /mem_a; rewrite enz; clear; lia.
cbn [obind]; have z3 := assigns_sz a3; rewrite z2 in z3; rewrite s3 in a3 hdis.
rewrite (pb_val_ok (assigns_wf a3)) //; cbn [obind].
rewrite (pb_val_ok (assigns_wf a3)); last by rewrite z3 enz; move: hl; clear; lia.
cbn [obind]; rewrite xone mul1r.
have hb3 : bits_are (pb_values pd) a0 ds.
  by apply: (assigns_bits a3) hbt; apply/allP => v /mem_a; rewrite !inE negb_or enz; clear; lia.
have hz : xval (pb_values pd) nz = (a < b)%N%:R.
  have hd3 : holds (disjunction_constraints F d) (pb_values pd) by apply: hdis.
  have := disjunction_sound (R := R) hd3; rewrite ei eo sz => -> //; last exact: bits_isbit hb3.
    rewrite (has_bits hb3); congr (nat_of_bool _)%:R.
    have := bits_nat_eq0 ds; rewrite hd /m => he.
    by apply: negb_inj; rewrite -he sz; move: hab hb; clear; lia.
  by apply: leq_trans hp; apply: ltn_trans (ltn_expl n (isT : 1 < 2)%N) _; rewrite ltn_exp2l.
rewrite hz.
have [|pe [-> a4 x4]] := step_set (pb := pd) (v := less) (a < b)%N%:R (assigns_wf a3).
  by rewrite /is_var z3; move: hless hl; clear; lia.
have a14 := assigns_cat (assigns_cat (assigns_cat a1 a2) a3) a4.
have hNn v : (N < v)%N -> v \notin [:: less] by rewrite inE; move: hless; clear; lia.
have b4 : bits_are (pb_values pe) a0 ds.
  by apply: (assigns_bits a4) hb3; apply/allP => v /mem_a /andP [hv _]; exact: hNn.
have knz : xval (pb_values pe) nz = (a < b)%N%:R.
  by rewrite (assigns_val a4) ?hz //; apply: hNn; rewrite enz; clear; lia.
have kap : xval (pb_values pe) ap = m%:R.
  rewrite (assigns_val a4); last by apply: hNn; rewrite eap; clear; lia.
  rewrite (assigns_val a3); last by rewrite !inE negb_or eap enz; clear; lia.
  by rewrite (assigns_val a2) ?[LHS]x1 //; apply/negP => /mem_a; rewrite eap; clear; lia.
have kin v : (v <= N)%N -> v != less -> xval (pb_values pe) v = xval (pb_values pb) v.
  move=> hv nv; apply: (assigns_val a14); rewrite !mem_cat !inE !negb_or nv andbT eap enz.
  apply/andP; split; [apply/andP; split|]; [by move: hv; clear; lia| |by move: hv; clear; lia].
  by apply/negP => /mem_a; move: hv; clear; lia.
exists pe; split=> //.
  apply: (assigns_sub _ a14) => v; rewrite !mem_cat !inE mem_iota eap enz -!orbA.
  case/or4P => [/eqP ->|/mem_a hv|/eqP ->|]; first by apply/orP; right; clear; lia.
  - by apply/orP; right; move: hv; clear; lia.
  - by apply/orP; right; clear; lia.
  by case/orP => [/eqP ->|->] //; apply/orP; right; clear; lia.
apply/(comparisonE _ hsh); rewrite -eg; cbn [cm_A cm_B cm_alpha_packed cm_n cm_pack_alpha cm_all_zeros_test cm_less_or_eq cm_not_all_zeros cm_less].
rewrite !lval_var knz kap xone mul1r; split.
- exact: isbit_nat.
- have hb' : bits_are (pb_values pe) (rcons a0 ONE) (rcons ds true) by apply: bits_rcons.
  apply/(pv_true_iff _ hb'); rewrite kap bits_nat_rcons hd; congr (_%:R).
  by rewrite -(bits_size b4) sz; move: hm; clear; rewrite muln1; lia.
- rewrite (kin vB) // (kin vA) // eA eB -natrX -natrD -natrB //.
  by move: hab hb; clear; lia.
- apply: hdis => u; rewrite !inE => hu; apply: (assigns_val a4); apply: hNn; case/or3P: hu => [/eqP ->|/eqP ->|/mem_a]; rewrite ?enz; clear; lia.
exact: esym x4.
Qed.

(** ** udiv, umod *)
Definition div_vars (o : div_outs) : seq nat := [:: dm_q o; dm_q_flag o; dm_r o; dm_r_flag o].
Lemma divmod_ok pb0 pb1 pb w arg1 arg2 o g bs cs :
  pb_wf pb0 -> alu_divmod_new pb0 w arg2 o = Ok (g, pb1) -> later pb1 pb -> (2 ^ w.+1 <= fp_order R)%N ->
  all (is_var pb0) (div_vars o) -> uniq (div_vars o) -> all (operand pb0 (div_vars o)) [:: arg1; arg2] ->
  size bs = w -> size cs = w -> is_word (pb_values pb) arg1 bs -> is_word (pb_values pb) arg2 cs ->
  exists pb', [/\ alu_divmod_witness R arg1 arg2 o g pb = Ok pb', assigns (div_vars o ++ fresh_vars pb0 pb1) pb pb',
    holds (alu_divmod_constraints arg1 arg2 o g) (pb_values pb') &
    [/\ xval (pb_values pb') (dm_q o) = (bits_nat bs %/ bits_nat cs)%N%:R,
        xval (pb_values pb') (dm_r o) = (if (bits_nat cs == 0)%N then 0 else (bits_nat bs %% bits_nat cs)%N%:R) &
        all (fun v => xval (pb_values pb') v == bit (bits_nat cs == 0)%N) [:: dm_q_flag o; dm_r_flag o]]].
Proof.
rewrite /alu_divmod_new /div_vars; case: o => q qf r rf; cbn [dm_q dm_q_flag dm_r dm_r_flag].
move=> hw.
case e1: (allocate_var pb0) => [v1 q1]; have [h1 ev1 s1] := allocate_var_new hw e1.
case e2: (allocate_var q1) => [v2 q2]; have [h2 ev2 s2] := allocate_var_new (allocates_wf h1) e2.
case e3: (allocate_var q2) => [v3 q3]; have [h3 ev3 s3] := allocate_var_new (allocates_wf h2) e3.
case e5: (comparison_new _ _ _ _ _ _) => [[c q5]| |] //; cbn [obind fst snd].
move=> heq; have {heq} [eg eq] : AluDivmod v1 v2 v3 c = g /\ q5 = pb1 by case: heq.
rewrite -{}eg -{}eq {g pb1} => hlat hp.
rewrite s1 in ev2 s2; rewrite s2 in ev3 s3.
set outs := [:: q; qf; r; rf] => hv hu /= /and3P [o1 o2 _] sb sc w1 w2.
have hv' v : v \in outs -> (0 < v <= size (pb_values pb0))%N by move/(allP hv).
have [a0 [h5 _ _ _ _]] := comparison_new_spec (allocates_wf h3) e5.
have l5 := allocates_size h5; rewrite s3 in l5.
case: (hlat) => hwp hl _; have hl0 := leq_trans l5 hl.
have p1 := operand_le o1; have p2 := operand_le o2; have n2 := operand_notin o2.
rewrite /fresh_vars.
move: hv' hl0 l5 ev1 ev2 ev3 s3 p1 p2; rewrite /size_of; set N := size (pb_values pb0) => hv' hl0 l5 ev1 ev2 ev3 s3 p1 p2.
case: (w1) (w2) => [b1 x1] [b2 x2].
have lA := bits_nat_lt bs; have lB := bits_nat_lt cs; rewrite sb in lA; rewrite sc in lB.
rewrite /alu_divmod_witness; cbn [dm_inv dm_nonzero dm_A_aux dm_r_less_B dm_q dm_q_flag dm_r dm_r_flag].
rewrite (pb_val_ok hwp); last by move: p1 hl0; clear; lia.
cbn [obind]; rewrite (pb_val_ok hwp); last by move: p2 hl0; clear; lia.
cbn [obind]; rewrite x1 x2.
set A := bits_nat bs in lA x1 *; set B := bits_nat cs in lB x2 *.
have pl n : (n < 2 ^ w)%N -> (n < fp_order R)%N by move=> hn; move: hn hp; rewrite expnS; clear; lia.
rewrite !as_bigint_nat; [|exact: pl|exact: pl].
have ez : (B%:R == 0 :> F) = (B == 0)%N.
  apply/eqP/eqP => [e|->] //; apply: (natF_eq (R := R)); [exact: pl|by apply: pl; rewrite expn_gt0|exact: e].
rewrite ez; set Z := (B == 0)%N.
have up pb' v : size (pb_values pb') = size (pb_values pb) -> v \in outs -> is_var pb' v.
  by move=> e /hv'; rewrite /is_var e; move: hl0; clear; lia.
have [oq oqf or_ orf] : [/\ q \in outs, qf \in outs, r \in outs & rf \in outs] by rewrite !inE !eqxx !orbT.
have [|pa [-> a1 y1]] := step_set (pb := pb) (v := v1) (if Z then 0 else B%:R^-1) hwp; first by rewrite /is_var ev1; move: hl0; clear; lia.
cbn [obind]; have z1 := assigns_sz a1.
have [|pc [-> a2 y2]] := step_set (pb := pa) (v := v2) (bit_val F (~~ Z)) (assigns_wf a1); first by rewrite /is_var z1 ev2; move: hl0; clear; lia.
cbn [obind]; have z2 := assigns_sz a2; rewrite z1 in z2.
have [|pd [-> a3 y3]] := step_set (pb := pc) (v := v3) (if Z then 0 else A%:R) (assigns_wf a2); first by rewrite /is_var z2 ev3; move: hl0; clear; lia.
cbn [obind]; have z3 := assigns_sz a3; rewrite z2 in z3.
have [|pe [-> a4 y4]] := step_set (pb := pd) (v := q) (if Z then 0 else (A %/ B)%N%:R) (assigns_wf a3); first exact: up.
cbn [obind]; have z4 := assigns_sz a4; rewrite z3 in z4.
have [|pf [-> a5 y5]] := step_set (pb := pe) (v := r) (if Z then 0 else (A %% B)%N%:R) (assigns_wf a4); first exact: up.
cbn [obind]; have z5 := assigns_sz a5; rewrite z4 in z5.
have [|pg [-> a6 y6]] := step_set (pb := pf) (v := qf) (bit_val F Z) (assigns_wf a5); first exact: up.
cbn [obind]; have z6 := assigns_sz a6; rewrite z5 in z6.
have [|ph [-> a7 y7]] := step_set (pb := pg) (v := rf) (bit_val F Z) (assigns_wf a6); first exact: up.
cbn [obind]; have z7 := assigns_sz a7; rewrite z6 in z7.
have a13 := assigns_cat (assigns_cat a1 a2) a3; rewrite /= in a13.
have a47 := assigns_cat (assigns_cat (assigns_cat a4 a5) a6) a7; rewrite /= in a47.
have a17 := assigns_cat a13 a47.
uniq_split hu.
have lat7 : later q5 ph by exact: (assigns_later a17 hlat).
set rr := if Z then 0%N else (A %% B)%N.
have hrr : (rr <= B < 2 ^ w)%N.
  rewrite lB andbT /rr /Z; case: (posnP B) => [->//|h]; exact: ltnW (ltn_pmod A h).
have high v u : (N < v)%N -> u \in outs -> v != u.
  by move=> hNv /hv' hh; apply/eqP => ee; move: hNv hh; rewrite ee; clear; lia.
have asd17 : aside pb0 outs ([:: v1; v2; v3] ++ [:: q; r; qf; rf]).
  rewrite /aside /= oq or_ oqf orf ev1 ev2 ev3 -/N !orTb !andbT.
  by rewrite ltnSn (ltnW (ltnSn N.+1)) (ltnW (ltnW (ltnSn N.+2))) !orbT.
have er : xval (pb_values ph) r = rr%:R.
  rewrite (assigns_val a7); last by rewrite inE; neqs.
  rewrite (assigns_val a6); last by rewrite inE; neqs.
  by rewrite [LHS]y5 /rr; case: (Z).
have eB : xval (pb_values ph) (dv_packed arg2) = B%:R by rewrite (operand_val o2 a17 asd17).
have [||pk [-> a8 x8 hcmp]] := cmp_one_ok (allocates_wf h3) e5 lat7 hp _ _ er eB hrr.
- by rewrite /is_var s3 ev2; clear; lia.
- rewrite /= /size_of s3 andbT; apply/andP; split.
    by rewrite [r == v2]eq_sym (high v2 r) ?ev2 //; have := hv' _ or_; clear; lia.
  by rewrite ev2; move: p2; clear; lia.
have efr : fresh_vars q3 q5 = iota N.+4 (size (pb_values q5) - N.+3) by rewrite /fresh_vars s3.
rewrite efr in a8.
have in8 v : (0 < v <= N)%N -> v \notin v2 :: iota N.+4 (size (pb_values q5) - N.+3).
  by rewrite inE mem_iota ev2; clear; lia.
have k8 v : (0 < v <= N)%N -> xval (pb_values pk) v = xval (pb_values ph) v by move=> hv8; exact: (assigns_val a8 (in8 v hv8)).
have k8' v : v \in outs -> xval (pb_values pk) v = xval (pb_values ph) v by move/hv'; exact: k8.
have low v u : v \in outs -> (N < u)%N -> v != u by move=> hvo hu'; rewrite eq_sym; exact: high.
have eA : xval (pb_values ph) (dv_packed arg1) = A%:R by rewrite (operand_val o1 a17 asd17).
have fA : xval (pb_values pk) (dv_packed arg1) = A%:R by rewrite k8 //; exact: (operand_var o1).
have fB : xval (pb_values pk) (dv_packed arg2) = B%:R by rewrite k8 //; exact: (operand_var o2).
have eq' : xval (pb_values ph) q = (if Z then 0 else (A %/ B)%N%:R).
  rewrite (assigns_val a7); last by rewrite inE; neqs.
  rewrite (assigns_val a6); last by rewrite inE; neqs.
  by rewrite (assigns_val a5); [exact: y4|rewrite inE; neqs].
have fq := k8' _ oq; rewrite eq' in fq; have fr := k8' _ or_; rewrite er in fr.
have fqf : xval (pb_values pk) qf = bit Z.
  by rewrite (k8' _ oqf) (assigns_val a7) ?inE; [rewrite [LHS]y6 bits_val|neqs].
have frf : xval (pb_values pk) rf = bit Z by rewrite (k8' _ orf) [LHS]y7 bits_val.
have n47 v : (N < v)%N -> v \notin [:: q; r; qf; rf] by move=> hv8; rewrite !inE !negb_or !high.
have f1 : xval (pb_values pk) v1 = (if Z then 0 else B%:R^-1).
  rewrite (assigns_val a8); last by rewrite inE mem_iota ev1 ev2; clear; lia.
  rewrite (assigns_val a47); last by apply: n47; rewrite ev1.
  rewrite (assigns_val a3); last by rewrite inE ev1 ev3; clear; lia.
  by rewrite (assigns_val a2); [exact: y1|rewrite inE ev1 ev2; clear; lia].
have f3 : xval (pb_values pk) v3 = (if Z then 0 else A%:R).
  rewrite (assigns_val a8); last by rewrite inE mem_iota ev3 ev2; clear; lia.
  by rewrite (assigns_val a47); [exact: y3|apply: n47; rewrite ev3; clear; lia].
have f2 : xval (pb_values pk) v2 = bit (~~ Z).
  rewrite x8 /bit /rr /Z; congr (nat_of_bool _)%:R; case: (posnP B) => [->//|h]; rewrite (ltn_pmod A h).
  by move: h; clear; case: (B).
have a18 := assigns_cat a17 a8.
exists pk; split=> //.
- change (assigns (outs ++ iota N.+1 (size (pb_values q5) - N)) pb pk).
  apply: (assigns_sub _ a18) => v; rewrite !mem_cat !inE !mem_iota ev1 ev2 ev3 -!orbA => hm.
  do 3![case/orP: hm => [/eqP ->|hm]; first by do 4![apply/orP; right]; move: l5; clear; lia].
  do 4![case/orP: hm => [->|hm]; first by rewrite ?orbT].
  by case/orP: hm => [/eqP ->|hm]; do 4![apply/orP; right]; [|move: hm]; move: l5; clear; lia.
- rewrite /alu_divmod_constraints; cbn [dm_inv dm_nonzero dm_A_aux dm_r_less_B dm_q dm_q_flag dm_r dm_r_flag].
  rewrite holds_cat; split; last exact: hcmp.
  rewrite !holds_cons holds_nil /constraint_holds; cbn [c_a c_b c_c].
  rewrite !lc2E !lc1E !mul1r !mulN1r ?xone fA fB fq fr f1 f2 f3 /rr.
  case eZ: (Z); rewrite /bit /= ?mul0r ?mulr0 ?mulr1 ?subr0 ?subrr ?mulr0 ?mul0r.
    have -> : B = 0%N by apply/eqP; exact: eZ.
    by rewrite mulr0.
  have hB : B%:R != 0 :> F by rewrite ez; exact: negbT eZ.
  split; first by rewrite mulVf.
  split; first by [].
  split; last by [].
  by rewrite {2}(divn_eq A B) natrD natrM addrK mulrC.
split; last by rewrite /= fqf frf !eqxx.
- by rewrite fq /Z; case: eqP => // ->; rewrite divn0.
by rewrite fr /rr /Z; case: eqP.
Qed.
End Witness.
