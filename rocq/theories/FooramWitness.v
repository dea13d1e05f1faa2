(** Witness generation of the bar gadget of FOORAM.  Models nothing of /repo. *)
From mathcomp Require Import all_ssreflect all_algebra zify.
From Verif Require Import Outcome Lincomb LincombSpec LincombFacts R1CS R1CSSpec R1CSFacts Fieldtac.
From Verif Require Import Protoboard GadgetSpec GadgetLogic BasicGadgets BasicGadgetsFacts BasicGadgetsMore.
From Verif Require Import BasicGadgetsCopy GadgetNew GadgetSeq Prop_Gadgets MemoryCheckerFacts Benes.
From Verif Require Import Alu AluSpec AluFacts AluSound AluSound2 AluWitness Fooram FooramFacts.
Set Implicit Arguments.
Unset Strict Implicit.
Unset Printing Implicit Defensive.
Local Open Scope ring_scope.
Import GRing.Theory.

Section Witness.
Variable F : fieldType.
Variable R : bigint_repr F.
Implicit Types (x : seq F) (pb : protoboard F).

Lemma step_get pb vs bs : pb_wf pb -> all (fun u => u <= size (pb_values pb))%N vs -> bits_are (pb_values pb) vs bs ->
  lcs_get_field_element_from_bits pb (plcs_of_vars F vs) = Ok (bits_nat bs)%:R.
Proof.
move=> hw hs hb; have e : upd pb (pb_values pb) (pb_lc_values pb) = pb by case: hw => h _ _ _; apply: upd_id.
rewrite -{1}e (@get_from_bits_ok F pb _ _ (fun=> [::])).
- by rewrite -/(lval _) lval_vars (pack_are hb).
- by move=> l /List.in_map_iff [u [<- /In_mem hu]]; split=> //; move/allP: hs; apply.
- by move=> l /List.in_map_iff [u [<- _]]; left.
- by rewrite all_map; apply/allP => u hu /=; rewrite lval_var; move/allP: (bits_isbit hb); apply.
Qed.

Theorem bar_ok pb0 pb1 pb X (a : nat) Y (b : nat) (Z : nat) g bs cs :
  pb_wf pb0 -> bar_new pb0 (plcs_of_vars F X) a%:R (plcs_of_vars F Y) b%:R Z = Ok (g, pb1) -> later pb1 pb ->
  (2 ^ (3 * size X) <= fp_order R)%N -> (a + b <= 2 ^ (2 * size X))%N ->
  is_var pb0 Z -> all (fun v => is_var pb0 v && (v != Z)) X -> all (fun v => is_var pb0 v && (v != Z)) Y ->
  bits_are (pb_values pb) X bs -> bits_are (pb_values pb) Y cs ->
  exists pb', [/\ bar_witness R g pb = Ok pb', assigns (Z :: fresh_vars pb0 pb1) pb pb' &
    holds (bar_constraints g) (pb_values pb')].
Proof.
move=> hw; rewrite /bar_new !size_map; case: eqP => // exy; cbn [oassert].
case e1: (allocate_var pb0) => [sm q1]; have [h1 es s1] := allocate_var_new hw e1.
case e2: (allocate_array q1 _) => [zs q2]; have [h2 ea s2] := allocate_array_new (allocates_wf h1) e2.
case e3: (allocate_array q2 _) => [os q3]; have [h3 eo s3] := allocate_array_new (allocates_wf h2) e3.
case=> <- <- [hwp hl _] hp hab /andP [z0 hz] /allP hX /allP hY hx hy.
rewrite s2 s1 in eo s3; rewrite s1 in ea; rewrite s3 in hl; rewrite /fresh_vars s3 {e1 e2 e3 h1 h2 h3 s1 s2 s3}.
move: hz hl es ea eo hX hY; rewrite /is_var; set N := size (pb_values pb0) => hz hl es ea eo hX hY.
set w := size X in hp hab hl ea eo *.
have zo : zs ++ os = iota N.+2 (3 * w).
  by rewrite ea eo (_ : 3 * w = w + 2 * w)%N -?iotaD; [rewrite iotaD; congr (_ ++ iota _ _); lia|lia].
have sX : size bs = w by rewrite -(bits_size hx).
have sY : size cs = w by rewrite -(bits_size hy) -exy.
rewrite /bar_witness; cbn [bar_X bar_Y bar_a bar_b bar_result].
have lX : all (fun u => u <= size (pb_values pb))%N X by apply/allP => u /hX; move: hl; clear; lia.
have lY : all (fun u => u <= size (pb_values pb))%N Y by apply/allP => u /hY; move: hl; clear; lia.
rewrite (step_get hwp lX hx) (step_get hwp lY hy); cbn [obind].
rewrite -!natrM -natrD es; set n := (_ + _)%N.
have hn : (n < 2 ^ (3 * w))%N.
  have := bits_nat_lt bs; have := bits_nat_lt cs; rewrite sX sY /n => k1 k2.
  rewrite (_ : 3 * w = w + 2 * w)%N; last lia.
  rewrite expnD mulnC; move: hab k1 k2 (expn_gt0 2 (2 * w)); move: (2 ^ (2 * w))%N (2 ^ w)%N (bits_nat bs) (bits_nat cs) => M K u v.
  clear => h1 h3 h2 hM.
  have h4 : (u * a <= K.-1 * a)%N by rewrite leq_mul2r; apply/orP; right; move: h2; clear; lia.
  have h5 : (v * b <= K.-1 * b)%N by rewrite leq_mul2r; apply/orP; right; move: h3; clear; lia.
  have h6 : ((a + b) * K.-1 <= M * K.-1)%N by rewrite leq_mul2r h1 orbT.
  have h7 : (M * K.-1 < M * K)%N by rewrite ltn_mul2l hM /=; move: h2; clear; lia.
  by move: h4 h5 h6 h7; rewrite mulnDl ![(K.-1 * _)%N]mulnC; clear; lia.
have [|pa [-> a1 x1]] := step_set (pb := pb) (v := N.+1) n%:R hwp; first by rewrite /is_var; move: hl; clear; lia.
cbn [obind]; have z1 := assigns_sz a1.
rewrite /bar_unpack /bar_pack; cbn [bar_Z_bits bar_overflow bar_result bar_Z]; rewrite zo.
have [|||||||pc [ds [-> a2 hb hd]]] := step_packed (R := R) (pb := pa) (vs := iota N.+2 (3 * w)) (v := N.+1) (n := n) (assigns_wf a1).
- by rewrite z1; move: hl; clear; lia.
- by rewrite iota_uniq.
- by apply/allP => v; rewrite mem_iota /is_var z1; move: hl; clear; lia.
- by rewrite mem_iota; clear; lia.
- exact: x1.
- by rewrite size_iota.
- by rewrite size_iota.
cbn [obind]; have z2 := assigns_sz a2.
have hzs : bits_are (pb_values pc) zs (take w ds).
  have := bits_take w hb; rewrite -zo take_size_cat // ea size_iota //.
have [||||pd [-> a3 x3]] := step_bits (pb := pc) (vs := zs) (v := Z) (bs := take w ds) (assigns_wf a2).
- by rewrite /is_var z2 z1; move: hz z0 hl; clear; lia.
- by apply/allP => v; rewrite ea mem_iota z2 z1; move: hl; clear; lia.
- by rewrite ea mem_iota; move: hz; clear; lia.
- exact: hzs.
exists pd; split=> //.
  have a12 : assigns (N.+1 :: iota N.+2 (3 * w)) pb pc.
    by apply: (assigns_trans _ _ a1 a2) => v; rewrite ?inE => -> //; rewrite orbT.
  apply: (assigns_trans _ _ a12 a3) => v; last by rewrite !inE => /eqP ->; rewrite eqxx.
  rewrite !inE !mem_iota; clear; lia.
have same v : v != N.+1 -> v \notin iota N.+2 (3 * w) -> v != Z -> xval (pb_values pd) v = xval (pb_values pb) v.
  by move=> k1 k2 k3; rewrite (assigns_val a3) ?inE // (assigns_val a2) // (assigns_val a1) ?inE.
have keep vs ts : (forall v, v \in vs -> (0 < v <= N)%N && (v != Z)) -> bits_are (pb_values pb) vs ts -> bits_are (pb_values pd) vs ts.
  move=> hv; rewrite /bits_are => <-; apply/eq_in_map => v /hv /andP [k1 k2]; apply: same => //.
    by move: k1; clear; lia.
  by rewrite mem_iota; move: k1; clear; lia.
have hx' := keep _ _ hX hx; have hy' := keep _ _ hY hy.
have hb' : bits_are (pb_values pd) (iota N.+2 (3 * w)) ds.
  by apply: (assigns_bits a3) hb; apply/allP => v; rewrite mem_iota inE; move: hz; clear; lia.
have hzs' : bits_are (pb_values pd) zs (take w ds).
  by apply: (assigns_bits a3) hzs; apply/allP => v; rewrite ea mem_iota inE; move: hz; clear; lia.
have hs' : xval (pb_values pd) N.+1 = n%:R.
  rewrite (assigns_val a3) ?inE; last by move: hz; clear; lia.
  by rewrite (assigns_val a2) // mem_iota; clear; lia.
rewrite /bar_constraints /bar_unpack /bar_pack 2!holds_cat holds1; cbn [bar_Z_bits bar_overflow bar_result bar_Z bar_X bar_Y bar_a bar_b].
rewrite zo; split; first by apply/(pv_true_iff _ hb'); rewrite hs' hd.
split; first by apply/(pv_false _ hzs'); exact: x3.
rewrite /constraint_holds; cbn [c_a c_b c_c]; rewrite !fsE !packing_sumE !lval_vars (pack_are hx') (pack_are hy') hs' mul1r.
by rewrite -!natrM -natrD /n mulnC (mulnC b).
Qed.
End Witness.
