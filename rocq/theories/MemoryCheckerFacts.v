(** Facts about the memory checker (for C40).  Models nothing of /repo. *)
From mathcomp Require Import all_ssreflect all_algebra zify.
From Verif Require Import Outcome Lincomb LincombSpec LincombFacts R1CS R1CSSpec R1CSFacts Fieldtac.
From Verif Require Import Protoboard GadgetSpec GadgetLogic BasicGadgets BasicGadgetsFacts BasicGadgetsMore.
From Verif Require Import BasicGadgetsCopy GadgetNew GadgetSeq Prop_Gadgets MemoryChecker.
Set Implicit Arguments.
Unset Strict Implicit.
Unset Printing Implicit Defensive.
Local Open Scope ring_scope.
Import GRing.Theory.

Section Facts.
Variable F : fieldType.
Variable R : bigint_repr F.
Implicit Types (pb : protoboard F) (x : seq F).

(** ** Steps on protoboards *)
Lemma pb_val_ok pb v : pb_wf pb -> (v <= size (pb_values pb))%N -> pb_val pb v = Ok (xval (pb_values pb) v).
Proof. by move=> hw hv; rewrite -{1}(board_of hw) pb_val_upd. Qed.
Lemma pb_set_ok pb v a : pb_wf pb -> is_var pb v -> exists pb',
  [/\ pb_set pb v a = Ok pb', assigns [:: v] pb pb' & pb_values pb' = put (pb_values pb) v a].
Proof.
move=> hw hv; exists (upd pb (put (pb_values pb) v a) (pb_lc_values pb)); split=> //.
  by rewrite -{1}(board_of hw) pb_set_upd.
apply: (assigns_upd (slot := fun=> [::]) hw); apply: wstep_put.
by case/andP: hv.
Qed.
Lemma assigns_trans m1 m2 m pb1 pb2 pb3 : {subset m1 <= m} -> {subset m2 <= m} ->
  assigns m1 pb1 pb2 -> assigns m2 pb2 pb3 -> assigns m pb1 pb3.
Proof.
move=> s1 s2 [a1 a2 a3 a4] [b1 b2 b3 b4]; split=> //; rewrite ?b1 ?b3 //.
case: a4 b4 => c1 c2 [d1 d2]; split; first by rewrite d1.
by move=> v hv; rewrite d2 ?c2 //; apply: contra hv; [apply: s1|apply: s2].
Qed.
Lemma assigns_later m pb0 pb pb' : assigns m pb pb' -> later pb0 pb -> later pb0 pb'.
Proof. by move=> [_ h1 h2 [h3 _]] [h4 h5 h6]; split; rewrite ?h3 ?h2. Qed.
Lemma assigns_val m pb pb' v : assigns m pb pb' -> v \notin m -> xval (pb_values pb') v = xval (pb_values pb) v.
Proof. by case=> _ _ _ [_ h]; apply: h. Qed.

(** ** The comparison gadget looks only at its inputs and at what it assigns *)
Lemma within_add_vars (P : pred nat) (l : linear_combination F) vs : within P l -> all P vs -> within P (add_vars l vs).
Proof.
elim: vs l => [|v vs IH] l //= hl /andP [hv hvs]; apply: IH => //.
by rewrite within_add_term hl /= hv orbT.
Qed.
Lemma disjunction_within (P : pred nat) (g : disjunction) : P (dj_inv g) -> P (dj_output g) -> all P (dj_inputs g) ->
  cs_within P (disjunction_constraints F g).
Proof.
move=> h1 h2 h3; rewrite /disjunction_constraints /cs_within /= /cwithin /=.
by rewrite !within_add_vars // h1 h2 !orbT.
Qed.
Lemma comparison_within (P : pred nat) (g : comparison F) a0 : cm_shape g a0 ->
  within P (lc_terms (cm_A g)) -> within P (lc_terms (cm_B g)) -> all P (cm_mods g a0) ->
  cs_within P (comparison_constraints g).
Proof.
move=> hs hA hB hm; have := hm; rewrite /cm_mods all_cat [all _ (_ :: _)]/= all_rcons.
move=> /andP [/and3P [h1 h2 h3] /and4P [h4 h5 h6 _]].
rewrite /comparison_constraints !cs_within_cat; apply/and5P; split.
- by rewrite /cs_within /= /cwithin /= !wiE h5 !orbT.
- by rewrite (cms_pack hs); apply: packing_within; [apply: within_plcs; rewrite all_rcons h2|rewrite within_plc h1 orbT].
- by rewrite /cs_within /= /cwithin /= !wiE hA hB h1 !orbT.
- by apply: disjunction_within; rewrite ?(cms_inputs hs) ?(cms_output hs).
- by rewrite /cs_within /= /cwithin /= ?wiE h2 h5 h6 !orbT.
Qed.

(** ** The constructor *)
Record mc_built pb0 nt na (l1 l2 : memory_line) (g : memory_checker F) pb1 pt pt' pa pa' : Prop := McBuilt {
  mb_t : allocates pb0 pt; mb_a : allocates pt' pa; mb_e : allocates pa' pb1;
  mb_cmpt : comparison_new pt nt (plc_of_var F (dv_packed (ml_timestamp l1)))
    (plc_of_var F (dv_packed (ml_timestamp l2))) (mc_timestamps_less g) (mc_timestamps_leq g) =
    Ok (mc_compare_timestamps g, pt');
  mb_cmpa : comparison_new pa na (plc_of_var F (dv_packed (ml_address l1)))
    (plc_of_var F (dv_packed (ml_address l2))) (mc_addresses_less g) (mc_addresses_leq g) =
    Ok (mc_compare_addresses g, pa');
  mb_lines : mc_line1 g = l1 /\ mc_line2 g = l2;
  mb_vt : mc_timestamps_leq g = (size (pb_values pb0)).+1 /\ mc_timestamps_less g = (size (pb_values pb0)).+2;
  mb_st : size (pb_values pt) = (size (pb_values pb0)).+2;
  mb_va : [/\ mc_addresses_eq g = (size (pb_values pt')).+1, mc_addresses_leq g = (size (pb_values pt')).+2 &
             mc_addresses_less g = (size (pb_values pt')).+3];
  mb_sa : size (pb_values pa) = (size (pb_values pt')).+3;
  mb_ve : [/\ mc_loose_eq g = (size (pb_values pa')).+1, mc_loose_zero g = (size (pb_values pa')).+2 &
             mc_loose_ts g = (size (pb_values pa')).+3];
  mb_se : size (pb_values pb1) = (size (pb_values pa')).+3 }.

Lemma memory_checker_new_spec pb0 nt na l1 l2 g pb1 : pb_wf pb0 ->
  memory_checker_new pb0 nt na l1 l2 = Ok (g, pb1) ->
  exists pt pt' pa pa', mc_built pb0 nt na l1 l2 g pb1 pt pt' pa pa'.
Proof.
move=> hw; rewrite /memory_checker_new.
case e1: (allocate_var pb0) => [v1 b1]; have [h1 ev1 s1] := allocate_var_new hw e1.
case e2: (allocate_var b1) => [v2 b2]; have [h2 ev2 s2] := allocate_var_new (allocates_wf h1) e2.
case e3: (comparison_new b2 _ _ _ _ _) => [[ct b3]| |] //.
have [_ [h3 _ _ _ _]] := comparison_new_spec (allocates_wf h2) e3; cbn [obind fst snd].
case e4: (allocate_var b3) => [v4 b4]; have [h4 ev4 s4] := allocate_var_new (allocates_wf h3) e4.
case e5: (allocate_var b4) => [v5 b5]; have [h5 ev5 s5] := allocate_var_new (allocates_wf h4) e5.
case e6: (allocate_var b5) => [v6 b6]; have [h6 ev6 s6] := allocate_var_new (allocates_wf h5) e6.
case e7: (comparison_new b6 _ _ _ _ _) => [[ca b7]| |] //.
have [_ [h7 _ _ _ _]] := comparison_new_spec (allocates_wf h6) e7; cbn [obind fst snd].
case e8: (allocate_var b7) => [v8 b8]; have [h8 ev8 s8] := allocate_var_new (allocates_wf h7) e8.
case e9: (allocate_var b8) => [v9 b9]; have [h9 ev9 s9] := allocate_var_new (allocates_wf h8) e9.
case e10: (allocate_var b9) => [v10 b10]; have [h10 ev10 s10] := allocate_var_new (allocates_wf h9) e10.
move=> e; have eg : g = MemoryChecker v1 v2 ct v4 v5 v6 ca v8 v9 v10 l1 l2 by case: e.
have eb : pb1 = b10 by case: e.
rewrite eg eb; exists b2, b3, b6, b7; split.
- exact: allocates_trans h1 h2.
- exact: allocates_trans h4 (allocates_trans h5 h6).
- exact: allocates_trans h8 (allocates_trans h9 h10).
- exact: e3.
- exact: e7.
- by split.
- by split; [exact: ev1|rewrite [LHS]ev2 s1].
- by rewrite s2 s1.
- by split; [exact: ev4|rewrite [LHS]ev5 s4|rewrite [LHS]ev6 s5 s4].
- by rewrite s6 s5 s4.
- by split; [exact: ev8|rewrite [LHS]ev9 s8|rewrite [LHS]ev10 s9 s8].
- by rewrite s10 s9 s8.
Qed.

(** ** The checker's own constraints *)
Lemma checkerE (g : memory_checker F) x :
  holds (memory_checker_constraints g) x <->
  [/\ holds (comparison_constraints (mc_compare_timestamps g)) x,
      holds (comparison_constraints (mc_compare_addresses g)) x,
      xval x (mc_addresses_leq g) * (1 - xval x (mc_addresses_less g)) = xval x (mc_addresses_eq g),
      [/\ xval x (mc_loose_eq g) *
            (xval x (dv_packed (ml_after (mc_line1 g))) - xval x (dv_packed (ml_before (mc_line2 g)))) = 0,
          isbit (xval x (mc_loose_eq g)),
          xval x (mc_loose_zero g) * xval x (dv_packed (ml_before (mc_line2 g))) = 0 &
          isbit (xval x (mc_loose_zero g))] &
      [/\ xval x (mc_loose_ts g) * xval x (dv_packed (ml_timestamp (mc_line2 g))) = 0,
          isbit (xval x (mc_loose_ts g)),
          xval x (mc_addresses_eq g) * (1 - xval x (mc_loose_eq g)) = 0,
          xval x (mc_addresses_less g) * (1 - xval x (mc_loose_zero g)) = 0 &
          (1 - xval x (mc_addresses_leq g)) * (1 - xval x (mc_loose_ts g)) = 0]].
Proof.
rewrite /memory_checker_constraints !holds_cat !holds_cons !holds_nil !boolean_constraintE.
rewrite -!/(lval x (plc_of_var F _)) !lval_var /constraint_holds.
cbn [c_a c_b c_c]; rewrite !fsE /=.
split.
- by case=> h1 [h2 [h3 [h4 [h5 [h6 [h7 [h8 [h9 [h10 [h11 [h12 _]]]]]]]]]]].
- by case=> h1 h2 h3 [h4 h5 h6 h7] [h8 h9 h10 h11 h12]; do 11!split=> //.
Qed.

(** ** Comparing two variables *)
Lemma compare_vars pb0 pb1 pb n (vA vB less leq : nat) g (a b : nat) : pb_wf pb0 ->
  comparison_new pb0 n (plc_of_var F vA) (plc_of_var F vB) less leq = Ok (g, pb1) -> later pb1 pb ->
  (2 ^ n.+1 <= fp_order R)%N -> all (is_var pb0) [:: less; leq; vA; vB] -> less != leq ->
  vA \notin [:: less; leq] -> vB \notin [:: less; leq] ->
  xval (pb_values pb) vA = a%:R -> xval (pb_values pb) vB = b%:R -> (a < 2 ^ n)%N -> (b < 2 ^ n)%N ->
  exists pb', [/\ comparison_witness R g pb = Ok pb', assigns ([:: less; leq] ++ fresh_vars pb0 pb1) pb pb',
    xval (pb_values pb') less = (a < b)%N%:R /\ xval (pb_values pb') leq = (a <= b)%N%:R &
    forall m pb'', assigns m pb' pb'' ->
      all (fun v => (0 < v)%N && (v \notin [:: vA; vB; less; leq] ++ fresh_vars pb0 pb1)) m ->
      holds (comparison_constraints g) (pb_values pb'')].
Proof.
move=> hw hg hl hp /and5P [i1 i2 i3 i4 _] hne nA nB eA eB ha hb.
have small v (c : nat) : xval (pb_values pb) v = c%:R -> (c < 2 ^ n)%N ->
    (as_bigint R (lval (pb_values pb) (plc_of_var F v)) < 2 ^ n)%N.
  move=> e hc; rewrite lval_var e as_bigint_nat //; move: hc hp; rewrite expnS; clear; lia.
have inp v c : xval (pb_values pb) v = c%:R -> (c < 2 ^ n)%N -> is_var pb0 v -> v \notin [:: less; leq] ->
  [/\ lc_proper (fun=> [::]) (size (pb_values pb0)) (size (pb_lc_values pb0)) (plc_of_var F v),
      avoids [:: less; leq] (lc_terms (plc_of_var F v)) &
      (as_bigint R (lval (pb_values pb) (plc_of_var F v)) < 2 ^ n)%N].
  move=> e hc /andP [_ hv] nv; split; last exact: small hc.
    by split.
  by rewrite /avoids /= nv.
have hAB : forall l, List.In l [:: plc_of_var F vA; plc_of_var F vB] ->
  [/\ lc_proper (fun=> [::]) (size (pb_values pb0)) (size (pb_lc_values pb0)) l,
      avoids [:: less; leq] (lc_terms l) & (as_bigint R (lval (pb_values pb) l) < 2 ^ n)%N].
  by move=> l [<-|[<-|[]]]; [apply: inp eA ha i3 nA|apply: inp eB hb i4 nB].
have [pb' [e1 e2 e3]] := C31_comparison_complete hw hg hl hp i1 i2 hne hAB.
have [a0 [al sh _ [_ eqA eqB el ele] pm]] := comparison_new_spec hw hg.
have keep v : is_var pb0 v -> v \notin [:: less; leq] -> v \notin [:: less; leq] ++ fresh_vars pb0 pb1.
  move=> /andP [_ hv] h; rewrite mem_cat negb_or h mem_iota; move: hv; clear; lia.
have hv v : is_var pb0 v -> v \notin [:: less; leq] -> xval (pb_values pb') v = xval (pb_values pb) v.
  by move=> h1 h2; apply: assigns_val e2 (keep v h1 h2).
have [h1 h2] : xval (pb_values pb') less = (a < b)%N%:R /\ xval (pb_values pb') leq = (a <= b)%N%:R.
  apply: (C31_comparison_sound hw hg hp ha hb _ _ e3); by rewrite lval_var hv.
exists pb'; split=> // m pb'' hm hall.
pose P := mem ([:: vA; vB; less; leq] ++ fresh_vars pb0 pb1).
have hin : cs_within P (comparison_constraints g).
  apply: (comparison_within sh).
  - by rewrite eqA within_plc /P /= !inE eqxx !orbT.
  - by rewrite eqB within_plc /P /= !inE eqxx !orbT.
  - apply/allP => v; rewrite (perm_mem pm) /P /= !inE.
    by case/or3P => ->; rewrite !orbT.
have [_ _ _ ch] := hm.
apply: (holds_frame (N := size (pb_values pb') + foldr maxn 0%N m) ch _ hin e3) => v hvm.
have := allP hall v hvm => /andP [-> ->]; split=> //=.
suff : (v <= foldr maxn 0 m)%N by move=> h; rewrite (leq_trans h) // leq_addl.
elim: (m) hvm => [|w m' IH] //=; rewrite inE leq_max => /orP [/eqP->|/IH->]; by rewrite ?leqnn ?orbT.
Qed.
End Facts.
