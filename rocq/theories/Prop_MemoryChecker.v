(** C40: the memory checker of the reduction from RAM programs to R1CS. *)
From mathcomp Require Import all_ssreflect all_algebra fingroup perm zify.
From Verif Require Import Outcome Lincomb LincombSpec LincombFacts R1CS R1CSSpec R1CSFacts Fieldtac.
From Verif Require Import Protoboard GadgetSpec GadgetLogic BasicGadgets BasicGadgetsFacts BasicGadgetsMore.
From Verif Require Import BasicGadgetsCopy GadgetNew GadgetSeq Prop_Gadgets.
From Verif Require Import IntegerPermutation MemoryChecker MemoryCheckerFacts MemoryOrder MemoryRoute.
Set Implicit Arguments.
Unset Strict Implicit.
Unset Printing Implicit Defensive.
Import GRing.Theory.

(** * Specification *)

(** A memory access: the address, and its contents before and after.  A trace is
    a sequence of them; the timestamp of an access is its position. *)
Record access := Access { at_addr : nat; at_before : nat; at_after : nat }.
Definition no_access := Access 0 0 0.
Definition line (tr : seq access) (i : nat) : access := nth no_access tr i.

(** The contents of an address before step [j]: what the latest earlier access
    to it left there, 0 if there was none. *)
Definition prior (tr : seq access) (j a : nat) : nat :=
  last 0 [seq at_after l | l <- take j tr & at_addr l == a].
(** The trace is that of a memory that starts with zeroes (the first line, the
    initial state of the machine, is not an access). *)
Definition consistent (tr : seq access) : Prop :=
  forall j, 0 < j < size tr -> at_before (line tr j) = prior tr j (at_addr (line tr j)).

(** What the checker is documented to enforce (memory_checker_gadget.tcc:85-101)
    between a line and the line, of timestamp [t2], that is routed next to it. *)
Definition pair_ok (l1 l2 : access) (t2 : nat) : Prop :=
  [/\ at_addr l1 = at_addr l2 -> at_after l1 = at_before l2,
      at_addr l1 < at_addr l2 -> at_before l2 = 0 &
      at_addr l2 < at_addr l1 -> t2 = 0].

(** All checks pass when line [f i] is routed next to line [i], where [f]
    permutes the lines. *)
Definition permutes (n : nat) (f : nat -> nat) : Prop := perm_eq [seq f i | i <- iota 0 n] (iota 0 n).
Definition routed_ok (tr : seq access) (f : nat -> nat) : Prop :=
  permutes (size tr) f /\ forall i, i < size tr -> pair_ok (line tr i) (line tr (f i)) (f i).

(** * The gadget *)
Section Gadget.
Local Open Scope ring_scope.
Variable F : fieldType.
Variable R : bigint_repr F.

(** The variables of the line hold the timestamp [t] and the access [l]. *)
Definition carries (x : seq F) (ml : memory_line) (t : nat) (l : access) : Prop :=
  [/\ xval x (dv_packed (ml_timestamp ml)) = t%:R, xval x (dv_packed (ml_address ml)) = (at_addr l)%:R,
      xval x (dv_packed (ml_before ml)) = (at_before l)%:R & xval x (dv_packed (ml_after ml)) = (at_after l)%:R].
(** Timestamp, address and contents have the given widths. *)
Definition fits (nt na nv t : nat) (l : access) : Prop :=
  [/\ (t < 2 ^ nt)%N, (at_addr l < 2 ^ na)%N, (at_before l < 2 ^ nv)%N & (at_after l < 2 ^ nv)%N].
(** The lines' variables exist. *)
Definition line_of (pb : protoboard F) (ml : memory_line) : bool :=
  all (fun d => is_var pb (dv_packed d)) [:: ml_timestamp ml; ml_address ml; ml_before ml; ml_after ml].

Theorem C40_checker_sound pb0 pb1 nt na nv ml1 ml2 g x t1 t2 l1 l2 :
  pb_wf pb0 -> memory_checker_new pb0 nt na ml1 ml2 = Ok (g, pb1) ->
  (2 ^ na.+1 <= fp_order R)%N -> (2 ^ nt <= fp_order R)%N -> (2 ^ nv <= fp_order R)%N ->
  carries x ml1 t1 l1 -> carries x ml2 t2 l2 -> fits nt na nv t1 l1 -> fits nt na nv t2 l2 ->
  holds (memory_checker_constraints g) x ->
  pair_ok l1 l2 t2.
Proof.
move=> hw hg ha ht hv [x1 x2 x3 x4] [y1 y2 y3 y4] [f1 f2 f3 f4] [g1 g2 g3 g4].
have [pt [pt' [pa [pa' [mt ma me ct ca [el1 el2] _ _ _ _ _ _]]]]] := memory_checker_new_spec hw hg.
move/checkerE; rewrite el1 el2 => -[_ h2 h3 [h4 h5 h6 h7] [h8 h9 h10 h11 h12]].
have wa := allocates_wf ma.
have eA : lval x (plc_of_var F (dv_packed (ml_address ml1))) = (at_addr l1)%:R by rewrite lval_var.
have eB : lval x (plc_of_var F (dv_packed (ml_address ml2))) = (at_addr l2)%:R by rewrite lval_var.
have [eless eleq] := C31_comparison_sound wa ca ha f2 g2 eA eB h2.
have inj (a b : nat) m : (2 ^ m <= fp_order R)%N -> (a < 2 ^ m)%N -> (b < 2 ^ m)%N -> a%:R = b%:R :> F -> a = b.
  move=> hm hba hbb e; apply: (natF_inj (R := R)) e; lia.
move: h3 h10 h11 h12; rewrite eless eleq => h3 h10 h11 h12; split.
- move=> e; move: h3 h10; rewrite e ltnn leqnn subr0 mulr1 => <-; rewrite mul1r => /eqP; rewrite subr_eq0 => /eqP h.
  by move: h4; rewrite -h mul1r x4 y3 => /eqP; rewrite subr_eq0 => /eqP; apply: inj hv _ _.
- move=> lt; move: h11; rewrite lt mul1r => /eqP; rewrite subr_eq0 => /eqP h.
  by move: h6; rewrite -h mul1r y3 => e; apply: (inj _ 0%N _ hv); rewrite // expn_gt0.
- move=> lt; move: h12; rewrite leqNgt lt /= subr0 mul1r => /eqP; rewrite subr_eq0 => /eqP h.
  by move: h8; rewrite -h mul1r y1 => e; apply: (inj _ 0%N _ ht); rewrite // expn_gt0.
Qed.

Theorem C40_checker_complete pb0 pb1 pb nt na nv ml1 ml2 g t1 t2 l1 l2 :
  pb_wf pb0 -> memory_checker_new pb0 nt na ml1 ml2 = Ok (g, pb1) -> later pb1 pb ->
  (2 ^ na.+1 <= fp_order R)%N -> (2 ^ nt.+1 <= fp_order R)%N ->
  line_of pb0 ml1 -> line_of pb0 ml2 ->
  carries (pb_values pb) ml1 t1 l1 -> carries (pb_values pb) ml2 t2 l2 ->
  fits nt na nv t1 l1 -> fits nt na nv t2 l2 ->
  pair_ok l1 l2 t2 ->
  exists pb', [/\ memory_checker_witness R g pb = Ok pb', assigns (fresh_vars pb0 pb1) pb pb' &
                  holds (memory_checker_constraints g) (pb_values pb')].
Proof.
move=> hw hg hl ha ht /and5P [v1 v2 v3 v4 _] /and5P [w1 w2 w3 w4 _] [x1 x2 x3 x4] [y1 y2 y3 y4] [f1 f2 f3 f4] [g1 g2 g3 g4] [p1 p2 p3].
have [pt [pt' [pa [pa' [mt ma me ct ca [el1 el2] [et1 et2] st [ea1 ea2 ea3] sa [ee1 ee2 ee3] se]]]]] := memory_checker_new_spec hw hg.
have wt := allocates_wf mt; have wa := allocates_wf ma.
have [a0t [alt sht _ [ent eAt eBt elt elet] pmt]] := comparison_new_spec wt ct.
have [a0a [ala sha _ [ena eAa eBa ela elea] pma]] := comparison_new_spec wa ca.
have z1 := allocates_size alt; have z2 := allocates_size ala.
have kk : (size (pb_lc_values pt') <= size (pb_lc_values pa'))%N.
  exact: leq_trans (allocates_ksize ma) (allocates_ksize ala).
have [wpb spb kpb] := hl.
have la' : later pa' pb.
  by split=> //; [move: spb; rewrite se; clear; lia|apply: leq_trans kpb; apply: allocates_ksize me].
have lt' : later pt' pb.
  by split=> //; [move: spb z2; rewrite se sa; clear; lia|apply: leq_trans (leq_trans kk (allocates_ksize me)) kpb].
move: v1 v2 v3 v4 w1 w2 w3 w4; rewrite /is_var => v1 v2 v3 v4 w1 w2 w3 w4.
have bd : [&& (size (pb_values pb0)).+2 <= size (pb_values pt'), (size (pb_values pt')).+3 <= size (pb_values pa') &
    (size (pb_values pa')).+3 <= size (pb_values pb)]%N by rewrite -se -sa -st z1 z2 spb.
have memE v : (v \in fresh_vars pt pt') = ((size (pb_values pb0)).+2 < v <= size (pb_values pt'))%N.
  by rewrite /fresh_vars st mem_iota; move: bd; clear; lia.
have memA v : (v \in fresh_vars pa pa') = ((size (pb_values pt')).+3 < v <= size (pb_values pa'))%N.
  by rewrite /fresh_vars sa mem_iota; move: bd; clear; lia.
have mem1 v : (v \in fresh_vars pb0 pb1) = ((size (pb_values pb0)) < v <= (size (pb_values pa')).+3)%N.
  by rewrite /fresh_vars se mem_iota; move: bd; clear; lia.
(* the addresses are compared *)
have [||||||||pbA [eA sA [eless eleq] hA]] := @compare_vars F R pa pa' pb na (dv_packed (ml_address ml1))
  (dv_packed (ml_address ml2)) (mc_addresses_less g) (mc_addresses_leq g) (mc_compare_addresses g)
  (at_addr l1) (at_addr l2) wa ca la' ha.
- by rewrite /= /is_var ea2 ea3 sa; move: v2 w2 bd; clear; lia.
- by rewrite ea2 ea3; clear; lia.
- by rewrite !inE ea2 ea3; move: v2 bd; clear; lia.
- by rewrite !inE ea2 ea3; move: w2 bd; clear; lia.
- by [].
- by [].
- by [].
- by [].
have wA : pb_wf pbA by case: sA.
have szA : size (pb_values pbA) = size (pb_values pb) by case: sA => _ _ _ [].
have [|pbB [eB sB vB]] := @pb_set_ok F pbA (mc_addresses_eq g)
   ((at_addr l1 <= at_addr l2)%N%:R * (1 - (at_addr l1 < at_addr l2)%N%:R)) wA.
  by rewrite /is_var szA ea1; move: bd; clear; lia.
have wB : pb_wf pbB by case: sB.
have szB : size (pb_values pbB) = size (pb_values pb) by case: sB => _ _ _ [->].
(* the timestamps are compared *)
have keepA v : (0 < v <= size (pb_values pb0))%N -> xval (pb_values pbB) v = xval (pb_values pb) v.
  move=> hv; rewrite (assigns_val sB) ?inE ?ea1; last by move: hv bd; clear; lia.
  by rewrite (assigns_val sA) // !inE memA ea2 ea3; move: hv bd; clear; lia.
have [|||||||||pbC [eC sC _ hC]] := @compare_vars F R pt pt' pbB nt (dv_packed (ml_timestamp ml1))
  (dv_packed (ml_timestamp ml2)) (mc_timestamps_less g) (mc_timestamps_leq g) (mc_compare_timestamps g)
  t1 t2 wt ct _ ht.
- exact: assigns_later sB (assigns_later sA lt').
- by rewrite /= /is_var et1 et2 st; move: v1 w1 bd; clear; lia.
- by rewrite et1 et2; clear; lia.
- by rewrite !inE et1 et2; move: v1 bd; clear; lia.
- by rewrite !inE et1 et2; move: w1 bd; clear; lia.
- by rewrite keepA.
- by rewrite keepA.
- by [].
- by [].
have wC : pb_wf pbC by case: sC.
have szC : size (pb_values pbC) = size (pb_values pb) by case: sC => _ _ _ [->].
have keepC v : v \notin [:: mc_timestamps_less g; mc_timestamps_leq g] ++ fresh_vars pt pt' ->
  xval (pb_values pbC) v = xval (pb_values pbB) v by apply: assigns_val sC.
have lineC v : (0 < v <= size (pb_values pb0))%N -> xval (pb_values pbC) v = xval (pb_values pb) v.
  by move=> hv; rewrite keepC ?keepA // !inE memE et1 et2; move: hv bd; clear; lia.
(* the flags *)
have [|pbD [eD sD vD]] := @pb_set_ok F pbC (mc_loose_eq g) (flag F ((at_after l1)%:R == (at_before l2)%:R :> F)) wC.
  by rewrite /is_var szC ee1; move: bd; clear; lia.
have wD : pb_wf pbD by case: sD.
have szD : size (pb_values pbD) = size (pb_values pb) by case: sD => _ _ _ [->].
have [|pbE [eE sE vE]] := @pb_set_ok F pbD (mc_loose_zero g) (flag F ((at_before l2)%:R == 0 :> F)) wD.
  by rewrite /is_var szD ee2; move: bd; clear; lia.
have wE : pb_wf pbE by case: sE.
have szE : size (pb_values pbE) = size (pb_values pb) by case: sE => _ _ _ [->].
have [|pbG [eG sG vG]] := @pb_set_ok F pbE (mc_loose_ts g) (flag F (t2%:R == 0 :> F)) wE.
  by rewrite /is_var szE ee3; move: bd; clear; lia.
have lineD v : (0 < v <= size (pb_values pb0))%N -> xval (pb_values pbD) v = xval (pb_values pb) v.
  by move=> hv; rewrite (assigns_val sD) ?lineC // !inE ee1; move: hv bd; clear; lia.
have lineE v : (0 < v <= size (pb_values pb0))%N -> xval (pb_values pbE) v = xval (pb_values pb) v.
  by move=> hv; rewrite (assigns_val sE) ?lineD // !inE ee2; move: hv bd; clear; lia.
have lineG v : (0 < v <= size (pb_values pb0))%N -> xval (pb_values pbG) v = xval (pb_values pb) v.
  by move=> hv; rewrite (assigns_val sG) ?lineE // !inE ee3; move: hv bd; clear; lia.
have run : memory_checker_witness R g pb = Ok pbG.
  rewrite /memory_checker_witness el1 el2 eA; cbn [obind].
  rewrite (pb_val_ok wA); last by rewrite szA ea2; move: bd; clear; lia.
  cbn [obind]; rewrite (pb_val_ok wA); last by rewrite szA ea3; move: bd; clear; lia.
  cbn [obind]; rewrite eless eleq eB; cbn [obind]; rewrite eC; cbn [obind].
  rewrite (pb_val_ok wC); last by rewrite szC; move: v4 bd; clear; lia.
  cbn [obind]; rewrite (pb_val_ok wC); last by rewrite szC; move: w3 bd; clear; lia.
  cbn [obind]; rewrite !lineC // x4 y3 eD; cbn [obind].
  rewrite (pb_val_ok wD); last by rewrite szD; move: w3 bd; clear; lia.
  cbn [obind]; rewrite lineD // y3 eE; cbn [obind].
  rewrite (pb_val_ok wE); last by rewrite szE; move: w1 bd; clear; lia.
  by cbn [obind]; rewrite lineE // y1 eG.
have asg : assigns (fresh_vars pb0 pb1) pb pbG.
  have sub m : all (fun v => (size (pb_values pb0) < v <= (size (pb_values pa')).+3)%N) m -> {subset m <= fresh_vars pb0 pb1}.
    by move=> /allP hm v /hm; rewrite mem1.
  have subA : {subset [:: mc_addresses_less g; mc_addresses_leq g] ++ fresh_vars pa pa' <= fresh_vars pb0 pb1}.
    by apply/sub/allP => v; rewrite !inE memA ea2 ea3; move: bd; clear; lia.
  have subB : {subset [:: mc_addresses_eq g] <= fresh_vars pb0 pb1}.
    by apply: sub; rewrite /= ea1; move: bd; clear; lia.
  have subC : {subset [:: mc_timestamps_less g; mc_timestamps_leq g] ++ fresh_vars pt pt' <= fresh_vars pb0 pb1}.
    by apply/sub/allP => v; rewrite !inE memE et1 et2; move: bd; clear; lia.
  have subD : {subset [:: mc_loose_eq g] <= fresh_vars pb0 pb1} by apply: sub; rewrite /= ee1; move: bd; clear; lia.
  have subE : {subset [:: mc_loose_zero g] <= fresh_vars pb0 pb1} by apply: sub; rewrite /= ee2; move: bd; clear; lia.
  have subG : {subset [:: mc_loose_ts g] <= fresh_vars pb0 pb1} by apply: sub; rewrite /= ee3; move: bd; clear; lia.
  have id : {subset fresh_vars pb0 pb1 <= fresh_vars pb0 pb1} by [].
  apply: (assigns_trans id subG _ sG); apply: (assigns_trans id subE _ sE); apply: (assigns_trans id subD _ sD).
  apply: (assigns_trans id subC _ sC); apply: (assigns_trans subA subB sA sB).
suff hh : holds (memory_checker_constraints g) (pb_values pbG) by exists pbG; split; [exact: run|exact: asg|].
(* what the flags are at the end *)
have fG : xval (pb_values pbG) (mc_loose_ts g) = flag F (t2%:R == 0 :> F).
  by rewrite vG xval_put_eq // szE ee3; move: bd; clear; lia.
have fE : xval (pb_values pbG) (mc_loose_zero g) = flag F ((at_before l2)%:R == 0 :> F).
  rewrite (assigns_val sG) ?inE ?ee2 ?ee3; last by clear; lia.
  by rewrite -ee2 vE xval_put_eq // szD ee2; move: bd; clear; lia.
have fD : xval (pb_values pbG) (mc_loose_eq g) = flag F ((at_after l1)%:R == (at_before l2)%:R :> F).
  rewrite (assigns_val sG) ?inE ?ee1 ?ee3; last by clear; lia.
  rewrite (assigns_val sE) ?inE ?ee2; last by clear; lia.
  by rewrite -ee1 vD xval_put_eq // szC ee1; move: bd; clear; lia.
have upG v : (size (pb_values pt') < v <= size (pb_values pa'))%N -> xval (pb_values pbG) v = xval (pb_values pbB) v.
  move=> hv; rewrite (assigns_val sG) ?inE ?ee3; last by move: hv; clear; lia.
  rewrite (assigns_val sE) ?inE ?ee2; last by move: hv; clear; lia.
  rewrite (assigns_val sD) ?inE ?ee1; last by move: hv; clear; lia.
  by rewrite keepC // !inE memE et1 et2; move: hv bd; clear; lia.
have fB : xval (pb_values pbG) (mc_addresses_eq g) = (at_addr l1 <= at_addr l2)%N%:R * (1 - (at_addr l1 < at_addr l2)%N%:R).
  rewrite upG ea1; last by move: bd; clear; lia.
  by rewrite -ea1 vB xval_put_eq // szA ea1; move: bd; clear; lia.
have fless : xval (pb_values pbG) (mc_addresses_less g) = (at_addr l1 < at_addr l2)%N%:R.
  rewrite upG ea3; last by move: bd; clear; lia.
  by rewrite -ea3 (assigns_val sB) ?eless // inE ea1 ea3; clear; lia.
have fleq : xval (pb_values pbG) (mc_addresses_leq g) = (at_addr l1 <= at_addr l2)%N%:R.
  rewrite upG ea2; last by move: bd; clear; lia.
  by rewrite -ea2 (assigns_val sB) ?eleq // inE ea1 ea2; clear; lia.
have cA : holds (comparison_constraints (mc_compare_addresses g)) (pb_values pbG).
  have s1 := assigns_trans (fun v h => mem_subseq (prefix_subseq _ _) h) (fun v h => mem_subseq (suffix_subseq _ _) h) sB sC.
  have s2 := assigns_trans (fun v h => mem_subseq (prefix_subseq _ _) h) (fun v h => mem_subseq (suffix_subseq _ _) h) s1 sD.
  have s3 := assigns_trans (fun v h => mem_subseq (prefix_subseq _ _) h) (fun v h => mem_subseq (suffix_subseq _ _) h) s2 sE.
  have s4 := assigns_trans (fun v h => mem_subseq (prefix_subseq _ _) h) (fun v h => mem_subseq (suffix_subseq _ _) h) s3 sG.
  apply: hA s4 _; apply/allP => v; rewrite !mem_cat !inE memE memA et1 et2 ea1 ea2 ea3 ee1 ee2 ee3.
  by move: v2 w2 bd; clear; lia.
have cT : holds (comparison_constraints (mc_compare_timestamps g)) (pb_values pbG).
  have s1 := assigns_trans (fun v h => mem_subseq (prefix_subseq _ _) h) (fun v h => mem_subseq (suffix_subseq _ _) h) sD sE.
  have s2 := assigns_trans (fun v h => mem_subseq (prefix_subseq _ _) h) (fun v h => mem_subseq (suffix_subseq _ _) h) s1 sG.
  apply: hC s2 _; apply/allP => v; rewrite !mem_cat !inE memE et1 et2 ee1 ee2 ee3.
  by move: v1 w1 bd; clear; lia.
have bitf b : isbit (flag F b) by rewrite /isbit /flag; case: b; rewrite eqxx ?orbT.
apply/checkerE; rewrite el1 el2 fG fE fD fB fless fleq (lineG _ v4) (lineG _ w3) (lineG _ w1) x4 y3 y1.
have loose (b : F) c : flag F (b == c) * (b - c) = 0.
  by rewrite /flag; case: eqP => [->|_]; rewrite ?subrr ?mulr0 ?mul0r.
have l0 (b : F) : flag F (b == 0) * b = 0 by have := loose b 0; rewrite subr0.
split; [exact: cT|exact: cA|by []|by split; [exact: loose|exact: bitf|exact: l0|exact: bitf]|].
split; [exact: l0|exact: bitf| | |].
- move: p1; rewrite /flag; clear; case: ltngtP => h p1; rewrite ?subrr ?mulr0 ?mul0r //.
  by rewrite p1 // eqxx subrr mulr0.
- move: p2; rewrite /flag; clear; case: ltnP => h p2; rewrite ?mul0r //.
  by rewrite p2 // eqxx subrr mulr0.
- move: p3; rewrite /flag; clear; case: leqP => h p3; rewrite ?subrr ?mul0r //.
  by rewrite p3 // eqxx subrr mulr0.
Qed.
End Gadget.
Print Assumptions C40_checker_sound.
Print Assumptions C40_checker_complete.
(** A checker with 2-bit timestamps and addresses and 3-bit contents, over the
    field of 11 elements: the load (1, 5, 5) at time 2 after the store (1, 0, 5)
    at time 1 passes; the load of 6 does not. *)
Definition ex_run (v2 : nat) : outcome bool :=
  let F := [fieldType of 'F_11] in
  let: (ml1, pb) := memory_line_new (pb_new F) 2 2 3 in
  let: (ml2, pb) := memory_line_new pb 2 2 3 in
  let! gp := memory_checker_new pb 2 2 ml1 ml2 in
  let put d (v : nat) pb := pb_set pb (dv_packed d) (v%:R%R : 'F_11) in
  let! pb := put (ml_timestamp ml1) 1 gp.2 in let! pb := put (ml_address ml1) 1 pb in
  let! pb := put (ml_before ml1) 0 pb in let! pb := put (ml_after ml1) 5 pb in
  let! pb := put (ml_timestamp ml2) 2 pb in let! pb := put (ml_address ml2) 1 pb in
  let! pb := put (ml_before ml2) v2 pb in let! pb := put (ml_after ml2) v2 pb in
  let! pb := memory_checker_witness repr11 gp.1 pb in
  pb_is_satisfied (pb_add_constraints pb (memory_checker_constraints gp.1)).
Example C40_checker_ex : ex_run 5 = Ok true /\ ex_run 6 = Ok false.
Proof. by split; vm_compute. Qed.

(** * Traces *)

Lemma take_nth_filter (tr : seq access) j a k : k < j -> j <= size tr -> at_addr (line tr k) = a ->
  (forall r, k < r < j -> at_addr (line tr r) != a) -> prior tr j a = at_after (line tr k).
Proof.
move=> hk hj ha hn; rewrite /prior -(cat_take_drop k.+1 (take j tr)) filter_cat map_cat last_cat.
have -> : take k.+1 (take j tr) = rcons (take k tr) (line tr k).
  by rewrite take_take // (take_nth no_access) //; apply: leq_trans hj.
have -> : [seq l <- drop k.+1 (take j tr) | at_addr l == a] = [::].
  apply: size0nil; rewrite size_filter; apply/eqP; rewrite -leqn0 leqNgt -has_count; apply/negP => /(has_nthP no_access) [i].
  rewrite size_drop size_takel // => hi; rewrite nth_drop nth_take; last by lia.
  by apply/negP; apply: (hn (k.+1 + i)); lia.
by rewrite filter_rcons ha eqxx map_rcons last_rcons.
Qed.
Lemma prior_none (tr : seq access) j a : j <= size tr -> (forall r, r < j -> at_addr (line tr r) != a) -> prior tr j a = 0.
Proof.
move=> hj hn; rewrite /prior; suff -> : [seq l <- take j tr | at_addr l == a] = [::] by [].
apply: size0nil; rewrite size_filter; apply/eqP; rewrite -leqn0 leqNgt -has_count; apply/negP => /(has_nthP no_access) [i].
rewrite size_takel // => hi; rewrite nth_take //; apply/negP; exact: hn.
Qed.

(** If, in addition to what the checker enforces, time increased from each line
    to the line of the same address routed next to it, every trace that passes
    would be that of a memory. *)
Theorem C40_ordered_consistent tr f : routed_ok tr f ->
  (forall i, i < size tr -> at_addr (line tr i) = at_addr (line tr (f i)) -> i < f i) ->
  consistent tr.
Proof.
move=> [hp hok] hord j /andP [j0 hj].
have hf i : i < size tr -> f i < size tr.
  by move=> hi; have := perm_mem hp (f i); rewrite mem_iota map_f ?mem_iota //= add0n => /esym.
have hu : uniq [seq f i | i <- iota 0 (size tr)] by rewrite (perm_uniq hp) iota_uniq.
pose g (i : 'I_(size tr)) : 'I_(size tr) := Ordinal (hf i (ltn_ord i)).
have gi : injective g.
  move=> i1 i2 /(congr1 val) /= e; apply: val_inj => /=.
  by apply: (proj1 (map_uniqP f (iota_uniq 0 (size tr))) hu); rewrite ?mem_iota ?add0n ?ltn_ord.
pose pi := perm gi; pose addr (i : 'I_(size tr)) := at_addr (line tr i).
have piE i : pi i = f i :> nat by rewrite permE.
have ord i : addr i = addr (pi i) -> i < pi i by rewrite /addr piE; apply: hord.
have cyc i : addr (pi i) < addr i -> pi i = 0 :> nat.
  by rewrite /addr piE => h; have [_ _ h3] := hok i (ltn_ord i); apply: h3.
clearbody pi; clear gi g.
have [i ei] : exists i, pi i = Ordinal hj by exists ((pi^-1)%g (Ordinal hj)); rewrite permKV.
have fi : f i = j by rewrite -piE ei.
have [h1 h2 h3] := hok i (ltn_ord i); rewrite fi in h1 h2 h3.
case: (ltngtP (at_addr (line tr i)) (at_addr (line tr j))) => h.
- rewrite (h2 h) (prior_none (ltnW hj)) // => r hr; apply/eqP => e.
  have hrt : r < size tr := ltn_trans hr hj.
  have hne : addr i != addr (pi i) by rewrite ei /addr /= neq_ltn h.
  by have := entry_first ord cyc hne (k := Ordinal hrt); rewrite ei /addr /= => /(_ e); move: hr; clear; lia.
- by move: j0; rewrite h3.
- have lt := ord i; rewrite ei /addr /= in lt; have {}lt := lt h.
  rewrite -(h1 h) (take_nth_filter lt (ltnW hj) h) // => r /andP [r1 r2]; apply/eqP => e.
  have hrt : r < size tr := ltn_trans r2 hj.
  have := next_adjacent ord cyc (i := i) (k := Ordinal hrt); rewrite ei /addr /= => /(_ h).
  by rewrite e h => /(_ erefl r1); move: r2; clear; lia.
Qed.
Print Assumptions C40_ordered_consistent.
Example C40_ordered_ex : let tr := [:: Access 0 0 0; Access 1 0 5; Access 1 5 2] in
  let f i := if i == 2 then 0 else i.+1 in
  routed_ok tr f /\ forall i, i < size tr -> at_addr (line tr i) = at_addr (line tr (f i)) -> i < f i.
Proof. by split; [split=> //; do 3!case=> //|do 3!case=> //]. Qed.

(** That order is compared by the checker, but the result is not used.  To any
    trace that passes, a load from any address can be added that returns any
    value. *)
Theorem C40_any_load_refuted tr f a v : routed_ok tr f ->
  exists f', routed_ok (rcons tr (Access a v v)) f' /\ forall i, i < size tr -> f' i = f i.
Proof.
move=> [hp hok]; exists (fun i => if i < size tr then f i else i); split; last by move=> i ->.
have hf i : i < size tr -> f i < size tr.
  by move=> hi; have := perm_mem hp (f i); rewrite mem_iota map_f ?mem_iota //= add0n => /esym.
rewrite /routed_ok size_rcons; split.
- rewrite /permutes -addn1 iotaD map_cat perm_cat //= ?ltnn ?add0n ?ltnn //.
  suff -> : [seq (if i < size tr then f i else i) | i <- iota 0 (size tr)] = [seq f i | i <- iota 0 (size tr)] by [].
  by apply/eq_in_map => i; rewrite mem_iota add0n => /= ->.
- move=> i hi; rewrite /line !nth_rcons; case: ifP => h; first by rewrite hf //; apply: hok.
  have -> : i = size tr by lia.
  by rewrite ltnn eqxx; split=> //=; rewrite ltnn.
Qed.
Print Assumptions C40_any_load_refuted.

(** So the checks do not imply that loads return what was stored: the value 7 is
    loaded though 5 was stored. *)
Theorem C40_consistency_refuted : exists tr f, routed_ok tr f /\ ~ consistent tr /\
  tr = [:: Access 0 0 0; Access 1 0 5; Access 1 7 7].
Proof.
have base : routed_ok [:: Access 0 0 0; Access 1 0 5] (fun i => 1 - i).
  by split=> // -[|[|i]] // _; split.
have [f' [h _]] := C40_any_load_refuted 1 7 base.
by exists [:: Access 0 0 0; Access 1 0 5; Access 1 7 7], f'; split=> //; split=> // /(_ 2 erefl).
Qed.
Print Assumptions C40_consistency_refuted.

(** ** Honest provers *)

(** For every consistent trace whose first line is at the lowest address, and not
    all at one address, the permutation that the prover computes is a valid
    permutation that passes all checks. *)
Theorem C40_honest_passes tr i0 : consistent tr ->
  (forall i, i < size tr -> at_addr (line tr 0) <= at_addr (line tr i)) ->
  i0 < size tr -> at_addr (line tr 0) < at_addr (line tr i0) ->
  exists pi, [/\ memory_permutation (map at_addr tr) = Ok pi, ip_is_valid pi &
    forall j, j < size tr -> ip_at pi j < size tr /\ pair_ok (line tr (ip_at pi j)) (line tr j) j].
Proof.
case: tr => [|l0 tr'] // hc; set tr := l0 :: tr' in hc *.
have sz : size (map at_addr tr) = (size tr').+1 by rewrite size_map.
have aE i : i <= size tr' -> nth 0 (map at_addr tr) i = at_addr (line tr i) by move=> hi; rewrite (nth_map no_access).
move=> h0 hi0 lt0.
have h0' i : i <= size tr' -> nth 0 (map at_addr tr) 0 <= nth 0 (map at_addr tr) i by move=> hi; rewrite !aE //; apply: h0.
have [pi [e1 w b hpi]] := memory_permutation_ok sz h0'.
exists pi; split; [exact: e1|exact: (memory_permutation_valid sz h0' e1)|].
move=> j hj; have [i hi ej] := next_line_surj sz h0' (hj : j <= size tr').
have -> : ip_at pi j = i by rewrite -ej hpi.
split=> //; have := next_lineP sz i; rewrite ej => -[[hjn lt hmin]|[ez hmax]].
- have hmin' r : r <= size tr' -> pair_lt (at_addr (line tr i), i) (at_addr (line tr r), r) ->
     pair_le (at_addr (line tr j), j) (at_addr (line tr r), r).
    by move=> hr; rewrite -!aE //; apply: hmin.
  move: lt; rewrite !aE // /pair_lt /= => lt.
  have j0 : 0 < j.
    case: (posnP j) lt => // ->; have := h0 i hi; lia.
  split; last by lia.
  + move=> e; rewrite hc ?j0 // -e; apply/esym.
    apply: take_nth_filter => //; [lia|exact: ltnW|] => r /andP [r1 r2]; apply/eqP => er.
    have := hmin' r; rewrite /pair_lt /pair_le xpair_eqE /= er eqxx r1 orbT => /(_ _ isT).
    by rewrite /pair_lt /=; move: r2 e hjn; clear; lia.
  + move=> la; rewrite hc ?j0 // (prior_none (ltnW hj)) // => r hr; apply/eqP => er.
    have := hmin' r; rewrite /pair_lt /pair_le xpair_eqE /= er la /= => /(_ _ isT).
    by rewrite /pair_lt /= ltnn eqxx /=; move: hr hjn; clear; lia.
- have hmax' := hmax i0 hi0; move: hmax'; rewrite !aE // /pair_lt /= ez => hm.
  by split; [lia|lia|].
Qed.
Print Assumptions C40_honest_passes.
Example C40_honest_ex : let tr := [:: Access 0 0 0; Access 1 0 5; Access 1 5 5; Access 0 0 3; Access 1 5 2] in
  [/\ consistent tr, forall i, i < size tr -> at_addr (line tr 0) <= at_addr (line tr i), 1 < size tr &
      at_addr (line tr 0) < at_addr (line tr 1)].
Proof. by split=> //; do 5!case=> //. Qed.

(** If all lines are at one address no permutation may pass. *)
Theorem C40_one_address_refuted : exists tr, consistent tr /\ forall f, ~ routed_ok tr f.
Proof.
exists [:: Access 0 0 0; Access 0 0 5]; split; first by case=> [|[|j]].
move=> f [hp hok]; have [h _ _] := hok 1 erefl.
have := perm_mem hp (f 1); rewrite /= !inE eqxx orbT => /esym /orP [] /eqP e; by move: h; rewrite e => /(_ erefl).
Qed.
Print Assumptions C40_one_address_refuted.
