(** C28-C32 and C44: the protoboard and the basic gadgets of gadgetlib1.

    Vocabulary (GadgetSpec.v): [x] is the vector of variable values, [xval x v]
    the value of variable [v] (1 for the constant), [lval x l] the value of a
    linear combination, [holds cs x] that all the constraints hold.
    [R : bigint_repr F] says that [F] is the prime field of order [fp_order R].
    In the completeness theorems [pb0] is the protoboard before the gadget was
    constructed, [pb1] the one after, [pb] any later state in which the witness
    is generated, and [assigns m pb pb'] says that at most the variables in [m]
    changed. *)
From mathcomp Require Import all_ssreflect all_algebra zify.
From Verif Require Import Outcome Lincomb LincombSpec LincombFacts R1CS R1CSSpec R1CSFacts Fieldtac.
From Verif Require Import Protoboard GadgetSpec GadgetLogic BasicGadgets BasicGadgetsFacts BasicGadgetsMore.
From Verif Require Import BasicGadgetsCopy GadgetNew PbHistory.
Set Implicit Arguments.
Unset Strict Implicit.
Unset Printing Implicit Defensive.
Local Open Scope ring_scope.
Import GRing.Theory.

(** * C28: histories of protoboard operations *)

(** Any sequence of operations on a new protoboard either aborts exactly where
    the reference does, or ends in a protoboard that shows what the reference
    says: consecutive fresh indices, independent variables, the split into
    primary and auxiliary inputs, and the satisfaction verdict. *)
Theorem C28_protoboard_history (F : fieldType) (ops : seq (pb_op F)) :
  match board_run (board0 F) ops with
  | Some b => exists2 pb, ofold (@pb_step F) (pb_new F) ops = Ok pb & shows pb b
  | None => ofold (@pb_step F) (pb_new F) ops = AssertFail
  end.
Proof.
have := linked_run ops (linked_new F); case: board_run => // b [pb h1 h2].
by exists pb; [|exact: linked_shows].
Qed.
Print Assumptions C28_protoboard_history.

(** Two allocations, x1 * x1 = x2, one input, x1 = 3 and x2 = 9: satisfied. *)
Definition ex_ops : seq (pb_op [fieldType of 'F_11]) :=
  [:: OpAllocate _; OpAllocate _; OpSet 1 (3%:R : 'F_11); OpSet 2 (9%:R : 'F_11); OpInputs _ 1;
      OpConstraint (R1csConstraint [:: (1%N, 1 : 'F_11)] [:: (1%N, 1)] [:: (2%N, 1)])].
Example C28_ex :
  (if ofold (@pb_step _) (pb_new [fieldType of 'F_11]) ex_ops is Ok pb then pb_is_satisfied pb else UB) = Ok true
  /\ ofold (@pb_step _) (pb_new [fieldType of 'F_11]) [:: OpAllocate _; OpInputs _ 2] = AssertFail.
Proof. by split; vm_compute. Qed.

(** Exactly: declaring more inputs than variables aborts. *)
Theorem C28_set_input_sizes (F : fieldType) (pb : protoboard F) n : pb_wf pb ->
  set_input_sizes pb n = AssertFail <-> (size (pb_values pb) < n)%N.
Proof.
case=> _ h _ _; rewrite /set_input_sizes /pb_num_variables h subn1 /=.
by case: leqP => //= _; split.
Qed.
Print Assumptions C28_set_input_sizes.
Example C28_ex2 : pb_wf (pb_new [fieldType of 'F_11]) /\ (size (pb_values (pb_new [fieldType of 'F_11])) < 1)%N.
Proof. by []. Qed.

Section Gadgets.
Variable F : fieldType.
Variable R : bigint_repr F.
Implicit Types (x : seq F) (pb : protoboard F) (slot : nat -> linear_combination F).

(** * C29: packing *)

(** The constraints say: the packed value is the little-endian sum of the bits,
    and (with [enforce_bitness]) every bit is 0 or 1. *)
Theorem C29_packing_iff (g : packing F) enforce x :
  holds (packing_constraints g enforce) x <->
  lval x (pk_packed g) = \sum_(i < size (pk_bits g)) 2%:R ^+ i * lval x (lc_nth (pk_bits g) i) /\
  (enforce -> forall i, (i < size (pk_bits g))%N ->
     lval x (lc_nth (pk_bits g) i) = 0 \/ lval x (lc_nth (pk_bits g) i) = 1).
Proof.
rewrite packing_constraintsE.
have -> : pack (map (lval x) (pk_bits g)) = \sum_(i < size (pk_bits g)) 2%:R ^+ i * lval x (lc_nth (pk_bits g) i).
  elim: (pk_bits g) => [|b bs IH] /=; first by rewrite big_ord0.
  rewrite big_ord_recl /= expr0 mul1r IH big_distrr /=; congr (_ + _); apply: eq_bigr => i _.
  by rewrite mulrA -exprS.
have hb : all (fun b => isbit (lval x b)) (pk_bits g) <->
  (forall i, (i < size (pk_bits g))%N -> lval x (lc_nth (pk_bits g) i) = 0 \/ lval x (lc_nth (pk_bits g) i) = 1).
  split=> [h i hi|h].
    move/all_InP: h => /(_ _ (lc_nth_In hi)); rewrite /isbit => /orP [/eqP|/eqP]; tauto.
  apply/all_InP => b /(@In_nth_seq _ (PbLc false 0%N [::])) [i hi <-]; rewrite /isbit.
  by case: (h i hi) => e; rewrite -/(lc_nth (pk_bits g) i) e eqxx ?orbT.
by rewrite hb.
Qed.

(** With 2^n at most the field order, the bits are the binary digits of the
    packed value. *)
Theorem C29_packing_unique (g : packing F) x i :
  (2 ^ size (pk_bits g) <= fp_order R)%N -> (i < size (pk_bits g))%N ->
  holds (packing_constraints g true) x ->
  lval x (lc_nth (pk_bits g) i) = (odd (as_bigint R (lval x (pk_packed g)) %/ 2 ^ i))%:R.
Proof.
move=> hn hi /packing_constraintsE [h1 /(_ isT) h2].
have ha : all (@isbit F) (map (lval x) (pk_bits g)) by rewrite all_map.
rewrite h1 pack_bits // as_bigint_nat; last first.
  by apply: leq_trans (bits_nat_lt _) _; rewrite !size_map.
rewrite -/(test_bit _ i) test_bit_nat -map_comp (nth_map (PbLc false 0%N [::])) //=.
by apply: isbitP; move/all_InP: h2; apply; apply: lc_nth_In.
Qed.

(** Witness generation from the packed value: it succeeds and satisfies the
    constraints if the value has at most n bits, and aborts otherwise. *)
Theorem C29_packing_from_packed slot pb vs (packed : pb_linear_combination F) :
  pb_wf pb -> uniq vs -> all (is_var pb) vs ->
  lc_proper slot (size (pb_values pb)) (size (pb_lc_values pb)) packed -> avoids vs (lc_terms packed) ->
  let g := Packing (plcs_of_vars F vs) packed in
  if (as_bigint R (lval (pb_values pb) packed) < 2 ^ size vs)%N
  then exists pb', [/\ packing_witness_from_packed R g pb = Ok pb', assigns vs pb pb' &
                       holds (packing_constraints g true) (pb_values pb')]
  else packing_witness_from_packed R g pb = AssertFail.
Proof.
move=> hw hu hv hp ha /=; rewrite -[pb in packing_witness_from_packed _ _ pb](board_of hw).
case: ltnP => hb; last first.
  by apply: (packing_from_packed_abort (slot := slot) pb (g := Packing (plcs_of_vars F vs) packed) hp); rewrite size_map.
have [x' [k' [h1 h2 h3 h4]]] := packing_from_packed_ok pb (conj hu hv) hp ha hb.
by exists (upd pb x' k'); split=> //; apply: assigns_upd hw h2.
Qed.

(** Witness generation from boolean bits (here the packed value is a variable). *)
Theorem C29_packing_from_bits slot pb (bits : pb_linear_combination_array F) packed :
  pb_wf pb -> is_var pb packed ->
  (forall b, List.In b bits -> [/\ lc_proper slot (size (pb_values pb)) (size (pb_lc_values pb)) b,
     avoids [:: packed] (lc_terms b) & isbit (lval (pb_values pb) b)]) ->
  let g := Packing bits (plc_of_var F packed) in
  exists pb', [/\ packing_witness_from_bits g pb = Ok pb', assigns [:: packed] pb pb' &
                  holds (packing_constraints g true) (pb_values pb')].
Proof.
move=> hw hv hb /=; rewrite -[pb in packing_witness_from_bits _ pb](board_of hw).
have [|||x' [k' [h1 h2 h3 h4]]] := @packing_from_bits_ok F pb (pb_values pb) (pb_lc_values pb) slot bits packed _ hv.
- by move=> b /hb [].
- by apply/all_InP => b /hb [].
- by apply/all_InP => b /hb [].
by exists (upd pb x' k'); split=> //; apply: assigns_upd hw h2.
Qed.

(** Multipacking: chunk [i] of the bits is packed into [packed[i]]. *)
Theorem C29_multipacking_iff (bits packed : pb_linear_combination_array F) chunk_size g enforce x :
  multipacking_new bits packed chunk_size = Ok g ->
  holds (multipacking_constraints g enforce) x <->
  (forall i, (i < size packed)%N -> lval x (lc_nth packed i) =
     pack (map (lval x) (take chunk_size (drop (i * chunk_size) bits)))) /\
  (enforce -> all (fun b => isbit (lval x b)) bits).
Proof.
move=> hg; rewrite (multipackingE _ _ hg); have [hc <- _ _] := multipacking_newE hg.
suff e i : chunk_slice bits chunk_size i = take chunk_size (drop (i * chunk_size) bits).
  by split=> -[h1 h2]; split=> // i hi; rewrite h1 // e.
rewrite /chunk_slice; case: (leqP (size bits) (i.+1 * chunk_size)) => h.
  by rewrite take_size [in RHS]take_oversize // size_drop; move: h; rewrite mulSn; lia.
by rewrite mulSn take_drop.
Qed.

(** The number of packed values must be exactly the number of chunks. *)
Theorem C29_multipacking_sizes (bits packed : pb_linear_combination_array F) chunk_size : (0 < chunk_size)%N ->
  (exists g, multipacking_new bits packed chunk_size = Ok g) <->
  ((size packed).-1 * chunk_size < size bits <= size packed * chunk_size \/ size bits = 0 /\ size packed = 0)%N.
Proof.
move=> hc; rewrite /multipacking_new.
have -> : (chunk_size == 0%N) = false by lia.
have hd := div_ceil_bound (size bits) hc.
split=> [[g]|h].
  rewrite /oassert; case: eqP => //= e _; rewrite e.
  case: (posnP (size bits)) => hb; [right|left].
    by rewrite hb /div_ceil add0n divn_small //; lia.
  rewrite hd andbT ltnNge; apply/negP => h.
  have := div_ceil_le hc h; have : (0 < div_ceil (size bits) chunk_size)%N by case: div_ceil hd => //; lia.
  lia.
suff e : size packed = div_ceil (size bits) chunk_size by rewrite e eqxx /=; eexists.
case: h => [/andP [h1 h2]|[-> ->]]; last by rewrite /div_ceil add0n divn_small //; lia.
apply/eqP; rewrite eqn_leq (div_ceil_le hc h2) andbT leqNgt; apply/negP => h3.
have h4 : (div_ceil (size bits) chunk_size <= (size packed).-1)%N by lia.
by have := leq_mul h4 (leqnn chunk_size); lia.
Qed.

Theorem C29_multipacking_from_bits slot pb (bits : pb_linear_combination_array F) packed chunk_size g :
  pb_wf pb -> multipacking_new bits (plcs_of_vars F packed) chunk_size = Ok g ->
  uniq packed -> all (is_var pb) packed ->
  (forall b, List.In b bits -> [/\ lc_proper slot (size (pb_values pb)) (size (pb_lc_values pb)) b,
     avoids packed (lc_terms b) & isbit (lval (pb_values pb) b)]) ->
  exists pb', [/\ multipacking_witness_from_bits g pb = Ok pb', assigns packed pb pb' &
                  holds (multipacking_constraints g true) (pb_values pb')].
Proof.
move=> hw hg hu hv hb; rewrite -[pb in multipacking_witness_from_bits _ pb](board_of hw).
have [||||x' [k' [h1 h2 h3 h4]]] :=
  @multipacking_from_bits_ok F pb (pb_values pb) (pb_lc_values pb) slot bits packed _ _ hg.
- by move=> b /hb [].
- by [].
- by apply/all_InP => b /hb [].
- by apply/all_InP => b /hb [].
by exists (upd pb x' k'); split=> //; apply: assigns_upd hw h2.
Qed.

Theorem C29_multipacking_from_packed slot pb bits (packed : pb_linear_combination_array F) chunk_size g :
  pb_wf pb -> multipacking_new (plcs_of_vars F bits) packed chunk_size = Ok g ->
  uniq bits -> all (is_var pb) bits ->
  (forall l, List.In l packed -> lc_proper slot (size (pb_values pb)) (size (pb_lc_values pb)) l /\
     avoids bits (lc_terms l)) ->
  (forall i, (i < size packed)%N ->
     (as_bigint R (lval (pb_values pb) (lc_nth packed i)) < 2 ^ size (take chunk_size (drop (i * chunk_size) bits)))%N) ->
  exists pb', [/\ multipacking_witness_from_packed R g pb = Ok pb', assigns bits pb pb' &
                  holds (multipacking_constraints g true) (pb_values pb')].
Proof.
move=> hw hg hu hv hp hlt; rewrite -[pb in multipacking_witness_from_packed _ _ pb](board_of hw).
have [||||x' [k' [h1 h2 h3]]] :=
  @multipacking_from_packed_ok F R pb (pb_values pb) (pb_lc_values pb) slot bits packed _ _ hg.
- by [].
- by move=> l /hp [].
- by apply/all_InP => l /hp [].
- move=> i hi; have := hlt i hi; congr (_ < 2 ^ size _)%N.
  rewrite /chunk_slice; case: (leqP (size bits) (i.+1 * chunk_size)) => h.
    by rewrite take_size take_oversize // size_drop; move: h; rewrite mulSn; lia.
  by rewrite mulSn take_drop.
by exists (upd pb x' k'); split=> //; apply: assigns_upd hw h2.
Qed.

(** With 2^n above the field order (at least 2) the bits are not determined: two
    satisfying assignments with the same packed value and different bits. *)
Theorem C29_packing_beyond_capacity_refuted n : (fp_order R < 2 ^ n)%N ->
  let g := Packing (plcs_of_vars F (iota 2 n)) (plc_of_var F 1%N) in
  exists x y, [/\ holds (packing_constraints g true) x, holds (packing_constraints g true) y,
    lval x (pk_packed g) = lval y (pk_packed g) &
    map (lval x) (pk_bits g) <> map (lval y) (pk_bits g)].
Proof.
move=> hn g; pose bits (m : nat) : seq F := [seq (test_bit m i)%:R | i <- iota 0 n].
pose xx (m : nat) : seq F := m%:R :: bits m.
have vals m : map (lval (xx m)) (pk_bits g) = bits m.
  rewrite /g /= lval_vars; apply: (@eq_from_nth _ 0); rewrite !size_map !size_iota // => i hi.
  by rewrite (nth_map 0%N) ?size_iota // nth_iota.
have hh m : (m < 2 ^ n)%N -> holds (packing_constraints g true) (xx m).
  move=> hm; apply/packing_constraintsE; rewrite vals.
  have hb : all (@isbit F) (bits m) by apply/allP => a /mapP [i _ ->]; apply: isbit_nat.
  split; last by move=> _; rewrite -(all_map (lval (xx m)) (@isbit F)) vals.
  rewrite pack_bits // -map_comp (eq_map (f2 := test_bit m)); last by move=> i /=; rewrite bit_of_nat.
  by rewrite bits_nat_test_bit modn_small // lval_var.
have h0 : (0 < 2 ^ n)%N by rewrite expn_gt0.
exists (xx 0%N), (xx (fp_order R)); split; [exact: hh|exact: hh| |].
  by rewrite !lval_var /xx /xval /= fp_order0.
rewrite !vals => e; have : map (@bit_of F) (bits 0%N) = map (@bit_of F) (bits (fp_order R)) by rewrite e.
rewrite -!map_comp (eq_map (f2 := test_bit 0)); last by move=> i /=; rewrite bit_of_nat.
rewrite [RHS](eq_map (f2 := test_bit (fp_order R))); last by move=> i /=; rewrite bit_of_nat.
move=> /(congr1 bits_nat); rewrite !bits_nat_test_bit mod0n modn_small //.
by have := prime_gt0 (fp_prime R); lia.
Qed.

(** * C30: disjunction and conjunction *)

Theorem C30_disjunction_sound pb0 pb1 inputs output g x :
  pb_wf pb0 -> disjunction_new pb0 inputs output = Ok (g, pb1) ->
  (size inputs < fp_order R)%N -> all (fun v => isbit (xval x v)) inputs ->
  holds (disjunction_constraints F g) x ->
  xval x output = (has (fun v => xval x v == 1) inputs)%:R.
Proof.
move=> hw hg hn hb hh; have [_ _ ei eo _] := disjunction_new_spec hw hg.
by rewrite -ei in hn hb *; rewrite -eo; apply: (disjunction_sound hh hn hb).
Qed.

Theorem C30_conjunction_sound pb0 pb1 inputs output g x :
  pb_wf pb0 -> conjunction_new pb0 inputs output = Ok (g, pb1) ->
  (size inputs < fp_order R)%N -> all (fun v => isbit (xval x v)) inputs ->
  holds (conjunction_constraints F g) x ->
  xval x output = (all (fun v => xval x v == 1) inputs)%:R.
Proof.
move=> hw hg hn hb hh; have [_ _ ei eo _] := conjunction_new_spec hw hg.
by rewrite -ei in hn hb *; rewrite -eo; apply: (conjunction_sound hh hn hb).
Qed.

Theorem C30_disjunction_complete pb0 pb1 pb inputs output g :
  pb_wf pb0 -> disjunction_new pb0 inputs output = Ok (g, pb1) -> later pb1 pb ->
  is_var pb0 output -> all (fun v => v <= size (pb_values pb0))%N inputs -> output \notin inputs ->
  exists pb', [/\ disjunction_witness g pb = Ok pb', assigns (output :: fresh_vars pb0 pb1) pb pb' &
                  holds (disjunction_constraints F g) (pb_values pb')].
Proof.
move=> hw hg [hwp hs _] ho hi hni; have [_ ha ei eo ef] := disjunction_new_spec hw hg.
rewrite -[pb in disjunction_witness _ pb](board_of hwp).
have hm : assignable (size (pb_values pb)) ([:: output] ++ fresh_vars pb0 pb1).
  by apply: assignable_fresh => //=; rewrite ho.
have hp : perm_eq ([:: output] ++ fresh_vars pb0 pb1) [:: dj_inv g; dj_output g].
  by rewrite ef eo; apply/permP => p /=; lia.
have [|||x' [h1 h2 h3 h4]] := @disjunction_ok F pb (pb_values pb) (pb_lc_values pb) g.
- exact: assignable_perm hp hm.
- rewrite ei; apply: sub_all hi => v /leq_trans; apply; apply: leq_trans (allocates_size ha) hs.
- rewrite ei eo; apply/allP => v hv; rewrite !inE negb_or; apply/andP; split; apply/eqP => e.
    have : dj_inv g \in fresh_vars pb0 pb1 by rewrite ef inE.
    by rewrite mem_fresh // -e => /andP [hlt _]; have := allP hi v hv; lia.
  by rewrite -e hv in hni.
exists (upd pb x' (pb_lc_values pb)); split=> //.
apply: (@assigns_upd _ (fun=> [::])) => //; apply: wstep_changes; apply: changes_sub h2 => v.
by rewrite -(perm_mem hp).
Qed.

Theorem C30_conjunction_complete pb0 pb1 pb inputs output g :
  pb_wf pb0 -> conjunction_new pb0 inputs output = Ok (g, pb1) -> later pb1 pb ->
  is_var pb0 output -> all (fun v => v <= size (pb_values pb0))%N inputs -> output \notin inputs ->
  exists pb', [/\ conjunction_witness g pb = Ok pb', assigns (output :: fresh_vars pb0 pb1) pb pb' &
                  holds (conjunction_constraints F g) (pb_values pb')].
Proof.
move=> hw hg [hwp hs _] ho hi hni; have [_ ha ei eo ef] := conjunction_new_spec hw hg.
rewrite -[pb in conjunction_witness _ pb](board_of hwp).
have hm : assignable (size (pb_values pb)) ([:: output] ++ fresh_vars pb0 pb1).
  by apply: assignable_fresh => //=; rewrite ho.
have hp : perm_eq ([:: output] ++ fresh_vars pb0 pb1) [:: cj_inv g; cj_output g].
  by rewrite ef eo; apply/permP => p /=; lia.
have [|||x' [h1 h2 h3 h4]] := @conjunction_ok F pb (pb_values pb) (pb_lc_values pb) g.
- exact: assignable_perm hp hm.
- rewrite ei; apply: sub_all hi => v /leq_trans; apply; apply: leq_trans (allocates_size ha) hs.
- rewrite ei eo; apply/allP => v hv; rewrite !inE negb_or; apply/andP; split; apply/eqP => e.
    have : cj_inv g \in fresh_vars pb0 pb1 by rewrite ef inE.
    by rewrite mem_fresh // -e => /andP [hlt _]; have := allP hi v hv; lia.
  by rewrite -e hv in hni.
exists (upd pb x' (pb_lc_values pb)); split=> //.
apply: (@assigns_upd _ (fun=> [::])) => //; apply: wstep_changes; apply: changes_sub h2 => v.
by rewrite -(perm_mem hp).
Qed.

(** As many inputs as the field order, all 1: output 0 satisfies. *)
Theorem C30_disjunction_too_many_refuted :
  let inputs := iota 3 (fp_order R) in
  exists g pb1 x, [/\ disjunction_new (allocate_array (pb_new F) (fp_order R + 2)%N).2 inputs 2%N = Ok (g, pb1),
    all (fun v => xval x v == 1) inputs, holds (disjunction_constraints F g) x & xval x 2%N = 0].
Proof.
move=> inputs; set pb := (allocate_array _ _).2.
have hp := prime_gt0 (fp_prime R).
exists (Disjunction (pb_next_free_var pb) inputs 2%N), (allocate_var pb).2.
pose x : seq F := 0 :: 0 :: nseq (fp_order R) 1.
have hx v : v \in inputs -> xval x v = 1.
  rewrite mem_iota => hv; case: v hv => [|[|[|v]]] //= hv; rewrite /xval /= nth_nseq ifT //; lia.
exists x; split=> //.
- rewrite /disjunction_new size_iota hp /=; congr (Ok (_, _)).
- by apply/allP => v /hx ->.
- apply/disjunctionE => /=; rewrite (eq_big_seq (fun=> 1)) //.
  rewrite big_const_seq count_predT size_iota iter_addr_0 -mulr_natr mul1r fp_order0 !mulr0.
  by [].
Qed.

(** * C31: comparison *)

Theorem C31_comparison_sound pb0 pb1 n A B less less_or_eq g x (a b : nat) :
  pb_wf pb0 -> comparison_new pb0 n A B less less_or_eq = Ok (g, pb1) ->
  (2 ^ n.+1 <= fp_order R)%N -> (a < 2 ^ n)%N -> (b < 2 ^ n)%N ->
  lval x A = a%:R -> lval x B = b%:R ->
  holds (comparison_constraints g) x ->
  xval x less = (a < b)%N%:R /\ xval x less_or_eq = (a <= b)%N%:R.
Proof.
move=> hw hg; have [a0 [_ hs _ [<- <- <- <- <-] _]] := comparison_new_spec hw hg.
by move=> hp ha hb eA eB; exact: (comparison_sound hs hp ha hb eA eB).
Qed.

Theorem C31_comparison_complete slot pb0 pb1 pb n A B less less_or_eq g :
  pb_wf pb0 -> comparison_new pb0 n A B less less_or_eq = Ok (g, pb1) -> later pb1 pb ->
  (2 ^ n.+1 <= fp_order R)%N ->
  is_var pb0 less -> is_var pb0 less_or_eq -> less != less_or_eq ->
  (forall l, List.In l [:: A; B] ->
     [/\ lc_proper slot (size (pb_values pb0)) (size (pb_lc_values pb0)) l,
         avoids [:: less; less_or_eq] (lc_terms l) & (as_bigint R (lval (pb_values pb) l) < 2 ^ n)%N]) ->
  exists pb', [/\ comparison_witness R g pb = Ok pb', assigns ([:: less; less_or_eq] ++ fresh_vars pb0 pb1) pb pb' &
                  holds (comparison_constraints g) (pb_values pb')].
Proof.
move=> hw hg [hwp hs hks] hp hl hle hne hAB.
have [a0 [ha hsh hn0 [en eA eB el ele] hperm]] := comparison_new_spec hw hg.
rewrite -[pb in comparison_witness _ _ pb](board_of hwp).
have hm : assignable (size (pb_values pb)) ([:: less; less_or_eq] ++ fresh_vars pb0 pb1).
  apply: assignable_fresh; rewrite //= ?inE ?andbT //; by rewrite hl hle.
have sub : {subset cm_mods g a0 <= [:: less; less_or_eq] ++ fresh_vars pb0 pb1}.
  by move=> v; rewrite (perm_mem hperm).
have [pA vA bA] := hAB A (or_introl erefl); have [pB vB bB] := hAB B (or_intror (or_introl erefl)).
have up (l : pb_linear_combination F) : lc_proper slot (size (pb_values pb0)) (size (pb_lc_values pb0)) l ->
   lc_proper slot (size (pb_values pb)) (size (pb_lc_values pb)) l.
  apply: lc_proper_le; first exact: leq_trans (allocates_size ha) hs.
  exact: leq_trans (allocates_ksize ha) hks.
have [||||||||||x' [k' [h1 h2 h3]]] := @comparison_ok F R pb (pb_values pb) (pb_lc_values pb) slot g a0
   (as_bigint R (lval (pb_values pb) A)) (as_bigint R (lval (pb_values pb) B)) hsh.
- by rewrite en.
- by rewrite en.
- by rewrite en.
- by rewrite eA as_bigintK.
- by rewrite eB as_bigintK.
- by rewrite eA; apply: up.
- by rewrite eB; apply: up.
- by apply: assignable_perm hm; rewrite perm_sym.
- by rewrite eA; apply: (avoids_subset sub); apply: avoids_outs => //; apply: lc_proper_range pA.
- by rewrite eB; apply: (avoids_subset sub); apply: avoids_outs => //; apply: lc_proper_range pB.
exists (upd pb x' k'); split=> //; apply: assigns_sub sub _; exact: assigns_upd hwp h2.
Qed.

(** A comparison gadget of width 0 cannot be built. *)
Theorem C31_comparison_width0 pb0 A B less less_or_eq :
  comparison_new pb0 0 A B less less_or_eq = AssertFail.
Proof. by []. Qed.

(** * C32: inner product, multiplexing, copying *)

Theorem C32_inner_product_sound pb0 pb1 A B result g x :
  pb_wf pb0 -> inner_product_new pb0 A B result = Ok (g, pb1) ->
  holds (inner_product_constraints g) x ->
  xval x result = \sum_(i < size A) lval x (lc_nth A i) * lval x (lc_nth B i).
Proof.
move=> hw hg hh; have [_ hs [<- <- <-] _] := inner_product_new_spec hw hg.
rewrite (inner_product_sound hs hh).
move: (ips_B hs); elim: (ip_A g) (ip_B g) => [|a s IH] [|b t] //=; first by rewrite big_nil big_ord0.
by case=> e; rewrite big_cons big_ord_recl IH.
Qed.

Theorem C32_inner_product_complete slot pb0 pb1 pb A B result g :
  pb_wf pb0 -> inner_product_new pb0 A B result = Ok (g, pb1) -> later pb1 pb -> is_var pb0 result ->
  (forall l, List.In l (A ++ B) -> lc_proper slot (size (pb_values pb0)) (size (pb_lc_values pb0)) l /\
     avoids [:: result] (lc_terms l)) ->
  exists pb', [/\ inner_product_witness g pb = Ok pb', assigns (result :: fresh_vars pb0 pb1) pb pb' &
                  holds (inner_product_constraints g) (pb_values pb')].
Proof.
move=> hw hg [hwp hs hks] hr hl; have [ha hsh [eA eB er] ef] := inner_product_new_spec hw hg.
rewrite -[pb in inner_product_witness _ pb](board_of hwp).
have hm : assignable (size (pb_values pb)) ([:: result] ++ fresh_vars pb0 pb1).
  by apply: assignable_fresh => //=; rewrite hr.
have hperm : perm_eq (ip_mods g) ([:: result] ++ fresh_vars pb0 pb1).
  by rewrite /ip_mods er ef; apply/permP => p; rewrite -cats1 !count_cat /=; lia.
have sub : {subset ip_mods g <= [:: result] ++ fresh_vars pb0 pb1} by move=> v; rewrite (perm_mem hperm).
have [||x' [k' [h1 h2 h3]]] := @inner_product_ok F pb (pb_values pb) (pb_lc_values pb) slot g hsh.
- rewrite eA eB => l; rewrite -List.in_app_iff => /hl [p1 p2]; split.
    apply: lc_proper_le p1; first exact: leq_trans (allocates_size ha) hs.
    exact: leq_trans (allocates_ksize ha) hks.
  by apply: (avoids_subset sub); apply: avoids_outs => //; apply: lc_proper_range p1.
- by apply: assignable_perm hm; rewrite perm_sym.
exists (upd pb x' k'); split=> //; apply: assigns_sub sub _; exact: assigns_upd hwp h2.
Qed.

(** The multiplexer: either the success flag is 1, the index is in range and the
    result is the array element, or flag and result are 0. *)
Theorem C32_loose_mux_sound pb0 pb1 arr index result success g x :
  pb_wf pb0 -> loose_mux_new pb0 arr index result success = Ok (g, pb1) ->
  (size arr <= fp_order R)%N -> holds (loose_mux_constraints g) x ->
  (xval x success = 0 /\ xval x result = 0) \/
  (xval x success = 1 /\ exists i, [/\ (i < size arr)%N, xval x index = i%:R & xval x result = lval x (lc_nth arr i)]).
Proof.
move=> hw hg; have [_ hs [<- <- <- <-] _] := loose_mux_new_spec hw hg.
exact: loose_mux_sound.
Qed.

(** The generated witness sets the success flag exactly when the index is in
    range. *)
Theorem C32_loose_mux_complete slot pb0 pb1 pb arr index result success g :
  pb_wf pb0 -> loose_mux_new pb0 arr index result success = Ok (g, pb1) -> later pb1 pb ->
  is_var pb0 result -> is_var pb0 success -> uniq [:: index; result; success] -> (index <= size (pb_values pb0))%N ->
  (forall l, List.In l arr -> lc_proper slot (size (pb_values pb0)) (size (pb_lc_values pb0)) l /\
     avoids [:: result; success] (lc_terms l)) ->
  exists pb', [/\ loose_mux_witness R g pb = Ok pb',
    assigns ([:: result; success] ++ fresh_vars pb0 pb1) pb pb',
    holds (loose_mux_constraints g) (pb_values pb') &
    xval (pb_values pb') success = (as_bigint R (xval (pb_values pb) index) < size arr)%N%:R].
Proof.
move=> hw hg [hwp hs hks] hr hsu hu hi hl; have [ha hsh [ea ei er es] hperm] := loose_mux_new_spec hw hg.
rewrite -[pb in loose_mux_witness _ _ pb](board_of hwp).
have [hu1 hu2] : index \notin [:: result; success] /\ uniq [:: result; success] by case/andP: hu.
have hm : assignable (size (pb_values pb)) ([:: result; success] ++ fresh_vars pb0 pb1).
  by apply: assignable_fresh => //; rewrite /= hr hsu.
have sub : {subset lm_mods g <= [:: result; success] ++ fresh_vars pb0 pb1} by move=> v; rewrite (perm_mem hperm).
have [||||x' [k' [h1 h2 h3 h4]]] := @loose_mux_ok F R pb (pb_values pb) (pb_lc_values pb) slot g hsh.
- rewrite ea => l /hl [p1 p2]; split.
    apply: lc_proper_le p1; first exact: leq_trans (allocates_size ha) hs.
    exact: leq_trans (allocates_ksize ha) hks.
  by apply: (avoids_subset sub); apply: avoids_outs => //; apply: lc_proper_range p1.
- by rewrite ei; apply: leq_trans hi (leq_trans (allocates_size ha) hs).
- rewrite ei (perm_mem hperm) mem_cat negb_or hu1 mem_fresh //=; lia.
- by apply: assignable_perm hm; rewrite perm_sym.
exists (upd pb x' k'); split=> //; last by rewrite -es -ei -ea.
by apply: assigns_sub sub _; exact: assigns_upd hwp h2.
Qed.

(** But soundness says no more: the flag may be 0 although the index is in
    range. *)
Theorem C32_loose_mux_flag_not_forced_refuted (a i : F) :
  exists g pb1 x, [/\ loose_mux_new (allocate_array (pb_new F) 4).2 (plcs_of_vars F [:: 1%N]) 2%N 3%N 4%N = Ok (g, pb1),
    xval x 1%N = a, xval x 2%N = i, holds (loose_mux_constraints g) x & xval x 4%N = 0].
Proof.
exists (LooseMux [:: 5%N] (InnerProduct [::] (plcs_of_vars F [:: 5%N]) (plcs_of_vars F [:: 1%N]) 3%N) (plcs_of_vars F [:: 1%N]) 2%N 3%N 4%N).
eexists; exists [:: a; i; 0; 0; 0]; split=> //.
apply/loose_muxE; first by split.
split=> //.
- by case=> // _; rewrite mul0r.
- by rewrite big_seq1.
- by rewrite /isbit eqxx.
move=> c [<-|//]; rewrite /constraint_holds [c_a _]/= [c_b _]/= [c_c _]/= !fsE.
by rewrite /ip_target /xval /= !mul0r addr0.
Qed.

(** Copying field elements: forced if the flag is not 0, nothing otherwise. *)
Theorem C32_field_vector_copy_iff source target do_copy g x :
  field_vector_copy_new source target do_copy = Ok g ->
  holds (field_vector_copy_constraints g) x <->
  (lval x do_copy <> 0 -> map (xval x) source = map (xval x) target).
Proof.
rewrite /field_vector_copy_new /oassert; case: eqP => //= hs [<-].
rewrite field_vector_copyE //=; case: (@eqP _ (lval x do_copy) 0) => h; split=> //; tauto.
Qed.

Theorem C32_field_vector_copy_complete slot pb source target do_copy g :
  field_vector_copy_new source target do_copy = Ok g -> pb_wf pb ->
  uniq target -> all (is_var pb) target ->
  all (fun v => v <= size (pb_values pb))%N source -> all (fun v => v \notin target) source ->
  lc_proper slot (size (pb_values pb)) (size (pb_lc_values pb)) do_copy -> avoids target (lc_terms do_copy) ->
  isbit (lval (pb_values pb) do_copy) ->
  exists pb', [/\ field_vector_copy_witness g pb = Ok pb', assigns target pb pb' &
                  holds (field_vector_copy_constraints g) (pb_values pb')].
Proof.
rewrite /field_vector_copy_new /oassert; case: eqP => //= hs [<-] hw hu hv hr hn hp ha hb.
rewrite -[pb in field_vector_copy_witness _ pb](board_of hw).
have [x' [k' [h1 h2 h3 h4]]] := @field_vector_copy_ok F pb (pb_values pb) (pb_lc_values pb) slot
   (FieldVectorCopy source target do_copy) hs (conj hu hv) hr hn hp ha hb.
by exists (upd pb x' k'); split=> //; apply: assigns_upd hw h2.
Qed.

(** When disabled nothing is forced: any boolean source and target extend to a
    satisfying assignment (the last conjunct of [C32_bit_vector_copy_complete]). *)
(** Copying bits in chunks of at most log2 of the field order. *)
Theorem C32_bit_vector_copy_sound pb0 pb1 source target do_copy chunk_size g e1 e2 x :
  pb_wf pb0 -> bit_vector_copy_new pb0 source target do_copy chunk_size = Ok (g, pb1) ->
  (2 ^ chunk_size <= fp_order R)%N ->
  all (fun v => isbit (xval x v)) (source ++ target) ->
  holds (bit_vector_copy_constraints g e1 e2) x ->
  lval x do_copy <> 0 -> map (xval x) source = map (xval x) target.
Proof.
move=> hw hg hc; rewrite all_cat => /andP [b1 b2] hh hd.
have [_ hs [e3 e4 e5] _] := bit_vector_copy_new_spec hw hg.
rewrite -e3 in b1 *; rewrite -e4 in b2 *; rewrite -e5 in hd.
by case: (bit_vector_copy_sound hs hc hh b1 b2).
Qed.

(** Asked to, the constraints make the bits boolean. *)
Theorem C32_bit_vector_copy_bitness pb0 pb1 source target do_copy chunk_size g (e1 e2 : bool) x :
  pb_wf pb0 -> bit_vector_copy_new pb0 source target do_copy chunk_size = Ok (g, pb1) ->
  holds (bit_vector_copy_constraints g e1 e2) x ->
  (e1 -> all (fun v => isbit (xval x v)) source) /\ (e2 -> all (fun v => isbit (xval x v)) target).
Proof.
move=> hw hg; have [_ hs [<- <- _] _] := bit_vector_copy_new_spec hw hg.
rewrite /bit_vector_copy_constraints 2!holds_cat => -[h1 [h2 _]].
move/(multipackingE _ _ (bcs_source hs)): h1 => [_ h1].
move/(multipackingE _ _ (bcs_target hs)): h2 => [_ h2].
by rewrite !isbit_vars in h1 h2.
Qed.

Theorem C32_bit_vector_copy_complete slot pb0 pb1 pb source target do_copy chunk_size g :
  pb_wf pb0 -> bit_vector_copy_new pb0 source target do_copy chunk_size = Ok (g, pb1) -> later pb1 pb ->
  uniq target -> all (is_var pb0) target ->
  all (fun v => v <= size (pb_values pb0))%N source -> all (fun v => v \notin target) source ->
  lc_proper slot (size (pb_values pb0)) (size (pb_lc_values pb0)) do_copy -> avoids target (lc_terms do_copy) ->
  isbit (lval (pb_values pb) do_copy) -> all (fun v => isbit (xval (pb_values pb) v)) source ->
  (lval (pb_values pb) do_copy = 0 -> all (fun v => isbit (xval (pb_values pb) v)) target) ->
  exists pb', [/\ bit_vector_copy_witness g pb = Ok pb', assigns (target ++ fresh_vars pb0 pb1) pb pb',
    holds (bit_vector_copy_constraints g true true) (pb_values pb') &
    map (xval (pb_values pb')) target =
      map (xval (pb_values pb)) (if lval (pb_values pb) do_copy == 1 then source else target)].
Proof.
move=> hw hg [hwp hs hks] hu hv hr hn hp hav hb b1 b2.
have [ha hsh [es et ed] em] := bit_vector_copy_new_spec hw hg.
rewrite -[pb in bit_vector_copy_witness _ pb](board_of hwp).
have [||||||||x' [k' [h1 h2 h3 h4]]] := @bit_vector_copy_ok F pb (pb_values pb) (pb_lc_values pb) slot g chunk_size hsh.
- by rewrite em; apply: assignable_fresh.
- rewrite es; apply: sub_all hr => v /leq_trans; apply; exact: leq_trans (allocates_size ha) hs.
- rewrite es em; apply/allP => v hvv; rewrite mem_cat negb_or (allP hn) //= mem_fresh //.
  by have := allP hr v hvv; lia.
- rewrite ed; apply: lc_proper_le hp; first exact: leq_trans (allocates_size ha) hs.
  exact: leq_trans (allocates_ksize ha) hks.
- by rewrite ed em; apply: avoids_outs => //; apply: lc_proper_range hp.
- by rewrite ed.
- by rewrite es.
- by rewrite ed et.
exists (upd pb x' k'); split=> //; first by rewrite -em; exact: assigns_upd hwp h2.
by rewrite -es -et -ed.
Qed.

(** Linear combinations of groups of variables
    ([create_linear_combination_constraints] and [..._witness]). *)
Theorem C32_linear_combination (base : seq F) (v : seq (seq nat * F)) target :
  all (fun pc => size base <= size pc.1)%N v -> size target = size base ->
  exists cs, linear_combination_constraints base v target = Ok cs /\
    (forall x, holds cs x <-> forall i, (i < size base)%N ->
       xval x (nth 0%N target i) = nth 0 base i + \sum_(pc <- v) pc.2 * xval x (nth 0%N pc.1 i)) /\
    (forall pb, pb_wf pb -> uniq target -> all (is_var pb) target ->
       (forall pc i, List.In pc v -> (i < size base)%N ->
          (nth 0%N pc.1 i <= size (pb_values pb))%N /\ nth 0%N pc.1 i \notin target) ->
       exists pb', [/\ linear_combination_witness base v target pb = Ok pb', assigns target pb pb' &
                       holds cs (pb_values pb')]).
Proof.
move=> hv hs; have [|cs [h1 h2]] := @linear_combination_constraintsE F base v target hv; first by rewrite hs.
exists cs; split=> //; split=> // pb hw hu ht hvv.
rewrite -[pb in linear_combination_witness _ _ _ pb](board_of hw).
have [x' [h3 h4 h5]] := @linear_combination_witness_ok F pb (pb_values pb) (pb_lc_values pb) base v target
   hv hs (conj hu ht) hvv.
exists (upd pb x' (pb_lc_values pb)); split=> //; last by apply/h2.
by apply: (@assigns_upd _ (fun=> [::])) => //; apply: wstep_changes.
Qed.

(** * C44: gadgets from constraint systems *)

Theorem C44_from_r1cs_iff vars (cs : r1cs F) g x :
  from_r1cs_new vars cs = Ok g -> r1cs_in_range cs ->
  holds (from_r1cs_constraints g) x <-> r1cs_holds cs (map (xval x) (flatten vars)).
Proof.
rewrite /from_r1cs_new /oassert; case: eqP => //= hs [<-] hr.
exact: (@from_r1csE F (FromR1cs (flatten vars) cs) x hs hr).
Qed.

Theorem C44_from_r1cs_complete pb vars (cs : r1cs F) g primary auxiliary :
  from_r1cs_new vars cs = Ok g -> pb_wf pb -> uniq (flatten vars) -> all (is_var pb) (flatten vars) ->
  r1cs_is_satisfied cs primary auxiliary = Ok true ->
  exists pb', [/\ from_r1cs_witness g pb primary auxiliary = Ok pb', assigns (flatten vars) pb pb',
    map (xval (pb_values pb')) (flatten vars) = primary ++ auxiliary &
    holds (from_r1cs_constraints g) (pb_values pb')].
Proof.
rewrite /from_r1cs_new /oassert; case: eqP => //= hs [<-] hw hu hv hsat.
have [hp ha hr hh] := r1cs_is_satisfied_true hsat.
rewrite -[pb in from_r1cs_witness _ pb](board_of hw).
have [||x' [h1 h2 h3]] := @from_r1cs_witness_ok F pb (pb_values pb) (pb_lc_values pb)
   (FromR1cs (flatten vars) cs) primary auxiliary hs (conj hu hv).
- by rewrite hp.
- by rewrite hp ha.
exists (upd pb x' (pb_lc_values pb)); split=> //.
- by apply: (@assigns_upd _ (fun=> [::])) => //; apply: wstep_changes.
- by apply/(@from_r1csE F (FromR1cs (flatten vars) cs) _ hs hr); rewrite /= h3.
Qed.

(** The number of variables must match. *)
Theorem C44_from_r1cs_sizes vars (cs : r1cs F) :
  (exists g, from_r1cs_new vars cs = Ok g) <-> sumn (map size vars) = num_variables cs.
Proof.
rewrite /from_r1cs_new size_flatten /shape /oassert; case: eqP => //= h; split=> //; last by case.
by move=> _; eexists.
Qed.

End Gadgets.

(** * The hypotheses are met: concrete cases in the field of order 11 *)
Definition repr11 : bigint_repr [fieldType of 'F_11].
Proof.
refine (@BigintRepr [fieldType of 'F_11] 11 isT _ (fun a : 'F_11 => nat_of_ord a) _ _).
- by apply/eqP; vm_compute.
- by move=> a; apply: (leq_trans (ltn_ord a)).
- by move=> a; rewrite natr_Zp.
Defined.
(** A protoboard with six variables, with values 5, 1, 0, 1, 0 and 0. *)
Definition pb6 : protoboard [fieldType of 'F_11] :=
  upd (allocate_array (pb_new [fieldType of 'F_11]) 6).2 [:: 5%:R; 1; 0; 1; 0; 0 : 'F_11] [::].
Definition v11 (v : nat) := plc_of_var [fieldType of 'F_11] v.
Definition no_slots (n : nat) : linear_combination [fieldType of 'F_11] := [::].
Lemma pb6_wf : pb_wf pb6. Proof. by split. Qed.
Definition fine (pb : protoboard [fieldType of 'F_11]) A (o : outcome (A * protoboard [fieldType of 'F_11])) :=
  if o is Ok r then (size (pb_values pb) <= size (pb_values r.2))%N else false.
(** Running witness generation right after construction. *)
Definition run A (o : outcome (A * protoboard [fieldType of 'F_11]))
    (w : A -> protoboard [fieldType of 'F_11] -> outcome (protoboard [fieldType of 'F_11])) (v : nat) (r : 'F_11) : bool :=
  if o is Ok gp then if w gp.1 gp.2 is Ok pb then xval (pb_values pb) v == r else false else false.

Example C29_ex : exists pb',
  [/\ packing_witness_from_packed repr11 (Packing (plcs_of_vars _ [:: 2; 3; 4]%N) (v11 1)) pb6 = Ok pb',
      assigns [:: 2; 3; 4]%N pb6 pb' &
      holds (packing_constraints (Packing (plcs_of_vars _ [:: 2; 3; 4]%N) (v11 1)) true) (pb_values pb')].
Proof.
have := C29_packing_from_packed repr11 (slot := no_slots) (vs := [:: 2; 3; 4]%N) pb6_wf isT isT
  (lc_proper_plc_var no_slots 0 (isT : (1 <= 6)%N)) isT.
have -> : (as_bigint repr11 (lval (pb_values pb6) (v11 1)) < 2 ^ size [:: 2; 3; 4]%N)%N by rewrite lval_var; vm_compute.
by [].
Qed.
(** Its uniqueness condition, and the constraints on the bits 1, 0, 1 of 5. *)
Example C29_ex2 : (2 ^ 3 <= fp_order repr11)%N /\
  holds (packing_constraints (Packing (plcs_of_vars _ [:: 2; 3; 4]%N) (v11 1)) true) (pb_values pb6).
Proof.
split=> //; apply/packing_constraintsE; split; last by move=> _; rewrite isbit_vars; vm_compute.
by rewrite lval_vars lval_var; apply/eqP; vm_compute.
Qed.
Example C29_ex3 : exists pb',
  [/\ packing_witness_from_bits (Packing (plcs_of_vars _ [:: 2; 3; 4]%N) (v11 5)) pb6 = Ok pb',
      assigns [:: 5%N] pb6 pb' &
      holds (packing_constraints (Packing (plcs_of_vars _ [:: 2; 3; 4]%N) (v11 5)) true) (pb_values pb')].
Proof.
apply: (@C29_packing_from_bits _ no_slots pb6 (plcs_of_vars _ [:: 2; 3; 4]%N) 5 pb6_wf isT) => b.
by case=> [<-|[<-|[<-|//]]]; split=> //; rewrite ?lval_var; try exact: lc_proper_plc_var; vm_compute.
Qed.
(** Three bits in chunks of two need two packed values. *)
Example C29_ex4 : exists g,
  multipacking_new (plcs_of_vars [fieldType of 'F_11] [:: 2; 3; 4]%N) (plcs_of_vars _ [:: 5; 6]%N) 2 = Ok g.
Proof. by apply/C29_multipacking_sizes => //; left. Qed.
Example C29_ex5 g pb' :
  multipacking_new (plcs_of_vars [fieldType of 'F_11] [:: 2; 3; 4]%N) (plcs_of_vars _ [:: 5; 6]%N) 2 = Ok g ->
  multipacking_witness_from_bits g pb6 = Ok pb' -> holds (multipacking_constraints g true) (pb_values pb').
Proof.
move=> hg; have [|b|pb [-> _ h] [<-] //] := C29_multipacking_from_bits (slot := no_slots) pb6_wf hg isT; first by [].
by case=> [<-|[<-|[<-|//]]]; split=> //; rewrite ?lval_var; try exact: lc_proper_plc_var; vm_compute.
Qed.
Example C29_ex6 g pb' :
  multipacking_new (plcs_of_vars [fieldType of 'F_11] [:: 2; 3; 4]%N) (plcs_of_vars _ [:: 5; 6]%N) 2 = Ok g ->
  multipacking_witness_from_packed repr11 g pb6 = Ok pb' -> holds (multipacking_constraints g true) (pb_values pb').
Proof.
move=> hg; have [|l|i|pb [-> _ h] [<-] //] :=
  C29_multipacking_from_packed (R := repr11) (slot := no_slots) pb6_wf hg isT; first by [].
- by case=> [<-|[<-|//]]; split=> //; exact: lc_proper_plc_var.
- by case: i => [|[|//]] _; rewrite lval_var; vm_compute.
Qed.
Example C29_ex7 : (fp_order repr11 < 2 ^ 4)%N. Proof. by []. Qed.

Example C30_ex : fine pb6 (disjunction_new pb6 [:: 2; 3; 4]%N 5%N) && fine pb6 (conjunction_new pb6 [:: 2; 3; 4]%N 5%N) &&
  (size [:: 2; 3; 4]%N < fp_order repr11)%N && all (fun v => isbit (xval (pb_values pb6) v)) [:: 2; 3; 4]%N &&
  all (fun v => v <= size (pb_values pb6))%N [:: 2; 3; 4]%N && is_var pb6 5 && (5%N \notin [:: 2; 3; 4]%N) &&
  run (disjunction_new pb6 [:: 2; 3; 4]%N 5%N) (@disjunction_witness _) 5 1 &&
  run (conjunction_new pb6 [:: 2; 3; 4]%N 5%N) (@conjunction_witness _) 5 0.
Proof. by vm_compute. Qed.

(** 1 < 2 in width 2. *)
Definition pb6' : protoboard [fieldType of 'F_11] := upd pb6 [:: 2%:R; 1; 0; 1; 0; 0 : 'F_11] [::].
Example C31_ex : fine pb6 (comparison_new pb6' 2 (v11 2) (v11 1) 3%N 4%N) && (2 ^ 3 <= fp_order repr11)%N &&
  is_var pb6' 3 && is_var pb6' 4 && (3 != 4)%N && avoids [:: 3; 4]%N (lc_terms (v11 1)) &&
  run (comparison_new pb6' 2 (v11 2) (v11 1) 3%N 4%N) (@comparison_witness _ repr11) 3 1 &&
  run (comparison_new pb6' 2 (v11 2) (v11 1) 3%N 4%N) (@comparison_witness _ repr11) 4 1 &&
  run (comparison_new pb6' 2 (v11 1) (v11 2) 3%N 4%N) (@comparison_witness _ repr11) 4 0.
Proof. by vm_compute. Qed.
Example C31_ex2 g pb1 : comparison_new pb6' 2 (v11 2) (v11 1) 3%N 4%N = Ok (g, pb1) -> later pb1 pb1 ->
  pb_values pb1 = pb_values pb6' ++ nseq (size (pb_values pb1) - 6) 0 ->
  exists pb', comparison_witness repr11 g pb1 = Ok pb' /\ holds (comparison_constraints g) (pb_values pb').
Proof.
move=> hg hl hv; have hw : pb_wf pb6' by split.
have [|pb' [h1 _ h2]] := C31_comparison_complete (R := repr11) (slot := no_slots) hw hg hl isT isT isT isT; last by exists pb'.
move=> l [<-|[<-|//]]; split=> //; try exact: lc_proper_plc_var; rewrite lval_var hv.
  by vm_compute.
by vm_compute.
Qed.

Definition arr23 := plcs_of_vars [fieldType of 'F_11] [:: 1; 2]%N.
Example C32_ex : fine pb6 (inner_product_new pb6 arr23 arr23 5%N) &&
  run (inner_product_new pb6 arr23 arr23 5%N) (@inner_product_witness _) 5 26%:R &&
  fine pb6 (loose_mux_new pb6 arr23 4%N 5%N 6%N) && (size arr23 <= fp_order repr11)%N &&
  run (loose_mux_new pb6 arr23 4%N 5%N 6%N) (@loose_mux_witness _ repr11) 5 1 &&
  run (loose_mux_new pb6 arr23 4%N 5%N 6%N) (@loose_mux_witness _ repr11) 6 1 &&
  run (loose_mux_new pb6 arr23 1%N 5%N 6%N) (@loose_mux_witness _ repr11) 6 0 &&
  fine pb6 (bit_vector_copy_new pb6 [:: 2; 3]%N [:: 5; 6]%N (v11 4) 1) &&
  run (bit_vector_copy_new pb6 [:: 2; 3]%N [:: 5; 6]%N (v11 4) 1) (@bit_vector_copy_witness _) 5 1.
Proof. by vm_compute. Qed.
Example C32_ex2 : exists g, field_vector_copy_new [:: 1; 2]%N [:: 5; 6]%N (v11 4) = Ok g /\
  exists pb', field_vector_copy_witness g pb6 = Ok pb' /\ holds (field_vector_copy_constraints g) (pb_values pb').
Proof.
eexists; split; first by [].
have [|||pb' [h1 _ h2]] := C32_field_vector_copy_complete (source := [:: 1; 2]%N) (target := [:: 5; 6]%N)
  (slot := no_slots) (do_copy := v11 4) erefl pb6_wf isT isT isT isT; last by exists pb'.
- exact: lc_proper_plc_var.
- by [].
- by rewrite lval_var; vm_compute.
Qed.
(** x5 = 3 + 2 x1 and x6 = 4 + 2 x2. *)
Example C32_ex3 : exists cs,
  linear_combination_constraints [:: 3%:R; 4%:R : 'F_11] [:: ([:: 1; 2]%N, 2%:R)] [:: 5; 6]%N = Ok cs /\
  exists pb', linear_combination_witness [:: 3%:R; 4%:R : 'F_11] [:: ([:: 1; 2]%N, 2%:R)] [:: 5; 6]%N pb6 = Ok pb' /\
  holds cs (pb_values pb').
Proof.
have [|//|cs [h1 [_ h3]]] := @C32_linear_combination _ [:: 3%:R; 4%:R : 'F_11] [:: ([:: 1; 2]%N, 2%:R)] [:: 5; 6]%N; first by [].
exists cs; split=> //; have [||pb' [e1 _ e2]] := h3 pb6 pb6_wf isT; [by []| |by exists pb'].
by move=> pc [|[|i]] [<-|//].
Qed.

(** x1 * x1 = x2 with one input, on variables 5 and 6 of the protoboard. *)
Definition cs_sq : r1cs [fieldType of 'F_11] :=
  R1cs 1 1 [:: R1csConstraint [:: (1%N, 1 : 'F_11)] [:: (1%N, 1)] [:: (2%N, 1)]].
Example C44_ex : exists g pb', [/\ from_r1cs_new [:: [:: 5]; [:: 6]]%N cs_sq = Ok g,
  from_r1cs_witness g pb6 [:: 3%:R] [:: 9%:R] = Ok pb', xval (pb_values pb') 6 = 9%:R &
  holds (from_r1cs_constraints g) (pb_values pb')].
Proof.
have [|pb' [h1 _ [h2 h3] h4]] := C44_from_r1cs_complete (vars := [:: [:: 5]; [:: 6]]%N) (cs := cs_sq)
  (primary := [:: 3%:R]) (auxiliary := [:: 9%:R]) erefl pb6_wf isT isT; first by vm_compute.
by eexists; exists pb'; split; [reflexivity|exact: h1|exact: h3|exact: h4].
Qed.

Print Assumptions C29_packing_iff.
Print Assumptions C29_packing_unique.
Print Assumptions C29_packing_from_packed.
Print Assumptions C29_packing_from_bits.
Print Assumptions C29_multipacking_iff.
Print Assumptions C29_multipacking_sizes.
Print Assumptions C29_multipacking_from_bits.
Print Assumptions C29_multipacking_from_packed.
Print Assumptions C29_packing_beyond_capacity_refuted.
Print Assumptions C30_disjunction_sound.
Print Assumptions C30_conjunction_sound.
Print Assumptions C30_disjunction_complete.
Print Assumptions C30_conjunction_complete.
Print Assumptions C30_disjunction_too_many_refuted.
Print Assumptions C31_comparison_sound.
Print Assumptions C31_comparison_complete.
Print Assumptions C31_comparison_width0.
Print Assumptions C32_inner_product_sound.
Print Assumptions C32_inner_product_complete.
Print Assumptions C32_loose_mux_sound.
Print Assumptions C32_loose_mux_complete.
Print Assumptions C32_loose_mux_flag_not_forced_refuted.
Print Assumptions C32_field_vector_copy_iff.
Print Assumptions C32_field_vector_copy_complete.
Print Assumptions C32_bit_vector_copy_sound.
Print Assumptions C32_bit_vector_copy_bitness.
Print Assumptions C32_bit_vector_copy_complete.
Print Assumptions C32_linear_combination.
Print Assumptions C44_from_r1cs_iff.
Print Assumptions C44_from_r1cs_complete.
Print Assumptions C44_from_r1cs_sizes.
