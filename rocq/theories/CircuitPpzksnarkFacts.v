(** Proofs about the BACS and TBCS ppzkSNARKs. *)
From mathcomp Require Import all_ssreflect all_algebra.
From Verif Require Import Outcome Lincomb LincombSpec LincombFacts R1CS R1CSSpec R1CSFacts Circuits CircuitsSpec CircuitsFacts
  Domain DomainFacts ArithPrograms ArithFacts QapFacts SspFacts Vectors Pairing SnarkFacts
  R1csPpzksnark R1csPpzksnarkFacts UscsPpzksnark UscsPpzksnarkFacts CircuitPpzksnark.
From mathcomp Require Import zify.
Set Implicit Arguments.
Unset Strict Implicit.
Unset Printing Implicit Defensive.
Import GRing.Theory.
Local Open Scope ring_scope.

Section Facts.
Variables (F : fieldType) (P : pairing F) (D : evaluation_domain F).

Theorem bacs_ppzksnark_complete (c : bacs_circuit F) cs r chunks pk vk p a d1 d2 d3 :
  bacs_is_valid c = Ok true ->
  size p = b_primary_input_size c -> size a = b_auxiliary_input_size c ->
  bacs_is_satisfied c p a = Ok true ->
  bacs_to_r1cs_instance_map c = Ok cs -> qap_large D cs ->
  bacs_generator P D c r chunks = Ok (pk, vk) ->
  exists2 pi, bacs_prover D pk p a d1 d2 d3 = Ok pi &
    bacs_verifier_weak_IC vk p pi = Ok true /\ bacs_verifier_strong_IC vk p pi = Ok true.
Proof.
move=> hv hp ha hsat hcs hm.
have [cs' [w [b [hcs' hw ht hb hs]]]] := bacs_to_r1cs_complete hv hp ha.
have e1 : cs' = cs by move: hcs'; rewrite hcs => -[].
have e2 : b = true by move: hb; rewrite hsat => -[].
subst cs' b; rewrite /bacs_generator hcs obindE.
case hg: r1cs_generator => [[pk0 vk0]||] //= [<- <-].
have [pi hpi [h1 h2 _]] := r1cs_ppzksnark_complete d1 d2 d3 hm hs hg.
have [hpn _ _ _] := r1cs_is_satisfied_true hs.
exists pi; last by split.
rewrite /bacs_prover /= hw obindE /suffix.
have -> : (size p <= size w)%N by rewrite -{1}ht size_take; case: ltnP => // h; apply: ltnW.
by rewrite obindE hpn.
Qed.


Lemma b2fE : @bits_to_field F = map (@b2f F).
Proof. by []. Qed.

Theorem tbcs_ppzksnark_complete (c : tbcs_circuit) cs r pk vk p a d :
  tbcs_is_valid c -> tbcs_types_ok c ->
  size p = t_primary_input_size c -> size a = t_auxiliary_input_size c ->
  tbcs_is_satisfied c p a = Ok true ->
  tbcs_to_uscs_instance_map F c = Ok cs -> ssp_large D cs ->
  tbcs_generator P D c r = Ok (pk, vk) ->
  exists2 pi, tbcs_prover D pk p a d = Ok pi &
    tbcs_verifier_weak_IC vk p pi = Ok true /\ tbcs_verifier_strong_IC vk p pi = Ok true.
Proof.
move=> hv ht hp ha hsat hcs hm.
have [cs' [w [b [hcs' hw htk hb hs]]]] := tbcs_to_uscs_complete F hv ht hp ha.
have e1 : cs' = cs by move: hcs'; rewrite hcs => -[].
have e2 : b = true by move: hb; rewrite hsat => -[].
subst cs' b; rewrite /tbcs_generator hcs obindE.
case hg: uscs_generator => [[pk0 vk0]||] //= [<- <-].
have hs' := hs (or_introl isT).
have [pi hpi [h1 h2]] := uscs_complete d hm hs' hg.
have [hpn _ _ _] := uscs_is_satisfied_true hs'.
have hsz : size p = u_num_inputs cs by rewrite -hpn size_map.
exists pi; last by rewrite /tbcs_verifier_weak_IC /tbcs_verifier_strong_IC b2fE; split.
rewrite /tbcs_prover /= hw obindE /suffix.
have -> : (size p <= size w)%N.
  by rewrite -(size_map (@b2f F) p) -htk size_take; case: ltnP => // h; apply: ltnW.
by rewrite obindE hsz b2fE.
Qed.

Lemma total_coeff_boolean k : (2%:R : F) != 0 -> total_coeff k (wire_boolean_constraint F k) != 0.
Proof.
move=> h2.
have -> : total_coeff k (wire_boolean_constraint F k) = if k == 0%N then 1 else 2%:R.
  rewrite /total_coeff /wire_boolean_constraint /lt_sub_lc /lt_add_lc /lc_of_term /lc_of_int /lc_neg /lc_add /=.
  case: k => [|k] /=; rewrite !big_cons big_nil /=.
    by rewrite addr0 mulN1r addrK.
  by rewrite eqxx addr0.
by case: ifP => // _; apply: oner_neq0.
Qed.

Lemma tbcs_boolean_In c cs i : tbcs_to_uscs_instance_map F c = Ok cs ->
  (i < t_primary_input_size c + t_auxiliary_input_size c + size (t_gates c))%N ->
  List.In (wire_boolean_constraint F i) (u_constraints cs).
Proof.
rewrite /tbcs_to_uscs_instance_map; case: tbcs_is_valid => //=.
case: omapm => //= gc [<-] hi /=; apply/List.in_or_app; right; apply/List.in_or_app; left.
apply/List.in_map; move: hi; set n := (_ + _)%N => hi.
have := @List_nth_In _ 0%N (iota 0 n) i; rewrite size_iota nth_iota //; exact.
Qed.

(** A circuit with at least one gate has no input without a constraint: the
    generator aborts for at most (inputs + 1)(m - 1) of the points t. *)
Theorem tbcs_generator_abort_bound c cs (rs : seq (uscs_gen_random F)) :
  (2%:R : F) != 0 -> (0 < size (t_gates c))%N ->
  tbcs_to_uscs_instance_map F c = Ok cs -> ssp_large D cs ->
  uniq [seq ur_t r | r <- rs] ->
  (forall r, List.In r rs -> tbcs_generator P D c r = AssertFail) ->
  (size rs <= (t_primary_input_size c).+1 * (d_size D).-1)%N.
Proof.
move=> h2 hg hcs hm hu hab.
have [hv ht] := tbcs_instance_types hcs.
have [cs' hcs' [k1 _ k3 _]] := tbcs_instance F hv ht.
have e : cs' = cs by move: hcs'; rewrite hcs => -[].
subst cs'; rewrite -k1; apply: (uscs_generator_abort_bound (P := P)) => //.
- move=> k hk; left; exists (wire_boolean_constraint F k); last exact: total_coeff_boolean.
  apply: (tbcs_boolean_In hcs); move: hk; rewrite k1; lia.
- move=> r /hab; rewrite /tbcs_generator hcs obindE.
  by case: uscs_generator.
Qed.

(** And it never does anything else than succeed or abort. *)
Theorem tbcs_generator_total c cs (r : uscs_gen_random F) :
  tbcs_to_uscs_instance_map F c = Ok cs -> ssp_large D cs ->
  (exists pk vk, tbcs_generator P D c r = Ok (pk, vk)) \/ tbcs_generator P D c r = AssertFail.
Proof.
move=> hcs hm; have [hv ht] := tbcs_instance_types hcs.
have [cs' hcs' [k1 _ k3 _]] := tbcs_instance F hv ht.
have e : cs' = cs by move: hcs'; rewrite hcs => -[].
subst cs'; rewrite /tbcs_generator hcs obindE.
have [[pk [vk ->]]|->] := uscs_generator_total P r k3 hm; last by right.
by left; exists (TbcsProvingKey c pk), vk.
Qed.

Theorem bacs_generator_total (c : bacs_circuit F) cs r chunks :
  bacs_to_r1cs_instance_map c = Ok cs -> bacs_is_valid c = Ok true -> qap_large D cs ->
  (exists pk vk, bacs_generator P D c r chunks = Ok (pk, vk)) \/ bacs_generator P D c r chunks = AssertFail.
Proof.
move=> hcs hv hm; have [cs' hcs' [k1 k2 k3 _]] := bacs_instance hv.
have e : cs' = cs by move: hcs'; rewrite hcs => -[].
subst cs'; rewrite /bacs_generator hcs obindE.
have [[pk [vk ->]]|->] := r1cs_generator_total P r chunks k3 hm; last by right.
by left; exists (BacsProvingKey c pk), vk.
Qed.

Theorem bacs_generator_abort_bound (c : bacs_circuit F) cs (rs : seq (r1cs_gen_random F)) chunks :
  bacs_is_valid c = Ok true -> bacs_to_r1cs_instance_map c = Ok cs -> qap_large D cs ->
  uniq [seq rg_t r | r <- rs] ->
  (forall r, List.In r rs -> bacs_generator P D c r chunks = AssertFail) ->
  (size rs <= (b_primary_input_size c).+1 * (d_size D).-1)%N.
Proof.
move=> hv hcs hm hu hab; have [cs' hcs' [k1 k2 k3 _]] := bacs_instance hv.
have e : cs' = cs by move: hcs'; rewrite hcs => -[].
subst cs'; rewrite -k1; apply: (r1cs_generator_abort_bound (P := P) (chunks := chunks)) => //.
move=> r /hab; rewrite /bacs_generator hcs obindE.
by case: r1cs_generator.
Qed.
End Facts.
