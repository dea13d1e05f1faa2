(** C45: compliance predicates of R1CS PCD and their handlers.

    Vocabulary (CompliancePredicateSpec.v): [cp_wires lengths out ins loc wit] is the documented order of
    the wires: outgoing message, arity, incoming messages padded to the maximal arity, local data,
    witness; [messages_fit lengths ins]: at most as many messages as lengths, with payloads of these
    lengths.  [holds cs x] (GadgetSpec.v): all the constraints hold of the variable values [x]. *)
From mathcomp Require Import all_ssreflect all_algebra zify.
From Verif Require Import Outcome Lincomb LincombSpec R1CS R1CSSpec R1CSFacts Protoboard GadgetSpec GadgetLogic.
From Verif Require Import Serialization SerializationSpec CompliancePredicate CompliancePredicateSpec CompliancePredicateFacts.
From Verif Require Import Prop_Serialization Prop_Gadgets.
Set Implicit Arguments.
Unset Strict Implicit.
Unset Printing Implicit Defensive.
Local Open Scope ring_scope.

(** A well-formed predicate is satisfied by messages, local data and witness of the declared sizes exactly if
    its constraints hold of the wires in the documented order. *)
Theorem C45_satisfied (F : fieldType) (cp : compliance_predicate F) (out : pcd_message F) (ins : seq (pcd_message F)) (loc wit : seq F) :
  cp_is_well_formed cp -> r1cs_in_range (cp_cs cp) ->
  size (msg_payload out) = cp_outgoing_length cp -> messages_fit (cp_incoming_lengths cp) ins ->
  size loc = cp_local_length cp -> size wit = cp_witness_length cp ->
  exists2 b, cp_is_satisfied cp out ins loc wit = Ok b
           & b <-> r1cs_holds (cp_cs cp) (cp_wires (cp_incoming_lengths cp) out ins loc wit).
Proof.
move=> hw hr h1 h2 h3 h4; rewrite cp_is_satisfiedE //; apply: r1cs_is_satisfied_iff => //.
- by case/and4P: hw => _ _ /eqP <- _; rewrite /= h1 addn1.
- case/and4P: hw => _ /eqP hl /eqP hi /eqP; rewrite foldl_addn /num_variables -[primary_input_size _]/(num_inputs _) -hi (size_aux _ _ _ h2) h3 h4 hl.
  by move: (auxiliary_input_size _) (sumn _); clear; lia.
Qed.
(** Other sizes, or too many messages, are rejected by an assertion. *)
Theorem C45_satisfied_sizes (F : fieldType) (cp : compliance_predicate F) (out : pcd_message F) (ins : seq (pcd_message F)) (loc wit : seq F) :
  cp_is_well_formed cp ->
  ~~ [&& size (msg_payload out) == cp_outgoing_length cp, messages_fit (cp_incoming_lengths cp) ins,
         size loc == cp_local_length cp & size wit == cp_witness_length cp] ->
  cp_is_satisfied cp out ins loc wit = AssertFail.
Proof.
move=> hw; rewrite /cp_is_satisfied; case: eqP => [h1|_ _] //=; cbn [oassert].
case hs: (size ins <= cp_max_arity cp)%N; rewrite ?hs //; cbn [oassert].
case: (boolP (messages_fit (cp_incoming_lengths cp) ins)) => [hf|hf _]; last first.
  case/and4P: hw => _ /eqP hl _ _.
  suff -> : ofold (fun (u : unit) (im : nat * pcd_message F) => let! l := oget (cp_incoming_lengths cp) im.1 in
       assert! (size (msg_payload im.2) == l) in Ok u) tt (zip (iota 0 (size ins)) ins) = AssertFail by [].
  by apply: check_loop_fail; rewrite ?drop0 // hl.
move=> h; rewrite check_loop ?drop0 //; cbn [obind]; case: eqP h => [h3|_ _] //=; cbn [oassert] => h4.
rewrite auxE //; cbn [obind]; apply: r1cs_is_satisfied_sizes; apply/orP; right.
case/and4P: hw => _ /eqP hl /eqP hi /eqP; rewrite foldl_addn => <-.
rewrite (size_aux _ _ _ hf) h3 hl (_ : size (cp_primary_input out) = (cp_outgoing_length cp).+1); last by rewrite -h1.
apply/eqP => h5; case/eqP: h4; move: h5; move: (sumn _); clear; lia.
Qed.

(** The order of the wires is unambiguous: messages with types below the order of the field, local data and
    witness can be recovered from the wires. *)
Theorem C45_wires_unambiguous (F : fieldType) (R : bigint_repr F) (lengths : seq nat)
    (out out' : pcd_message F) (ins ins' : seq (pcd_message F)) (loc loc' wit wit' : seq F) :
  (size lengths < fp_order R)%N -> messages_fit lengths ins -> messages_fit lengths ins' ->
  size (msg_payload out) = size (msg_payload out') -> size loc = size loc' ->
  all (fun m => msg_type m < fp_order R)%N (out :: out' :: ins ++ ins') ->
  cp_wires lengths out ins loc wit = cp_wires lengths out' ins' loc' wit' ->
  [/\ out = out', ins = ins', loc = loc' & wit = wit'].
Proof.
move=> hl hf hf' ho hc /=; rewrite all_cat => /and4P[t1 t2 t3 t4].
have typ (m m' : pcd_message F) : (msg_type m < fp_order R)%N -> (msg_type m' < fp_order R)%N -> message_wires m = message_wires m' -> m = m'.
  by case: m => a p; case: m' => a' p' /= h h' [/(natF_inj h h') -> ->].
move=> /eqP; rewrite /cp_wires eqseq_cat; last by rewrite /= ho.
case/andP=> /eqP /(typ _ _ t1 t2) -> /eqP [/natF_inj -/(_ R) ha].
have {}ha : size ins = size ins'.
  by apply: ha; [exact: leq_ltn_trans (messages_fit_size hf) hl|exact: leq_ltn_trans (messages_fit_size hf') hl].
move=> /eqP; rewrite eqseq_cat; last by rewrite !sum_incoming.
case/andP=> /eqP hi; rewrite eqseq_cat // => /andP[/eqP -> /eqP ->]; split=> //.
move: hi; rewrite /incoming_wires -ha => /eqP; rewrite eqseq_cat; last first.
  have := sum_incoming hf; have := sum_incoming hf'; rewrite /incoming_wires !size_cat -ha => <- /eqP.
  by rewrite eqn_add2r => /eqP.
case/andP=> /eqP e _; elim: ins ins' lengths ha hf hf' t3 t4 e {hl t1 t2} => [|m ins IH] [|m' ins'] [|l ls] //= [ha].
rewrite !messages_fit_cons => /andP[/eqP hp hf] /andP[/eqP hp' hf'] /andP[h1 t3] /andP[h2 t4] [e0 /eqP].
rewrite eqseq_cat ?hp ?hp' // => /andP[/eqP e1 /eqP e2]; congr (_ :: _); last exact: (IH _ _ ha hf hf' t3 t4 e2).
by apply: typ => //; rewrite /message_wires e0 e1.
Qed.

Section Handler.
Variables (F : fieldType) (name type : nat) (same : bool) (accepted : seq nat) (out : nat) (ins : seq nat) (loc wit : nat).
(** A handler, with any later state [pb] of its protoboard: constraints were added and values assigned. *)
Let h0 := handler_new F name type same accepted out ins loc wit.
Variable pb : protoboard F.
Hypotheses (hw : pb_wf pb) (hsz : size (pb_values pb) = size (pb_values (h_pb h0))).
Let h := with_pb h0 pb.

(** The predicate of a handler has its constraints and the sizes it was constructed with, and is well-formed. *)
Theorem C45_handler_predicate :
  exists2 cp, h_get_compliance_predicate h = Ok cp
    & [/\ cp_incoming_lengths cp = ins /\ cp_max_arity cp = size ins, cp_outgoing_length cp = out,
          cp_local_length cp = loc /\ cp_witness_length cp = wit,
          constraints (cp_cs cp) = constraints (pb_cs pb) /\ num_variables (cp_cs cp) = size (pb_values pb)
        & type != 0%N -> cp_is_well_formed cp].
Proof.
exists (handler_cp name type same accepted out ins loc wit pb); first exact: get_cpE.
split=> //; last exact: handler_cp_wf.
by split=> //; rewrite (sizeE hsz) /num_variables /=; clear; lia.
Qed.

(** If the protoboard holds an outgoing message, the arity, the incoming messages, zeros beyond the arity, and
    local data, then the predicate accepts these, with the witness that the handler returns, exactly if the
    protoboard is satisfied. *)
Theorem C45_handler_assembles (m : pcd_message F) (ms : seq (pcd_message F)) (ld : seq F) :
  type != 0%N ->
  get_vals pb (mv_all_vars (h_outgoing h)) = Ok (message_wires m) ->
  pb_val pb (h_arity h) = Ok (size ms)%:R -> (size ms <= size ins)%N ->
  (forall i v, oget (h_incoming h) i = Ok v -> get_vals pb (mv_all_vars v) =
     Ok (if (i < size ms)%N then message_wires (nth m ms i) else nseq (nth 0%N ins i).+1 0)) ->
  get_vals pb (h_local h) = Ok ld ->
  exists cp w, [/\ h_get_compliance_predicate h = Ok cp, h_get_witness h = Ok w, size w = wit,
    pb_values pb = cp_wires ins m ms ld w & cp_is_satisfied cp m ms ld w = pb_is_satisfied pb].
Proof.
move=> ht h1 h2 h3 h4 h5; exists (handler_cp name type same accepted out ins loc wit pb), (drop (out.+2 + (sumn ins + size ins) + loc) (pb_values pb)).
have h4' i : (i < size ins)%N -> get_vals pb (mv_all_vars (nth (mv_at 0 0) (h_incoming h) i)) =
     Ok (if (i < size ms)%N then message_wires (nth m ms i) else nseq (nth 0%N ins i).+1 0).
  by move=> hi; apply: h4; apply: oget_nth; rewrite /h /h0 hE size_mvs_at.
have [_ _ _ ev] := assembled hsz h1 h2 h3 h4' h5.
split; first exact: get_cpE.
- exact: get_witnessE.
- by rewrite size_drop (sizeE hsz) addKn.
- exact: ev.
- exact: (assembled_satisfied hw hsz ht h1 h2 h3 h4' h5).
Qed.

(** Witness generation of the base class sets the type of the outgoing message, the arity, the messages and the
    local data, and clears everything else: the payload of the outgoing message and the witness are left to the
    derived class. *)
Theorem C45_handler_witness (ms : seq (pcd_message F)) (ld : seq F) :
  messages_fit ins ms -> size ld = loc ->
  exists2 pb', h_generate_witness h ms ld = Ok (with_pb h pb')
    & pb_cs pb' = pb_cs pb /\ pb_values pb' = cp_wires ins (PcdMessage type (nseq out 0)) ms ld (nseq wit 0).
Proof. by move=> hf hl; rewrite (generateE hsz hf hl); eexists; first by []. Qed.

(** There is no check on the number of messages: one message too many reads beyond the vector of message
    variables, where [as_r1cs_auxiliary_input] has an assertion. *)
Theorem C45_handler_too_many_messages_refuted (ms : seq (pcd_message F)) (m : pcd_message F) (more : seq (pcd_message F)) (ld : seq F) :
  messages_fit ins ms -> size ms = size ins -> h_generate_witness h (ms ++ m :: more) ld = UB.
Proof. exact: generate_too_many. Qed.
End Handler.

(** A predicate is read back as it was written. *)
Theorem C45_serialization (binary : bool) (F : fieldType) (cF : codec F) (cp : compliance_predicate F) (rest : stream) :
  reads_back_line binary cF -> cp_max_arity cp = size (cp_incoming_lengths cp) ->
  exists2 s, put_cp binary cF cp = Ok s & get_cp binary cF (s ++ rest) = Ok (cp, rest).
Proof. exact: cp_reads. Qed.
Print Assumptions C45_satisfied.
Print Assumptions C45_satisfied_sizes.
Print Assumptions C45_wires_unambiguous.
Print Assumptions C45_handler_predicate.
Print Assumptions C45_handler_assembles.
Print Assumptions C45_handler_witness.
Print Assumptions C45_handler_too_many_messages_refuted.
Print Assumptions C45_serialization.

(** ** Examples: a predicate over 'F_13 of type 3 with payloads of length 1, two incoming messages of length 1, one
    local value and one witness value; the constraint is out = local * witness. *)
Local Notation F13 := [fieldType of 'F_13].
Definition h13 : cp_handler F13 := handler_new F13 300 3 false [:: 1%N] 1 [:: 1; 1]%N 1 1.
Definition pb13 : protoboard F13 :=
  pb_add_constraints (h_pb h13) [:: R1csConstraint [:: (8%N, 1)] [:: (9%N, 1)] [:: (2%N, 1)]].
Example C45_handler13 : pb_wf pb13 /\ size (pb_values pb13) = size (pb_values (h_pb h13)).
Proof. by split; [split|]; apply/eqP; vm_compute. Qed.
Example C45_handler13_predicate :
  (if h_get_compliance_predicate (with_pb h13 pb13) is Ok cp then cp_is_well_formed cp && r1cs_in_range (cp_cs cp) else false).
Proof. by vm_compute. Qed.
(** One incoming message of type 2 with payload 7, local data 5, outgoing payload 8 = 5 * 12 and witness 12 *)
Definition m13 : pcd_message F13 := PcdMessage 2 [:: 7%:R].
Definition out13 : pcd_message F13 := PcdMessage 3 [:: 8%:R].
Example C45_wires13 :
  cp_wires [:: 1; 1]%N out13 [:: m13] [:: 5%:R] [:: 12%:R] = [:: 3%:R; 8%:R; 1; 2%:R; 7%:R; 0; 0; 5%:R; 12%:R] :> seq 'F_13.
Proof. by apply/eqP; vm_compute. Qed.
Example C45_satisfied13 :
  (if h_get_compliance_predicate (with_pb h13 pb13) is Ok cp then
     if cp_is_satisfied cp out13 [:: m13] [:: 5%:R] [:: 12%:R] is Ok b then
       b && (if cp_is_satisfied cp out13 [:: m13] [:: 5%:R] [:: 11%:R] is Ok b' then ~~ b' else false) else false
   else false).
Proof. by vm_compute. Qed.
Definition pb13' : protoboard F13 := with_values pb13 [:: 3%:R; 8%:R; 1; 2%:R; 7%:R; 0; 0; 5%:R; 12%:R].
Definition is_ok (o : outcome (seq 'F_13)) (v : seq 'F_13) : bool := if o is Ok u then u == v else false.
Example C45_assembles13 :
  [&& is_ok (get_vals pb13' (mv_all_vars (h_outgoing h13))) (message_wires out13), is_ok (omap (fun x => [:: x]) (pb_val pb13' (h_arity h13))) [:: 1],
      is_ok (get_vals pb13' (h_local h13)) [:: 5%:R]
    & if omapm (fun v => get_vals pb13' (mv_all_vars v)) (h_incoming h13) is Ok u then u == [:: message_wires m13; [:: 0; 0]] else false].
Proof. by vm_compute. Qed.
Example C45_messages_fit13 : messages_fit [:: 1; 1]%N [:: m13] && messages_fit [:: 1; 1]%N [:: m13; m13].
Proof. by vm_compute. Qed.
Example C45_too_many13 : (if h_generate_witness (with_pb h13 pb13) [:: m13; m13; m13] [:: 5%:R] is UB then true else false).
Proof. by vm_compute. Qed.
