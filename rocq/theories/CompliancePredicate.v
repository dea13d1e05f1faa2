(** Model of libsnark/zk_proof_systems/pcd/r1cs_pcd: compliance predicates, their inputs and handlers.

    Messages and local data are abstract classes; what the code uses of them is their vector of field
    elements.  [std::set<size_t>] is a list of its elements in increasing order.  The asserts of
    compliance_predicate.tcc:217-223 apply [.] to shared pointers, which is ill-formed C++ once the
    template is instantiated with asserts enabled; they are modelled with the evident meaning. *)
From mathcomp Require Import all_ssreflect all_algebra.
From Verif Require Import Outcome Lincomb R1CS Protoboard Serialization.
Set Implicit Arguments.
Unset Strict Implicit.
Unset Printing Implicit Defensive.
Local Open Scope ring_scope.

Section CompliancePredicate.
Variable F : fieldType.

(** compliance_predicate.hpp:35-48 [r1cs_pcd_message]; [as_r1cs_variable_assignment], compliance_predicate.tcc:28-33 *)
Record pcd_message := PcdMessage { msg_type : nat; msg_payload : seq F }.
Definition msg_assignment (m : pcd_message) : seq F := (msg_type m)%:R :: msg_payload m.
(** [r1cs_pcd_local_data] and [r1cs_pcd_witness] are vectors. *)

(** compliance_predicate.hpp:112-157 *)
Record compliance_predicate := CompliancePredicate {
  cp_name : nat; cp_type : nat; cp_cs : r1cs F; cp_outgoing_length : nat; cp_max_arity : nat;
  cp_incoming_lengths : seq nat; cp_local_length : nat; cp_witness_length : nat;
  cp_same_type : bool; cp_accepted : seq nat }.
(** compliance_predicate.tcc:53-77 the constructor *)
Definition cp_new name type cs outgoing max_arity incoming local_ witness_ same accepted : outcome compliance_predicate :=
  assert! (max_arity == size incoming) in
  Ok (CompliancePredicate name type cs outgoing max_arity incoming local_ witness_ same accepted).
(** compliance_predicate.tcc:79-115 *)
Definition cp_is_well_formed (cp : compliance_predicate) : bool :=
  let all_lengths := foldl addn (cp_outgoing_length cp) (cp_incoming_lengths cp) in
  let type_vec_length := (cp_max_arity cp + 1)%N in
  [&& cp_type cp != 0%N, size (cp_incoming_lengths cp) == cp_max_arity cp,
      (cp_outgoing_length cp + 1)%N == num_inputs (cp_cs cp) &
      (all_lengths + cp_local_length cp + type_vec_length + 1 + cp_witness_length cp)%N == num_variables (cp_cs cp)].
(** compliance_predicate.tcc:117-143 *)
Definition cp_equal_input_and_output_lengths (cp : compliance_predicate) : bool :=
  all (fun l => l == cp_outgoing_length cp) (cp_incoming_lengths cp).
Definition cp_equal_input_lengths (cp : compliance_predicate) : bool :=
  all (fun l => l == head 0%N (cp_incoming_lengths cp)) (behead (cp_incoming_lengths cp)).

(** r1cs_pcd_params.tcc:12-16 [as_r1cs_primary_input] *)
Definition cp_primary_input (outgoing : pcd_message) : seq F := msg_assignment outgoing.
(** r1cs_pcd_params.tcc:18-47 [as_r1cs_auxiliary_input] *)
Definition cp_auxiliary_input (lengths : seq nat) (incoming : seq pcd_message) (local_ witness_ : seq F) : outcome (seq F) :=
  let arity := size incoming in
  let max_arity := size lengths in
  assert! (arity <= max_arity)%N in
  let! result := ofold (fun result ml => assert! (size (msg_assignment ml.1) == 1 + ml.2)%N in Ok (result ++ msg_assignment ml.1))
                   [:: arity%:R] (zip incoming lengths) in
  let result := foldl (fun result l => result ++ nseq (1 + l) 0) result (drop arity lengths) in
  Ok (result ++ local_ ++ witness_).
(** compliance_predicate.tcc:211-230 *)
Definition cp_is_satisfied (cp : compliance_predicate) (outgoing : pcd_message) (incoming : seq pcd_message)
    (local_ witness_ : seq F) : outcome bool :=
  assert! (size (msg_payload outgoing) == cp_outgoing_length cp) in
  assert! (size incoming <= cp_max_arity cp)%N in
  let! _ := ofold (fun (u : unit) im => let! l := oget (cp_incoming_lengths cp) im.1 in
                     assert! (size (msg_payload im.2) == l) in Ok u) tt (zip (iota 0 (size incoming)) incoming) in
  assert! (size local_ == cp_local_length cp) in
  let! aux := cp_auxiliary_input (cp_incoming_lengths cp) incoming local_ witness_ in
  r1cs_is_satisfied (cp_cs cp) (cp_primary_input outgoing) aux.

(** ** Handlers *)
(** cp_handler.hpp:31-49 [r1cs_pcd_message_variable] *)
Record message_variable := MessageVariable { mv_num_vars : nat; mv_type : pb_variable; mv_all_vars : pb_variable_array }.
(** cp_handler.tcc:21-30 the constructor *)
Definition mv_new (pb : protoboard F) : message_variable * protoboard F :=
  let: (type, pb) := allocate_var pb in (MessageVariable (pb_num_variables pb) type [:: type], pb).
(** cp_handler.tcc:32-43 [update_all_vars] *)
Definition mv_update_all_vars (pb : protoboard F) (m : message_variable) : message_variable :=
  MessageVariable (mv_num_vars m) (mv_type m)
    (mv_all_vars m ++ iota (mv_num_vars m).+1 (pb_num_variables pb - mv_num_vars m)).
(** A derived class, as cp_handler.hpp intends and tally_cp.tcc:85-95 does: it allocates the variables
    of the payload and calls [update_all_vars]. *)
Definition mv_make (n : nat) (pb : protoboard F) : message_variable * protoboard F :=
  let: (m, pb) := mv_new pb in
  let: (_, pb) := allocate_array pb n in (mv_update_all_vars pb m, pb).
(** cp_handler.tcc:45-49 [generate_r1cs_witness] *)
Definition mv_generate_witness (pb : protoboard F) (m : message_variable) (message : pcd_message) : outcome (protoboard F) :=
  fill_with_field_elements pb (mv_all_vars m) (msg_assignment message).

(** cp_handler.tcc:51-69 [r1cs_pcd_local_data_variable], with a derived class as above (tally_cp.tcc:118-126): its
    [all_vars] *)
Definition ld_make (n : nat) (pb : protoboard F) : pb_variable_array * protoboard F :=
  let num_vars := pb_num_variables pb in
  let: (_, pb) := allocate_array pb n in (iota num_vars.+1 (pb_num_variables pb - num_vars), pb).

(** cp_handler.hpp:77-115 *)
Record cp_handler := CpHandler {
  h_pb : protoboard F; h_outgoing : message_variable; h_arity : pb_variable; h_incoming : seq message_variable;
  h_local : pb_variable_array; h_name : nat; h_type : nat; h_max_arity : nat; h_same_type : bool; h_accepted : seq nat }.
Definition with_pb (h : cp_handler) (pb : protoboard F) : cp_handler :=
  CpHandler pb (h_outgoing h) (h_arity h) (h_incoming h) (h_local h) (h_name h) (h_type h) (h_max_arity h) (h_same_type h) (h_accepted h).
Fixpoint mvs_make (ns : seq nat) (pb : protoboard F) : seq message_variable * protoboard F :=
  if ns is n :: ns' then
    let: (m, pb) := mv_make n pb in let: (ms, pb) := mvs_make ns' pb in (m :: ms, pb)
  else ([::], pb).
(** The constructor of a derived handler, in the order that compliance_predicate.hpp:83-92 documents and
    tally_cp.tcc:138-163 uses: outgoing message, arity, incoming messages, local data, then other variables. *)
Definition handler_new name type same accepted (outgoing : nat) (incoming : seq nat) (local_ witness_ : nat) : cp_handler :=
  let pb := pb_new F in
  let: (out, pb) := mv_make outgoing pb in
  let: (arity, pb) := allocate_var pb in
  let: (ins, pb) := mvs_make incoming pb in
  let: (loc, pb) := ld_make local_ pb in
  let: (_, pb) := allocate_array pb witness_ in
  CpHandler pb out arity ins loc name type (size incoming) same accepted.

(** cp_handler.tcc:91-106 [generate_r1cs_witness] *)
Definition h_generate_witness (h : cp_handler) (incoming : seq pcd_message) (local_ : seq F) : outcome cp_handler :=
  let pb := clear_values (h_pb h) in
  let! pb := pb_set pb (mv_type (h_outgoing h)) (h_type h)%:R in
  let! pb := pb_set pb (h_arity h) (size incoming)%:R in
  let! pb := ofold (fun pb im => let! m := oget (h_incoming h) im.1 in mv_generate_witness pb m im.2)
               pb (zip (iota 0 (size incoming)) incoming) in
  let! pb := fill_with_field_elements pb (h_local h) local_ in
  Ok (with_pb h pb).
(** cp_handler.tcc:109-143 [get_compliance_predicate] *)
Definition h_get_compliance_predicate (h : cp_handler) : outcome compliance_predicate :=
  assert! (size (h_incoming h) == h_max_arity h) in
  let outgoing := (size (mv_all_vars (h_outgoing h)) - 1)%N in
  let incoming := [seq (size (mv_all_vars m) - 1)%N | m <- h_incoming h] in
  let local_ := size (h_local h) in
  let all_but_witness := ((1 + outgoing) + 1 + (h_max_arity h + foldl addn 0%N incoming) + local_)%N in
  let witness_ := (pb_num_variables (h_pb h) - all_but_witness)%N in
  let primary := (1 + outgoing)%N in
  cp_new (h_name h) (h_type h)
    (R1cs primary (pb_num_variables (h_pb h) - primary) (constraints (pb_cs (h_pb h))))
    outgoing (h_max_arity h) incoming local_ witness_ (h_same_type h) (h_accepted h).
(** cp_handler.tcc:176-189 [get_witness]; an iterator beyond the end is undefined. *)
Definition h_get_witness (h : cp_handler) : outcome (seq F) :=
  let va := pb_values (h_pb h) in
  let pos := (size (mv_all_vars (h_outgoing h)) + 1 +
              foldl (fun acc m => acc + size (mv_all_vars m))%N 0%N (h_incoming h) + size (h_local h))%N in
  if (pos <= size va)%N then Ok (drop pos va) else UB.

(** compliance_predicate.tcc:160-207; libff writes a set as a vector of numbers: its size, then each element, with newlines. *)
Section Codec.
Variables (binary : bool) (cF : codec F).
Definition put_sizes (l : seq nat) : stream := flatten [seq put_size i ++ [:: newline] | i <- l].
Definition get_sizes (n : nat) (s : stream) : outcome (seq nat * stream) :=
  get_n (fun s => let! i := get_size s in let! s := consume_newline i.2 in Ok (i.1, s)) n s.
Definition put_cp (cp : compliance_predicate) : outcome stream :=
  assert! (cp_max_arity cp == size (cp_incoming_lengths cp)) in
  Ok (put_sizes [:: cp_name cp; cp_type cp; cp_max_arity cp] ++ put_sizes (cp_incoming_lengths cp) ++
      put_sizes [:: cp_outgoing_length cp; cp_local_length cp; cp_witness_length cp] ++ put_bool (cp_same_type cp) ++
      (put_size (size (cp_accepted cp)) ++ newline :: put_sizes (cp_accepted cp)) ++
      newline :: put (r1cs_codec binary cF) (cp_cs cp) ++ [:: newline]).
Definition get_cp (s : stream) : outcome (compliance_predicate * stream) :=
  let! name := get_size s in let! s := consume_newline name.2 in
  let! type := get_size s in let! s := consume_newline type.2 in
  let! arity := get_size s in let! s := consume_newline arity.2 in
  let! lengths := get_sizes arity.1 s in
  let! out := get_size lengths.2 in let! s := consume_newline out.2 in
  let! loc := get_size s in let! s := consume_newline loc.2 in
  let! wit := get_size s in let! s := consume_newline wit.2 in
  let! same := get_bool s in
  let! n := get_size same.2 in let! s := consume_newline n.2 in
  let! accepted := get_sizes n.1 s in
  let! s := consume_newline accepted.2 in
  let! cs := get (r1cs_codec binary cF) s in let! s := consume_newline cs.2 in
  Ok (CompliancePredicate name.1 type.1 cs.1 out.1 arity.1 lengths.1 loc.1 wit.1 same.1 accepted.1, s).
End Codec.
End CompliancePredicate.
