(** Model of libsnark/zk_proof_systems/ppzksnark/bacs_ppzksnark/bacs_ppzksnark.{hpp,tcc} and
    libsnark/zk_proof_systems/ppzksnark/tbcs_ppzksnark/tbcs_ppzksnark.{hpp,tcc}. *)
From mathcomp Require Import all_ssreflect all_algebra.
From Verif Require Import Outcome Lincomb R1CS Circuits Domain ArithPrograms Vectors Pairing
  R1csPpzksnark UscsPpzksnark.
Set Implicit Arguments.
Unset Strict Implicit.
Unset Printing Implicit Defensive.
Import GRing.Theory.
Local Open Scope ring_scope.

(** [std::vector(v.begin() + n, v.end())]. *)
Definition suffix (A : Type) (v : seq A) (n : nat) : outcome (seq A) :=
  if (n <= size v)%N then Ok (drop n v) else UB.

Section Bacs.
Variables (F : fieldType) (P : pairing F) (D : evaluation_domain F).

(** bacs_ppzksnark.hpp [bacs_ppzksnark_proving_key]; the verification keys and
    the proof are those of r1cs_ppzksnark. *)
Record bacs_proving_key := BacsProvingKey { bpk_circuit : bacs_circuit F; bpk_r1cs_pk : r1cs_proving_key P }.

(** bacs_ppzksnark.tcc:50-63 [bacs_ppzksnark_generator]. *)
Definition bacs_generator (circuit : bacs_circuit F) (r : r1cs_gen_random F) (chunks : nat) :
    outcome (bacs_proving_key * r1cs_verification_key P) :=
  let! cs := bacs_to_r1cs_instance_map circuit in
  let! keys := r1cs_generator P D cs r chunks in
  Ok (BacsProvingKey circuit keys.1, keys.2).

(** bacs_ppzksnark.tcc:65-79 [bacs_ppzksnark_prover]. *)
Definition bacs_prover (pk : bacs_proving_key) (primary auxiliary : seq F) (d1 d2 d3 : F) :
    outcome (r1cs_proof P) :=
  let! va := bacs_to_r1cs_witness_map (bpk_circuit pk) primary auxiliary in
  let! ai := suffix va (size primary) in
  r1cs_prover D (bpk_r1cs_pk pk) primary ai d1 d2 d3.

(** bacs_ppzksnark.tcc:81-89 [bacs_ppzksnark_verifier_process_vk]. *)
Definition bacs_process_vk (vk : r1cs_verification_key P) := r1cs_process_vk vk.
(** bacs_ppzksnark.tcc:116-126 [bacs_ppzksnark_online_verifier_weak_IC]. *)
Definition bacs_online_verifier_weak_IC pvk (primary : seq F) (pi : r1cs_proof P) : outcome bool :=
  r1cs_online_verifier_weak_IC pvk primary pi.
(** bacs_ppzksnark.tcc:128-138 [bacs_ppzksnark_online_verifier_strong_IC]. *)
Definition bacs_online_verifier_strong_IC pvk (primary : seq F) (pi : r1cs_proof P) : outcome bool :=
  r1cs_online_verifier_strong_IC pvk primary pi.
(** bacs_ppzksnark.tcc:90-101 [bacs_ppzksnark_verifier_weak_IC]. *)
Definition bacs_verifier_weak_IC (vk : r1cs_verification_key P) (primary : seq F) (pi : r1cs_proof P) :
    outcome bool :=
  r1cs_online_verifier_weak_IC (bacs_process_vk vk) primary pi.
(** bacs_ppzksnark.tcc:103-114 [bacs_ppzksnark_verifier_strong_IC]. *)
Definition bacs_verifier_strong_IC (vk : r1cs_verification_key P) (primary : seq F) (pi : r1cs_proof P) :
    outcome bool :=
  r1cs_online_verifier_strong_IC (bacs_process_vk vk) primary pi.
End Bacs.

Section Tbcs.
Variables (F : fieldType) (P : pairing F) (D : evaluation_domain F).

(** tbcs_ppzksnark.hpp [tbcs_ppzksnark_proving_key]; the verification keys and
    the proof are those of uscs_ppzksnark. *)
Record tbcs_proving_key := TbcsProvingKey { tpk_circuit : tbcs_circuit; tpk_uscs_pk : uscs_proving_key P }.

(** libff's [convert_bit_vector_to_field_element_vector]. *)
Definition bits_to_field (v : seq bool) : seq F := [seq (nat_of_bool b)%:R | b <- v].

(** tbcs_ppzksnark.tcc:50-63 [tbcs_ppzksnark_generator]. *)
Definition tbcs_generator (circuit : tbcs_circuit) (r : uscs_gen_random F) :
    outcome (tbcs_proving_key * uscs_verification_key P) :=
  let! cs := tbcs_to_uscs_instance_map F circuit in
  let! keys := uscs_generator P D cs r in
  Ok (TbcsProvingKey circuit keys.1, keys.2).

(** tbcs_ppzksnark.tcc:65-80 [tbcs_ppzksnark_prover]. *)
Definition tbcs_prover (pk : tbcs_proving_key) (primary auxiliary : seq bool) (d : F) :
    outcome (uscs_proof P) :=
  let! va := tbcs_to_uscs_witness_map F (tpk_circuit pk) primary auxiliary in
  let! ai := suffix va (size primary) in
  uscs_prover D (tpk_uscs_pk pk) (bits_to_field primary) ai d.

(** tbcs_ppzksnark.tcc:82-90 [tbcs_ppzksnark_verifier_process_vk]. *)
Definition tbcs_process_vk (vk : uscs_verification_key P) := uscs_process_vk vk.
(** tbcs_ppzksnark.tcc:121-133 [tbcs_ppzksnark_online_verifier_weak_IC]. *)
Definition tbcs_online_verifier_weak_IC pvk (primary : seq bool) (pi : uscs_proof P) : outcome bool :=
  uscs_online_verifier_weak_IC pvk (bits_to_field primary) pi.
(** tbcs_ppzksnark.tcc:135-147 [tbcs_ppzksnark_online_verifier_strong_IC]. *)
Definition tbcs_online_verifier_strong_IC pvk (primary : seq bool) (pi : uscs_proof P) : outcome bool :=
  uscs_online_verifier_strong_IC pvk (bits_to_field primary) pi.
(** tbcs_ppzksnark.tcc:91-104 [tbcs_ppzksnark_verifier_weak_IC]. *)
Definition tbcs_verifier_weak_IC (vk : uscs_verification_key P) (primary : seq bool) (pi : uscs_proof P) :
    outcome bool :=
  uscs_online_verifier_weak_IC (tbcs_process_vk vk) (bits_to_field primary) pi.
(** tbcs_ppzksnark.tcc:106-119 [tbcs_ppzksnark_verifier_strong_IC]. *)
Definition tbcs_verifier_strong_IC (vk : uscs_verification_key P) (primary : seq bool) (pi : uscs_proof P) :
    outcome bool :=
  uscs_online_verifier_strong_IC (tbcs_process_vk vk) (bits_to_field primary) pi.
End Tbcs.
