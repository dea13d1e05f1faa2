(** Model of libsnark/zk_proof_systems/ppzksnark/uscs_ppzksnark/uscs_ppzksnark.{hpp,tcc}
    (lines cited below are of the .tcc).  Same conventions as R1csPpzksnark.v:
    the bilinear group, the evaluation domain and every [random_element()] are
    parameters; window sizes, printing and [DEBUG]-only assertions are not
    modelled. *)
From mathcomp Require Import all_ssreflect all_algebra.
From Verif Require Import Outcome Lincomb R1CS Domain ArithPrograms Vectors Pairing.
Set Implicit Arguments.
Unset Strict Implicit.
Unset Printing Implicit Defensive.
Import GRing.Theory.
Local Open Scope ring_scope.

Section UscsPpzksnark.
Variables (F : fieldType) (P : pairing F) (D : evaluation_domain F).
Notation G1 := (G1 P).
Notation G2 := (G2 P).
Notation GT := (GT P).

(** hpp:75-137 [uscs_ppzksnark_proving_key]. *)
Record uscs_proving_key := UscsProvingKey {
  uk_V_g1 : seq G1; uk_alpha_V_g1 : seq G1; uk_H_g1 : seq G1; uk_V_g2 : seq G2; uk_cs : uscs F }.
(** hpp:155-201 [uscs_ppzksnark_verification_key]. *)
Record uscs_verification_key := UscsVerificationKey {
  uv_tilde_g2 : G2; uv_alpha_tilde_g2 : G2; uv_Z_g2 : G2; uv_IC : accumulation_vector G1 }.
(** hpp:223-237 [uscs_ppzksnark_processed_verification_key]. *)
Record uscs_processed_key := UscsProcessedKey {
  up_G1_one : G1; up_G2_one : G2; up_tilde_g2 : G2; up_alpha_tilde_g2 : G2; up_Z_g2 : G2;
  up_pairing : GT; up_IC : accumulation_vector G1 }.
(** hpp:281-339 [uscs_ppzksnark_proof]. *)
Record uscs_proof := UscsProof { upi_V_g1 : G1; upi_alpha_V_g1 : G1; upi_H_g1 : G1; upi_V_g2 : G2 }.

(** The generator's random choices, lines 212, 250 and 301. *)
Record uscs_gen_random := UscsGenRandom { ur_t : F; ur_alpha : F; ur_tilde : F }.

(** Lines 206-334 [uscs_ppzksnark_generator]. *)
Definition uscs_generator (cs : uscs F) (r : uscs_gen_random) :
    outcome (uscs_proving_key * uscs_verification_key) :=
  let! ssp := uscs_to_ssp_instance_map_with_evaluation D cs (ur_t r) in
  let nv := pe_num_variables ssp in let ni := pe_num_inputs ssp in
  let Vt_table := rcons (pe_Vt ssp) (pe_Zt ssp) in
  let Ht_table := pe_Ht ssp in
  let! Xt_table := (if (ni.+1 <= size Vt_table)%N then Ok (take ni.+1 Vt_table) else UB) in
  let rest := drop ni.+1 Vt_table in
  assert! (size Vt_table == nv + 2)%N in
  assert! (size Ht_table == (pe_degree ssp).+1) in
  assert! (size Xt_table == ni.+1) in
  assert! (size rest == nv + 2 - ni - 1)%N in
  assert! (all (fun x => x != 0) Xt_table) in
  let alpha := ur_alpha r in
  let g1 := G1_one P in let g2 := G2_one P in
  let V_g1_query := batch_exp g1 rest in
  let alpha_V_g1_query := batch_exp_with_coeff g1 alpha rest in
  let H_g1_query := batch_exp g1 Ht_table in
  let V_g2_query := batch_exp g2 Vt_table in
  let tilde := ur_tilde r in
  let tilde_g2 := tilde *: g2 in
  let alpha_tilde_g2 := (alpha * tilde) *: g2 in
  let Z_g2 := pe_Zt ssp *: g2 in
  let! X0 := oget Xt_table 0 in
  let encoded_IC_base := X0 *: g1 in
  let encoded_IC_values := batch_exp g1 (behead Xt_table) in
  Ok (UscsProvingKey V_g1_query alpha_V_g1_query H_g1_query V_g2_query cs,
      UscsVerificationKey tilde_g2 alpha_tilde_g2 Z_g2 (av_of_vector encoded_IC_base encoded_IC_values)).

(** Lines 337-422 [uscs_ppzksnark_prover]. *)
Definition uscs_prover (pk : uscs_proving_key) (primary auxiliary : seq F) (d : F) : outcome uscs_proof :=
  let! w := uscs_to_ssp_witness_map D (uk_cs pk) primary auxiliary d in
  let! sat := uscs_is_satisfied (uk_cs pk) primary auxiliary in
  assert! sat in
  let nv := pw_num_variables w in let ni := pw_num_inputs w in
  assert! (size (uk_V_g1 pk) == nv + 2 - ni - 1)%N in
  assert! (size (uk_alpha_V_g1 pk) == nv + 2 - ni - 1)%N in
  assert! (size (uk_H_g1 pk) == (pw_degree w).+1) in
  assert! (size (uk_V_g2 pk) == nv + 2)%N in
  let! lastV := oget (uk_V_g1 pk) (size (uk_V_g1 pk) - 1) in
  let V_g1 := pw_d w *: lastV in
  let! lastaV := oget (uk_alpha_V_g1 pk) (size (uk_alpha_V_g1 pk) - 1) in
  let alpha_V_g1 := pw_d w *: lastaV in
  let H_g1 := 0 in
  let! V2_0 := oget (uk_V_g2 pk) 0 in
  let! lastV2 := oget (uk_V_g2 pk) (size (uk_V_g2 pk) - 1) in
  let V_g2 := V2_0 + pw_d w *: lastV2 in
  let! s1 := multi_exp (range (uk_V_g1 pk) 0 (nv - ni)) (range (pw_Vs w) ni nv) in
  let V_g1 := V_g1 + s1 in
  let! s2 := multi_exp (range (uk_alpha_V_g1 pk) 0 (nv - ni)) (range (pw_Vs w) ni nv) in
  let alpha_V_g1 := alpha_V_g1 + s2 in
  let! s3 := multi_exp (range (uk_H_g1 pk) 0 (pw_degree w).+1) (range (pw_H w) 0 (pw_degree w).+1) in
  let H_g1 := H_g1 + s3 in
  let! s4 := multi_exp (range (uk_V_g2 pk) 1 nv.+1) (range (pw_Vs w) 0 nv) in
  let V_g2 := V_g2 + s4 in
  Ok (UscsProof V_g1 alpha_V_g1 H_g1 V_g2).

(** Lines 425-445 [uscs_ppzksnark_verifier_process_vk]. *)
Definition uscs_process_vk (vk : uscs_verification_key) : uscs_processed_key :=
  UscsProcessedKey (G1_one P) (G2_one P) (uv_tilde_g2 vk) (uv_alpha_tilde_g2 vk) (uv_Z_g2 vk)
    (e (G1_one P) (G2_one P)) (uv_IC vk).

(** hpp:328-334 [is_well_formed]. *)
Definition uscs_proof_wf (pi : uscs_proof) : bool :=
  [&& wf1 (upi_V_g1 pi), wf1 (upi_alpha_V_g1 pi), wf1 (upi_H_g1 pi) & wf2 (upi_V_g2 pi)].

(** Lines 448-528 [uscs_ppzksnark_online_verifier_weak_IC]. *)
Definition uscs_online_verifier_weak_IC (pvk : uscs_processed_key) (primary : seq F) (pi : uscs_proof) :
    outcome bool :=
  assert! (size primary <= av_domain_size (up_IC pvk))%N in
  let! accumulated := accumulate_chunk (up_IC pvk) primary 0 in
  assert! (av_is_fully_accumulated accumulated) in
  let acc := av_first accumulated in
  let result := true in
  let result := if ~~ uscs_proof_wf pi then false else result in
  let V_1 := e (upi_V_g1 pi + acc) (up_G2_one pvk) in
  let V_2 := e (up_G1_one pvk) (upi_V_g2 pi) in
  let result := if V_1 - V_2 != 0 then false else result in
  let SSP_1 := e (upi_V_g1 pi + acc) (upi_V_g2 pi) in
  let SSP_2 := e (upi_H_g1 pi) (up_Z_g2 pvk) in
  let result := if - SSP_1 + SSP_2 + up_pairing pvk != 0 then false else result in
  let alpha_V_1 := e (upi_V_g1 pi) (up_alpha_tilde_g2 pvk) in
  let alpha_V_2 := e (upi_alpha_V_g1 pi) (up_tilde_g2 pvk) in
  let result := if alpha_V_1 - alpha_V_2 != 0 then false else result in
  Ok result.

(** Lines 531-540 [uscs_ppzksnark_verifier_weak_IC]. *)
Definition uscs_verifier_weak_IC (vk : uscs_verification_key) (primary : seq F) (pi : uscs_proof) : outcome bool :=
  uscs_online_verifier_weak_IC (uscs_process_vk vk) primary pi.

(** Lines 543-562 [uscs_ppzksnark_online_verifier_strong_IC]. *)
Definition uscs_online_verifier_strong_IC (pvk : uscs_processed_key) (primary : seq F) (pi : uscs_proof) :
    outcome bool :=
  if av_domain_size (up_IC pvk) != size primary then Ok false
  else uscs_online_verifier_weak_IC pvk primary pi.

(** Lines 565-574 [uscs_ppzksnark_verifier_strong_IC]. *)
Definition uscs_verifier_strong_IC (vk : uscs_verification_key) (primary : seq F) (pi : uscs_proof) : outcome bool :=
  uscs_online_verifier_strong_IC (uscs_process_vk vk) primary pi.

End UscsPpzksnark.
