(** Model of libsnark/zk_proof_systems/ppzksnark/r1cs_gg_ppzksnark/r1cs_gg_ppzksnark.{hpp,tcc}
    (lines cited below are of the .tcc).  Same conventions as R1csPpzksnark.v:
    the bilinear group, the evaluation domain and every [random_element()] are
    parameters; window sizes, printing and [DEBUG]-only assertions are not
    modelled. *)
From mathcomp Require Import all_ssreflect all_algebra.
From Verif Require Import Outcome Lincomb R1CS Domain ArithPrograms Vectors Pairing.
Set Implicit Arguments.
Unset Strict Implicit.
Unset Printing Implicit Defensive.
Import GRing.Theory.
Local Open Scope ring_scope.

Section R1csGgPpzksnark.
Variables (F : fieldType) (P : pairing F) (D : evaluation_domain F).
Notation G1 := (G1 P).
Notation G2 := (G2 P).
Notation GT := (GT P).

(** hpp:70-150 [r1cs_gg_ppzksnark_proving_key]. *)
Record gg_proving_key := GgProvingKey {
  gk_alpha_g1 : G1; gk_beta_g1 : G1; gk_beta_g2 : G2; gk_delta_g1 : G1; gk_delta_g2 : G2;
  gk_A : seq G1; gk_B : kc_vector G2 G1; gk_H : seq G1; gk_L : seq G1; gk_cs : r1cs F }.
(** hpp:168-221 [r1cs_gg_ppzksnark_verification_key]. *)
Record gg_verification_key := GgVerificationKey {
  gv_alpha_beta : GT; gv_gamma_g2 : G2; gv_delta_g2 : G2; gv_ABC : accumulation_vector G1 }.
(** hpp:243-254 [r1cs_gg_ppzksnark_processed_verification_key]. *)
Record gg_processed_key := GgProcessedKey {
  gp_alpha_beta : GT; gp_gamma_g2 : G2; gp_delta_g2 : G2; gp_ABC : accumulation_vector G1 }.
(** hpp:299-352 [r1cs_gg_ppzksnark_proof]. *)
Record gg_proof := GgProof { gp_A : G1; gp_B : G2; gp_C : G1 }.

(** The generator's random choices, lines 221-225, 298 and 308. *)
Record gg_gen_random := GgGenRandom {
  gr_t : F; gr_alpha : F; gr_beta : F; gr_gamma : F; gr_delta : F; gr_g1 : G1; gr_g2 : G2 }.

(** Lines 211-388 [r1cs_gg_ppzksnark_generator]; [chunks] is [omp_get_max_threads()]. *)
Definition gg_generator (cs : r1cs F) (r : gg_gen_random) (chunks : nat) :
    outcome (gg_proving_key * gg_verification_key) :=
  let! cs_copy := swap_AB_if_beneficial cs in
  let alpha := gr_alpha r in let beta := gr_beta r in
  let gamma := gr_gamma r in let delta := gr_delta r in
  let! gamma_inverse := fr_inverse gamma in
  let! delta_inverse := fr_inverse delta in
  let! qap := r1cs_to_qap_instance_map_with_evaluation D cs_copy (gr_t r) in
  let At := qe_At qap in let Bt := qe_Bt qap in let Ct := qe_Ct qap in
  let combined i inv :=
    let! x := oget At i in let! y := oget Bt i in let! z := oget Ct i in
    Ok ((beta * x + alpha * y + z) * inv) in
  let! gamma_ABC_0 := combined 0%N gamma_inverse in
  let! gamma_ABC := omapm (fun i => combined i gamma_inverse) (iota 1 (qe_num_inputs qap)) in
  let! Lt := omapm (fun i => combined (qe_num_inputs qap + 1 + i)%N delta_inverse)
               (iota 0 (qe_num_variables qap - qe_num_inputs qap)) in
  let Ht := take (size (qe_Ht qap) - 2) (qe_Ht qap) in
  let g1 := gr_g1 r in let g2 := gr_g2 r in
  let alpha_g1 := alpha *: g1 in let beta_g1 := beta *: g1 in let beta_g2 := beta *: g2 in
  let delta_g1 := delta *: g1 in let delta_g2 := delta *: g2 in
  let A_query := batch_exp g1 At in
  let! B_query := kc_batch_exp g2 g1 1 1 Bt chunks in
  let H_query := batch_exp_with_coeff g1 (qe_Zt qap * delta_inverse) Ht in
  let L_query := batch_exp g1 Lt in
  Ok (GgProvingKey alpha_g1 beta_g1 beta_g2 delta_g1 delta_g2 A_query B_query H_query L_query cs_copy,
      GgVerificationKey (e alpha_g1 beta_g2) (gamma *: g2) delta_g2
        (av_of_vector (gamma_ABC_0 *: g1) (batch_exp g1 gamma_ABC))).

(** Lines 390-505 [r1cs_gg_ppzksnark_prover].  [degree() - 2] is computed in
    [size_t], so for a domain of fewer than two points the first read of H is
    out of bounds. *)
Definition gg_prover (pk : gg_proving_key) (primary auxiliary : seq F) (r s : F) : outcome gg_proof :=
  let! w := r1cs_to_qap_witness_map D (gk_cs pk) primary auxiliary 0 0 0 in
  let nv := qw_num_variables w in
  let! h2 := (if (qw_degree w < 2)%N then UB else oget (qw_H w) (qw_degree w - 2)) in
  assert! (h2 != 0) in
  let! h1 := oget (qw_H w) (qw_degree w - 1) in
  assert! (h1 == 0) in
  let! h0 := oget (qw_H w) (qw_degree w) in
  assert! (h0 == 0) in
  let padded := 1 :: qw_ABCs w in
  let! At := multi_exp (range (gk_A pk) 0 nv.+1) (range padded 0 nv.+1) in
  let! Bt := kc_multi_exp (gk_B pk) 0 nv.+1 (range padded 0 nv.+1) in
  let! Ht := multi_exp (range (gk_H pk) 0 (qw_degree w - 1)) (range (qw_H w) 0 (qw_degree w - 1)) in
  let! Lt := multi_exp (gk_L pk) (range padded (qw_num_inputs w).+1 nv.+1) in
  let g1_A := gk_alpha_g1 pk + At + r *: gk_delta_g1 pk in
  let g1_B := gk_beta_g1 pk + Bt.2 + s *: gk_delta_g1 pk in
  let g2_B := gk_beta_g2 pk + Bt.1 + s *: gk_delta_g2 pk in
  let g1_C := Ht + Lt + s *: g1_A + r *: g1_B - (r * s) *: gk_delta_g1 pk in
  Ok (GgProof g1_A g2_B g1_C).

(** Lines 507-521 [r1cs_gg_ppzksnark_verifier_process_vk]. *)
Definition gg_process_vk (vk : gg_verification_key) : gg_processed_key :=
  GgProcessedKey (gv_alpha_beta vk) (gv_gamma_g2 vk) (gv_delta_g2 vk) (gv_ABC vk).

(** hpp:342-347 [is_well_formed]. *)
Definition gg_proof_wf (pi : gg_proof) : bool := [&& wf1 (gp_A pi), wf2 (gp_B pi) & wf1 (gp_C pi)].

(** Lines 523-576 [r1cs_gg_ppzksnark_online_verifier_weak_IC]. *)
Definition gg_online_verifier_weak_IC (pvk : gg_processed_key) (primary : seq F) (pi : gg_proof) :
    outcome bool :=
  assert! (size primary <= av_domain_size (gp_ABC pvk))%N in
  let! accumulated := accumulate_chunk (gp_ABC pvk) primary 0 in
  let acc := av_first accumulated in
  let result := true in
  let result := if ~~ gg_proof_wf pi then false else result in
  let QAP := e (gp_A pi) (gp_B pi) - (e acc (gp_gamma_g2 pvk) + e (gp_C pi) (gp_delta_g2 pvk)) in
  let result := if QAP != gp_alpha_beta pvk then false else result in
  Ok result.

(** Lines 578-588 [r1cs_gg_ppzksnark_verifier_weak_IC]. *)
Definition gg_verifier_weak_IC (vk : gg_verification_key) (primary : seq F) (pi : gg_proof) : outcome bool :=
  gg_online_verifier_weak_IC (gg_process_vk vk) primary pi.

(** Lines 590-610 [r1cs_gg_ppzksnark_online_verifier_strong_IC]. *)
Definition gg_online_verifier_strong_IC (pvk : gg_processed_key) (primary : seq F) (pi : gg_proof) :
    outcome bool :=
  if av_domain_size (gp_ABC pvk) != size primary then Ok false
  else gg_online_verifier_weak_IC pvk primary pi.

(** Lines 612-622 [r1cs_gg_ppzksnark_verifier_strong_IC]. *)
Definition gg_verifier_strong_IC (vk : gg_verification_key) (primary : seq F) (pi : gg_proof) : outcome bool :=
  gg_online_verifier_strong_IC (gg_process_vk vk) primary pi.

(** Lines 624-677 [r1cs_gg_ppzksnark_affine_verifier_weak_IC]; the affine Miller
    loop computes e(acc,gamma) * e(C,delta) / e(A,B). *)
Definition gg_affine_verifier_weak_IC (vk : gg_verification_key) (primary : seq F) (pi : gg_proof) :
    outcome bool :=
  assert! (size primary <= av_domain_size (gv_ABC vk))%N in
  let! accumulated := accumulate_chunk (gv_ABC vk) primary 0 in
  let acc := av_first accumulated in
  let result := true in
  let result := if ~~ gg_proof_wf pi then false else result in
  let QAP := - (e acc (gv_gamma_g2 vk) + e (gp_C pi) (gv_delta_g2 vk) - e (gp_A pi) (gp_B pi)) in
  let result := if QAP != gv_alpha_beta vk then false else result in
  Ok result.

End R1csGgPpzksnark.
