(** Model of libsnark/zk_proof_systems/ppzksnark/r1cs_ppzksnark/r1cs_ppzksnark.{hpp,tcc}
    (lines cited below are of the .tcc).

    - The bilinear group [P] and the evaluation domain [D] are parameters; the
      domain is the one [get_evaluation_domain] returns for the constraint
      system, which the generator and the prover both ask for.
    - Every [random_element()] is a parameter.
    - Window sizes, density counts, profiling, printing and the [DEBUG]-only
      assertions are not modelled. *)
From mathcomp Require Import all_ssreflect all_algebra.
From Verif Require Import Outcome Lincomb R1CS Domain ArithPrograms Vectors Pairing.
Set Implicit Arguments.
Unset Strict Implicit.
Unset Printing Implicit Defensive.
Import GRing.Theory.
Local Open Scope ring_scope.

Section R1csPpzksnark.
Variables (F : fieldType) (P : pairing F) (D : evaluation_domain F).
Notation G1 := (G1 P).
Notation G2 := (G2 P).
Notation g1 := (G1_one P).
Notation g2 := (G2_one P).

(** hpp:75-140 [r1cs_ppzksnark_proving_key]. *)
Record r1cs_proving_key := R1csProvingKey {
  pk_A : kc_vector G1 G1; pk_B : kc_vector G2 G1; pk_C : kc_vector G1 G1;
  pk_H : seq G1; pk_K : seq G1; pk_cs : r1cs F }.
(** hpp:158-216 [r1cs_ppzksnark_verification_key]. *)
Record r1cs_verification_key := R1csVerificationKey {
  vk_alphaA_g2 : G2; vk_alphaB_g1 : G1; vk_alphaC_g2 : G2; vk_gamma_g2 : G2;
  vk_gamma_beta_g1 : G1; vk_gamma_beta_g2 : G2; vk_rC_Z_g2 : G2;
  vk_IC : accumulation_vector G1 }.
(** hpp:238-254 [r1cs_ppzksnark_processed_verification_key]. *)
Record r1cs_processed_key := R1csProcessedKey {
  pvk_G2_one : G2; pvk_alphaA_g2 : G2; pvk_alphaB_g1 : G1; pvk_alphaC_g2 : G2; pvk_rC_Z_g2 : G2;
  pvk_gamma_g2 : G2; pvk_gamma_beta_g1 : G1; pvk_gamma_beta_g2 : G2;
  pvk_IC : accumulation_vector G1 }.
(** hpp:299-365 [r1cs_ppzksnark_proof]. *)
Record r1cs_proof := R1csProof {
  pf_A : kc G1 G1; pf_B : kc G2 G1; pf_C : kc G1 G1; pf_H : G1; pf_K : G1 }.

(** The generator's random choices, lines 252 and 296-302. *)
Record r1cs_gen_random := R1csGenRandom {
  rg_t : F; rg_alphaA : F; rg_alphaB : F; rg_alphaC : F; rg_rA : F; rg_rB : F; rg_beta : F; rg_gamma : F }.

(** Lines 317-325: move the first [n] entries of [At] to the IC coefficients. *)
Definition take_IC (At : seq F) (n : nat) : outcome (seq F * seq F) :=
  ofold (fun s i =>
           let! x := oget s.1 i in
           assert! (x != 0) in
           let! At' := oput s.1 i 0 in
           Ok (At', rcons s.2 x)) (At, [::]) (iota 0 n).

(** Lines 243-427 [r1cs_ppzksnark_generator]; [chunks] is [omp_get_max_threads()]. *)
Definition r1cs_generator (cs : r1cs F) (r : r1cs_gen_random) (chunks : nat) :
    outcome (r1cs_proving_key * r1cs_verification_key) :=
  let! cs_copy := swap_AB_if_beneficial cs in
  let! qap := r1cs_to_qap_instance_map_with_evaluation D cs_copy (rg_t r) in
  let Zt := qe_Zt qap in
  let At := rcons (qe_At qap) Zt in
  let Bt := rcons (qe_Bt qap) Zt in
  let Ct := rcons (qe_Ct qap) Zt in
  let rA := rg_rA r in let rB := rg_rB r in let rC := rA * rB in
  let beta := rg_beta r in let gamma := rg_gamma r in
  let! Kt := omapm (fun i =>
                let! x := oget At i in let! y := oget Bt i in let! z := oget Ct i in
                Ok (beta * (rA * x + rB * y + rC * z))) (iota 0 (qe_num_variables qap).+1) in
  let Kt := Kt ++ [:: beta * rA * Zt; beta * rB * Zt; beta * rC * Zt] in
  let! st := take_IC At (qe_num_inputs qap).+1 in
  let: (At, IC) := st in
  let! A_query := kc_batch_exp g1 g1 rA (rA * rg_alphaA r) At chunks in
  let! B_query := kc_batch_exp g2 g1 rB (rB * rg_alphaB r) Bt chunks in
  let! C_query := kc_batch_exp g1 g1 rC (rC * rg_alphaC r) Ct chunks in
  let H_query := batch_exp g1 (qe_Ht qap) in
  let K_query := batch_exp g1 Kt in
  let! IC0 := oget IC 0 in
  let! ICs := omapm (fun i => let! x := oget IC i in Ok (rA * x)) (iota 1 (qe_num_inputs qap)) in
  Ok (R1csProvingKey A_query B_query C_query H_query K_query cs_copy,
      R1csVerificationKey
        (rg_alphaA r *: g2) (rg_alphaB r *: g1) (rg_alphaC r *: g2) (gamma *: g2)
        ((gamma * beta) *: g1) ((gamma * beta) *: g2) ((rC * Zt) *: g2)
        (av_of_vector ((rA * IC0) *: g1) (batch_exp g1 ICs))).

(** Lines 430-543 [r1cs_ppzksnark_prover]. *)
Definition r1cs_prover (pk : r1cs_proving_key) (primary auxiliary : seq F) (d1 d2 d3 : F) :
    outcome r1cs_proof :=
  let! w := r1cs_to_qap_witness_map D (pk_cs pk) primary auxiliary d1 d2 d3 in
  let nv := qw_num_variables w in
  let! A0 := sv_get (pk_A pk) 0 in let! AZ := sv_get (pk_A pk) nv.+1 in
  let g_A := A0 + qw_d1 w *: AZ in
  let! B0 := sv_get (pk_B pk) 0 in let! BZ := sv_get (pk_B pk) nv.+1 in
  let g_B := B0 + qw_d2 w *: BZ in
  let! C0 := sv_get (pk_C pk) 0 in let! CZ := sv_get (pk_C pk) nv.+1 in
  let g_C := C0 + qw_d3 w *: CZ in
  let! K0 := oget (pk_K pk) 0 in let! K1 := oget (pk_K pk) nv.+1 in
  let! K2 := oget (pk_K pk) nv.+2 in let! K3 := oget (pk_K pk) nv.+3 in
  let g_K := K0 + qw_d1 w *: K1 + qw_d2 w *: K2 + qw_d3 w *: K3 in
  let coeffs := range (qw_ABCs w) 0 nv in
  let! mA := kc_multi_exp (pk_A pk) 1 nv.+1 coeffs in
  let! mB := kc_multi_exp (pk_B pk) 1 nv.+1 coeffs in
  let! mC := kc_multi_exp (pk_C pk) 1 nv.+1 coeffs in
  let! mH := multi_exp (range (pk_H pk) 0 (qw_degree w).+1) (range (qw_H w) 0 (qw_degree w).+1) in
  let! mK := multi_exp (range (pk_K pk) 1 nv.+1) coeffs in
  Ok (R1csProof (g_A + mA) (g_B + mB) (g_C + mC) (0 + mH) (g_K + mK)).

(** Lines 545-565 [r1cs_ppzksnark_verifier_process_vk]. *)
Definition r1cs_process_vk (vk : r1cs_verification_key) : r1cs_processed_key :=
  R1csProcessedKey g2 (vk_alphaA_g2 vk) (vk_alphaB_g1 vk) (vk_alphaC_g2 vk) (vk_rC_Z_g2 vk)
    (vk_gamma_g2 vk) (vk_gamma_beta_g1 vk) (vk_gamma_beta_g2 vk) (vk_IC vk).

(** hpp:353-360 [is_well_formed]. *)
Definition r1cs_proof_wf (pi : r1cs_proof) : bool :=
  [&& wf1 (pf_A pi).1, wf1 (pf_A pi).2, wf2 (pf_B pi).1, wf1 (pf_B pi).2,
      wf1 (pf_C pi).1, wf1 (pf_C pi).2, wf1 (pf_H pi) & wf1 (pf_K pi)].

(** Lines 567-679 [r1cs_ppzksnark_online_verifier_weak_IC].  Every check is
    performed; the verdict is the conjunction. *)
Definition r1cs_online_verifier_weak_IC (pvk : r1cs_processed_key) (primary : seq F) (pi : r1cs_proof) :
    outcome bool :=
  assert! (size primary <= av_domain_size (pvk_IC pvk))%N in
  let! accumulated := accumulate_chunk (pvk_IC pvk) primary 0 in
  let acc := av_first accumulated in
  let result := true in
  let result := if ~~ r1cs_proof_wf pi then false else result in
  let kc_A := e (pf_A pi).1 (pvk_alphaA_g2 pvk) - e (pf_A pi).2 (pvk_G2_one pvk) in
  let result := if kc_A != 0 then false else result in
  let kc_B := e (pvk_alphaB_g1 pvk) (pf_B pi).1 - e (pf_B pi).2 (pvk_G2_one pvk) in
  let result := if kc_B != 0 then false else result in
  let kc_C := e (pf_C pi).1 (pvk_alphaC_g2 pvk) - e (pf_C pi).2 (pvk_G2_one pvk) in
  let result := if kc_C != 0 then false else result in
  let QAP := e ((pf_A pi).1 + acc) (pf_B pi).1
             - (e (pf_H pi) (pvk_rC_Z_g2 pvk) + e (pf_C pi).1 (pvk_G2_one pvk)) in
  let result := if QAP != 0 then false else result in
  let K := e (pf_K pi) (pvk_gamma_g2 pvk)
           - (e ((pf_A pi).1 + acc + (pf_C pi).1) (pvk_gamma_beta_g2 pvk)
              + e (pvk_gamma_beta_g1 pvk) (pf_B pi).1) in
  let result := if K != 0 then false else result in
  Ok result.

(** Lines 681-691 [r1cs_ppzksnark_verifier_weak_IC]. *)
Definition r1cs_verifier_weak_IC (vk : r1cs_verification_key) (primary : seq F) (pi : r1cs_proof) :
    outcome bool :=
  r1cs_online_verifier_weak_IC (r1cs_process_vk vk) primary pi.

(** Lines 693-713 [r1cs_ppzksnark_online_verifier_strong_IC]. *)
Definition r1cs_online_verifier_strong_IC (pvk : r1cs_processed_key) (primary : seq F) (pi : r1cs_proof) :
    outcome bool :=
  if av_domain_size (pvk_IC pvk) != size primary then Ok false
  else r1cs_online_verifier_weak_IC pvk primary pi.

(** Lines 715-725 [r1cs_ppzksnark_verifier_strong_IC]. *)
Definition r1cs_verifier_strong_IC (vk : r1cs_verification_key) (primary : seq F) (pi : r1cs_proof) :
    outcome bool :=
  r1cs_online_verifier_strong_IC (r1cs_process_vk vk) primary pi.

(** Lines 727-818 [r1cs_ppzksnark_affine_verifier_weak_IC]. *)
Definition r1cs_affine_verifier_weak_IC (vk : r1cs_verification_key) (primary : seq F) (pi : r1cs_proof) :
    outcome bool :=
  assert! (size primary <= av_domain_size (vk_IC vk))%N in
  let! accumulated := accumulate_chunk (vk_IC vk) primary 0 in
  assert! av_is_fully_accumulated accumulated in
  let acc := av_first accumulated in
  let result := true in
  let kc_A := e (pf_A pi).1 (vk_alphaA_g2 vk) - e (pf_A pi).2 g2 in
  let result := if kc_A != 0 then false else result in
  let kc_B := e (vk_alphaB_g1 vk) (pf_B pi).1 - e (pf_B pi).2 g2 in
  let result := if kc_B != 0 then false else result in
  let kc_C := e (pf_C pi).1 (vk_alphaC_g2 vk) - e (pf_C pi).2 g2 in
  let result := if kc_C != 0 then false else result in
  let QAP := e (pf_H pi) (vk_rC_Z_g2 vk) + e (pf_C pi).1 g2 - e ((pf_A pi).1 + acc) (pf_B pi).1 in
  let result := if QAP != 0 then false else result in
  let K := e ((pf_A pi).1 + acc + (pf_C pi).1) (vk_gamma_beta_g2 vk)
           + e (vk_gamma_beta_g1 vk) (pf_B pi).1 - e (pf_K pi) (vk_gamma_g2 vk) in
  let result := if K != 0 then false else result in
  Ok result.

End R1csPpzksnark.
