(** Model of libsnark/zk_proof_systems/ppzkadsnark/r1cs_ppzkadsnark/r1cs_ppzkadsnark.{hpp,tcc}
    (lines cited below are of the .tcc): proofs about authenticated inputs.

    - The bilinear group [P], the evaluation domain [D] and the randomness of
      the generators and of the prover are parameters, as in R1csPpzksnark.v.
    - The signature scheme and the pseudorandom function are the interfaces
      declared in r1cs_ppzkadsnark_signature.hpp and r1cs_ppzkadsnark_prf.hpp;
      their implementations call libraries outside /repo.
    - Window sizes, density counts, profiling and printing are not modelled. *)
From mathcomp Require Import all_ssreflect all_algebra.
From Verif Require Import Outcome Lincomb R1CS Domain ArithPrograms Vectors Pairing R1csPpzksnark.
Set Implicit Arguments.
Unset Strict Implicit.
Unset Printing Implicit Defensive.
Import GRing.Theory.
Local Open Scope ring_scope.

(** r1cs_ppzkadsnark_signature.hpp:23-42 and r1cs_ppzkadsnark_prf.hpp:19-23.
    [am_pair sk vk]: [sigGen] can return the key pair (sk, vk).  The two
    contracts say that what has been signed verifies. *)
Record auth_methods (F : fieldType) (P : pairing F) := AuthMethods {
  am_label : Type;
  am_prf_key : Type;
  am_prf : am_prf_key -> am_label -> F;
  am_sk : Type;
  am_vk : Type;
  am_sig : Type;
  am_pair : am_sk -> am_vk -> Prop;
  am_sign : am_sk -> am_label -> G2 P -> am_sig;
  am_verif : am_vk -> am_label -> G2 P -> am_sig -> bool;
  am_batch_verif : am_vk -> seq am_label -> seq (G2 P) -> seq am_sig -> bool;
  am_sign_ok : forall sk vk, am_pair sk vk -> forall l L, am_verif vk l L (am_sign sk l L);
  am_batch_ok : forall sk vk, am_pair sk vk -> forall ls (Lam : am_label -> G2 P),
    am_batch_verif vk ls (map Lam ls) (map (fun l => am_sign sk l (Lam l)) ls)
}.

Section Adsnark.
Variables (F : fieldType) (P : pairing F) (D : evaluation_domain F) (M : auth_methods P).
Notation G1 := (G1 P).
Notation G2 := (G2 P).
Notation g1 := (G1_one P).
Notation g2 := (G2_one P).

(** hpp:104-123 [r1cs_ppzkadsnark_sec_auth_key]. *)
Record sec_auth_key := SecAuthKey { sak_i : F; sak_skp : am_sk M; sak_S : am_prf_key M }.
(** hpp:140-156 [r1cs_ppzkadsnark_pub_auth_key]. *)
Record pub_auth_key := PubAuthKey { pak_minusI2 : G2; pak_vkp : am_vk M }.
(** hpp:193-213 [r1cs_ppzkadsnark_auth_data]. *)
Record auth_data := AuthData { ad_mu : F; ad_Lambda : G2; ad_sigma : am_sig M }.
(** hpp:230-302 [r1cs_ppzkadsnark_proving_key]. *)
Record ads_proving_key := AdsProvingKey {
  apk_A : kc_vector G1 G1; apk_B : kc_vector G2 G1; apk_C : kc_vector G1 G1;
  apk_H : seq G1; apk_K : seq G1; apk_rA_i_Z : G1; apk_cs : r1cs F }.
(** hpp:320-381 [r1cs_ppzkadsnark_verification_key]. *)
Record ads_verification_key := AdsVerificationKey {
  avk_alphaA_g2 : G2; avk_alphaB_g1 : G1; avk_alphaC_g2 : G2; avk_gamma_g2 : G2;
  avk_gamma_beta_g1 : G1; avk_gamma_beta_g2 : G2; avk_rC_Z_g2 : G2;
  avk_A0 : G1; avk_Ain : seq G1 }.
(** hpp:403-423 [r1cs_ppzkadsnark_processed_verification_key]. *)
Record ads_processed_key := AdsProcessedKey {
  apvk_G2_one : G2; apvk_alphaA_g2 : G2; apvk_alphaB_g1 : G1; apvk_alphaC_g2 : G2; apvk_rC_Z_g2 : G2;
  apvk_gamma_g2 : G2; apvk_gamma_beta_g1 : G1; apvk_gamma_beta_g2 : G2;
  apvk_A0 : G1; apvk_Ain : seq G1; apvk_vki : seq G1 }.
(** hpp:468-549 [r1cs_ppzkadsnark_proof]. *)
Record ads_proof := AdsProof {
  apf_A : kc G1 G1; apf_B : kc G2 G1; apf_C : kc G1 G1; apf_H : G1; apf_K : G1;
  apf_Aau : kc G1 G1; apf_muA : G1 }.

(** Lines 377-389 [r1cs_ppzkadsnark_auth_generator]; [i], the signature keys and
    the seed are its random choices.  Returns the public parameter [I1] and the
    two keys. *)
Definition auth_generator (i : F) (sk : am_sk M) (vk : am_vk M) (seed : am_prf_key M) :
    G1 * pub_auth_key * sec_auth_key :=
  (i *: g1, PubAuthKey (0 - i *: g2) vk, SecAuthKey i sk seed).

(** Lines 391-411 [r1cs_ppzkadsnark_auth_sign]. *)
Definition auth_sign (ins : seq F) (sk : sec_auth_key) (labels : seq (am_label M)) : outcome (seq auth_data) :=
  assert! (size labels == size ins) in
  omapm (fun i =>
    let! l := oget labels i in
    let lambda := am_prf (sak_S sk) l in
    let Lambda := lambda *: g2 in
    let sig := am_sign (sak_skp sk) l Lambda in
    let! x := oget ins i in
    Ok (AuthData (lambda + sak_i sk * x) Lambda sig)) (iota 0 (size ins)).

(** Lines 413-429 [r1cs_ppzkadsnark_auth_verify], with the secret key. *)
Definition auth_verify_sec (data : seq F) (tags : seq auth_data) (sak : sec_auth_key) (labels : seq (am_label M)) :
    outcome bool :=
  assert! (size data == size labels) && (size tags == size labels) in
  ofold (fun res i =>
    let! l := oget labels i in
    let lambda := am_prf (sak_S sak) l in
    let! x := oget data i in
    let mup := lambda + sak_i sak * x in
    let! t := oget tags i in
    Ok (res && (ad_mu t == mup))) true (iota 0 (size data)).

(** Lines 431-447 [r1cs_ppzkadsnark_auth_verify], with the public key. *)
Definition auth_verify_pub (data : seq F) (tags : seq auth_data) (pak : pub_auth_key) (labels : seq (am_label M)) :
    outcome bool :=
  assert! (size data == size labels) && (size data == size tags) in
  ofold (fun res i =>
    let! t := oget tags i in
    let! x := oget data i in
    let Mup := ad_Lambda t - x *: pak_minusI2 pak in
    let res := res && (ad_mu t *: g2 == Mup) in
    let! l := oget labels i in
    Ok (res && am_verif (pak_vkp pak) l (ad_Lambda t) (ad_sigma t))) true (iota 0 (size tags)).

(** Lines 449-640 [r1cs_ppzkadsnark_generator]; [I1] is [prms.I1] and [chunks]
    is [omp_get_max_threads()].  Its random choices are those of
    [r1cs_ppzksnark_generator]. *)
Definition ads_generator (cs : r1cs F) (I1 : G1) (r : r1cs_gen_random F) (chunks : nat) :
    outcome (ads_proving_key * ads_verification_key) :=
  let! cs_copy := swap_AB_if_beneficial cs in
  let! qap := r1cs_to_qap_instance_map_with_evaluation D cs_copy (rg_t r) in
  let Zt := qe_Zt qap in
  let At := rcons (qe_At qap) Zt in
  let Bt := rcons (qe_Bt qap) Zt in
  let Ct := rcons (qe_Ct qap) Zt in
  let rA := rg_rA r in let rB := rg_rB r in let rC := rA * rB in
  let beta := rg_beta r in let gamma := rg_gamma r in
  let! Kt := omapm (fun i =>
                let! x := oget At i in let! y := oget Bt i in let! z := oget Ct i in
                Ok (beta * (rA * x + rB * y + rC * z))) (iota 0 (qe_num_variables qap).+1) in
  let Kt := Kt ++ [:: beta * rA * Zt; beta * rB * Zt; beta * rC * Zt] in
  let! A_query := kc_batch_exp g1 g1 rA (rA * rg_alphaA r) At chunks in
  let! B_query := kc_batch_exp g2 g1 rB (rB * rg_alphaB r) Bt chunks in
  let! C_query := kc_batch_exp g1 g1 rC (rC * rg_alphaC r) Ct chunks in
  let H_query := batch_exp g1 (qe_Ht qap) in
  let K_query := batch_exp g1 Kt in
  let rA_i_Z_g1 := (rA * Zt) *: I1 in
  let! A0 := sv_get A_query 0 in
  let! Ain := omapm (fun i => let! x := sv_get A_query (1 + i) in Ok x.1) (iota 0 (qe_num_inputs qap)) in
  Ok (AdsProvingKey A_query B_query C_query H_query K_query rA_i_Z_g1 cs_copy,
      AdsVerificationKey
        (rg_alphaA r *: g2) (rg_alphaB r *: g1) (rg_alphaC r *: g2) (gamma *: g2)
        ((gamma * beta) *: g1) ((gamma * beta) *: g2) ((rC * Zt) *: g2) A0.1 Ain).

(** The prover's random choices, lines 654-657. *)
Record ads_prover_random := AdsProverRandom { ar_d1 : F; ar_d2 : F; ar_d3 : F; ar_dauth : F }.

(** Lines 686-689, compiled only with [DEBUG]: the first entries of the A-query
    are expected to be zero. *)
Definition debug_assertions (pk : ads_proving_key) (ni : nat) : outcome unit :=
  ofold (fun _ i => let! x := sv_get (apk_A pk) i in assert! (x.1 == 0) in Ok tt) tt (iota 0 ni.+1).

(** Lines 642-810 [r1cs_ppzkadsnark_prover]; [debug] says whether [DEBUG] is
    defined.  Of the assertions that this adds, only lines 686-689 are modelled. *)
Definition ads_prover (debug : bool) (pk : ads_proving_key) (primary auxiliary : seq F) (tags : seq auth_data)
    (d : ads_prover_random) : outcome ads_proof :=
  let! w := r1cs_to_qap_witness_map D (apk_cs pk) primary auxiliary (ar_d1 d + ar_dauth d) (ar_d2 d) (ar_d3 d) in
  let nv := qw_num_variables w in
  let ni := qw_num_inputs w in
  let! AZ := sv_get (apk_A pk) nv.+1 in
  let g_A := ar_d1 d *: AZ in
  let! B0 := sv_get (apk_B pk) 0 in let! BZ := sv_get (apk_B pk) nv.+1 in
  let g_B := B0 + qw_d2 w *: BZ in
  let! C0 := sv_get (apk_C pk) 0 in let! CZ := sv_get (apk_C pk) nv.+1 in
  let g_C := C0 + qw_d3 w *: CZ in
  let g_Ain := ar_dauth d *: AZ in
  let! K0 := oget (apk_K pk) 0 in let! K1 := oget (apk_K pk) nv.+1 in
  let! K2 := oget (apk_K pk) nv.+2 in let! K3 := oget (apk_K pk) nv.+3 in
  let g_K := K0 + qw_d1 w *: K1 + qw_d2 w *: K2 + qw_d3 w *: K3 in
  let! _ := if debug then debug_assertions pk ni else Ok tt in
  let coeffs := range (qw_ABCs w) 0 nv in
  let! mA := kc_multi_exp (apk_A pk) ni.+1 nv.+1 (range (qw_ABCs w) ni nv) in
  let! mAin := kc_multi_exp (apk_A pk) 1 ni.+1 (range (qw_ABCs w) 0 ni) in
  let! mB := kc_multi_exp (apk_B pk) 1 nv.+1 coeffs in
  let! mC := kc_multi_exp (apk_C pk) 1 nv.+1 coeffs in
  let! mH := multi_exp (range (apk_H pk) 0 (qw_degree w).+1) (range (qw_H w) 0 (qw_degree w).+1) in
  let! mK := multi_exp (range (apk_K pk) 1 nv.+1) coeffs in
  let! st := omapm (fun i => let! t := oget tags i in let! x := sv_get (apk_A pk) (i + 1) in Ok (ad_mu t, x.1))
               (iota 0 ni) in
  let! m := multi_exp (map snd st) (map fst st) in
  Ok (AdsProof (g_A + mA) (g_B + mB) (g_C + mC) (0 + mH) (g_K + mK) (g_Ain + mAin)
               (ar_dauth d *: apk_rA_i_Z pk + m)).

(** Lines 812-844 [r1cs_ppzkadsnark_verifier_process_vk]. *)
Definition ads_process_vk (vk : ads_verification_key) : ads_processed_key :=
  AdsProcessedKey g2 (avk_alphaA_g2 vk) (avk_alphaB_g1 vk) (avk_alphaC_g2 vk) (avk_rC_Z_g2 vk)
    (avk_gamma_g2 vk) (avk_gamma_beta_g1 vk) (avk_gamma_beta_g2 vk) (avk_A0 vk) (avk_Ain vk) (avk_Ain vk).

(** hpp:535-544 [is_well_formed]. *)
Definition ads_proof_wf (pi : ads_proof) : bool :=
  [&& wf1 (apf_A pi).1, wf1 (apf_A pi).2, wf2 (apf_B pi).1, wf1 (apf_B pi).2,
      wf1 (apf_C pi).1 & [&& wf1 (apf_C pi).2, wf1 (apf_H pi), wf1 (apf_K pi),
      wf1 (apf_Aau pi).1 & wf1 (apf_Aau pi).2 && wf1 (apf_muA pi)]].

(** Lines 919-1003 and 1136-1220, the checks after the authentication part, the
    same in both verifiers; [result] is the verdict so far. *)
Definition ads_pairing_checks (pvk : ads_processed_key) (pi : ads_proof) (result : bool) : bool :=
  let kc_A := e (apf_A pi).1 (apvk_alphaA_g2 pvk) - e (apf_A pi).2 (apvk_G2_one pvk) in
  let result := if kc_A != 0 then false else result in
  let kc_B := e (apvk_alphaB_g1 pvk) (apf_B pi).1 - e (apf_B pi).2 (apvk_G2_one pvk) in
  let result := if kc_B != 0 then false else result in
  let kc_C := e (apf_C pi).1 (apvk_alphaC_g2 pvk) - e (apf_C pi).2 (apvk_G2_one pvk) in
  let result := if kc_C != 0 then false else result in
  let Aacc := apvk_A0 pvk + (apf_Aau pi).1 + (apf_A pi).1 in
  let QAP := e Aacc (apf_B pi).1 - (e (apf_H pi) (apvk_rC_Z_g2 pvk) + e (apf_C pi).1 (apvk_G2_one pvk)) in
  let result := if QAP != 0 then false else result in
  let K := e (apf_K pi) (apvk_gamma_g2 pvk)
           - (e (Aacc + (apf_C pi).1) (apvk_gamma_beta_g2 pvk) + e (apvk_gamma_beta_g1 pvk) (apf_B pi).1) in
  if K != 0 then false else result.

(** Lines 846-1007 [r1cs_ppzkadsnark_online_verifier], with the secret key. *)
Definition ads_online_verifier_sec (pvk : ads_processed_key) (pi : ads_proof) (sak : sec_auth_key)
    (labels : seq (am_label M)) : outcome bool :=
  let result := true in
  let result := if ~~ ads_proof_wf pi then false else result in
  let lambdas := [seq am_prf (sak_S sak) l | l <- labels] in
  let prodA := sak_i sak *: (apf_Aau pi).1 in
  let! m := multi_exp (range (apvk_Ain pvk) 0 (size labels)) (range lambdas 0 (size labels)) in
  let prodA := prodA + m in
  let result_auth := true in
  let result_auth := if ~~ (prodA == apf_muA pi) then false else result_auth in
  let kc_Aau := e (apf_Aau pi).1 (apvk_alphaA_g2 pvk) - e (apf_Aau pi).2 (apvk_G2_one pvk) in
  let result_auth := if kc_Aau != 0 then false else result_auth in
  let result := result && result_auth in
  Ok (ads_pairing_checks pvk pi result).

(** Lines 1009-1020 [r1cs_ppzkadsnark_verifier], with the secret key. *)
Definition ads_verifier_sec (vk : ads_verification_key) (pi : ads_proof) (sak : sec_auth_key)
    (labels : seq (am_label M)) : outcome bool :=
  ads_online_verifier_sec (ads_process_vk vk) pi sak labels.

(** Lines 1079-1089 the product of the Miller loops of the tags: one factor if
    their number is odd, then two at a time. *)
Definition tag_pairings (pvk : ads_processed_key) (tags : seq auth_data) (labels : seq (am_label M)) :
    outcome (GT P) :=
  let n := size tags in
  let! accum := if (n %% 2 == 1)%N
    then let! v := oget (apvk_vki pvk) 0 in let! t := oget tags 0 in Ok (e v (ad_Lambda t))
    else Ok 0 in
  ofold (fun accum k =>
    let i := (n %% 2 + 2 * k)%N in
    let! v := oget (apvk_vki pvk) i in let! t := oget tags i in
    let! v' := oget (apvk_vki pvk) i.+1 in let! t' := oget tags i.+1 in
    Ok (accum + (e v (ad_Lambda t) + e v' (ad_Lambda t')))) accum (iota 0 (uphalf (size labels - n %% 2))).

(** Lines 1023-1224 [r1cs_ppzkadsnark_online_verifier], with the public key. *)
Definition ads_online_verifier_pub (pvk : ads_processed_key) (tags : seq auth_data) (pi : ads_proof)
    (pak : pub_auth_key) (labels : seq (am_label M)) : outcome bool :=
  let result := true in
  let result := if ~~ ads_proof_wf pi then false else result in
  assert! (size labels == size tags) in
  let! LS := omapm (fun i => let! t := oget tags i in Ok (ad_Lambda t, ad_sigma t)) (iota 0 (size labels)) in
  let result_auth := am_batch_verif (pak_vkp pak) labels (map fst LS) (map snd LS) in
  let! accum := tag_pairings pvk tags labels in
  let accum2 := e (apf_muA pi) (apvk_G2_one pvk) + e (apf_Aau pi).1 (pak_minusI2 pak) in
  let result_auth := if accum - accum2 != 0 then false else result_auth in
  let kc_Aau := e (apf_Aau pi).1 (apvk_alphaA_g2 pvk) - e (apf_Aau pi).2 (apvk_G2_one pvk) in
  let result_auth := if kc_Aau != 0 then false else result_auth in
  let result := result && result_auth in
  Ok (ads_pairing_checks pvk pi result).

(** Lines 1226-1240 [r1cs_ppzkadsnark_verifier], with the public key. *)
Definition ads_verifier_pub (vk : ads_verification_key) (tags : seq auth_data) (pi : ads_proof)
    (pak : pub_auth_key) (labels : seq (am_label M)) : outcome bool :=
  assert! (size labels == size tags) in
  ads_online_verifier_pub (ads_process_vk vk) tags pi pak labels.

End Adsnark.
