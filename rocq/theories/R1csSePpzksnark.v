(** Model of libsnark/zk_proof_systems/ppzksnark/r1cs_se_ppzksnark/r1cs_se_ppzksnark.{hpp,tcc}
    (lines cited below are of the .tcc).  Same conventions as R1csPpzksnark.v:
    the bilinear group, the evaluation domain and every [random_element()] are
    parameters; window sizes, printing and [DEBUG]-only assertions are not
    modelled. *)
From mathcomp Require Import all_ssreflect all_algebra.
From Verif Require Import Outcome Lincomb R1CS Domain ArithPrograms Vectors Pairing.
Set Implicit Arguments.
Unset Strict Implicit.
Unset Printing Implicit Defensive.
Import GRing.Theory.
Local Open Scope ring_scope.

Section R1csSePpzksnark.
Variables (F : fieldType) (P : pairing F) (D : evaluation_domain F).
Notation G1 := (G1 P).
Notation G2 := (G2 P).
Notation GT := (GT P).

(** hpp:77-162 [r1cs_se_ppzksnark_proving_key]. *)
Record se_proving_key := SeProvingKey {
  sk_A : seq G1; sk_B : seq G2; sk_C1 : seq G1; sk_C2 : seq G1;
  sk_G_gamma_Z : G1; sk_H_gamma_Z : G2; sk_G_ab_gamma_Z : G1; sk_G_gamma2_Z2 : G1;
  sk_G_gamma2_Z_t : seq G1; sk_cs : r1cs F }.
(** hpp:180-247 [r1cs_se_ppzksnark_verification_key]. *)
Record se_verification_key := SeVerificationKey {
  sv_H : G2; sv_G_alpha : G1; sv_H_beta : G2; sv_G_gamma : G1; sv_H_gamma : G2; sv_query : seq G1 }.
(** hpp:268-282 [r1cs_se_ppzksnark_processed_verification_key]. *)
Record se_processed_key := SeProcessedKey {
  sp_G_alpha : G1; sp_H_beta : G2; sp_G_alpha_H_beta : GT; sp_G_gamma : G1; sp_H_gamma : G2; sp_H : G2;
  sp_query : seq G1 }.
(** hpp:326-377 [r1cs_se_ppzksnark_proof]. *)
Record se_proof := SeProof { spi_A : G1; spi_B : G2; spi_C : G1 }.

(** The generator's random choices, lines 237-240 (the successive values drawn
    for t) and 270-274. *)
Record se_gen_random := SeGenRandom {
  sr_ts : seq F; sr_alpha : F; sr_beta : F; sr_gamma : F; sr_G : G1; sr_H : G2 }.

(** Lines 237-240: the [do]-[while] loop that draws t until Z(t) <> 0; [None]
    when all the given draws are rejected, i.e. the loop has not ended yet. *)
Fixpoint se_draw_t (ts : seq F) : option F :=
  match ts with
  | [::] => None
  | t :: ts' => if compute_vanishing_polynomial D t == 0 then se_draw_t ts' else Some t
  end.

(** Lines 227-437 [r1cs_se_ppzksnark_generator], after t has been drawn. *)
Definition se_generator_at (cs : r1cs F) (t : F) (r : se_gen_random) :
    outcome (se_proving_key * se_verification_key) :=
  let! sap := r1cs_to_sap_instance_map_with_evaluation D cs t in
  let At := se_At sap in let Ct := se_Ct sap in let Zt := se_Zt sap in
  let alpha := sr_alpha r in let beta := sr_beta r in let gamma := sr_gamma r in
  let G := sr_G r in let H := sr_H r in
  let H_gamma := gamma *: H in
  let G_alpha := alpha *: G in let H_beta := beta *: H in
  (* line 306: gamma * Ct[i] + (alpha + beta) * At[i] *)
  let term i := let! c := oget Ct i in let! a := oget At i in Ok (gamma * c + (alpha + beta) * a) in
  let! verifier_exps := omapm term (iota 0 (se_num_inputs sap).+1) in
  let verifier_query := batch_exp G verifier_exps in
  let A_query := batch_exp G [seq gamma * a | a <- At] in
  let B_query := batch_exp H_gamma At in
  let G_gamma := gamma *: G in
  let G_gamma_Z := Zt *: G_gamma in
  let H_gamma_Z := Zt *: H_gamma in
  let G_ab_gamma_Z := (alpha + beta) *: G_gamma_Z in
  let G_gamma2_Z2 := (Zt * gamma) *: G_gamma_Z in
  (* lines 364-370: gamma2_Z_t starts at Zt * gamma^2 and is multiplied by t *)
  let zs := (foldl (fun st _ => (rcons st.1 st.2, st.2 * t)) ([::], Zt * gamma ^+ 2)
               (iota 0 (se_degree sap).+1)).1 in
  let G_gamma2_Z_t := batch_exp G zs in
  let! C1_exps := omapm (fun i => let! x := term i in Ok (gamma * x))
                    (iota (se_num_inputs sap).+1 (se_num_variables sap - se_num_inputs sap)) in
  let C_query_1 := batch_exp G C1_exps in
  let double_gamma2_Z := gamma * gamma * Zt in
  let double_gamma2_Z := double_gamma2_Z + double_gamma2_Z in
  let! C2_exps := omapm (fun i => let! a := oget At i in Ok (double_gamma2_Z * a))
                    (iota 0 (se_num_variables sap).+1) in
  let C_query_2 := batch_exp G C2_exps in
  Ok (SeProvingKey A_query B_query C_query_1 C_query_2 G_gamma_Z H_gamma_Z G_ab_gamma_Z G_gamma2_Z2
        G_gamma2_Z_t cs,
      SeVerificationKey H G_alpha H_beta G_gamma H_gamma verifier_query).

(** Lines 227-437 [r1cs_se_ppzksnark_generator]. *)
Definition se_generator (cs : r1cs F) (r : se_gen_random) :
    option (outcome (se_proving_key * se_verification_key)) :=
  Option.map (fun t => se_generator_at cs t r) (se_draw_t (sr_ts r)).

(** Lines 440-572 [r1cs_se_ppzksnark_prover]; a sum of an iterator range
    [begin() + 1, end()) is over [behead]. *)
Definition se_prover (pk : se_proving_key) (primary auxiliary : seq F) (d1 d2 r : F) : outcome se_proof :=
  let! w := r1cs_to_sap_witness_map D (sk_cs pk) primary auxiliary d1 d2 in
  let! A0 := oget (sk_A pk) 0 in
  let! As := multi_exp (behead (sk_A pk)) (sw_ACs w) in
  let A := r *: sk_G_gamma_Z pk + A0 + sw_d1 w *: sk_G_gamma_Z pk + As in
  let! B0 := oget (sk_B pk) 0 in
  let! Bs := multi_exp (behead (sk_B pk)) (sw_ACs w) in
  let B := r *: sk_H_gamma_Z pk + B0 + sw_d1 w *: sk_H_gamma_Z pk + Bs in
  let! C1 := multi_exp (sk_C1 pk) (drop (sw_num_inputs w) (sw_ACs w)) in
  let! C20 := oget (sk_C2 pk) 0 in
  let! C2 := multi_exp (behead (sk_C2 pk)) (sw_ACs w) in
  let! Zt0 := oget (sk_G_gamma2_Z_t pk) 0 in
  let! Hs := multi_exp (sk_G_gamma2_Z_t pk) (sw_H w) in
  let C := C1 + (r * r) *: sk_G_gamma2_Z2 pk + r *: sk_G_ab_gamma_Z pk
           + sw_d1 w *: sk_G_ab_gamma_Z pk + r *: C20
           + ((r + r) * sw_d1 w) *: sk_G_gamma2_Z2 pk + r *: C2 + sw_d2 w *: Zt0 + Hs in
  Ok (SeProof A B C).

(** Lines 575-595 [r1cs_se_ppzksnark_verifier_process_vk]. *)
Definition se_process_vk (vk : se_verification_key) : se_processed_key :=
  SeProcessedKey (sv_G_alpha vk) (sv_H_beta vk) (e (sv_G_alpha vk) (sv_H_beta vk)) (sv_G_gamma vk)
    (sv_H_gamma vk) (sv_H vk) (sv_query vk).

(** hpp:368-372 [is_well_formed]. *)
Definition se_proof_wf (pi : se_proof) : bool := [&& wf1 (spi_A pi), wf2 (spi_B pi) & wf1 (spi_C pi)].

(** Lines 598-683 [r1cs_se_ppzksnark_online_verifier_weak_IC].  There is no check
    that the input has the length of the query; libff's multi_exp reads the two
    ranges in parallel, so different lengths are undefined behaviour. *)
Definition se_online_verifier_weak_IC (pvk : se_processed_key) (primary : seq F) (pi : se_proof) :
    outcome bool :=
  let result := true in
  let result := if ~~ se_proof_wf pi then false else result in
  let! q0 := oget (sp_query pvk) 0 in
  let! qs := multi_exp (behead (sp_query pvk)) primary in
  let G_psi := q0 + qs in
  let test1_l := e (spi_A pi + sp_G_alpha pvk) (spi_B pi + sp_H_beta pvk) in
  let test1_r1 := sp_G_alpha_H_beta pvk in
  let test1_r2 := e G_psi (sp_H_gamma pvk) in
  let test1_r3 := e (spi_C pi) (sp_H pvk) in
  let test1 := - test1_l + test1_r1 + test1_r2 + test1_r3 in
  let result := if test1 != 0 then false else result in
  let test2_l := e (spi_A pi) (sp_H_gamma pvk) in
  let test2_r := e (sp_G_gamma pvk) (spi_B pi) in
  let test2 := test2_l - test2_r in
  let result := if test2 != 0 then false else result in
  Ok result.

(** Lines 686-695 [r1cs_se_ppzksnark_verifier_weak_IC]. *)
Definition se_verifier_weak_IC (vk : se_verification_key) (primary : seq F) (pi : se_proof) : outcome bool :=
  se_online_verifier_weak_IC (se_process_vk vk) primary pi.

(** Lines 698-719 [r1cs_se_ppzksnark_online_verifier_strong_IC]. *)
Definition se_online_verifier_strong_IC (pvk : se_processed_key) (primary : seq F) (pi : se_proof) :
    outcome bool :=
  if size (sp_query pvk) != (size primary).+1 then Ok false
  else se_online_verifier_weak_IC pvk primary pi.

(** Lines 722-731 [r1cs_se_ppzksnark_verifier_strong_IC]. *)
Definition se_verifier_strong_IC (vk : se_verification_key) (primary : seq F) (pi : se_proof) : outcome bool :=
  se_online_verifier_strong_IC (se_process_vk vk) primary pi.

End R1csSePpzksnark.
