(** C13-C18 and C51: the ppzkSNARKs.

    [D] is any evaluation domain with at least as many points as the code asks
    [get_evaluation_domain] for, [P] any bilinear group, and every random choice
    of the generator and of the prover is universally quantified.  [chunks] is
    the number of threads.  A generator's [AssertFail] is a failed [assert]. *)
From mathcomp Require Import all_ssreflect all_algebra.
From Verif Require Import Outcome Lincomb LincombSpec R1CS R1CSSpec R1CSFacts Circuits CircuitsSpec CircuitsFacts Prop_Relations Prop_Circuits
  Domain DomainFacts ArithPrograms ArithSpec ArithFacts QapFacts SapFacts SspFacts Prop_ArithPrograms Vectors VectorsFacts Pairing SnarkFacts
  R1csPpzksnark R1csPpzksnarkFacts R1csGgPpzksnark R1csGgPpzksnarkFacts
  R1csSePpzksnark R1csSePpzksnarkFacts UscsPpzksnark UscsPpzksnarkFacts
  CircuitPpzksnark CircuitPpzksnarkFacts SnarkVerdicts SnarkHiding.
Set Implicit Arguments.
Unset Strict Implicit.
Unset Printing Implicit Defensive.
Import GRing.Theory.
Local Open Scope ring_scope.

(** * C13: R1CS ppzkSNARK *)

Theorem C13_r1cs_ppzksnark_complete (F : fieldType) (P : pairing F) (D : evaluation_domain F) (cs : r1cs F)
    (r : r1cs_gen_random F) (chunks : nat) pk vk (p a : seq F) (d1 d2 d3 : F) :
  (num_constraints cs + num_inputs cs + 1 <= d_size D)%N ->
  r1cs_is_satisfied cs p a = Ok true ->
  r1cs_generator P D cs r chunks = Ok (pk, vk) ->
  exists2 pi, r1cs_prover D pk p a d1 d2 d3 = Ok pi &
    [/\ r1cs_verifier_weak_IC vk p pi = Ok true, r1cs_verifier_strong_IC vk p pi = Ok true &
        r1cs_affine_verifier_weak_IC vk p pi = Ok true].
Proof. exact (@r1cs_ppzksnark_complete F P D cs r chunks pk vk p a d1 d2 d3). Qed.
Print Assumptions C13_r1cs_ppzksnark_complete.

(** The generator succeeds or fails an assertion, and it fails for at most
    (inputs + 1)(m - 1) of the possible points t. *)
Theorem C13_r1cs_generator_total (F : fieldType) (P : pairing F) (D : evaluation_domain F) (cs : r1cs F)
    (r : r1cs_gen_random F) (chunks : nat) :
  r1cs_in_range cs -> (num_constraints cs + num_inputs cs + 1 <= d_size D)%N ->
  (exists pk vk, r1cs_generator P D cs r chunks = Ok (pk, vk)) \/ r1cs_generator P D cs r chunks = AssertFail.
Proof. exact (@r1cs_generator_total F P D cs r chunks). Qed.
Print Assumptions C13_r1cs_generator_total.

Theorem C13_r1cs_generator_abort_bound (F : fieldType) (P : pairing F) (D : evaluation_domain F) (cs : r1cs F)
    (rs : seq (r1cs_gen_random F)) (chunks : nat) :
  r1cs_in_range cs -> (num_constraints cs + num_inputs cs + 1 <= d_size D)%N ->
  uniq [seq rg_t r | r <- rs] ->
  (forall r, List.In r rs -> r1cs_generator P D cs r chunks = AssertFail) ->
  (size rs <= (num_inputs cs).+1 * (d_size D).-1)%N.
Proof. exact (@r1cs_generator_abort_bound F P D cs rs chunks). Qed.
Print Assumptions C13_r1cs_generator_abort_bound.

(** What the verifier accepts under honest keys: for arbitrary proof elements,
    given by their discrete logarithms, exactly the three knowledge relations,
    the QAP divisibility relation for the given inputs, and the
    same-coefficients relation. *)
Theorem C13_r1cs_verdict (F : fieldType) (P : pairing F) (D : evaluation_domain F) (cs : r1cs F)
    (r : r1cs_gen_random F) (chunks : nat) pk vk (p : seq F) :
  let g1 := G1_one P in let g2 := G2_one P in
  r1cs_in_range cs -> (num_constraints cs + num_inputs cs + 1 <= d_size D)%N ->
  r1cs_generator P D cs r chunks = Ok (pk, vk) ->
  e g1 g2 != 0 -> (size p <= num_inputs cs)%N ->
  exists2 q, r1cs_to_qap_instance_map_with_evaluation D (pk_cs pk) (rg_t r) = Ok q &
  let acc := rg_rA r * ((qe_At q)`_0 + \sum_(i < size p) p`_i * (qe_At q)`_i.+1) in
  forall a a' b b' c c' h k,
  r1cs_verifier_weak_IC vk p
    (R1csProof (P := P) (a *: g1, a' *: g1) (b *: g2, b' *: g1) (c *: g1, c' *: g1) (h *: g1) (k *: g1)) =
  Ok [&& a' == rg_alphaA r * a, b' == rg_alphaB r * b, c' == rg_alphaC r * c,
      (a + acc) * b == h * (rg_rA r * rg_rB r * qe_Zt q) + c &
      k * rg_gamma r == rg_gamma r * rg_beta r * (a + acc + c + b)].
Proof. exact (@r1cs_verdict F P D cs r chunks pk vk p). Qed.
Print Assumptions C13_r1cs_verdict.

(** * C14: Groth16 *)

(** [A] and [B] are the QAP polynomials, of degree less than m, of the
    satisfying assignment.  The honest prover aborts exactly when the product of
    their coefficients of degree m-1 is zero, and its proof is accepted
    otherwise. *)
Theorem C14_groth16_complete (F : fieldType) (P : pairing F) (D : evaluation_domain F) (cs : r1cs F)
    (r : gg_gen_random P) (chunks : nat) pk vk (p a : seq F) (rr s : F) (A B : {poly F}) :
  let col sel t cols :=
    exists2 qe, r1cs_to_qap_instance_map_with_evaluation D (gk_cs pk) t = Ok qe & cols = sel qe in
  (num_constraints cs + num_inputs cs + 1 <= d_size D)%N -> (2 <= d_size D)%N ->
  r1cs_is_satisfied cs p a = Ok true ->
  wf1 (gr_g1 r) -> wf2 (gr_g2 r) ->
  gg_generator D cs r chunks = Ok (pk, vk) ->
  combined_polynomial D (col (@qe_At F)) (p ++ a) A ->
  combined_polynomial D (col (@qe_Bt F)) (p ++ a) B ->
  if A`_(d_size D - 1) * B`_(d_size D - 1) != 0 then
  exists2 pi, gg_prover D pk p a rr s = Ok pi &
    [/\ gg_verifier_weak_IC vk p pi = Ok true, gg_verifier_strong_IC vk p pi = Ok true &
        gg_affine_verifier_weak_IC vk p pi = Ok true]
  else gg_prover D pk p a rr s = AssertFail.
Proof. exact (@gg_exact F P D cs r chunks pk vk p a rr s A B). Qed.
Print Assumptions C14_groth16_complete.

(** Whatever the prover returns for a satisfying input is accepted. *)
Theorem C14_groth16_accepts (F : fieldType) (P : pairing F) (D : evaluation_domain F) (cs : r1cs F)
    (r : gg_gen_random P) (chunks : nat) pk vk (p a : seq F) (rr s : F) pi :
  (num_constraints cs + num_inputs cs + 1 <= d_size D)%N -> (2 <= d_size D)%N ->
  r1cs_is_satisfied cs p a = Ok true ->
  wf1 (gr_g1 r) -> wf2 (gr_g2 r) ->
  gg_generator D cs r chunks = Ok (pk, vk) -> gg_prover D pk p a rr s = Ok pi ->
  [/\ gg_verifier_weak_IC vk p pi = Ok true, gg_verifier_strong_IC vk p pi = Ok true &
      gg_affine_verifier_weak_IC vk p pi = Ok true].
Proof. exact (@gg_accepts F P D cs r chunks pk vk p a rr s pi). Qed.
Print Assumptions C14_groth16_accepts.

(** The system x1 * x1 = x1 without public input is satisfied by x1 = 1, and on
    its two-point domain the honest prover aborts for every randomness. *)
Theorem C14_groth16_prover_total_refuted (F : fieldType) (P : pairing F) (D : evaluation_domain F)
    (r : gg_gen_random P) (chunks : nat) pk vk (rr s : F) :
  let x1 : linear_combination F := [:: (1%N, 1)] in
  let cs := R1cs 0 1 [:: R1csConstraint x1 x1 x1] in
  d_size D = 2%N -> gg_generator D cs r chunks = Ok (pk, vk) ->
  r1cs_is_satisfied cs [::] [:: 1] = Ok true /\ gg_prover D pk [::] [:: 1] rr s = AssertFail.
Proof. exact (fun hD hg => conj (bool_cs_sat F) (@gg_prover_aborts F P D r chunks pk vk rr s hD hg)). Qed.
Print Assumptions C14_groth16_prover_total_refuted.

Theorem C14_groth16_generator_total (F : fieldType) (P : pairing F) (D : evaluation_domain F) (cs : r1cs F)
    (r : gg_gen_random P) (chunks : nat) :
  r1cs_in_range cs -> (num_constraints cs + num_inputs cs + 1 <= d_size D)%N ->
  (exists pk vk, gg_generator D cs r chunks = Ok (pk, vk)) /\ (gr_gamma r != 0) && (gr_delta r != 0)
  \/ gg_generator D cs r chunks = AssertFail /\ ((gr_gamma r == 0) || (gr_delta r == 0)).
Proof. exact (@gg_generator_total F P D cs r chunks). Qed.
Print Assumptions C14_groth16_generator_total.

(** Arbitrary proof elements under honest keys: the verifier accepts exactly
    when a b = alpha beta + (input terms) + c delta. *)
Theorem C14_groth16_verdict (F : fieldType) (P : pairing F) (D : evaluation_domain F) (cs : r1cs F)
    (r : gg_gen_random P) (chunks : nat) pk vk (p : seq F) :
  r1cs_in_range cs -> (num_constraints cs + num_inputs cs + 1 <= d_size D)%N ->
  gg_generator D cs r chunks = Ok (pk, vk) ->
  wf1 (gr_g1 r) -> wf2 (gr_g2 r) ->
  e (gr_g1 r) (gr_g2 r) != 0 -> (size p <= num_inputs cs)%N ->
  exists2 q, r1cs_to_qap_instance_map_with_evaluation D (gk_cs pk) (gr_t r) = Ok q &
  let term i := gr_beta r * (qe_At q)`_i + gr_alpha r * (qe_Bt q)`_i + (qe_Ct q)`_i in
  forall a b c,
  gg_verifier_weak_IC vk p (GgProof (P := P) (a *: gr_g1 r) (b *: gr_g2 r) (c *: gr_g1 r)) =
  Ok (a * b == gr_alpha r * gr_beta r + (term 0%N + \sum_(i < size p) p`_i * term i.+1) + c * gr_delta r).
Proof. exact (@gg_verdict F P D cs r chunks pk vk p). Qed.
Print Assumptions C14_groth16_verdict.

(** * C15: the simulation-extractable ppzkSNARK *)

Theorem C15_se_complete (F : fieldType) (P : pairing F) (D : evaluation_domain F) (cs : r1cs F)
    (r : se_gen_random P) pk vk (p a : seq F) (d1 d2 rr : F) :
  (2 * num_constraints cs + 2 * num_inputs cs + 1 <= d_size D)%N ->
  r1cs_is_satisfied cs p a = Ok true ->
  wf1 (sr_G r) -> wf2 (sr_H r) ->
  se_generator D cs r = Some (Ok (pk, vk)) ->
  exists2 pi, se_prover D pk p a d1 d2 rr = Ok pi &
    se_verifier_weak_IC vk p pi = Ok true /\ se_verifier_strong_IC vk p pi = Ok true.
Proof. exact (@se_complete F P D cs r pk vk p a d1 d2 rr). Qed.
Print Assumptions C15_se_complete.

(** [sr_ts] are the successive draws of t: the generator returns keys as soon
    as one of them is outside the domain, and keeps drawing otherwise. *)
Theorem C15_se_generator_total (F : fieldType) (P : pairing F) (D : evaluation_domain F) (cs : r1cs F)
    (r : se_gen_random P) :
  r1cs_in_range cs -> (2 * num_constraints cs + 2 * num_inputs cs + 1 <= d_size D)%N ->
  if has (fun t => t \notin d_points D) (sr_ts r)
  then exists pk vk, se_generator D cs r = Some (Ok (pk, vk)) else se_generator D cs r = None.
Proof. exact (@se_generator_total F P D cs r). Qed.
Print Assumptions C15_se_generator_total.

Theorem C15_se_verdict (F : fieldType) (P : pairing F) (D : evaluation_domain F) (cs : r1cs F)
    (r : se_gen_random P) pk vk (p : seq F) :
  r1cs_in_range cs -> (2 * num_constraints cs + 2 * num_inputs cs + 1 <= d_size D)%N ->
  se_generator D cs r = Some (Ok (pk, vk)) ->
  wf1 (sr_G r) -> wf2 (sr_H r) ->
  e (sr_G r) (sr_H r) != 0 -> sr_gamma r != 0 -> size p = num_inputs cs ->
  exists t q, [/\ t \in sr_ts r, t \notin d_points D,
    r1cs_to_sap_instance_map_with_evaluation D (sk_cs pk) t = Ok q &
  let term i := sr_gamma r * (se_Ct q)`_i + (sr_alpha r + sr_beta r) * (se_At q)`_i in
  forall a b c,
  se_verifier_weak_IC vk p (SeProof (P := P) (a *: sr_G r) (b *: sr_H r) (c *: sr_G r)) =
  Ok ((a == b) && ((a + sr_alpha r) * (b + sr_beta r) ==
       sr_alpha r * sr_beta r + (term 0%N + \sum_(i < size p) p`_i * term i.+1) * sr_gamma r + c))].
Proof. exact (@se_verdict F P D cs r pk vk p). Qed.
Print Assumptions C15_se_verdict.

(** * C16: USCS ppzkSNARK *)

Theorem C16_uscs_ppzksnark_complete (F : fieldType) (P : pairing F) (D : evaluation_domain F) (cs : uscs F)
    (r : uscs_gen_random F) pk vk (p a : seq F) (d : F) :
  (0 < d_size D)%N && (u_num_constraints cs <= d_size D)%N ->
  uscs_is_satisfied cs p a = Ok true ->
  uscs_generator P D cs r = Ok (pk, vk) ->
  exists2 pi, uscs_prover D pk p a d = Ok pi &
    uscs_verifier_weak_IC vk p pi = Ok true /\ uscs_verifier_strong_IC vk p pi = Ok true.
Proof. exact (@uscs_complete F P D cs r pk vk p a d). Qed.
Print Assumptions C16_uscs_ppzksnark_complete.

(** An input variable whose coefficient is zero in every constraint makes the
    generator abort for every randomness. *)
Theorem C16_uscs_generator_total_refuted (F : fieldType) (P : pairing F) (D : evaluation_domain F) (cs : uscs F)
    (r : uscs_gen_random F) (k : nat) :
  uscs_in_range cs -> (0 < d_size D)%N && (u_num_constraints cs <= d_size D)%N ->
  (0 < k <= u_num_inputs cs)%N ->
  (forall c, List.In c (u_constraints cs) -> \sum_(tm <- c | tm.1 == k) tm.2 = 0) ->
  uscs_generator P D cs r = AssertFail.
Proof. exact (@uscs_generator_aborts F P D cs r k). Qed.
Print Assumptions C16_uscs_generator_total_refuted.

(** Otherwise it aborts for at most (inputs + 1)(m - 1) of the points t. *)
Theorem C16_uscs_generator_abort_bound (F : fieldType) (P : pairing F) (D : evaluation_domain F) (cs : uscs F)
    (rs : seq (uscs_gen_random F)) :
  uscs_in_range cs -> (0 < d_size D)%N && (u_num_constraints cs <= d_size D)%N ->
  (forall k, (k <= u_num_inputs cs)%N ->
     (exists2 c, List.In c (u_constraints cs) & \sum_(tm <- c | tm.1 == k) tm.2 != 0) \/
     k = 0%N /\ (u_num_constraints cs < d_size D)%N) ->
  uniq [seq ur_t r | r <- rs] ->
  (forall r, List.In r rs -> uscs_generator P D cs r = AssertFail) ->
  (size rs <= (u_num_inputs cs).+1 * (d_size D).-1)%N.
Proof. exact (@uscs_generator_abort_bound F P D cs rs). Qed.
Print Assumptions C16_uscs_generator_abort_bound.

Theorem C16_uscs_generator_total (F : fieldType) (P : pairing F) (D : evaluation_domain F) (cs : uscs F)
    (r : uscs_gen_random F) :
  uscs_in_range cs -> (0 < d_size D)%N && (u_num_constraints cs <= d_size D)%N ->
  (exists pk vk, uscs_generator P D cs r = Ok (pk, vk)) \/ uscs_generator P D cs r = AssertFail.
Proof. exact (@uscs_generator_total F P D cs r). Qed.
Print Assumptions C16_uscs_generator_total.

Theorem C16_uscs_verdict (F : fieldType) (P : pairing F) (D : evaluation_domain F) (cs : uscs F)
    (r : uscs_gen_random F) pk vk (p : seq F) :
  let g1 := G1_one P in let g2 := G2_one P in
  uscs_in_range cs -> (0 < d_size D)%N && (u_num_constraints cs <= d_size D)%N ->
  uscs_generator P D cs r = Ok (pk, vk) ->
  e g1 g2 != 0 -> size p = u_num_inputs cs ->
  exists2 q, uscs_to_ssp_instance_map_with_evaluation D (uk_cs pk) (ur_t r) = Ok q &
  let acc := (pe_Vt q)`_0 + \sum_(i < size p) p`_i * (pe_Vt q)`_i.+1 in
  forall v av h v2,
  uscs_verifier_weak_IC vk p (UscsProof (P := P) (v *: g1) (av *: g1) (h *: g1) (v2 *: g2)) =
  Ok [&& v2 == v + acc, (v + acc) * v2 == h * pe_Zt q + 1 &
         v * (ur_alpha r * ur_tilde r) == av * ur_tilde r].
Proof. exact (@uscs_verdict F P D cs r pk vk p). Qed.
Print Assumptions C16_uscs_verdict.

(** * C17: circuits *)

Theorem C17_bacs_ppzksnark_complete (F : fieldType) (P : pairing F) (D : evaluation_domain F) (c : bacs_circuit F)
    cs (r : r1cs_gen_random F) (chunks : nat) pk vk (p a : seq F) (d1 d2 d3 : F) :
  bacs_is_valid c = Ok true ->
  size p = b_primary_input_size c -> size a = b_auxiliary_input_size c ->
  bacs_is_satisfied c p a = Ok true ->
  bacs_to_r1cs_instance_map c = Ok cs -> (num_constraints cs + num_inputs cs + 1 <= d_size D)%N ->
  bacs_generator P D c r chunks = Ok (pk, vk) ->
  exists2 pi, bacs_prover D pk p a d1 d2 d3 = Ok pi &
    bacs_verifier_weak_IC vk p pi = Ok true /\ bacs_verifier_strong_IC vk p pi = Ok true.
Proof. exact (@bacs_ppzksnark_complete F P D c cs r chunks pk vk p a d1 d2 d3). Qed.
Print Assumptions C17_bacs_ppzksnark_complete.

Theorem C17_bacs_generator_abort_bound (F : fieldType) (P : pairing F) (D : evaluation_domain F)
    (c : bacs_circuit F) cs (rs : seq (r1cs_gen_random F)) (chunks : nat) :
  bacs_is_valid c = Ok true ->
  bacs_to_r1cs_instance_map c = Ok cs -> (num_constraints cs + num_inputs cs + 1 <= d_size D)%N ->
  uniq [seq rg_t r | r <- rs] ->
  (forall r, List.In r rs -> bacs_generator P D c r chunks = AssertFail) ->
  (size rs <= (b_primary_input_size c).+1 * (d_size D).-1)%N.
Proof. exact (@bacs_generator_abort_bound F P D c cs rs chunks). Qed.
Print Assumptions C17_bacs_generator_abort_bound.

Theorem C17_tbcs_ppzksnark_complete (F : fieldType) (P : pairing F) (D : evaluation_domain F) (c : tbcs_circuit)
    cs (r : uscs_gen_random F) pk vk (p a : seq bool) (d : F) :
  tbcs_is_valid c -> tbcs_types_ok c ->
  size p = t_primary_input_size c -> size a = t_auxiliary_input_size c ->
  tbcs_is_satisfied c p a = Ok true ->
  tbcs_to_uscs_instance_map F c = Ok cs -> (0 < d_size D)%N && (u_num_constraints cs <= d_size D)%N ->
  tbcs_generator P D c r = Ok (pk, vk) ->
  exists2 pi, tbcs_prover D pk p a d = Ok pi &
    tbcs_verifier_weak_IC vk p pi = Ok true /\ tbcs_verifier_strong_IC vk p pi = Ok true.
Proof. exact (@tbcs_ppzksnark_complete F P D c cs r pk vk p a d). Qed.
Print Assumptions C17_tbcs_ppzksnark_complete.

Theorem C17_tbcs_generator_abort_bound (F : fieldType) (P : pairing F) (D : evaluation_domain F)
    (c : tbcs_circuit) cs (rs : seq (uscs_gen_random F)) :
  (2%:R : F) != 0 -> (0 < size (t_gates c))%N ->
  tbcs_to_uscs_instance_map F c = Ok cs -> (0 < d_size D)%N && (u_num_constraints cs <= d_size D)%N ->
  uniq [seq ur_t r | r <- rs] ->
  (forall r, List.In r rs -> tbcs_generator P D c r = AssertFail) ->
  (size rs <= (t_primary_input_size c).+1 * (d_size D).-1)%N.
Proof. exact (@tbcs_generator_abort_bound F P D c cs rs). Qed.
Print Assumptions C17_tbcs_generator_abort_bound.

(** * C18: the verifier variants, for arbitrary keys and proofs.

    The input-consistency query of a key is [av_of_vector first es]: an
    accumulation vector for [size es] inputs.  [acc] is the query combined with
    the input. *)

Theorem C18_r1cs_verifiers (F : fieldType) (P : pairing F) (vk : r1cs_verification_key P) first es
    (p : seq F) (pi : r1cs_proof P) :
  vk_IC vk = av_of_vector first es ->
  let acc := first + \sum_(0 <= j < size p) p`_j *: es`_j in
  let equations :=
    [&& e (pf_A pi).1 (vk_alphaA_g2 vk) == e (pf_A pi).2 (G2_one P),
        e (vk_alphaB_g1 vk) (pf_B pi).1 == e (pf_B pi).2 (G2_one P),
        e (pf_C pi).1 (vk_alphaC_g2 vk) == e (pf_C pi).2 (G2_one P),
        e ((pf_A pi).1 + acc) (pf_B pi).1 == e (pf_H pi) (vk_rC_Z_g2 vk) + e (pf_C pi).1 (G2_one P) &
        e (pf_K pi) (vk_gamma_g2 vk) == e ((pf_A pi).1 + acc + (pf_C pi).1) (vk_gamma_beta_g2 vk)
                                       + e (vk_gamma_beta_g1 vk) (pf_B pi).1] in
  let well_formed :=
    [&& wf1 (pf_A pi).1, wf1 (pf_A pi).2, wf2 (pf_B pi).1, wf1 (pf_B pi).2,
        wf1 (pf_C pi).1, wf1 (pf_C pi).2, wf1 (pf_H pi) & wf1 (pf_K pi)] in
  [/\ r1cs_verifier_weak_IC vk p pi =
        (if (size p <= size es)%N then Ok (well_formed && equations) else AssertFail),
      r1cs_verifier_strong_IC vk p pi =
        (if size p == size es then r1cs_verifier_weak_IC vk p pi else Ok false),
      r1cs_affine_verifier_weak_IC vk p pi = (if size p == size es then Ok equations else AssertFail),
      (forall n, (size p + n <= size es)%N ->
         r1cs_verifier_weak_IC vk (p ++ nseq n 0) pi = r1cs_verifier_weak_IC vk p pi) &
      r1cs_online_verifier_weak_IC (r1cs_process_vk vk) p pi = r1cs_verifier_weak_IC vk p pi /\
      r1cs_online_verifier_strong_IC (r1cs_process_vk vk) p pi = r1cs_verifier_strong_IC vk p pi].
Proof. exact (@r1cs_verifiers F P vk first es p pi). Qed.
Print Assumptions C18_r1cs_verifiers.

Theorem C18_groth16_verifiers (F : fieldType) (P : pairing F) (vk : gg_verification_key P) first es
    (p : seq F) (pi : gg_proof P) :
  gv_ABC vk = av_of_vector first es ->
  let acc := first + \sum_(0 <= j < size p) p`_j *: es`_j in
  [/\ gg_verifier_weak_IC vk p pi =
        (if (size p <= size es)%N
         then Ok ([&& wf1 (gp_A pi), wf2 (gp_B pi) & wf1 (gp_C pi)] && (e (gp_A pi) (gp_B pi) ==
                gv_alpha_beta vk + e acc (gv_gamma_g2 vk) + e (gp_C pi) (gv_delta_g2 vk))) else AssertFail),
      gg_verifier_strong_IC vk p pi =
        (if size p == size es then gg_verifier_weak_IC vk p pi else Ok false),
      gg_affine_verifier_weak_IC vk p pi = gg_verifier_weak_IC vk p pi,
      (forall n, (size p + n <= size es)%N ->
         gg_verifier_weak_IC vk (p ++ nseq n 0) pi = gg_verifier_weak_IC vk p pi) &
      gg_online_verifier_weak_IC (gg_process_vk vk) p pi = gg_verifier_weak_IC vk p pi /\
      gg_online_verifier_strong_IC (gg_process_vk vk) p pi = gg_verifier_strong_IC vk p pi].
Proof. exact (@gg_verifiers F P vk first es p pi). Qed.
Print Assumptions C18_groth16_verifiers.

(** The weak verifier of the simulation-extractable scheme reads out of bounds
    unless the input has exactly the declared length, so the documented reading
    of shorter inputs fails for it. *)
Theorem C18_se_verifiers (F : fieldType) (P : pairing F) (vk : se_verification_key P) q0 qs
    (p : seq F) (pi : se_proof P) :
  sv_query vk = q0 :: qs ->
  let psi := q0 + \sum_(i < size p) p`_i *: qs`_i in
  [/\ se_verifier_weak_IC vk p pi =
        (if size p == size qs
         then Ok ([&& wf1 (spi_A pi), wf2 (spi_B pi) & wf1 (spi_C pi)] &&
           ((e (spi_A pi + sv_G_alpha vk) (spi_B pi + sv_H_beta vk)
             == e (sv_G_alpha vk) (sv_H_beta vk) + e psi (sv_H_gamma vk) + e (spi_C pi) (sv_H vk))
            && (e (spi_A pi) (sv_H_gamma vk) == e (sv_G_gamma vk) (spi_B pi)))) else UB),
      se_verifier_strong_IC vk p pi =
        (if size p == size qs then se_verifier_weak_IC vk p pi else Ok false) &
      se_online_verifier_weak_IC (se_process_vk vk) p pi = se_verifier_weak_IC vk p pi /\
      se_online_verifier_strong_IC (se_process_vk vk) p pi = se_verifier_strong_IC vk p pi].
Proof. exact (@se_verifiers F P vk q0 qs p pi). Qed.
Print Assumptions C18_se_verifiers.

(** The weak verifier of the USCS scheme aborts unless the input has exactly the
    declared length. *)
Theorem C18_uscs_verifiers (F : fieldType) (P : pairing F) (vk : uscs_verification_key P) first es
    (p : seq F) (pi : uscs_proof P) :
  uv_IC vk = av_of_vector first es ->
  let acc := first + \sum_(0 <= j < size p) p`_j *: es`_j in
  [/\ uscs_verifier_weak_IC vk p pi =
        (if size p == size es
         then Ok ([&& wf1 (upi_V_g1 pi), wf1 (upi_alpha_V_g1 pi), wf1 (upi_H_g1 pi) & wf2 (upi_V_g2 pi)] &&
           [&& e (upi_V_g1 pi + acc) (G2_one P) == e (G1_one P) (upi_V_g2 pi),
               e (upi_V_g1 pi + acc) (upi_V_g2 pi) == e (upi_H_g1 pi) (uv_Z_g2 vk) + e (G1_one P) (G2_one P) &
               e (upi_V_g1 pi) (uv_alpha_tilde_g2 vk) == e (upi_alpha_V_g1 pi) (uv_tilde_g2 vk)])
         else AssertFail),
      uscs_verifier_strong_IC vk p pi =
        (if size p == size es then uscs_verifier_weak_IC vk p pi else Ok false) &
      uscs_online_verifier_weak_IC (uscs_process_vk vk) p pi = uscs_verifier_weak_IC vk p pi /\
      uscs_online_verifier_strong_IC (uscs_process_vk vk) p pi = uscs_verifier_strong_IC vk p pi].
Proof. exact (@uscs_verifiers F P vk first es p pi). Qed.
Print Assumptions C18_uscs_verifiers.

(** Consequence for inputs shorter than declared: the reading "extended by
    zeros" holds for the first two schemes and fails for the other two. *)
Theorem C18_short_input_refuted (F : fieldType) (P : pairing F) (first : G1 P) (es : seq (G1 P)) (p : seq F) :
  (size p < size es)%N ->
  (forall (vk : se_verification_key P) pi, sv_query vk = first :: es -> se_verifier_weak_IC vk p pi = UB) /\
  (forall (vk : uscs_verification_key P) pi, uv_IC vk = av_of_vector first es ->
     uscs_verifier_weak_IC vk p pi = AssertFail).
Proof. exact (@short_input F P first es p). Qed.
Print Assumptions C18_short_input_refuted.

(** * C51: perfect zero knowledge

    [*_simulate] computes a proof from the generator's randomness and the
    primary input, without the witness.  For every witness there is a bijection
    between the prover's and the simulator's randomness under which the proofs
    coincide, so uniform randomness gives equal distributions. *)

Theorem C51_r1cs_zero_knowledge (F : fieldType) (P : pairing F) (D : evaluation_domain F) (cs : r1cs F)
    (r : r1cs_gen_random F) (chunks : nat) pk vk (p : seq F) :
  r1cs_in_range cs -> (num_constraints cs + num_inputs cs + 1 <= d_size D)%N ->
  r1cs_generator P D cs r chunks = Ok (pk, vk) -> rg_t r \notin d_points D ->
  exists2 q, r1cs_to_qap_instance_map_with_evaluation D (pk_cs pk) (rg_t r) = Ok q &
  forall a, r1cs_is_satisfied cs p a = Ok true ->
  exists2 f : F * F * F -> F * F * F, bijective f &
    forall d1 d2 d3, r1cs_prover D pk p a d1 d2 d3 = Ok (r1cs_simulate P r q p (f (d1, d2, d3))).
Proof. exact (@r1cs_zero_knowledge F P D cs r chunks pk vk p). Qed.
Print Assumptions C51_r1cs_zero_knowledge.

Theorem C51_groth16_zero_knowledge (F : fieldType) (P : pairing F) (D : evaluation_domain F) (cs : r1cs F)
    (r : gg_gen_random P) (chunks : nat) pk vk (p : seq F) :
  r1cs_in_range cs -> (num_constraints cs + num_inputs cs + 1 <= d_size D)%N -> (2 <= d_size D)%N ->
  gg_generator D cs r chunks = Ok (pk, vk) ->
  exists2 q, r1cs_to_qap_instance_map_with_evaluation D (gk_cs pk) (gr_t r) = Ok q &
  forall a, r1cs_is_satisfied cs p a = Ok true ->
  (forall rr s, gg_prover D pk p a rr s = AssertFail) \/
  exists2 f : F * F -> F * F, bijective f &
    forall rr s, gg_prover D pk p a rr s = Ok (gg_simulate r q p (f (rr, s))).
Proof. exact (@gg_zero_knowledge F P D cs r chunks pk vk p). Qed.
Print Assumptions C51_groth16_zero_knowledge.

Theorem C51_se_zero_knowledge (F : fieldType) (P : pairing F) (D : evaluation_domain F) (cs : r1cs F)
    (r : se_gen_random P) pk vk (p : seq F) :
  r1cs_in_range cs -> (2 * num_constraints cs + 2 * num_inputs cs + 1 <= d_size D)%N ->
  se_generator D cs r = Some (Ok (pk, vk)) -> sr_gamma r != 0 ->
  exists t q, [/\ t \in sr_ts r, r1cs_to_sap_instance_map_with_evaluation D (sk_cs pk) t = Ok q &
  forall a, r1cs_is_satisfied cs p a = Ok true ->
  forall d1 d2, exists2 f : F -> F, bijective f &
    forall rr, se_prover D pk p a d1 d2 rr = Ok (se_simulate r q p (f rr))].
Proof. exact (@se_zero_knowledge F P D cs r pk vk p). Qed.
Print Assumptions C51_se_zero_knowledge.

Theorem C51_uscs_zero_knowledge (F : fieldType) (P : pairing F) (D : evaluation_domain F) (cs : uscs F)
    (r : uscs_gen_random F) pk vk (p : seq F) :
  uscs_in_range cs -> (0 < d_size D)%N && (u_num_constraints cs <= d_size D)%N ->
  uscs_generator P D cs r = Ok (pk, vk) -> ur_t r \notin d_points D ->
  exists2 q, uscs_to_ssp_instance_map_with_evaluation D (uk_cs pk) (ur_t r) = Ok q &
  forall a, uscs_is_satisfied cs p a = Ok true ->
  exists2 f : F -> F, bijective f &
    forall d, uscs_prover D pk p a d = Ok (uscs_simulate P r q p (f d)).
Proof. exact (@uscs_zero_knowledge F P D cs r pk vk p). Qed.
Print Assumptions C51_uscs_zero_knowledge.

(** * The hypotheses are met *)

(** Among more candidates than the bound one is good. *)
Lemma ex_good (T R : Type) (gen : T -> outcome R) (rs : seq T) n :
  (forall r, (exists k, gen r = Ok k) \/ gen r = AssertFail) ->
  (forall rs', (forall r, List.In r rs' -> List.In r rs) -> (forall r, List.In r rs' -> gen r = AssertFail) ->
     rs' = rs -> (size rs' <= n)%N) ->
  (n < size rs)%N -> exists2 r, List.In r rs & exists k, gen r = Ok k.
Proof.
move=> ht hb hn.
have [h|h] : (forall r, List.In r rs -> gen r = AssertFail) \/ exists2 r, List.In r rs & exists k, gen r = Ok k.
  elim: {hb hn} rs => [|r rs [IH|[r' h1 h2]]]; first by left.
    have [hk|hk] := ht r; first by right; exists r; [left|].
    by left=> r' [<-|/IH].
  by right; exists r'; [right|].
  by have := hb rs (fun _ x => x) h erefl; rewrite leqNgt hn.
exact: h.
Qed.

Lemma ex_coset11b : all (fun x => (vanishing ([:: 1; 2%:R; 4%:R] : seq F11)).[5%:R * x] != 0)
                       ([:: 1; 2%:R; 4%:R] : seq F11).
Proof. by rewrite /= /vanishing !horner_prod !big_cons !big_nil !hornerXsubC; vm_compute. Qed.
Definition ex_domain11b : evaluation_domain F11 :=
  @EvaluationDomain F11 [:: 1; 2%:R; 4%:R] 5%:R isT isT ex_coset11b.
Definition ex_rs : seq (r1cs_gen_random F11) :=
  [seq R1csGenRandom t 2%:R 3%:R 4%:R 5%:R 6%:R 7%:R 8%:R
  | t <- [:: 0; 3%:R; 5%:R; 6%:R; 7%:R; 8%:R; 9%:R; 10%:R] : seq F11].

(** Keys exist for x2 * x2 = x1 over F_11 with a point outside the domain, and
    x1 = 9, x2 = 3 satisfies it. *)
Example C13_C51_nonvacuous :
  exists r pk vk, [/\ r1cs_generator (toy_pairing F11) ex_domain11b (ex_square F11) r 1 = Ok (pk, vk),
     (num_constraints (ex_square F11) + num_inputs (ex_square F11) + 1 <= d_size ex_domain11b)%N,
     r1cs_is_satisfied (ex_square F11) [:: 9%:R] [:: 3%:R] = Ok true,
     rg_t r \notin d_points ex_domain11b & e (G1_one (toy_pairing F11)) (G2_one (toy_pairing F11)) != 0].
Proof.
have hr : r1cs_in_range (ex_square F11) by [].
have hm : qap_large ex_domain11b (ex_square F11) by [].
have [r hin [[pk vk] hk]] : exists2 r, List.In r ex_rs & exists k,
    r1cs_generator (toy_pairing F11) ex_domain11b (ex_square F11) r 1 = Ok k.
  apply: (@ex_good _ _ _ ex_rs 4).
  - move=> r; have [[pk [vk h]]|h] := C13_r1cs_generator_total (toy_pairing F11) r 1 hr hm; [left|by right].
    by exists (pk, vk).
  - move=> rs' _ h2 e; have := C13_r1cs_generator_abort_bound hr hm _ h2; rewrite e; apply; by vm_compute.
  - by [].
exists r, pk, vk; split=> //.
by repeat case: hin => [<-|hin]; try by vm_compute.
Qed.

Definition ex_gg : gg_gen_random (toy_pairing F11) :=
  @GgGenRandom F11 (toy_pairing F11) 3%:R 4%:R 5%:R 6%:R 7%:R 8%:R 9%:R.
Lemma ex_coset11c : all (fun x => (vanishing ([:: 1; 10%:R] : seq F11)).[2%:R * x] != 0) ([:: 1; 10%:R] : seq F11).
Proof. by rewrite /= /vanishing !horner_prod !big_cons !big_nil !hornerXsubC; vm_compute. Qed.
Definition ex_domain11c : evaluation_domain F11 := @EvaluationDomain F11 [:: 1; 10%:R] 2%:R isT isT ex_coset11c.
(** x1 * x1 = 4 *)
Definition ex_four : r1cs F11 := R1cs 0 1 [:: R1csConstraint [:: (1%N, 1)] [:: (1%N, 1)] [:: (0%N, 4%:R)]].

(** Keys exist, and the honest prover, which aborts on x1 * x1 = x1, returns a
    proof on x1 * x1 = 4. *)
Example C14_C51_nonvacuous :
  [/\ wf1 (gr_g1 ex_gg), wf2 (gr_g2 ex_gg), e (gr_g1 ex_gg) (gr_g2 ex_gg) != 0,
      (exists pk vk, gg_generator ex_domain11c (bool_cs F11) ex_gg 1 = Ok (pk, vk)) &
      exists pk vk pi, [/\ r1cs_is_satisfied ex_four [::] [:: 2%:R] = Ok true,
        gg_generator ex_domain11c ex_four ex_gg 1 = Ok (pk, vk) &
        gg_prover ex_domain11c pk [::] [:: 2%:R] 3%:R 5%:R = Ok pi]].
Proof.
split=> //.
  have := C14_groth16_generator_total (D := ex_domain11c) ex_gg 1 (isT : r1cs_in_range (bool_cs F11)) isT.
  by case=> -[] //.
have hr : r1cs_in_range ex_four by [].
have hm : qap_large ex_domain11c ex_four by [].
have hs : r1cs_is_satisfied ex_four [::] [:: 2%:R] = Ok true by vm_compute.
have [[[pk [vk hg]] _]|[_ h]] := C14_groth16_generator_total ex_gg 1 hr hm; last by move: h.
have [cs' hsw] := @gg_complete _ _ _ _ ex_gg _ _ _ _ _ 3%:R 5%:R hm isT hs isT isT hg.
have e1 : cs' = ex_four by move: hsw => -[].
subst cs'; have sz (p : {poly F11}) : (size p <= 2)%N -> p`_1 = 0 -> p = (p`_0)%:P.
  move=> h1 h2; apply/polyP => i; rewrite coefC; case: i => [|[|i]] //=.
  by apply: nth_default; apply: leq_trans h1 _.
have nz (l : seq (update F11)) : row_sum l [:: 2%:R] 0 != row_sum l [:: 2%:R] 1 ->
    (row_poly ex_domain11c l [:: 2%:R])`_1 != 0.
  move=> h; apply/eqP => h0; move: h; rewrite -!(row_poly_nth (D := ex_domain11c)) //.
  by rewrite (sz _ (size_row_poly ex_domain11c l [:: 2%:R]) h0) !hornerC eqxx.
rewrite ifT; first by move=> [pi hpi _]; exists pk, vk, pi.
rewrite mulf_neq0 //; apply: nz.
- rewrite !A_row /= /formal_sum !big_cons !big_nil /=; by vm_compute.
- rewrite !row_sum_qap // /= /formal_sum !big_cons !big_nil /=; by vm_compute.
Qed.

Definition ex_se : se_gen_random (toy_pairing F11) :=
  @SeGenRandom F11 (toy_pairing F11) [:: 3%:R; 5%:R; 2%:R] 4%:R 5%:R 6%:R 7%:R 8%:R.
(** The first two draws, 3 and 5, are in the domain. *)
Example C15_C51_nonvacuous :
  [/\ (2 * num_constraints (ex_square F11) + 2 * num_inputs (ex_square F11) + 1 <= d_size ex_domain11)%N,
      r1cs_is_satisfied (ex_square F11) [:: 9%:R] [:: 3%:R] = Ok true,
      wf1 (sr_G ex_se) && wf2 (sr_H ex_se) /\ e (sr_G ex_se) (sr_H ex_se) != 0, sr_gamma ex_se != 0 &
      exists pk vk, se_generator ex_domain11 (ex_square F11) ex_se = Some (Ok (pk, vk))].
Proof.
split; [by vm_compute|by vm_compute| | |].
- by split; [|vm_compute].
- by vm_compute.
have := C15_se_generator_total (D := ex_domain11) ex_se (isT : r1cs_in_range (ex_square F11)) isT.
exact.
Qed.

Definition ex_urs : seq (uscs_gen_random F11) :=
  [seq UscsGenRandom t 2%:R 3%:R | t <- [:: 0; 3%:R; 5%:R; 6%:R; 7%:R; 8%:R; 9%:R; 10%:R] : seq F11].
Definition ex_uscs11 : uscs F11 := Uscs 1 1 [:: [:: (1%N, 1); (2%N, 1)]; [:: (2%N, 1)]].
Example C16_C51_nonvacuous :
  exists r pk vk, [/\ uscs_generator (toy_pairing F11) ex_domain11b ex_uscs11 r = Ok (pk, vk),
     (0 < d_size ex_domain11b)%N && (u_num_constraints ex_uscs11 <= d_size ex_domain11b)%N,
     uscs_is_satisfied ex_uscs11 [:: 2%:R] [:: 10%:R] = Ok true & ur_t r \notin d_points ex_domain11b].
Proof.
have hr : uscs_in_range ex_uscs11 by [].
have hm : ssp_large ex_domain11b ex_uscs11 by [].
have [r hin [[pk vk] hk]] : exists2 r, List.In r ex_urs & exists k,
    uscs_generator (toy_pairing F11) ex_domain11b ex_uscs11 r = Ok k.
  apply: (@ex_good _ _ _ ex_urs 4).
  - move=> r; have [[pk [vk h]]|h] := C16_uscs_generator_total (toy_pairing F11) r hr hm; [left|by right].
    by exists (pk, vk).
  - move=> rs' _ h2 e; have := C16_uscs_generator_abort_bound hr hm _ _ h2; rewrite e; apply; last by vm_compute.
    case=> [|[|//]] _; first by right.
    by left; exists [:: (1%N, 1); (2%N, 1)]; [left|rewrite !big_cons big_nil; vm_compute].
  - by [].
exists r, pk, vk; split=> //.
by repeat case: hin => [<-|hin]; try by vm_compute.
Qed.
(** The second input occurs in no constraint. *)
Example C16_refuted_nonvacuous :
  let cs : uscs F11 := Uscs 2 1 [:: [:: (1%N, 1); (3%N, 1)]; [:: (3%N, 1); (2%N, 1); (2%N, - 1)]] in
  [/\ uscs_in_range cs, (0 < 2 <= u_num_inputs cs)%N,
      (forall c, List.In c (u_constraints cs) -> \sum_(tm <- c | tm.1 == 2%N) tm.2 = 0) &
      uscs_is_satisfied cs [:: 2%:R; 4%:R] [:: 10%:R] = Ok true].
Proof.
split=> //.
by move=> c [<-|[<-|[]]]; rewrite !big_cons big_nil; apply/eqP; vm_compute.
Qed.

Definition ex_bacs11 : bacs_circuit F11 :=
  BacsCircuit 1%N 0%N [:: BacsGate [:: (0%N, 1); (1%N, 1)] [:: (1%N, 1)] 2%N true].
(** 2 * 1 gates and outputs, one input: a domain of 5 points. *)
Example C17_bacs_nonvacuous :
  exists cs r pk vk,
  [/\ bacs_is_valid ex_bacs11 = Ok true, bacs_is_satisfied ex_bacs11 [:: 10%:R] [::] = Ok true,
      bacs_to_r1cs_instance_map ex_bacs11 = Ok cs, (num_constraints cs + num_inputs cs + 1 <= d_size ex_domain11)%N &
      bacs_generator (toy_pairing F11) ex_domain11 ex_bacs11 r 1 = Ok (pk, vk)].
Proof.
have hv : bacs_is_valid ex_bacs11 = Ok true by vm_compute.
have [cs hcs _] := bacs_instance hv.
have hm : (num_constraints cs + num_inputs cs + 1 <= d_size ex_domain11)%N by move: hcs => -[<-].
pose rs := [seq R1csGenRandom t 2%:R 3%:R 4%:R 5%:R 6%:R 7%:R 8%:R
  | t <- [:: 0; 1; 2%:R; 3%:R; 4%:R; 5%:R; 6%:R; 7%:R; 8%:R; 9%:R; 10%:R] : seq F11].
have [r hin [[pk vk] hk]] : exists2 r, List.In r rs & exists k,
    bacs_generator (toy_pairing F11) ex_domain11 ex_bacs11 r 1 = Ok k.
  apply: (@ex_good _ _ _ rs 8).
  - move=> r; have [[pk [vk h]]|h] := bacs_generator_total (toy_pairing F11) r 1 hcs hv hm; [left|by right].
    by exists (pk, vk).
  - move=> rs' _ h2 e; have := C17_bacs_generator_abort_bound hv hcs hm _ h2; rewrite e; apply; by vm_compute.
  - by [].
by exists cs, r, pk, vk; split=> //; vm_compute.
Qed.

(** One input, one gate x1 XOR x1, which is the output: 1 + 2 + 1 constraints. *)
Definition ex_tbcs11 : tbcs_circuit := (TbcsCircuit 1 0 [:: TbcsGate 1 1 6 2 true])%N.
Example C17_tbcs_nonvacuous :
  exists cs r pk vk,
  [/\ tbcs_is_valid ex_tbcs11 && tbcs_types_ok ex_tbcs11, tbcs_is_satisfied ex_tbcs11 [:: true] [::] = Ok true,
      tbcs_to_uscs_instance_map F11 ex_tbcs11 = Ok cs,
      (0 < d_size ex_domain11)%N && (u_num_constraints cs <= d_size ex_domain11)%N &
      tbcs_generator (toy_pairing F11) ex_domain11 ex_tbcs11 r = Ok (pk, vk)].
Proof.
have [hv ht] : tbcs_is_valid ex_tbcs11 /\ tbcs_types_ok ex_tbcs11 by [].
have [cs hcs _] := tbcs_instance F11 hv ht.
have hm : (0 < d_size ex_domain11)%N && (u_num_constraints cs <= d_size ex_domain11)%N by move: hcs => -[<-].
pose rs := [seq UscsGenRandom t 2%:R 3%:R
  | t <- [:: 0; 1; 2%:R; 3%:R; 4%:R; 5%:R; 6%:R; 7%:R; 8%:R; 9%:R; 10%:R] : seq F11].
have [r hin [[pk vk] hk]] : exists2 r, List.In r rs & exists k,
    tbcs_generator (toy_pairing F11) ex_domain11 ex_tbcs11 r = Ok k.
  apply: (@ex_good _ _ _ rs 8).
  - move=> r; have [[pk [vk h]]|h] := tbcs_generator_total (toy_pairing F11) r hcs hm; [left|by right].
    by exists (pk, vk).
  - move=> rs' _ h2 e; have := C17_tbcs_generator_abort_bound _ _ hcs hm _ h2; rewrite e; apply=> //; by vm_compute.
  - by [].
by exists cs, r, pk, vk; split=> //; vm_compute.
Qed.

(** A key with two inputs; shorter, equal and longer inputs. *)
Example C18_nonvacuous :
  let av := @av_of_vector F11 [lmodType F11 of F11^o] 3%:R [:: 4%:R; 5%:R] in
  let vk := @R1csVerificationKey F11 (toy_pairing F11) 1 1 1 1 1 1 1 av in
  let pi := @R1csProof F11 (toy_pairing F11) (0, 0) (0, 0) (0, 0) 0 8%:R in
  [/\ r1cs_verifier_weak_IC vk [:: 6%:R] pi = Ok false,
      r1cs_verifier_weak_IC vk [:: 7%:R] pi = Ok false,
      r1cs_verifier_weak_IC vk [:: 4%:R] pi = Ok true,
      r1cs_verifier_strong_IC vk [:: 4%:R] pi = Ok false &
      r1cs_verifier_strong_IC vk [:: 4%:R; 0] pi = Ok true].
Proof. by split; vm_compute. Qed.
