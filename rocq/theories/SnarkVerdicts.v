(** The verdict of each ppzkSNARK verifier on arbitrary proofs, for honest
    keys, in terms of the exponents; and the exact condition under which the
    Groth16 prover aborts. *)
From mathcomp Require Import all_ssreflect all_algebra.
From Verif Require Import Outcome Lincomb LincombSpec R1CS R1CSSpec R1CSFacts
  Domain DomainFacts ArithPrograms ArithSpec ArithFacts QapFacts SapFacts SspFacts Vectors VectorsFacts Pairing SnarkFacts
  R1csPpzksnark R1csPpzksnarkFacts R1csGgPpzksnark R1csGgPpzksnarkFacts
  R1csSePpzksnark R1csSePpzksnarkFacts UscsPpzksnark UscsPpzksnarkFacts.
From mathcomp Require Import zify.
Set Implicit Arguments.
Unset Strict Implicit.
Unset Printing Implicit Defensive.
Import GRing.Theory.
Local Open Scope ring_scope.

Section Verdicts.
Variables (F : fieldType) (P : pairing F) (D : evaluation_domain F).
Notation g1 := (G1_one P).
Notation g2 := (G2_one P).

Lemma r1cs_verdict cs r chunks pk vk p :
  r1cs_in_range cs -> qap_large D cs -> r1cs_generator P D cs r chunks = Ok (pk, vk) ->
  e g1 g2 != 0 -> (size p <= num_inputs cs)%N ->
  exists2 q, r1cs_to_qap_instance_map_with_evaluation D (pk_cs pk) (rg_t r) = Ok q &
  let acc := rg_rA r * ((qe_At q)`_0 + \sum_(i < size p) p`_i * (qe_At q)`_i.+1) in
  forall a a' b b' c c' h k,
  r1cs_verifier_weak_IC vk p
    (R1csProof (P := P) (a *: g1, a' *: g1) (b *: g2, b' *: g1) (c *: g1, c' *: g1) (h *: g1) (k *: g1)) =
  Ok [&& a' == rg_alphaA r * a, b' == rg_alphaB r * b, c' == rg_alphaC r * c,
      (a + acc) * b == h * (rg_rA r * rg_rB r * qe_Zt q) + c &
      k * rg_gamma r == rg_gamma r * rg_beta r * (a + acc + c + b)].
Proof.
move=> hr hm hgen hnd hp; have [cs' [q [hsw hq]]] := generatorE P r hr hm.
case: ifP => [_ [pk' [vk' [hgen' hk]]]|_ hgen']; last by rewrite hgen' in hgen.
move: hgen; rewrite hgen' => -[e1 e2]; subst pk' vk'.
have [cs'' hsw' [hpi hai [hnc hr'] _ hh']] := swap_AB_spec hr.
have e1 : cs'' = cs' by move: hsw'; rewrite hsw => -[].
subst cs''.
have hni : num_inputs cs' = num_inputs cs by rewrite /num_inputs hpi.
have hm' : qap_large D cs' by move: hm; rewrite /qap_large hni hnc.
have [q' hq' [_ [s1 _ _] _ _ _]] := qap_eval_ok hr' hm' (rg_t r).
have eq' : q' = q by move: hq'; rewrite hq => -[].
subst q'.
have -> : pk_cs pk = cs' by case: hk.
exists q => // acc a a' b b' c c' h k.
have [first [es [hIC hes hacc]]] := vk_scalars p s1 hk.
rewrite (weak_verdict _ hIC) ?hes ?hni // hacc ?hni // (equations_scalars _ _ _ _ _ _ _ _ _ hk hnd).
by rewrite /r1cs_proof_wf /= !wf1_scale ?wf2_scale ?wf1_one ?wf2_one.
Qed.

Lemma gg_verdict cs (r : gg_gen_random P) chunks pk vk p :
  r1cs_in_range cs -> qap_large D cs -> gg_generator D cs r chunks = Ok (pk, vk) ->
  wf1 (gr_g1 r) -> wf2 (gr_g2 r) ->
  e (gr_g1 r) (gr_g2 r) != 0 -> (size p <= num_inputs cs)%N ->
  exists2 q, r1cs_to_qap_instance_map_with_evaluation D (gk_cs pk) (gr_t r) = Ok q &
  let term i := gr_beta r * (qe_At q)`_i + gr_alpha r * (qe_Bt q)`_i + (qe_Ct q)`_i in
  forall a b c,
  gg_verifier_weak_IC vk p (GgProof (P := P) (a *: gr_g1 r) (b *: gr_g2 r) (c *: gr_g1 r)) =
  Ok (a * b == gr_alpha r * gr_beta r + (term 0%N + \sum_(i < size p) p`_i * term i.+1) + c * gr_delta r).
Proof.
move=> hr hm hgen w1 w2 hnd hp; have [cs' [q [hsw hq]]] := gg_generatorE r hr hm.
case: andP => [[hg hd] [pk' [vk' [hgen' hk]]]|_ hgen']; last by rewrite hgen' in hgen.
move: hgen; rewrite hgen' => -[e1 e2]; subst pk' vk'.
have [cs'' hsw' [hpi hai [hnc hr'] _ hh']] := swap_AB_spec hr.
have e1 : cs'' = cs' by move: hsw'; rewrite hsw => -[].
subst cs''.
have hni : num_inputs cs' = num_inputs cs by rewrite /num_inputs hpi.
have -> : gk_cs pk = cs' by case: hk.
exists q => // term a b c.
have [first [es [hIC hes hacc]]] := gg_vk_scalars p hk.
rewrite (gg_weak_verdict _ _ hIC) hes hni hp hacc ?hni // (gg_equation_scalars _ _ _ _ hk hnd).
by rewrite /gg_proof_wf /= !wf1_scale ?wf2_scale // divfK.
Qed.

Lemma se_verdict cs (r : se_gen_random P) pk vk p :
  r1cs_in_range cs -> sap_large D cs -> se_generator D cs r = Some (Ok (pk, vk)) ->
  wf1 (sr_G r) -> wf2 (sr_H r) ->
  e (sr_G r) (sr_H r) != 0 -> sr_gamma r != 0 -> size p = num_inputs cs ->
  exists t q, [/\ t \in sr_ts r, t \notin d_points D,
    r1cs_to_sap_instance_map_with_evaluation D (sk_cs pk) t = Ok q &
  let term i := sr_gamma r * (se_Ct q)`_i + (sr_alpha r + sr_beta r) * (se_At q)`_i in
  forall a b c,
  se_verifier_weak_IC vk p (SeProof (P := P) (a *: sr_G r) (b *: sr_H r) (c *: sr_G r)) =
  Ok ((a == b) && ((a + sr_alpha r) * (b + sr_beta r) ==
       sr_alpha r * sr_beta r + (term 0%N + \sum_(i < size p) p`_i * term i.+1) * sr_gamma r + c))].
Proof.
move=> hr hm hgen w1 w2 hnd hg hp; move: hgen; rewrite /se_generator.
case ht: (se_draw_t _ _) => [t|] //= [hgen].
have [tin tout] : t \in sr_ts r /\ t \notin d_points D.
  move: ht; elim: (sr_ts r) => [|u us IH] //=; case: ifP => hu.
    by move/IH => [h1 h2]; rewrite in_cons h1 orbT.
  move=> [e]; split; first by rewrite -e in_cons eqxx.
  by rewrite -vanishing_root rootE -e; apply/negbT.
have [q [pk' [vk' [hq hgen' hk]]]] := se_generator_atE t r hr hm.
move: hgen; rewrite hgen' => -[e1 e2]; subst pk' vk'.
exists t, q; split=> //; first by case: hk => -> _.
move=> a b c.
have [q0 [qs [hqs hsz hacc]]] := se_vk_scalars hk.
rewrite (se_weak_verdict _ _ hqs) hp hsz eqxx -[in LHS]hp hacc // (se_equations_scalars _ _ _ _ hk hnd hg).
by rewrite /se_proof_wf /= !wf1_scale ?wf2_scale.
Qed.

Lemma uscs_verdict cs (r : uscs_gen_random F) pk vk p :
  uscs_in_range cs -> ssp_large D cs -> uscs_generator P D cs r = Ok (pk, vk) ->
  e g1 g2 != 0 -> size p = u_num_inputs cs ->
  exists2 q, uscs_to_ssp_instance_map_with_evaluation D (uk_cs pk) (ur_t r) = Ok q &
  let acc := (pe_Vt q)`_0 + \sum_(i < size p) p`_i * (pe_Vt q)`_i.+1 in
  forall v av h v2,
  uscs_verifier_weak_IC vk p (UscsProof (P := P) (v *: g1) (av *: g1) (h *: g1) (v2 *: g2)) =
  Ok [&& v2 == v + acc, (v + acc) * v2 == h * pe_Zt q + 1 &
         v * (ur_alpha r * ur_tilde r) == av * ur_tilde r].
Proof.
move=> hr hm hgen hnd hp; have [q hq] := uscs_generatorE P r hr hm.
case: ifP => [_ [pk' [vk' [hgen' hk]]]|_ hgen']; last by rewrite hgen' in hgen.
move: hgen; rewrite hgen' => -[e1 e2]; subst pk' vk'.
have [q' hq' [_ s1 _ _ _]] := ssp_eval_ok hr hm (ur_t r).
have eq' : q' = q by move: hq'; rewrite hq => -[].
subst q'; have -> : uk_cs pk = cs by case: hk => ->.
exists q => // acc v av h v2.
have [first [es [hIC hes hacc]]] := uscs_vk_scalars s1 hk.
rewrite (uscs_weak_verdict _ _ hIC) hp hes eqxx -[in LHS]hp hacc // (uscs_equations_scalars _ _ _ _ _ hk hnd).
by rewrite /uscs_proof_wf /= !wf1_scale ?wf2_scale ?wf1_one ?wf2_one // /acc hp.
Qed.

(** ** When the Groth16 prover aborts *)
Lemma gg_exact cs (r : gg_gen_random P) chunks pk vk p a rr s (A B : {poly F}) :
  let col sel t cols :=
    exists2 qe, r1cs_to_qap_instance_map_with_evaluation D (gk_cs pk) t = Ok qe & cols = sel qe in
  qap_large D cs -> (2 <= d_size D)%N -> r1cs_is_satisfied cs p a = Ok true ->
  wf1 (gr_g1 r) -> wf2 (gr_g2 r) ->
  gg_generator D cs r chunks = Ok (pk, vk) ->
  combined_polynomial D (col (@qe_At F)) (p ++ a) A ->
  combined_polynomial D (col (@qe_Bt F)) (p ++ a) B ->
  if A`_(d_size D - 1) * B`_(d_size D - 1) != 0 then
  exists2 pi, gg_prover D pk p a rr s = Ok pi &
    [/\ gg_verifier_weak_IC vk p pi = Ok true, gg_verifier_strong_IC vk p pi = Ok true &
        gg_affine_verifier_weak_IC vk p pi = Ok true]
  else gg_prover D pk p a rr s = AssertFail.
Proof.
move=> col hm m2 hsat w1 w2 hgen cA cB.
have [cs' hsw' hc] := gg_complete rr s hm m2 hsat w1 w2 hgen.
have [hp ha hr hh] := r1cs_is_satisfied_true hsat.
have [cs1 [q [hsw hq]]] := gg_generatorE r hr hm.
have e1 : cs1 = cs' by move: hsw; rewrite hsw' => -[].
subst cs1.
case: andP => [[hg hd] [pk' [vk' [hgen' hk]]]|_ hgen']; last by rewrite hgen' in hgen.
move: hgen; rewrite hgen' => -[e1 e2]; subst pk' vk'.
have [cs'' hsw'' [hpi hai [hnc hr'] _ hh']] := swap_AB_spec hr.
have e1 : cs'' = cs' by move: hsw''; rewrite hsw' => -[].
subst cs''.
have hni : num_inputs cs' = num_inputs cs by rewrite /num_inputs hpi.
have hm' : qap_large D cs' by move: hm; rewrite /qap_large hni hnc.
have ecs : gk_cs pk = cs' by case: hk.
have ex sel : forall t, exists cols, col sel t cols.
  by move=> t; have [qe hqe _] := qap_eval_ok hr' hm' t; exists (sel qe), qe; rewrite ?ecs.
have hx : size (p ++ a) = num_variables cs'.
  by rewrite size_cat hp ha /num_variables hpi hai.
have cA' : combined_polynomial D (col (@qe_At F)) (p ++ a) (row_poly D (A_updates cs') (p ++ a)).
  apply: combined_row_poly (upd_A hr' hm') _ hx => t cols [qe]; rewrite ecs => hqe ->.
  have [qe' + [_ [s1 s2 s3] _ _ hk']] := qap_eval_ok hr' hm' t; rewrite hqe => -[e]; subst qe'.
  by split=> // k; case: (hk' k).
have cB' : combined_polynomial D (col (@qe_Bt F)) (p ++ a) (row_poly D (qap_updates (@c_b F) cs') (p ++ a)).
  apply: combined_row_poly (upd_B hr' hm') _ hx => t cols [qe]; rewrite ecs => hqe ->.
  have [qe' + [_ [s1 s2 s3] _ _ hk']] := qap_eval_ok hr' hm' t; rewrite hqe => -[e]; subst qe'.
  by split=> // k; case: (hk' k).
by rewrite (combined_unique (ex _) cA cA') (combined_unique (ex _) cB cB').
Qed.

Lemma gg_accepts cs (r : gg_gen_random P) chunks pk vk p a rr s pi :
  qap_large D cs -> (2 <= d_size D)%N -> r1cs_is_satisfied cs p a = Ok true ->
  wf1 (gr_g1 r) -> wf2 (gr_g2 r) ->
  gg_generator D cs r chunks = Ok (pk, vk) -> gg_prover D pk p a rr s = Ok pi ->
  [/\ gg_verifier_weak_IC vk p pi = Ok true, gg_verifier_strong_IC vk p pi = Ok true &
      gg_affine_verifier_weak_IC vk p pi = Ok true].
Proof.
move=> hm m2 hsat w1 w2 hgen hpr.
have [cs' _] := gg_complete rr s hm m2 hsat w1 w2 hgen; rewrite hpr.
by case: ifP => // _ [pi' [<-]].
Qed.

(** ** The verifier variants *)
Lemma r1cs_verifiers (vk : r1cs_verification_key P) first es p pi : vk_IC vk = av_of_vector first es ->
  let acc := acc_of first es p in
  [/\ r1cs_verifier_weak_IC vk p pi =
        (if (size p <= size es)%N then Ok (r1cs_proof_wf pi && r1cs_equations vk acc pi) else AssertFail),
      r1cs_verifier_strong_IC vk p pi =
        (if size p == size es then r1cs_verifier_weak_IC vk p pi else Ok false),
      r1cs_affine_verifier_weak_IC vk p pi = (if size p == size es then Ok (r1cs_equations vk acc pi) else AssertFail),
      (forall n, (size p + n <= size es)%N ->
         r1cs_verifier_weak_IC vk (p ++ nseq n 0) pi = r1cs_verifier_weak_IC vk p pi) &
      r1cs_online_verifier_weak_IC (r1cs_process_vk vk) p pi = r1cs_verifier_weak_IC vk p pi /\
      r1cs_online_verifier_strong_IC (r1cs_process_vk vk) p pi = r1cs_verifier_strong_IC vk p pi].
Proof.
move=> h acc; split=> //.
- case: leqP => hs; first exact: weak_verdict.
  by apply: weak_too_long; rewrite h.
- by rewrite strong_verdict h.
- exact: affine_verdict.
- by move=> n hn; apply: weak_zero_extension h hn.
Qed.

Lemma gg_verifiers (vk : gg_verification_key P) first es p pi : gv_ABC vk = av_of_vector first es ->
  let acc := gg_acc_of first es p in
  [/\ gg_verifier_weak_IC vk p pi =
        (if (size p <= size es)%N then Ok (gg_proof_wf pi && gg_equation vk acc pi) else AssertFail),
      gg_verifier_strong_IC vk p pi =
        (if size p == size es then gg_verifier_weak_IC vk p pi else Ok false),
      gg_affine_verifier_weak_IC vk p pi = gg_verifier_weak_IC vk p pi,
      (forall n, (size p + n <= size es)%N ->
         gg_verifier_weak_IC vk (p ++ nseq n 0) pi = gg_verifier_weak_IC vk p pi) &
      gg_online_verifier_weak_IC (gg_process_vk vk) p pi = gg_verifier_weak_IC vk p pi /\
      gg_online_verifier_strong_IC (gg_process_vk vk) p pi = gg_verifier_strong_IC vk p pi].
Proof.
move=> h acc; split=> //.
- exact: gg_weak_verdict.
- by rewrite gg_strong_verdict h.
- exact: gg_affine_verdict.
- by move=> n hn; apply: gg_weak_zero_extension h hn.
Qed.

Lemma se_verifiers (vk : se_verification_key P) q0 qs p pi : sv_query vk = q0 :: qs ->
  let psi := q0 + \sum_(i < size p) p`_i *: qs`_i in
  [/\ se_verifier_weak_IC vk p pi =
        (if size p == size qs then Ok (se_proof_wf pi && se_equations vk psi pi) else UB),
      se_verifier_strong_IC vk p pi =
        (if size p == size qs then se_verifier_weak_IC vk p pi else Ok false) &
      se_online_verifier_weak_IC (se_process_vk vk) p pi = se_verifier_weak_IC vk p pi /\
      se_online_verifier_strong_IC (se_process_vk vk) p pi = se_verifier_strong_IC vk p pi].
Proof.
move=> h psi; split=> //; first exact: se_weak_verdict.
by rewrite se_strong_verdict h.
Qed.

Lemma uscs_verifiers (vk : uscs_verification_key P) first es p pi : uv_IC vk = av_of_vector first es ->
  let acc := first + \sum_(0 <= j < size p) p`_j *: es`_j in
  [/\ uscs_verifier_weak_IC vk p pi =
        (if size p == size es then Ok (uscs_proof_wf pi && uscs_equations vk acc pi) else AssertFail),
      uscs_verifier_strong_IC vk p pi =
        (if size p == size es then uscs_verifier_weak_IC vk p pi else Ok false) &
      uscs_online_verifier_weak_IC (uscs_process_vk vk) p pi = uscs_verifier_weak_IC vk p pi /\
      uscs_online_verifier_strong_IC (uscs_process_vk vk) p pi = uscs_verifier_strong_IC vk p pi].
Proof.
move=> h acc; split=> //; first exact: uscs_weak_verdict.
by rewrite uscs_strong_verdict h.
Qed.

Lemma short_input (first : G1 P) (es : seq (G1 P)) (p : seq F) : (size p < size es)%N ->
  (forall (vk : se_verification_key P) pi, sv_query vk = first :: es -> se_verifier_weak_IC vk p pi = UB) /\
  (forall (vk : uscs_verification_key P) pi, uv_IC vk = av_of_vector first es ->
     uscs_verifier_weak_IC vk p pi = AssertFail).
Proof.
move=> h; split=> vk pi hv.
  by rewrite (se_weak_verdict _ _ hv) (ltn_eqF h).
by rewrite (uscs_weak_verdict _ _ hv) (ltn_eqF h).
Qed.
End Verdicts.
