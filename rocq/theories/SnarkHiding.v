(** Perfect zero knowledge: with the trapdoor, and without the witness, one can
    produce proofs with exactly the distribution of the honest prover's. *)
From mathcomp Require Import all_ssreflect all_algebra.
From Verif Require Import Outcome Lincomb LincombSpec R1CS R1CSSpec R1CSFacts Fieldtac
  Domain DomainFacts ArithPrograms ArithSpec ArithFacts QapFacts SapFacts SspFacts Vectors VectorsFacts Pairing SnarkFacts
  R1csPpzksnark R1csPpzksnarkFacts R1csGgPpzksnark R1csGgPpzksnarkFacts
  R1csSePpzksnark R1csSePpzksnarkFacts UscsPpzksnark UscsPpzksnarkFacts SnarkVerdicts.
From mathcomp Require Import zify.
Set Implicit Arguments.
Unset Strict Implicit.
Unset Printing Implicit Defensive.
Import GRing.Theory.
Local Open Scope ring_scope.

Section Hiding.
Variables (F : fieldType) (P : pairing F) (D : evaluation_domain F).
Add Field Ff : (Fth F).
Notation g1 := (G1_one P).
Notation g2 := (G2_one P).

Lemma affine_bij (u z : F) : z != 0 -> bijective (fun d => u + d * z).
Proof.
move=> hz; exists (fun y => (y - u) / z) => d; first by rewrite addrC addKr mulfK.
by rewrite divfK // addrC subrK.
Qed.

(** ** PGHR13 *)
(** A proof computed from the generator's randomness, the evaluated QAP and the
    primary input alone. *)
Definition r1cs_simulate (r : r1cs_gen_random F) (q : qap_evaluation F) (p : seq F) (u : F * F * F) : r1cs_proof P :=
  let: (a, b, c) := u in
  let aI := (qe_At q)`_0 + \sum_(i < size p) p`_i * (qe_At q)`_i.+1 in
  R1csProof (P := P)
    ((rg_rA r * a) *: g1, (rg_rA r * rg_alphaA r * a) *: g1)
    ((rg_rB r * b) *: g2, (rg_rB r * rg_alphaB r * b) *: g1)
    ((rg_rA r * rg_rB r * c) *: g1, (rg_rA r * rg_rB r * rg_alphaC r * c) *: g1)
    ((((aI + a) * b - c) / qe_Zt q) *: g1)
    ((rg_beta r * (rg_rA r * (aI + a) + rg_rB r * b + rg_rA r * rg_rB r * c)) *: g1).

Lemma r1cs_zero_knowledge cs r chunks pk vk p :
  r1cs_in_range cs -> qap_large D cs -> r1cs_generator P D cs r chunks = Ok (pk, vk) ->
  rg_t r \notin d_points D ->
  exists2 q, r1cs_to_qap_instance_map_with_evaluation D (pk_cs pk) (rg_t r) = Ok q &
  forall a, r1cs_is_satisfied cs p a = Ok true ->
  exists2 f : F * F * F -> F * F * F, bijective f &
    forall d1 d2 d3, r1cs_prover D pk p a d1 d2 d3 = Ok (r1cs_simulate r q p (f (d1, d2, d3))).
Proof.
move=> hr hm hgen htn; have [cs' [q [hsw hq]]] := generatorE P r hr hm.
case: ifP => [_ [pk' [vk' [hgen' hk]]]|_ hgen']; last by rewrite hgen' in hgen.
move: hgen; rewrite hgen' => -[e1 e2]; subst pk' vk'.
have [cs'' hsw' [hpi hai [hnc hr'] _ hh']] := swap_AB_spec hr.
have e1 : cs'' = cs' by move: hsw'; rewrite hsw => -[].
subst cs''.
have hni : num_inputs cs' = num_inputs cs by rewrite /num_inputs hpi.
have hm' : qap_large D cs' by move: hm; rewrite /qap_large hni hnc.
have [q' hq' [_ _ _ hZ _]] := qap_eval_ok hr' hm' (rg_t r).
have eq' : q' = q by move: hq'; rewrite hq => -[].
subst q'.
have z0 : qe_Zt q != 0 by rewrite hZ -rootE vanishing_root.
have -> : pk_cs pk = cs' by case: hk.
exists q => // a hsat; have [hp ha _ hh] := r1cs_is_satisfied_true hsat.
have hsat' : r1cs_is_satisfied cs' p a = Ok true.
  by apply: r1cs_is_satisfied_ok_true => //; rewrite ?hni ?hai //; apply/hh'.
pose aI := (qe_At q)`_0 + \sum_(i < size p) p`_i * (qe_At q)`_i.+1.
pose aS := wsum (qe_At q) (p ++ a) - aI; pose bS := wsum (qe_Bt q) (p ++ a); pose cS := wsum (qe_Ct q) (p ++ a).
exists (fun d => (aS + d.1.1 * qe_Zt q, bS + d.1.2 * qe_Zt q, cS + d.2 * qe_Zt q)).
  have [ga ha1 ha2] := affine_bij aS z0.
  have [gb hb1 hb2] := affine_bij bS z0.
  have [gc hc1 hc2] := affine_bij cS z0.
  by exists (fun u => (ga u.1.1, gb u.1.2, gc u.2)) => -[[x y] z] /=; rewrite ?ha1 ?hb1 ?hc1 ?ha2 ?hb2 ?hc2.
move=> d1 d2 d3.
have [aA [aI' [bB [cC [h [-> eI hQ [eA eB eC]]]]]]] := prover_ok d1 d2 d3 hr' hm' hq hk hsat'.
have eI' : aI' = aI by rewrite eI /aI hni hp.
rewrite /r1cs_simulate /= -/aI.
have -> : aS + d1 * qe_Zt q = aA by rewrite eA eI' /aS addrAC.
rewrite -/(bS) in eB; rewrite -eB -/cS -eC -eI' hQ mulfK //.
Qed.

(** ** Groth16 *)
Definition gg_simulate (r : gg_gen_random P) (q : qap_evaluation F) (p : seq F) (u : F * F) : gg_proof P :=
  let: (a, b) := u in
  let term i := gr_beta r * (qe_At q)`_i + gr_alpha r * (qe_Bt q)`_i + (qe_Ct q)`_i in
  GgProof (P := P) (a *: gr_g1 r) (b *: gr_g2 r)
    (((a * b - gr_alpha r * gr_beta r - (term 0%N + \sum_(i < size p) p`_i * term i.+1)) / gr_delta r) *: gr_g1 r).

Lemma gg_zero_knowledge cs (r : gg_gen_random P) chunks pk vk p :
  r1cs_in_range cs -> qap_large D cs -> (2 <= d_size D)%N -> gg_generator D cs r chunks = Ok (pk, vk) ->
  exists2 q, r1cs_to_qap_instance_map_with_evaluation D (gk_cs pk) (gr_t r) = Ok q &
  forall a, r1cs_is_satisfied cs p a = Ok true ->
  (forall rr s, gg_prover D pk p a rr s = AssertFail) \/
  exists2 f : F * F -> F * F, bijective f &
    forall rr s, gg_prover D pk p a rr s = Ok (gg_simulate r q p (f (rr, s))).
Proof.
move=> hr hm m2 hgen; have [cs' [q [hsw hq]]] := gg_generatorE r hr hm.
case: andP => [[hg hd] [pk' [vk' [hgen' hk]]]|_ hgen']; last by rewrite hgen' in hgen.
move: hgen; rewrite hgen' => -[e1 e2]; subst pk' vk'.
have [cs'' hsw' [hpi hai [hnc hr'] _ hh']] := swap_AB_spec hr.
have e1 : cs'' = cs' by move: hsw'; rewrite hsw => -[].
subst cs''.
have hni : num_inputs cs' = num_inputs cs by rewrite /num_inputs hpi.
have hm' : qap_large D cs' by move: hm; rewrite /qap_large hni hnc.
have -> : gk_cs pk = cs' by case: hk.
exists q => // a hsat; have [hp ha _ hh] := r1cs_is_satisfied_true hsat.
have hsat' : r1cs_is_satisfied cs' p a = Ok true.
  by apply: r1cs_is_satisfied_ok_true => //; rewrite ?hni ?hai //; apply/hh'.
have hall rr s := gg_prover_ok rr s hr' hm' hq hk hsat' m2 hd.
set cond := _ * _ != 0 in hall.
case hc: cond; last first.
  left=> rr s; have [aS [bS [cI [cL [h [-> _ _ _]]]]]] := hall rr s; by rewrite hc.
right; pose aS := wsum (qe_At q) (p ++ a); pose bS := wsum (qe_Bt q) (p ++ a).
exists (fun d => (gr_alpha r + aS + d.1 * gr_delta r, gr_beta r + bS + d.2 * gr_delta r)).
  have [ga ha1 ha2] := affine_bij (gr_alpha r + aS) hd.
  have [gb hb1 hb2] := affine_bij (gr_beta r + bS) hd.
  by exists (fun u => (ga u.1, gb u.2)) => -[x y] /=; rewrite ?ha1 ?hb1 ?ha2 ?hb2.
move=> rr s; have [aS' [bS' [cI [cL [h [-> eI hQ [eA eB]]]]]]] := hall rr s.
rewrite hc /gg_simulate /= eA eB -/aS -/bS; congr (Ok (GgProof _ _ (_ *: _))).
have <- : cI = gr_beta r * (qe_At q)`_0 + gr_alpha r * (qe_Bt q)`_0 + (qe_Ct q)`_0 +
  \sum_(i < size p) p`_i * (gr_beta r * (qe_At q)`_i.+1 + gr_alpha r * (qe_Bt q)`_i.+1 + (qe_Ct q)`_i.+1).
  by rewrite eI /comb hni hp.
have -> : h * qe_Zt q = aS * bS - (cI + cL - gr_beta r * aS - gr_alpha r * bS).
  by rewrite /aS /bS -eA -eB hQ addrK.
by ffield F; apply/eqP.
Qed.

(** ** Groth-Maller *)
Definition se_simulate (r : se_gen_random P) (q : sap_evaluation F) (p : seq F) (u : F) : se_proof P :=
  let term i := sr_gamma r * (se_Ct q)`_i + (sr_alpha r + sr_beta r) * (se_At q)`_i in
  SeProof (P := P) (u *: sr_G r) (u *: sr_H r)
    (((u + sr_alpha r) * (u + sr_beta r) - sr_alpha r * sr_beta r
      - (term 0%N + \sum_(i < size p) p`_i * term i.+1) * sr_gamma r) *: sr_G r).

Lemma se_zero_knowledge cs (r : se_gen_random P) pk vk p :
  r1cs_in_range cs -> sap_large D cs -> se_generator D cs r = Some (Ok (pk, vk)) -> sr_gamma r != 0 ->
  exists t q, [/\ t \in sr_ts r, r1cs_to_sap_instance_map_with_evaluation D (sk_cs pk) t = Ok q &
  forall a, r1cs_is_satisfied cs p a = Ok true ->
  forall d1 d2, exists2 f : F -> F, bijective f &
    forall rr, se_prover D pk p a d1 d2 rr = Ok (se_simulate r q p (f rr))].
Proof.
move=> hr hm; rewrite /se_generator.
case ht: (se_draw_t _ _) => [t|] //= [hgen] hg.
have [tin tout] : t \in sr_ts r /\ t \notin d_points D.
  move: ht; elim: (sr_ts r) => [|u us IH] //=; case: ifP => hu.
    by move/IH => [h1 h2]; rewrite in_cons h1 orbT.
  move=> [e]; split; first by rewrite -e in_cons eqxx.
  by rewrite -vanishing_root rootE -e; apply/negbT.
have [q [pk' [vk' [hq hgen' hk]]]] := se_generator_atE t r hr hm.
move: hgen; rewrite hgen' => -[e1 e2]; subst pk' vk'.
have [q' hq' [_ _ _ hZ _]] := sap_eval_ok hr hm t.
have eq' : q' = q by move: hq'; rewrite hq => -[].
subst q'.
have z0 : se_Zt q != 0 by rewrite hZ -rootE vanishing_root.
have hgz : sr_gamma r * se_Zt q != 0 by rewrite mulf_neq0.
exists t, q; split=> //; first by case: hk => -> _.
move=> a hsat d1 d2; have [hp _ _ _] := r1cs_is_satisfied_true hsat.
pose aS := wsum (se_At q) (sap_ext cs (p ++ a)).
exists (fun rr => sr_gamma r * (aS + d1 * se_Zt q) + rr * (sr_gamma r * se_Zt q)); first exact: affine_bij.
move=> rr; have [aS' [cI [cX [h [-> eI hQ eA]]]]] := se_prover_ok d1 d2 rr hr hm hq hk hsat.
rewrite /se_simulate eA -/aS; congr (Ok _).
have eu : sr_gamma r * (aS + (rr + d1) * se_Zt q) = sr_gamma r * (aS + d1 * se_Zt q) + rr * (sr_gamma r * se_Zt q).
  by fring F.
rewrite -eu; congr (SeProof _ _ (_ *: _)).
have <- : cI = sr_gamma r * (se_Ct q)`_0 + (sr_alpha r + sr_beta r) * (se_At q)`_0 +
  \sum_(i < size p) p`_i * (sr_gamma r * (se_Ct q)`_i.+1 + (sr_alpha r + sr_beta r) * (se_At q)`_i.+1).
  by rewrite eI /se_term hp.
have -> : cX = sr_gamma r * ((aS + d1 * se_Zt q) * (aS + d1 * se_Zt q) - d2 * se_Zt q - h * se_Zt q)
   - cI + (sr_alpha r + sr_beta r) * aS.
  by rewrite /aS -eA hQ; fring F.
by fring F.
Qed.

(** ** Square span programs *)
Definition uscs_simulate (r : uscs_gen_random F) (q : ssp_evaluation F) (p : seq F) (u : F) : uscs_proof P :=
  let cI := (pe_Vt q)`_0 + \sum_(i < size p) p`_i * (pe_Vt q)`_i.+1 in
  UscsProof (P := P) (u *: g1) ((ur_alpha r * u) *: g1)
    ((((cI + u) ^+ 2 - 1) / pe_Zt q) *: g1) ((cI + u) *: g2).

Lemma uscs_zero_knowledge cs (r : uscs_gen_random F) pk vk p :
  uscs_in_range cs -> ssp_large D cs -> uscs_generator P D cs r = Ok (pk, vk) ->
  ur_t r \notin d_points D ->
  exists2 q, uscs_to_ssp_instance_map_with_evaluation D (uk_cs pk) (ur_t r) = Ok q &
  forall a, uscs_is_satisfied cs p a = Ok true ->
  exists2 f : F -> F, bijective f &
    forall d, uscs_prover D pk p a d = Ok (uscs_simulate r q p (f d)).
Proof.
move=> hr hm hgen htn; have [q hq] := uscs_generatorE P r hr hm.
case: ifP => [_ [pk' [vk' [hgen' hk]]]|_ hgen']; last by rewrite hgen' in hgen.
move: hgen; rewrite hgen' => -[e1 e2]; subst pk' vk'.
have [q' hq' [_ s1 _ hZ _]] := ssp_eval_ok hr hm (ur_t r).
have eq' : q' = q by move: hq'; rewrite hq => -[].
subst q'; have -> : uk_cs pk = cs by case: hk => ->.
have z0 : pe_Zt q != 0 by rewrite hZ -rootE vanishing_root.
exists q => // a hsat; have [hp _ _ _] := uscs_is_satisfied_true hsat.
pose cI := (pe_Vt q)`_0 + \sum_(i < size p) p`_i * (pe_Vt q)`_i.+1.
exists (fun d => wsum (pe_Vt q) (p ++ a) - cI + d * pe_Zt q); first exact: affine_bij.
move=> d; have [cI' [cX [h [-> eI hQ eX]]]] := uscs_prover_ok d hm hq hk hsat.
have eI' : cI' = cI by rewrite eI /cI hp.
rewrite /uscs_simulate -/cI -eI' -eX; congr (Ok (UscsProof (_ *: _) (_ *: _) (_ *: _) (_ *: _))).
- by rewrite addrC.
- by rewrite [cX + _]addrC.
- by rewrite addrA expr2 hQ mulfK.
- by rewrite addrA.
Qed.
End Hiding.
