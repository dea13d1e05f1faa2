(** Proofs about the Groth16 ppzkSNARK. *)
From mathcomp Require Import all_ssreflect all_algebra.
From Verif Require Import Outcome Lincomb LincombSpec R1CS R1CSSpec R1CSFacts Domain DomainFacts ArithPrograms
  ArithSpec ArithFacts QapFacts Vectors VectorsSpec VectorsFacts Pairing SnarkFacts R1csGgPpzksnark Fieldtac.
From mathcomp Require Import zify.
Set Implicit Arguments.
Unset Strict Implicit.
Unset Printing Implicit Defensive.
Import GRing.Theory.
Local Open Scope ring_scope.

Section Facts.
Variables (F : fieldType).
Add Field Ff : (Fth F).
Variables (P : pairing F) (D : evaluation_domain F).

Definition comb (q : qap_evaluation F) (r : gg_gen_random P) (i : nat) : F :=
  gr_beta r * (qe_At q)`_i + gr_alpha r * (qe_Bt q)`_i + (qe_Ct q)`_i.

Record gg_keys_of (q : qap_evaluation F) (cs' : r1cs F) (r : gg_gen_random P)
    (pk : gg_proving_key P) (vk : gg_verification_key P) : Prop := GgKeysOf {
  gko_alpha : gk_alpha_g1 pk = gr_alpha r *: gr_g1 r;
  gko_beta : gk_beta_g1 pk = gr_beta r *: gr_g1 r /\ gk_beta_g2 pk = gr_beta r *: gr_g2 r;
  gko_delta : gk_delta_g1 pk = gr_delta r *: gr_g1 r /\ gk_delta_g2 pk = gr_delta r *: gr_g2 r;
  gko_A : gk_A pk = batch_exp (gr_g1 r) (qe_At q);
  gko_B : [/\ sv_ok (gk_B pk), sv_domain_size (gk_B pk) = (num_variables cs').+1 &
     forall k, sv_at (gk_B pk) k = ((qe_Bt q)`_k *: gr_g2 r, (qe_Bt q)`_k *: gr_g1 r)];
  gko_H : gk_H pk = batch_exp (gr_g1 r) [seq qe_Zt q / gr_delta r * t | t <- take (d_size D - 1) (qe_Ht q)];
  gko_L : gk_L pk = batch_exp (gr_g1 r) [seq comb q r (num_inputs cs' + 1 + i)%N / gr_delta r |
                                          i <- iota 0 (num_variables cs' - num_inputs cs')];
  gko_cs : gk_cs pk = cs';
  gko_vk : vk = GgVerificationKey ((gr_alpha r * gr_beta r) *: e (gr_g1 r) (gr_g2 r))
     (gr_gamma r *: gr_g2 r) (gr_delta r *: gr_g2 r)
     (av_of_vector ((comb q r 0 / gr_gamma r) *: gr_g1 r)
        (batch_exp (gr_g1 r) [seq comb q r i / gr_gamma r | i <- iota 1 (num_inputs cs')]))
}.

Lemma gg_generatorE cs (r : gg_gen_random P) : r1cs_in_range cs -> qap_large D cs ->
  exists cs' q,
  [/\ swap_AB_if_beneficial cs = Ok cs',
      r1cs_to_qap_instance_map_with_evaluation D cs' (gr_t r) = Ok q &
      if (gr_gamma r != 0) && (gr_delta r != 0)
      then exists pk vk, (forall chunks, gg_generator D cs r chunks = Ok (pk, vk)) /\ gg_keys_of q cs' r pk vk
      else forall chunks, gg_generator D cs r chunks = AssertFail].
Proof.
move=> hr hm; have [cs' hsw [hpi hai [hnc hr'] _ hh]] := swap_AB_spec hr.
have hm' : qap_large D cs' by move: hm; rewrite /qap_large /num_inputs hpi hnc.
have [q hq [[q1 q2 q3 q4 q5] [s1 s2 s3] hH hZ hcol]] := qap_eval_ok hr' hm' (gr_t r).
exists cs', q; split=> //.
have hni := num_inputs_le cs'.
case: eqVneq => hg; first by move=> chunks; rewrite /gg_generator hsw /= /fr_inverse hg eqxx.
case: eqVneq => hd /=; first by move=> chunks; rewrite /gg_generator hsw /= /fr_inverse hg hd eqxx.
have [B' hB [b1 b2 _ b3]] := kc_batch_exp_spec (gr_g2 r) (gr_g1 r) 1 1 (qe_Bt q).
have hcomb i inv : (i <= num_variables cs')%N ->
   (let! x := oget (qe_At q) i in let! y := oget (qe_Bt q) i in let! z := oget (qe_Ct q) i in
    Ok ((gr_beta r * x + gr_alpha r * y + z) * inv)) = Ok (comb q r i * inv).
  move=> hi; by rewrite (@oget_nth _ 0) ?s1 // obindE (@oget_nth _ 0) ?s2 // obindE (@oget_nth _ 0) ?s3.
eexists; eexists; split.
  move=> chunks; rewrite /gg_generator hsw obindE /fr_inverse hg hd !oassertT !obindE hq obindE q1 q3.
  rewrite hcomb // obindE.
  rewrite (@omapm_Ok _ _ _ (fun i => comb q r i / gr_gamma r)); last first.
    by move=> i /In_mem; rewrite mem_iota => hi; apply: hcomb; lia.
  rewrite obindE.
  rewrite (@omapm_Ok _ _ _ (fun i => comb q r (num_inputs cs' + 1 + i)%N / gr_delta r)); last first.
    by move=> i /In_mem; rewrite mem_iota => hi; apply: hcomb; lia.
  rewrite obindE hB obindE; by [].
split=> //=; try by rewrite ?s1.
- split=> //; first by rewrite b2.
  by move=> k; rewrite b3 !mul1r.
- by rewrite batch_exp_coeffE hH size_powers; congr (batch_exp _ [seq _ | _ <- take _ _]); lia.
- by rewrite eZl eZr scalerA.
Qed.

(** ** Size of H *)
Lemma gg_H_size (A B C H : {poly F}) m : (size A <= m)%N -> (size B <= m)%N -> (size C <= m)%N ->
  (0 < m)%N -> m = d_size D ->
  H * vanishing (d_points D) = A * B - C -> (size H <= m - 1)%N /\ H`_(m - 2) = (if (m == 1)%N then H`_0 else A`_(m - 1) * B`_(m - 1)).
Proof.
move=> sA sB sC m0 em e.
have sAB : (size (A * B - C)%R <= 2 * m - 1)%N.
  apply: leq_trans (size_add _ _) _; rewrite size_opp geq_max; apply/andP; split; last by lia.
  by apply: leq_trans (size_mul_leq _ _) _; lia.
have sH : (size H <= m - 1)%N.
  move: sAB; rewrite -e; have [->|hH] := eqVneq H 0; first by rewrite mul0r size_poly0.
  rewrite size_Mmonic ?vanishing_monic // size_vanishing -/(d_size D) -em /=; lia.
split=> //; case: eqP => [->|hm1] //.
have m2 : (2 <= m)%N by lia.
have := congr1 (fun p : {poly F} => p`_(2 * m - 2)) e; rewrite /= coefD coefN.
have -> : C`_(2 * m - 2) = 0 by rewrite nth_default //; apply: leq_trans sC _; lia.
rewrite subr0 => h.
have top2 (U V : {poly F}) a b : (size U <= a.+1)%N -> (size V <= b.+1)%N -> (U * V)`_(a + b) = U`_a * V`_b.
  move=> hU hV; rewrite coefM.
  have ha : (a < (a + b).+1)%N by rewrite ltnS leq_addr.
  rewrite (bigD1 (Ordinal ha)) //= addKn big1 ?addr0 // => i hi.
  case: (ltngtP i a) => hia.
  - by rewrite [V`_ _]nth_default ?mulr0 //; apply: leq_trans hV _; lia.
  - by rewrite nth_default ?mul0r //; apply: leq_trans hU _; lia.
  - by case/eqP: hi; apply: val_inj.
have e1 : (2 * m - 2 = (m - 2) + m)%N by lia.
have e2 : (2 * m - 2 = (m - 1) + (m - 1))%N by lia.
move: h; rewrite {1}e1 e2 !top2; try lia.
- have -> : (vanishing (d_points D))`_m = 1.
    have := vanishing_monic (d_points D); rewrite monicE lead_coefE size_vanishing /= -/(d_size D) -em => /eqP //.
  by rewrite mulr1.
- by rewrite size_vanishing -/(d_size D) em.
Qed.
Notation rowA cs x := (row_poly D (A_updates cs) x).
Notation rowB cs x := (row_poly D (qap_updates (@c_b F) cs) x).

(** ** The honest prover *)
Lemma gg_prover_ok cs' q r pk vk p a rr s :
  r1cs_in_range cs' -> qap_large D cs' ->
  r1cs_to_qap_instance_map_with_evaluation D cs' (gr_t r) = Ok q ->
  gg_keys_of q cs' r pk vk -> r1cs_is_satisfied cs' p a = Ok true ->
  (2 <= d_size D)%N ->
  gr_delta r != 0 ->
  exists aS bS cI cL h : F,
  let A := gr_alpha r + aS + rr * gr_delta r in
  let B := gr_beta r + bS + s * gr_delta r in
  [/\ gg_prover D pk p a rr s =
      if (rowA cs' (p ++ a))`_(d_size D - 1) * (rowB cs' (p ++ a))`_(d_size D - 1) != 0 then
      Ok (GgProof (P := P) (A *: gr_g1 r) (B *: gr_g2 r)
            (((h * qe_Zt q + cL) / gr_delta r + s * A + rr * B - rr * s * gr_delta r) *: gr_g1 r))
      else AssertFail,
      cI = comb q r 0 + \sum_(i < num_inputs cs') p`_i * comb q r i.+1,
      aS * bS = h * qe_Zt q + (cI + cL - gr_beta r * aS - gr_alpha r * bS) &
      aS = wsum (qe_At q) (p ++ a) /\ bS = wsum (qe_Bt q) (p ++ a)].
Proof.
move=> hr hm hq [hal [hb1 hb2] [hd1 hd2] hA hB hH hL hcs hvk] hsat m2 hd.
have [hp ha _ _] := r1cs_is_satisfied_true hsat.
have [w hw [[w1 w2 w3 w4] [w5 w6 w7 w8] sH pH]] := witness_map_ok hr hm 0 0 0 hsat.
have hacc : qap_eval_is_satisfied q w.
  by rewrite (qap_accept hr hm _ hq) w1 w2 w3 w4 w5 w6 w7 w8 sH pH !eqxx.
have [q' hq' [[q1 q2 q3 q4 q5] [s1 s2 s3] hHt hZ hcol]] := qap_eval_ok hr hm (gr_t r).
have e : q' = q by move: hq'; rewrite hq => -[].
subst q' => {hq'}.
have hni := num_inputs_le cs'.
set nv := num_variables cs' in hB hL w1 w4 q1 s1 s2 s3 hni *.
set ni := num_inputs cs' in w3 q3 hL hni *.
set x := p ++ a.
set m := d_size D in w2 sH hHt hH m2 *.
have sx : size x = nv by rewrite -w4 w8.
pose S (v : nat -> F) := v 0%N + \sum_(i < nv) x`_i * v i.+1.
have hin v : size v = nv.+1 -> v`_0 + 0 * qe_Zt q + inner (behead v) x = S (nth 0 v).
  by move=> sv; rewrite mul0r addr0 /S (inner_behead (n := nv)).
pose aS := S (nth 0 (qe_At q)); pose bS := S (nth 0 (qe_Bt q)); pose cS := S (nth 0 (qe_Ct q)).
pose hh := inner (qe_Ht q) (qw_H w).
have hmain : aS * bS - cS = hh * qe_Zt q.
  move: hacc; rewrite /qap_eval_is_satisfied w5 w6 w7 w8 !hin // add0r.
  by do 8!(case: ifP => // _); case: eqP.
pose cI := comb q r 0 + \sum_(i < ni) p`_i * comb q r i.+1.
pose cL := S (comb q r) - cI.
exists aS, bS, cI, cL, hh => A B; split=> //; last first.
- by rewrite /wsum -/x sx.
- have -> : cI + cL = gr_beta r * aS + gr_alpha r * bS + cS.
    rewrite /cL addrC subrK /aS /bS /cS /S /comb !mulrDr !mulr_sumr.
    have -> : \sum_(i < nv) x`_i * (gr_beta r * (qe_At q)`_i.+1 + gr_alpha r * (qe_Bt q)`_i.+1 + (qe_Ct q)`_i.+1)
      = \sum_(i < nv) gr_beta r * (x`_i * (qe_At q)`_i.+1) + \sum_(i < nv) gr_alpha r * (x`_i * (qe_Bt q)`_i.+1)
        + \sum_(i < nv) x`_i * (qe_Ct q)`_i.+1.
      by rewrite -!big_split; apply: eq_bigr => i _ /=; fringn F.
    by move: (\sum_(i < nv) _) (\sum_(i < nv) _) (\sum_(i < nv) _) => u v z; fringn F.
  by rewrite -hmain; fring F.
rewrite /gg_prover hcs hw obindE w1 w2 w3 w8 -/nv -/ni -/x.
have em : (m < 2)%N = false by lia.
rewrite em.
have [hs1 hs2] : (size (Poly (qw_H w)) <= m - 1)%N /\ (Poly (qw_H w))`_(m - 2) =
   (rowA cs' x)`_(m - 1) * (rowB cs' x)`_(m - 1).
  have := @gg_H_size (rowA cs' x) (rowB cs' x) (row_poly D (qap_updates (@c_c F) cs') x) (Poly (qw_H w)) m.
  rewrite !size_row_poly -/m.
  have -> : (m == 1)%N = false by lia.
  apply=> //; first by lia.
  by move: pH; rewrite /= !scale0r !addr0.
have hHn k : (qw_H w)`_k = (Poly (qw_H w))`_k by rewrite coef_Poly.
rewrite !(@oget_nth _ 0) ?sH; try lia.
rewrite !hHn hs2 ![(Poly (qw_H w))`__]nth_default; try by apply: leq_trans hs1 _; lia.
rewrite !obindE; case: ifP => // _; rewrite !eqxx !oassertT.
have sxp : size (1 :: x) = nv.+1 by rewrite /= sx.
rewrite hA (range_full (n := nv.+1)) ?size_batch_exp // (range_full sxp).
rewrite (multi_exp_batch _ s1 sxp) obindE.
have [b1 b2 b3] := hB.
rewrite (kc_multi_exp_ok b1) ?b2 ?sxp // obindE.
rewrite hH range_full ?size_batch_exp ?size_map ?size_takel ?hHt ?size_powers //; try lia.
have sTk : size (take (m - 1) (powers m.+1 (gr_t r))) = (m - 1)%N by rewrite size_takel ?size_powers //; lia.
have sHr : size (range (qw_H w) 0 (m - 1)) = (m - 1)%N by rewrite size_range ?sH ?subn0 //; lia.
rewrite (@multi_exp_batch _ _ _ _ _ (m - 1)) ?size_map //.
rewrite obindE hL (@multi_exp_batch _ _ _ _ _ (nv - ni)) ?size_map ?size_iota ?size_range ?sxp //; try lia.
rewrite obindE.
have eS (v : nat -> F) : \sum_(i < nv.+1) (1 :: x)`_i * v i = S v.
  by rewrite big_ord_recl /= mul1r.
rewrite (eS (fun i => (qe_At q)`_i)) -/aS.
have -> : \sum_(0 <= i < nv.+1) (1 :: x)`_(i - 0) *: sv_at (gk_B pk) i = (bS *: gr_g2 r, bS *: gr_g1 r).
  rewrite (eq_bigr (fun i => (1 :: x)`_i *: (((qe_Bt q)`_i *: gr_g2 r, (qe_Bt q)`_i *: gr_g1 r) : kc (G2 P) (G1 P))));
    last by move=> i _; rewrite subn0 b3.
  rewrite (kc_sum_scale (gr_g2 r) (gr_g1 r) (fun i => (1 :: x)`_i) (fun i => (qe_Bt q)`_i) (fun i => (qe_Bt q)`_i)) big_mkord (eS (fun i => (qe_Bt q)`_i)).
  by [].
have -> : \sum_(i < m - 1) (range (qw_H w) 0 (m - 1))`_i *
     [seq qe_Zt q / gr_delta r * t | t <- take (m - 1) (powers m.+1 (gr_t r))]`_i = hh * qe_Zt q / gr_delta r.
  have -> : hh = \sum_(i < m - 1) (powers m.+1 (gr_t r))`_i * (qw_H w)`_i.
    rewrite /hh (@inner_sum _ _ _ m.+1) ?hHt ?size_powers // [RHS](big_ord_widen_cond m.+1 xpredT
      (fun i => (powers m.+1 (gr_t r))`_i * (qw_H w)`_i)); last by lia.
    rewrite [RHS]big_mkcond; apply: eq_bigr => i _; rewrite andTb; case: ltnP => // hi.
    by rewrite hHn [(Poly _)`__]nth_default ?mulr0 //; apply: leq_trans hs1 _.
  rewrite -mulrA mulr_suml; apply: eq_bigr => i _.
  rewrite nth_range ?subn0 // add0n (nth_map 0) ?sTk // nth_take //.
  by move: (qe_Zt q) (gr_delta r)^-1 => u v; fringn F.
have -> : \sum_(i < nv - ni) (range (1 :: x) ni.+1 nv.+1)`_i *
     [seq comb q r (ni + 1 + j) / gr_delta r | j <- iota 0 (nv - ni)]`_i = cL / gr_delta r.
  have -> : cL = \sum_(i < nv - ni) x`_(ni + i) * comb q r (ni + i).+1.
    rewrite /cL /S /cI opprD addrACA subrr add0r -[nv in LHS](subnKC hni) big_split_ord /= addrC.
    rewrite [X in - X + _](eq_bigr (fun i : 'I_ni => x`_i * comb q r i.+1)); last first.
      by move=> i _; rewrite /x nth_cat hp -/ni ltn_ord.
    by rewrite addKr.
  rewrite mulr_suml; apply: eq_bigr => i _.
  rewrite nth_range ?subSS // (nth_map 0%N) ?size_iota // nth_iota // addSn /= add0n mulrA; congr (_ * comb q r _ * _).
  by rewrite addn1.
rewrite hal hb1 hb2 hd1 hd2 /= !(scalerA, scalerDr, =^~ scalerDl, =^~ scaleNr).
congr (Ok (GgProof _ _ (_ *: _))).
by rewrite /A /B; move: (gr_delta r)^-1 => dv; fring F.
Qed.

(** ** The verifiers *)
Definition gg_equation (vk : gg_verification_key P) (acc : G1 P) (pi : gg_proof P) : bool :=
  e (gp_A pi) (gp_B pi) == gv_alpha_beta vk + e acc (gv_gamma_g2 vk) + e (gp_C pi) (gv_delta_g2 vk).

Definition gg_acc_of (first : G1 P) (es : seq (G1 P)) (p : seq F) : G1 P :=
  first + \sum_(0 <= j < size p) p`_j *: es`_j.

Lemma gg_weak_verdict vk first es p pi : gv_ABC vk = av_of_vector first es ->
  gg_verifier_weak_IC vk p pi =
  if (size p <= size es)%N then Ok (gg_proof_wf pi && gg_equation vk (gg_acc_of first es p) pi) else AssertFail.
Proof.
move=> hIC; rewrite /gg_verifier_weak_IC /gg_online_verifier_weak_IC /= hIC {1}/av_domain_size /=.
case: leqP => hs //; rewrite oassertT.
have [av' -> [hf _ _]] := accumulate_all first es p; rewrite obindE hf -/(gg_acc_of first es p).
congr Ok; rewrite /gg_equation -addrA -subr_eq.
by case: eqP => _; rewrite ?andbT ?andbF //; case: gg_proof_wf.
Qed.

Lemma gg_affine_verdict (vk : gg_verification_key P) p pi :
  gg_affine_verifier_weak_IC vk p pi = gg_verifier_weak_IC vk p pi.
Proof.
rewrite /gg_affine_verifier_weak_IC /gg_verifier_weak_IC /gg_online_verifier_weak_IC /=.
case: oassert => //= _; case: accumulate_chunk => //= av.
by rewrite opprB.
Qed.

Lemma gg_strong_verdict (vk : gg_verification_key P) p pi :
  gg_verifier_strong_IC vk p pi =
  if size p == av_domain_size (gv_ABC vk) then gg_verifier_weak_IC vk p pi else Ok false.
Proof. by rewrite /gg_verifier_strong_IC /gg_online_verifier_strong_IC /= eq_sym; case: eqP. Qed.

Lemma gg_acc_of_zeros first es p n : gg_acc_of first es (p ++ nseq n 0) = gg_acc_of first es p.
Proof.
rewrite /gg_acc_of size_cat size_nseq; congr (_ + _).
rewrite (@big_cat_nat _ _ _ (size p)) ?leq_addr //=.
rewrite [X in _ + X]big1_seq ?addr0; last first.
  move=> i; rewrite mem_index_iota /= => /andP [h1 h2]; rewrite nth_cat ltnNge h1 nth_nseq; case: ifP; rewrite scale0r //.
by rewrite !big_nat; apply: eq_bigr => i /andP [_ h]; rewrite nth_cat h.
Qed.

Lemma gg_weak_zero_extension (vk : gg_verification_key P) first es p n pi : gv_ABC vk = av_of_vector first es ->
  (size p + n <= size es)%N ->
  gg_verifier_weak_IC vk (p ++ nseq n 0) pi = gg_verifier_weak_IC vk p pi.
Proof.
move=> hIC hs; rewrite !(gg_weak_verdict _ _ hIC) gg_acc_of_zeros size_cat size_nseq hs.
by rewrite (leq_trans (leq_addr _ _) hs).
Qed.

Lemma gg_vk_scalars cs' q r pk vk p : gg_keys_of q cs' r pk vk ->
  exists first es, [/\ gv_ABC vk = av_of_vector first es, size es = num_inputs cs' &
    (size p <= num_inputs cs')%N ->
    gg_acc_of first es p = ((comb q r 0 + \sum_(i < size p) p`_i * comb q r i.+1) / gr_gamma r) *: gr_g1 r].
Proof.
case=> _ _ _ _ _ _ _ _ -> /=; eexists; eexists; split; first by [].
  by rewrite size_batch_exp size_map size_iota.
move=> hs; rewrite /gg_acc_of big_mkord [in RHS]mulrDl [in RHS]scalerDl; congr (_ + _).
rewrite mulr_suml scaler_suml; apply: eq_bigr => i _.
have hi : (i < num_inputs cs')%N by apply: leq_trans hs.
by rewrite nth_batch_exp (nth_map 0%N) ?size_iota // nth_iota // add1n scalerA mulrA.
Qed.

(** In the exponent, for any elements of the groups generated by the bases. *)
Lemma gg_equation_scalars cs' q r pk vk acc a b c : gg_keys_of q cs' r pk vk ->
  e (gr_g1 r) (gr_g2 r) != 0 ->
  gg_equation vk (acc *: gr_g1 r) (GgProof (P := P) (a *: gr_g1 r) (b *: gr_g2 r) (c *: gr_g1 r)) =
  (a * b == gr_alpha r * gr_beta r + acc * gr_gamma r + c * gr_delta r).
Proof.
case=> _ _ _ _ _ _ _ _ -> hnd; rewrite /gg_equation /= !eZl !eZr !scalerA -!scalerDl.
by rewrite -subr_eq0 -scalerBl scaler_eq0 (negbTE hnd) orbF subr_eq0.
Qed.

Lemma gg_equation_scalars_imp cs' q r pk vk acc a b c : gg_keys_of q cs' r pk vk ->
  a * b = gr_alpha r * gr_beta r + acc * gr_gamma r + c * gr_delta r ->
  gg_equation vk (acc *: gr_g1 r) (GgProof (P := P) (a *: gr_g1 r) (b *: gr_g2 r) (c *: gr_g1 r)).
Proof.
case=> _ _ _ _ _ _ _ _ -> h; rewrite /gg_equation /= !eZl !eZr !scalerA -!scalerDl.
by rewrite h.
Qed.

(** ** Completeness *)
Theorem gg_complete cs (r : gg_gen_random P) chunks pk vk p a rr s :
  qap_large D cs -> (2 <= d_size D)%N -> r1cs_is_satisfied cs p a = Ok true ->
  wf1 (gr_g1 r) -> wf2 (gr_g2 r) ->
  gg_generator D cs r chunks = Ok (pk, vk) ->
  exists2 cs', swap_AB_if_beneficial cs = Ok cs' &
  if (rowA cs' (p ++ a))`_(d_size D - 1) * (rowB cs' (p ++ a))`_(d_size D - 1) != 0 then
  exists2 pi, gg_prover D pk p a rr s = Ok pi &
    [/\ gg_verifier_weak_IC vk p pi = Ok true, gg_verifier_strong_IC vk p pi = Ok true &
        gg_affine_verifier_weak_IC vk p pi = Ok true]
  else gg_prover D pk p a rr s = AssertFail.
Proof.
move=> hm m2 hsat hw1 hw2 hgen; have [hp ha hr hh] := r1cs_is_satisfied_true hsat.
have [cs' [q [hsw hq]]] := gg_generatorE r hr hm.
case: andP => [[hg hd] [pk' [vk' [hgen' hk]]]|_ hgen']; last by rewrite hgen' in hgen.
move: hgen; rewrite hgen' => -[e1 e2]; subst pk' vk'.
have [cs'' hsw' [hpi hai [hnc hr'] _ hh']] := swap_AB_spec hr.
have e1 : cs'' = cs' by move: hsw'; rewrite hsw => -[].
subst cs''; exists cs' => //.
have hni : num_inputs cs' = num_inputs cs by rewrite /num_inputs hpi.
have hm' : qap_large D cs' by move: hm; rewrite /qap_large hni hnc.
have hsat' : r1cs_is_satisfied cs' p a = Ok true.
  by apply: r1cs_is_satisfied_ok_true => //; rewrite ?hni ?hai //; apply/hh'.
have [aS [bS [cI [cL [h [hpr eI hQ _]]]]]] := gg_prover_ok rr s hr' hm' hq hk hsat' m2 hd.
move: hpr; case: ifP => [_ hpr|_ ->] //; eexists; first exact: hpr.
have [first [es [hIC hes hacc]]] := gg_vk_scalars p hk.
have hpn : size p = num_inputs cs' by rewrite hni.
set pi := GgProof _ _ _.
have heq : gg_equation vk (gg_acc_of first es p) pi.
  rewrite hacc ?hpn //; rewrite -eI; apply: (gg_equation_scalars_imp hk).
  rewrite divfK //.
  have -> : h * qe_Zt q = aS * bS - (cI + cL - gr_beta r * aS - gr_alpha r * bS) by rewrite hQ addrK.
  by ffield F; apply/eqP.
have hwf : gg_proof_wf pi by rewrite /gg_proof_wf /= !wf1_scale ?wf2_scale.
have hweak : gg_verifier_weak_IC vk p pi = Ok true.
  by rewrite (gg_weak_verdict _ _ hIC) hes hpn leqnn heq hwf.
split=> //; last by rewrite gg_affine_verdict.
by rewrite gg_strong_verdict hIC hweak /av_domain_size /= hes hpn eqxx.
Qed.

Theorem gg_generator_total cs (r : gg_gen_random P) chunks : r1cs_in_range cs -> qap_large D cs ->
  (exists pk vk, gg_generator D cs r chunks = Ok (pk, vk)) /\ (gr_gamma r != 0) && (gr_delta r != 0)
  \/ gg_generator D cs r chunks = AssertFail /\ ((gr_gamma r == 0) || (gr_delta r == 0)).
Proof.
move=> hr hm; have [cs' [q [_ _]]] := gg_generatorE r hr hm.
case: ifP => [h0 [pk [vk [h _]]]|h0 h]; [left|right]; split=> //; first by exists pk, vk.
by move/negbT: h0; rewrite negb_and !negbK.
Qed.

End Facts.

(** ** An honest prover that always aborts *)
Section Abort.
Variables (F : fieldType) (P : pairing F) (D : evaluation_domain F).

(** x1 * x1 = x1, no public input. *)
Definition bool_cs : r1cs F :=
  let x1 : linear_combination F := [:: (1%N, 1)] in R1cs 0 1 [:: R1csConstraint x1 x1 x1].

Lemma bool_cs_sat : r1cs_is_satisfied bool_cs [::] [:: 1] = Ok true.
Proof.
apply: r1cs_is_satisfied_ok_true => //.
move=> c [<-|[]] //; rewrite /constraint_holds /formal_sum !big_cons !big_nil /= !addr0 !mul1r //.
Qed.

Lemma bool_rowA : d_size D = 2%N -> (row_poly D (A_updates bool_cs) [:: 1])`_1 = 0.
Proof.
move=> hD; have -> : row_poly D (A_updates bool_cs) [:: 1] = 1%:P.
  apply: interpolate_eq; first exact: d_uniq.
    by rewrite -/(d_size D) hD size_polyC; case: eqP.
  move=> i; rewrite -/(d_size D) hD => hi; rewrite hornerC nth_mkseq //.
  rewrite A_row /=; case: i hi => [|[|//]] _ /=.
    by rewrite add0r /formal_sum big_cons big_nil /= mul1r addr0.
  by rewrite /formal_sum big_nil addr0.
by rewrite coefC.
Qed.

Theorem gg_prover_aborts r chunks pk vk rr s : d_size D = 2%N ->
  gg_generator (P := P) D bool_cs r chunks = Ok (pk, vk) ->
  gg_prover D pk [::] [:: 1] rr s = AssertFail.
Proof.
move=> hD; have hm : qap_large D bool_cs by rewrite /qap_large hD.
have hr : r1cs_in_range bool_cs by [].
move=> hgen; have [cs' [q [hsw hq]]] := gg_generatorE r hr hm.
have e1 : cs' = bool_cs by move: hsw => -[].
subst cs'; case: andP => [[_ hd] [pk' [vk' [hgen' hk]]]|_ hgen']; last by rewrite hgen' in hgen.
move: hgen; rewrite hgen' => -[e1 e2]; subst pk' vk'.
have m2 : (2 <= d_size D)%N by rewrite hD.
have [u1 [u2 [u3 [u4 [u5 [hpr u6 u7]]]]]] := gg_prover_ok rr s hr hm hq hk bool_cs_sat m2 hd; rewrite hpr.
by rewrite hD bool_rowA // mul0r eqxx.
Qed.
End Abort.
