(** Proofs about the simulation-extractable R1CS ppzkSNARK. *)
From mathcomp Require Import all_ssreflect all_algebra.
From Verif Require Import Outcome Lincomb LincombSpec R1CS R1CSSpec R1CSFacts Domain DomainFacts ArithPrograms
  ArithSpec ArithFacts QapFacts SapFacts Vectors VectorsSpec VectorsFacts Pairing SnarkFacts R1csSePpzksnark Fieldtac.
From mathcomp Require Import zify.
Set Implicit Arguments.
Unset Strict Implicit.
Unset Printing Implicit Defensive.
Import GRing.Theory.
Local Open Scope ring_scope.

Section Facts.
Variables (F : fieldType).
Add Field Ff : (Fth F).
Variables (P : pairing F) (D : evaluation_domain F).

(** gamma * C_i(t) + (alpha + beta) * A_i(t) *)
Definition se_term (q : sap_evaluation F) (r : se_gen_random P) (i : nat) : F :=
  sr_gamma r * (se_Ct q)`_i + (sr_alpha r + sr_beta r) * (se_At q)`_i.

Record se_keys_of (q : sap_evaluation F) (cs : r1cs F) t (r : se_gen_random P)
    (pk : se_proving_key P) (vk : se_verification_key P) : Prop := SeKeysOf {
  sko_pk : pk = SeProvingKey (P := P)
    (batch_exp (sr_G r) [seq sr_gamma r * a | a <- se_At q])
    (batch_exp (sr_gamma r *: sr_H r) (se_At q))
    (batch_exp (sr_G r) [seq sr_gamma r * se_term q r i | i <- iota (num_inputs cs).+1 (sap_num_vars cs - num_inputs cs)])
    (batch_exp (sr_G r) [seq (sr_gamma r * sr_gamma r * se_Zt q + sr_gamma r * sr_gamma r * se_Zt q) * (se_At q)`_i
                         | i <- iota 0 (sap_num_vars cs).+1])
    ((se_Zt q * sr_gamma r) *: sr_G r) ((se_Zt q * sr_gamma r) *: sr_H r)
    (((sr_alpha r + sr_beta r) * se_Zt q * sr_gamma r) *: sr_G r)
    ((se_Zt q * sr_gamma r * (se_Zt q * sr_gamma r)) *: sr_G r)
    (batch_exp (sr_G r) [seq se_Zt q * sr_gamma r ^+ 2 * h | h <- powers (d_size D).+1 t]) cs;
  sko_vk : vk = SeVerificationKey (P := P) (sr_H r) (sr_alpha r *: sr_G r) (sr_beta r *: sr_H r)
    (sr_gamma r *: sr_G r) (sr_gamma r *: sr_H r)
    (batch_exp (sr_G r) [seq se_term q r i | i <- iota 0 (num_inputs cs).+1])
}.

Lemma geometric (c t : F) n k : foldl (fun (st : seq F * F) (_ : nat) => (rcons st.1 st.2, st.2 * t))
    ([::], c) (iota k n) = (mkseq (fun i => c * t ^+ i) n, c * t ^+ n).
Proof.
elim: n => [|n IH]; first by rewrite expr0 mulr1.
rewrite -addn1 iotaD foldl_cat IH /= addn1 exprSr mulrA; congr pair.
by rewrite /mkseq -addn1 iotaD map_cat cats1.
Qed.

Lemma se_generator_atE cs t (r : se_gen_random P) : r1cs_in_range cs -> sap_large D cs ->
  exists q pk vk, [/\ r1cs_to_sap_instance_map_with_evaluation D cs t = Ok q,
    se_generator_at D cs t r = Ok (pk, vk) & se_keys_of q cs t r pk vk].
Proof.
move=> hr hm.
have [q hq [[q1 q2 q3 q4 q5] [s1 s2] hH hZ hcol]] := sap_eval_ok hr hm t.
have hni : (num_inputs cs <= sap_num_vars cs)%N.
  by apply: leq_trans (num_inputs_le cs) _; rewrite /sap_num_vars; lia.
exists q; eexists; eexists; split; first exact: hq.
  rewrite /se_generator_at hq obindE q1 q2 q3.
  have hterm i : (i <= sap_num_vars cs)%N ->
     (let! c := oget (se_Ct q) i in let! a := oget (se_At q) i in
      Ok (sr_gamma r * c + (sr_alpha r + sr_beta r) * a)) = Ok (se_term q r i).
    by move=> hi; rewrite (@oget_nth _ 0) ?s2 // obindE (@oget_nth _ 0) ?s1.
  rewrite (@omapm_Ok _ _ _ (se_term q r)); last first.
    by move=> i /In_mem; rewrite mem_iota => hi; apply: hterm; lia.
  rewrite obindE (@omapm_Ok _ _ _ (fun i => sr_gamma r * se_term q r i)); last first.
    by move=> i /In_mem; rewrite mem_iota => hi; rewrite hterm //; lia.
  rewrite obindE (@omapm_Ok _ _ _ (fun i => (sr_gamma r * sr_gamma r * se_Zt q + sr_gamma r * sr_gamma r * se_Zt q) * (se_At q)`_i)); last first.
    by move=> i /In_mem; rewrite mem_iota => hi; rewrite (@oget_nth _ 0) ?s1 //; lia.
  rewrite obindE geometric; reflexivity.
split; rewrite ?scalerA //.
congr (SeProvingKey _ _ _ _ _ _ (_ *: _) (_ *: _) (batch_exp _ _) _).
- by rewrite !mulrA.
- rewrite [LHS]/=; apply: (@eq_from_nth _ 0); first by rewrite size_mkseq size_map size_powers.
  by move=> i; rewrite size_mkseq => hi; rewrite nth_mkseq // (nth_map 0) ?size_powers // powersE.
Qed.

Lemma num_inputs_sap (cs : r1cs F) : (num_inputs cs <= sap_num_vars cs)%N.
Proof. by apply: leq_trans (num_inputs_le cs) _; rewrite /sap_num_vars; lia. Qed.

Lemma behead_batch (T : lmodType F) (g : T) v : behead (batch_exp g v) = batch_exp g (behead v).
Proof. by case: v. Qed.

(** ** The honest prover *)
Lemma se_prover_ok cs t q (r : se_gen_random P) pk vk p a d1 d2 rr :
  r1cs_in_range cs -> sap_large D cs ->
  r1cs_to_sap_instance_map_with_evaluation D cs t = Ok q ->
  se_keys_of q cs t r pk vk -> r1cs_is_satisfied cs p a = Ok true ->
  exists aS cI cX h : F,
  let Z := se_Zt q in let g := sr_gamma r in let ab := sr_alpha r + sr_beta r in
  [/\ se_prover D pk p a d1 d2 rr =
      Ok (SeProof (P := P) ((g * (aS + (rr + d1) * Z)) *: sr_G r) ((g * (aS + (rr + d1) * Z)) *: sr_H r)
            ((g * cX + rr * rr * (Z * g * (Z * g)) + (rr + d1) * (ab * Z * g)
              + rr * ((g * g * Z + g * g * Z) * aS) + (rr + rr) * d1 * (Z * g * (Z * g))
              + (d2 + h) * (Z * g ^+ 2)) *: sr_G r)),
      cI = se_term q r 0 + \sum_(i < num_inputs cs) p`_i * se_term q r i.+1,
      g * ((aS + d1 * Z) * (aS + d1 * Z) - d2 * Z - h * Z) = cI + cX - ab * aS &
      aS = wsum (se_At q) (sap_ext cs (p ++ a))].
Proof.
move=> hr hm hq [-> _] hsat.
have [hp ha _ _] := r1cs_is_satisfied_true hsat.
have [w hw [[w1 w2 w3 w4] [w5 w6 w7] sH pH]] := sap_witness_map_ok hr hm d1 d2 hsat.
have hacc : sap_eval_is_satisfied q w.
  by rewrite (sap_accept hr hm _ hq) w1 w2 w3 w4 w5 w6 sH pH !eqxx.
have [q' hq' [[q1 q2 q3 q4 q5] [s1 s2] hHt hZ hcol]] := sap_eval_ok hr hm t.
have e : q' = q by move: hq'; rewrite hq => -[].
subst q' => {hq'}.
have hni := num_inputs_sap cs.
set nv := sap_num_vars cs in s1 s2 w1 w4 q1 hni *.
set ni := num_inputs cs in w3 q3 hni hp *.
set x := sw_ACs w in w4 w7 *.
set m := d_size D in w2 sH hHt *.
pose S (v : nat -> F) := v 0%N + \sum_(i < nv) x`_i * v i.+1.
pose aS := S (nth 0 (se_At q)); pose cS := S (nth 0 (se_Ct q)).
pose hh := inner (se_Ht q) (sw_H w).
have hmain : (aS + d1 * se_Zt q) * (aS + d1 * se_Zt q) - (cS + d2 * se_Zt q) = hh * se_Zt q.
  move: hacc; rewrite /sap_eval_is_satisfied w5 w6 -/x !(inner_behead (n := nv)) // add0r.
  rewrite ![_ + _ * se_Zt q + _]addrAC.
  by do 8!(case: ifP => // _); case: eqP.
pose cI := se_term q r 0 + \sum_(i < ni) p`_i * se_term q r i.+1.
pose cX := S (se_term q r) - cI.
exists aS, cI, cX, hh => Z g ab; split=> //; last first.
- by rewrite /wsum /aS /S -w7 w4.
- have -> : cI + cX = g * cS + ab * aS.
    rewrite /cX addrC subrK /aS /cS /S /se_term -/g -/ab !mulrDr !mulr_sumr.
    have -> : \sum_(i < nv) x`_i * (g * (se_Ct q)`_i.+1 + ab * (se_At q)`_i.+1)
      = \sum_(i < nv) g * (x`_i * (se_Ct q)`_i.+1) + \sum_(i < nv) ab * (x`_i * (se_At q)`_i.+1).
      by rewrite -!big_split; apply: eq_bigr => i _ /=; fringn F.
    by move: (\sum_(i < nv) _) (\sum_(i < nv) _) => u v; fringn F.
  rewrite -/Z in hmain *; rewrite -hmain; by fring F.
rewrite /se_prover; cbn [sk_A sk_B sk_C1 sk_C2 sk_G_gamma_Z sk_H_gamma_Z sk_G_ab_gamma_Z sk_G_gamma2_Z2 sk_G_gamma2_Z_t sk_cs].
rewrite hw obindE w3 w5 w6 -/x -/ni -/nv.
have sx1 : size (behead (se_At q)) = nv by rewrite size_behead s1.
have sP : size (powers m.+1 t) = m.+1 by rewrite size_powers.
have P0 : (powers m.+1 t)`_0 = 1 by rewrite powersE ?expr0.
have hhE : hh = \sum_(i < m.+1) (powers m.+1 t)`_i * (sw_H w)`_i.
  by rewrite /hh (@inner_sum _ _ _ m.+1) ?hHt ?size_powers.
move: sP P0 hhE {hHt}; move: (powers m.+1 t) => Pw sP P0 hhE.
rewrite (@oget_nth _ 0) ?size_batch_exp ?size_map ?s1 // nth_batch_exp obindE.
rewrite behead_batch behead_map.
rewrite (@multi_exp_batch _ _ _ _ _ nv) ?size_map // obindE.
rewrite (@oget_nth _ 0) ?size_batch_exp ?s1 // nth_batch_exp obindE behead_batch.
rewrite (@multi_exp_batch _ _ _ _ _ nv) // obindE.
rewrite (@multi_exp_batch _ _ _ _ _ (nv - ni)) ?size_map ?size_iota ?size_drop ?w4 // obindE.
rewrite (@oget_nth _ 0) ?size_batch_exp ?size_map ?size_iota // nth_batch_exp obindE behead_batch.
rewrite (@multi_exp_batch _ _ _ _ _ nv) ?size_behead ?size_map ?size_iota // obindE.
rewrite (@oget_nth _ 0) ?size_batch_exp ?size_map ?sP // nth_batch_exp obindE.
rewrite (@multi_exp_batch _ _ _ _ _ m.+1) ?size_map // obindE.
set dg := _ * _ * _ + _.
have e1 c : [seq c * h | h <- Pw]`_0 = c by rewrite (nth_map 0) ?sP // P0 mulr1.
have e2 : [seq sr_gamma r * a0 | a0 <- se_At q]`_0 = g * (se_At q)`_0 by rewrite (nth_map 0) ?s1.
have e3 : [seq dg * (se_At q)`_i | i <- iota 0 nv.+1]`_0 = dg * (se_At q)`_0.
  by rewrite (nth_map 0%N) ?size_iota // nth_iota.
pose aT := \sum_(i < nv) x`_i * (se_At q)`_i.+1.
have e4 : \sum_(i < nv) x`_i * (behead (se_At q))`_i = aT.
  by apply: eq_bigr => i _; rewrite nth_behead.
have e5 : \sum_(i < nv) x`_i * [seq sr_gamma r * a0 | a0 <- behead (se_At q)]`_i = g * aT.
  rewrite mulr_sumr; apply: eq_bigr => i _; rewrite (nth_map 0) ?sx1 // nth_behead -/g; by fringn F.
have e6 : \sum_(i < nv) x`_i * (behead [seq dg * (se_At q)`_i0 | i0 <- iota 0 nv.+1])`_i = dg * aT.
  rewrite mulr_sumr; apply: eq_bigr => i _; rewrite nth_behead (nth_map 0%N) ?size_iota ?ltnS // nth_iota ?ltnS // add0n.
  by move: dg {e3} => u; fringn F.
have e7 c : \sum_(i < m.+1) (sw_H w)`_i * [seq c * h | h <- Pw]`_i = c * hh.
  rewrite hhE mulr_sumr; apply: eq_bigr => i _; rewrite (nth_map 0) ?sP //; by fringn F.
have e8 : \sum_(i < nv - ni) (drop ni x)`_i * [seq sr_gamma r * se_term q r i0 | i0 <- iota ni.+1 (nv - ni)]`_i
   = g * cX.
  have -> : cX = \sum_(i < nv - ni) x`_(ni + i) * se_term q r (ni + i).+1.
    rewrite /cX /S /cI opprD addrACA subrr add0r -[nv in LHS](subnKC hni) big_split_ord /= addrC.
    rewrite [X in - X + _](eq_bigr (fun i : 'I_ni => x`_i * se_term q r i.+1)); last first.
      move=> i _; congr (_ * _); rewrite w7 /sap_ext nth_cat size_cat hp nth_cat hp -/ni ltn_ord.
      by rewrite (leq_trans (ltn_ord i) (leq_addr _ _)).
    by rewrite addKr.
  rewrite mulr_sumr; apply: eq_bigr => i _.
  rewrite nth_drop (nth_map 0%N) ?size_iota // nth_iota // addSn -/g.
  by move: (se_term _ _ _) => u; fringn F.
rewrite !e1 e2 e3 e4 e5 e6 e7 e8 !scalerA -!scalerDl.
have eA : aS = (se_At q)`_0 + aT by [].
have ed : dg = g * g * Z + g * g * Z by [].
have eZ : se_Zt q = Z by [].
have eg : sr_gamma r = g by [].
rewrite eA eZ eg -/ab; move: dg ed {e3 e6} => dg ->.
generalize ((se_At q)`_0) aT cX hh => a0 aT' cX' hh'.
by congr (Ok (SeProof (_ *: _) (_ *: _) (_ *: _))); fring F.
Qed.

(** ** The verifiers *)
Definition se_equations (vk : se_verification_key P) (psi : G1 P) (pi : se_proof P) : bool :=
  (e (spi_A pi + sv_G_alpha vk) (spi_B pi + sv_H_beta vk)
     == e (sv_G_alpha vk) (sv_H_beta vk) + e psi (sv_H_gamma vk) + e (spi_C pi) (sv_H vk))
  && (e (spi_A pi) (sv_H_gamma vk) == e (sv_G_gamma vk) (spi_B pi)).

Lemma se_weak_verdict (vk : se_verification_key P) q0 qs p pi : sv_query vk = q0 :: qs ->
  se_verifier_weak_IC vk p pi =
  if size p == size qs
  then Ok (se_proof_wf pi && se_equations vk (q0 + \sum_(i < size p) p`_i *: qs`_i) pi) else UB.
Proof.
move=> hq; rewrite /se_verifier_weak_IC /se_online_verifier_weak_IC /= hq /=.
case: (@eqP _ (size p) (size qs)) => hs; last first.
  by rewrite multi_expE; case: (@eqP _ (size qs) (size p)) => // h; case: hs.
rewrite (@multi_exp_sum _ _ _ _ (size p)) // obindE; congr Ok.
rewrite /se_equations subr_eq0.
set L := e (spi_A pi + _) _; set R1 := e (sv_G_alpha vk) _; set R2 := e (q0 + _) _; set R3 := e (spi_C pi) _.
have -> : (- L + R1 + R2 + R3 == 0) = (L == R1 + R2 + R3) by rewrite -!addrA addrC subr_eq0 eq_sym.
by case: eqP => _; case: eqP => _; rewrite ?andbT ?andbF //; case: se_proof_wf.
Qed.

Lemma se_strong_verdict (vk : se_verification_key P) p pi :
  se_verifier_strong_IC vk p pi =
  if (size p).+1 == size (sv_query vk) then se_verifier_weak_IC vk p pi else Ok false.
Proof. by rewrite /se_verifier_strong_IC /se_online_verifier_strong_IC /= eq_sym; case: eqP. Qed.

Lemma se_vk_scalars cs t q (r : se_gen_random P) pk vk : se_keys_of q cs t r pk vk ->
  exists q0 qs, [/\ sv_query vk = q0 :: qs, size qs = num_inputs cs &
    forall p, size p = num_inputs cs ->
    q0 + \sum_(i < size p) p`_i *: qs`_i
    = (se_term q r 0 + \sum_(i < num_inputs cs) p`_i * se_term q r i.+1) *: sr_G r].
Proof.
case=> _ ->; rewrite /sv_query /batch_exp -map_comp -[(num_inputs cs).+1]add1n iotaD map_cat /=.
eexists; eexists; split; first by [].
  by rewrite size_map size_iota.
move=> p hp; rewrite [in RHS]scalerDl hp scaler_suml; congr (_ + _); apply: eq_bigr => i _.
by rewrite (nth_map 0%N) ?size_iota // nth_iota //= scalerA.
Qed.

Lemma se_equations_scalars cs t q (r : se_gen_random P) pk vk psi a b c : se_keys_of q cs t r pk vk ->
  e (sr_G r) (sr_H r) != 0 -> sr_gamma r != 0 ->
  se_equations vk (psi *: sr_G r) (SeProof (P := P) (a *: sr_G r) (b *: sr_H r) (c *: sr_G r)) =
  (a == b) && ((a + sr_alpha r) * (b + sr_beta r) == sr_alpha r * sr_beta r + psi * sr_gamma r + c).
Proof.
case=> _ -> hnd hg; rewrite /se_equations /= -!scalerDl !eZl !eZr !scalerA -!scalerDl.
have hz u v : (u *: e (sr_G r) (sr_H r) == v *: e (sr_G r) (sr_H r)) = (u == v).
  by rewrite -subr_eq0 -scalerBl scaler_eq0 (negbTE hnd) orbF subr_eq0.
by rewrite !hz [sr_gamma r * b]mulrC (inj_eq (mulIf hg)) andbC.
Qed.

Lemma se_equations_scalars_imp cs t q (r : se_gen_random P) pk vk psi a c : se_keys_of q cs t r pk vk ->
  (a + sr_alpha r) * (a + sr_beta r) = sr_alpha r * sr_beta r + psi * sr_gamma r + c ->
  se_equations vk (psi *: sr_G r) (SeProof (P := P) (a *: sr_G r) (a *: sr_H r) (c *: sr_G r)).
Proof.
case=> _ -> h; rewrite /se_equations /= -!scalerDl !eZl !eZr !scalerA -!scalerDl.
by rewrite h [sr_gamma r * a]mulrC !eqxx.
Qed.

(** ** Completeness *)
Theorem se_complete cs (r : se_gen_random P) pk vk p a d1 d2 rr :
  sap_large D cs -> r1cs_is_satisfied cs p a = Ok true ->
  wf1 (sr_G r) -> wf2 (sr_H r) ->
  se_generator D cs r = Some (Ok (pk, vk)) ->
  exists2 pi, se_prover D pk p a d1 d2 rr = Ok pi &
    se_verifier_weak_IC vk p pi = Ok true /\ se_verifier_strong_IC vk p pi = Ok true.
Proof.
move=> hm hsat hw1 hw2 hgen; have [hp ha hr hh] := r1cs_is_satisfied_true hsat.
move: hgen; rewrite /se_generator; case: se_draw_t => // t [].
have [q [pk' [vk' [hq -> hk]]]] := se_generator_atE t r hr hm => -[e1 e2]; subst pk' vk'.
have [aS [cI [cX [h [hpr eI hQ _]]]]] := se_prover_ok d1 d2 rr hr hm hq hk hsat.
eexists; first exact: hpr.
have [q0 [qs [hqs sqs hpsi]]] := se_vk_scalars hk.
set pi := SeProof _ _ _.
have heq : se_equations vk (q0 + \sum_(i < size p) p`_i *: qs`_i) pi.
  rewrite hpsi // -eI; apply: (se_equations_scalars_imp hk).
  have -> : cI = sr_gamma r * ((aS + d1 * se_Zt q) * (aS + d1 * se_Zt q) - d2 * se_Zt q - h * se_Zt q)
                 - cX + (sr_alpha r + sr_beta r) * aS by rewrite hQ; fring F.
  by fring F.
have hwf : se_proof_wf pi by rewrite /se_proof_wf /= !wf1_scale ?wf2_scale.
have hweak : se_verifier_weak_IC vk p pi = Ok true.
  by rewrite (se_weak_verdict _ _ hqs) sqs hp eqxx -hp heq hwf.
by split=> //; rewrite se_strong_verdict hqs /= sqs hp eqxx.
Qed.

Theorem se_generator_total cs (r : se_gen_random P) : r1cs_in_range cs -> sap_large D cs ->
  if has (fun t => t \notin d_points D) (sr_ts r)
  then exists pk vk, se_generator D cs r = Some (Ok (pk, vk)) else se_generator D cs r = None.
Proof.
move=> hr hm; rewrite /se_generator; elim: (sr_ts r) => [|t ts IH] //=.
rewrite /compute_vanishing_polynomial -rootE /vanishing root_prod_XsubC.
case: (boolP (t \in _)) => //= _.
by have [q [pk [vk [_ -> _]]]] := se_generator_atE t r hr hm; exists pk, vk.
Qed.

End Facts.
