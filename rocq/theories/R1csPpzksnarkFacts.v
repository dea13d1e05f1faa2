(** Proofs about the R1CS ppzkSNARK. *)
From mathcomp Require Import all_ssreflect all_algebra.
From Verif Require Import Outcome Lincomb LincombSpec R1CS R1CSSpec R1CSFacts Domain DomainFacts ArithPrograms
  ArithSpec ArithFacts QapFacts Vectors VectorsSpec VectorsFacts Pairing SnarkFacts R1csPpzksnark Fieldtac.
From mathcomp Require Import zify.
Set Implicit Arguments.
Unset Strict Implicit.
Unset Printing Implicit Defensive.
Import GRing.Theory.
Local Open Scope ring_scope.

Section Facts.
Variables (F : fieldType).
Add Field Ff : (Fth F).

Lemma set_nth_cat (T : Type) (d : T) (a b : seq T) x y :
  set_nth d (a ++ x :: b) (size a) y = a ++ y :: b.
Proof. by elim: a => [|z a IH] //=; rewrite IH. Qed.

Lemma take_ICE (v : seq F) n : (n <= size v)%N ->
  take_IC v n = if all (fun x => x != 0) (take n v) then Ok (nseq n 0 ++ drop n v, take n v) else AssertFail.
Proof.
rewrite /take_IC; elim: n => [|n IH] hn; first by rewrite take0 drop0.
rewrite -addn1 iotaD ofold_cat IH ?(ltnW hn) // addn1 (take_nth 0) // all_rcons add0n andbC.
case: ifP => //= _.
have e : drop n v = v`_n :: drop n.+1 v by rewrite (drop_nth 0).
rewrite (@oget_nth _ 0) ?nth_cat ?size_cat ?size_nseq ?ltnn ?subnn ?size_drop; last by rewrite subnKC // ltnW.
rewrite e /=; case: eqP => //= _.
rewrite (@oput_set_nth _ 0) ?size_cat ?size_nseq /= -?addSnnS ?ltn_addr //.
have := set_nth_cat 0 (nseq n 0) (drop n.+1 v) v`_n 0; rewrite size_nseq => ->.
by congr (Ok (_, _)); elim: {IH hn e} n (drop _ _) => //= n IH b; rewrite IH.
Qed.

Lemma nth_tail (v : seq F) n k : (nseq n 0 ++ drop n v)`_k = if (k < n)%N then 0 else v`_k.
Proof.
rewrite nth_cat size_nseq; case: ltnP => h; first by rewrite nth_nseq h.
by rewrite nth_drop subnKC.
Qed.

Variables (P : pairing F) (D : evaluation_domain F).
Notation g1 := (G1_one P).
Notation g2 := (G2_one P).

Definition Kt_of (q : qap_evaluation F) (r : r1cs_gen_random F) : seq F :=
  let At := rcons (qe_At q) (qe_Zt q) in
  let Bt := rcons (qe_Bt q) (qe_Zt q) in
  let Ct := rcons (qe_Ct q) (qe_Zt q) in
  let rA := rg_rA r in let rB := rg_rB r in let rC := rA * rB in let beta := rg_beta r in
  [seq beta * (rA * At`_i + rB * Bt`_i + rC * Ct`_i) | i <- iota 0 (qe_num_variables q).+1]
  ++ [:: beta * rA * qe_Zt q; beta * rB * qe_Zt q; beta * rC * qe_Zt q].

(** What the generator returns, given the evaluated QAP of the swapped system. *)
Record keys_of (q : qap_evaluation F) (cs' : r1cs F) (r : r1cs_gen_random F)
    (pk : r1cs_proving_key P) (vk : r1cs_verification_key P) : Prop := KeysOf {
  ko_A : [/\ sv_ok (pk_A pk), sv_domain_size (pk_A pk) = (num_variables cs').+2 &
     forall k, sv_at (pk_A pk) k =
       let x := if (k <= num_inputs cs')%N then 0 else (rcons (qe_At q) (qe_Zt q))`_k in
       ((rg_rA r * x) *: g1, (rg_rA r * rg_alphaA r * x) *: g1)];
  ko_B : [/\ sv_ok (pk_B pk), sv_domain_size (pk_B pk) = (num_variables cs').+2 &
     forall k, sv_at (pk_B pk) k =
       let x := (rcons (qe_Bt q) (qe_Zt q))`_k in
       ((rg_rB r * x) *: g2, (rg_rB r * rg_alphaB r * x) *: g1)];
  ko_C : [/\ sv_ok (pk_C pk), sv_domain_size (pk_C pk) = (num_variables cs').+2 &
     forall k, sv_at (pk_C pk) k =
       let x := (rcons (qe_Ct q) (qe_Zt q))`_k in
       ((rg_rA r * rg_rB r * x) *: g1, (rg_rA r * rg_rB r * rg_alphaC r * x) *: g1)];
  ko_H : pk_H pk = batch_exp g1 (qe_Ht q);
  ko_K : pk_K pk = batch_exp g1 (Kt_of q r);
  ko_cs : pk_cs pk = cs';
  ko_vk : vk = R1csVerificationKey
        (rg_alphaA r *: g2) (rg_alphaB r *: g1) (rg_alphaC r *: g2) (rg_gamma r *: g2)
        ((rg_gamma r * rg_beta r) *: g1) ((rg_gamma r * rg_beta r) *: g2)
        ((rg_rA r * rg_rB r * qe_Zt q) *: g2)
        (av_of_vector ((rg_rA r * (qe_At q)`_0) *: g1)
           (batch_exp g1 [seq rg_rA r * (qe_At q)`_i | i <- iota 1 (num_inputs cs')]))
}.

Lemma generatorE cs (r : r1cs_gen_random F) : r1cs_in_range cs -> qap_large D cs ->
  exists cs' q,
  [/\ swap_AB_if_beneficial cs = Ok cs',
      r1cs_to_qap_instance_map_with_evaluation D cs' (rg_t r) = Ok q &
      if all (fun x => x != 0) (take (num_inputs cs').+1 (qe_At q))
      then exists pk vk, (forall chunks, r1cs_generator P D cs r chunks = Ok (pk, vk)) /\ keys_of q cs' r pk vk
      else forall chunks, r1cs_generator P D cs r chunks = AssertFail].
Proof.
move=> hr hm; have [cs' hsw [hpi hai [hnc hr'] _ hh]] := swap_AB_spec hr.
have hm' : qap_large D cs' by move: hm; rewrite /qap_large /num_inputs hpi hnc.
have [q hq [[q1 q2 q3 q4 q5] [s1 s2 s3] hH hZ hcol]] := qap_eval_ok hr' hm' (rg_t r).
exists cs', q; split=> //.
have hni := num_inputs_le cs'.
set At := rcons (qe_At q) (qe_Zt q).
have sA : size At = (num_variables cs').+2 by rewrite size_rcons s1.
have sB : size (rcons (qe_Bt q) (qe_Zt q)) = (num_variables cs').+2 by rewrite size_rcons s2.
have sC : size (rcons (qe_Ct q) (qe_Zt q)) = (num_variables cs').+2 by rewrite size_rcons s3.
have htk : take (num_inputs cs').+1 At = take (num_inputs cs').+1 (qe_At q).
  by rewrite /At -cats1 takel_cat // s1.
have hgen chunks : r1cs_generator P D cs r chunks =
  if all (fun x => x != 0) (take (num_inputs cs').+1 (qe_At q)) then
    let rA := rg_rA r in let rB := rg_rB r in let rC := rA * rB in
    let! A_query := kc_batch_exp g1 g1 rA (rA * rg_alphaA r)
        (nseq (num_inputs cs').+1 0 ++ drop (num_inputs cs').+1 At) chunks in
    let! B_query := kc_batch_exp g2 g1 rB (rB * rg_alphaB r) (rcons (qe_Bt q) (qe_Zt q)) chunks in
    let! C_query := kc_batch_exp g1 g1 rC (rC * rg_alphaC r) (rcons (qe_Ct q) (qe_Zt q)) chunks in
    Ok (R1csProvingKey A_query B_query C_query (batch_exp g1 (qe_Ht q)) (batch_exp g1 (Kt_of q r)) cs',
        R1csVerificationKey
        (rg_alphaA r *: g2) (rg_alphaB r *: g1) (rg_alphaC r *: g2) (rg_gamma r *: g2)
        ((rg_gamma r * rg_beta r) *: g1) ((rg_gamma r * rg_beta r) *: g2)
        ((rg_rA r * rg_rB r * qe_Zt q) *: g2)
        (av_of_vector ((rg_rA r * (qe_At q)`_0) *: g1)
           (batch_exp g1 [seq rg_rA r * (qe_At q)`_i | i <- iota 1 (num_inputs cs')])))
  else AssertFail.
  rewrite /r1cs_generator hsw obindE hq obindE.
  rewrite (@omapm_Ok _ _ _ (fun i => rg_beta r * (rg_rA r * At`_i + rg_rB r * (rcons (qe_Bt q) (qe_Zt q))`_i
              + rg_rA r * rg_rB r * (rcons (qe_Ct q) (qe_Zt q))`_i))); last first.
    move=> i /In_mem; rewrite mem_iota add0n q1 => hi.
    have hi' : (i < (num_variables cs').+2)%N by lia.
    by rewrite (@oget_nth _ 0) ?sA // obindE (@oget_nth _ 0) ?sB // obindE (@oget_nth _ 0) ?sC.
  rewrite obindE take_ICE; last by rewrite sA q3; lia.
  rewrite q3 htk; case: ifP => // hall; rewrite obindE.
  case: (kc_batch_exp _ _ _ _ _ chunks) => // A_query; rewrite !obindE.
  case: (kc_batch_exp _ _ _ _ _ chunks) => // B_query; rewrite !obindE.
  case: (kc_batch_exp _ _ _ _ _ chunks) => // C_query; rewrite !obindE.
  rewrite (@oget_nth _ 0) ?obindE; last by rewrite size_takel ?s1.
  rewrite (@omapm_Ok _ _ _ (fun i => rg_rA r * (qe_At q)`_i)).
    by rewrite obindE nth_take.
  move=> i /In_mem; rewrite mem_iota add1n => /andP [_ hi].
  by rewrite (@oget_nth _ 0) ?size_takel ?s1 // obindE nth_take.
move: hgen; case: ifP => // _ hgen.
have [A' hA [a1 a2 _ a3]] := kc_batch_exp_spec g1 g1 (rg_rA r) (rg_rA r * rg_alphaA r)
        (nseq (num_inputs cs').+1 0 ++ drop (num_inputs cs').+1 At).
have [B' hB [b1 b2 _ b3]] := kc_batch_exp_spec g2 g1 (rg_rB r) (rg_rB r * rg_alphaB r) (rcons (qe_Bt q) (qe_Zt q)).
have [C' hC [c1 c2 _ c3]] := kc_batch_exp_spec g1 g1 (rg_rA r * rg_rB r) (rg_rA r * rg_rB r * rg_alphaC r)
  (rcons (qe_Ct q) (qe_Zt q)).
eexists; eexists; split.
  by move=> chunks; rewrite hgen /= hA hB hC.
split=> //=; split=> //.
- by rewrite a2 size_cat size_nseq size_drop sA; lia.
- by move=> k; rewrite a3 nth_tail ltnS.
- by rewrite b2.
- by rewrite c2.
Qed.

Lemma kc_answer (T1 T2 : lmodType F) (h1 : T1) (h2 : T2) (v : kc_vector T1 T2) c1 c2 (f : nat -> F) (x : seq F) n d :
  (forall k, sv_at v k = ((c1 * f k) *: h1, (c2 * f k) *: h2)) ->
  sv_at v 0 + d *: sv_at v n.+1 + \sum_(1 <= i < n.+1) x`_(i - 1) *: sv_at v i
  = (let s := f 0%N + d * f n.+1 + \sum_(i < n) x`_i * f i.+1 in ((c1 * s) *: h1, (c2 * s) *: h2)).
Proof.
move=> h; under eq_bigr do rewrite h; rewrite kc_sum_scale !h.
have e c : \sum_(1 <= i < n.+1) x`_(i - 1) * (c * f i) = c * \sum_(i < n) x`_i * f i.+1.
  rewrite big_add1 big_mkord mulr_sumr; apply: eq_bigr => i _.
  by rewrite subn1 /=; fring F.
rewrite !e [LHS]surjective_pairing /=; congr (_, _); rewrite !scalerA -!scalerDl; congr (_ *: _); fring F.
Qed.

(** ** The honest prover *)

Lemma prover_ok cs' q r pk vk p a d1 d2 d3 :
  r1cs_in_range cs' -> qap_large D cs' ->
  r1cs_to_qap_instance_map_with_evaluation D cs' (rg_t r) = Ok q ->
  keys_of q cs' r pk vk -> r1cs_is_satisfied cs' p a = Ok true ->
  exists aA aI bB cC hh,
  [/\ r1cs_prover D pk p a d1 d2 d3 = Ok (R1csProof (P := P)
        ((rg_rA r * aA) *: g1, (rg_rA r * rg_alphaA r * aA) *: g1)
        ((rg_rB r * bB) *: g2, (rg_rB r * rg_alphaB r * bB) *: g1)
        ((rg_rA r * rg_rB r * cC) *: g1, (rg_rA r * rg_rB r * rg_alphaC r * cC) *: g1)
        (hh *: g1)
        ((rg_beta r * (rg_rA r * (aI + aA) + rg_rB r * bB + rg_rA r * rg_rB r * cC)) *: g1)),
      aI = (qe_At q)`_0 + \sum_(i < num_inputs cs') p`_i * (qe_At q)`_i.+1,
      (aI + aA) * bB - cC = hh * qe_Zt q &
      [/\ aA = wsum (qe_At q) (p ++ a) + d1 * qe_Zt q - aI, bB = wsum (qe_Bt q) (p ++ a) + d2 * qe_Zt q &
          cC = wsum (qe_Ct q) (p ++ a) + d3 * qe_Zt q]].
Proof.
move=> hr hm hq [hA hB hC hH hK hcs hvk] hsat.
have [hp ha _ _] := r1cs_is_satisfied_true hsat.
have [w hw [[w1 w2 w3 w4] [w5 w6 w7 w8] sH pH]] := witness_map_ok hr hm d1 d2 d3 hsat.
have hacc : qap_eval_is_satisfied q w.
  by rewrite (qap_accept hr hm _ hq) w1 w2 w3 w4 w5 w6 w7 w8 sH pH !eqxx.
have [q' hq' [[q1 q2 q3 q4 q5] [s1 s2 s3] hHt hZ hcol]] := qap_eval_ok hr hm (rg_t r).
have e : q' = q by move: hq'; rewrite hq => -[].
subst q' => {hq'}.
have hni := num_inputs_le cs'.
set nv := num_variables cs' in hA hB hC w1 w4 q1 s1 s2 s3 hni *.
set x := p ++ a.
have sx : size x = nv by rewrite -w4 w8.
pose S (v : seq F) := \sum_(i < nv) x`_i * v`_i.+1.
have hin v : size v = nv.+1 -> inner (behead v) x = S v by move=> sv; apply: inner_behead.
pose aI := (qe_At q)`_0 + \sum_(i < num_inputs cs') p`_i * (qe_At q)`_i.+1.
pose aS := (qe_At q)`_0 + d1 * qe_Zt q + S (qe_At q).
pose bB := (qe_Bt q)`_0 + d2 * qe_Zt q + S (qe_Bt q).
pose cC := (qe_Ct q)`_0 + d3 * qe_Zt q + S (qe_Ct q).
pose hh := inner (qe_Ht q) (qw_H w).
have hmain : aS * bB - cC = hh * qe_Zt q.
  move: hacc; rewrite /qap_eval_is_satisfied w5 w6 w7 w8 !hin // add0r.
  by do 8!(case: ifP => // _); case: eqP.
exists (aS - aI), aI, bB, cC, hh; split=> //; last first.
- rewrite /wsum -/x sx /aS /bB /cC /S; split; [congr (_ + _)| |]; by rewrite [in RHS]addrAC.
- by rewrite addrCA subrr addr0.
rewrite /r1cs_prover hcs hw obindE w1 w2 w5 w6 w7 w8 -/nv -/x.
have [a1 a2 a3] := hA; have [b1 b2 b3] := hB; have [c1 c2 c3] := hC.
rewrite !sv_get_ok // !obindE.
have sK : size (Kt_of q r) = nv.+4 by rewrite size_cat size_map size_iota q1 /= addn3.
move eKt: (Kt_of q r) => Kt in hK sK *.
rewrite hK !(@oget_nth _ 0) ?size_batch_exp ?sK //; try by lia.
rewrite !obindE range_full //.
have hk T1 T2 (v : kc_vector T1 T2) : sv_ok v -> sv_domain_size v = nv.+2 ->
  kc_multi_exp v 1 nv.+1 x = Ok (\sum_(1 <= i < nv.+1) x`_(i - 1) *: sv_at v i).
  by move=> v1 v2; apply: kc_multi_exp_ok; rewrite ?v2 ?sx //; lia.
rewrite !hk // !obindE.
rewrite hH !range_full ?size_batch_exp ?hHt ?size_powers //.
rewrite (@multi_exp_batch _ _ _ _ _ (d_size D).+1) ?size_powers // obindE range_batch.
rewrite (@multi_exp_batch _ _ _ _ _ nv) ?size_range ?sK ?subn1 //; last by lia.
rewrite obindE.
have rN v k : size v = nv.+1 -> (k <= nv)%N -> (rcons v (qe_Zt q))`_k = v`_k.
  by move=> sv hk'; rewrite nth_rcons sv ltnS hk'.
have rZ v : size v = nv.+1 -> (rcons v (qe_Zt q))`_nv.+1 = qe_Zt q.
  by move=> sv; rewrite nth_rcons sv ltnn eqxx.
have rS v : size v = nv.+1 -> \sum_(i < nv) x`_i * (rcons v (qe_Zt q))`_i.+1 = S v.
  by move=> sv; apply: eq_bigr => i _; rewrite rN.
rewrite (kc_answer _ _ _ b3) (kc_answer _ _ _ c3) (kc_answer _ _ _ a3).
rewrite !rS // !rZ // !rN // ltnNge hni /= add0r.
have eA : d1 * qe_Zt q + \sum_(i < nv) x`_i * (if (i < num_inputs cs')%N then 0 else
             (rcons (qe_At q) (qe_Zt q))`_i.+1) = aS - aI.
  have : S (qe_At q) = \sum_(i < num_inputs cs') p`_i * (qe_At q)`_i.+1 +
      \sum_(i < nv) x`_i * (if (i < num_inputs cs')%N then 0 else (rcons (qe_At q) (qe_Zt q))`_i.+1).
    rewrite /S; pose G i := x`_i * (qe_At q)`_i.+1.
    rewrite (big_ord_widen_cond nv xpredT (fun i => p`_i * (qe_At q)`_i.+1)) // [in RHS]big_mkcond -big_split /=.
    apply: eq_bigr => i _; rewrite /x nth_cat hp; case: ltnP => _; rewrite ?mulr0 ?addr0 ?add0r // rN //.
  by rewrite /aS /aI => ->; fring F.
rewrite eA; congr (Ok (R1csProof _ _ _ _ _)).
- rewrite add0r; congr (_ *: _); rewrite /hh (@inner_sum _ _ _ (d_size D).+1) ?hHt ?size_powers //.
  by apply: eq_bigr => i _; rewrite mulrC.
- rewrite !nth_batch_exp !scalerA -!scalerDl; congr (_ *: _).
  have kN i : (i <= nv)%N -> Kt`_i = rg_beta r * (rg_rA r * (qe_At q)`_i + rg_rB r * (qe_Bt q)`_i
      + rg_rA r * rg_rB r * (qe_Ct q)`_i).
    move=> hi; rewrite -eKt nth_cat size_map size_iota q1 ltnS hi (nth_map 0%N) ?size_iota //.
    by rewrite nth_iota // add0n !rN.
  have kZ j : Kt`_(nv.+1 + j) = nth 0 [:: rg_beta r * rg_rA r * qe_Zt q; rg_beta r * rg_rB r * qe_Zt q;
       rg_beta r * (rg_rA r * rg_rB r) * qe_Zt q] j.
    by rewrite -eKt nth_cat size_map size_iota q1 ltnNge leq_addr /= addKn.
  have := kZ 0%N; have := kZ 1%N; have := kZ 2%N; rewrite addn0 addn1 addn2 /= => -> -> ->.
  rewrite kN //.
  have -> : \sum_(i < nv) x`_i * (range Kt 1 nv.+1)`_i =
     rg_beta r * (rg_rA r * S (qe_At q) + rg_rB r * S (qe_Bt q) + rg_rA r * rg_rB r * S (qe_Ct q)).
    rewrite /S !mulr_sumr -!big_split /= mulr_sumr; apply: eq_bigr => i _.
    rewrite nth_range ?subn1 // add1n kN //.
    have gen (u be ra rb A B C : F) : u * (be * (ra * A + rb * B + ra * rb * C))
      = be * (ra * (u * A) + rb * (u * B) + ra * rb * (u * C)) by fring F.
    exact: gen.
  by rewrite /aS /bB /cC; fring F.
Qed.
(** ** The verifiers *)

(** The five equations of the protocol, for a key whose input-consistency
    query is (first; es). *)
Definition r1cs_equations (vk : r1cs_verification_key P) (acc : G1 P) (pi : r1cs_proof P) : bool :=
  [&& e (pf_A pi).1 (vk_alphaA_g2 vk) == e (pf_A pi).2 g2,
      e (vk_alphaB_g1 vk) (pf_B pi).1 == e (pf_B pi).2 g2,
      e (pf_C pi).1 (vk_alphaC_g2 vk) == e (pf_C pi).2 g2,
      e ((pf_A pi).1 + acc) (pf_B pi).1 == e (pf_H pi) (vk_rC_Z_g2 vk) + e (pf_C pi).1 g2 &
      e (pf_K pi) (vk_gamma_g2 vk) == e ((pf_A pi).1 + acc + (pf_C pi).1) (vk_gamma_beta_g2 vk)
                                     + e (vk_gamma_beta_g1 vk) (pf_B pi).1].

Definition acc_of (first : G1 P) (es : seq (G1 P)) (p : seq F) : G1 P :=
  first + \sum_(0 <= j < size p) p`_j *: es`_j.

Lemma weak_verdict vk first es p pi : vk_IC vk = av_of_vector first es -> (size p <= size es)%N ->
  r1cs_verifier_weak_IC vk p pi = Ok (r1cs_proof_wf pi && r1cs_equations vk (acc_of first es p) pi).
Proof.
move=> hIC hs; rewrite /r1cs_verifier_weak_IC /r1cs_online_verifier_weak_IC /= hIC.
rewrite {1}/av_domain_size /= hs oassertT.
have [av' -> [hf _ _]] := accumulate_all first es p; rewrite obindE hf -/(acc_of first es p).
congr Ok; rewrite /r1cs_equations !subr_eq0.
by do ![case: eqP => _ /=]; rewrite ?andbF ?andbT //; case: r1cs_proof_wf.
Qed.

Lemma weak_too_long (vk : r1cs_verification_key P) p pi : (av_domain_size (vk_IC vk) < size p)%N ->
  r1cs_verifier_weak_IC vk p pi = AssertFail.
Proof. by move=> h; rewrite /r1cs_verifier_weak_IC /r1cs_online_verifier_weak_IC /= leqNgt h. Qed.

Lemma affine_verdict vk first es p pi : vk_IC vk = av_of_vector first es ->
  r1cs_affine_verifier_weak_IC vk p pi =
  if size p == size es then Ok (r1cs_equations vk (acc_of first es p) pi) else AssertFail.
Proof.
move=> hIC; rewrite /r1cs_affine_verifier_weak_IC hIC {1}/av_domain_size /=.
case: (ltngtP (size p) (size es)) => h //=.
- have [av' -> [_ _ hf]] := accumulate_all first es p; rewrite obindE hf leqNgt h //.
- have [av' -> [hf' _ hf]] := accumulate_all first es p; rewrite obindE hf hf' -/(acc_of first es p) h leqnn /=.
  congr Ok; rewrite /r1cs_equations !subr_eq0 [_ + e (pf_C pi).1 g2 == _]eq_sym
    [_ + e (vk_gamma_beta_g1 vk) _ == _]eq_sym.
  by do ![case: eqP => _ /=]; rewrite ?andbF.
Qed.

Lemma strong_verdict (vk : r1cs_verification_key P) p pi :
  r1cs_verifier_strong_IC vk p pi =
  if size p == av_domain_size (vk_IC vk) then r1cs_verifier_weak_IC vk p pi else Ok false.
Proof.
by rewrite /r1cs_verifier_strong_IC /r1cs_online_verifier_strong_IC /= eq_sym; case: eqP.
Qed.

(** A shorter input stands for its extension by zeros. *)
Lemma acc_of_zeros first es p n : acc_of first es (p ++ nseq n 0) = acc_of first es p.
Proof.
rewrite /acc_of size_cat size_nseq; congr (_ + _).
rewrite (@big_cat_nat _ _ _ (size p)) ?leq_addr //=.
rewrite [X in _ + X]big1_seq ?addr0; last first.
  move=> i; rewrite mem_index_iota /= => /andP [h1 h2]; rewrite nth_cat ltnNge h1 nth_nseq; case: ifP; rewrite scale0r //.
by rewrite !big_nat; apply: eq_bigr => i /andP [_ h]; rewrite nth_cat h.
Qed.

Lemma weak_zero_extension (vk : r1cs_verification_key P) first es p n pi : vk_IC vk = av_of_vector first es ->
  (size p + n <= size es)%N ->
  r1cs_verifier_weak_IC vk (p ++ nseq n 0) pi = r1cs_verifier_weak_IC vk p pi.
Proof.
move=> hIC hs; rewrite !(weak_verdict _ hIC) ?acc_of_zeros ?size_cat ?size_nseq //.
by apply: leq_trans hs; apply: leq_addr.
Qed.

(** ** In the exponent *)

Lemma vk_scalars cs' q r pk vk p : size (qe_At q) = (num_variables cs').+1 ->
  keys_of q cs' r pk vk ->
  exists first es, [/\ vk_IC vk = av_of_vector first es, size es = num_inputs cs' &
    (size p <= num_inputs cs')%N ->
    acc_of first es p = (rg_rA r * ((qe_At q)`_0 + \sum_(i < size p) p`_i * (qe_At q)`_i.+1)) *: g1].
Proof.
move=> sA [_ _ _ _ _ _ ->] /=; eexists; eexists; split; first by [].
  by rewrite size_batch_exp size_map size_iota.
move=> hs; rewrite /acc_of big_mkord mulrDr scalerDl; congr (_ + _).
rewrite mulr_sumr scaler_suml; apply: eq_bigr => i _.
have hi : (i < num_inputs cs')%N by apply: leq_trans hs.
rewrite nth_batch_exp (nth_map 0%N) ?size_iota // nth_iota // add1n scalerA; congr (_ *: _); fringn F.
Qed.

Lemma equations_scalars cs' q r pk vk acc a a' b b' c c' h k :
  keys_of q cs' r pk vk -> e g1 g2 != 0 ->
  r1cs_equations vk (acc *: g1)
    (R1csProof (P := P) (a *: g1, a' *: g1) (b *: g2, b' *: g1) (c *: g1, c' *: g1) (h *: g1) (k *: g1)) =
  [&& a' == rg_alphaA r * a, b' == rg_alphaB r * b, c' == rg_alphaC r * c,
      (a + acc) * b == h * (rg_rA r * rg_rB r * qe_Zt q) + c &
      k * rg_gamma r == rg_gamma r * rg_beta r * (a + acc + c + b)].
Proof.
move=> [_ _ _ _ _ _ ->] hnd; rewrite /r1cs_equations /=.
rewrite -!scalerDl !eZl !eZr !scalerA -!scalerDl.
have inj x y : (x *: e g1 g2 == y *: e g1 g2) = (x == y).
  by rewrite -subr_eq0 -scalerBl scaler_eq0 (negbTE hnd) orbF subr_eq0.
rewrite !inj [a' == _]eq_sym [b' == _]eq_sym [c' == _]eq_sym [rg_alphaA r * a]mulrC [rg_alphaC r * c]mulrC.
congr [&& _, _, _, _ & _ == _]; fring F.
Qed.

Lemma equations_scalars_imp cs' q r pk vk acc a a' b b' c c' h k :
  keys_of q cs' r pk vk ->
  [/\ a' = rg_alphaA r * a, b' = rg_alphaB r * b, c' = rg_alphaC r * c,
      (a + acc) * b = h * (rg_rA r * rg_rB r * qe_Zt q) + c &
      k * rg_gamma r = rg_gamma r * rg_beta r * (a + acc + c + b)] ->
  r1cs_equations vk (acc *: g1)
    (R1csProof (P := P) (a *: g1, a' *: g1) (b *: g2, b' *: g1) (c *: g1, c' *: g1) (h *: g1) (k *: g1)).
Proof.
move=> [_ _ _ _ _ _ ->] [-> -> -> h4 h5]; rewrite /r1cs_equations /=.
rewrite -!scalerDl !eZl !eZr !scalerA -!scalerDl h5 h4.
apply/and5P; split; apply/eqP; congr (_ *: _); fring F.
Qed.

(** ** Completeness *)
Theorem r1cs_ppzksnark_complete cs r chunks pk vk p a d1 d2 d3 :
  qap_large D cs -> r1cs_is_satisfied cs p a = Ok true ->
  r1cs_generator P D cs r chunks = Ok (pk, vk) ->
  exists2 pi, r1cs_prover D pk p a d1 d2 d3 = Ok pi &
    [/\ r1cs_verifier_weak_IC vk p pi = Ok true, r1cs_verifier_strong_IC vk p pi = Ok true &
        r1cs_affine_verifier_weak_IC vk p pi = Ok true].
Proof.
move=> hm hsat hgen; have [hp ha hr hh] := r1cs_is_satisfied_true hsat.
have [cs' [q [hsw hq]]] := generatorE r hr hm.
case: ifP => [_ [pk' [vk' [hgen' hk]]]|_ hgen']; last by rewrite hgen' in hgen.
move: hgen; rewrite hgen' => -[e1 e2]; subst pk' vk'.
have [cs'' hsw' [hpi hai [hnc hr'] _ hh']] := swap_AB_spec hr.
have e1 : cs'' = cs' by move: hsw'; rewrite hsw => -[].
subst cs''.
have hni : num_inputs cs' = num_inputs cs by rewrite /num_inputs hpi.
have hm' : qap_large D cs' by move: hm; rewrite /qap_large hni hnc.
have hsat' : r1cs_is_satisfied cs' p a = Ok true.
  by apply: r1cs_is_satisfied_ok_true => //; rewrite ?hni ?hai //; apply/hh'.
have [aA [aI [bB [cC [h [hpr eI hQ _]]]]]] := prover_ok d1 d2 d3 hr' hm' hq hk hsat'.
eexists; first exact: hpr.
have [q' hq' [_ [s1 _ _] _ _ _]] := qap_eval_ok hr' hm' (rg_t r).
have eq' : q' = q by move: hq'; rewrite hq => -[].
subst q'.
have [first [es [hIC hes hacc]]] := vk_scalars p s1 hk.
have hpn : size p = num_inputs cs' by rewrite hni.
set pi := R1csProof _ _ _ _ _.
have heq : r1cs_equations vk (acc_of first es p) pi.
  rewrite hacc ?hpn //; rewrite -eI; apply: (equations_scalars_imp hk); split.
  - fring F.
  - fring F.
  - fring F.
  - have -> : h * (rg_rA r * rg_rB r * qe_Zt q) = rg_rA r * rg_rB r * (h * qe_Zt q) by fring F.
    by rewrite -hQ; fring F.
  - fring F.
have hwf : r1cs_proof_wf pi.
  by rewrite /r1cs_proof_wf /= !wf1_scale ?wf2_scale ?wf1_one ?wf2_one.
have hweak : r1cs_verifier_weak_IC vk p pi = Ok true.
  by rewrite (weak_verdict _ hIC) ?hes ?hpn // heq hwf.
split=> //.
- by rewrite strong_verdict hIC hweak /av_domain_size /= hes hpn eqxx.
- by rewrite (affine_verdict _ _ hIC) hes hpn eqxx heq.
Qed.

(** ** When the generator aborts *)
Lemma input_column cs t k : r1cs_in_range cs -> qap_large D cs -> (k <= num_inputs cs)%N ->
  exists2 l, (forall q, r1cs_to_qap_instance_map_with_evaluation D cs t = Ok q -> (qe_At q)`_k = (col_poly D l k).[t])
   & l = A_updates cs.
Proof.
move=> hr hm hk; exists (A_updates cs) => // q hq.
have [q' hq' [_ _ _ _ hcol]] := qap_eval_ok hr hm t.
have <- : q' = q by move: hq'; rewrite hq => -[].
by have [-> _ _] := hcol k; rewrite (upd_sum_lagrange k t (upd_A hr hm)).
Qed.

Lemma input_column_one cs k : r1cs_in_range cs -> qap_large D cs -> (k <= num_inputs cs)%N ->
  upd_sum (fun j => (j == num_constraints cs + k)%N%:R) (A_updates cs) k = 1 :> F.
Proof.
move=> hr hm hk; rewrite /A_updates upd_sum_cat.
have -> : upd_sum (fun j => (j == num_constraints cs + k)%N%:R) (qap_updates (@c_a F) cs) k = 0 :> F.
  rewrite /upd_sum big_seq_cond big1 // => -[[var row] c] /andP [hin _] /=.
  case: eqP => [er|_]; last by rewrite mul0r.
  have hup : upd_in (num_variables cs).+1 (num_constraints cs) (qap_updates (@c_a F) cs).
    by apply: upd_in_qap => // c' /(constraints_in_range hr) [].
  move/allP: hup => /(_ _ hin) /= /andP [_]; rewrite er; lia.
rewrite addr0 /upd_sum /input_updates big_map; move eM: (num_inputs cs).+1 => M /=.
rewrite -big_filter filter_pred1_uniq ?iota_uniq ?big_seq1 ?eqxx ?mul1r //.
by rewrite mem_iota add0n -eM ltnS.
Qed.

Theorem r1cs_generator_total cs r chunks : r1cs_in_range cs -> qap_large D cs ->
  (exists pk vk, r1cs_generator P D cs r chunks = Ok (pk, vk)) \/ r1cs_generator P D cs r chunks = AssertFail.
Proof.
move=> hr hm; have [cs' [q [_ _]]] := generatorE r hr hm.
by case: ifP => [_ [pk [vk [h _]]]|_ h]; [left; exists pk, vk|right].
Qed.

Theorem r1cs_generator_abort_bound cs (rs : seq (r1cs_gen_random F)) chunks : r1cs_in_range cs -> qap_large D cs ->
  uniq [seq rg_t r | r <- rs] ->
  (forall r, List.In r rs -> r1cs_generator P D cs r chunks = AssertFail) ->
  (size rs <= (num_inputs cs).+1 * (d_size D).-1)%N.
Proof.
move=> hr hm hu hab; have [cs' hsw [hpi hai [hnc hr'] _ hh]] := swap_AB_spec hr.
have hni : num_inputs cs' = num_inputs cs by rewrite /num_inputs hpi.
have hm' : qap_large D cs' by move: hm; rewrite /qap_large hni hnc.
rewrite -(size_map (@rg_t F)) -hni.
apply: (union_bound (bad := fun k t => (col_poly D (A_updates cs') k).[t] == 0)) => //.
- move=> k us hk hus hall.
  have hpos : (num_constraints cs' + k < d_size D)%N.
    by move: hm'; rewrite /qap_large => hm'; lia.
  have := @col_roots _ D (A_updates cs') k _ us hpos; rewrite input_column_one // oner_neq0 => /(_ isT hus hall).
  by move: (size us) (d_size D) => n m; lia.
- rewrite all_map; apply/all_InP => r hin /=.
  have [cs'' [q [hsw'' hq]]] := generatorE r hr hm.
  have e1 : cs'' = cs' by move: hsw''; rewrite hsw => -[].
  subst cs''; case: ifP => [_ [pk [vk [hg _]]]|hall _]; first by have := hg chunks; rewrite (hab _ hin).
  have [q' hq' [_ [s1 _ _] _ _ _]] := qap_eval_ok hr' hm' (rg_t r).
  have eq' : q' = q by move: hq'; rewrite hq => -[].
  subst q'.
  move/negbT: hall; rewrite -has_predC => /(has_nthP 0) [k hk /=]; rewrite negbK => hz.
  have hsz : size (take (num_inputs cs').+1 (qe_At q)) = (num_inputs cs').+1.
    by rewrite size_takel // s1 ltnS num_inputs_le.
  rewrite hsz in hk.
  change (has (fun k => (col_poly D (A_updates cs') k).[rg_t r] == 0) (iota 0 (num_inputs cs').+1)).
  apply/hasP; exists k; first by rewrite mem_iota.
  have [l hl el] := input_column (rg_t r) hr' hm' (hk : (k <= num_inputs cs')%N).
  by rewrite -el -(hl _ hq); move: hz; rewrite nth_take.
Qed.

End Facts.
