(** Proofs about the ADSNARK. *)
From mathcomp Require Import all_ssreflect all_algebra.
From Verif Require Import Outcome Lincomb LincombSpec R1CS R1CSSpec R1CSFacts Domain DomainFacts ArithPrograms
  ArithSpec ArithFacts QapFacts Vectors VectorsSpec VectorsFacts Pairing SnarkFacts R1csPpzksnark R1csPpzksnarkFacts
  Adsnark Fieldtac.
From mathcomp Require Import zify.
Set Implicit Arguments.
Unset Strict Implicit.
Unset Printing Implicit Defensive.
Import GRing.Theory.
Local Open Scope ring_scope.

Section Facts.
Variables (F : fieldType) (P : pairing F) (D : evaluation_domain F) (M : auth_methods P).
Add Field Ff : (Fth F).
Notation g1 := (G1_one P).
Notation g2 := (G2_one P).

(** ** Authentication *)

Definition tag_of (sk : sec_auth_key M) (l : am_label M) (x : F) : auth_data M :=
  let lam := am_prf (sak_S sk) l in
  AuthData (lam + sak_i sk * x) (lam *: g2) (am_sign (sak_skp sk) l (lam *: g2)).

Lemma omapm_iota_zip (A B C : Type) (f : A -> B -> C) (la : seq A) (lb : seq B) : size la = size lb ->
  omapm (fun i => let! a := oget la i in let! b := oget lb i in Ok (f a b)) (iota 0 (size lb))
  = Ok [seq f p.1 p.2 | p <- zip la lb].
Proof.
move=> h; case: lb h => [|b0 lb'] h; first by case: la h.
case: la h => [|a0 la'] // h.
move eA: (a0 :: la') h => la; move eB: (b0 :: lb') => lb h.
rewrite (@omapm_Ok _ _ _ (fun i => f (nth a0 la i) (nth b0 lb i))); last first.
  move=> i /In_mem; rewrite mem_iota add0n => hi.
  by rewrite (oget_nth a0) ?h // obindE (oget_nth b0) // obindE.
congr Ok; apply: (@eq_from_nth _ (f a0 b0)); first by rewrite !size_map size_iota size_zip h minnn.
rewrite size_map size_iota => i hi; rewrite (nth_map 0%N) ?size_iota // nth_iota // add0n.
by rewrite (nth_map (a0, b0)) ?size_zip ?h ?minnn // nth_zip.
Qed.

Lemma auth_signE ins sk labels : auth_sign ins sk labels =
  if size labels == size ins then Ok [seq tag_of sk p.1 p.2 | p <- zip labels ins] else AssertFail.
Proof.
rewrite /auth_sign; case: eqP => //= h; rewrite -(omapm_iota_zip (tag_of sk)) //.
Qed.

Lemma ofold_all (f : nat -> bool) (g : bool -> nat -> outcome bool) n b :
  (forall b i, (i < n)%N -> g b i = Ok (b && f i)) -> ofold g b (iota 0 n) = Ok (b && all f (iota 0 n)).
Proof.
move=> h; have : all (fun i => i < n)%N (iota 0 n) by apply/allP => i; rewrite mem_iota.
elim: (iota 0 n) b => [|i l IH] b /=; first by rewrite andbT.
by case/andP=> hi hl; rewrite h //= IH // andbA.
Qed.

Lemma seq_eqP (T : eqType) (d : T) (a b : seq T) : size a = size b ->
  (a == b) = all (fun i => nth d a i == nth d b i) (iota 0 (size b)).
Proof.
move=> h; apply/eqP/allP => [-> i _|hall]; first exact: eqxx.
apply: (@eq_from_nth _ d) => // i hi; apply/eqP; apply: hall; by rewrite mem_iota -h.
Qed.

Definition dtag (l0 : am_label M) (sk : sec_auth_key M) := tag_of sk l0 0.

Lemma nth_tags l0 sk labels ins i : size labels = size ins -> (i < size ins)%N ->
  nth (dtag l0 sk) [seq tag_of sk p.1 p.2 | p <- zip labels ins] i = tag_of sk (nth l0 labels i) ins`_i.
Proof.
move=> h hi; rewrite (nth_map (l0, 0)) ?nth_zip //=.
by rewrite size_zip h minnn.
Qed.

Lemma auth_verify_sec_honest sk labels ins data : sak_i sk != 0 -> size labels = size ins ->
  size data = size ins ->
  auth_verify_sec data [seq tag_of sk p.1 p.2 | p <- zip labels ins] sk labels = Ok (data == ins).
Proof.
move=> hi h h'; rewrite /auth_verify_sec size_map size_zip h h' minnn eqxx /=.
rewrite (@ofold_all (fun i => data`_i == ins`_i)) ?(@seq_eqP _ 0 data ins) //.
move=> b i hin; case: labels h => [|l0 ls] h; first by rewrite -h in hin.
rewrite (@oget_nth _ l0) ?h // obindE (@oget_nth _ 0) ?h' // obindE (@oget_nth _ (dtag l0 sk)); last first.
  by rewrite size_map size_zip h minnn.
rewrite obindE nth_tags //=; congr (Ok (_ && _)).
rewrite (inj_eq (addrI _)) (inj_eq (mulfI hi)); exact: eq_sym.
Qed.

Lemma auth_verify_pub_honest sk vk labels ins data : sak_i sk != 0 -> g2 != 0 -> am_pair (sak_skp sk) vk ->
  size labels = size ins -> size data = size ins ->
  auth_verify_pub data [seq tag_of sk p.1 p.2 | p <- zip labels ins] (PubAuthKey (0 - sak_i sk *: g2) vk) labels
  = Ok (data == ins).
Proof.
move=> hi hg hp h h'; rewrite /auth_verify_pub size_map size_zip h h' minnn eqxx /=.
rewrite (@ofold_all (fun i => data`_i == ins`_i)) ?(@seq_eqP _ 0 data ins) //.
move=> b i hin; case: labels h => [|l0 ls] h; first by rewrite -h in hin.
rewrite (@oget_nth _ (dtag l0 sk)); last by rewrite size_map size_zip h minnn.
rewrite obindE (@oget_nth _ 0) ?h' // obindE (@oget_nth _ l0) ?h // obindE nth_tags //=.
rewrite am_sign_ok // andbT; congr (Ok (_ && _)).
have inj x y : (x *: g2 == y *: g2) = (x == y).
  by rewrite -subr_eq0 -scalerBl scaler_eq0 (negbTE hg) orbF subr_eq0.
rewrite sub0r scalerN opprK scalerA -scalerDl inj (inj_eq (addrI _)) [data`_i * _]mulrC (inj_eq (mulfI hi)).
exact: eq_sym.
Qed.

(** ** Keys *)

Record ads_keys_of (q : qap_evaluation F) (cs' : r1cs F) (i : F) (r : r1cs_gen_random F)
    (pk : ads_proving_key P) (vk : ads_verification_key P) : Prop := AdsKeysOf {
  ak_A : [/\ sv_ok (apk_A pk), sv_domain_size (apk_A pk) = (num_variables cs').+2 &
     forall k, sv_at (apk_A pk) k =
       let x := (rcons (qe_At q) (qe_Zt q))`_k in
       ((rg_rA r * x) *: g1, (rg_rA r * rg_alphaA r * x) *: g1)];
  ak_B : [/\ sv_ok (apk_B pk), sv_domain_size (apk_B pk) = (num_variables cs').+2 &
     forall k, sv_at (apk_B pk) k =
       let x := (rcons (qe_Bt q) (qe_Zt q))`_k in
       ((rg_rB r * x) *: g2, (rg_rB r * rg_alphaB r * x) *: g1)];
  ak_C : [/\ sv_ok (apk_C pk), sv_domain_size (apk_C pk) = (num_variables cs').+2 &
     forall k, sv_at (apk_C pk) k =
       let x := (rcons (qe_Ct q) (qe_Zt q))`_k in
       ((rg_rA r * rg_rB r * x) *: g1, (rg_rA r * rg_rB r * rg_alphaC r * x) *: g1)];
  ak_H : apk_H pk = batch_exp g1 (qe_Ht q);
  ak_K : apk_K pk = batch_exp g1 (Kt_of q r);
  ak_iZ : apk_rA_i_Z pk = (rg_rA r * qe_Zt q * i) *: g1;
  ak_cs : apk_cs pk = cs';
  ak_vk : vk = AdsVerificationKey
        (rg_alphaA r *: g2) (rg_alphaB r *: g1) (rg_alphaC r *: g2) (rg_gamma r *: g2)
        ((rg_gamma r * rg_beta r) *: g1) ((rg_gamma r * rg_beta r) *: g2)
        ((rg_rA r * rg_rB r * qe_Zt q) *: g2)
        ((rg_rA r * (qe_At q)`_0) *: g1)
        (batch_exp g1 [seq rg_rA r * (qe_At q)`_k.+1 | k <- iota 0 (num_inputs cs')])
}.

Lemma ads_generatorE cs i (r : r1cs_gen_random F) : r1cs_in_range cs -> qap_large D cs ->
  exists cs' q pk vk,
  [/\ swap_AB_if_beneficial cs = Ok cs',
      r1cs_to_qap_instance_map_with_evaluation D cs' (rg_t r) = Ok q,
      (forall chunks, ads_generator D cs (i *: g1) r chunks = Ok (pk, vk)) & ads_keys_of q cs' i r pk vk].
Proof.
move=> hr hm; have [cs' hsw [hpi hai [hnc hr'] _ hh]] := swap_AB_spec hr.
have hm' : qap_large D cs' by move: hm; rewrite /qap_large /num_inputs hpi hnc.
have [q hq [[q1 q2 q3 q4 q5] [s1 s2 s3] hH hZ hcol]] := qap_eval_ok hr' hm' (rg_t r).
have hni := num_inputs_le cs'.
set At := rcons (qe_At q) (qe_Zt q).
have sA : size At = (num_variables cs').+2 by rewrite size_rcons s1.
have sB : size (rcons (qe_Bt q) (qe_Zt q)) = (num_variables cs').+2 by rewrite size_rcons s2.
have sC : size (rcons (qe_Ct q) (qe_Zt q)) = (num_variables cs').+2 by rewrite size_rcons s3.
have [A' hA [a1 a2 _ a3]] := kc_batch_exp_spec g1 g1 (rg_rA r) (rg_rA r * rg_alphaA r) At.
have [B' hB [b1 b2 _ b3]] := kc_batch_exp_spec g2 g1 (rg_rB r) (rg_rB r * rg_alphaB r) (rcons (qe_Bt q) (qe_Zt q)).
have [C' hC [c1 c2 _ c3]] := kc_batch_exp_spec g1 g1 (rg_rA r * rg_rB r) (rg_rA r * rg_rB r * rg_alphaC r)
  (rcons (qe_Ct q) (qe_Zt q)).
exists cs', q; eexists; eexists; split=> //.
- move=> chunks; rewrite /ads_generator hsw obindE hq obindE.
  rewrite (@omapm_Ok _ _ _ (fun i => rg_beta r * (rg_rA r * At`_i + rg_rB r * (rcons (qe_Bt q) (qe_Zt q))`_i
              + rg_rA r * rg_rB r * (rcons (qe_Ct q) (qe_Zt q))`_i))); last first.
    move=> k /In_mem; rewrite mem_iota add0n q1 => hk.
    have hk' : (k < (num_variables cs').+2)%N by lia.
    by rewrite (@oget_nth _ 0) ?sA // obindE (@oget_nth _ 0) ?sB // obindE (@oget_nth _ 0) ?sC.
  rewrite obindE hA obindE hB obindE hC obindE sv_get_ok // obindE.
  rewrite (@omapm_Ok _ _ _ (fun k => (rg_rA r * At`_k.+1) *: g1)); last first.
    by move=> k hk; rewrite sv_get_ok // obindE a3.
  rewrite obindE a3; reflexivity.
split=> //=.
- by rewrite a2 sA.
- by rewrite b2 sB.
- by rewrite c2 sC.
- by rewrite scalerA.
- have eN k : (k <= num_inputs cs')%N -> At`_k = (qe_At q)`_k.
    by move=> hk; rewrite /At nth_rcons s1 ltnS (leq_trans hk hni).
  rewrite eN //; congr AdsVerificationKey; rewrite q3 /batch_exp -map_comp.
  by apply/eq_in_map => k; rewrite mem_iota add0n => hk /=; rewrite eN.
Qed.

(** ** The prover *)

Lemma kc_part (T1 T2 : lmodType F) (h1 : T1) (h2 : T2) (v : kc_vector T1 T2) c1 c2 (f : nat -> F) (y : seq F) a b z d :
  (forall k, sv_at v k = ((c1 * f k) *: h1, (c2 * f k) *: h2)) ->
  d *: sv_at v z + \sum_(a.+1 <= i < b.+1) y`_(i - a.+1) *: sv_at v i
  = (let s := d * f z + \sum_(a <= i < b) y`_(i - a) * f i.+1 in ((c1 * s) *: h1, (c2 * s) *: h2)).
Proof.
move=> h; under eq_bigr do rewrite h; rewrite kc_sum_scale !h.
have e c : \sum_(a.+1 <= i < b.+1) y`_(i - a.+1) * (c * f i) = c * \sum_(a <= i < b) y`_(i - a) * f i.+1.
  rewrite big_add1 mulr_sumr; apply: eq_bigr => i _.
  by rewrite subSS; fring F.
rewrite !e [LHS]surjective_pairing /=; congr (_, _); rewrite !scalerA -!scalerDl; congr (_ *: _); fring F.
Qed.

Definition mus (tags : seq (auth_data M)) : seq F := map (@ad_mu F P M) tags.

Lemma ads_prover_ok cs' q i r pk vk p a tags d :
  r1cs_in_range cs' -> qap_large D cs' ->
  r1cs_to_qap_instance_map_with_evaluation D cs' (rg_t r) = Ok q ->
  ads_keys_of q cs' i r pk vk -> r1cs_is_satisfied cs' p a = Ok true -> (num_inputs cs' <= size tags)%N ->
  exists aA aI bB cC hh,
  [/\ ads_prover D false pk p a tags d = Ok (AdsProof (P := P)
        ((rg_rA r * aA) *: g1, (rg_rA r * rg_alphaA r * aA) *: g1)
        ((rg_rB r * bB) *: g2, (rg_rB r * rg_alphaB r * bB) *: g1)
        ((rg_rA r * rg_rB r * cC) *: g1, (rg_rA r * rg_rB r * rg_alphaC r * cC) *: g1)
        (hh *: g1)
        ((rg_beta r * (rg_rA r * ((qe_At q)`_0 + aI + aA) + rg_rB r * bB + rg_rA r * rg_rB r * cC)) *: g1)
        ((rg_rA r * aI) *: g1, (rg_rA r * rg_alphaA r * aI) *: g1)
        ((rg_rA r * (ar_dauth d * qe_Zt q * i
             + \sum_(k < num_inputs cs') (mus tags)`_k * (qe_At q)`_k.+1)) *: g1)),
      aI = ar_dauth d * qe_Zt q + \sum_(k < num_inputs cs') p`_k * (qe_At q)`_k.+1 &
      ((qe_At q)`_0 + aI + aA) * bB - cC = hh * qe_Zt q].
Proof.
move=> hr hm hq [hA hB hC hH hK hiZ hcs hvk] hsat htags.
have [hp ha _ _] := r1cs_is_satisfied_true hsat.
have [w hw [[w1 w2 w3 w4] [w5 w6 w7 w8] sH pH]] :=
  witness_map_ok hr hm (ar_d1 d + ar_dauth d) (ar_d2 d) (ar_d3 d) hsat.
have hacc : qap_eval_is_satisfied q w.
  by rewrite (qap_accept hr hm _ hq) w1 w2 w3 w4 w5 w6 w7 w8 sH pH !eqxx.
have [q' hq' [[q1 q2 q3 q4 q5] [s1 s2 s3] hHt hZ hcol]] := qap_eval_ok hr hm (rg_t r).
have e : q' = q by move: hq'; rewrite hq => -[].
subst q' => {hq'}.
have hni := num_inputs_le cs'.
set nv := num_variables cs' in hA hB hC w1 w4 q1 s1 s2 s3 hni *.
set ni := num_inputs cs' in hp htags w3 q3 hni *.
set x := p ++ a.
have sx : size x = nv by rewrite -w4 w8.
pose S (v : seq F) := \sum_(k < nv) x`_k * v`_k.+1.
have hin v : size v = nv.+1 -> inner (behead v) x = S v by move=> sv; apply: inner_behead.
pose SI := \sum_(k < ni) p`_k * (qe_At q)`_k.+1.
pose SA := \sum_(ni <= k < nv) x`_k * (qe_At q)`_k.+1.
have eS : S (qe_At q) = SI + SA.
  rewrite /S -(big_mkord xpredT (fun k => x`_k * (qe_At q)`_k.+1)) (@big_cat_nat _ _ _ ni) //=; congr (_ + _).
  rewrite big_mkord; apply: eq_bigr => k _; rewrite /x nth_cat.
  by have -> : (k < size p)%N by rewrite hp.
pose aI := ar_dauth d * qe_Zt q + SI.
pose aA := ar_d1 d * qe_Zt q + SA.
pose bB := (qe_Bt q)`_0 + ar_d2 d * qe_Zt q + S (qe_Bt q).
pose cC := (qe_Ct q)`_0 + ar_d3 d * qe_Zt q + S (qe_Ct q).
pose hh := inner (qe_Ht q) (qw_H w).
have eA : (qe_At q)`_0 + aI + aA = (qe_At q)`_0 + (ar_d1 d + ar_dauth d) * qe_Zt q + S (qe_At q).
  by rewrite eS /aI /aA; fring F.
have hmain : ((qe_At q)`_0 + aI + aA) * bB - cC = hh * qe_Zt q.
  move: hacc; rewrite eA /qap_eval_is_satisfied w5 w6 w7 w8 !hin // add0r.
  by do 8!(case: ifP => // _); case: eqP.
exists aA, aI, bB, cC, hh; split=> //.
rewrite /ads_prover hcs hw obindE w1 w2 w3 w5 w6 w7 w8 -/nv -/ni -/x.
have [a1 a2 a3] := hA; have [b1 b2 b3] := hB; have [c1 c2 c3] := hC.
rewrite !sv_get_ok // !obindE.
have sK : size (Kt_of q r) = nv.+4 by rewrite size_cat size_map size_iota q1 /= addn3.
move eKt: (Kt_of q r) => Kt in hK sK *.
rewrite hK !(@oget_nth _ 0) ?size_batch_exp ?sK //; try by lia.
rewrite !obindE (range_full sx).
have hk T1 T2 (v : kc_vector T1 T2) lo hi y : sv_ok v -> sv_domain_size v = nv.+2 -> (lo <= hi)%N ->
  (hi <= nv)%N -> size y = (hi - lo)%N ->
  kc_multi_exp v lo.+1 hi.+1 y = Ok (\sum_(lo.+1 <= i < hi.+1) y`_(i - lo.+1) *: sv_at v i).
  by move=> v1 v2 h1 h2 sy; apply: kc_multi_exp_ok; rewrite ?v2 ?sy ?subSS //; lia.
rewrite (hk F _ _ (apk_A pk) ni nv) //; last by rewrite size_range ?sx.
have hni' : (ni <= size x)%N by rewrite sx.
rewrite obindE (hk F _ _ (apk_A pk) 0%N ni) //; last by rewrite size_range.
rewrite obindE (hk F _ _ (apk_B pk) 0%N nv x) ?subn0 // obindE (hk F _ _ (apk_C pk) 0%N nv x) ?subn0 // obindE.
rewrite hH (@range_full _ (batch_exp g1 (qe_Ht q))) ?size_batch_exp ?hHt ?size_powers //.
rewrite (@range_full _ (qw_H w)) //.
rewrite (@multi_exp_batch _ _ _ _ _ (d_size D).+1) ?size_powers // obindE range_batch.
rewrite (@multi_exp_batch _ _ _ _ _ nv) ?size_range ?sK ?subn1 //; last by lia.
rewrite obindE.
have rN v k : size v = nv.+1 -> (k <= nv)%N -> (rcons v (qe_Zt q))`_k = v`_k.
  by move=> sv hk'; rewrite nth_rcons sv ltnS hk'.
have rZ v : size v = nv.+1 -> (rcons v (qe_Zt q))`_nv.+1 = qe_Zt q.
  by move=> sv; rewrite nth_rcons sv ltnn eqxx.
have rS v : size v = nv.+1 -> \sum_(i < nv) x`_i * (rcons v (qe_Zt q))`_i.+1 = S v.
  by move=> sv; apply: eq_bigr => k _; rewrite rN.
rewrite (@omapm_Ok _ _ _ (fun k => ((mus tags)`_k, (rg_rA r * (qe_At q)`_k.+1) *: g1))); last first.
  move=> k /In_mem; rewrite mem_iota add0n => hk'.
  have hk2 : (k < size tags)%N by apply: leq_trans hk' htags.
  case: tags {htags} hk2 => [|t0 tags] hk2 //.
  rewrite (oget_nth t0) // obindE sv_get_ok // obindE a3 /mus (nth_map t0) //= addn1 rN //.
  by apply: leq_trans hk' hni.
rewrite obindE -!map_comp.
rewrite (@multi_exp_sum _ _ _ _ ni) ?size_map ?size_iota // obindE hiZ.
rewrite (kc_answer _ _ _ b3) (kc_answer _ _ _ c3) !(kc_part _ _ _ _ _ a3).
rewrite !rS // !rZ // !rN //.
have -> : \sum_(ni <= k < nv) (range x ni nv)`_(k - ni) * (rcons (qe_At q) (qe_Zt q))`_k.+1 = SA.
  rewrite /SA !big_nat; apply: eq_bigr => k /andP [h1 h2].
  by rewrite rN // nth_range ?subnKC //; lia.
have -> : \sum_(0 <= k < ni) (range x 0 ni)`_(k - 0) * (rcons (qe_At q) (qe_Zt q))`_k.+1 = SI.
  rewrite /SI big_mkord; apply: eq_bigr => k _.
  have hk' : (k < nv)%N by apply: leq_trans hni.
  rewrite rN // subn0 nth_range ?subn0 // add0n /x nth_cat.
  by have -> : (k < size p)%N by rewrite hp.
congr (Ok (AdsProof _ _ _ _ _ _ _)).
- rewrite add0r; congr (_ *: _); rewrite /hh (@inner_sum _ _ _ (d_size D).+1) ?hHt ?size_powers //.
  by apply: eq_bigr => k _; rewrite mulrC.
- rewrite !nth_batch_exp !scalerA -!scalerDl eA; congr (_ *: _).
  have kN k : (k <= nv)%N -> Kt`_k = rg_beta r * (rg_rA r * (qe_At q)`_k + rg_rB r * (qe_Bt q)`_k
      + rg_rA r * rg_rB r * (qe_Ct q)`_k).
    move=> hi; rewrite -eKt nth_cat size_map size_iota q1 ltnS hi (nth_map 0%N) ?size_iota //.
    by rewrite nth_iota // add0n !rN.
  have kZ j : Kt`_(nv.+1 + j) = nth 0 [:: rg_beta r * rg_rA r * qe_Zt q; rg_beta r * rg_rB r * qe_Zt q;
       rg_beta r * (rg_rA r * rg_rB r) * qe_Zt q] j.
    by rewrite -eKt nth_cat size_map size_iota q1 ltnNge leq_addr /= addKn.
  have := kZ 0%N; have := kZ 1%N; have := kZ 2%N; rewrite addn0 addn1 addn2 /= => -> -> ->.
  rewrite kN //.
  have -> : \sum_(i < nv) x`_i * (range Kt 1 nv.+1)`_i =
     rg_beta r * (rg_rA r * S (qe_At q) + rg_rB r * S (qe_Bt q) + rg_rA r * rg_rB r * S (qe_Ct q)).
    rewrite /S !mulr_sumr -!big_split /= mulr_sumr; apply: eq_bigr => k _.
    rewrite nth_range ?subn1 // add1n kN //.
    have gen (u be ra rb A B C : F) : u * (be * (ra * A + rb * B + ra * rb * C))
      = be * (ra * (u * A) + rb * (u * B) + ra * rb * (u * C)) by fring F.
    exact: gen.
  rewrite /bB /cC.
  have gen (be ra rb d1 d2 d3 A0 B0 C0 A B C Z : F) :
    be * (ra * A0 + rb * B0 + ra * rb * C0) + d1 * (be * ra * Z) + d2 * (be * rb * Z) + d3 * (be * (ra * rb) * Z)
    + be * (ra * A + rb * B + ra * rb * C)
    = be * (ra * (A0 + d1 * Z + A) + rb * (B0 + d2 * Z + B) + ra * rb * (C0 + d3 * Z + C)) by fring F.
  exact: gen.
- rewrite mulrDr scalerDl; congr (_ + _).
    by rewrite scalerA; congr (_ *: _); fring F.
  rewrite mulr_sumr scaler_suml; apply: eq_bigr => k _.
  rewrite !(nth_map 0%N) ?size_iota // nth_iota // add0n /= scalerA; congr (_ *: _); fringn F.
Qed.

(** ** The verifiers *)

(** The equations of the protocol other than the one about the tags. *)
Definition ads_equations (vk : ads_verification_key P) (pi : ads_proof P) : bool :=
  let Aacc := avk_A0 vk + (apf_Aau pi).1 + (apf_A pi).1 in
  [&& e (apf_Aau pi).1 (avk_alphaA_g2 vk) == e (apf_Aau pi).2 g2,
      e (apf_A pi).1 (avk_alphaA_g2 vk) == e (apf_A pi).2 g2,
      e (avk_alphaB_g1 vk) (apf_B pi).1 == e (apf_B pi).2 g2,
      e (apf_C pi).1 (avk_alphaC_g2 vk) == e (apf_C pi).2 g2 &
      (e Aacc (apf_B pi).1 == e (apf_H pi) (avk_rC_Z_g2 vk) + e (apf_C pi).1 g2) &&
      (e (apf_K pi) (avk_gamma_g2 vk) == e (Aacc + (apf_C pi).1) (avk_gamma_beta_g2 vk)
                                     + e (avk_gamma_beta_g1 vk) (apf_B pi).1)].

(** The tag part of the input, from the secret key. *)
Definition lambda_sum (vk : ads_verification_key P) (S : am_prf_key M) (labels : seq (am_label M)) : G1 P :=
  \sum_(k < size labels) [seq am_prf S l | l <- labels]`_k *: (avk_Ain vk)`_k.

Lemma sec_verdict vk pi (sak : sec_auth_key M) labels : (size labels <= size (avk_Ain vk))%N ->
  ads_verifier_sec vk pi sak labels =
  Ok [&& ads_proof_wf pi, sak_i sak *: (apf_Aau pi).1 + lambda_sum vk (sak_S sak) labels == apf_muA pi
       & ads_equations vk pi].
Proof.
move=> hs; rewrite /ads_verifier_sec /ads_online_verifier_sec /=.
rewrite (@range_full _ (map _ _)) ?size_map //.
rewrite (@multi_exp_sum _ _ _ _ (size labels)) ?size_map ?size_range ?subn0 // obindE.
rewrite (eq_bigr (fun k : 'I_(size labels) => [seq am_prf (sak_S sak) l | l <- labels]`_k *: (avk_Ain vk)`_k));
  last by move=> k _; rewrite nth_range ?subn0 ?add0n.
rewrite -/(lambda_sum vk _ _) /ads_pairing_checks /ads_equations /= !subr_eq0; congr Ok.
by do ![case: eqP => _ /=]; rewrite ?andbF ?andbT //=; case: ads_proof_wf.
Qed.

Lemma sec_too_many (vk : ads_verification_key P) pi (sak : sec_auth_key M) labels : (size (avk_Ain vk) < size labels)%N ->
  ads_verifier_sec vk pi sak labels = UB.
Proof.
move=> hs; rewrite /ads_verifier_sec /ads_online_verifier_sec /= /multi_exp (@range_full _ (map _ _)) ?size_map //.
rewrite /range subn0 drop0 take_oversize ?(ltnW hs) //.
by move: hs; case: ltngtP.
Qed.

Lemma pairs_sum (T : zmodType) (f : nat -> T) (g : T -> nat -> outcome T) o m acc :
  (forall a k, (k < m)%N -> g a k = Ok (a + (f (o + 2 * k)%N + f (o + 2 * k).+1))) ->
  ofold g acc (iota 0 m) = Ok (acc + \sum_(o <= j < o + 2 * m) f j).
Proof.
elim: m acc => [|m IH] acc h; first by rewrite muln0 addn0 big_geq ?addr0.
rewrite -addn1 iotaD ofold_cat IH => [|b k hk]; last by apply: h; apply: ltnW.
cbn [obind]; rewrite add0n /= h //=; congr Ok.
have -> : (o + 2 * (m + 1))%N = (o + 2 * m).+2 by lia.
by rewrite !big_nat_recr /= ?addrA //; lia.
Qed.

Lemma tag_pairingsE (vk : ads_verification_key P) (tags : seq (auth_data M)) labels : size labels = size tags ->
  (size tags <= size (avk_Ain vk))%N ->
  tag_pairings (ads_process_vk vk) tags labels =
  Ok (\sum_(k < size tags) e (avk_Ain vk)`_k [seq ad_Lambda t | t <- tags]`_k).
Proof.
move=> hl hs; rewrite /tag_pairings /= hl.
case e0: tags hs hl => [|t0 ts] hs hl; first by rewrite big_ord0.
rewrite -e0 in hs hl *; set n := size tags in hs hl *.
have hn : n = (n %% 2 + 2 * (n %/ 2))%N by rewrite addnC mulnC -divn_eq.
have -> : uphalf (n - n %% 2) = (n %/ 2)%N.
  by rewrite {1}hn addKn mul2n uphalf_double.
set f := fun k => e (avk_Ain vk)`_k [seq ad_Lambda t | t <- tags]`_k.
have get k : (k < n)%N -> oget (avk_Ain vk) k = Ok (avk_Ain vk)`_k /\ oget tags k = Ok (nth t0 tags k).
  by move=> hk; rewrite (@oget_nth _ 0) ?(oget_nth t0) //; apply: leq_trans hs.
have fE k : (k < n)%N -> f k = e (avk_Ain vk)`_k (ad_Lambda (nth t0 tags k)).
  by move=> hk; rewrite /f (nth_map t0).
have first : (if (n %% 2 == 1)%N
   then let! v := oget (avk_Ain vk) 0 in let! t := oget tags 0 in Ok (e v (ad_Lambda t))
   else Ok 0) = Ok (\sum_(0 <= j < n %% 2) f j).
  have : (n %% 2 < 2)%N by rewrite ltn_mod.
  case: (n %% 2)%N => [|[|?]] //= _; first by rewrite big_geq.
  have h0 : (0 < n)%N by rewrite /n e0.
  by have [-> ->] := get _ h0; rewrite !obindE big_nat1 fE.
rewrite first obindE (@pairs_sum _ f _ (n %% 2)%N).
  rewrite -hn -(big_mkord xpredT f) -big_cat_nat //=; exact: leq_mod.
move=> a k hk.
have h1 : (n %% 2 + 2 * k < n)%N by rewrite [X in (_ < X)%N]hn; lia.
have h2 : ((n %% 2 + 2 * k).+1 < n)%N by rewrite [X in (_ < X)%N]hn; lia.
have [-> ->] := get _ h1; have [-> ->] := get _ h2; rewrite !obindE !fE //.
Qed.

Lemma pub_verdict vk (tags : seq (auth_data M)) pi pak labels : size labels = size tags ->
  (size tags <= size (avk_Ain vk))%N ->
  ads_verifier_pub vk tags pi pak labels =
  Ok [&& ads_proof_wf pi,
         am_batch_verif (pak_vkp pak) labels (map (@ad_Lambda _ _ _) tags) (map (@ad_sigma _ _ _) tags),
         \sum_(k < size tags) e (avk_Ain vk)`_k [seq ad_Lambda t | t <- tags]`_k ==
           e (apf_muA pi) g2 + e (apf_Aau pi).1 (pak_minusI2 pak)
       & ads_equations vk pi].
Proof.
move=> hl hs; rewrite /ads_verifier_pub /ads_online_verifier_pub hl eqxx /=.
have -> : omapm (fun i => let! t := oget tags i in Ok (ad_Lambda t, ad_sigma t)) (iota 0 (size tags))
   = Ok [seq (ad_Lambda t, ad_sigma t) | t <- tags].
  case e0: tags => [|t0 ts] //; rewrite -e0.
  rewrite (@omapm_Ok _ _ _ (fun i => (ad_Lambda (nth t0 tags i), ad_sigma (nth t0 tags i)))).
    by rewrite -[in RHS](mkseq_nth t0 tags) /mkseq -map_comp.
  by move=> i /In_mem; rewrite mem_iota add0n => hi; rewrite (oget_nth t0).
rewrite obindE tag_pairingsE // obindE -!map_comp; congr Ok.
rewrite /ads_pairing_checks /ads_equations /= !subr_eq0.
case: am_batch_verif => /=; do ![case: eqP => _ /=]; by rewrite ?andbF ?andbT //=; case: ads_proof_wf.
Qed.

Lemma pub_mismatch (vk : ads_verification_key P) (tags : seq (auth_data M)) pi pak labels : size labels != size tags ->
  ads_verifier_pub vk tags pi pak labels = AssertFail.
Proof. by move=> /negbTE h; rewrite /ads_verifier_pub h. Qed.

(** The two verifiers on honest tags. *)
Lemma honest_tags sak labels ins : size labels = size ins ->
  let tags := [seq tag_of sak p.1 p.2 | p <- zip labels ins] in
  [/\ size tags = size labels, [seq ad_Lambda t | t <- tags] = [seq am_prf (sak_S sak) l *: g2 | l <- labels],
      [seq ad_sigma t | t <- tags] = [seq am_sign (sak_skp sak) l (am_prf (sak_S sak) l *: g2) | l <- labels] &
      forall l0 k, (k < size labels)%N -> (mus tags)`_k = am_prf (sak_S sak) (nth l0 labels k) + sak_i sak * ins`_k].
Proof.
move=> hl; split.
- by rewrite size_map size_zip hl minnn.
- by rewrite -map_comp -[in RHS](@unzip1_zip _ _ labels ins) ?hl // /unzip1 -map_comp; exact: eq_map.
- by rewrite -map_comp -[in RHS](@unzip1_zip _ _ labels ins) ?hl // /unzip1 -map_comp; exact: eq_map.
- move=> l0 k hk; rewrite /mus (nth_map (dtag l0 sak)) ?size_map ?size_zip ?hl ?minnn -?hl //.
  by rewrite nth_tags // -hl.
Qed.

Lemma lambda_pairings (vk : ads_verification_key P) S labels :
  \sum_(k < size labels) e (avk_Ain vk)`_k [seq am_prf S l *: g2 | l <- labels]`_k = e (lambda_sum vk S labels) g2.
Proof.
rewrite /lambda_sum (big_morph (fun x => e x g2) (fun x y => eDl x y g2) (e0l g2)).
case: labels => [|l0 ls]; first by rewrite !big_ord0.
by apply: eq_bigr => k _; rewrite !(nth_map l0) // eZl eZr.
Qed.

Lemma pub_sec_agree vk pi sak vkp labels ins : am_pair (sak_skp sak) vkp ->
  size labels = size ins -> (size ins <= size (avk_Ain vk))%N ->
  exists b1 b2, [/\ ads_verifier_sec vk pi sak labels = Ok b1,
    ads_verifier_pub vk [seq tag_of sak p.1 p.2 | p <- zip labels ins] pi
      (PubAuthKey (0 - sak_i sak *: g2) vkp) labels = Ok b2,
    b1 -> b2 & (forall x : G1 P, e x g2 = 0 -> x = 0) -> b1 = b2].
Proof.
move=> hp hl hs; have [st e1 e2 _] := honest_tags sak hl.
rewrite -hl in hs.
rewrite pub_verdict ?st // sec_verdict // e1 e2.
rewrite (am_batch_ok hp labels (fun l => am_prf (sak_S sak) l *: g2)) lambda_pairings /=.
set L := lambda_sum _ _ _; set A := (apf_Aau pi).1; set m := apf_muA pi.
have eq : (e L g2 == e m g2 + e A (0 - sak_i sak *: g2)) = (e (sak_i sak *: A + L - m) g2 == 0).
  rewrite sub0r -scaleNr eZr eDl eDl eZl -(scaleN1r m) eZl !scaleN1r scaleNr subr_eq0 addrC.
  by apply/eqP/eqP => [->|<-]; rewrite addrA ?subrr ?addNr add0r.
eexists; eexists; split; [reflexivity | reflexivity | | ].
- case/and3P=> -> /eqP h ->; rewrite andbT /= eq h subrr; apply/eqP; exact: e0l.
- move=> hinj; congr [&& _, _ & _]; rewrite eq -subr_eq0.
  by apply/eqP/eqP => [->|/hinj //]; exact: e0l.
Qed.

(** ** Completeness *)
Lemma ads_complete cs i (sk : am_sk M) (vkp : am_vk M) (seed : am_prf_key M) r chunks pk vk p a labels tags d :
  qap_large D cs -> r1cs_is_satisfied cs p a = Ok true -> am_pair sk vkp ->
  let: (I1, pak, sak) := auth_generator i sk vkp seed in
  ads_generator D cs I1 r chunks = Ok (pk, vk) ->
  auth_sign p sak labels = Ok tags ->
  exists2 pi, ads_prover D false pk p a tags d = Ok pi &
    ads_verifier_sec vk pi sak labels = Ok true /\ ads_verifier_pub vk tags pi pak labels = Ok true.
Proof.
move=> hm hsat hpair /= hgen; set sak := SecAuthKey i sk seed.
rewrite auth_signE; case: eqP => // hlp [<-].
have [hp ha hr hh] := r1cs_is_satisfied_true hsat.
have [cs' [q [pk' [vk' [hsw hq hgen' hk]]]]] := ads_generatorE i r hr hm.
move: hgen; rewrite hgen' => -[e1 e2]; subst pk' vk'.
have [cs'' hsw' [hpi hai [hnc hr'] _ hh']] := swap_AB_spec hr.
have e1 : cs'' = cs' by move: hsw'; rewrite hsw => -[].
subst cs''.
have hni : num_inputs cs' = num_inputs cs by rewrite /num_inputs hpi.
have hm' : qap_large D cs' by move: hm; rewrite /qap_large hni hnc.
have hsat' : r1cs_is_satisfied cs' p a = Ok true.
  by apply: r1cs_is_satisfied_ok_true => //; rewrite ?hni ?hai //; apply/hh'.
have [st _ _ hmus] := honest_tags sak hlp.
set tags' := [seq tag_of sak x.1 x.2 | x <- zip labels p] in st hmus *.
have htl : (num_inputs cs' <= size tags')%N by rewrite st hlp hp hni.
have [aA [aI [bB [cC [h [hpr eI hQ]]]]]] := ads_prover_ok d hr' hm' hq hk hsat' htl.
eexists; first exact: hpr.
set pi := AdsProof _ _ _ _ _ _ _.
have hwf : ads_proof_wf pi.
  by rewrite /ads_proof_wf /= !wf1_scale ?wf2_scale ?wf1_one ?wf2_one.
have hAin : avk_Ain vk = batch_exp g1 [seq rg_rA r * (qe_At q)`_k.+1 | k <- iota 0 (num_inputs cs')].
  by have [_ _ _ _ _ _ _ ->] := hk.
have sAin : size (avk_Ain vk) = size p by rewrite hAin size_batch_exp size_map size_iota hni hp.
have hlam : lambda_sum vk seed labels =
    (rg_rA r * \sum_(k < num_inputs cs') [seq am_prf seed l | l <- labels]`_k * (qe_At q)`_k.+1) *: g1.
  rewrite /lambda_sum hlp hp -hni mulr_sumr scaler_suml; apply: eq_bigr => k _.
  rewrite hAin nth_batch_exp (nth_map 0%N) ?size_iota // nth_iota // add0n scalerA; congr (_ *: _); fringn F.
have heq : ads_equations vk pi.
  have [_ _ _ _ _ _ _ ->] := hk; rewrite /ads_equations /=.
  rewrite -!scalerDl !eZl !eZr !scalerA -!scalerDl.
  rewrite (_ : (rg_rA r * (qe_At q)`_0 + rg_rA r * aI + rg_rA r * aA) * (rg_rB r * bB)
      = rg_rA r * rg_rB r * (((qe_At q)`_0 + aI + aA) * bB - cC) + rg_rA r * rg_rB r * cC); last by fring F.
  rewrite hQ; apply/and5P; split; [| | | |apply/andP; split]; apply/eqP; congr (_ *: _); fring F.
have hsec : ads_verifier_sec vk pi sak labels = Ok true.
  rewrite sec_verdict ?sAin ?hlp // hwf heq andbT /= hlam scalerA -scalerDl.
  suff -> : i * (rg_rA r * aI) + rg_rA r * (\sum_(k < num_inputs cs') [seq am_prf seed l | l <- labels]`_k * (qe_At q)`_k.+1)
    = rg_rA r * (ar_dauth d * qe_Zt q * i + \sum_(k < num_inputs cs') (mus tags')`_k * (qe_At q)`_k.+1) by rewrite eqxx.
  rewrite eI.
  have -> : \sum_(k < num_inputs cs') (mus tags')`_k * (qe_At q)`_k.+1 =
     \sum_(k < num_inputs cs') [seq am_prf seed l | l <- labels]`_k * (qe_At q)`_k.+1
     + i * \sum_(k < num_inputs cs') p`_k * (qe_At q)`_k.+1.
    rewrite mulr_sumr -big_split /=; apply: eq_bigr => k _.
    have hk' : (k < size labels)%N by rewrite hlp hp -hni.
    have [l0 _] : exists l0 : am_label M, True by move: hk'; clear; case: labels => // l0 *; exists l0.
    by rewrite (hmus l0) // (nth_map l0) // mulrDl -mulrA.
  fring F.
split=> //; have [|b1 [b2 [hb1 -> hb _]]] := @pub_sec_agree vk pi sak vkp labels p hpair hlp; first by rewrite sAin.
by move: hb1; rewrite hsec => -[e1]; rewrite hb // -e1.
Qed.

Lemma ads_generator_total cs i r chunks : r1cs_in_range cs -> qap_large D cs ->
  exists pk vk, ads_generator D cs (i *: g1) r chunks = Ok (pk, vk).
Proof. by move=> hr hm; have [cs' [q [pk [vk [_ _ h _]]]]] := ads_generatorE i r hr hm; exists pk, vk. Qed.

(** ** What an accepted proof satisfies, in the exponent *)
Lemma ads_scalars cs i r chunks pk vk (sak : sec_auth_key M) labels :
  r1cs_in_range cs -> qap_large D cs -> ads_generator D cs (i *: g1) r chunks = Ok (pk, vk) ->
  e g1 g2 != 0 -> g1 != 0 -> (size labels <= num_inputs cs)%N ->
  exists2 q, r1cs_to_qap_instance_map_with_evaluation D (apk_cs pk) (rg_t r) = Ok q &
  forall a a' b b' c c' h k u u' m,
  ads_verifier_sec vk (AdsProof (P := P) (a *: g1, a' *: g1) (b *: g2, b' *: g1) (c *: g1, c' *: g1) (h *: g1) (k *: g1)
     (u *: g1, u' *: g1) (m *: g1)) sak labels =
  Ok [&& m == sak_i sak * u + rg_rA r * \sum_(j < size labels) [seq am_prf (sak_S sak) l | l <- labels]`_j * (qe_At q)`_j.+1,
      u' == rg_alphaA r * u, a' == rg_alphaA r * a, b' == rg_alphaB r * b &
      [&& c' == rg_alphaC r * c,
      (rg_rA r * (qe_At q)`_0 + u + a) * b == h * (rg_rA r * rg_rB r * qe_Zt q) + c &
      k * rg_gamma r == rg_gamma r * rg_beta r * (rg_rA r * (qe_At q)`_0 + u + a + c + b)]].
Proof.
move=> hr hm hgen hnd hg1 hl.
have [cs' [q [pk' [vk' [hsw hq hgen' hk]]]]] := ads_generatorE i r hr hm.
move: hgen; rewrite hgen' => -[e1 e2]; subst pk' vk'.
have [cs'' hsw' [hpi _ _ _ _]] := swap_AB_spec hr.
have e1 : cs'' = cs' by move: hsw'; rewrite hsw => -[].
subst cs''; have hni : num_inputs cs' = num_inputs cs by rewrite /num_inputs hpi.
exists q; first by rewrite (ak_cs hk).
move=> a a' b b' c c' h k u u' m; have [_ _ _ _ _ _ _ hvk] := hk.
have hAin : avk_Ain vk = batch_exp g1 [seq rg_rA r * (qe_At q)`_k.+1 | k <- iota 0 (num_inputs cs')] by rewrite hvk.
rewrite sec_verdict; last by rewrite hAin size_batch_exp size_map size_iota hni.
have -> : lambda_sum vk (sak_S sak) labels = (rg_rA r *
    (\sum_(j < size labels) [seq am_prf (sak_S sak) l | l <- labels]`_j * (qe_At q)`_j.+1)) *: g1.
  rewrite /lambda_sum mulr_sumr scaler_suml; apply: eq_bigr => j _.
  have hj : (j < num_inputs cs')%N by rewrite hni; apply: leq_trans hl.
  rewrite hAin nth_batch_exp (nth_map 0%N) ?size_iota // nth_iota // add0n scalerA; congr (_ *: _); fringn F.
set T := \sum_(j < _) _.
have inj1 x y : (x *: g1 == y *: g1) = (x == y).
  by rewrite -subr_eq0 -scalerBl scaler_eq0 (negbTE hg1) orbF subr_eq0.
have inj x y : (x *: e g1 g2 == y *: e g1 g2) = (x == y).
  by rewrite -subr_eq0 -scalerBl scaler_eq0 (negbTE hnd) orbF subr_eq0.
rewrite /ads_equations hvk /= scalerA -!scalerDl inj1 !eZl !eZr !scalerA -!scalerDl !inj.
rewrite /ads_proof_wf /= !wf1_scale ?wf2_scale ?wf1_one ?wf2_one //=; congr Ok.
rewrite [m == _]eq_sym [u' == _]eq_sym [a' == _]eq_sym [b' == _]eq_sym [c' == _]eq_sym.
rewrite [rg_alphaA r * u]mulrC [rg_alphaA r * a]mulrC [rg_alphaC r * c]mulrC.
congr [&& _, _, _, _ & [&& _, _ & _ == _]]; fring F.
Qed.

(** ** Building with DEBUG *)
Lemma debug_abort cs' q i r pk vk (k : nat) : size (qe_At q) = (num_variables cs').+1 ->
  ads_keys_of q cs' i r pk vk -> rg_rA r != 0 -> g1 != 0 -> (k <= num_inputs cs')%N -> (qe_At q)`_k != 0 ->
  debug_assertions pk (num_inputs cs') = AssertFail.
Proof.
move=> sA hk hrA hg hkn hnz; have [h1 h2 h3] := ak_A hk.
have hst j : (j <= num_inputs cs')%N -> (let! x := sv_get (apk_A pk) j in assert! (x.1 == 0) in Ok tt)
    = if (qe_At q)`_j == 0 then Ok tt else AssertFail.
  move=> hj; rewrite sv_get_ok // obindE h3 /= nth_rcons sA ltnS (leq_trans hj (num_inputs_le _)).
  by rewrite scaler_eq0 (negbTE hg) orbF mulf_eq0 (negbTE hrA) /=; case: eqP.
rewrite /debug_assertions; have : k \in iota 0 (num_inputs cs').+1 by rewrite mem_iota.
have : all (fun j => j <= num_inputs cs')%N (iota 0 (num_inputs cs').+1).
  by apply/allP => j; rewrite mem_iota.
elim: (iota 0 _) => //= j l IH /andP [hj hl]; rewrite inE hst // => /orP [/eqP <-|hin].
  by rewrite (negbTE hnz).
by case: eqP => // _; apply: IH.
Qed.

Lemma ads_debug_bound cs p a (rs : seq (r1cs_gen_random F)) chunks i : qap_large D cs ->
  r1cs_is_satisfied cs p a = Ok true -> g1 != 0 -> uniq [seq rg_t r | r <- rs] ->
  (forall r, List.In r rs -> rg_rA r != 0) ->
  (forall r, List.In r rs -> exists pk vk, ads_generator D cs (i *: g1) r chunks = Ok (pk, vk) /\
     exists (tags : seq (auth_data M)) d, ads_prover D true pk p a tags d <> AssertFail) ->
  (size rs < d_size D)%N.
Proof.
move=> hm hsat hg hu hrA hok; have [hp ha hr hh] := r1cs_is_satisfied_true hsat.
have [cs' hsw [hpi hai [hnc hr'] _ hh']] := swap_AB_spec hr.
have hni : num_inputs cs' = num_inputs cs by rewrite /num_inputs hpi.
have hm' : qap_large D cs' by move: hm; rewrite /qap_large hni hnc.
have hsat' : r1cs_is_satisfied cs' p a = Ok true.
  by apply: r1cs_is_satisfied_ok_true => //; rewrite ?hni ?hai //; apply/hh'.
have hpos : (num_constraints cs' + 0 < d_size D)%N by move: hm'; rewrite /qap_large; clear; lia.
rewrite -(size_map (@rg_t F)); apply: (@col_roots _ D (A_updates cs') 0 _ _ hpos) => //.
  by rewrite (input_column_one hr' hm') // oner_neq0.
rewrite all_map; apply/all_InP => r hin /=.
have [pk [vk [hgen [tags [d hpr]]]]] := hok _ hin.
have [cs'' [q [pk' [vk' [hsw' hq hgen' hk]]]]] := ads_generatorE i r hr hm.
move: hgen; rewrite hgen' => -[e1 e2]; subst pk' vk'.
have e1 : cs'' = cs' by move: hsw'; rewrite hsw => -[].
subst cs''.
have [l hl el] := input_column (rg_t r) hr' hm' (leq0n _).
rewrite -el -(hl _ hq); apply/negPn/negP => hnz; apply: hpr.
have [w hw [[w1 w2 w3 w4] [w5 w6 w7 w8] sH pH]] :=
  witness_map_ok hr' hm' (ar_d1 d + ar_dauth d) (ar_d2 d) (ar_d3 d) hsat'.
have [q' hq' [[q1 q2 q3 q4 q5] [s1 s2 s3] hHt hZ hcol]] := qap_eval_ok hr' hm' (rg_t r).
have e : q' = q by move: hq'; rewrite hq => -[].
subst q'.
have [[a1 _ _] [b1 _ _] [c1 _ _] hH hK hiZ hcs hvk] := hk.
rewrite /ads_prover hcs hw obindE !sv_get_ok // !obindE.
have sK : size (Kt_of q r) = (num_variables cs').+4 by rewrite size_cat size_map size_iota q1 /= addn3.
rewrite hK w1 w3 !(@oget_nth _ 0) ?size_batch_exp ?sK //; try by (clear; lia).
by rewrite !obindE (debug_abort s1 hk _ hg _ hnz) //; apply: hrA.
Qed.

End Facts.
