(** Proofs about the USCS ppzkSNARK. *)
From mathcomp Require Import all_ssreflect all_algebra.
From Verif Require Import Outcome Lincomb LincombSpec R1CS R1CSSpec R1CSFacts Domain DomainFacts ArithPrograms
  ArithSpec ArithFacts SspFacts Vectors VectorsSpec VectorsFacts Pairing SnarkFacts UscsPpzksnark Fieldtac.
From mathcomp Require Import zify.
Set Implicit Arguments.
Unset Strict Implicit.
Unset Printing Implicit Defensive.
Import GRing.Theory.
Local Open Scope ring_scope.

Lemma List_nth_In (A : Type) (d : A) l i : (i < size l)%N -> List.In (nth d l i) l.
Proof. by elim: l i => [|x l IH] [|i] //= h; [left|right; apply: IH]. Qed.
Lemma In_List_nth (A : Type) (d x : A) l : List.In x l -> exists2 i, (i < size l)%N & nth d l i = x.
Proof.
elim: l => [|y l IH] //= [->|/IH [i hi e]]; first by exists 0%N.
by exists i.+1.
Qed.

Section Facts.
Variables (F : fieldType).
Add Field Ff : (Fth F).
Variables (P : pairing F) (D : evaluation_domain F).
Implicit Type cs : uscs F.

Lemma u_num_inputs_le cs : (u_num_inputs cs <= u_num_variables cs)%N.
Proof. exact: leq_addr. Qed.

Record uscs_keys_of (q : ssp_evaluation F) cs (r : uscs_gen_random F)
    (pk : uscs_proving_key P) (vk : uscs_verification_key P) : Prop := UscsKeysOf {
  uko_pk : let rest := rcons (drop (u_num_inputs cs).+1 (pe_Vt q)) (pe_Zt q) in
    pk = UscsProvingKey (P := P) (batch_exp (G1_one P) rest)
      (batch_exp (G1_one P) [seq ur_alpha r * x | x <- rest])
      (batch_exp (G1_one P) (powers (d_size D).+1 (ur_t r)))
      (batch_exp (G2_one P) (rcons (pe_Vt q) (pe_Zt q))) cs;
  uko_vk : vk = UscsVerificationKey (ur_tilde r *: G2_one P) ((ur_alpha r * ur_tilde r) *: G2_one P)
    (pe_Zt q *: G2_one P)
    (av_of_vector ((pe_Vt q)`_0 *: G1_one P) (batch_exp (G1_one P) (behead (take (u_num_inputs cs).+1 (pe_Vt q)))))
}.

Lemma uscs_generatorE cs (r : uscs_gen_random F) : uscs_in_range cs -> ssp_large D cs ->
  exists2 q, uscs_to_ssp_instance_map_with_evaluation D cs (ur_t r) = Ok q &
  if all (fun x => x != 0) (take (u_num_inputs cs).+1 (pe_Vt q))
  then exists pk vk, uscs_generator P D cs r = Ok (pk, vk) /\ uscs_keys_of q cs r pk vk
  else uscs_generator P D cs r = AssertFail.
Proof.
move=> hr hm.
have [q hq [[q1 q2 q3 q4 q5] s1 hH hZ hcol]] := ssp_eval_ok hr hm (ur_t r).
exists q => //; have hni := u_num_inputs_le cs.
have ht : take (u_num_inputs cs).+1 (rcons (pe_Vt q) (pe_Zt q)) = take (u_num_inputs cs).+1 (pe_Vt q).
  by rewrite -cats1 takel_cat // s1.
have hd : drop (u_num_inputs cs).+1 (rcons (pe_Vt q) (pe_Zt q)) = rcons (drop (u_num_inputs cs).+1 (pe_Vt q)) (pe_Zt q).
  rewrite -!cats1 drop_cat s1; case: ltnP => // h.
  have e1 : (u_num_inputs cs).+1 = (u_num_variables cs).+1 by apply/eqP; rewrite eqn_leq h ltnS hni.
  by rewrite e1 subnn drop0 drop_oversize ?s1.
have st : size (take (u_num_inputs cs).+1 (pe_Vt q)) = (u_num_inputs cs).+1 by rewrite size_takel ?s1.
have hgen : uscs_generator P D cs r = assert! all (fun x => x != 0) (take (u_num_inputs cs).+1 (pe_Vt q)) in
  Ok (UscsProvingKey (P := P) (batch_exp (G1_one P) (rcons (drop (u_num_inputs cs).+1 (pe_Vt q)) (pe_Zt q)))
      (batch_exp_with_coeff (G1_one P) (ur_alpha r) (rcons (drop (u_num_inputs cs).+1 (pe_Vt q)) (pe_Zt q)))
      (batch_exp (G1_one P) (powers (d_size D).+1 (ur_t r)))
      (batch_exp (G2_one P) (rcons (pe_Vt q) (pe_Zt q))) cs,
    UscsVerificationKey (ur_tilde r *: G2_one P) ((ur_alpha r * ur_tilde r) *: G2_one P)
    (pe_Zt q *: G2_one P)
    (av_of_vector ((pe_Vt q)`_0 *: G1_one P) (batch_exp (G1_one P) (behead (take (u_num_inputs cs).+1 (pe_Vt q)))))).
  rewrite /uscs_generator hq obindE q1 q2 q3 ht hd size_rcons s1 hH.
  rewrite ltnS (leq_trans hni (leqnSn _)) obindE addn2 eqxx oassertT size_powers eqxx oassertT st eqxx oassertT.
  rewrite size_rcons size_drop s1.
  have -> : ((u_num_variables cs).+1 - (u_num_inputs cs).+1).+1 == ((u_num_variables cs).+2 - u_num_inputs cs - 1)%N.
    by apply/eqP; lia.
  rewrite oassertT; case: all => //=.
  by rewrite (@oget_nth _ 0) ?st // nth_take.
rewrite hgen; case: all => //=; eexists; eexists; split; first by [].
by split; rewrite //= batch_exp_coeffE.
Qed.

(** ** The honest prover *)
Lemma uscs_prover_ok cs q (r : uscs_gen_random F) pk vk p a d :
  ssp_large D cs ->
  uscs_to_ssp_instance_map_with_evaluation D cs (ur_t r) = Ok q ->
  uscs_keys_of q cs r pk vk -> uscs_is_satisfied cs p a = Ok true ->
  exists cI cX h : F, let Z := pe_Zt q in
  [/\ uscs_prover D pk p a d =
      Ok (UscsProof (P := P) ((d * Z + cX) *: G1_one P) ((ur_alpha r * (d * Z + cX)) *: G1_one P)
            (h *: G1_one P) ((cI + cX + d * Z) *: G2_one P)),
      cI = (pe_Vt q)`_0 + \sum_(i < u_num_inputs cs) p`_i * (pe_Vt q)`_i.+1,
      (cI + cX + d * Z) * (cI + cX + d * Z) - 1 = h * Z &
      cX = wsum (pe_Vt q) (p ++ a) - cI].
Proof.
move=> hm hq [-> _] hsat.
have [hp ha hr _] := uscs_is_satisfied_true hsat.
have [w hw [[w1 w2 w3 w4] [w5 w6] sH pH]] := ssp_witness_map_ok hr hm d hsat.
have hacc : ssp_eval_is_satisfied q w.
  by rewrite (ssp_accept hr hm _ hq) w1 w2 w3 w4 w5 sH pH !eqxx.
have [q' hq' [[q1 q2 q3 q4 q5] s1 hHt hZ hcol]] := ssp_eval_ok hr hm (ur_t r).
have e : q' = q by move: hq'; rewrite hq => -[].
subst q' => {hq'}.
have hni := u_num_inputs_le cs.
set nv := u_num_variables cs in s1 w1 w4 q1 hni *.
set ni := u_num_inputs cs in w3 q3 hni hp *.
set x := pw_Vs w in w4 w6 *.
set m := d_size D in w2 sH hHt *.
set Z := pe_Zt q.
pose vT := \sum_(i < nv) x`_i * (pe_Vt q)`_i.+1.
pose cI := (pe_Vt q)`_0 + \sum_(i < ni) p`_i * (pe_Vt q)`_i.+1.
pose cX := (pe_Vt q)`_0 + vT - cI.
pose hh := inner (pe_Ht q) (pw_H w).
have evT : (pe_Vt q)`_0 + vT = cI + cX by rewrite /cX [RHS]addrC subrK.
have hmain : (cI + cX + d * Z) * (cI + cX + d * Z) - 1 = hh * Z.
  move: hacc; rewrite /ssp_eval_is_satisfied w5 -/x !(inner_behead (n := nv)) // add0r -/Z.
  rewrite [_ + _ * Z + _]addrAC -/vT evT -expr2.
  by do 8!(case: ifP => // _); case: eqP.
exists cI, cX, hh; split=> //; last by rewrite /cX /wsum -w6 w4.
rewrite /uscs_prover; cbn [uk_V_g1 uk_alpha_V_g1 uk_H_g1 uk_V_g2 uk_cs].
rewrite hw obindE hsat obindE oassertT w1 w2 w3 w5 -/x -/ni -/nv.
have sP : size (powers m.+1 (ur_t r)) = m.+1 by rewrite size_powers.
have hhE : hh = \sum_(i < m.+1) (powers m.+1 (ur_t r))`_i * (pw_H w)`_i.
  by rewrite /hh (@inner_sum _ _ _ m.+1) ?hHt ?size_powers.
move: sP hhE {hHt}; move: (powers m.+1 _) => Pw sP hhE.
rewrite !size_batch_exp !size_map size_rcons size_drop s1 sP size_rcons s1 addn2 !eqxx.
have e1 : (nv.+1 - ni.+1).+1 == (nv.+2 - ni - 1)%N by apply/eqP; lia.
rewrite e1 !oassertT !subSS !subn0.
set rest := rcons (drop _ _) _.
have srest : size rest = (nv - ni).+1 by rewrite size_rcons size_drop s1.
have nrest i : (i < nv - ni)%N -> rest`_i = (pe_Vt q)`_(ni + i).+1.
  by move=> hi; rewrite nth_rcons size_drop s1 subSS hi nth_drop.
have lrest : rest`_(nv - ni) = Z by rewrite nth_rcons size_drop s1 subSS ltnn eqxx.
rewrite !(@oget_nth _ 0) ?size_batch_exp ?size_map ?size_rcons ?size_drop ?s1 ?subSS //.
rewrite !obindE !nth_batch_exp.
rewrite (nth_map 0) ?srest // lrest !nth_rcons s1 ltnn eqxx /=.
rewrite !range_batch map_range.
have sR1 : size (range rest 0 (nv - ni)) = (nv - ni)%N by rewrite size_range ?subn0 // srest.
have sR2 : size (range x ni nv) = (nv - ni)%N by rewrite size_range // w4.
rewrite (@multi_exp_batch _ _ _ _ _ (nv - ni)) // obindE (@multi_exp_batch _ _ _ _ _ (nv - ni)) ?size_map // obindE.
rewrite (range_full sP) (range_full sH) (@multi_exp_batch _ _ _ _ _ m.+1) // obindE (range_full w4).
rewrite (@multi_exp_batch _ _ _ _ _ nv) //; last by rewrite size_range ?subSS ?subn0 // size_rcons s1.
rewrite obindE add0r.
have eX : \sum_(i < nv - ni) (range x ni nv)`_i * (range rest 0 (nv - ni))`_i = cX.
  have -> : cX = \sum_(i < nv - ni) x`_(ni + i) * (pe_Vt q)`_(ni + i).+1.
    rewrite /cX /vT /cI opprD addrACA subrr add0r -[nv in LHS](subnKC hni) big_split_ord /= addrC.
    rewrite [X in - X + _](eq_bigr (fun i : 'I_ni => x`_i * (pe_Vt q)`_i.+1)); last first.
      by move=> i _; congr (_ * _); rewrite w6 nth_cat hp ltn_ord.
    by rewrite addKr.
  by apply: eq_bigr => i _; rewrite !nth_range ?subn0 // add0n nrest.
have eX' : \sum_(i < nv - ni) (range x ni nv)`_i * [seq ur_alpha r * y | y <- range rest 0 (nv - ni)]`_i
   = ur_alpha r * cX.
  rewrite -eX mulr_sumr; apply: eq_bigr => i _; rewrite (nth_map 0) ?sR1 //; by fringn F.
have eH : \sum_(i < m.+1) (pw_H w)`_i * Pw`_i = hh by rewrite hhE; apply: eq_bigr => i _; rewrite mulrC.
have eV : \sum_(i < nv) x`_i * (range (rcons (pe_Vt q) Z) 1 nv.+1)`_i = vT.
  apply: eq_bigr => i _; rewrite nth_range ?subSS ?subn0 // add1n nth_rcons s1 ltnS ltn_ord //.
rewrite eX eX' eH eV !scalerA -!scalerDl -evT.
by congr (Ok (UscsProof (_ *: _) (_ *: _) (_ *: _) (_ *: _))); fringn F.
Qed.


(** ** The verifiers *)
Definition uscs_equations (vk : uscs_verification_key P) (acc : G1 P) (pi : uscs_proof P) : bool :=
  [&& e (upi_V_g1 pi + acc) (G2_one P) == e (G1_one P) (upi_V_g2 pi),
      e (upi_V_g1 pi + acc) (upi_V_g2 pi) == e (upi_H_g1 pi) (uv_Z_g2 vk) + e (G1_one P) (G2_one P) &
      e (upi_V_g1 pi) (uv_alpha_tilde_g2 vk) == e (upi_alpha_V_g1 pi) (uv_tilde_g2 vk)].

Lemma uscs_weak_verdict (vk : uscs_verification_key P) first es p pi : uv_IC vk = av_of_vector first es ->
  uscs_verifier_weak_IC vk p pi =
  if size p == size es
  then Ok (uscs_proof_wf pi && uscs_equations vk (first + \sum_(0 <= j < size p) p`_j *: es`_j) pi) else AssertFail.
Proof.
move=> hIC; rewrite /uscs_verifier_weak_IC /uscs_online_verifier_weak_IC /= hIC {1}/av_domain_size /=.
have [av' -> [hf _ hfull]] := accumulate_all first es p; rewrite obindE hf hfull.
rewrite eqn_leq; case: leqP => hs //=; case: leqP => hs' //=; congr Ok.
rewrite /uscs_equations !subr_eq0 addrAC -addrA addrC subr_eq0 [_ + e _ (uv_Z_g2 vk)]addrC.
set c1 := (e (upi_V_g1 pi + _) (G2_one P) == _); set c3 := (e (upi_V_g1 pi) _ == _).
rewrite [_ + _ == e (upi_V_g1 pi + _) _]eq_sym.
by case: c1; case: c3; case: eqP => _; rewrite ?andbT ?andbF //; case: uscs_proof_wf.
Qed.

Lemma uscs_strong_verdict (vk : uscs_verification_key P) p pi :
  uscs_verifier_strong_IC vk p pi =
  if size p == av_domain_size (uv_IC vk) then uscs_verifier_weak_IC vk p pi else Ok false.
Proof. by rewrite /uscs_verifier_strong_IC /uscs_online_verifier_strong_IC /= eq_sym; case: eqP. Qed.

Lemma uscs_vk_scalars cs q (r : uscs_gen_random F) pk vk : size (pe_Vt q) = (u_num_variables cs).+1 ->
  uscs_keys_of q cs r pk vk ->
  exists first es, [/\ uv_IC vk = av_of_vector first es, size es = u_num_inputs cs &
    forall p, size p = u_num_inputs cs ->
    first + \sum_(0 <= j < size p) p`_j *: es`_j
    = ((pe_Vt q)`_0 + \sum_(i < u_num_inputs cs) p`_i * (pe_Vt q)`_i.+1) *: G1_one P].
Proof.
move=> s1 [_ ->]; eexists; eexists; split; first by [].
  by rewrite size_batch_exp size_behead size_takel // s1 ltnS u_num_inputs_le.
move=> p hp; rewrite hp big_mkord [in RHS]scalerDl scaler_suml; congr (_ + _); apply: eq_bigr => i _.
by rewrite nth_batch_exp nth_behead nth_take ?ltnS // scalerA.
Qed.

Lemma uscs_equations_scalars cs q (r : uscs_gen_random F) pk vk acc v av h v2 : uscs_keys_of q cs r pk vk ->
  e (G1_one P) (G2_one P) != 0 ->
  uscs_equations vk (acc *: G1_one P)
    (UscsProof (P := P) (v *: G1_one P) (av *: G1_one P) (h *: G1_one P) (v2 *: G2_one P)) =
  [&& v2 == v + acc, (v + acc) * v2 == h * pe_Zt q + 1 &
      v * (ur_alpha r * ur_tilde r) == av * ur_tilde r].
Proof.
case=> _ -> hnd; rewrite /uscs_equations /= -!scalerDl !eZl !eZr !scalerA.
have hz u u' : (u *: e (G1_one P) (G2_one P) == u' *: e (G1_one P) (G2_one P)) = (u == u').
  by rewrite -subr_eq0 -scalerBl scaler_eq0 (negbTE hnd) orbF subr_eq0.
by rewrite -[X in _ == _ + X]scale1r -scalerDl !hz eq_sym.
Qed.

Lemma uscs_equations_scalars_imp cs q (r : uscs_gen_random F) pk vk acc v h : uscs_keys_of q cs r pk vk ->
  (v + acc) * (v + acc) = h * pe_Zt q + 1 ->
  uscs_equations vk (acc *: G1_one P)
    (UscsProof (P := P) (v *: G1_one P) ((ur_alpha r * v) *: G1_one P) (h *: G1_one P) ((v + acc) *: G2_one P)).
Proof.
case=> _ -> h1; rewrite /uscs_equations /= -!scalerDl !eZl !eZr !scalerA eqxx.
rewrite -[X in _ == _ + X]scale1r -scalerDl h1 eqxx.
by apply/eqP; congr (_ *: _); fring F.
Qed.

(** ** Completeness *)
Theorem uscs_complete cs (r : uscs_gen_random F) pk vk p a d :
  ssp_large D cs -> uscs_is_satisfied cs p a = Ok true ->
  uscs_generator P D cs r = Ok (pk, vk) ->
  exists2 pi, uscs_prover D pk p a d = Ok pi &
    uscs_verifier_weak_IC vk p pi = Ok true /\ uscs_verifier_strong_IC vk p pi = Ok true.
Proof.
move=> hm hsat hgen; have [hp ha hr hh] := uscs_is_satisfied_true hsat.
have [q hq] := uscs_generatorE r hr hm.
case: ifP => [_ [pk' [vk' [hgen' hk]]]|_ hgen']; last by rewrite hgen' in hgen.
move: hgen; rewrite hgen' => -[e1 e2]; subst pk' vk'.
have [q' hq' [_ s1 _ _ _]] := ssp_eval_ok hr hm (ur_t r).
have eq' : q' = q by move: hq'; rewrite hq => -[].
subst q'.
have [cI [cX [h [hpr eI hQ]]]] := uscs_prover_ok d hm hq hk hsat.
eexists; first exact: hpr.
have [first [es [hIC hes hacc]]] := uscs_vk_scalars s1 hk.
set pi := UscsProof _ _ _ _.
have heq : uscs_equations vk (first + \sum_(0 <= j < size p) p`_j *: es`_j) pi.
  rewrite hacc // -eI /pi; have -> : cI + cX + d * pe_Zt q = d * pe_Zt q + cX + cI by fring F.
  apply: (uscs_equations_scalars_imp hk); rewrite -hQ; fring F.
have hwf : uscs_proof_wf pi by rewrite /uscs_proof_wf /= !wf1_scale ?wf2_scale ?wf1_one ?wf2_one.
have hweak : uscs_verifier_weak_IC vk p pi = Ok true.
  by rewrite (uscs_weak_verdict _ _ hIC) hes hp eqxx -hp heq hwf.
by split=> //; rewrite uscs_strong_verdict hIC hweak /av_domain_size /= hes hp eqxx.
Qed.

(** ** When the generator aborts *)

(** The coefficient of x_k in a formal sum. *)
Definition total_coeff (k : nat) (l : seq (nat * F)) : F := \sum_(tm <- l | tm.1 == k) tm.2.

Lemma ssp_col cs k i : ssp_large D cs -> (i < d_size D)%N ->
  upd_sum (fun j => (j == i)%:R) (ssp_V D cs) k =
  if (i < u_num_constraints cs)%N then total_coeff k (nth [::] (u_constraints cs) i) else (k == 0%N)%:R.
Proof.
move=> hm hi; have hs := le_nc hm; rewrite upd_sum_cat /ssp_updates /enum_from0.
have -> : upd_sum (fun j => (j == i)%:R) (dummy_updates D cs) k =
    if (u_num_constraints cs <= i)%N then (k == 0%N)%:R else 0 :> F.
  rewrite /upd_sum /dummy_updates big_map /= [0%N == k]eq_sym.
  case: (k == 0%N) => /=; last by rewrite big_pred0 //; case: leqP.
  rewrite big_mkcond /= (eq_bigr (fun j => if j == i then 1 else 0)); last first.
    by move=> j _; rewrite mulr1; case: (j == i).
  rewrite -big_mkcond -big_filter; case: leqP => h.
    rewrite filter_pred1_uniq ?iota_uniq ?big_seq1 // mem_iota h subnKC //.
  rewrite (eq_in_filter (a2 := pred0)) ?filter_pred0 ?big_nil // => j; rewrite mem_iota => /andP [h' _] /=.
  by apply/eqP; lia.
have -> : forall b, upd_sum (fun j => (j == i)%:R)
    (flatten [seq [seq (lt_index tm, p.1, lt_coeff tm) | tm <- p.2] | p <- zip (iota b (size (u_constraints cs))) (u_constraints cs)]) k
   = if (b <= i < b + u_num_constraints cs)%N then total_coeff k (nth [::] (u_constraints cs) (i - b)) else 0.
  rewrite /u_num_constraints; elim: (u_constraints cs) => [|c l IH] b /=.
    by rewrite upd_sum_nil addn0; case: ltnP; rewrite ?andbF // => h; rewrite leqNgt h.
  rewrite upd_sum_cat IH.
  have -> : upd_sum (fun j => (j == i)%:R) [seq (lt_index tm, b, lt_coeff tm) | tm <- c] k =
      if b == i then total_coeff k c else 0.
    rewrite /upd_sum big_map /=; case: (b == i).
      by rewrite /total_coeff; apply: eq_bigr => tm _; rewrite mul1r.
    by rewrite big1 // => tm _; rewrite mul0r.
  case: (ltngtP b i) => h /=.
  - by rewrite add0r addnS addSn -(subnSK h).
  - by rewrite add0r.
  - by rewrite h subnn addr0 addnS ltnS leq_addr.
rewrite leq0n add0n subn0 andTb; case: ltnP => h /=; by rewrite ?addr0 ?add0r.
Qed.


Theorem uscs_generator_total cs (r : uscs_gen_random F) : uscs_in_range cs -> ssp_large D cs ->
  (exists pk vk, uscs_generator P D cs r = Ok (pk, vk)) \/ uscs_generator P D cs r = AssertFail.
Proof.
move=> hr hm; have [q _] := uscs_generatorE r hr hm.
by case: ifP => [_ [pk [vk [h _]]]|_ h]; [left; exists pk, vk|right].
Qed.

Lemma uscs_column cs q t k : uscs_in_range cs -> ssp_large D cs ->
  uscs_to_ssp_instance_map_with_evaluation D cs t = Ok q ->
  (pe_Vt q)`_k = (col_poly D (ssp_V D cs) k).[t].
Proof.
move=> hr hm hq; have [q' hq' [_ _ _ _ hcol]] := ssp_eval_ok hr hm t.
have <- : q' = q by move: hq'; rewrite hq => -[].
by rewrite hcol (upd_sum_lagrange k t (upd_V hr hm)).
Qed.

(** A primary input on which no constraint depends. *)
Theorem uscs_generator_aborts cs (r : uscs_gen_random F) k : uscs_in_range cs -> ssp_large D cs ->
  (0 < k <= u_num_inputs cs)%N -> (forall c, List.In c (u_constraints cs) -> total_coeff k c = 0) ->
  uscs_generator P D cs r = AssertFail.
Proof.
move=> hr hm /andP [k0 hk] h0; have [q hq] := uscs_generatorE r hr hm.
have [q' hq' [_ s1 _ _ _]] := ssp_eval_ok hr hm (ur_t r).
have eq' : q' = q by move: hq'; rewrite hq => -[].
subst q'; case: ifP => // hall; exfalso; move: hall.
apply/negP; rewrite -has_predC; apply/(has_nthP 0); exists k.
  by rewrite size_takel ?s1 ltnS ?u_num_inputs_le.
rewrite nth_take // /= negbK (uscs_column _ hr hm hq).
suff -> : col_poly D (ssp_V D cs) k = 0 by rewrite horner0.
apply: interpolate_eq; [exact: d_uniq|by rewrite size_poly0|].
move=> i hi; rewrite horner0 nth_mkseq // ssp_col //; case: ltnP => h; last by case: k k0 {hk h0}.
rewrite h0 //; exact: List_nth_In.
Qed.

Theorem uscs_generator_abort_bound cs (rs : seq (uscs_gen_random F)) : uscs_in_range cs -> ssp_large D cs ->
  (forall k, (k <= u_num_inputs cs)%N ->
     (exists2 c, List.In c (u_constraints cs) & total_coeff k c != 0) \/ k = 0%N /\ (u_num_constraints cs < d_size D)%N) ->
  uniq [seq ur_t r | r <- rs] ->
  (forall r, List.In r rs -> uscs_generator P D cs r = AssertFail) ->
  (size rs <= (u_num_inputs cs).+1 * (d_size D).-1)%N.
Proof.
move=> hr hm hdep hu hab; rewrite -(size_map (@ur_t F)).
apply: (union_bound (bad := fun k t => (col_poly D (ssp_V D cs) k).[t] == 0)) => //.
- move=> k us hk hus hall.
  have [i hi hnz] : exists2 i, (i < d_size D)%N & upd_sum (fun j => (j == i)%:R) (ssp_V D cs) k != 0.
    have hs := le_nc hm; case: (hdep k hk) => [[c hc hnz]|[-> hlt]].
      have [i hi ei] := In_List_nth [::] hc.
      exists i; first exact: leq_trans hi hs.
      rewrite ssp_col //; last exact: leq_trans hi hs.
      by rewrite /u_num_constraints hi ei.
    by exists (u_num_constraints cs) => //; rewrite ssp_col // ltnn eqxx oner_neq0.
  have := col_roots hi hnz hus hall.
  by move: (size us) (d_size D) => n m; lia.
- rewrite all_map; apply/all_InP => r hin /=.
  have [q hq] := uscs_generatorE r hr hm.
  case: ifP => [_ [pk [vk [hg _]]]|hall _]; first by move: hg; rewrite (hab _ hin).
  have [q' hq' [_ s1 _ _ _]] := ssp_eval_ok hr hm (ur_t r).
  have eq' : q' = q by move: hq'; rewrite hq => -[].
  subst q'.
  move/negbT: hall; rewrite -has_predC => /(has_nthP 0) [k hk /=]; rewrite negbK => hz.
  have hsz : size (take (u_num_inputs cs).+1 (pe_Vt q)) = (u_num_inputs cs).+1.
    by rewrite size_takel // s1 ltnS u_num_inputs_le.
  rewrite hsz in hk.
  change (has (fun k => (col_poly D (ssp_V D cs) k).[ur_t r] == 0) (iota 0 (u_num_inputs cs).+1)).
  apply/hasP; exists k; first by rewrite mem_iota.
  by rewrite -(uscs_column _ hr hm hq); move: hz; rewrite nth_take.
Qed.

End Facts.
