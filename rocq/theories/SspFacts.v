(** Proofs about the USCS-to-SSP reduction. *)
From mathcomp Require Import all_ssreflect all_algebra.
From mathcomp Require Import zify.
From Verif Require Import Outcome Lincomb LincombSpec LincombFacts R1CS R1CSSpec R1CSFacts
  Domain DomainFacts ArithPrograms ArithSpec ArithFacts QapFacts SapFacts Fieldtac.
Set Implicit Arguments.
Unset Strict Implicit.
Unset Printing Implicit Defensive.
Import GRing.Theory.
Local Open Scope ring_scope.

Section SspIdentities.
Variable R : comRingType.
Add Ring Rr3 : (Rth R).
Lemma ssp_identity (A Z e : R) :
  A * A - 1 + ((1 + 1) * e * A + e * e * Z) * Z = (A + e * Z) * (A + e * Z) - 1.
Proof. cring R. Qed.
End SspIdentities.

Section SspFacts.
Variable F : fieldType.
Implicit Types (D : evaluation_domain F) (cs : uscs F) (w W : seq F) (t : F).

Definition ssp_large D cs : bool := (0 < d_size D)%N && (u_num_constraints cs <= d_size D)%N.

Section Instance.
Variables (D : evaluation_domain F) (cs : uscs F).
Hypothesis hr : uscs_in_range cs.
Hypothesis hm : ssp_large D cs.
Let nc := u_num_constraints cs.
Let nv := u_num_variables cs.

Definition dummy_updates : seq (update F) := [seq (0%N, i, 1) | i <- iota nc (d_size D - nc)].
Definition ssp_V : seq (update F) := ssp_updates cs ++ dummy_updates.

Lemma le_nc : (nc <= d_size D)%N. Proof. by case/andP: hm. Qed.

Lemma uscs_in c : List.In c (u_constraints cs) -> in_range nv c.
Proof. by move: hr => /all_InP h /h. Qed.

Lemma upd_V : upd_in nv.+1 (d_size D) ssp_V.
Proof.
have hs := le_nc; rewrite upd_in_cat; apply/andP; split.
  apply: upd_in_flatten => p /enum_In [/andP [_ h1] h2].
  rewrite /upd_in all_map; apply/all_InP => tm htm /=.
  rewrite ltnS (in_range_In (uscs_in h2) htm) /=; exact: leq_trans h1 hs.
rewrite /upd_in all_map; apply/allP => i; rewrite mem_iota subnKC // => /andP [_ h] /=; exact: h.
Qed.

Lemma row_V W r : row_sum ssp_V W r =
  if (r < nc)%N then formal_sum (nth [::] (u_constraints cs) r) W else
  if (r < d_size D)%N then 1 else 0.
Proof.
have hs := le_nc; rewrite row_sum_cat /ssp_updates /enum_from0.
rewrite (@row_sum_enum F _ id [::] (u_constraints cs) W r 0) // subn0 leq0n.
have -> : row_sum dummy_updates W r = if (nc <= r < d_size D)%N then 1 else 0.
  rewrite /dummy_updates; have -> : [seq (0%N, i, 1 : F) | i <- iota nc (d_size D - nc)] =
    flatten [seq [:: (0%N, i, 1)] | i <- iota nc (d_size D - nc)].
    by elim: (iota _ _) => //= i l <-.
  rewrite (@additive_flat F _ (fun l => row_sum l W r) _ nc _ r).
  - by rewrite subnKC // row_sum_cons row_sum_nil /= eqxx /xval /= mulr1 addr0.
  - by move=> l l'; apply: row_sum_cat.
  - exact: row_sum_nil.
  - by move=> i /eqP /negbTE hi; rewrite row_sum_cons row_sum_nil /= hi addr0.
case: (ltnP r nc) => h /=; first by rewrite addr0.
by rewrite nth_default // formal_sum_nil add0r.
Qed.

Lemma ssp_eval_ok t : exists2 q, uscs_to_ssp_instance_map_with_evaluation D cs t = Ok q &
  [/\ [/\ pe_num_variables q = nv, pe_degree q = d_size D,
          pe_num_inputs q = u_num_inputs cs, pe_domain q = D & pe_t q = t],
      size (pe_Vt q) = nv.+1,
      pe_Ht q = powers (d_size D).+1 t,
      pe_Zt q = compute_vanishing_polynomial D t &
      forall k, (pe_Vt q)`_k = upd_sum (Lt D t) ssp_V k].
Proof.
rewrite /uscs_to_ssp_instance_map_with_evaluation.
set u := evaluate_all_lagrange_polynomials D t; set z := nseq _ 0.
have hu : size u = d_size D := size_all_lagrange D t.
have [|A hA [s1 k1]] := @eval_from_zero _ u nv.+1 ssp_V; first by rewrite hu upd_V.
rewrite -/z ofold_cat in hA; have [A1 hA1 {}hA] := obind_Ok hA.
by rewrite -[ssp_eval_updates cs]/(ssp_updates cs) hA1 obindE hA obindE; eexists; first by [].
Qed.

Lemma ssp_plain_ok : exists2 q, uscs_to_ssp_instance_map D cs = Ok q &
  [/\ [/\ p_num_variables q = nv, p_degree q = d_size D,
          p_num_inputs q = u_num_inputs cs & p_domain q = D],
      size (p_V q) = nv.+1,
      forall f k, (k < nv.+1)%N -> smap_val f (nth [::] (p_V q) k) = upd_sum f ssp_V k &
      forall k j, (k < nv.+1)%N -> j \in keys (nth [::] (p_V q) k) -> has (fun e => e.1.2 == j) ssp_V].
Proof.
rewrite /uscs_to_ssp_instance_map.
have [A eA [s1 v1 k1]] := lagrange_from_zero upd_V.
rewrite ofold_cat in eA; have [A1 eA1 {}eA] := obind_Ok eA.
by rewrite eA1 obindE eA obindE; eexists; first by [].
Qed.

Lemma ssp_instances_agree t : exists q qe,
  [/\ uscs_to_ssp_instance_map D cs = Ok q,
      uscs_to_ssp_instance_map_with_evaluation D cs t = Ok qe &
      forall w : ssp_witness F, ssp_is_satisfied q t w = Ok (ssp_eval_is_satisfied qe w)].
Proof.
have [q hq [[p1 p2 p3 p4] s1 hv hk]] := ssp_plain_ok.
have [qe hqe [[r1 r2 r3 r4 r5] z1 hH hZ hk']] := ssp_eval_ok t.
exists q, qe; split=> // w.
rewrite /ssp_is_satisfied p1 p2 p3 p4.
have hu := size_all_lagrange D t.
have e1 := @lagrange_pipeline _ (evaluate_all_lagrange_polynomials D t) (p_V q) ssp_V _ s1.
rewrite hu in e1; rewrite {}e1 ?upd_V //.
rewrite obindE; congr (Ok (ssp_eval_is_satisfied _ _)).
case: qe {hqe} r1 r2 r3 r4 r5 z1 hH hZ hk' => /= nv' m ni' D' t' Vt Ht Zt
  -> -> -> -> -> z1 -> -> hk'.
by congr SspEvaluation; apply: (@eq_from_nth _ 0); rewrite ?size_mkseq ?z1 // => i hi; rewrite nth_mkseq.
Qed.

Lemma ssp_accept t q (w : ssp_witness F) :
  uscs_to_ssp_instance_map_with_evaluation D cs t = Ok q ->
  let Z := vanishing (d_points D) in
  ssp_eval_is_satisfied q w =
  [&& pw_num_variables w == nv, pw_degree w == d_size D,
      pw_num_inputs w == u_num_inputs cs, size (pw_Vs w) == nv,
      size (pw_H w) == (d_size D).+1 &
      ((row_poly D ssp_V (pw_Vs w) + pw_d w *: Z) *
       (row_poly D ssp_V (pw_Vs w) + pw_d w *: Z) - 1).[t]
      == (Poly (pw_H w) * Z).[t]].
Proof.
move=> hq Z; have [q' hq' [[r1 r2 r3 r4 r5] z1 hH hZ hk']] := ssp_eval_ok t.
have e : q' = q by move: hq'; rewrite hq => -[].
subst q'; rewrite /ssp_eval_is_satisfied r1 r2 r3 r4 r5 z1 hH hZ.
rewrite size_powers; move eP: (powers _ t) => Pw.
rewrite [pw_num_variables w == _]eq_sym [pw_degree w == _]eq_sym [pw_num_inputs w == _]eq_sym.
rewrite [size (pw_Vs w) == _]eq_sym [size (pw_H w) == _]eq_sym.
case: eqP => //= h1; case: eqP => //= h2; case: eqP => //= h3; case: eqP => //= h4.
case: eqP => //= h5; rewrite !eqxx /= -eP.
rewrite add0r inner_powers //.
rewrite addrAC (@answer_poly _ D ssp_V _ _ t _ upd_V z1 (esym h4)) //.
rewrite hornerD hornerN !hornerM !hornerD !hornerZ hornerC /compute_vanishing_polynomial -/Z expr2.
by case: eqP.
Qed.

Lemma ssp_dvd w :
  (vanishing (d_points D) %| row_poly D ssp_V w * row_poly D ssp_V w - 1) <-> uscs_holds cs w.
Proof.
have hs := le_nc; rewrite dvd_values; split=> h.
  move=> c /(In_nth_seq [::]) [i hi <-].
  have hi' : (i < d_size D)%N := leq_trans hi hs.
  move: (h i hi'); rewrite hornerD hornerN hornerM hornerC !row_poly_nth // row_V hi => /eqP.
  by rewrite subr_eq0 => /eqP <-.
move=> i hi; rewrite hornerD hornerN hornerM hornerC !row_poly_nth // row_V hi.
case: ltnP => h2; last by rewrite mulr1 subrr.
by rewrite -expr2 (h _ (nth_In_seq [::] h2)) subrr.
Qed.

Lemma ssp_witness_V w : size w = nv ->
  (let! aA := ofold (fun v p => let! x := evaluate p.2 w in vec_add v (p.1, x))
               (nseq (d_size D) 0) (enum_from0 (u_constraints cs)) in
   ofold (fun v i => vec_add v (i, 1)) aA (iota nc (d_size D - nc)))
  = Ok (mkseq (row_sum ssp_V w) (d_size D)).
Proof.
move=> hw; have hs := le_nc.
pose g1 (p : nat * linear_combination F) := [:: (p.1, formal_sum p.2 w)].
pose g2 (i : nat) := [:: (i, 1 : F)].
rewrite (@vec_loop _ _ _ g1); last first.
  move=> v p /enum_In [_ hc]; rewrite evaluate_ok ?hw ?uscs_in //= /g1 /=.
  by case: (vec_add _ _).
transitivity (ofold (@vec_add F) (nseq (d_size D) 0)
    (flatten (map g1 (enum_from0 (u_constraints cs))) ++ flatten (map g2 (iota nc (d_size D - nc))))).
  rewrite ofold_cat; case: (ofold _ _ _) => // v; rewrite !obindE.
  by apply: vec_loop => v' i _ /=; case: (vec_add _ _).
rewrite vec_from_zero; last first.
  rewrite all_cat !all_flatten !all_map; apply/andP; split.
    apply/all_InP => p /enum_In [/andP [_ h] _] /=; rewrite andbT; exact: leq_trans h hs.
  apply/all_InP => i /In_iota; rewrite subnKC // => /andP [_ h] /=; by rewrite andbT.
congr Ok; apply: eq_mkseq => r; rewrite add_sum_cat row_sum_cat; congr (_ + _).
  apply: flat_agree => p _; rewrite /g1 add_sum_cons add_sum_nil addr0 /=.
  elim: p.2 => [|tm l IH] /=; first by rewrite formal_sum_nil row_sum_nil if_same.
  by rewrite row_sum_cons -IH formal_sum_cons /=; case: eqP => // _; rewrite addr0.
rewrite /dummy_updates; elim: (iota _ _) => [|i l IH] /=; first by rewrite add_sum_nil row_sum_nil.
by rewrite add_sum_cons row_sum_cons IH /= /xval /= mulr1.
Qed.

Lemma ssp_witness_map_ok p a d : uscs_is_satisfied cs p a = Ok true ->
  exists2 w : ssp_witness F, uscs_to_ssp_witness_map D cs p a d = Ok w &
  [/\ [/\ pw_num_variables w = nv, pw_degree w = d_size D,
          pw_num_inputs w = u_num_inputs cs & size (pw_Vs w) = nv],
      pw_d w = d /\ pw_Vs w = p ++ a,
      size (pw_H w) = (d_size D).+1 &
      let Z := vanishing (d_points D) in
      Poly (pw_H w) * Z =
      (row_poly D ssp_V (pw_Vs w) + d *: Z) * (row_poly D ssp_V (pw_Vs w) + d *: Z) - 1].
Proof.
move=> hsat; have [hp ha _ hh] := uscs_is_satisfied_true hsat.
have hn : size (p ++ a) = nv by rewrite size_cat hp ha.
rewrite /uscs_to_ssp_witness_map hsat obindE oassertT -/nc le_nc oassertT.
set W := p ++ a in hh hn *.
have hA := ssp_witness_V hn; have [A1 eA1 {}hA] := obind_Ok hA.
rewrite eA1 obindE hA obindE; set Hl := add_first_m _ _ _.
have [sH pH] : size Hl = (d_size D).+1 /\ Poly Hl * vanishing (d_points D) =
    row_poly D ssp_V W * row_poly D ssp_V W - 1
    + ((2%:R * d) *: row_poly D ssp_V W + (d * d) *: vanishing (d_points D)) * vanishing (d_points D).
  apply: H_poly; rewrite ?size_row_poly ?ssp_dvd //.
  - by rewrite size_poly1; case/andP: hm.
  - by rewrite size_add_poly_Z ?size_patch.
  - rewrite Poly_add_poly_Z ?size_patch // expr2; congr (_ + _).
    apply: patch_poly.
      by rewrite (leq_trans (size_scale_leq _ _)) // size_row_poly.
    by move=> i hi; rewrite coefZ /iFFT !nth_coeffs.
  - by rewrite size_mkseq.
  - move=> i hi; rewrite nth_mkseq // hornerD hornerN hornerM hornerC.
    by rewrite /iFFT !coset_value // ?size_row_poly // expr2.
clearbody Hl; eexists; first by []; split=> //.
rewrite pH /= -!mul_polyC !polyCM -ssp_identity.
by rewrite -[(1 + 1 : {poly F})]polyCD.
Qed.

Theorem ssp_complete p a d t : uscs_is_satisfied cs p a = Ok true ->
  exists (w : ssp_witness F) q qe,
  [/\ uscs_to_ssp_witness_map D cs p a d = Ok w,
      uscs_to_ssp_instance_map D cs = Ok q,
      uscs_to_ssp_instance_map_with_evaluation D cs t = Ok qe,
      ssp_is_satisfied q t w = Ok true & ssp_eval_is_satisfied qe w].
Proof.
move=> hsat; have [w hw [[w1 w2 w3 w4] [w5 w6] sH pH]] := ssp_witness_map_ok d hsat.
have [q [qe [h1 h2 h3]]] := ssp_instances_agree t.
have hacc : ssp_eval_is_satisfied qe w.
  by rewrite (ssp_accept _ h2) w1 w2 w3 w4 w5 sH pH !eqxx.
by exists w, q, qe; split=> //; rewrite h3 hacc.
Qed.

Theorem ssp_sound_many (w : ssp_witness F) ts : uniq ts -> (2 * d_size D < size ts)%N ->
  (forall t, t \in ts -> exists2 qe, uscs_to_ssp_instance_map_with_evaluation D cs t = Ok qe &
                         ssp_eval_is_satisfied qe w) ->
  size (pw_Vs w) = nv /\ uscs_holds cs (pw_Vs w).
Proof.
move=> hu hs hacc.
pose Z := vanishing (d_points D).
pose A := row_poly D ssp_V (pw_Vs w).
have hacc' : forall t, t \in ts ->
  [&& pw_num_variables w == nv, pw_degree w == d_size D,
      pw_num_inputs w == u_num_inputs cs, size (pw_Vs w) == nv,
      size (pw_H w) == (d_size D).+1 &
      ((A + pw_d w *: Z) * (A + pw_d w *: Z) - 1).[t] == (Poly (pw_H w) * Z).[t]].
  by move=> t /hacc [qe hq]; rewrite (ssp_accept _ hq).
have [t0 ht0] : exists t, t \in ts by case: (ts) hs => // t l _; exists t; rewrite inE eqxx.
have /and5P [_ _ _ /eqP hn /andP [/eqP hH _]] := hacc' _ ht0.
split=> //; rewrite -ssp_dvd.
have s1 : (size (1%R : {poly F}) <= (2 * d_size D).+1)%N by rewrite size_poly1.
have hid := @many_points _ _ _ ts (2 * d_size D).+1 hu hs
  (size_sub_bound (size_mul_bound (size_shifted D ssp_V (pw_Vs w) (pw_d w))
                                  (size_shifted D ssp_V (pw_Vs w) (pw_d w))) s1) (size_HZ hH).
have : all (fun t => ((A + pw_d w *: Z) * (A + pw_d w *: Z) - 1).[t]
                     == (Poly (pw_H w) * Z).[t]) ts.
  by apply/allP => t /hacc' /and5P [_ _ _ _ /andP [_ ->]].
move/hid; rewrite -!mul_polyC -ssp_identity -/A -/Z => e.
have -> : A * A - 1 = (Poly (pw_H w) - ((1 + 1) * (pw_d w)%:P * A + (pw_d w)%:P * (pw_d w)%:P * Z)) * Z.
  by rewrite mulrBl -e addrK.
exact: dvdp_mull.
Qed.

(** ** Independent form of divisibility *)
Lemma ssp_divisible_iff x : size x = nv -> ssp_divisible D cs x <-> uscs_holds cs x.
Proof.
move=> hx; rewrite -ssp_dvd.
pose col t cols := exists2 qe : ssp_evaluation F,
  uscs_to_ssp_instance_map_with_evaluation D cs t = Ok qe & cols = pe_Vt qe :> seq F.
have ex : forall t, exists cols, col t cols.
  by move=> t; have [qe h _] := ssp_eval_ok t; exists (pe_Vt qe), qe.
have cV : combined_polynomial D col x (row_poly D ssp_V x).
  apply: combined_row_poly upd_V _ hx => t cols [qe hq ->].
  have [qe' + [_ s1 _ _ hk]] := ssp_eval_ok t; rewrite hq => -[e]; subst qe'.
  by split=> // k; case: (hk k).
split; last by exists (row_poly D ssp_V x).
by case=> V [hV]; rewrite (combined_unique ex cV hV).
Qed.

Lemma ssp_columns t : exists q qe,
  [/\ uscs_to_ssp_instance_map D cs = Ok q,
      uscs_to_ssp_instance_map_with_evaluation D cs t = Ok qe,
      (forall k P, (k <= nv)%N ->
        column_polynomial D (nth [::] (p_V q) k) P -> (pe_Vt qe)`_k = P.[t]),
      (forall i, (i <= d_size D)%N -> (pe_Ht qe)`_i = t ^+ i) /\ pe_Zt qe = (vanishing (d_points D)).[t] &
      forall w : ssp_witness F, ssp_is_satisfied q t w = Ok (ssp_eval_is_satisfied qe w)].
Proof.
have [q [qe [h1 h2 h3]]] := ssp_instances_agree t; exists q, qe; split=> //.
- move=> k P hk [hs hp].
  have [q' + [_ _ hv _]] := ssp_plain_ok; rewrite h1 => -[e]; subst q'.
  have [qe' + [_ _ _ _ hk']] := ssp_eval_ok t; rewrite h2 => -[e]; subst qe'.
  by rewrite hk'; apply: column_poly upd_V _ hs hp => f; rewrite hv.
- have [qe' + [_ _ hH hZ _]] := ssp_eval_ok t; rewrite h2 => -[e]; subst qe'.
  by split=> // i hi; rewrite hH powersE.
Qed.

End Instance.
(** ** Final forms *)
Theorem ssp_completeness D cs p a d :
  ssp_large D cs -> uscs_is_satisfied cs p a = Ok true ->
  exists2 w : ssp_witness F,
    uscs_to_ssp_witness_map D cs p a d = Ok w &
    [/\ pw_Vs w = p ++ a, size (pw_H w) = (d_size D).+1, pw_d w = d &
        forall t, exists q qe,
          [/\ uscs_to_ssp_instance_map D cs = Ok q,
              uscs_to_ssp_instance_map_with_evaluation D cs t = Ok qe,
              ssp_is_satisfied q t w = Ok true & ssp_eval_is_satisfied qe w]].
Proof.
move=> hm hsat; have [hp ha hr _] := uscs_is_satisfied_true hsat.
have [w hw [_ [w5 w6] sH _]] := ssp_witness_map_ok hr hm d hsat.
exists w => //; split=> // t.
have [w' [q [qe [+ h2 h3 h4 h5]]]] := ssp_complete hr hm d t hsat.
by rewrite hw => -[e]; subst w'; exists q, qe.
Qed.

Theorem ssp_soundness D cs p a (w : ssp_witness F) ts :
  ssp_large D cs -> uscs_in_range cs -> ~ uscs_holds cs (p ++ a) ->
  pw_Vs w = p ++ a -> uniq ts ->
  (forall t, t \in ts ->
     (exists2 qe, uscs_to_ssp_instance_map_with_evaluation D cs t = Ok qe & ssp_eval_is_satisfied qe w) \/
     (exists2 q, uscs_to_ssp_instance_map D cs = Ok q & ssp_is_satisfied q t w = Ok true)) ->
  (size ts <= 2 * d_size D)%N.
Proof.
move=> hm hr hn hw hu hts; rewrite leqNgt; apply/negP => hs; apply: hn.
rewrite -hw; apply: (proj2 (ssp_sound_many hr hm hu hs _)) => t /hts.
have [q [qe [h1 h2 h3]]] := ssp_instances_agree hr hm t.
case=> -[q' hq' hacc]; first by exists q'.
by move: hq'; rewrite h1 => -[e]; subst q'; exists qe => //; move: hacc; rewrite h3 => -[->].
Qed.

End SspFacts.
