(** Proofs about the R1CS-to-SAP reduction. *)
From mathcomp Require Import all_ssreflect all_algebra.
From mathcomp Require Import zify.
From Verif Require Import Outcome Lincomb LincombSpec LincombFacts R1CS R1CSSpec R1CSFacts
  Domain DomainFacts ArithPrograms ArithSpec ArithFacts QapFacts Fieldtac.
Set Implicit Arguments.
Unset Strict Implicit.
Unset Printing Implicit Defensive.
Import GRing.Theory.
Local Open Scope ring_scope.

Section SapIdentities.
Variable R : comRingType.
Add Ring Rr2 : (Rth R).
Lemma sap_identity (A C Z e g : R) :
  A * A - C + (e * A + e * A - g + e * e * Z) * Z = (A + e * Z) * (A + e * Z) - (C + g * Z).
Proof. cring R. Qed.
Lemma square_trick (a b : R) :
  (a + b) * (a + b) - (a - b) * (a - b) = (a * b + a * b) + (a * b + a * b).
Proof. cring R. Qed.
Lemma square_trick1 (x : R) :
  (x + 1) * (x + 1) = (x + x) + (x + x) + (x - 1) * (x - 1).
Proof. cring R. Qed.
End SapIdentities.

Section SapFacts.
Variable F : fieldType.
Implicit Types (D : evaluation_domain F) (cs : r1cs F) (w W : seq F) (t : F).
Local Notation no_constraint := (@no_constraint F).

Lemma times_fourE (x y : F) : times_four x * y = times_four (x * y).
Proof. by rewrite /times_four !mulrDl. Qed.

Lemma times_fourD (x y : F) : times_four (x + y) = times_four x + times_four y.
Proof. by rewrite /times_four [RHS]addrACA; congr (_ + _); rewrite addrACA. Qed.

(** Enough rows. *)
Definition sap_large D cs : bool := (2 * num_constraints cs + 2 * num_inputs cs + 1 <= d_size D)%N.

Definition sap_A cs := sap_A_updates cs ++ (0%N, (2 * num_constraints cs)%N, 1) :: sap_A_input_updates cs.
Definition sap_C cs := sap_C_updates cs ++ (0%N, (2 * num_constraints cs)%N, 1) :: sap_C_input_updates cs.

(** ** The updates stay in range *)

Lemma upd_in_flatten (X : Type) nv m (f : X -> seq (update F)) (s : seq X) :
  (forall x, List.In x s -> upd_in nv m (f x)) -> upd_in nv m (flatten (map f s)).
Proof.
by move=> h; rewrite /upd_in all_flatten all_map; apply/all_InP => x /h.
Qed.

Lemma all_consE (X : Type) (P : pred X) x l : all P (x :: l) = P x && all P l.
Proof. by []. Qed.

Lemma upd_in_cons nv m (e : update F) l :
  upd_in nv m (e :: l) = [&& (e.1.1 < nv)%N, (e.1.2 < m)%N & upd_in nv m l].
Proof. by rewrite /upd_in /= -andbA. Qed.

Lemma in_range_In n (l : linear_combination F) tm : in_range n l -> List.In tm l -> (lt_index tm <= n)%N.
Proof. by move=> /all_InP h /h. Qed.

Section Instance.
Variables (D : evaluation_domain F) (cs : r1cs F).
Hypothesis hr : r1cs_in_range cs.
Hypothesis hm : sap_large D cs.
Let nc := num_constraints cs.
Let ni := num_inputs cs.
Let nv := num_variables cs.

Lemma hsize : (2 * nc + 2 * ni < d_size D)%N.
Proof. by move: hm; rewrite /sap_large addn1. Qed.

Lemma le_ni : (ni <= nv)%N. Proof. exact: num_inputs_le. Qed.

Lemma enum_lt p : List.In p (enum_from0 (constraints cs)) -> (p.1 < nc)%N.
Proof. by case/enum_In => /andP [_]. Qed.

Lemma In_iota i a n : List.In i (iota a n) -> (a <= i < a + n)%N.
Proof. by move=> h; rewrite -mem_iota; elim: (iota a n) h => [|x s IH] //= [->|/IH h]; rewrite inE ?eqxx // h orbT. Qed.

Lemma upd_sap_A : upd_in (sap_num_vars cs).+1 (d_size D) (sap_A cs).
Proof.
have hs := hsize; have hn := le_ni.
rewrite upd_in_cat; apply/andP; split.
  apply: upd_in_flatten => p hp; have hp1 := enum_lt hp; case/enum_In: hp => _ hp2.
  have [ha hb _] := constraints_in_range hr hp2.
  rewrite upd_in_cat; apply/andP; split; apply: upd_in_flatten => tm htm /=;
   [have := in_range_In ha htm|have := in_range_In hb htm];
   by rewrite /sap_num_vars /= -/nv -/nc -/ni; move: (lt_index tm) => j hj; lia.
rewrite upd_in_cons; apply/and3P; split=> //; first by rewrite /= -/nc; lia.
apply: upd_in_flatten => i /In_iota; rewrite -/ni => hi; rewrite /upd_in /= /sap_num_vars -/nv -/nc -/ni; lia.
Qed.

Lemma upd_sap_C : upd_in (sap_num_vars cs).+1 (d_size D) (sap_C cs).
Proof.
have hs := hsize; have hn := le_ni.
rewrite upd_in_cat; apply/andP; split.
  apply: upd_in_flatten => p hp; have hp1 := enum_lt hp; case/enum_In: hp => _ hp2.
  have [_ _ hc] := constraints_in_range hr hp2.
  rewrite upd_in_cat; apply/andP; split; last first.
    by rewrite /upd_in /= /sap_num_vars -/nv -/nc -/ni; lia.
  rewrite /upd_in all_map; apply/all_InP => tm htm /=; have := in_range_In hc htm.
  by rewrite /sap_num_vars -/nv -/nc -/ni; move: (lt_index tm) => j hj; lia.
rewrite upd_in_cons; apply/and3P; split=> //; first by rewrite /= -/nc; lia.
apply: upd_in_flatten => i /In_iota; rewrite -/ni => hi; rewrite /upd_in /= /sap_num_vars -/nv -/nc -/ni; lia.
Qed.

(** ** Instance maps *)

Lemma sap_eval_ok t : exists2 q, r1cs_to_sap_instance_map_with_evaluation D cs t = Ok q &
  [/\ [/\ se_num_variables q = sap_num_vars cs, se_degree q = d_size D,
          se_num_inputs q = num_inputs cs, se_domain q = D & se_t q = t],
      size (se_At q) = (sap_num_vars cs).+1 /\ size (se_Ct q) = (sap_num_vars cs).+1,
      se_Ht q = powers (d_size D).+1 t,
      se_Zt q = compute_vanishing_polynomial D t &
      forall k, (se_At q)`_k = upd_sum (Lt D t) (sap_A cs) k /\
                (se_Ct q)`_k = upd_sum (Lt D t) (sap_C cs) k].
Proof.
rewrite /r1cs_to_sap_instance_map_with_evaluation.
set u := evaluate_all_lagrange_polynomials D t; set z := nseq _ 0.
have hu : size u = d_size D := size_all_lagrange D t.
have [|A hA [s1 k1]] := @eval_from_zero _ u (sap_num_vars cs).+1 (sap_A cs).
  by rewrite hu upd_sap_A.
have [|C hC [s2 k2]] := @eval_from_zero _ u (sap_num_vars cs).+1 (sap_C cs).
  by rewrite hu upd_sap_C.
rewrite -/z ofold_cat in hA; rewrite -/z ofold_cat in hC.
rewrite -[sap_eval_A_updates cs]/(sap_A_updates cs) -[sap_eval_C_updates cs]/(sap_C_updates cs).
rewrite -[sap_eval_A_input_updates cs]/(sap_A_input_updates cs) -[sap_eval_C_input_updates cs]/(sap_C_input_updates cs).
have [A1 hA1 {}hA] := obind_Ok hA; have [C1 hC1 {}hC] := obind_Ok hC.
rewrite ofold_cons in hA; rewrite ofold_cons in hC.
have [A2 hA2 {}hA] := obind_Ok hA; have [C2 hC2 {}hC] := obind_Ok hC.
rewrite hA1 obindE hC1 obindE hA2 obindE hC2 obindE hA obindE hC obindE.
by eexists; first by []; split=> // k; rewrite k1 k2.
Qed.

Lemma off_fresh (P : seq (smap F)) (l : seq (update F)) n :
  (0 < n)%N -> (forall k j, (k < n)%N -> j \in keys (nth [::] P k) -> has (fun e => e.1.2 == j) l) ->
  all (fun e => e.1.2 < 2 * nc)%N l -> (2 * nc)%N \notin keys (nth [::] P 0).
Proof.
move=> hn h /allP hl; apply/negP => /(h _ _ hn) /hasP [e /hl].
by move=> h1 /eqP h2; rewrite h2 ltnn in h1.
Qed.

Lemma rows_A : all (fun e : update F => e.1.2 < 2 * nc)%N (sap_A_updates cs).
Proof.
rewrite all_flatten all_map; apply/all_InP => p /enum_lt hp /=.
rewrite all_cat !all_flatten !all_map.
by apply/andP; split; apply/all_InP => tm _ /=; lia.
Qed.
Lemma rows_C : all (fun e : update F => e.1.2 < 2 * nc)%N (sap_C_updates cs).
Proof.
rewrite all_flatten all_map; apply/all_InP => p /enum_lt hp /=.
rewrite all_cat all_map /=; apply/andP; split; last by lia.
by apply/all_InP => tm _ /=; lia.
Qed.

Lemma sap_plain_ok : exists2 q, r1cs_to_sap_instance_map D cs = Ok q &
  [/\ [/\ s_num_variables q = sap_num_vars cs, s_degree q = d_size D,
          s_num_inputs q = num_inputs cs & s_domain q = D],
      size (s_A q) = (sap_num_vars cs).+1 /\ size (s_C q) = (sap_num_vars cs).+1,
      forall f k, (k < (sap_num_vars cs).+1)%N ->
        smap_val f (nth [::] (s_A q) k) = upd_sum f (sap_A cs) k /\
        smap_val f (nth [::] (s_C q) k) = upd_sum f (sap_C cs) k &
      forall k j, (k < (sap_num_vars cs).+1)%N ->
        (j \in keys (nth [::] (s_A q) k) -> has (fun e => e.1.2 == j) (sap_A cs)) /\
        (j \in keys (nth [::] (s_C q) k) -> has (fun e => e.1.2 == j) (sap_C cs))].
Proof.
rewrite /r1cs_to_sap_instance_map.
have hA := upd_sap_A; have hC := upd_sap_C.
have [A eA [s1 v1 k1]] := lagrange_from_zero hA.
have [C eC [s2 v2 k2]] := lagrange_from_zero hC.
rewrite upd_in_cat in hA; case/andP: hA => hA _.
rewrite upd_in_cat in hC; case/andP: hC => hC _.
have [A1 eA1 [_ _ fA]] := lagrange_from_zero hA.
have [C1 eC1 [_ _ fC]] := lagrange_from_zero hC.
move: eA eC; rewrite !ofold_cat eA1 eC1 !obindE.
rewrite !ofold_cons => eA eC.
rewrite !lagrange_set_fresh; first last.
- exact: (off_fresh _ fA rows_A).
- exact: (off_fresh _ fC rows_C).
have [A2 eA2 {}eA] := obind_Ok eA; have [C2 eC2 {}eC] := obind_Ok eC.
rewrite eA2 obindE eC2 obindE eA obindE eC obindE.
eexists; first by []; split=> //= [f k hk|k j hk]; first by rewrite v1 ?v2.
by split; [apply: k1 | apply: k2].
Qed.

Lemma sap_instances_agree t : exists q qe,
  [/\ r1cs_to_sap_instance_map D cs = Ok q,
      r1cs_to_sap_instance_map_with_evaluation D cs t = Ok qe &
      forall w : sap_witness F, sap_is_satisfied q t w = Ok (sap_eval_is_satisfied qe w)].
Proof.
have [q hq [[p1 p2 p3 p4] [s1 s2] hv hk]] := sap_plain_ok.
have [qe hqe [[r1 r2 r3 r4 r5] [z1 z2] hH hZ hk']] := sap_eval_ok t.
exists q, qe; split=> // w.
rewrite /sap_is_satisfied p1 p2 p3 p4.
have hu := size_all_lagrange D t.
have e1 := @lagrange_pipeline _ (evaluate_all_lagrange_polynomials D t) (s_A q) (sap_A cs) _ s1.
have e2 := @lagrange_pipeline _ (evaluate_all_lagrange_polynomials D t) (s_C q) (sap_C cs) _ s2.
rewrite hu in e1 e2; rewrite {}e1 ?upd_sap_A //; first last.
- by move=> k j hj; case: (hk k j hj).
- by move=> f k /(hv f) [].
rewrite obindE {}e2 ?upd_sap_C //; first last.
- by move=> k j hj; case: (hk k j hj).
- by move=> f k /(hv f) [].
rewrite obindE; congr (Ok (sap_eval_is_satisfied _ _)).
case: qe {hqe} r1 r2 r3 r4 r5 z1 z2 hH hZ hk' => /= nv' m ni' D' t' At Ct Ht Zt
  -> -> -> -> -> z1 z2 -> -> hk'.
congr SapEvaluation; apply: (@eq_from_nth _ 0); rewrite ?size_mkseq ?z1 ?z2 // => i hi;
  rewrite nth_mkseq //; by case: (hk' i).
Qed.

Lemma sap_accept t q (w : sap_witness F) :
  r1cs_to_sap_instance_map_with_evaluation D cs t = Ok q ->
  let Z := vanishing (d_points D) in
  sap_eval_is_satisfied q w =
  [&& sw_num_variables w == sap_num_vars cs, sw_degree w == d_size D,
      sw_num_inputs w == num_inputs cs, size (sw_ACs w) == sap_num_vars cs,
      size (sw_H w) == (d_size D).+1 &
      ((row_poly D (sap_A cs) (sw_ACs w) + sw_d1 w *: Z) *
       (row_poly D (sap_A cs) (sw_ACs w) + sw_d1 w *: Z) -
       (row_poly D (sap_C cs) (sw_ACs w) + sw_d2 w *: Z)).[t]
      == (Poly (sw_H w) * Z).[t]].
Proof.
move=> hq Z; have [q' hq' [[r1 r2 r3 r4 r5] [z1 z2] hH hZ hk']] := sap_eval_ok t.
have e : q' = q by move: hq'; rewrite hq => -[].
subst q'; rewrite /sap_eval_is_satisfied r1 r2 r3 r4 r5 z1 z2 hH hZ.
rewrite size_powers; move eP: (powers _ t) => Pw.
rewrite [sw_num_variables w == _]eq_sym [sw_degree w == _]eq_sym [sw_num_inputs w == _]eq_sym.
rewrite [size (sw_ACs w) == _]eq_sym [size (sw_H w) == _]eq_sym.
case: eqP => //= h1; case: eqP => //= h2; case: eqP => //= h3; case: eqP => //= h4.
case: eqP => //= h5; rewrite !eqxx /= -eP.
rewrite add0r inner_powers //.
rewrite addrAC (@answer_poly _ D (sap_A cs) _ _ t _ upd_sap_A z1 (esym h4)); last by move=> k _; case: (hk' k).
rewrite [_ + _ + inner (behead (se_Ct q)) _]addrAC.
rewrite (@answer_poly _ D (sap_C cs) _ _ t _ upd_sap_C z2 (esym h4)); last by move=> k _; case: (hk' k).
rewrite hornerD hornerN !hornerM !hornerD !hornerZ /compute_vanishing_polynomial -/Z.
by case: eqP.
Qed.

(** ** Row values *)

Definition con i := nth no_constraint (constraints cs) i.

Lemma row_pair (l : linear_combination F) W r i (g : bool -> F -> F) :
  (forall b x y, g b (x + y) = g b x + g b y) -> (forall b, g b 0 = 0) ->
  (forall b x y, g b x * y = g b (x * y)) ->
  row_sum (flatten [seq [:: (lt_index tm, (2 * i)%N, g false (lt_coeff tm));
                            (lt_index tm, (2 * i + 1)%N, g true (lt_coeff tm))] | tm <- l]) W r =
  if (r./2 == i)%N then g (odd r) (formal_sum l W) else 0.
Proof.
move=> gD g0 gM; elim: l => [|tm l IH] /=; first by rewrite row_sum_nil formal_sum_nil g0 if_same.
rewrite !row_sum_cons IH /= formal_sum_cons gD -!gM.
have [-> | hr'] := eqVneq r (2 * i)%N.
  have -> : ((2 * i)./2 = i)%N by lia.
  have -> : odd (2 * i) = false by lia.
  have -> : (2 * i + 1 == 2 * i)%N = false by lia.
  by rewrite !eqxx add0r.
have [-> | hr2] := eqVneq r (2 * i + 1)%N.
  have -> : ((2 * i + 1)./2 = i)%N by lia.
  have -> : odd (2 * i + 1) = true by lia.
  by rewrite !eqxx add0r.
have -> : (r./2 == i) = false by lia.
by rewrite !add0r.
Qed.

Let off := (2 * nc)%N.
Definition inp r := ((r - off).+1)./2.

Definition SA W r : F :=
  if (r./2 < nc)%N then formal_sum (c_a (con r./2)) W +
    (if odd r then - formal_sum (c_b (con r./2)) W else formal_sum (c_b (con r./2)) W)
  else if r == off then 1
  else if (inp r <= ni)%N then xval W (inp r) + (if odd (r - off) then 1 else - 1)
  else 0.
Definition SC W r : F :=
  if (r./2 < nc)%N then (if odd r then 0 else times_four (formal_sum (c_c (con r./2)) W)) +
    xval W (nv + 1 + r./2)
  else if r == off then 1
  else if (inp r <= ni)%N then (if odd (r - off) then times_four (xval W (inp r)) else 0) +
    xval W (nv + nc + inp r)
  else 0.

Lemma row_A_con W r : row_sum (sap_A_updates cs) W r =
  if (r./2 < nc)%N then formal_sum (c_a (con r./2)) W +
    (if odd r then - formal_sum (c_b (con r./2)) W else formal_sum (c_b (con r./2)) W)
  else 0.
Proof.
rewrite /sap_A_updates (enum_iota no_constraint).
have H : forall i, row_sum
   (flatten [seq [:: (lt_index tm, (2 * i)%N, lt_coeff tm);
                      (lt_index tm, (2 * i + 1)%N, lt_coeff tm)] | tm <- c_a (con i)] ++
     flatten [seq [:: (lt_index tm, (2 * i)%N, lt_coeff tm);
                      (lt_index tm, (2 * i + 1)%N, - lt_coeff tm)] | tm <- c_b (con i)]) W r =
   if r./2 == i then formal_sum (c_a (con i)) W +
    (if odd r then - formal_sum (c_b (con i)) W else formal_sum (c_b (con i)) W) else 0.
  move=> i; rewrite row_sum_cat.
  rewrite (@row_pair (c_a (con i)) W r i (fun _ x => x)) //.
  rewrite (@row_pair (c_b (con i)) W r i (fun b x => if b then - x else x)).
  - by case: eqP => // _; rewrite addr0.
  - by move=> [] x y //; rewrite opprD.
  - by case; rewrite ?oppr0.
  - by move=> [] x y; rewrite ?mulNr.
rewrite (@additive_flat F _ (fun l => row_sum l W r) _ 0 nc r./2) /=.
- by rewrite add0n H eqxx.
- by move=> l l'; apply: row_sum_cat.
- exact: row_sum_nil.
- by move=> i hi; rewrite H; case: eqP hi => // -> [].
Qed.

Lemma row_C_con W r : row_sum (sap_C_updates cs) W r =
  if (r./2 < nc)%N then (if odd r then 0 else times_four (formal_sum (c_c (con r./2)) W)) +
    xval W (nv + 1 + r./2)
  else 0.
Proof.
rewrite /sap_C_updates (enum_iota no_constraint).
have H : forall i, row_sum
     ([seq (lt_index tm, (2 * i)%N, times_four (lt_coeff tm)) | tm <- c_c (con i)] ++
     [:: ((nv + 1 + i)%N, (2 * i)%N, 1);
         ((nv + 1 + i)%N, (2 * i + 1)%N, 1)]) W r =
   if r./2 == i then (if odd r then 0 else times_four (formal_sum (c_c (con i)) W)) +
    xval W (nv + 1 + i) else 0.
  move=> i; rewrite row_sum_cat !row_sum_cons row_sum_nil addr0 /= !mul1r.
  have -> : row_sum [seq (lt_index tm, (2 * i)%N, times_four (lt_coeff tm)) | tm <- c_c (con i)] W r =
     if (2 * i == r)%N then times_four (formal_sum (c_c (con i)) W) else 0.
    elim: (c_c (con i)) => [|tm l IH] /=.
      by rewrite row_sum_nil formal_sum_nil /times_four !addr0 if_same.
    rewrite row_sum_cons IH /= formal_sum_cons; case: eqP => _; last by rewrite addr0.
    by rewrite times_fourE /times_four addrACA; congr (_ + _); rewrite addrACA.
  have [-> | hr'] := eqVneq r (2 * i)%N.
    have -> : ((2 * i)./2 = i)%N by lia.
    have -> : odd (2 * i) = false by lia.
    have -> : (2 * i + 1 == 2 * i)%N = false by lia.
    by rewrite !eqxx addr0.
    have [-> | hr2] := eqVneq r (2 * i + 1)%N.
    have -> : ((2 * i + 1)./2 = i)%N by lia.
    have -> : odd (2 * i + 1) = true by lia.
    by rewrite !eqxx add0r.
  have -> : (r./2 == i) = false by lia.
  by rewrite !add0r.
rewrite (@additive_flat F _ (fun l => row_sum l W r) _ 0 nc r./2) /=.
- by rewrite add0n H eqxx.
- by move=> l l'; apply: row_sum_cat.
- exact: row_sum_nil.
- by move=> i hi; rewrite H; case: eqP hi => // -> [].
Qed.

Lemma row_A_inp W r : row_sum (sap_A_input_updates cs) W r =
  if (off < r)%N && (inp r <= ni)%N then xval W (inp r) + (if odd (r - off) then 1 else - 1) else 0.
Proof.
rewrite /sap_A_input_updates.
have H : forall i, row_sum [:: (i, (off + 2 * i - 1)%N, 1); (0%N, (off + 2 * i - 1)%N, 1);
                   (i, (off + 2 * i)%N, 1); (0%N, (off + 2 * i)%N, - 1)] W r =
   if (r == off + 2 * i - 1)%N then
     if (r == off + 2 * i)%N then xval W i + 1 + (xval W i - 1) else xval W i + 1 
   else if (r == off + 2 * i)%N then xval W i - 1 else 0.
  move=> i; rewrite !row_sum_cons row_sum_nil addr0 /= !mul1r mulr1.
  rewrite [(off + 2 * i - 1 == r)%N]eq_sym [(off + 2 * i == r)%N]eq_sym.
  case: (r == off + 2 * i - 1)%N; case: (r == off + 2 * i)%N; rewrite ?addr0 ?add0r //.
  by rewrite !addrA.
rewrite (@additive_flat F _ (fun l => row_sum l W r) _ 1 ni (inp r)).
- rewrite H /inp add1n ltnS -/off; case: (ltnP off r) => hr'; last first.
    by have -> : (r - off = 0)%N by lia.
  have -> : (0 < (r - off).+1./2)%N by lia.
  rewrite !andTb; case: ifP => // _.
  case: (boolP (odd (r - off))) => ho.
    have -> : (r == off + 2 * (r - off).+1./2 - 1)%N by lia.
    by have -> : (r == off + 2 * (r - off).+1./2)%N = false by lia.
  have -> : (r == off + 2 * (r - off).+1./2 - 1)%N = false by lia.
  by have -> : (r == off + 2 * (r - off).+1./2)%N by lia.
- by move=> l l'; apply: row_sum_cat.
- exact: row_sum_nil.
- rewrite /inp => i hi; rewrite H.
  by case: eqP => h1; case: eqP => h2 //; lia.
Qed.

Lemma row_C_inp W r : row_sum (sap_C_input_updates cs) W r =
  if (off < r)%N && (inp r <= ni)%N then (if odd (r - off) then times_four (xval W (inp r)) else 0) +
    xval W (nv + nc + inp r) else 0.
Proof.
rewrite /sap_C_input_updates.
have H : forall i, row_sum [:: (i, (off + 2 * i - 1)%N, times_four 1);
                   ((nv + nc + i)%N, (off + 2 * i - 1)%N, 1);
                   ((nv + nc + i)%N, (off + 2 * i)%N, 1)] W r =
   if (r == off + 2 * i - 1)%N then
     if (r == off + 2 * i)%N then times_four (xval W i) + xval W (nv + nc + i) + xval W (nv + nc + i)
     else times_four (xval W i) + xval W (nv + nc + i)
   else if (r == off + 2 * i)%N then xval W (nv + nc + i) else 0.
  move=> i; rewrite !row_sum_cons row_sum_nil addr0 /= !times_fourE !mul1r.
  rewrite [(off + 2 * i - 1 == r)%N]eq_sym [(off + 2 * i == r)%N]eq_sym.
  case: (r == off + 2 * i - 1)%N; case: (r == off + 2 * i)%N; rewrite ?addr0 ?add0r //.
  by rewrite !addrA.
rewrite (@additive_flat F _ (fun l => row_sum l W r) _ 1 ni (inp r)).
- rewrite H /inp add1n ltnS -/off; case: (ltnP off r) => hr'; last first.
    by have -> : (r - off = 0)%N by lia.
  have -> : (0 < (r - off).+1./2)%N by lia.
  rewrite !andTb; case: ifP => // _.
  case: (boolP (odd (r - off))) => ho.
    have -> : (r == off + 2 * (r - off).+1./2 - 1)%N by lia.
    by have -> : (r == off + 2 * (r - off).+1./2)%N = false by lia.
  have -> : (r == off + 2 * (r - off).+1./2 - 1)%N = false by lia.
  have -> : (r == off + 2 * (r - off).+1./2)%N by lia.
  by rewrite add0r.
- by move=> l l'; apply: row_sum_cat.
- exact: row_sum_nil.
- rewrite /inp => i hi; rewrite H.
  by case: eqP => h1; case: eqP => h2 //; lia.
Qed.

Lemma row_A W r : row_sum (sap_A cs) W r = SA W r.
Proof.
rewrite row_sum_cat row_sum_cons row_A_con row_A_inp /SA /= mulr1 -/nc -/off.
rewrite [off == r]eq_sym; have [hr1|hr1] := ltnP r./2 nc.
  have -> : (r == off) = false by rewrite /off; lia.
  have -> : (off < r)%N = false by rewrite /off; lia.
  by rewrite /= !addr0.
rewrite add0r; have [->|hr2] := eqVneq r off; first by rewrite ltnn /= addr0.
have -> : (off < r)%N by move: hr2; rewrite /off; lia.
by rewrite add0r.
Qed.

Lemma row_C W r : row_sum (sap_C cs) W r = SC W r.
Proof.
rewrite row_sum_cat row_sum_cons row_C_con row_C_inp /SC /= mulr1 -/nc -/off.
rewrite [off == r]eq_sym; have [hr1|hr1] := ltnP r./2 nc.
  have -> : (r == off) = false by rewrite /off; lia.
  have -> : (off < r)%N = false by rewrite /off; lia.
  by rewrite /= !addr0.
rewrite add0r; have [->|hr2] := eqVneq r off; first by rewrite ltnn /= addr0.
have -> : (off < r)%N by move: hr2; rewrite /off; lia.
by rewrite add0r.
Qed.

(** ** What divisibility means for an assignment of the SAP *)

Lemma sap_dvd W :
  (vanishing (d_points D) %| row_poly D (sap_A cs) W * row_poly D (sap_A cs) W - row_poly D (sap_C cs) W)
  <-> forall r, (r < d_size D)%N -> SA W r * SA W r = SC W r.
Proof.
rewrite dvd_values; split=> h r hr'.
  move: (h r hr'); rewrite hornerD hornerN hornerM !row_poly_nth // row_A row_C => /eqP.
  by rewrite subr_eq0 => /eqP.
by rewrite hornerD hornerN hornerM !row_poly_nth // row_A row_C h // subrr.
Qed.

Hypothesis char2 : 2%:R != 0 :> F.

Lemma times_four_inj : injective (@times_four F).
Proof.
have E x : @times_four F x = 2%:R * (2%:R * x).
  by rewrite /times_four mulrDl mul1r mulrDl mul1r.
by move=> x y; rewrite !E => /(mulfI char2) /(mulfI char2).
Qed.

Lemma sap_rows_sound W : (nv <= size W)%N ->
  (forall r, (r < d_size D)%N -> SA W r * SA W r = SC W r) -> r1cs_holds cs (take nv W).
Proof.
move=> hW h c /(In_nth_seq no_constraint) [i hi <-].
have hs := hsize; have {}hi : (i < nc)%N := hi.
have hi1 : (2 * i < d_size D)%N by lia.
have hi2 : (2 * i + 1 < d_size D)%N by lia.
have h1 := h (2 * i)%N; have h2 := h (2 * i + 1)%N.
move: h1 h2; rewrite /SA /SC.
have -> : ((2 * i)./2 = i)%N by lia.
have -> : odd (2 * i) = false by lia.
have -> : ((2 * i + 1)./2 = i)%N by lia.
have -> : odd (2 * i + 1) = true by lia.
rewrite hi => h1 h2.
have {}h1 := h1 hi1; have {}h2 := h2 hi2.
have := square_trick (formal_sum (c_a (con i)) W) (formal_sum (c_b (con i)) W).
rewrite h1 h2 add0r addrK => /times_four_inj e.
have [ra rb rc] := constraints_in_range hr (nth_In_seq no_constraint hi).
rewrite /constraint_holds -/(con i).
have E l : in_range nv l -> formal_sum l (take nv W) = formal_sum l W.
  by move=> hl; rewrite -{2}(cat_take_drop nv W) formal_sum_extend // size_takel.
by rewrite !E // -e.
Qed.

(** ** The extension computed by the witness map *)

Definition sap_ext w : seq F :=
  w ++ [seq (formal_sum (c_a c) w - formal_sum (c_b c) w) * (formal_sum (c_a c) w - formal_sum (c_b c) w)
       | c <- constraints cs]
    ++ [seq (xval w i - 1) * (xval w i - 1) | i <- iota 1 ni].

Lemma size_sap_ext w : size w = nv -> size (sap_ext w) = sap_num_vars cs.
Proof. clear char2. by move=> h; rewrite !size_cat !size_map size_iota h /sap_num_vars addnA. Qed.

Lemma sap_ext_sum w (l : linear_combination F) : size w = nv -> in_range nv l ->
  formal_sum l (sap_ext w) = formal_sum l w.
Proof. clear char2. by move=> hw hl; rewrite formal_sum_extend // hw. Qed.

Lemma sap_rows_complete w : size w = nv -> r1cs_holds cs w ->
  forall r, SA (sap_ext w) r * SA (sap_ext w) r = SC (sap_ext w) r.
Proof. clear char2.
move=> hw hh r; rewrite /SA /SC; case: (ltnP r./2 nc) => h1.
  have [ra rb rc] := constraints_in_range hr (nth_In_seq no_constraint h1).
  have hc := hh _ (nth_In_seq no_constraint h1).
  rewrite /con; set c := nth no_constraint _ _ in ra rb rc hc *.
  rewrite !sap_ext_sum //.
  have -> : xval (sap_ext w) (nv + 1 + r./2) =
     (formal_sum (c_a c) w - formal_sum (c_b c) w) * (formal_sum (c_a c) w - formal_sum (c_b c) w).
    rewrite /xval addn1 addSn /= nth_cat hw ltnNge leq_addr /= addKn.
    by rewrite nth_cat size_map h1 (nth_map no_constraint).
  case: (odd r); first by rewrite add0r.
  apply/eqP; rewrite -subr_eq; apply/eqP; rewrite square_trick /times_four.
  by rewrite hc.
case: eqP => [_|h2]; first by rewrite mulr1.
case: (leqP (inp r) ni) => h3; last by rewrite mulr0.
have h4 : (0 < inp r)%N by rewrite /inp; move: h1 h2; rewrite /off; lia.
rewrite [xval (sap_ext w) (inp r)]xval_cat; last by rewrite hw; apply: leq_trans h3 le_ni.
have -> : xval (sap_ext w) (nv + nc + inp r) = (xval w (inp r) - 1) * (xval w (inp r) - 1).
  rewrite /xval -{1}(prednK h4) addnS /= nth_cat hw -addnA ltnNge leq_addr /= addKn.
  rewrite nth_cat size_map -/nc ltnNge leq_addr /= addKn (nth_map 0%N) ?size_iota ?prednK //.
  by rewrite nth_iota ?prednK // add1n prednK.
case: (odd _); last by rewrite add0r.
by rewrite square_trick1.
Qed.

Lemma push_constraints w : size w = nv ->
  ofold (fun full c =>
          let! a := evaluate (c_a c) full in
          let! b := evaluate (c_b c) full in
          Ok (rcons full ((a - b) * (a - b)))) w (constraints cs)
  = Ok (w ++ [seq (formal_sum (c_a c) w - formal_sum (c_b c) w) *
                  (formal_sum (c_a c) w - formal_sum (c_b c) w) | c <- constraints cs]).
Proof. clear char2.
move=> hw; rewrite -{1}(cats0 w) -[[seq _ | c <- _]]cat0s.
move: [::] (constraints_in_range hr).
elim: (constraints cs) => [|c l IH] acc hl /=; first by rewrite !cats0.
have [ra rb _] := hl c (or_introl erefl).
have hle : (nv <= size (w ++ acc))%N by rewrite size_cat hw leq_addr.
rewrite !evaluate_ok ?(in_range_le hle) //= !formal_sum_extend ?hw //.
rewrite -cats1 -catA IH; last by move=> d hd; apply: hl; right.
by rewrite -!catA.
Qed.

Lemma push_inputs w acc n : (n <= size w)%N ->
  ofold (fun full i => let! x := oget full (i - 1) in
                       Ok (rcons full ((x - 1) * (x - 1)))) (w ++ acc) (iota 1 n)
  = Ok (w ++ acc ++ [seq (xval w i - 1) * (xval w i - 1) | i <- iota 1 n]).
Proof. clear char2.
have : forall i, i \in iota 1 n -> (1 <= i < 1 + n)%N by move=> i; rewrite mem_iota.
elim: (iota 1 n) acc => [|i l IH] acc /= hl hn; first by rewrite cats0.
have /andP [hi1 hi2] : (1 <= i < 1 + n)%N by apply: hl; rewrite inE eqxx.
have hi3 : (i - 1 < size w)%N by apply: leq_trans hn; move: hi1 hi2; lia.
rewrite (oget_nth 0) /=; last by rewrite size_cat ltn_addr.
rewrite -cats1 -catA IH //; last by move=> j hj; apply: hl; rewrite inE hj orbT.
rewrite -!catA nth_cat hi3.
have -> : w`_(i - 1) = xval w i by rewrite /xval; case: (i) hi1 => // k _; rewrite subn1.
by [].
Qed.

Lemma xval_full W i : (0 < i)%N -> (i <= size W)%N -> oget W (i - 1) = Ok (xval W i).
Proof. clear char2. by case: i => // i _ hi; rewrite subn1 (oget_nth 0). Qed.

Lemma sap_witness_A W : size W = sap_num_vars cs ->
  (let! aA := ofold (fun v p =>
                let: (i, c) := p in
                let! a := evaluate (c_a c) W in
                let! b := evaluate (c_b c) W in
                let! v := vec_add v ((2 * i)%N, a) in
                let! v := vec_add v ((2 * i)%N, b) in
                let! v := vec_add v ((2 * i + 1)%N, a) in
                vec_add v ((2 * i + 1)%N, - b))
              (nseq (d_size D) 0) (enum_from0 (constraints cs)) in
   let! aA := vec_add aA (off, 1) in
   ofold (fun v i =>
                let! x := oget W (i - 1) in
                let! v := vec_add v ((off + 2 * i - 1)%N, x) in
                let! v := vec_add v ((off + 2 * i - 1)%N, 1) in
                let! v := vec_add v ((off + 2 * i)%N, x) in
                vec_add v ((off + 2 * i)%N, - 1))
              aA (iota 1 ni)) = Ok (mkseq (row_sum (sap_A cs) W) (d_size D)).
Proof. clear char2.
move=> hW; have hs := hsize.
have hle : (nv <= size W)%N by rewrite hW /sap_num_vars -addnA leq_addr.
pose g1 (p : nat * r1cs_constraint F) := let a := formal_sum (c_a p.2) W in
   let b := formal_sum (c_b p.2) W in
   [:: ((2 * p.1)%N, a); ((2 * p.1)%N, b); ((2 * p.1 + 1)%N, a); ((2 * p.1 + 1)%N, - b)].
pose g2 i := [:: ((off + 2 * i - 1)%N, xval W i); ((off + 2 * i - 1)%N, 1);
                 ((off + 2 * i)%N, xval W i); ((off + 2 * i)%N, - 1)].
rewrite (@vec_loop _ _ _ g1); last first.
  move=> v [i c] /enum_In [_ /= hc]; have [ra rb _] := constraints_in_range hr hc.
  rewrite !evaluate_ok ?(in_range_le hle) //= /g1 /=.
  by do 3 (case: (vec_add _ _) => //= ?); case: (vec_add _ _).
transitivity (ofold (@vec_add F) (nseq (d_size D) 0)
    (flatten (map g1 (enum_from0 (constraints cs))) ++ (off, 1) :: flatten (map g2 (iota 1 ni)))).
  rewrite ofold_cat; case: (ofold _ _ _) => // v; rewrite !obindE ofold_cons.
  case: (vec_add _ _) => // v'; rewrite !obindE; apply: vec_loop => v'' i /In_iota hi.
  rewrite xval_full; first last.
  - by apply: leq_trans hle; apply: leq_trans le_ni; move: hi; lia.
  - by case/andP: hi.
  by rewrite obindE /g2 /=; do 3 (case: (vec_add _ _) => //= ?); case: (vec_add _ _).
rewrite vec_from_zero; last first.
  rewrite all_cat; apply/andP; split.
    rewrite all_flatten all_map; apply/all_InP => p /enum_lt hp /=; lia.
  rewrite all_consE; apply/andP; split; first by rewrite /= /off; lia.
  rewrite all_flatten all_map; apply/all_InP => i /In_iota hi; rewrite /= /off; lia.
congr Ok; apply: eq_mkseq => r.
rewrite add_sum_cat add_sum_cons row_sum_cat row_sum_cons /= mulr1.
congr (_ + (_ + _)); last first.
  apply: flat_agree => i _; rewrite /g2 !add_sum_cons add_sum_nil !row_sum_cons row_sum_nil /=.
  by rewrite !mul1r mulr1.
apply: flat_agree => p _; rewrite /g1 !add_sum_cons add_sum_nil row_sum_cat /=.
rewrite (@row_pair (c_a p.2) W r p.1 (fun _ x => x)) //.
rewrite (@row_pair (c_b p.2) W r p.1 (fun b x => if b then - x else x)); first last.
- by move=> [] x y; rewrite ?mulNr.
- by case; rewrite ?oppr0.
- by move=> [] x y //; rewrite opprD.
have [->|h1] := eqVneq r (2 * p.1)%N.
  have -> : ((2 * p.1)./2 = p.1)%N by lia.
  have -> : odd (2 * p.1) = false by lia.
  have -> : (2 * p.1 + 1 == 2 * p.1)%N = false by lia.
  by rewrite !eqxx !addr0.
have [->|h2] := eqVneq r (2 * p.1 + 1)%N.
  have -> : ((2 * p.1 + 1)./2 = p.1)%N by lia.
  have -> : odd (2 * p.1 + 1) = true by lia.
  by rewrite !eqxx !add0r addr0.
have -> : (r./2 == p.1) = false by lia.
by rewrite !addr0.
Qed.

Lemma sap_witness_C W : size W = sap_num_vars cs ->
  (let! aC := ofold (fun v p =>
                let: (i, c) := p in
                let! x := evaluate (c_c c) W in
                let! e := oget W (nv + 1 + i - 1) in
                let! v := vec_add v ((2 * i)%N, times_four x) in
                let! v := vec_add v ((2 * i)%N, e) in
                vec_add v ((2 * i + 1)%N, e))
              (nseq (d_size D) 0) (enum_from0 (constraints cs)) in
   let! aC := vec_add aC (off, 1) in
   ofold (fun v i =>
                let! x := oget W (i - 1) in
                let! e := oget W (nv + nc + i - 1) in
                let! v := vec_add v ((off + 2 * i - 1)%N, times_four x) in
                let! v := vec_add v ((off + 2 * i - 1)%N, e) in
                vec_add v ((off + 2 * i)%N, e))
              aC (iota 1 ni)) = Ok (mkseq (row_sum (sap_C cs) W) (d_size D)).
Proof. clear char2.
move=> hW; have hs := hsize.
have hle : (nv <= size W)%N by rewrite hW /sap_num_vars -addnA leq_addr.
pose g1 (p : nat * r1cs_constraint F) := let x := formal_sum (c_c p.2) W in
   let e := xval W (nv + 1 + p.1) in
   [:: ((2 * p.1)%N, times_four x); ((2 * p.1)%N, e); ((2 * p.1 + 1)%N, e)].
pose g2 i := [:: ((off + 2 * i - 1)%N, times_four (xval W i)); ((off + 2 * i - 1)%N, xval W (nv + nc + i));
                 ((off + 2 * i)%N, xval W (nv + nc + i))].
rewrite (@vec_loop _ _ _ g1); last first.
  move=> v [i c] hic; have hi := enum_lt hic; rewrite /= in hi.
  case/enum_In: hic => [_ /= hc]; have [_ _ rc] := constraints_in_range hr hc.
  rewrite evaluate_ok ?(in_range_le hle) //= xval_full /=; first last.
  - by rewrite hW /sap_num_vars -/nv -/nc -/ni; move: hi; lia.
  - lia.
  by rewrite /g1 /=; do 2 (case: (vec_add _ _) => //= ?); case: (vec_add _ _).
transitivity (ofold (@vec_add F) (nseq (d_size D) 0)
    (flatten (map g1 (enum_from0 (constraints cs))) ++ (off, 1) :: flatten (map g2 (iota 1 ni)))).
  rewrite ofold_cat; case: (ofold _ _ _) => // v; rewrite !obindE ofold_cons.
  case: (vec_add _ _) => // v'; rewrite !obindE; apply: vec_loop => v'' i /In_iota hi.
  rewrite !xval_full; first last.
  - by apply: leq_trans hle; apply: leq_trans le_ni; move: hi; lia.
  - by case/andP: hi.
  - by rewrite hW /sap_num_vars -/nv -/nc -/ni; move: hi; lia.
  - by move: hi; lia.
  by rewrite !obindE /g2 /=; do 2 (case: (vec_add _ _) => //= ?); case: (vec_add _ _).
rewrite vec_from_zero; last first.
  rewrite all_cat; apply/andP; split.
    rewrite all_flatten all_map; apply/all_InP => p /enum_lt hp /=; lia.
  rewrite all_consE; apply/andP; split; first by rewrite /= /off; lia.
  rewrite all_flatten all_map; apply/all_InP => i /In_iota hi; rewrite /= /off; lia.
congr Ok; apply: eq_mkseq => r.
rewrite add_sum_cat add_sum_cons row_sum_cat row_sum_cons /= mulr1.
congr (_ + (_ + _)); last first.
  apply: flat_agree => i _; rewrite /g2 !add_sum_cons add_sum_nil !row_sum_cons row_sum_nil /=.
  by rewrite !times_fourE !mul1r.
apply: flat_agree => p _; rewrite /g1 !add_sum_cons add_sum_nil row_sum_cat /=.
rewrite !row_sum_cons row_sum_nil /= !mul1r; congr (_ + _).
elim: (c_c p.2) => [|tm l IH] /=.
  by rewrite row_sum_nil formal_sum_nil /times_four !addr0 if_same.
rewrite row_sum_cons -IH /= formal_sum_cons; case: eqP => _; last by rewrite addr0.
by rewrite times_fourE times_fourD.
Qed.

Lemma sap_witness_map_ok p a d1 d2 : r1cs_is_satisfied cs p a = Ok true ->
  exists2 w : sap_witness F, r1cs_to_sap_witness_map D cs p a d1 d2 = Ok w &
  [/\ [/\ sw_num_variables w = sap_num_vars cs, sw_degree w = d_size D,
          sw_num_inputs w = num_inputs cs & size (sw_ACs w) = sap_num_vars cs],
      [/\ sw_d1 w = d1, sw_d2 w = d2 & sw_ACs w = sap_ext (p ++ a)],
      size (sw_H w) = (d_size D).+1 &
      let Z := vanishing (d_points D) in
      Poly (sw_H w) * Z =
      (row_poly D (sap_A cs) (sw_ACs w) + d1 *: Z) * (row_poly D (sap_A cs) (sw_ACs w) + d1 *: Z)
      - (row_poly D (sap_C cs) (sw_ACs w) + d2 *: Z)].
Proof. clear char2.
move=> hsat; have [hp ha _ hh] := r1cs_is_satisfied_true hsat.
have hn : size (p ++ a) = num_variables cs by rewrite size_cat hp ha.
rewrite /r1cs_to_sap_witness_map hsat obindE oassertT push_constraints // obindE.
rewrite push_inputs; last by rewrite hn; apply: num_inputs_le.
rewrite obindE -/(sap_ext (p ++ a)).
have hW := size_sap_ext hn; have hrows := sap_rows_complete hn hh.
set W := sap_ext _ in hW hrows *.
have hA := sap_witness_A hW; have hC := sap_witness_C hW.
have [A1 eA1 {}hA] := obind_Ok hA; have [A2 eA2 {}hA] := obind_Ok hA.
have [C1 eC1 {}hC] := obind_Ok hC; have [C2 eC2 {}hC] := obind_Ok hC.
rewrite eA1 obindE eA2 obindE hA obindE eC1 obindE eC2 obindE hC obindE.
set Hl := add_first_m _ _ _.
have [sH pH] : size Hl = (d_size D).+1 /\ Poly Hl * vanishing (d_points D) =
    row_poly D (sap_A cs) W * row_poly D (sap_A cs) W - row_poly D (sap_C cs) W
    + (d1 *: row_poly D (sap_A cs) W + d1 *: row_poly D (sap_A cs) W
       - d2%:P + (d1 * d1) *: vanishing (d_points D)) * vanishing (d_points D).
  apply: H_poly; rewrite ?size_row_poly ?sap_dvd //.
  - by rewrite size_add_poly_Z ?size_sub_first ?size_patch.
  - rewrite Poly_add_poly_Z ?size_sub_first ?size_patch //; congr (_ + _).
    rewrite Poly_sub_first; last by rewrite -size_eq0 size_patch.
    congr (_ - _); apply: patch_poly.
      apply: leq_trans (size_add _ _) _; rewrite geq_max.
      by rewrite !(leq_trans (size_scale_leq _ _)) // size_row_poly.
    by move=> i hi; rewrite coefD !coefZ /iFFT !nth_coeffs.
  - by rewrite size_mkseq.
  - move=> i hi; rewrite nth_mkseq // nth_mkseq // hornerD hornerN hornerM.
    by rewrite /iFFT !coset_value // size_row_poly.
clearbody Hl; eexists; first by []; split=> //.
by rewrite pH /= -!mul_polyC polyCM sap_identity.
Qed.

Theorem sap_complete p a d1 d2 t : r1cs_is_satisfied cs p a = Ok true ->
  exists (w : sap_witness F) q qe,
  [/\ r1cs_to_sap_witness_map D cs p a d1 d2 = Ok w,
      r1cs_to_sap_instance_map D cs = Ok q,
      r1cs_to_sap_instance_map_with_evaluation D cs t = Ok qe,
      sap_is_satisfied q t w = Ok true & sap_eval_is_satisfied qe w].
Proof. clear char2.
move=> hsat; have [w hw [[w1 w2 w3 w4] [w5 w6 w8] sH pH]] := sap_witness_map_ok d1 d2 hsat.
have [q [qe [h1 h2 h3]]] := sap_instances_agree t.
have hacc : sap_eval_is_satisfied qe w.
  by rewrite (sap_accept _ h2) w1 w2 w3 w4 w5 w6 sH pH !eqxx.
by exists w, q, qe; split=> //; rewrite h3 hacc.
Qed.

Theorem sap_sound_many (w : sap_witness F) ts : uniq ts -> (2 * d_size D < size ts)%N ->
  (forall t, t \in ts -> exists2 qe, r1cs_to_sap_instance_map_with_evaluation D cs t = Ok qe &
                         sap_eval_is_satisfied qe w) ->
  size (sw_ACs w) = sap_num_vars cs /\ r1cs_holds cs (take nv (sw_ACs w)).
Proof.
move=> hu hs hacc.
pose Z := vanishing (d_points D).
pose A := row_poly D (sap_A cs) (sw_ACs w); pose C := row_poly D (sap_C cs) (sw_ACs w).
have hacc' : forall t, t \in ts ->
  [&& sw_num_variables w == sap_num_vars cs, sw_degree w == d_size D,
      sw_num_inputs w == num_inputs cs, size (sw_ACs w) == sap_num_vars cs,
      size (sw_H w) == (d_size D).+1 &
      ((A + sw_d1 w *: Z) * (A + sw_d1 w *: Z) - (C + sw_d2 w *: Z)).[t] == (Poly (sw_H w) * Z).[t]].
  by move=> t /hacc [qe hq]; rewrite (sap_accept _ hq).
have [t0 ht0] : exists t, t \in ts by case: (ts) hs => // t l _; exists t; rewrite inE eqxx.
have /and5P [_ _ _ /eqP hn /andP [/eqP hH _]] := hacc' _ ht0.
split=> //; apply: sap_rows_sound; first by rewrite hn /sap_num_vars -addnA leq_addr.
rewrite -sap_dvd.
have hid := @many_points _ _ _ ts (2 * d_size D).+1 hu hs
  (size_sub_bound (size_mul_bound (size_shifted D (sap_A cs) (sw_ACs w) (sw_d1 w))
                                  (size_shifted D (sap_A cs) (sw_ACs w) (sw_d1 w)))
     (leq_trans (size_shifted D (sap_C cs) (sw_ACs w) (sw_d2 w))
                (leq_pmull _ (isT : 0 < 2)%N : (d_size D < (2 * d_size D).+1)%N)))
  (size_HZ hH).
have : all (fun t => ((A + sw_d1 w *: Z) * (A + sw_d1 w *: Z) - (C + sw_d2 w *: Z)).[t]
                     == (Poly (sw_H w) * Z).[t]) ts.
  by apply/allP => t /hacc' /and5P [_ _ _ _ /andP [_ ->]].
move/hid; rewrite -!mul_polyC -sap_identity -/A -/C -/Z => e.
have -> : A * A - C = (Poly (sw_H w) - ((sw_d1 w)%:P * A + (sw_d1 w)%:P * A - (sw_d2 w)%:P +
      (sw_d1 w)%:P * (sw_d1 w)%:P * Z)) * Z.
  by rewrite mulrBl -e addrK.
exact: dvdp_mull.
Qed.

(** A satisfying extension exists exactly when the R1CS is satisfied. *)
Theorem sap_extension w : size w = nv ->
  (exists2 e, size e = (nc + ni)%N &
     vanishing (d_points D) %| row_poly D (sap_A cs) (w ++ e) * row_poly D (sap_A cs) (w ++ e)
                               - row_poly D (sap_C cs) (w ++ e)) <-> r1cs_holds cs w.
Proof.
move=> hw; split.
  case=> e he /sap_dvd h; have := @sap_rows_sound (w ++ e) _ h.
  by rewrite -hw take_size_cat //; apply; rewrite size_cat leq_addr.
move=> hh; exists (drop nv (sap_ext w)).
  by rewrite size_drop size_sap_ext // /sap_num_vars -addnA -/nv addKn.
have -> : w ++ drop nv (sap_ext w) = sap_ext w by rewrite /sap_ext -hw drop_size_cat.
by apply/sap_dvd => r _; apply: sap_rows_complete.
Qed.

(** ** Independent form of divisibility *)
Lemma sap_divisible_iff x : size x = sap_num_vars cs ->
  sap_divisible D cs x <->
  vanishing (d_points D) %| row_poly D (sap_A cs) x * row_poly D (sap_A cs) x - row_poly D (sap_C cs) x.
Proof.
move=> hx.
pose col sel t cols := exists2 qe : sap_evaluation F,
  r1cs_to_sap_instance_map_with_evaluation D cs t = Ok qe & cols = sel qe :> seq F.
have ex sel : forall t, exists cols, col sel t cols.
  by move=> t; have [qe h _] := sap_eval_ok t; exists (sel qe), qe.
have cA : combined_polynomial D (col (@se_At F)) x (row_poly D (sap_A cs) x).
  apply: combined_row_poly upd_sap_A _ hx => t cols [qe hq ->].
  have [qe' + [_ [s1 s2] _ _ hk]] := sap_eval_ok t; rewrite hq => -[e]; subst qe'.
  by split=> // k; case: (hk k).
have cC : combined_polynomial D (col (@se_Ct F)) x (row_poly D (sap_C cs) x).
  apply: combined_row_poly upd_sap_C _ hx => t cols [qe hq ->].
  have [qe' + [_ [s1 s2] _ _ hk]] := sap_eval_ok t; rewrite hq => -[e]; subst qe'.
  by split=> // k; case: (hk k).
split; last by exists (row_poly D (sap_A cs) x), (row_poly D (sap_C cs) x).
case=> A [C [hA hC]].
by rewrite (combined_unique (ex _) cA hA) (combined_unique (ex _) cC hC).
Qed.

Theorem sap_divisible_extension w : size w = nv ->
  (exists2 e, size e = (nc + ni)%N & sap_divisible D cs (w ++ e)) <-> r1cs_holds cs w.
Proof.
move=> hw; rewrite -(sap_extension hw); split=> -[e he h]; exists e => //;
  apply/sap_divisible_iff; rewrite // size_cat hw he /sap_num_vars addnA //.
Qed.

Lemma sap_columns t : exists q qe,
  [/\ r1cs_to_sap_instance_map D cs = Ok q,
      r1cs_to_sap_instance_map_with_evaluation D cs t = Ok qe,
      (forall k P, (k <= nv + nc + ni)%N ->
        (column_polynomial D (nth [::] (s_A q) k) P -> (se_At qe)`_k = P.[t]) /\
        (column_polynomial D (nth [::] (s_C q) k) P -> (se_Ct qe)`_k = P.[t])),
      (forall i, (i <= d_size D)%N -> (se_Ht qe)`_i = t ^+ i) /\ se_Zt qe = (vanishing (d_points D)).[t] &
      forall w : sap_witness F, sap_is_satisfied q t w = Ok (sap_eval_is_satisfied qe w)].
Proof.
have [q [qe [h1 h2 h3]]] := sap_instances_agree t; exists q, qe; split=> //.
- move=> k P hk.
  have [q' + [_ _ hv _]] := sap_plain_ok; rewrite h1 => -[e]; subst q'.
  have [qe' + [_ _ _ _ hk']] := sap_eval_ok t; rewrite h2 => -[e]; subst qe'.
  have [k1 k2] := hk' k; rewrite k1 k2.
  split=> -[hs hp]; [apply: column_poly upd_sap_A _ hs hp|apply: column_poly upd_sap_C _ hs hp];
    by move=> f; case: (hv f k hk).
- have [qe' + [_ _ hH hZ _]] := sap_eval_ok t; rewrite h2 => -[e]; subst qe'.
  by split=> // i hi; rewrite hH powersE.
Qed.

End Instance.
(** ** Final forms *)
Theorem sap_completeness D cs p a d1 d2 :
  sap_large D cs -> r1cs_is_satisfied cs p a = Ok true ->
  exists2 w : sap_witness F,
    r1cs_to_sap_witness_map D cs p a d1 d2 = Ok w &
    [/\ take (num_variables cs) (sw_ACs w) = p ++ a, size (sw_H w) = (d_size D).+1,
        sw_d1 w = d1 /\ sw_d2 w = d2 &
        forall t, exists q qe,
          [/\ r1cs_to_sap_instance_map D cs = Ok q,
              r1cs_to_sap_instance_map_with_evaluation D cs t = Ok qe,
              sap_is_satisfied q t w = Ok true & sap_eval_is_satisfied qe w]].
Proof.
move=> hm hsat; have [hp ha hr _] := r1cs_is_satisfied_true hsat.
have [w hw [_ [w5 w6 w8] sH _]] := sap_witness_map_ok hr hm d1 d2 hsat.
exists w => //; split=> //.
  by rewrite w8 /sap_ext take_size_cat // size_cat hp ha.
move=> t; have [w' [q [qe [+ h2 h3 h4 h5]]]] := sap_complete hr hm d1 d2 t hsat.
by rewrite hw => -[e]; subst w'; exists q, qe.
Qed.

Theorem sap_soundness D cs p a (w : sap_witness F) ts :
  2%:R != 0 :> F -> sap_large D cs -> r1cs_in_range cs -> ~ r1cs_holds cs (p ++ a) ->
  take (num_variables cs) (sw_ACs w) = p ++ a -> uniq ts ->
  (forall t, t \in ts ->
     (exists2 qe, r1cs_to_sap_instance_map_with_evaluation D cs t = Ok qe & sap_eval_is_satisfied qe w) \/
     (exists2 q, r1cs_to_sap_instance_map D cs = Ok q & sap_is_satisfied q t w = Ok true)) ->
  (size ts <= 2 * d_size D)%N.
Proof.
move=> h2' hm hr hn hw hu hts; rewrite leqNgt; apply/negP => hs; apply: hn.
rewrite -hw; apply: (proj2 (sap_sound_many hr hm h2' hu hs _)) => t /hts.
have [q [qe [h1 h2 h3]]] := sap_instances_agree hr hm t.
case=> -[q' hq' hacc]; first by exists q'.
by move: hq'; rewrite h1 => -[e]; subst q'; exists qe => //; move: hacc; rewrite h3 => -[->].
Qed.

End SapFacts.
