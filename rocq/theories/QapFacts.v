(** Proofs about the R1CS-to-QAP reduction. *)
From mathcomp Require Import all_ssreflect all_algebra.
From Verif Require Import Outcome Lincomb LincombSpec LincombFacts R1CS R1CSSpec R1CSFacts
  Domain DomainFacts ArithPrograms ArithSpec ArithFacts Fieldtac.
Set Implicit Arguments.
Unset Strict Implicit.
Unset Printing Implicit Defensive.
Import GRing.Theory.
Local Open Scope ring_scope.

Section QapFacts.
Variable F : fieldType.
Implicit Types (D : evaluation_domain F) (cs : r1cs F) (w : seq F).
Add Field Ff : (Fth F).

Definition no_constraint : r1cs_constraint F := R1csConstraint [::] [::] [::].
Notation sel := (r1cs_constraint F -> linear_combination F).

(** ** Rows of the update lists *)

Lemma row_sum_enum (A : Type) (g : A -> linear_combination F) (d : A) (l : seq A) w i j :
  g d = [::] ->
  row_sum (flatten [seq [seq (lt_index tm, p.1, lt_coeff tm) | tm <- g p.2] | p <- zip (iota j (size l)) l]) w i
  = if (j <= i)%N then formal_sum (g (nth d l (i - j))) w else 0.
Proof.
move=> hd; elim: l j => [|x l IH] j /=.
  by rewrite row_sum_nil nth_nil hd formal_sum_nil; case: ifP.
rewrite row_sum_cat IH.
have -> : row_sum [seq (lt_index tm, j, lt_coeff tm) | tm <- g x] w i
          = if j == i then formal_sum (g x) w else 0.
  rewrite /row_sum big_map /formal_sum /=; case: eqP => _ //=.
  by rewrite big_pred0_eq.
case: (ltngtP j i) => h /=; rewrite ?add0r ?addr0 //.
  by rewrite subnS; case: (i - j)%N (subn_gt0 j i) => [|k]; rewrite h.
by rewrite h subnn.
Qed.

Lemma row_sum_qap (s : sel) cs w i : s no_constraint = [::] ->
  row_sum (qap_updates s cs) w i = formal_sum (s (nth no_constraint (constraints cs) i)) w.
Proof.
move=> hs; rewrite /qap_updates /enum_from0 (row_sum_enum _ _ _ _ hs) /=.
by rewrite subn0.
Qed.

Lemma enum_In (A : Type) (l : seq A) k p : List.In p (zip (iota k (size l)) l) ->
  (k <= p.1 < k + size l)%N /\ List.In p.2 l.
Proof.
elim: l k => [|x l IH] k //= [<-|/IH [/andP [h1 h2] h3]].
  by rewrite leqnn addnS ltnS leq_addr; split=> //; left.
by rewrite (ltnW h1) addnS -addSn h2; split=> //; right.
Qed.

Lemma upd_in_qap (s : sel) cs nv m :
  (forall c, List.In c (constraints cs) -> in_range nv (s c)) -> (num_constraints cs <= m)%N ->
  upd_in nv.+1 m (qap_updates s cs).
Proof.
move=> h hm; rewrite /upd_in /qap_updates all_flatten all_map.
apply/all_InP => p /enum_In [/andP [_ h1] h2] /=.
rewrite all_map; have := h _ h2; apply: sub_all => tm htm /=.
by rewrite ltnS htm (leq_trans h1).
Qed.

(** The input-consistency rows. *)
Definition input_updates (cs : r1cs F) : seq (update F) :=
  [seq (i, (num_constraints cs + i)%N, 1) | i <- iota 0 (num_inputs cs).+1].

Lemma row_sum_inputs cs w i :
  row_sum (input_updates cs) w i =
  if (num_constraints cs <= i <= num_constraints cs + num_inputs cs)%N
  then xval w (i - num_constraints cs) else 0.
Proof.
rewrite /row_sum /input_updates big_map.
move eM: (num_inputs cs).+1 => M; rewrite /= -[(_ <= _ + _)%N]ltnS -addnS eM.
case: ifP => [/andP [h1 h2]|h].
  rewrite (eq_bigl (fun j => j == i - num_constraints cs)%N); last first.
    by move=> j; rewrite -{1}(subnKC h1) eqn_add2l.
  rewrite -big_filter filter_pred1_uniq ?iota_uniq ?big_seq1 ?mul1r //.
  by rewrite mem_iota /= add0n ltn_subLR.
rewrite big_seq_cond big1 // => j /andP [hj /eqP e]; move: h; rewrite -e leq_addr ltn_add2l /=.
by move: hj; rewrite mem_iota add0n => /andP [_ ->].
Qed.

Lemma num_inputs_le cs : (num_inputs cs <= num_variables cs)%N.
Proof. exact: leq_addr. Qed.

Lemma upd_in_inputs cs m : (num_constraints cs + num_inputs cs + 1 <= m)%N ->
  upd_in (num_variables cs).+1 m (input_updates cs).
Proof.
rewrite addn1 => hm; rewrite /upd_in /input_updates all_map; apply/allP => i.
rewrite mem_iota add0n ltnS => /andP [_ hi] /=; rewrite ltnS (leq_trans hi (num_inputs_le cs)) /=.
by apply: leq_ltn_trans hm; rewrite leq_add2l.
Qed.

Definition A_updates cs := input_updates cs ++ qap_updates (@c_a F) cs.

Lemma constraints_in_range cs : r1cs_in_range cs -> forall c, List.In c (constraints cs) ->
  [/\ in_range (num_variables cs) (c_a c), in_range (num_variables cs) (c_b c) &
      in_range (num_variables cs) (c_c c)].
Proof. by move/all_InP => h c /h /and3P. Qed.

(** ** The instance maps *)

Definition qap_large D cs := (num_constraints cs + num_inputs cs + 1 <= d_size D)%N.

Lemma large_nc D cs : qap_large D cs -> (num_constraints cs <= d_size D)%N.
Proof. by rewrite /qap_large -addnA; apply: leq_trans; apply: leq_addr. Qed.

Section Instance.
Variables (D : evaluation_domain F) (cs : r1cs F).
Hypothesis hr : r1cs_in_range cs.
Hypothesis hm : qap_large D cs.

Lemma upd_A : upd_in (num_variables cs).+1 (d_size D) (A_updates cs).
Proof.
rewrite upd_in_cat upd_in_inputs //=; apply: upd_in_qap; last exact: large_nc.
by move=> c /(constraints_in_range hr) [].
Qed.
Lemma upd_B : upd_in (num_variables cs).+1 (d_size D) (qap_updates (@c_b F) cs).
Proof.
apply: upd_in_qap; last exact: large_nc.
by move=> c /(constraints_in_range hr) [].
Qed.
Lemma upd_C : upd_in (num_variables cs).+1 (d_size D) (qap_updates (@c_c F) cs).
Proof.
apply: upd_in_qap; last exact: large_nc.
by move=> c /(constraints_in_range hr) [].
Qed.

Definition Lt (t : F) := fun i => (evaluate_all_lagrange_polynomials D t)`_i.

Lemma qap_eval_ok t : exists2 q, r1cs_to_qap_instance_map_with_evaluation D cs t = Ok q &
  [/\ [/\ qe_num_variables q = num_variables cs, qe_degree q = d_size D,
          qe_num_inputs q = num_inputs cs, qe_domain q = D & qe_t q = t],
      [/\ size (qe_At q) = (num_variables cs).+1, size (qe_Bt q) = (num_variables cs).+1 &
          size (qe_Ct q) = (num_variables cs).+1],
      qe_Ht q = powers (d_size D).+1 t,
      qe_Zt q = compute_vanishing_polynomial D t &
      forall k,
        [/\ (qe_At q)`_k = upd_sum (Lt t) (A_updates cs) k,
            (qe_Bt q)`_k = upd_sum (Lt t) (qap_updates (@c_b F) cs) k &
            (qe_Ct q)`_k = upd_sum (Lt t) (qap_updates (@c_c F) cs) k]].
Proof.
rewrite /r1cs_to_qap_instance_map_with_evaluation.
rewrite eval_set_fold; last 2 first.
- by rewrite -map_comp map_inj_uniq ?iota_uniq.
- by apply/allP => e /mapP [i _ ->]; rewrite nth_nseq if_same.
have -> : [seq (e, 1) | e <- [seq (i, (num_constraints cs + i)%N) | i <- iota 0 (num_inputs cs).+1]]
   = input_updates cs by rewrite -map_comp.
rewrite -obind_assoc -ofold_cat -/(A_updates cs).
have hu := size_all_lagrange D t.
have [|A -> [s1 k1]] := @eval_from_zero _ (evaluate_all_lagrange_polynomials D t) (num_variables cs).+1 (A_updates cs).
  by rewrite hu upd_A.
have [|B e2 [s2 k2]] := @eval_from_zero _ (evaluate_all_lagrange_polynomials D t) (num_variables cs).+1 (qap_eval_updates (@c_b F) cs).
  by rewrite hu upd_B.
have [|C e3 [s3 k3]] := @eval_from_zero _ (evaluate_all_lagrange_polynomials D t) (num_variables cs).+1 (qap_eval_updates (@c_c F) cs).
  by rewrite hu upd_C.
rewrite [obind (Ok _) _]/obind e2 [obind (Ok _) _]/obind e3.
by eexists; first by []; split.
Qed.

(** The plain instance map; [smap_val] says what the maps denote. *)
Lemma qap_plain_ok : exists2 q, r1cs_to_qap_instance_map D cs = Ok q &
  [/\ [/\ q_num_variables q = num_variables cs, q_degree q = d_size D,
          q_num_inputs q = num_inputs cs & q_domain q = D],
      [/\ size (q_A q) = (num_variables cs).+1, size (q_B q) = (num_variables cs).+1 &
          size (q_C q) = (num_variables cs).+1],
      forall f k, (k < (num_variables cs).+1)%N ->
        [/\ smap_val f (nth [::] (q_A q) k) = upd_sum f (A_updates cs) k,
            smap_val f (nth [::] (q_B q) k) = upd_sum f (qap_updates (@c_b F) cs) k &
            smap_val f (nth [::] (q_C q) k) = upd_sum f (qap_updates (@c_c F) cs) k] &
      forall k j, (k < (num_variables cs).+1)%N ->
        [/\ j \in keys (nth [::] (q_A q) k) -> has (fun e => e.1.2 == j) (A_updates cs),
            j \in keys (nth [::] (q_B q) k) -> has (fun e => e.1.2 == j) (qap_updates (@c_b F) cs) &
            j \in keys (nth [::] (q_C q) k) -> has (fun e => e.1.2 == j) (qap_updates (@c_c F) cs)]].
Proof.
rewrite /r1cs_to_qap_instance_map -/(input_updates cs).
rewrite lagrange_set_fold; last 2 first.
- by rewrite -map_comp map_inj_uniq ?iota_uniq.
- by apply/allP => e _; rewrite nth_nseq if_same.
rewrite -obind_assoc -ofold_cat -/(A_updates cs).
have [A -> [s1 v1 k1]] := lagrange_from_zero upd_A.
have [B e2 [s2 v2 k2]] := lagrange_from_zero upd_B.
have [C e3 [s3 v3 k3]] := lagrange_from_zero upd_C.
rewrite [obind (Ok _) _]/obind e2 [obind (Ok _) _]/obind e3.
eexists; first by []; split=> // [f k hk|k j hk].
  by split=> /=; rewrite ?v1 ?v2 ?v3.
by split=> /=; [apply: k1|apply: k2|apply: k3].
Qed.

(** Both instance maps give the same verdict on every witness, at every t. *)
Lemma qap_instances_agree t : exists q qe,
  [/\ r1cs_to_qap_instance_map D cs = Ok q,
      r1cs_to_qap_instance_map_with_evaluation D cs t = Ok qe &
      forall w : qap_witness F, qap_is_satisfied q t w = Ok (qap_eval_is_satisfied qe w)].
Proof.
have [q hq [[p1 p2 p3 p4] [s1 s2 s3] hv hk]] := qap_plain_ok.
have [qe hqe [[r1 r2 r3 r4 r5] [z1 z2 z3] hH hZ hk']] := qap_eval_ok t.
exists q, qe; split=> // w.
rewrite /qap_is_satisfied p1 p2 p3 p4.
have hu := size_all_lagrange D t.
have e1 := @lagrange_pipeline _ (evaluate_all_lagrange_polynomials D t) (q_A q) (A_updates cs) _ s1.
have e2 := @lagrange_pipeline _ (evaluate_all_lagrange_polynomials D t) (q_B q) (qap_updates (@c_b F) cs) _ s2.
have e3 := @lagrange_pipeline _ (evaluate_all_lagrange_polynomials D t) (q_C q) (qap_updates (@c_c F) cs) _ s3.
rewrite hu in e1 e2 e3; rewrite {}e1 ?upd_A //; first last.
- by move=> k j hj; case: (hk k j hj).
- by move=> f k /(hv f) [].
rewrite [obind (Ok _) _]/obind {}e2 ?upd_B //; first last.
- by move=> k j hj; case: (hk k j hj).
- by move=> f k /(hv f) [].
rewrite [obind (Ok _) _]/obind {}e3 ?upd_C //; first last.
- by move=> k j hj; case: (hk k j hj).
- by move=> f k /(hv f) [].
rewrite [obind (Ok _) _]/obind.
congr (Ok (qap_eval_is_satisfied _ _)).
case: qe {hqe} r1 r2 r3 r4 r5 z1 z2 z3 hH hZ hk' => /= nv m ni D' t' At Bt Ct Ht Zt
  -> -> -> -> -> z1 z2 z3 -> -> hk'.
congr QapEvaluation; apply: (@eq_from_nth _ 0); rewrite ?size_mkseq ?z1 ?z2 ?z3 // => i hi;
  rewrite nth_mkseq //; by case: (hk' i).
Qed.

(** ** What acceptance means *)

Lemma qap_accept t q (w : qap_witness F) :
  r1cs_to_qap_instance_map_with_evaluation D cs t = Ok q ->
  let Z := vanishing (d_points D) in
  qap_eval_is_satisfied q w =
  [&& qw_num_variables w == num_variables cs, qw_degree w == d_size D,
      qw_num_inputs w == num_inputs cs, size (qw_ABCs w) == num_variables cs,
      size (qw_H w) == (d_size D).+1 &
      ((row_poly D (A_updates cs) (qw_ABCs w) + qw_d1 w *: Z) *
       (row_poly D (qap_updates (@c_b F) cs) (qw_ABCs w) + qw_d2 w *: Z) -
       (row_poly D (qap_updates (@c_c F) cs) (qw_ABCs w) + qw_d3 w *: Z)).[t]
      == (Poly (qw_H w) * Z).[t]].
Proof.
move=> hq Z; have [q' hq' [[r1 r2 r3 r4 r5] [z1 z2 z3] hH hZ hk']] := qap_eval_ok t.
have e : q' = q by move: hq'; rewrite hq => -[].
subst q'; rewrite /qap_eval_is_satisfied r1 r2 r3 r4 r5 z1 z2 z3 hH hZ.
rewrite size_powers; move eP: (powers _ t) => Pw.
rewrite [qw_num_variables w == _]eq_sym [qw_degree w == _]eq_sym [qw_num_inputs w == _]eq_sym.
rewrite [size (qw_ABCs w) == _]eq_sym [size (qw_H w) == _]eq_sym.
case: eqP => //= h1; case: eqP => //= h2; case: eqP => //= h3; case: eqP => //= h4.
case: eqP => //= h5; rewrite !eqxx /= -eP.
rewrite add0r inner_powers //.
have nv := h4.
rewrite addrAC (@answer_poly _ D (A_updates cs) _ _ t _ upd_A z1 (esym nv)); last by move=> k _; case: (hk' k).
rewrite [_ + _ + inner (behead (qe_Bt q)) _]addrAC.
rewrite (@answer_poly _ D (qap_updates (@c_b F) cs) _ _ t _ upd_B z2 (esym nv)); last by move=> k _; case: (hk' k).
rewrite [_ + _ + inner (behead (qe_Ct q)) _]addrAC.
rewrite (@answer_poly _ D (qap_updates (@c_c F) cs) _ _ t _ upd_C z3 (esym nv)); last by move=> k _; case: (hk' k).
rewrite hornerD hornerN !hornerM !hornerD !hornerZ /compute_vanishing_polynomial -/Z.
by case: eqP.
Qed.

(** Row values. *)
Lemma A_row w i : row_sum (A_updates cs) w i =
  (if (num_constraints cs <= i <= num_constraints cs + num_inputs cs)%N
   then xval w (i - num_constraints cs) else 0) +
  formal_sum (c_a (nth no_constraint (constraints cs) i)) w.
Proof. by rewrite row_sum_cat row_sum_inputs row_sum_qap. Qed.

(** Satisfaction is divisibility. *)
Lemma qap_dvd w :
  (vanishing (d_points D) %|
     row_poly D (A_updates cs) w * row_poly D (qap_updates (@c_b F) cs) w -
     row_poly D (qap_updates (@c_c F) cs) w) <-> r1cs_holds cs w.
Proof.
rewrite dvd_values; split=> h.
- move=> c /(In_nth_seq no_constraint) [i hi <-].
  have := h i (leq_trans hi (large_nc hm)).
  rewrite hornerD hornerN hornerM !row_poly_nth ?(leq_trans hi (large_nc hm)) //.
  rewrite A_row !row_sum_qap //.
  rewrite leqNgt hi /= add0r => /eqP; rewrite subr_eq0 => /eqP.
  exact.
- move=> i hi; rewrite hornerD hornerN hornerM !row_poly_nth // A_row !row_sum_qap //.
  case: (ltnP i (num_constraints cs)) => hi2.
    have := h _ (nth_In_seq no_constraint hi2); rewrite /constraint_holds => <-.
    by rewrite add0r subrr.
  rewrite (nth_default no_constraint hi2) /= !formal_sum_nil.
  by rewrite mulr0 subr0.
Qed.

(** ** The witness map *)

Lemma add_evaluationsE (s : sel) full v : s no_constraint = [::] ->
  (forall c, List.In c (constraints cs) -> in_range (size full) (s c)) ->
  add_evaluations s cs full v =
  ofold (@vec_add F) v [seq (p.1, formal_sum (s p.2) full) | p <- enum_from0 (constraints cs)].
Proof.
move=> hs h; rewrite /add_evaluations.
elim: (enum_from0 _) v (fun p (hp : List.In p (enum_from0 (constraints cs))) => h _ (proj2 (enum_In hp)))
  => [|p l IH] v hh //=.
rewrite evaluate_ok /=; last by apply: hh; left.
by case: (vec_add _ _) => //= v'; apply: IH => q hq; apply: hh; right.
Qed.

Lemma eval_list_lt (s : sel) full :
  all (fun e : nat * F => e.1 < d_size D)%N
      [seq (p.1, formal_sum (s p.2) full) | p <- enum_from0 (constraints cs)].
Proof.
rewrite all_map; apply/all_InP => p /enum_In [/andP [_ h] _] /=.
exact: leq_trans h (large_nc hm).
Qed.

Lemma eval_vector (s : sel) full : s no_constraint = [::] ->
  (forall c, List.In c (constraints cs) -> in_range (size full) (s c)) ->
  add_evaluations s cs full (nseq (d_size D) 0) = Ok (mkseq (row_sum (qap_updates s cs) full) (d_size D)).
Proof.
move=> hs h; rewrite add_evaluationsE // vec_from_zero ?eval_list_lt //.
congr Ok; apply: eq_mkseq => i.
rewrite row_sum_qap // (@add_sum_enum _ _ (fun c => formal_sum (s c) full) no_constraint) ?subn0 //.
by rewrite hs formal_sum_nil.
Qed.

Lemma input_vector full : (num_inputs cs <= size full)%N ->
  (forall c, List.In c (constraints cs) -> in_range (size full) (c_a c)) ->
  (let! aA := ofold (fun v i =>
                let! x := (if i is i'.+1 then oget full i' else Ok 1) in
                vec_set v ((i + num_constraints cs)%N, x))
              (nseq (d_size D) 0) (iota 0 (num_inputs cs).+1) in
   add_evaluations (@c_a F) cs full aA)
  = Ok (mkseq (row_sum (A_updates cs) full) (d_size D)).
Proof.
move=> hni h.
have -> : ofold (fun v i =>
                let! x := (if i is i'.+1 then oget full i' else Ok 1) in
                vec_set v ((i + num_constraints cs)%N, x))
              (nseq (d_size D) 0) (iota 0 (num_inputs cs).+1) =
   ofold (@vec_add F) (nseq (d_size D) 0)
      [seq (i + num_constraints cs, xval full i)%N | i <- iota 0 (num_inputs cs).+1].
  rewrite -vec_set_fold; last 2 first.
  - by rewrite -map_comp map_inj_uniq ?iota_uniq // => i j /= /addIn.
  - by apply/allP => e _; rewrite nth_nseq if_same.
  set s := iota _ _; have : forall i, i \in s -> (i <= size full)%N.
    by move=> i; rewrite mem_iota add0n ltnS => /andP [_ hi]; apply: leq_trans hi hni.
  elim: s (nseq _ _) => [|i s IH] v //= hs.
  have -> : (match i with 0 => Ok 1 | i'.+1 => oget full i' end) = Ok (xval full i).
    case: i hs => // i hs; rewrite (oget_nth 0) //.
    by apply: (hs i.+1); rewrite inE eqxx.
  rewrite /=; case: (vec_set _ _) => //= v'; apply: IH => j hj.
  by apply: hs; rewrite inE hj orbT.
set L1 := [seq _ | i <- _]; pose L2 := [seq (p.1, formal_sum (c_a p.2) full) | p <- enum_from0 (constraints cs)].
transitivity (ofold (@vec_add F) (nseq (d_size D) 0) (L1 ++ L2)).
  by rewrite ofold_cat; case: (ofold _ _ L1) => //= v; rewrite add_evaluationsE.
rewrite vec_from_zero; last first.
  rewrite all_cat eval_list_lt andbT /L1 all_map; apply/allP => i.
  rewrite mem_iota add0n ltnS => /andP [_ hi] /=; apply: leq_trans hm.
  by rewrite addn1 ltnS addnC leq_add2l.
congr Ok; apply: eq_mkseq => i; rewrite add_sum_cat row_sum_cat.
congr (_ + _).
  rewrite row_sum_inputs /L1 /add_sum big_map.
  rewrite (eq_bigl (fun j => (num_constraints cs <= i)%N && (j == i - num_constraints cs)%N)); last first.
    move=> j /=; case: leqP => hle /=; last by apply/eqP => e; rewrite -e ltnNge leq_addl in hle.
    by rewrite -(eqn_add2r (num_constraints cs) j) subnK.
  case: leqP => hle; rewrite ?andTb ?andFb; last by rewrite big_pred0.
  have -> : (i <= num_constraints cs + num_inputs cs)%N = (i - num_constraints cs < 0 + (num_inputs cs).+1)%N.
    by rewrite add0n ltnS leq_subLR.
  case: ifP => h'.
    rewrite (big_rem (i - num_constraints cs)%N); last by rewrite mem_iota.
    rewrite eqxx big1_seq; first by rewrite /= addr0.
    by move=> j /andP [/andP [_ /eqP ->]]; rewrite mem_rem_uniqF ?iota_uniq.
  by apply: big1_seq => j /andP [/eqP ->]; rewrite mem_iota h' andbF.
rewrite row_sum_qap // (@add_sum_enum _ _ (fun c => formal_sum (c_a c) full) no_constraint) ?subn0 //.
by rewrite formal_sum_nil.
Qed.

(** ** Completeness *)
Lemma witness_map_ok p a d1 d2 d3 : r1cs_is_satisfied cs p a = Ok true ->
  exists2 w : qap_witness F, r1cs_to_qap_witness_map D cs p a d1 d2 d3 = Ok w &
  [/\ [/\ qw_num_variables w = num_variables cs, qw_degree w = d_size D,
          qw_num_inputs w = num_inputs cs & size (qw_ABCs w) = num_variables cs],
      [/\ qw_d1 w = d1, qw_d2 w = d2, qw_d3 w = d3 & qw_ABCs w = p ++ a],
      size (qw_H w) = (d_size D).+1 &
      let Z := vanishing (d_points D) in
      Poly (qw_H w) * Z =
      (row_poly D (A_updates cs) (p ++ a) + d1 *: Z) * (row_poly D (qap_updates (@c_b F) cs) (p ++ a) + d2 *: Z)
      - (row_poly D (qap_updates (@c_c F) cs) (p ++ a) + d3 *: Z)].
Proof.
move=> hsat; have [hp ha _ hh] := r1cs_is_satisfied_true hsat.
have hn : size (p ++ a) = num_variables cs by rewrite size_cat hp ha.
rewrite /r1cs_to_qap_witness_map hsat obindE oassertT.
set full := p ++ a; set aA0 := ofold _ _ (iota _ _).
have hfr : forall c, List.In c (constraints cs) ->
  [/\ in_range (size full) (c_a c), in_range (size full) (c_b c) & in_range (size full) (c_c c)].
  by rewrite hn; apply: constraints_in_range.
rewrite -obind_assoc input_vector; last first.
- by move=> c /hfr [].
- by rewrite hn; apply: num_inputs_le.
rewrite obindE eval_vector //; last by move=> c /hfr [].
rewrite obindE eval_vector //; last by move=> c /hfr [].
rewrite obindE; set Hl := add_first_m _ _ _.
have [sH pH] : size Hl = (d_size D).+1 /\ Poly Hl * vanishing (d_points D) =
    row_poly D (A_updates cs) full * row_poly D (qap_updates (@c_b F) cs) full
    - row_poly D (qap_updates (@c_c F) cs) full
    + (d2 *: row_poly D (A_updates cs) full + d1 *: row_poly D (qap_updates (@c_b F) cs) full
       - d3%:P + (d1 * d2) *: vanishing (d_points D)) * vanishing (d_points D).
  apply: H_poly; rewrite ?size_row_poly ?qap_dvd //.
  - by rewrite size_add_poly_Z ?size_sub_first ?size_patch.
  - rewrite Poly_add_poly_Z ?size_sub_first ?size_patch //; congr (_ + _).
    rewrite Poly_sub_first; last by rewrite -size_eq0 size_patch.
    congr (_ - _); apply: patch_poly.
      apply: leq_trans (size_add _ _) _; rewrite geq_max.
      by rewrite !(leq_trans (size_scale_leq _ _)) // size_row_poly.
    by move=> i hi; rewrite coefD !coefZ /iFFT !nth_coeffs.
  - by rewrite size_mkseq.
  - move=> i hi; rewrite nth_mkseq // nth_mkseq // hornerD hornerN hornerM.
    by rewrite /iFFT !coset_value // size_row_poly.
clearbody Hl; eexists; first by []; split=> //.
rewrite pH /= -!mul_polyC; move: (row_poly _ _ _) (row_poly _ _ _) (row_poly _ _ _) => A B C.
by rewrite polyCM -qap_identity.
Qed.

Theorem qap_complete p a d1 d2 d3 t : r1cs_is_satisfied cs p a = Ok true ->
  exists (w : qap_witness F) q qe,
  [/\ r1cs_to_qap_witness_map D cs p a d1 d2 d3 = Ok w,
      r1cs_to_qap_instance_map D cs = Ok q,
      r1cs_to_qap_instance_map_with_evaluation D cs t = Ok qe,
      qap_is_satisfied q t w = Ok true & qap_eval_is_satisfied qe w].
Proof.
move=> hsat; have [w hw [[w1 w2 w3 w4] [w5 w6 w7 w8] sH pH]] := witness_map_ok d1 d2 d3 hsat.
have [q [qe [h1 h2 h3]]] := qap_instances_agree t.
have hacc : qap_eval_is_satisfied qe w.
  by rewrite (qap_accept _ h2) w1 w2 w3 w4 w5 w6 w7 w8 sH pH !eqxx.
by exists w, q, qe; split=> //; rewrite h3 hacc.
Qed.

(** ** Soundness: an assignment accepted at more than [2m] points, hence the
    polynomial identity, satisfies the constraint system. *)
Theorem qap_sound_many (w : qap_witness F) ts : uniq ts -> (2 * d_size D < size ts)%N ->
  (forall t, t \in ts -> exists2 qe, r1cs_to_qap_instance_map_with_evaluation D cs t = Ok qe &
                         qap_eval_is_satisfied qe w) ->
  size (qw_ABCs w) = num_variables cs /\ r1cs_holds cs (qw_ABCs w).
Proof.
move=> hu hs hacc.
have hacc' : forall t, t \in ts ->
  [&& qw_num_variables w == num_variables cs, qw_degree w == d_size D,
      qw_num_inputs w == num_inputs cs, size (qw_ABCs w) == num_variables cs,
      size (qw_H w) == (d_size D).+1 &
      ((row_poly D (A_updates cs) (qw_ABCs w) + qw_d1 w *: vanishing (d_points D)) *
       (row_poly D (qap_updates (@c_b F) cs) (qw_ABCs w) + qw_d2 w *: vanishing (d_points D)) -
       (row_poly D (qap_updates (@c_c F) cs) (qw_ABCs w) + qw_d3 w *: vanishing (d_points D))).[t]
      == (Poly (qw_H w) * vanishing (d_points D)).[t]].
  by move=> t /hacc [qe hq]; rewrite (qap_accept _ hq).
have [t0 ht0] : exists t, t \in ts by case: (ts) hs => // t l _; exists t; rewrite inE eqxx.
have /and5P [_ _ _ /eqP hn /andP [/eqP hH _]] := hacc' _ ht0.
split=> //; rewrite -qap_dvd.
have hid := @many_points _ _ _ ts (2 * d_size D).+1 hu hs
  (size_sub_bound (size_mul_bound (size_shifted D (A_updates cs) (qw_ABCs w) (qw_d1 w))
                                  (size_shifted D (qap_updates (@c_b F) cs) (qw_ABCs w) (qw_d2 w)))
     (leq_trans (size_shifted D (qap_updates (@c_c F) cs) (qw_ABCs w) (qw_d3 w))
                (leq_pmull _ (isT : 0 < 2)%N : (d_size D < (2 * d_size D).+1)%N)))
  (size_HZ hH).
have : all (fun t => ((row_poly D (A_updates cs) (qw_ABCs w) + qw_d1 w *: vanishing (d_points D)) *
       (row_poly D (qap_updates (@c_b F) cs) (qw_ABCs w) + qw_d2 w *: vanishing (d_points D)) -
       (row_poly D (qap_updates (@c_c F) cs) (qw_ABCs w) + qw_d3 w *: vanishing (d_points D))).[t]
      == (Poly (qw_H w) * vanishing (d_points D)).[t]) ts.
  by apply/allP => t /hacc' /and5P [_ _ _ _ /andP [_ ->]].
move/hid; rewrite -!mul_polyC -qap_identity => e.
have -> : row_poly D (A_updates cs) (qw_ABCs w) * row_poly D (qap_updates (@c_b F) cs) (qw_ABCs w) -
   row_poly D (qap_updates (@c_c F) cs) (qw_ABCs w) =
  (Poly (qw_H w) - ((qw_d2 w)%:P * row_poly D (A_updates cs) (qw_ABCs w) +
      (qw_d1 w)%:P * row_poly D (qap_updates (@c_b F) cs) (qw_ABCs w) - (qw_d3 w)%:P +
      (qw_d1 w)%:P * (qw_d2 w)%:P * vanishing (d_points D))) * vanishing (d_points D).
  by rewrite mulrBl -e addrK.
exact: dvdp_mull.
Qed.

(** ** Independent form of divisibility *)
Lemma qap_divisible_iff x : size x = num_variables cs -> qap_divisible D cs x <-> r1cs_holds cs x.
Proof.
move=> hx; rewrite -qap_dvd.
pose col sel t cols := exists2 qe : qap_evaluation F,
  r1cs_to_qap_instance_map_with_evaluation D cs t = Ok qe & cols = sel qe :> seq F.
have ex sel : forall t, exists cols, col sel t cols.
  by move=> t; have [qe h _] := qap_eval_ok t; exists (sel qe), qe.
have cA : combined_polynomial D (col (@qe_At F)) x (row_poly D (A_updates cs) x).
  apply: combined_row_poly upd_A _ hx => t cols [qe hq ->].
  have [qe' + [_ [s1 s2 s3] _ _ hk]] := qap_eval_ok t; rewrite hq => -[e]; subst qe'.
  by split=> // k; case: (hk k).
have cB : combined_polynomial D (col (@qe_Bt F)) x (row_poly D (qap_updates (@c_b F) cs) x).
  apply: combined_row_poly upd_B _ hx => t cols [qe hq ->].
  have [qe' + [_ [s1 s2 s3] _ _ hk]] := qap_eval_ok t; rewrite hq => -[e]; subst qe'.
  by split=> // k; case: (hk k).
have cC : combined_polynomial D (col (@qe_Ct F)) x (row_poly D (qap_updates (@c_c F) cs) x).
  apply: combined_row_poly upd_C _ hx => t cols [qe hq ->].
  have [qe' + [_ [s1 s2 s3] _ _ hk]] := qap_eval_ok t; rewrite hq => -[e]; subst qe'.
  by split=> // k; case: (hk k).
split; last by exists (row_poly D (A_updates cs) x), (row_poly D (qap_updates (@c_b F) cs) x),
  (row_poly D (qap_updates (@c_c F) cs) x).
case=> A [B [C [hA hB hC]]].
by rewrite (combined_unique (ex _) cA hA) (combined_unique (ex _) cB hB) (combined_unique (ex _) cC hC).
Qed.

(** ** Columns *)
Lemma qap_columns t : exists q qe,
  [/\ r1cs_to_qap_instance_map D cs = Ok q,
      r1cs_to_qap_instance_map_with_evaluation D cs t = Ok qe,
      (forall k P, (k <= num_variables cs)%N ->
        [/\ column_polynomial D (nth [::] (q_A q) k) P -> (qe_At qe)`_k = P.[t],
            column_polynomial D (nth [::] (q_B q) k) P -> (qe_Bt qe)`_k = P.[t] &
            column_polynomial D (nth [::] (q_C q) k) P -> (qe_Ct qe)`_k = P.[t]]),
      (forall i, (i <= d_size D)%N -> (qe_Ht qe)`_i = t ^+ i) /\ qe_Zt qe = (vanishing (d_points D)).[t] &
      forall w : qap_witness F, qap_is_satisfied q t w = Ok (qap_eval_is_satisfied qe w)].
Proof.
have [q [qe [h1 h2 h3]]] := qap_instances_agree t; exists q, qe; split=> //.
- move=> k P hk.
  have [q' + [_ _ hv _]] := qap_plain_ok; rewrite h1 => -[e]; subst q'.
  have [qe' + [_ _ _ _ hk']] := qap_eval_ok t; rewrite h2 => -[e]; subst qe'.
  have [k1 k2 k3] := hk' k; rewrite k1 k2 k3.
  split=> -[hs hp]; [apply: column_poly upd_A _ hs hp|apply: column_poly upd_B _ hs hp|apply: column_poly upd_C _ hs hp];
    by move=> f; case: (hv f k hk).
- have [qe' + [_ _ hH hZ _]] := qap_eval_ok t; rewrite h2 => -[e]; subst qe'.
  by split=> // i hi; rewrite hH powersE.
Qed.

End Instance.

(** ** Final forms *)
Theorem qap_completeness D cs p a d1 d2 d3 :
  qap_large D cs -> r1cs_is_satisfied cs p a = Ok true ->
  exists2 w : qap_witness F,
    r1cs_to_qap_witness_map D cs p a d1 d2 d3 = Ok w &
    [/\ qw_ABCs w = p ++ a, size (qw_H w) = (d_size D).+1,
        [/\ qw_d1 w = d1, qw_d2 w = d2 & qw_d3 w = d3] &
        forall t, exists q qe,
          [/\ r1cs_to_qap_instance_map D cs = Ok q,
              r1cs_to_qap_instance_map_with_evaluation D cs t = Ok qe,
              qap_is_satisfied q t w = Ok true & qap_eval_is_satisfied qe w]].
Proof.
move=> hm hsat; have [_ _ hr _] := r1cs_is_satisfied_true hsat.
have [w hw [_ [w5 w6 w7 w8] sH _]] := witness_map_ok hr hm d1 d2 d3 hsat.
exists w => //; split=> // t.
by have [w' [q [qe [+ h2 h3 h4 h5]]]] := qap_complete hr hm d1 d2 d3 t hsat; rewrite hw => -[e]; subst w'; exists q, qe.
Qed.

Theorem qap_soundness D cs p a (w : qap_witness F) ts :
  qap_large D cs -> r1cs_in_range cs -> ~ r1cs_holds cs (p ++ a) ->
  qw_ABCs w = p ++ a -> uniq ts ->
  (forall t, t \in ts ->
     (exists2 qe, r1cs_to_qap_instance_map_with_evaluation D cs t = Ok qe & qap_eval_is_satisfied qe w) \/
     (exists2 q, r1cs_to_qap_instance_map D cs = Ok q & qap_is_satisfied q t w = Ok true)) ->
  (size ts <= 2 * d_size D)%N.
Proof.
move=> hm hr hn hw hu hts; rewrite leqNgt; apply/negP => hs; apply: hn.
rewrite -hw; apply: (proj2 (qap_sound_many hr hm hu hs _)) => t /hts.
have [q [qe [h1 h2 h3]]] := qap_instances_agree hr hm t.
case=> -[q' hq' hacc]; first by exists q'.
by move: hq'; rewrite h1 => -[e]; subst q'; exists qe => //; move: hacc; rewrite h3 => -[->].
Qed.

End QapFacts.
