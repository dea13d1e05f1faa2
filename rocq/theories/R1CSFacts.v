(** Proofs about R1CS.v. *)
From mathcomp Require Import all_ssreflect all_algebra.
From Verif Require Import Outcome Lincomb LincombSpec LincombFacts R1CS R1CSSpec Fieldtac.
Import GRing.Theory.
Set Implicit Arguments.
Unset Strict Implicit.
Unset Printing Implicit Defensive.
Local Open Scope ring_scope.

Section Facts.
Variable F : fieldType.
Implicit Types (cs : r1cs F) (x : seq F).

Definition constraint_holdsb (c : r1cs_constraint F) (x : seq F) : bool :=
  formal_sum (c_a c) x * formal_sum (c_b c) x == formal_sum (c_c c) x.

Lemma check_constraintsE l x : all (constraint_in_range (size x)) l ->
  check_constraints l x = Ok (all (constraint_holdsb ^~ x) l).
Proof.
elim: l => [|c l IH] //= /andP [/and3P [ha hb hc] hl].
rewrite !evaluate_ok //=.
by rewrite /constraint_holdsb; case: eqP => //= _; rewrite IH.
Qed.

Lemma all_InP (T : Type) (p : T -> bool) (l : seq T) :
  reflect (forall c, List.In c l -> p c) (all p l).
Proof.
elim: l => [|a l IH] /=; first by left.
apply: (iffP andP) => [[h1 /IH h2] c [<-|] //|h]; first by apply: h2.
by split; [apply: h; left | apply/IH => c hc; apply: h; right].
Qed.

Lemma r1cs_holdsP cs x :
  reflect (r1cs_holds cs x) (all (constraint_holdsb ^~ x) (constraints cs)).
Proof.
apply: (iffP (all_InP _ _)) => h c hc.
  by apply/eqP; apply: (h c hc).
by apply/eqP; apply: (h c hc).
Qed.

Lemma r1cs_is_satisfied_iff cs p a :
  r1cs_in_range cs -> size p = num_inputs cs -> size a = auxiliary_input_size cs ->
  exists2 b, r1cs_is_satisfied cs p a = Ok b & b <-> r1cs_holds cs (p ++ a).
Proof.
move=> hr hp ha.
have hn : size (p ++ a) = num_variables cs by rewrite size_cat hp ha.
exists (all (constraint_holdsb ^~ (p ++ a)) (constraints cs)).
  rewrite /r1cs_is_satisfied hp eqxx /= ha eqxx /=.
  by apply: check_constraintsE; rewrite hn.
by split=> [/r1cs_holdsP | h] //; apply/r1cs_holdsP.
Qed.

Lemma r1cs_is_satisfied_sizes cs p a :
  (size p != num_inputs cs) || (size p + size a != num_variables cs)%N ->
  r1cs_is_satisfied cs p a = AssertFail.
Proof.
rewrite /r1cs_is_satisfied; case: eqP => //= _ h.
by rewrite /oassert (negbTE h).
Qed.

(** The loop stops at the first violated constraint: exact behaviour without
    assuming that all indices are in range. *)
Lemma check_constraints_true l x :
  check_constraints l x = Ok true -> all (constraint_in_range (size x)) l /\
                                     all (constraint_holdsb ^~ x) l.
Proof.
elim: l => [|c l IH] //=.
case ha: (in_range (size x) (c_a c)); last by rewrite evaluate_ub ?ha.
rewrite evaluate_ok //=.
case hb: (in_range (size x) (c_b c)); last by rewrite [X in obind X _]evaluate_ub ?hb.
rewrite evaluate_ok //=.
case hc: (in_range (size x) (c_c c)); last by rewrite [X in obind X _]evaluate_ub ?hc.
rewrite evaluate_ok //=; case: eqP => //= e /IH [-> ->].
by rewrite /constraint_in_range ha hb hc /constraint_holdsb e eqxx.
Qed.

Lemma r1cs_is_satisfied_true cs p a :
  r1cs_is_satisfied cs p a = Ok true ->
  [/\ size p = num_inputs cs, size a = auxiliary_input_size cs,
      r1cs_in_range cs & r1cs_holds cs (p ++ a)].
Proof.
rewrite /r1cs_is_satisfied; case: eqP => //= hp; case: eqP => //= ha h.
have ha' : size a = auxiliary_input_size cs.
  by move: ha; rewrite /num_variables hp; exact: addnI.
have hn : size (p ++ a) = num_variables cs by rewrite size_cat ha.
case: (check_constraints_true h) => h1 h2; split=> //.
  by rewrite /r1cs_in_range -hn.
by apply/r1cs_holdsP.
Qed.

Lemma r1cs_is_satisfied_ok_true cs p a :
  r1cs_in_range cs -> size p = num_inputs cs -> size a = auxiliary_input_size cs ->
  r1cs_holds cs (p ++ a) -> r1cs_is_satisfied cs p a = Ok true.
Proof.
move=> h1 h2 h3 h4; case: (r1cs_is_satisfied_iff h1 h2 h3) => b -> [_ /(_ h4)].
by case: b.
Qed.

(** ** swap_AB_if_beneficial *)

Lemma touchE v (l : linear_combination F) n m : m = n.+1 -> size v = m -> in_range n l ->
  touch v l = Ok [seq nth false v i || occurs_in i l | i <- iota 0 m].
Proof.
rewrite /touch => hm hv.
elim: l v hv => [|t l IH] v hv /=.
  move=> _; congr Ok; apply: (@eq_from_nth _ false).
    by rewrite size_map size_iota.
  move=> i hi.
  have hi' : (i < m)%N by rewrite -hv.
  by rewrite (nth_map 0%N) ?size_iota // nth_iota // orbF add0n.
case/andP=> h1 h2; have h1' : (t.1 < size v)%N by rewrite hv hm.
rewrite (oput_set_nth false) //= IH //; last first.
  by rewrite size_set_nth hv hm; apply/maxn_idPr.
congr Ok; apply/eq_in_map => i; rewrite mem_iota /= => hi.
rewrite nth_set_nth /= /lt_index eq_sym.
by case: (t.1 == i); rewrite // orbT.
Qed.

Lemma map_nth_iota (T : Type) (d : T) (v : seq T) m : size v = m ->
  [seq nth d v i | i <- iota 0 m] = v.
Proof.
move=> hv; apply: (@eq_from_nth _ d); first by rewrite size_map size_iota.
move=> i; rewrite size_map size_iota => hi.
by rewrite (nth_map 0%N) ?size_iota // nth_iota // add0n.
Qed.

Lemma touch_allE n m (l : seq (r1cs_constraint F)) : m = n.+1 ->
  all (constraint_in_range n) l ->
  touch_all n l = Ok ([seq has (fun c => occurs_in i (c_a c)) l | i <- iota 0 m],
                      [seq has (fun c => occurs_in i (c_b c)) l | i <- iota 0 m]).
Proof.
rewrite /touch_all => hm hl; rewrite -hm.
suff gen : forall va vb, size va = m -> size vb = m ->
  ofold (fun ab c => let! a := touch ab.1 (c_a c) in
                     let! b := touch ab.2 (c_b c) in Ok (a, b)) (va, vb) l =
  Ok ([seq nth false va i || has (fun c => occurs_in i (c_a c)) l | i <- iota 0 m],
      [seq nth false vb i || has (fun c => occurs_in i (c_b c)) l | i <- iota 0 m]).
  rewrite gen ?size_nseq //.
  congr (Ok (_, _)); apply/eq_in_map => i; rewrite mem_iota => /= hi;
    by rewrite nth_nseq /= ; case: ifP.
elim: l hl => [|c l IH] /=.
  move=> _ va vb ha hb; congr (Ok (_, _)).
    by rewrite -[LHS](map_nth_iota false ha); apply/eq_map => i; rewrite orbF.
  by rewrite -[LHS](map_nth_iota false hb); apply/eq_map => i; rewrite orbF.
move=> /andP [/and3P [h1 h2 _] h3] va vb ha hb.
rewrite (touchE hm ha h1) /= (touchE hm hb h2) /= IH //=; try by rewrite ?size_map size_iota.
congr (Ok (_, _)); apply/eq_in_map => i;
  rewrite mem_iota => /andP [_ hi]; rewrite add0n in hi;
  by rewrite (nth_map 0%N) ?size_iota // nth_iota // add0n orbA.
Qed.

Lemma swap_AB_ok cs : r1cs_in_range cs ->
  swap_AB_if_beneficial cs =
  Ok (if (count_A cs < count_B cs)%N
      then R1cs (primary_input_size cs) (auxiliary_input_size cs)
                (map (@swap_constraint F) (constraints cs))
      else cs).
Proof.
move=> h; rewrite /swap_AB_if_beneficial (touch_allE (erefl _)) //.
have ca : count id [seq has (fun c => occurs_in i (c_a c)) (constraints cs)
                   | i <- iota 0 (num_variables cs).+1] = count_A cs by rewrite count_map.
have cb : count id [seq has (fun c => occurs_in i (c_b c)) (constraints cs)
                   | i <- iota 0 (num_variables cs).+1] = count_B cs by rewrite count_map.
by rewrite /obind [fst _]/= [snd _]/= ca cb; case: ifP.
Qed.

Lemma swap_constraint_holds (c : r1cs_constraint F) x :
  constraint_holds (swap_constraint c) x <-> constraint_holds c x.
Proof. by rewrite /constraint_holds /= mulrC. Qed.

Lemma In_map (A B : Type) (f : A -> B) (l : seq A) b :
  List.In b (map f l) <-> exists2 a, List.In a l & b = f a.
Proof.
elim: l => [|a l IH] /=; first by split=> // -[].
split=> [[<-|/IH [a' h ->]]|[a' [<-|h] e]].
- by exists a; [left|].
- by exists a'; [right|].
- by left.
- by right; apply/IH; exists a'.
Qed.

Lemma swap_holds cs x p a :
  r1cs_holds (R1cs p a (map (@swap_constraint F) (constraints cs))) x <-> r1cs_holds cs x.
Proof.
split=> h c hc.
  apply/swap_constraint_holds; apply: h => /=.
  by apply/In_map; exists c.
by move: hc => /= /In_map [c' hc' ->]; apply/swap_constraint_holds; apply: h.
Qed.

Lemma swap_in_range cs p a : (p + a)%N = num_variables cs ->
  r1cs_in_range (R1cs p a (map (@swap_constraint F) (constraints cs))) = r1cs_in_range cs.
Proof.
move=> e; rewrite /r1cs_in_range /num_variables /= e all_map.
apply: eq_all => c /=; rewrite /constraint_in_range /=.
by rewrite !andbA [in_range _ (c_b c) && _]andbC.
Qed.

Lemma has_swap_A i (l : seq (r1cs_constraint F)) :
  has (fun c => occurs_in i (c_a c)) (map (@swap_constraint F) l) =
  has (fun c => occurs_in i (c_b c)) l.
Proof. by rewrite has_map. Qed.

Lemma has_swap_B i (l : seq (r1cs_constraint F)) :
  has (fun c => occurs_in i (c_b c)) (map (@swap_constraint F) l) =
  has (fun c => occurs_in i (c_a c)) l.
Proof. by rewrite has_map. Qed.

Lemma swap_AB_spec cs : r1cs_in_range cs ->
  exists2 cs', swap_AB_if_beneficial cs = Ok cs' &
  [/\ primary_input_size cs' = primary_input_size cs,
      auxiliary_input_size cs' = auxiliary_input_size cs,
      num_constraints cs' = num_constraints cs /\ r1cs_in_range cs',
      (count_B cs' <= count_A cs')%N &
      forall x, r1cs_holds cs' x <-> r1cs_holds cs x].
Proof.
move=> h; rewrite swap_AB_ok //; case: (ltnP (count_A cs)) => hc.
  eexists; first by [].
  split=> //=.
  - by rewrite /num_constraints /= size_map swap_in_range.
  - set cs' := R1cs _ _ _.
    have -> : count_A cs' = count_B cs by apply: eq_count => i; apply: has_swap_A.
    have -> : count_B cs' = count_A cs by apply: eq_count => i; apply: has_swap_B.
    exact: ltnW.
  - by move=> x; apply: swap_holds.
by exists cs => //; split.
Qed.

(** ** Validity *)

Definition lc_valid_spec (n : nat) (l : linear_combination F) : bool :=
  sorted ltn (map (@lt_index F) l) && in_range n l.

Lemma lc_is_validE (l : linear_combination F) n : l <> [::] ->
  lc_is_valid l n = Ok (sorted ltn (indices l) && ((0 < n)%N && in_range n.-1 l)).
Proof.
case: l => // t l _; rewrite /lc_is_valid adjacent_increasingE.
case hs: (sorted ltn (indices (t :: l))) => //=.
rewrite -ltnNge; congr Ok; case: n => [|n]; first by rewrite ltn0.
rewrite ltnS [n.+1.-1]/=.
have := @sorted_in_range F n t l hs; rewrite /in_range /= => <-.
by [].
Qed.

Lemma lc_is_valid_empty n : lc_is_valid ([::] : linear_combination F) n = UB.
Proof. by []. Qed.

End Facts.

Section UFacts.
Variable F : fieldType.
Implicit Types (cs : uscs F) (x : seq F).

Lemma u_check_constraintsE (l : seq (uscs_constraint F)) x : all (in_range (size x)) l ->
  u_check_constraints l x = Ok (all (fun c => formal_sum c x ^+ 2 == 1) l).
Proof.
elim: l => [|c l IH] //= /andP [hc hl].
by rewrite evaluate_ok //=; case: eqP => //= _; rewrite IH.
Qed.

Lemma uscs_is_satisfied_iff cs p a :
  uscs_in_range cs -> size p = u_num_inputs cs -> size a = u_auxiliary_input_size cs ->
  exists2 b, uscs_is_satisfied cs p a = Ok b & b <-> uscs_holds cs (p ++ a).
Proof.
move=> hr hp ha.
have hn : size (p ++ a) = u_num_variables cs by rewrite size_cat hp ha.
exists (all (fun c => formal_sum c (p ++ a) ^+ 2 == 1) (u_constraints cs)).
  rewrite /uscs_is_satisfied hp eqxx /= ha eqxx /=.
  by apply: u_check_constraintsE; rewrite hn.
split=> [/all_InP h c hc|h]; first by apply/eqP; apply: (h c hc).
by apply/all_InP => c hc; apply/eqP; apply: h.
Qed.

Lemma u_check_constraints_true (l : seq (uscs_constraint F)) x :
  u_check_constraints l x = Ok true ->
  all (in_range (size x)) l /\ all (fun c => formal_sum c x ^+ 2 == 1) l.
Proof.
elim: l => [|c l IH] //=.
case ha: (in_range (size x) c); last by rewrite evaluate_ub ?ha.
by rewrite evaluate_ok //=; case: eqP => //= _ /IH [-> ->].
Qed.

Lemma uscs_is_satisfied_true cs p a :
  uscs_is_satisfied cs p a = Ok true ->
  [/\ size p = u_num_inputs cs, size a = u_auxiliary_input_size cs,
      uscs_in_range cs & uscs_holds cs (p ++ a)].
Proof.
rewrite /uscs_is_satisfied; case: eqP => //= hp; case: eqP => //= ha h.
have ha' : size a = u_auxiliary_input_size cs.
  by move: ha; rewrite /u_num_variables hp; exact: addnI.
have hn : size (p ++ a) = u_num_variables cs by rewrite size_cat ha.
case: (u_check_constraints_true h) => h1 h2; split=> //.
  by rewrite /uscs_in_range -hn.
by move=> c hc; apply/eqP; move/all_InP: h2; apply.
Qed.

Lemma uscs_is_satisfied_ok_true cs p a :
  uscs_in_range cs -> size p = u_num_inputs cs -> size a = u_auxiliary_input_size cs ->
  uscs_holds cs (p ++ a) -> uscs_is_satisfied cs p a = Ok true.
Proof.
move=> h1 h2 h3 h4; case: (uscs_is_satisfied_iff h1 h2 h3) => b -> [_ /(_ h4)].
by case: b.
Qed.

Lemma uscs_is_satisfied_sizes cs p a :
  (size p != u_num_inputs cs) || (size p + size a != u_num_variables cs)%N ->
  uscs_is_satisfied cs p a = AssertFail.
Proof.
rewrite /uscs_is_satisfied; case: eqP => //= _ h.
by rewrite /oassert (negbTE h).
Qed.

End UFacts.

(** ** Assembled statements used by Prop_Relations.v *)
Section Assembled.
Variable F : fieldType.

Lemma operators_ok (a b : linear_combination F) (c : F) (k : int)
    (v : variable) (t : linear_term F) (x : seq F) :
  in_range (size x) a -> in_range (size x) b -> (v <= size x)%N -> (lt_index t <= size x)%N ->
  exists va vb : F,
    (evaluate a x = Ok va /\ evaluate b x = Ok vb) /\
    [/\ evaluate (lc_add a b) x = Ok (va + vb),
        evaluate (lc_sub a b) x = Ok (va - vb),
        evaluate (lc_neg a) x = Ok (- va),
        evaluate (lc_scale a c) x = Ok (c * va) &
        evaluate (lc_of_const c) x = Ok c] /\
    [/\ evaluate (lc_of_int F k) x = Ok k%:~R,
        evaluate (lc_of_var F v) x = Ok (xval x v),
        evaluate (lc_of_term t) x = Ok (lt_coeff t * xval x (lt_index t)),
        evaluate (var_add_lc v a) x = Ok (xval x v + va) &
        evaluate (var_sub_lc v a) x = Ok (xval x v - va)] /\
    [/\ evaluate (lt_add_lc t a) x = Ok (lt_coeff t * xval x (lt_index t) + va),
        evaluate (lt_sub_lc t a) x = Ok (lt_coeff t * xval x (lt_index t) - va),
        evaluate (const_add_lc c a) x = Ok (c + va),
        evaluate (const_sub_lc c a) x = Ok (c - va) &
        evaluate (add_term a t) x = Ok (va + lt_coeff t * xval x (lt_index t))].
Proof.
move=> ha hb hv ht.
exists (formal_sum a x), (formal_sum b x).
have hn : in_range (size x) (lc_neg a) by rewrite in_range_scale.
have hcv : in_range (size x) (lc_of_var F v) by rewrite /in_range /= hv.
have hct : in_range (size x) (lc_of_term t) by rewrite /in_range /= ht.
split; first by rewrite !evaluate_ok.
split; [|split]; split; rewrite evaluate_ok //.
- by rewrite formal_sum_add.
- by rewrite in_range_add ha hb.
- by rewrite formal_sum_sub.
- by rewrite in_range_sub ha hb.
- by rewrite formal_sum_neg.
- by rewrite formal_sum_scale.
- by rewrite in_range_scale.
- by rewrite formal_sum_const.
- by rewrite formal_sum_int.
- by rewrite formal_sum_var.
- by rewrite formal_sum_term.
- by rewrite /var_add_lc formal_sum_cat formal_sum_var addrC.
- by rewrite /var_add_lc /in_range all_cat; apply/andP.
- by rewrite /var_sub_lc /var_add_lc formal_sum_cat formal_sum_var formal_sum_neg addrC.
- by rewrite /var_sub_lc /var_add_lc /in_range all_cat; apply/andP.
- by rewrite /lt_add_lc formal_sum_add formal_sum_term.
- by rewrite /lt_add_lc in_range_add hct ha.
- by rewrite /lt_sub_lc /lt_add_lc formal_sum_add formal_sum_term formal_sum_neg.
- by rewrite /lt_sub_lc /lt_add_lc in_range_add hct hn.
- by rewrite /const_add_lc formal_sum_add formal_sum_const.
- by rewrite /const_add_lc in_range_add ha.
- by rewrite /const_sub_lc formal_sum_sub formal_sum_const.
- by rewrite /const_sub_lc in_range_sub ha.
- by rewrite /add_term -cats1 formal_sum_cat -/(lc_of_term t) formal_sum_term.
- by rewrite /add_term /in_range all_rcons ht.
Qed.

Lemma lc_of_terms_correct (ts : seq (linear_term F)) :
  (exists l, lc_of_terms ts l) /\
  forall l, lc_of_terms ts l ->
    [/\ forall x, evaluate l x = evaluate ts x,
        sorted ltn (map (@lt_index F) l) &
        map (@lt_index F) l =i map (@lt_index F) ts].
Proof.
split; first exact: lc_of_terms_total.
move=> l /lc_of_terms_spec [h1 h2 h3 h4]; split=> // x.
case h: (in_range (size x) ts); first by rewrite !evaluate_ok ?h2 // h1.
by rewrite !evaluate_ub ?h2 ?h.
Qed.

Lemma constraint_of_lists_iff (A B C : seq (linear_combination F)) (x : seq F) :
  constraint_holds (r1cs_constraint_of_lists A B C) x <->
  (\sum_(l <- A) formal_sum l x) * (\sum_(l <- B) formal_sum l x) = \sum_(l <- C) formal_sum l x.
Proof.
have h : forall D, formal_sum (flatten D) x = \sum_(l <- D) formal_sum l x.
  move=> D; rewrite /flatten; elim: D => [|l D IH] /=.
    by rewrite big_nil formal_sum_nil.
  by rewrite big_cons formal_sum_cat IH.
by rewrite /constraint_holds /r1cs_constraint_of_lists /= !h.
Qed.

Lemma lc_is_valid_true (l : linear_combination F) n :
  lc_is_valid l n = Ok true -> lc_valid_spec n l.
Proof.
case: l => [|t l] //; rewrite lc_is_validE // => -[/andP [h1 /andP [h2 h3]]].
apply/andP; split; first exact: h1.
have : in_range n.-1 (t :: l) := h3.
by apply: sub_all => u h; apply: leq_trans h (leq_pred n).
Qed.

Lemma lc_is_valid_exact (l : linear_combination F) (n : nat) :
  (l = [::] -> lc_is_valid l n = UB) /\
  (l <> [::] -> lc_is_valid l n =
     Ok (sorted ltn (map (@lt_index F) l) && ((0 < n)%N && in_range n.-1 l))) /\
  (lc_is_valid l n = Ok true -> lc_valid_spec n l).
Proof.
split; first by move=> ->.
split; first exact: lc_is_validE.
exact: lc_is_valid_true.
Qed.

Lemma lc_is_valid_rejects_top n :
  exists l : linear_combination F, lc_valid_spec n l /\ lc_is_valid l n = Ok false.
Proof.
exists [:: (n, 1)]; split; first by rewrite /lc_valid_spec /= leqnn.
by rewrite /lc_is_valid /= /lt_index /= leqnn.
Qed.

Lemma r1cs_is_valid_rejects :
  exists cs : r1cs F,
    [/\ forall c, List.In c (constraints cs) ->
          [/\ lc_valid_spec (num_variables cs) (c_a c), lc_valid_spec (num_variables cs) (c_b c) &
              lc_valid_spec (num_variables cs) (c_c c)],
        r1cs_is_satisfied cs [:: 1] [::] = Ok true & r1cs_is_valid cs = Ok false].
Proof.
exists (R1cs 1 0 [:: R1csConstraint [:: (1%N, 1)] [:: (1%N, 1)] [:: (1%N, 1)]]).
split=> //=.
- by move=> c [<-|].
- rewrite /r1cs_is_satisfied /=.
  by rewrite /evaluate /= !mul1r !add0r mul1r eqxx.
Qed.

Lemma oand_true a b : oand a b = Ok true -> a = Ok true /\ b = Ok true.
Proof. by case: a => //= -[]. Qed.

Lemma r1cs_is_valid_true (cs : r1cs F) :
  r1cs_is_valid cs = Ok true ->
  r1cs_in_range cs /\
  forall c, List.In c (constraints cs) ->
    [/\ lc_valid_spec (num_variables cs) (c_a c), lc_valid_spec (num_variables cs) (c_b c) &
        lc_valid_spec (num_variables cs) (c_c c)].
Proof.
rewrite /r1cs_is_valid; case: ifP => // _.
set n := num_variables cs => h.
have h2 : forall c, List.In c (constraints cs) ->
    [/\ lc_valid_spec n (c_a c), lc_valid_spec n (c_b c) & lc_valid_spec n (c_c c)].
  elim: (constraints cs) h => [|c l IH] //= h c'.
  case/oand_true: h => /oand_true [ha /oand_true [hb hc]] hl.
  case=> [<-|]; last exact: IH.
  by split; apply: lc_is_valid_true.
split=> //; apply/all_InP => c /h2 [/andP [_ h3] /andP [_ h4] /andP [_ h5]].
by apply/and3P; split.
Qed.

Lemma swap_AB_correct (cs : r1cs F) :
  r1cs_in_range cs ->
  exists2 cs', swap_AB_if_beneficial cs = Ok cs' &
    [/\ (num_inputs cs' = num_inputs cs /\ num_variables cs' = num_variables cs) /\
         num_constraints cs' = num_constraints cs,
        r1cs_in_range cs',
        (count_B cs' <= count_A cs')%N,
        constraints cs' =
          if (count_A cs < count_B cs)%N
          then [seq R1csConstraint (c_b c) (c_a c) (c_c c) | c <- constraints cs]
          else constraints cs &
        forall primary auxiliary,
          r1cs_is_satisfied cs' primary auxiliary = r1cs_is_satisfied cs primary auxiliary].
Proof.
move=> hr; have [cs' e [h1 h2 [h3 h4] h5 h6]] := swap_AB_spec hr.
exists cs' => //; split=> //.
- by rewrite /num_inputs /num_variables h1 h2.
- by move: e; rewrite swap_AB_ok // => -[<-]; case: ifP.
move=> p a.
have hn : num_variables cs' = num_variables cs by rewrite /num_variables h1 h2.
case hs: ((size p != num_inputs cs) || (size p + size a != num_variables cs)%N).
  rewrite !r1cs_is_satisfied_sizes // /num_inputs h1 hn; exact: hs.
move/norP: hs => [/negPn/eqP hp /negPn/eqP].
rewrite hp /num_variables => /addnI ha.
have [b -> hb] := r1cs_is_satisfied_iff hr hp ha.
rewrite -h2 in ha; rewrite /num_inputs -h1 in hp.
have [b' -> hb'] := r1cs_is_satisfied_iff h4 hp ha.
have := h6 (p ++ a); case: b b' hb hb' => [] [] //= [q1 q2] [q3 q4] [q5 q6].
  by have := q4 (q6 (q1 isT)).
by have := q2 (q5 (q3 isT)).
Qed.

Lemma swap_AB_ub :
  exists cs : r1cs F, ~~ r1cs_in_range cs /\ swap_AB_if_beneficial cs = UB.
Proof. by exists (R1cs 0 0 [:: R1csConstraint [:: (1%N, 1)] [::] [::]]). Qed.

End Assembled.
