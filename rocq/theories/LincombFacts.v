(** Proofs about the model in Lincomb.v. *)
From mathcomp Require Import all_ssreflect all_algebra.
From Verif Require Import Outcome Lincomb LincombSpec Fieldtac.
Import GRing.Theory.
Set Implicit Arguments.
Unset Strict Implicit.
Unset Printing Implicit Defensive.
Local Open Scope ring_scope.

Section Facts.
Local Arguments lc_add : simpl never.
Variable F : fieldType.
Add Field Ff : (Fth F).
Implicit Types (l a b : linear_combination F) (x : seq F).

Lemma var_valueE x i : (i <= size x)%N -> var_value x i = Ok (xval x i).
Proof. by case: i => //= i h; rewrite (oget_nth 0). Qed.

Lemma var_value_UB x i : (size x < i)%N -> var_value x i = UB.
Proof. by case: i => //= i h; rewrite oget_UB. Qed.

Lemma evaluate_from l x (acc : F) : in_range (size x) l ->
  ofold (fun acc t => let! v := var_value x (lt_index t) in
           Ok (acc + v * lt_coeff t)) acc l = Ok (acc + formal_sum l x).
Proof.
rewrite /formal_sum; elim: l acc => [|t l IH] acc /=.
  by rewrite big_nil addr0.
case/andP=> h1 h2; rewrite /lt_index var_valueE //= IH // big_cons.
by rewrite addrA /lt_coeff [_ * t.2]mulrC.
Qed.

Lemma evaluate_ok l x : in_range (size x) l -> evaluate l x = Ok (formal_sum l x).
Proof. by move=> h; rewrite /evaluate evaluate_from // add0r. Qed.

Lemma evaluate_ub l x : ~~ in_range (size x) l -> evaluate l x = UB.
Proof.
rewrite /evaluate; move: (0 : F).
elim: l => [|t l IH] acc //=; rewrite negb_and.
case: (leqP t.1 (size x)) => /= h1; last by rewrite /lt_index var_value_UB.
by move=> h2; rewrite /lt_index var_valueE //= IH.
Qed.

Lemma formal_sum_cons t l x : formal_sum (t :: l) x = t.2 * xval x t.1 + formal_sum l x.
Proof. by rewrite /formal_sum big_cons. Qed.
Lemma formal_sum_nil x : formal_sum ([::] : seq (nat * F)) x = 0.
Proof. by rewrite /formal_sum big_nil. Qed.
Lemma formal_sum_cat a b x : formal_sum (a ++ b) x = formal_sum a x + formal_sum b x.
Proof. by rewrite /formal_sum big_cat. Qed.

Lemma lc_add_nilr a : lc_add a [::] = a.
Proof. by case: a. Qed.

Lemma lc_add_nil b : lc_add [::] b = b.
Proof. by case: b. Qed.

Lemma lc_add_cons t1 t2 a b : lc_add (t1 :: a) (t2 :: b) =
  if (t1.1 < t2.1)%N then t1 :: lc_add a (t2 :: b)
  else if (t2.1 < t1.1)%N then t2 :: lc_add (t1 :: a) b
  else (t1.1, t1.2 + t2.2) :: lc_add a b.
Proof. by []. Qed.

Lemma formal_sum_add a b x : formal_sum (lc_add a b) x = formal_sum a x + formal_sum b x.
Proof.
elim: a b => [|t1 a IHa] b; first by rewrite lc_add_nil formal_sum_nil add0r.
elim: b => [|t2 b IHb]; first by rewrite lc_add_nilr formal_sum_nil addr0.
rewrite lc_add_cons; case: ltnP => h1.
  by rewrite !formal_sum_cons IHa !formal_sum_cons; fring F.
case: ltnP => h2.
  by rewrite formal_sum_cons IHb !formal_sum_cons; fring F.
have e : t1.1 = t2.1 by apply/eqP; rewrite eqn_leq h1 h2.
by rewrite !formal_sum_cons /= IHa e; fring F.
Qed.

Lemma in_range_add n a b : in_range n (lc_add a b) = in_range n a && in_range n b.
Proof.
elim: a b => [|t1 a IHa] b; first by rewrite lc_add_nil.
elim: b => [|t2 b IHb]; first by rewrite lc_add_nilr andbT.
rewrite lc_add_cons; case: ltnP => h1.
  by rewrite /= IHa /= andbA.
case: ltnP => h2.
  rewrite /= IHb /=; by case: (t2.1 <= n)%N; case: (t1.1 <= n)%N; rewrite ?andbF.
have e : t1.1 = t2.1 by apply/eqP; rewrite eqn_leq h1 h2.
rewrite /= IHa e; by case: (t2.1 <= n)%N; case: (in_range n a); rewrite ?andbF.
Qed.

Lemma formal_sum_scale l c x : formal_sum (lc_scale l c) x = c * formal_sum l x.
Proof.
rewrite /formal_sum /lc_scale big_map mulr_sumr.
by apply: eq_bigr => t _ /=; rewrite mulrA.
Qed.

Lemma in_range_scale n l c : in_range n (lc_scale l c) = in_range n l.
Proof. by rewrite /in_range /lc_scale all_map. Qed.

Lemma formal_sum_neg l x : formal_sum (lc_neg l) x = - formal_sum l x.
Proof. by rewrite /lc_neg formal_sum_scale mulN1r. Qed.

Lemma formal_sum_sub a b x : formal_sum (lc_sub a b) x = formal_sum a x - formal_sum b x.
Proof. by rewrite /lc_sub formal_sum_add formal_sum_neg. Qed.

Lemma in_range_sub n a b : in_range n (lc_sub a b) = in_range n a && in_range n b.
Proof. by rewrite /lc_sub in_range_add in_range_scale. Qed.

Lemma formal_sum_var v x : formal_sum (lc_of_var F v) x = xval x v.
Proof. by rewrite /formal_sum big_seq1 /= mul1r. Qed.

Lemma formal_sum_const c x : formal_sum (lc_of_const c) x = c.
Proof. by rewrite /formal_sum big_seq1 /= mulr1. Qed.

Lemma formal_sum_int c x : formal_sum (lc_of_int F c) x = c%:~R.
Proof. by rewrite /formal_sum big_seq1 /= mulr1. Qed.

Lemma formal_sum_term (t : linear_term F) x : formal_sum (lc_of_term t) x = t.2 * xval x t.1.
Proof. by rewrite /formal_sum big_seq1. Qed.

Lemma formal_sum_perm a b x : perm_eq a b -> formal_sum a x = formal_sum b x.
Proof. by move=> h; rewrite /formal_sum (perm_big b). Qed.

(** ** The constructor from a vector of terms *)

Lemma formal_sum_merge_loop done cur rest x :
  formal_sum (merge_loop done cur rest) x =
  formal_sum done x + cur.2 * xval x cur.1 + formal_sum rest x.
Proof.
elim: rest done cur => [|t rest IH] done cur /=.
  by rewrite rev_cons -cats1 formal_sum_cat formal_sum_cons !formal_sum_nil !addr0
             (@formal_sum_perm _ done) // perm_rev.
rewrite /lt_index; case: eqP => e.
  by rewrite IH /= formal_sum_cons /lt_coeff e; fring F.
by rewrite IH !formal_sum_cons; fring F.
Qed.

Lemma formal_sum_merge l x : formal_sum (merge_sorted_terms l) x = formal_sum l x.
Proof.
case: l => [|t l] //=.
by rewrite formal_sum_merge_loop formal_sum_nil add0r formal_sum_cons.
Qed.

Lemma in_range_merge_loop n (done : seq (linear_term F)) cur rest :
  in_range n (merge_loop done cur rest) =
  [&& in_range n done, (cur.1 <= n)%N & in_range n rest].
Proof.
elim: rest done cur => [|t rest IH] done cur /=.
  by rewrite /in_range rev_cons all_rcons all_rev andbT andbC.
rewrite /lt_index; case: eqP => e.
  rewrite IH /= e; by case: (cur.1 <= n)%N.
by rewrite IH /= ; case: (cur.1 <= n)%N; rewrite ?andbF //=; case: in_range.
Qed.

Lemma in_range_merge n (l : seq (linear_term F)) : in_range n (merge_sorted_terms l) = in_range n l.
Proof. by case: l => [|t l] //=; rewrite in_range_merge_loop. Qed.

Definition indices l := map (@lt_index F) l.

Lemma merge_loop_sorted done cur rest :
  sorted leq (indices (cur :: rest)) ->
  sorted ltn (rev (indices (cur :: done))) ->
  sorted ltn (indices (merge_loop done cur rest)).
Proof.
elim: rest done cur => [|t rest IH] done cur /= hs hd.
  by rewrite /indices map_rev.
case/andP: hs => h1 h2.
case: eqP => e.
  by apply: IH => //=; rewrite -e.
apply: IH => //=.
rewrite rev_cons rev_cons -!cats1 -catA /=.
move: hd; rewrite /= rev_cons -cats1.
have lt : (lt_index cur < lt_index t)%N.
  rewrite ltn_neqAle h1 andbT; apply/eqP => e'; by apply: e.
case E: (rev (indices done)) => [|k ks] /=; first by rewrite lt.
by rewrite !cat_path /= => /and3P [-> -> _]; rewrite lt.
Qed.

Lemma merge_sorted_terms_sorted l :
  sorted leq (indices l) -> sorted ltn (indices (merge_sorted_terms l)).
Proof. by case: l => [|t l] //= h; apply: merge_loop_sorted. Qed.

Lemma merge_loop_mem done cur rest i :
  (i \in indices (merge_loop done cur rest)) =
  [|| i \in indices done, i == lt_index cur | i \in indices rest].
Proof.
elim: rest done cur => [|t rest IH] done cur /=.
  by rewrite /indices map_rev mem_rev inE orbF orbC.
rewrite /indices /= in IH *; case: eqP => e.
  by rewrite IH inE e /=; case: (_ == _); rewrite ?orbT.
by rewrite IH !inE /=; case: (i == lt_index cur); rewrite ?orbT //= orbC.
Qed.

Lemma merge_sorted_terms_mem (l : seq (linear_term F)) i :
  (i \in indices (merge_sorted_terms l)) = (i \in indices l).
Proof. by case: l => [|t l] //=; rewrite merge_loop_mem /= inE. Qed.

Lemma lc_of_terms_spec (ts : seq (linear_term F)) l :
  lc_of_terms ts l ->
  [/\ forall x, formal_sum l x = formal_sum ts x,
      forall n, in_range n l = in_range n ts,
      sorted ltn (indices l) & indices l =i indices ts].
Proof.
case=> s [hp hs ->]; split.
- by move=> x; rewrite formal_sum_merge; apply: formal_sum_perm.
- by move=> n; rewrite in_range_merge; apply: perm_all.
- exact: merge_sorted_terms_sorted.
- by move=> i; rewrite merge_sorted_terms_mem; apply: perm_mem; apply: perm_map.
Qed.

Lemma lc_of_terms_total (ts : seq (linear_term F)) : exists l, lc_of_terms ts l.
Proof.
exists (merge_sorted_terms (sort (fun t u => (t.1 <= u.1)%N) ts)).
eexists; split; last by [].
- by rewrite perm_sort.
- by rewrite sorted_map; apply: sort_sorted => t u; apply: leq_total.
Qed.

(** ** Sortedness is preserved by addition *)

Lemma lc_add_path k a b :
  path ltn k (indices a) -> path ltn k (indices b) -> path ltn k (indices (lc_add a b)).
Proof.
elim: a k b => [|t1 a IHa] k b; first by rewrite lc_add_nil.
elim: b k => [|t2 b IHb] k; first by rewrite lc_add_nilr.
rewrite lc_add_cons /= => /andP [k1 p1] /andP [k2 p2].
case: ltnP => h1 /=; first by rewrite k1 IHa //= p2 andbT.
case: ltnP => h2 /=; first by rewrite k2; apply: IHb => //=; rewrite h2 p1.
have e : lt_index t1 = lt_index t2 by apply/eqP; rewrite eqn_leq; apply/andP.
by rewrite k1; apply: IHa => //; rewrite /lt_index /= in e *; rewrite e.
Qed.

Lemma lc_add_sorted a b :
  sorted ltn (indices a) -> sorted ltn (indices b) -> sorted ltn (indices (lc_add a b)).
Proof.
case: a => [|t1 a]; first by rewrite lc_add_nil.
case: b => [|t2 b]; first by rewrite lc_add_nilr.
rewrite lc_add_cons /= => p1 p2.
case: ltnP => h1 /=; first by apply: lc_add_path => //=; rewrite p2 andbT.
case: ltnP => h2 /=; first by apply: lc_add_path => //=; rewrite h2 p1.
have e : lt_index t1 = lt_index t2 by apply/eqP; rewrite eqn_leq; apply/andP.
by apply: lc_add_path => //; rewrite /lt_index /= in e *; rewrite e.
Qed.

(** ** Validity *)

Lemma adjacent_increasingE l : adjacent_increasing l = sorted ltn (indices l).
Proof.
case: l => [|t l] //; elim: l t => [|t2 l IH] t //.
have -> : adjacent_increasing [:: t, t2 & l] =
  if (lt_index t2 <= lt_index t)%N then false else adjacent_increasing (t2 :: l) by [].
rewrite IH /=; by case: leqP => /= h.
Qed.

Lemma last_indices t l : last (lt_index t) (indices l) = lt_index (last t l).
Proof. by rewrite /indices last_map. Qed.

Lemma sorted_in_range n t l : sorted ltn (indices (t :: l)) ->
  in_range n (t :: l) = (lt_index (last t l) <= n)%N.
Proof.
elim: l t => [|t2 l IH] t; first by rewrite /= andbT.
move=> hs; have /andP [h1 h2] : (lt_index t < lt_index t2)%N && path ltn (lt_index t2) (indices l) by [].
have -> : in_range n [:: t, t2 & l] = (t.1 <= n)%N && in_range n (t2 :: l) by [].
rewrite IH //; apply/andP/idP => [[] //|h]; split=> //.
apply: leq_trans h; apply: (leq_trans (ltnW h1)).
rewrite /= -last_indices.
have : path leq (lt_index t2) (indices l).
  by apply: sub_path h2 => u v /= /ltnW.
elim: (indices l) (lt_index t2) => [|k ks IHk] k0 //= /andP [h3 h4].
exact: leq_trans h3 (IHk _ h4).
Qed.

End Facts.
