(** Lemmas shared by the proofs about the ppzkSNARKs. *)
From mathcomp Require Import all_ssreflect all_algebra.
From Verif Require Import Outcome Lincomb LincombSpec R1CS R1CSSpec Domain DomainFacts ArithPrograms ArithSpec
  ArithFacts Vectors VectorsSpec VectorsFacts Pairing Fieldtac.
From mathcomp Require Import zify.
Set Implicit Arguments.
Unset Strict Implicit.
Unset Printing Implicit Defensive.
Import GRing.Theory.
Local Open Scope ring_scope.

(** The columns [v] combined with the weights 1, x_1, ..., x_n. *)
Definition wsum (F : fieldType) (v : seq F) (x : seq F) : F := v`_0 + \sum_(i < size x) x`_i * v`_i.+1.

Section SnarkFacts.
Variable F : fieldType.
Add Field Ff : (Fth F).

Lemma size_batch_exp (T : lmodType F) (g : T) v : size (batch_exp g v) = size v.
Proof. exact: size_map. Qed.
Lemma nth_batch_exp (T : lmodType F) (g : T) v i : (batch_exp g v)`_i = v`_i *: g.
Proof.
case: (ltnP i (size v)) => h; first by rewrite (nth_map 0).
by rewrite !nth_default ?size_map ?scale0r.
Qed.
Lemma batch_exp_coeffE (T : lmodType F) (g : T) c v :
  batch_exp_with_coeff g c v = batch_exp g [seq c * x | x <- v].
Proof. by rewrite /batch_exp -map_comp. Qed.

Lemma multi_exp_sum (T : lmodType F) (vs : seq T) (s : seq F) n :
  size vs = n -> size s = n -> multi_exp vs s = Ok (\sum_(i < n) s`_i *: vs`_i).
Proof.
move=> h1 h2; rewrite multi_expE h1 h2 eqxx; congr Ok.
rewrite (big_nth (0, 0)) size_zip h1 h2 minnn big_mkord; apply: eq_bigr => i _.
by rewrite nth_zip ?h1 ?h2.
Qed.

(** The scalar of a multi-exponentiation of multiples of [g]. *)
Lemma multi_exp_batch (T : lmodType F) (g : T) (v s : seq F) n : size v = n -> size s = n ->
  multi_exp (batch_exp g v) s = Ok ((\sum_(i < n) s`_i * v`_i) *: g).
Proof.
move=> h1 h2; rewrite (@multi_exp_sum _ _ _ n) ?size_batch_exp //; congr Ok.
by rewrite scaler_suml; apply: eq_bigr => i _; rewrite nth_batch_exp scalerA.
Qed.

Lemma map_range (A B : Type) (f : A -> B) v a b : range (map f v) a b = map f (range v a b).
Proof. by rewrite /range -map_drop -map_take. Qed.
Lemma range_batch (T : lmodType F) (g : T) v a b : range (batch_exp g v) a b = batch_exp g (range v a b).
Proof. exact: map_range. Qed.

Lemma kc_sum_scale (T1 T2 : lmodType F) (g1 : T1) (g2 : T2) (f : nat -> F) (x y : nat -> F) a b :
  \sum_(a <= i < b) f i *: ((x i *: g1, y i *: g2) : kc T1 T2)
  = ((\sum_(a <= i < b) f i * x i) *: g1, (\sum_(a <= i < b) f i * y i) *: g2).
Proof.
rewrite (eq_bigr (fun i => ((f i * x i) *: g1, (f i * y i) *: g2) : kc T1 T2)); last first.
  by move=> i _; rewrite -!scalerA.
rewrite !scaler_suml.
elim/big_ind3: _ => //= x1 x2 x3 y1 y2 y3 -> ->; exact: erefl.
Qed.

(** Accumulating a whole input against a dense query. *)
Lemma accumulate_all (T : lmodType F) (first : T) (es : seq T) (input : seq F) :
  exists2 av', accumulate_chunk (av_of_vector first es) input 0 = Ok av' &
    [/\ av_first av' = first + \sum_(0 <= j < size input) input`_j *: es`_j,
        av_domain_size av' = size es &
        av_is_fully_accumulated av' = (size es <= size input)%N].
Proof.
have [av' _ [h1 h2 h3 h4]] := accumulate_dense first es [:: input].
by exists av'; move: h1 h2 h4; rewrite /= cats0.
Qed.

Lemma xval_sum (v w : seq F) n : size v = n.+1 -> size w = n ->
  \sum_(k < n.+1) v`_k * xval w k = v`_0 + \sum_(i < n) w`_i * v`_i.+1.
Proof.
move=> hv hw; rewrite big_ord_recl /= mulr1; congr (_ + _).
by apply: eq_bigr => i _; rewrite mulrC.
Qed.

Lemma inner_behead (v w : seq F) n : size v = n.+1 -> size w = n ->
  inner (behead v) w = \sum_(i < n) w`_i * v`_i.+1.
Proof.
move=> hv hw; rewrite (@inner_sum _ _ _ n) ?size_behead ?hv //; apply: eq_bigr => i _.
by rewrite nth_behead mulrC.
Qed.

(** A column that is not the zero polynomial vanishes at fewer than [m] points. *)
Definition col_poly D (l : seq (update F)) (k : nat) : {poly F} :=
  interpolate (d_points D) (mkseq (fun i => upd_sum (fun j => (j == i)%:R) l k) (d_size D)).

Lemma upd_sum_lagrange D (l : seq (update F)) n k t : upd_in n (d_size D) l ->
  upd_sum (fun i => (evaluate_all_lagrange_polynomials D t)`_i) l k = (col_poly D l k).[t].
Proof.
move=> hl; rewrite /col_poly interpolate_horner.
elim: l hl => [|[[var row] c] l IH] /=.
  by move=> _; rewrite upd_sum_nil big1 // => i _; rewrite nth_mkseq // upd_sum_nil mulr0.
case/andP=> /andP [/= h1 h2] h3; rewrite upd_sum_cons IH //=.
under [in RHS]eq_bigr do rewrite nth_mkseq // upd_sum_cons mulrDr.
rewrite big_split /=; congr (_ + _); last by apply: eq_bigr => i _; rewrite nth_mkseq.
case: ifP => hv'; last by rewrite big1 // => i _; rewrite mulr0.
rewrite (bigD1 (Ordinal h2)) //= eqxx mul1r big1 ?addr0 ?nth_mkseq //.
by move=> i hi; rewrite eq_sym [(_ == _ :> nat)](negbTE hi) mul0r mulr0.
Qed.

Lemma col_poly_nth D l k i : (i < d_size D)%N ->
  (col_poly D l k).[(d_points D)`_i] = upd_sum (fun j => (j == i)%:R) l k.
Proof. by move=> hi; rewrite /col_poly interpolate_nth ?d_uniq // nth_mkseq. Qed.

Lemma col_roots D l k i ts : (i < d_size D)%N -> upd_sum (fun j => (j == i)%:R) l k != 0 ->
  uniq ts -> all (fun t => (col_poly D l k).[t] == 0) ts -> (size ts < d_size D)%N.
Proof.
move=> hi hnz hu hall.
have hp : col_poly D l k != 0.
  by apply: contraNneq hnz => e; rewrite -(col_poly_nth _ _ hi) e horner0.
apply: leq_trans (size_interpolate (d_points D) _).
exact: max_poly_roots hp hall hu.
Qed.

(** Counting the points at which one of [n] columns vanishes. *)
Lemma union_bound (A : eqType) (n b : nat) (bad : nat -> A -> bool) (ts : seq A) : uniq ts ->
  (forall k us, (k < n)%N -> uniq us -> all (bad k) us -> (size us <= b)%N) ->
  all (fun t => has (fun k => bad k t) (iota 0 n)) ts -> (size ts <= n * b)%N.
Proof.
move=> hu hb hall.
have : (size ts <= \sum_(0 <= k < n) count (bad k) ts)%N.
  elim: ts {hu} hall => [|t ts IH] //= /andP [/hasP [k]]; rewrite mem_iota add0n => /andP [_ hk] hbk /IH h.
  rewrite big_split /= -add1n leq_add //.
  by rewrite (big_cat_nat _ _ _ (leq0n k) (ltnW hk)) /= (big_ltn hk) hbk; lia.
move/leq_trans; apply; rewrite -{2}[n]subn0 -sum_nat_const_nat !big_nat; apply: leq_sum => k /andP [_ hk].
by rewrite -size_filter; apply: (hb k) => //; rewrite ?filter_uniq ?filter_all.
Qed.

End SnarkFacts.
