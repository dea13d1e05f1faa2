(** Facts about sparse vectors, accumulation vectors and knowledge commitments. *)
From mathcomp Require Import all_ssreflect all_algebra.
From mathcomp Require Import zify.
From Verif Require Import Outcome Vectors VectorsSpec.
Set Implicit Arguments.
Unset Strict Implicit.
Unset Printing Implicit Defensive.
Import GRing.Theory.
Local Open Scope ring_scope.

Lemma In_mem (A : eqType) (a : A) l : List.In a l -> a \in l.
Proof. by elim: l => [|b l IH] //= [->|/IH h]; rewrite inE ?eqxx // h orbT. Qed.

Lemma mem_zip_fst (A B : eqType) (ks : seq A) (vs : seq B) a b : (a, b) \in zip ks vs -> a \in ks.
Proof.
elim: ks vs => [|x ks IH] [|y vs] //=; rewrite !inE => /orP [/eqP [-> _]|/IH ->]; by rewrite ?eqxx ?orbT.
Qed.

Section Basics.
Variable T : zmodType.
Implicit Types v : sparse_vector T.

Lemma sv_ok_size v : sv_ok v -> size (sv_values v) = size (sv_indices v).
Proof. by case/and3P => /eqP. Qed.
Lemma sv_ok_sorted v : sv_ok v -> sorted ltn (sv_indices v).
Proof. by case/and3P. Qed.
Lemma sv_ok_uniq v : sv_ok v -> uniq (sv_indices v).
Proof. by move/sv_ok_sorted; rewrite ltn_sorted_uniq_leq => /andP []. Qed.

Lemma lower_boundP (l : seq nat) k : sorted ltn l ->
  (forall i, (i < lower_bound l k)%N -> (nth 0%N l i < k)%N) /\
  (forall i, (lower_bound l k <= i < size l)%N -> (k <= nth 0%N l i)%N).
Proof.
move=> hs; split=> i.
  by move=> /(before_find 0%N) /negbT; rewrite -ltnNge.
move=> /andP [h1 h2].
have hf : (lower_bound l k < size l)%N by apply: leq_ltn_trans h2.
have : (k <= nth 0%N l (lower_bound l k))%N by apply: (nth_find 0%N); rewrite has_find.
move=> h; apply: (leq_trans h).
have hl : sorted leq l by move: hs; rewrite ltn_sorted_uniq_leq => /andP [].
by apply: (sorted_leq_nth leq_trans leqnn 0%N hl); rewrite ?inE.
Qed.

Lemma lower_bound_mem (l : seq nat) k : sorted ltn l ->
  ((lower_bound l k < size l)%N && (nth 0%N l (lower_bound l k) == k)) = (k \in l) /\
  (k \in l -> lower_bound l k = index k l).
Proof.
move=> hs; have [h1 h2] := lower_boundP k hs.
have hu : uniq l by move: hs; rewrite ltn_sorted_uniq_leq => /andP [].
have hi : k \in l -> lower_bound l k = index k l.
  move=> hk; have hlt : (index k l < size l)%N by rewrite index_mem.
  have e : nth 0%N l (index k l) = k by rewrite nth_index.
  case: (ltngtP (lower_bound l k) (index k l)) => // h.
    have h3 : (lower_bound l k < size l)%N by apply: ltn_trans hlt.
    have := h2 (lower_bound l k); rewrite leqnn h3 => /(_ isT).
    have := sorted_ltn_nth ltn_trans 0%N hs (lower_bound l k) (index k l).
    by rewrite !inE h3 hlt h e => /(_ isT isT isT); lia.
  by have := h1 _ h; rewrite e ltnn.
split=> //; apply/idP/idP => [/andP [h /eqP <-]|hk]; first exact: mem_nth.
by rewrite hi // index_mem hk nth_index ?eqxx.
Qed.

Lemma sv_get_ok v k : sv_ok v -> sv_get v k = Ok (sv_at v k).
Proof.
move=> hv; rewrite /sv_get /sv_at.
have [-> h] := lower_bound_mem k (sv_ok_sorted hv); case: ifP => // hk.
rewrite (h hk); apply: oget_nth.
by rewrite (sv_ok_size hv) index_mem.
Qed.


(** ** Equality *)

Definition at_ (ks : seq nat) (xs : seq T) (k : nat) : T :=
  if k \in ks then nth 0 xs (index k ks) else 0.

Lemma at_cons i ks x xs k : at_ (i :: ks) (x :: xs) k = if i == k then x else at_ ks xs k.
Proof. by rewrite /at_ inE eq_sym /=; case: eqP. Qed.

Lemma at_low i ks xs k : path ltn i ks -> (k <= i)%N -> at_ ks xs k = 0.
Proof.
move=> hp hk; rewrite /at_; case: ifP => // h.
by have := allP (order_path_min ltn_trans hp) _ h; rewrite /=; lia.
Qed.

Lemma rest_zero_ok ks xs : size xs = size ks -> sorted ltn ks ->
  exists2 b, sv_rest_zero ks xs = Ok b & b <-> forall k, at_ ks xs k = 0.
Proof.
elim: ks xs => [|i ks IH] [|x xs] //=; first by exists true.
move=> [hs] hp; case: eqP => [->|hx] /=.
  have [b -> hb] := IH _ hs (path_sorted hp); exists b => //; rewrite hb; split=> h k.
    by rewrite at_cons h if_same.
  have := h k; rewrite at_cons; case: eqP => // <- _; exact: at_low hp _.
by exists false => //; split=> // /(_ i); rewrite at_cons eqxx.
Qed.

Lemma at_nil xs k : at_ [::] xs k = 0. Proof. by []. Qed.

Lemma eq_tail_ok ks xs js ys : size xs = size ks -> size ys = size js ->
  sorted ltn ks -> sorted ltn js -> nilp ks || nilp js ->
  exists2 b, (let! r := sv_rest_zero ks xs in if r then sv_rest_zero js ys else Ok false) = Ok b &
    b <-> forall k, at_ ks xs k = at_ js ys k.
Proof.
move=> h1 h2 s1 s2 hnil.
have [b1 -> e1] := rest_zero_ok h1 s1; have [b2 -> e2] := rest_zero_ok h2 s2; rewrite obindE.
case/orP: hnil => /nilP e; subst.
- have -> : b1 = true by apply/e1.
  by exists b2 => //; rewrite e2; split=> h k; [rewrite h | rewrite -h].
- have hb : b2 = true by apply/e2.
  exists b1; first by rewrite hb; case: (b1).
  by rewrite e1; split=> h k; rewrite h.
Qed.

Lemma eq_loop_ok ks xs js ys n : size xs = size ks -> size ys = size js ->
  sorted ltn ks -> sorted ltn js -> (size ks + size js < n)%N ->
  exists2 b, sv_eq_loop (ks, xs) (js, ys) n = Ok b & b <-> forall k, at_ ks xs k = at_ js ys k.
Proof.
elim: n ks xs js ys => [|n IH] ks xs js ys // h1 h2 s1 s2 hn.
have tail := eq_tail_ok h1 h2 s1 s2.
case: ks h1 s1 hn tail => [|i ks] h1 s1 hn tail; first exact: tail.
case: js h2 s2 hn tail => [|j js] h2 s2 hn tail; first exact: tail.
case: xs h1 {tail} => [|x xs] // [h1]; case: ys h2 => [|y ys] // [h2].
rewrite [sv_eq_loop _ _ _]/=; case: (ltngtP i j) => hij.
- case: eqP => [->|hx] /=.
    have [|b e hb] := IH ks xs (j :: js) (y :: ys) h1 (congr1 succn h2) (path_sorted s1) s2.
      by move: hn; rewrite /=; lia.
    exists b => //; rewrite hb; split=> h k.
      rewrite at_cons h; case: eqP => // <-; rewrite -h (at_low _ s1) //.
    have := h k; rewrite [at_ (i :: _) _ _]at_cons; case: eqP => // <- <-; exact: at_low s1 _.
  exists false => //; split=> // /(_ i); rewrite !at_cons eqxx gtn_eqF // => e; case: hx; rewrite e.
  by apply: at_low s2 _; apply: ltnW.
- case: eqP => [->|hx] /=.
    have [|b e hb] := IH (i :: ks) (x :: xs) js ys (congr1 succn h1) h2 s1 (path_sorted s2).
      by move: hn; rewrite /=; lia.
    exists b => //; rewrite hb; split=> h k.
      rewrite [RHS]at_cons h; case: eqP => // <-; exact: at_low s2 _.
    have := h k; rewrite [at_ (j :: _) _ _]at_cons; case: eqP => // <- ->; symmetry; exact: at_low s2 _.
  exists false => //; split=> // /(_ j); rewrite !at_cons eqxx gtn_eqF // => e; case: hx; rewrite -e.
  by apply: at_low s1 _; apply: ltnW.
- subst j; case: eqP => [->|hx] /=.
    have [|b e hb] := IH ks xs js ys h1 h2 (path_sorted s1) (path_sorted s2).
      by move: hn; rewrite /=; lia.
    exists b => //; rewrite hb; split=> h k; first by rewrite !at_cons h.
    have := h k; rewrite !at_cons; case: eqP => // <- _.
    by rewrite (at_low _ s1) // (at_low _ s2).
  by exists false => //; split=> // /(_ i); rewrite !at_cons eqxx => e.
Qed.

Lemma sv_eqb_ok (a b : sparse_vector T) : sv_ok a -> sv_ok b ->
  exists2 r, sv_eqb a b = Ok r &
    r <-> sv_domain_size a = sv_domain_size b /\ forall k, sv_at a k = sv_at b k.
Proof.
move=> ha hb; rewrite /sv_eqb; case: eqP => [e|hne]; last by exists false => //; split=> // -[].
have [r -> hr] := eq_loop_ok (sv_ok_size ha) (sv_ok_size hb) (sv_ok_sorted ha) (sv_ok_sorted hb) (ltnSn _).
by exists r => //; rewrite hr; split=> [h|[_ h]].
Qed.

(** ** Validity *)

Lemma sv_is_valid_wrong v : sv_ok v -> sv_is_valid v = false.
Proof.
move=> hv; rewrite /sv_is_valid (sv_ok_size hv) eqxx /=.
case: ifP => // /negbT; rewrite -ltnNge => h; exfalso.
have hu := sv_ok_uniq hv; have /allP ha : all (fun i => i < sv_domain_size v)%N (sv_indices v) by case/and3P: hv.
have : {subset sv_indices v <= iota 0 (sv_domain_size v)}.
  by move=> i /ha /=; rewrite mem_iota.
by move/(uniq_leq_size hu); rewrite size_iota leqNgt h.
Qed.

(** ** Entries as a sum *)

Lemma at_sum ks xs k : uniq ks -> size xs = size ks ->
  at_ ks xs k = \sum_(e <- zip ks xs | e.1 == k) e.2.
Proof.
elim: ks xs => [|i ks IH] [|x xs] //=; first by rewrite big_nil.
move=> /andP [hi hu] [hs]; rewrite at_cons big_cons /=; case: eqP => [e|_]; last exact: IH.
rewrite -IH // /at_; subst k; rewrite (negbTE hi) addr0 //.
Qed.

Lemma sv_atE v k : sv_at v k = at_ (sv_indices v) (sv_values v) k.
Proof. by []. Qed.

Lemma range_cat (A : Type) (v : seq A) a b c : (a <= b)%N -> (b <= c)%N ->
  range v a b ++ range v b c = range v a c.
Proof.
move=> h1 h2; rewrite /range.
have -> : (c - a = (b - a) + (c - b))%N by lia.
rewrite takeD drop_drop; by have -> : (b - a + a = b)%N by lia.
Qed.

Lemma range_nil (A : Type) (v : seq A) a : range v a a = [::].
Proof. by rewrite /range subnn take0. Qed.

Lemma range_rcons (A : Type) (x0 : A) (v : seq A) a b : (a <= b)%N -> (b < size v)%N ->
  range v a b.+1 = rcons (range v a b) (nth x0 v b).
Proof.
move=> h1 h2; rewrite -(range_cat v h1 (leqnSn b)) -cats1; congr (_ ++ _).
by rewrite /range subSnn (drop_nth x0) //= take0.
Qed.

Lemma range_full (A : Type) (v : seq A) n : size v = n -> range v 0 n = v.
Proof. by move=> <-; rewrite /range subn0 drop0 take_size. Qed.

Lemma nth_range (A : Type) (x0 : A) (v : seq A) a b i : (i < b - a)%N -> nth x0 (range v a b) i = nth x0 v (a + i).
Proof. by move=> h; rewrite /range nth_take // nth_drop. Qed.

Lemma size_range (A : Type) (v : seq A) a b : (b <= size v)%N -> size (range v a b) = (b - a)%N.
Proof. by move=> h; rewrite /range size_takel // size_drop leq_sub2r. Qed.

End Basics.

Section Accumulate.
Variables (F : fieldType) (T : lmodType F).
Implicit Types (v : sparse_vector T) (scalars : seq F).

Lemma multi_expE (vs : seq T) scalars :
  multi_exp vs scalars = if size vs == size scalars then Ok (\sum_(p <- zip scalars vs) p.1 *: p.2) else UB.
Proof.
rewrite /multi_exp; case: eqP => // _; congr Ok.
have e : forall a, foldl (fun acc (p : F * T) => acc + p.1 *: p.2) a (zip scalars vs) = a + \sum_(p <- zip scalars vs) p.1 *: p.2.
  elim: (zip _ _) => [|p l IH] a /=; first by rewrite big_nil addr0.
  by rewrite IH big_cons addrA.
by rewrite e add0r.
Qed.

Definition matches scalars offset (k : nat) := ((offset <= k) && (k < offset + size scalars))%N.

Section Loop.
Variables (v : sparse_vector T) (scalars : seq F) (offset : nat).
Hypothesis hsz : size (sv_values v) = size (sv_indices v).
Let idx := nth 0%N (sv_indices v).
Let step := acc_step v scalars offset.
Let mt p := matches scalars offset (idx p).

Lemma loop_skip a k val ks xs : (a + k <= size (sv_indices v))%N ->
  (forall p, (a <= p < a + k)%N -> ~~ mt p) ->
  ofold step (AccState val ks xs None) (iota a k) =
  Ok (AccState val (ks ++ range (sv_indices v) a (a + k)) (xs ++ range (sv_values v) a (a + k)) None).
Proof.
elim: k a ks xs => [|k IH] a ks xs hk h.
  by rewrite addn0 !range_nil !cats0.
rewrite [iota _ _]/= ofold_cons {1}/step /acc_step (@oget_nth _ 0%N); last by lia.
rewrite obindE -/(idx a) -/(matches _ _ _) -/(mt a) (negbTE (h a _)); last by lia.
rewrite [as_block _]/= (@oget_nth _ 0) ?hsz; last by lia.
rewrite !obindE /= -/step IH; [|lia|by move=> p hp; apply: h; lia].
congr (Ok (AccState _ _ _ _)).
- rewrite cat_rcons; congr (_ ++ _).
  have -> : (idx a :: range (sv_indices v) a.+1 (a.+1 + k)) = range (sv_indices v) a a.+1 ++ range (sv_indices v) a.+1 (a.+1 + k).
    by rewrite (@range_rcons _ 0%N) ?range_nil //; lia.
  by rewrite range_cat ?addSnnS //; lia.
- rewrite cat_rcons; congr (_ ++ _).
  have -> : ((sv_values v)`_a :: range (sv_values v) a.+1 (a.+1 + k)) = range (sv_values v) a a.+1 ++ range (sv_values v) a.+1 (a.+1 + k).
    by rewrite (@range_rcons _ 0) ?range_nil // hsz; lia.
  by rewrite range_cat ?addSnnS //; lia.
Qed.

Lemma step_idx p : (p < size (sv_indices v))%N -> oget (sv_indices v) p = Ok (idx p).
Proof. by move=> h; rewrite (@oget_nth _ 0%N). Qed.

Lemma step_extend p val ks xs f : (p.+1 < size (sv_indices v))%N -> mt p.+1 ->
  step (AccState val ks xs (Some (f, p))) p.+1 = Ok (AccState val ks xs (Some (f, p.+1))).
Proof.
move=> hp hm; rewrite /step /acc_step step_idx // obindE -/(matches _ _ _) -/(mt p.+1) hm.
by cbn -[eq_op]; rewrite eqxx.
Qed.

Lemma step_start p val ks xs : (p < size (sv_indices v))%N -> mt p ->
  step (AccState val ks xs None) p = Ok (AccState val ks xs (Some (p, p))).
Proof.
by move=> hp hm; rewrite /step /acc_step step_idx // obindE -/(matches _ _ _) -/(mt p) hm.
Qed.

Lemma step_end p val ks xs f : (p.+1 < size (sv_indices v))%N -> ~~ mt p.+1 ->
  step (AccState val ks xs (Some (f, p))) p.+1 =
  let! b := block_exp v scalars offset f p in
  Ok (AccState (val + b) (rcons ks (idx p.+1)) (rcons xs (sv_values v)`_p.+1) None).
Proof.
move=> hp hm; rewrite /step /acc_step step_idx // obindE -/(matches _ _ _) -/(mt p.+1) (negbTE hm).
cbn -[eq_op block_exp oget]; case: (block_exp _ _ _ _ _) => // b; rewrite !obindE.
by rewrite (@oget_nth _ 0) ?hsz.
Qed.

Lemma loop_block a k val ks xs f : (a.+1 + k <= size (sv_indices v))%N ->
  (forall p, (a.+1 <= p < a.+1 + k)%N -> mt p) ->
  ofold step (AccState val ks xs (Some (f, a))) (iota a.+1 k) = Ok (AccState val ks xs (Some (f, (a + k)%N))).
Proof.
elim: k a => [|k IH] a hk h; first by rewrite addn0.
rewrite [iota _ _]/= ofold_cons step_extend; [|lia|by apply: h; lia].
rewrite obindE IH ?addSnnS //; [lia|].
by move=> p hp; apply: h; lia.
Qed.

(** The whole loop, when exactly the positions in [[p, q)] match. *)
Lemma loop_all p q : (p <= q <= size (sv_indices v))%N ->
  (forall i, (i < size (sv_indices v))%N -> mt i = (p <= i < q)%N) ->
  sv_accumulate v scalars offset =
  let! b := (if p == q then Ok 0 else block_exp v scalars offset p q.-1) in
  Ok (0 + b, SparseVector (range (sv_indices v) 0 p ++ range (sv_indices v) q (size (sv_indices v)))
                      (range (sv_values v) 0 p ++ range (sv_values v) q (size (sv_indices v)))
                      (sv_domain_size v)).
Proof.
move=> /andP [h1 h2] h; rewrite /sv_accumulate -/step.
case: eqP => [e|/eqP hne].
  rewrite loop_skip; [|lia|by move=> i hi; rewrite h; lia].
  by subst q; rewrite !obindE /= add0n !range_cat // addr0.
have hpq : (p < q)%N by lia.
have -> : iota 0 (size (sv_indices v)) = iota 0 p ++ p :: (iota p.+1 (q - p).-1 ++ iota q (size (sv_indices v) - q)).
  have e1 : size (sv_indices v) = (p + (1 + ((q - p).-1 + (size (sv_indices v) - q))))%N by lia.
  rewrite {1}e1 iotaD add0n iotaD /= iotaD addn1; congr (_ ++ (_ :: (_ ++ _))).
  have -> : (p.+1 + (q - p).-1 = q)%N by lia.
  by [].
rewrite ofold_cat loop_skip; [|lia|by move=> i hi; rewrite h; lia].
rewrite obindE ofold_cons step_start; [|lia|by rewrite h; lia].
rewrite obindE ofold_cat loop_block; [|lia|by move=> i hi; rewrite h; lia].
rewrite obindE add0n; have -> : (p + (q - p).-1 = q.-1)%N by lia.
case: (eqVneq q (size (sv_indices v))) => [e|hq].
  rewrite -e subnn [iota _ _]/= [ofold _ _ _]/= obindE /= !range_nil !cats0.
  by case: (block_exp _ _ _ _ _).
have -> : (size (sv_indices v) - q = (size (sv_indices v) - q).-1.+1)%N by lia.
rewrite [iota _ _]/= ofold_cons -{2}(prednK (leq_ltn_trans (leq0n p) hpq)).
rewrite step_end; [|lia|by rewrite h; lia].
case eb: (block_exp _ _ _ _ _) => [b||] //; rewrite !obindE loop_skip; [|lia|by move=> i hi; rewrite h; lia].
rewrite obindE; rewrite (prednK (leq_ltn_trans (leq0n p) hpq)).
have -> : (q.+1 + (size (sv_indices v) - q).-1 = size (sv_indices v))%N by lia.
rewrite /=.
congr (Ok (_, SparseVector _ _ _)).
- rewrite -cats1 -!catA; congr (_ ++ _).
  have -> : [:: idx q] = range (sv_indices v) q q.+1 by rewrite (@range_rcons _ 0%N) ?range_nil //; lia.
  by rewrite range_cat //; lia.
- rewrite -cats1 -!catA; congr (_ ++ _).
  have -> : [:: (sv_values v)`_q] = range (sv_values v) q q.+1 by rewrite (@range_rcons _ 0) ?range_nil // hsz; lia.
  by rewrite range_cat //; lia.
Qed.

End Loop.

Lemma lower_bound_size (l : seq nat) k : (lower_bound l k <= size l)%N.
Proof. exact: find_size. Qed.

Lemma lower_bound_mono (l : seq nat) a b : sorted ltn l -> (a <= b)%N -> (lower_bound l a <= lower_bound l b)%N.
Proof.
move=> hs hab; rewrite leqNgt; apply/negP => h.
have [h1 _] := lower_boundP a hs; have [_ h2] := lower_boundP b hs.
have := h1 _ h; have hl := lower_bound_size l a.
by have := h2 (lower_bound l b); rewrite leqnn => /=; lia.
Qed.

Lemma lower_bound_lt (l : seq nat) k i : sorted ltn l -> (i < size l)%N ->
  (nth 0%N l i < k)%N = (i < lower_bound l k)%N.
Proof.
move=> hs hi; have [h1 h2] := lower_boundP k hs.
case: (ltnP i (lower_bound l k)) => h; first exact: h1.
by apply/negbTE; rewrite -leqNgt h2 // h hi.
Qed.

Lemma sorted_gap (l : seq nat) i j : sorted ltn l -> (i <= j < size l)%N ->
  (nth 0%N l i + (j - i) <= nth 0%N l j)%N.
Proof.
move=> hs; elim: j => [|j IH] h; first by have -> : i = 0%N; [lia|rewrite subnn addn0].
case: (eqVneq i j.+1) => [->|hne]; first by rewrite subnn addn0.
have {}IH := IH ltac:(lia).
have hj : (j < size l)%N by lia.
have hj1 : (j.+1 < size l)%N by lia.
by have := sorted_ltn_nth ltn_trans 0%N hs j j.+1 hj hj1 (ltnSn j); lia.
Qed.

Lemma sum_entries v (f : nat -> F) lo hi : sv_ok v -> (lo <= hi)%N ->
  \sum_(lo <= k < hi) f k *: sv_at v k =
  \sum_(lower_bound (sv_indices v) lo <= i < lower_bound (sv_indices v) hi)
     f (nth 0%N (sv_indices v) i) *: (sv_values v)`_i.
Proof.
move=> hv hlh; set idx := nth 0%N (sv_indices v).
have hs := sv_ok_sorted hv; have hsz := sv_ok_size hv.
have e1 k : sv_at v k = \sum_(0 <= i < size (sv_indices v) | idx i == k) (sv_values v)`_i.
  rewrite sv_atE at_sum ?sv_ok_uniq // (big_nth (0%N, 0)) size_zip hsz minnn.
  by apply: congr_big_nat => // i /andP [_ hx]; rewrite ?nth_zip //=.
transitivity (\sum_(0 <= i < size (sv_indices v)) \sum_(lo <= k < hi | idx i == k) f k *: (sv_values v)`_i).
  rewrite (exchange_big_dep_nat predT) //=; apply: eq_big_nat => k hk.
  by rewrite e1 scaler_sumr.
set p := lower_bound _ lo; set q := lower_bound _ hi.
have hpq : (p <= q)%N by apply: lower_bound_mono.
have hq : (q <= size (sv_indices v))%N by apply: lower_bound_size.
rewrite (@big_cat_nat _ _ _ p) //=; last exact: leq_trans hq.
rewrite (@big_cat_nat _ _ _ q p) //=.
rewrite big_nat_cond big1 ?add0r; last first.
  move=> i /andP [hx _]; rewrite big_nat_cond big_pred0 // => k; apply/negbTE/negP => /andP [hk /eqP e].
  have := @lower_bound_lt (sv_indices v) lo i hs; rewrite -/p -/(idx i); lia.
rewrite [X in _ + X]big_nat_cond [X in _ + X]big1 ?addr0; last first.
  move=> i /andP [hx _]; rewrite big_nat_cond big_pred0 // => k; apply/negbTE/negP => /andP [hk /eqP e].
  have := @lower_bound_lt (sv_indices v) hi i hs; rewrite -/q -/(idx i); lia.
apply: eq_big_nat => i hx.
have h1 : (lo <= idx i < hi)%N.
  have := @lower_bound_lt (sv_indices v) lo i hs; have := @lower_bound_lt (sv_indices v) hi i hs.
  rewrite -/p -/q -/(idx i); lia.
rewrite -big_filter (@eq_filter _ _ (pred1 (idx i))); last by move=> k; rewrite /= eq_sym.
by rewrite filter_pred1_uniq ?iota_uniq ?mem_index_iota // big_seq1.
Qed.

Section Acc.
Variables (v : sparse_vector T) (scalars : seq F) (offset : nat).
Hypothesis hv : sv_ok v.
Let idx := nth 0%N (sv_indices v).
Let n := size (sv_indices v).
Let hi := (offset + size scalars)%N.
Let p := lower_bound (sv_indices v) offset.
Let q := lower_bound (sv_indices v) hi.

Let hs : sorted ltn (sv_indices v) := sv_ok_sorted hv.
Let hsz : size (sv_values v) = n := sv_ok_size hv.
Let hpq : (p <= q)%N. Proof. by apply: lower_bound_mono => //; rewrite /hi; lia. Qed.
Let hq : (q <= n)%N. Proof. exact: lower_bound_size. Qed.

Lemma acc_matches i : (i < n)%N -> matches scalars offset (idx i) = (p <= i < q)%N.
Proof.
move=> h; rewrite /matches -/hi leqNgt !lower_bound_lt // -/p -/q.
by rewrite -leqNgt.
Qed.

Lemma gap_size : (p < q)%N -> (idx q.-1 - idx p = q.-1 - p)%N <-> no_gap v offset hi.
Proof.
move=> lpq.
have m i : (p <= i < q)%N -> (offset <= idx i < hi)%N.
  by move=> h; have := @acc_matches i; rewrite h /matches -/hi => -> //; lia.
have inv x : (offset <= x < hi)%N -> x \in sv_indices v -> exists2 i, (p <= i < q)%N & idx i = x.
  move=> hx hin; exists (index x (sv_indices v)); last by rewrite /idx nth_index.
  rewrite -acc_matches ?index_mem // /idx nth_index //.
split=> [e x y z hx hz hy ix iz|hg].
  have [i hi1 ei] := inv _ hx ix; have [k hk1 ek] := inv _ hz iz.
  have lin j : (p <= j < q)%N -> idx j = (idx p + (j - p))%N.
    move=> hj; have := @sorted_gap _ p j hs; have := @sorted_gap _ j q.-1 hs; rewrite -/n -/(idx p) -/(idx j) -/(idx q.-1).
    by have := @sorted_gap _ p q.-1 hs; rewrite -/n -/(idx p) -/(idx q.-1); lia.
  have lik : (i <= k)%N.
    by have := lin i hi1; have := lin k hk1; rewrite ei ek; lia.
  have -> : y = idx (i + (y - x))%N.
    by have := lin k hk1; have := lin i hi1; rewrite ei ek => e1 e2; rewrite lin; lia.
  apply: mem_nth; rewrite -/n.
  by have := lin k hk1; have := lin i hi1; rewrite ei ek => e1 e2; lia.
have lin j : (p <= j < q)%N -> idx j = (idx p + (j - p))%N.
  elim: j => [|j IH] hj; first by have -> : p = 0%N; [lia|rewrite subnn addn0].
  case: (eqVneq p j.+1) => [->|hne]; first by rewrite subnn addn0.
  have ej := IH ltac:(lia).
  have hlt : (idx j < idx j.+1)%N by have := @sorted_gap _ j j.+1 hs; rewrite -/n -/(idx j) -/(idx j.+1); lia.
  have hin : (idx j).+1 \in sv_indices v.
    apply: (hg (idx j) (idx j).+1 (idx j.+1)); [by apply: m; lia|by apply: m|lia| |];
      by apply: mem_nth; rewrite -/n; lia.
  have hsu : (offset <= (idx j).+1 < hi)%N by have := m j ltac:(lia); have := m j.+1 hj; lia.
  have [k hk ek] := inv _ hsu hin.
  case: (ltngtP k j.+1) => hkj; last by subst k; lia.
    by have := @sorted_gap _ k j hs; rewrite -/n -/(idx j) -/(idx k); lia.
  by have := @sorted_gap _ j.+1 k hs; rewrite -/n -/(idx j.+1) -/(idx k); lia.
by rewrite (lin q.-1); lia.
Qed.

Lemma block_exp_ok : (p < q)%N -> no_gap v offset hi ->
  block_exp v scalars offset p q.-1 = Ok (sv_inner v scalars offset).
Proof.
move=> lpq hg; have e := proj2 (gap_size lpq) hg.
have m i : (p <= i < q)%N -> (offset <= idx i < hi)%N.
  by move=> h; have := @acc_matches i; rewrite h /matches -/hi => -> //; lia.
have mp := m p ltac:(lia); have mq := m q.-1 ltac:(lia); rewrite /hi in mp mq.
rewrite /block_exp step_idx; last by rewrite -/n; lia.
rewrite obindE step_idx; last by rewrite -/n; lia.
rewrite obindE -/(idx p) -/(idx q.-1) (prednK (leq_ltn_trans (leq0n p) lpq)) multi_expE.
rewrite !size_range; [|by rewrite hsz|lia].
have lin : (idx p <= idx q.-1)%N by have := @sorted_gap _ p q.-1 hs; rewrite -/n -/(idx p) -/(idx q.-1); lia.
have -> : (q - p == (idx q.-1 - offset).+1 - (idx p - offset))%N by apply/eqP; lia.
congr Ok; rewrite /sv_inner.
have <- : \sum_(offset <= k < hi) scalars`_(k - offset) *: sv_at v k =
          \sum_(0 <= j < size scalars) scalars`_j *: sv_at v (offset + j).
  have -> : hi = (size scalars + offset)%N by rewrite /hi addnC.
  rewrite -{1}[offset]add0n big_addn addnK; apply: eq_bigr => j _.
  by rewrite addnK addnC.
rewrite (@sum_entries v (fun k => scalars`_(k - offset))) //; last by rewrite /hi; lia.
have hlt : (idx q.-1 - offset < size scalars)%N by lia.
rewrite -/p -/q (big_nth (0, 0)) size_zip !size_range ?hsz //.
have -> : minn ((idx q.-1 - offset).+1 - (idx p - offset)) (q - p) = (q - p)%N by lia.
rewrite -[in RHS](add0n p) big_addn; apply: eq_big_nat => i hi1.
rewrite nth_zip ?size_range ?hsz //=; last by lia.
rewrite !nth_range; [|lia|lia]; rewrite (addnC p i); congr (scalars`_ _ *: _).
have lin2 : idx (i + p)%N = (idx p + i)%N.
  have := @sorted_gap _ p (i + p) hs; have := @sorted_gap _ (i + p) q.-1 hs; rewrite -/n -/(idx p) -/(idx (i + p)) -/(idx q.-1); lia.
by rewrite -/(idx _) lin2; lia.
Qed.

Lemma block_exp_gap : (p < q)%N -> ~ no_gap v offset hi ->
  block_exp v scalars offset p q.-1 = UB.
Proof.
move=> lpq hg.
have m i : (p <= i < q)%N -> (offset <= idx i < hi)%N.
  by move=> h; have := @acc_matches i; rewrite h /matches -/hi => -> //; lia.
have mp := m p ltac:(lia); have mq := m q.-1 ltac:(lia); rewrite /hi in mp mq.
rewrite /block_exp step_idx; last by rewrite -/n; lia.
rewrite obindE step_idx; last by rewrite -/n; lia.
rewrite obindE -/(idx p) -/(idx q.-1) (prednK (leq_ltn_trans (leq0n p) lpq)) multi_expE.
rewrite !size_range; [|by rewrite hsz|lia].
case: eqP => // e; case: hg; apply/gap_size => //.
have lin : (idx p <= idx q.-1)%N by have := @sorted_gap _ p q.-1 hs; rewrite -/n -/(idx p) -/(idx q.-1); lia.
lia.
Qed.


Lemma range_filter :
  range (sv_indices v) 0 p ++ range (sv_indices v) q n = [seq k <- sv_indices v | ~~ matches scalars offset k].
Proof.
rewrite -{3}(range_full (erefl n)) -(range_cat _ (leq0n p) (leq_trans hpq hq)) -(range_cat _ hpq hq).
rewrite !filter_cat.
have flt a b (c : bool) : (a <= b <= n)%N -> (forall i, (a <= i < b)%N -> matches scalars offset (idx i) = ~~ c) ->
  [seq k <- range (sv_indices v) a b | ~~ matches scalars offset k] = if c then range (sv_indices v) a b else [::].
  move=> hab hm.
  have hall : all (fun k => ~~ matches scalars offset k == c) (range (sv_indices v) a b).
    apply/(all_nthP 0%N) => i; rewrite size_range; last by rewrite -/n; lia.
    by move=> hi1; rewrite nth_range // -/(idx _) hm ?negbK //; lia.
  case: c hall {hm} => hall; first by apply/all_filterP; apply: sub_all hall => k /eqP ->.
  apply/eqP; rewrite -(negbK (_ == _)) -has_filter; apply/hasPn => k /(allP hall) /eqP -> //.
rewrite (flt 0%N p true) ?(flt p q false) ?(flt q n true) ?cat0s //; try (rewrite ?hpq ?hq; lia).
- by move=> i hi1; rewrite acc_matches; lia.
- by move=> i hi1; rewrite acc_matches; lia.
- by move=> i hi1; rewrite acc_matches; lia.
Qed.

Definition acc_rest : sparse_vector T :=
  SparseVector (range (sv_indices v) 0 p ++ range (sv_indices v) q n)
               (range (sv_values v) 0 p ++ range (sv_values v) q n) (sv_domain_size v).

Lemma acc_rest_size : size (sv_values acc_rest) = size (sv_indices acc_rest).
Proof. by rewrite !size_cat !size_range ?hsz //; lia. Qed.

Lemma acc_rest_ok : sv_ok acc_rest.
Proof.
apply/and3P; split; first by rewrite acc_rest_size.
  by rewrite /= range_filter; apply: sorted_filter hs; apply: ltn_trans.
rewrite /= range_filter; apply/allP => k; rewrite mem_filter => /andP [_].
by case/and3P: hv => _ _ /allP; apply.
Qed.

Lemma sum_absent (ks : seq nat) (vs : seq T) k : k \notin ks -> \sum_(e <- zip ks vs | e.1 == k) e.2 = 0.
Proof.
move=> hk; rewrite big_seq_cond big1 // => -[i x] /= /andP [h /eqP e]; subst i.
by case/negP: hk; apply: mem_zip_fst h.
Qed.

Lemma acc_rest_at k : sv_at acc_rest k = if matches scalars offset k then 0 else sv_at v k.
Proof.
rewrite !sv_atE at_sum; [|exact: sv_ok_uniq acc_rest_ok|exact: acc_rest_size].
rewrite at_sum; [|exact: sv_ok_uniq hv|exact: hsz].
have e : zip (sv_indices v) (sv_values v) =
  zip (range (sv_indices v) 0 p) (range (sv_values v) 0 p) ++
  zip (range (sv_indices v) p q) (range (sv_values v) p q) ++
  zip (range (sv_indices v) q n) (range (sv_values v) q n).
  rewrite -{1}(range_full (erefl n)) -(range_cat _ (leq0n p) (leq_trans hpq hq)) -(range_cat _ hpq hq).
  rewrite -{1}(range_full hsz) -(range_cat _ (leq0n p) (leq_trans hpq hq)) -(range_cat _ hpq hq).
  by rewrite !zip_cat // !size_range ?hsz //; lia.
have mem a b : (b <= n)%N -> k \in range (sv_indices v) a b -> exists2 i, (a <= i < b)%N & idx i = k.
  move=> hb /(nthP 0%N) [i]; rewrite size_range // => hi1; rewrite nth_range // => <-.
  by exists (a + i)%N => //; lia.
have hp : (p <= n)%N by apply: leq_trans hq.
rewrite [LHS]/= zip_cat; last by rewrite !size_range ?hsz.
rewrite e !big_cat /=; case: ifP => hk.
  rewrite !sum_absent ?addr0 //; apply/negP => /mem [] // i hi1 e1; move: hk; rewrite -e1 acc_matches; lia.
rewrite [X in _ = _ + (X + _)]sum_absent ?add0r //.
by apply/negP => /mem [] // i hi1 e1; move: hk; rewrite -e1 acc_matches; lia.
Qed.

(** [accumulate]: the exact outcome. *)
Lemma sv_accumulate_ok : no_gap v offset hi ->
  sv_accumulate v scalars offset = Ok (sv_inner v scalars offset, acc_rest).
Proof.
move=> hg; rewrite (@loop_all v scalars offset hsz p q); last 2 first.
- by rewrite hpq.
- exact: acc_matches.
case: eqP => [e|/eqP hne]; last by rewrite block_exp_ok // ?obindE ?add0r //; lia.
rewrite obindE add0r; congr (Ok (_, _)); rewrite /sv_inner.
have <- : \sum_(offset <= k < hi) scalars`_(k - offset) *: sv_at v k =
          \sum_(0 <= j < size scalars) scalars`_j *: sv_at v (offset + j).
  have -> : hi = (size scalars + offset)%N by rewrite /hi addnC.
  rewrite -{1}[offset]add0n big_addn addnK; apply: eq_bigr => j _.
  by rewrite addnK addnC.
rewrite (@sum_entries v (fun k => scalars`_(k - offset))) //; last by rewrite /hi; lia.
by rewrite -/p -/q e big_geq.
Qed.

Lemma sv_accumulate_gap : ~ no_gap v offset hi -> sv_accumulate v scalars offset = UB.
Proof.
move=> hg; rewrite (@loop_all v scalars offset hsz p q); last 2 first.
- by rewrite hpq.
- exact: acc_matches.
case: eqP => [e|/eqP hne]; last by rewrite block_exp_gap //; lia.
case: hg => i j k hi1 _ _ hin _.
have := @acc_matches (index i (sv_indices v)); rewrite index_mem hin /idx nth_index // /matches -/hi hi1.
by move=> /(_ isT); lia.
Qed.

End Acc.

(** ** Accumulation vectors *)

Implicit Types av : accumulation_vector T.

(** Accumulating consecutive chunks, each starting where the previous one ended. *)
Fixpoint accumulate_chunks av (chunks : seq (seq F)) (offset : nat) : outcome (accumulation_vector T) :=
  match chunks with
  | [::] => Ok av
  | c :: cs => let! av' := accumulate_chunk av c offset in accumulate_chunks av' cs (offset + size c)
  end.

Lemma sv_ext (a b : sparse_vector T) : sv_ok a -> sv_ok b -> sv_indices a = sv_indices b ->
  sv_domain_size a = sv_domain_size b -> (forall k, sv_at a k = sv_at b k) -> a = b.
Proof.
move=> ha hb e1 e2 e3.
have := sv_ok_size ha; have := sv_ok_size hb; have hu := sv_ok_uniq ha.
case: a b ha hb e1 e2 e3 hu => ks xs d [js ys d'] _ _ /= <- <- e3 hu s1 s2; congr SparseVector.
apply: (@eq_from_nth _ 0); first by rewrite s1.
move=> i hi; rewrite s2 in hi; have := e3 (nth 0%N ks i); rewrite /sv_at /=.
by rewrite mem_nth // index_uniq.
Qed.

Lemma no_gap_sub v lo hi lo' hi' : no_gap v lo hi -> (lo <= lo')%N -> (hi' <= hi)%N -> no_gap v lo' hi'.
Proof. by move=> h h1 h2 i j k hi1 hk1; apply: h; lia. Qed.

Lemma matches_nil offset k : matches ([::] : seq F) offset k = false.
Proof. by rewrite /matches addn0 ltnNge andbN. Qed.

Lemma matches_cat (a b : seq F) offset k :
  matches (a ++ b) offset k = matches a offset k || matches b (offset + size a) k.
Proof. by rewrite /matches size_cat; lia. Qed.

Lemma sv_inner_cat v (a b : seq F) offset :
  sv_inner v (a ++ b) offset = sv_inner v a offset + sv_inner v b (offset + size a).
Proof.
rewrite /sv_inner size_cat (@big_cat_nat _ _ _ (size a)) ?leq_addr //=; congr (_ + _).
  by apply: eq_big_nat => i /andP [_ hi]; rewrite nth_cat hi.
rewrite (addnC (size a) (size b)) -{1}[size a]add0n big_addn addnK; apply: eq_big_nat => i hi.
rewrite nth_cat ltnNge leq_addl addnK; congr (_ *: sv_at _ _); lia.
Qed.

Lemma accumulate_chunks_ok av (chunks : seq (seq F)) offset :
  sv_ok (av_rest av) -> no_gap (av_rest av) offset (offset + size (flatten chunks)) ->
  exists2 av', accumulate_chunks av chunks offset = Ok av' &
    [/\ accumulate_chunk av (flatten chunks) offset = Ok av',
        av_first av' = av_first av + sv_inner (av_rest av) (flatten chunks) offset,
        sv_ok (av_rest av'), sv_domain_size (av_rest av') = sv_domain_size (av_rest av) &
        sv_indices (av_rest av') = [seq k <- sv_indices (av_rest av) | ~~ matches (flatten chunks) offset k] /\
        forall k, sv_at (av_rest av') k = if matches (flatten chunks) offset k then 0 else sv_at (av_rest av) k].
Proof.
move=> hv hg.
suff [av' e [h1 h2 h3 h4 h5]] : exists2 av', accumulate_chunks av chunks offset = Ok av' &
    [/\ av_first av' = av_first av + sv_inner (av_rest av) (flatten chunks) offset,
        sv_ok (av_rest av'), sv_domain_size (av_rest av') = sv_domain_size (av_rest av),
        sv_indices (av_rest av') = [seq k <- sv_indices (av_rest av) | ~~ matches (flatten chunks) offset k] &
        forall k, sv_at (av_rest av') k = if matches (flatten chunks) offset k then 0 else sv_at (av_rest av) k].
  exists av' => //; split=> //; rewrite /accumulate_chunk sv_accumulate_ok // obindE /= -h1; congr Ok.
  have -> : acc_rest (av_rest av) (flatten chunks) offset = av_rest av'.
    apply: sv_ext => //; first exact: acc_rest_ok.
    - by rewrite /= range_filter.
    - by move=> k; rewrite acc_rest_at // h5.
  by case: (av').
elim: chunks offset av hv hg => [|c cs IH] offset av hv hg.
  exists av => //; split=> //.
  - by rewrite /sv_inner big_geq // addr0.
  - by rewrite (@eq_filter _ _ predT) ?filter_predT // => k; rewrite /= matches_nil.
  - by move=> k; rewrite matches_nil.
move: hg; rewrite [flatten _]/= size_cat => hg.
have hgc : no_gap (av_rest av) offset (offset + size c) by apply: no_gap_sub hg _ _; lia.
rewrite [accumulate_chunks _ _ _]/= /accumulate_chunk sv_accumulate_ok // !obindE /=.
set av1 := AccumulationVector _ _.
have hv1 : sv_ok (av_rest av1) by apply: acc_rest_ok.
have at1 k : sv_at (av_rest av1) k = if matches c offset k then 0 else sv_at (av_rest av) k by apply: acc_rest_at.
have ix1 : sv_indices (av_rest av1) = [seq k <- sv_indices (av_rest av) | ~~ matches c offset k].
  by rewrite /= range_filter.
have hg1 : no_gap (av_rest av1) (offset + size c) (offset + size c + size (flatten cs)).
  move=> i j k hi hk hj; rewrite ix1 !mem_filter => /andP [m1 i1] /andP [m2 i2].
  apply/andP; split; first by rewrite /matches; lia.
  by apply: (hg i j k) i1 i2; lia.
have [av' -> [e1 e2 e3 e4 e5]] := IH _ _ hv1 hg1; exists av' => //; split=> //.
- rewrite e1 sv_inner_cat addrA; congr (_ + _); rewrite /sv_inner; apply: eq_big_nat => i hi.
  rewrite at1 ifF //; rewrite /matches; lia.
- rewrite e4 ix1 -filter_predI; apply: eq_filter => k /=; rewrite matches_cat negb_or andbC //.
- by move=> k; rewrite e5 at1 matches_cat orbC; case: ifP.
Qed.

Lemma no_gap_dense (es : seq T) lo hi : no_gap (sv_of_vector es) lo hi.
Proof. by move=> i j k _ _ hj; rewrite !mem_iota /= => h1 h2; lia. Qed.

Lemma sv_of_vector_ok (es : seq T) : sv_ok (sv_of_vector es).
Proof.
apply/and3P; split; first by rewrite /= size_iota.
  exact: iota_ltn_sorted.
by apply/allP => k /=; rewrite mem_iota.
Qed.

Lemma sv_of_vector_at (es : seq T) k : sv_at (sv_of_vector es) k = es`_k.
Proof.
rewrite /sv_at /= mem_iota /= add0n; case: ltnP => h; last by rewrite nth_default.
by rewrite -{1}[k](@nth_iota 0 0 (size es)) // index_uniq ?iota_uniq ?size_iota.
Qed.

(** From a dense query vector: any split, and completion. *)
Lemma accumulate_dense (first : T) (es : seq T) (chunks : seq (seq F)) :
  let input := flatten chunks in
  exists2 av', accumulate_chunks (av_of_vector first es) chunks 0 = Ok av' &
    [/\ accumulate_chunk (av_of_vector first es) input 0 = Ok av',
        av_first av' = first + \sum_(0 <= j < size input) input`_j *: es`_j,
        av_domain_size av' = size es &
        av_is_fully_accumulated av' = (size es <= size input)%N].
Proof.
have [av' e [h1 h2 h3 h4 [h5 h6]]] := @accumulate_chunks_ok (av_of_vector first es) chunks 0
  (sv_of_vector_ok es) (@no_gap_dense _ _ _).
exists av' => //; split=> //.
- rewrite h2; congr (_ + _); apply: eq_bigr => j _; by rewrite sv_of_vector_at.
- rewrite /av_is_fully_accumulated /sv_empty h5 /=.
  apply/nilP/idP => [h|h].
    rewrite leqNgt; apply/negP => hlt.
    have : size (flatten chunks) \in [seq k <- iota 0 (size es) | ~~ matches (flatten chunks) 0 k].
      by rewrite mem_filter mem_iota /matches; lia.
    by rewrite h.
  apply/eqP; rewrite -(negbK (_ == _)) -has_filter; apply/hasPn => k; rewrite mem_iota /matches; lia.
Qed.

End Accumulate.

Section AccumulateSpec.
Variables (F : fieldType) (T : lmodType F).

Lemma sv_accumulate_spec (v : sparse_vector T) (scalars : seq F) offset :
  sv_ok v -> no_gap v offset (offset + size scalars) ->
  exists2 rest, sv_accumulate v scalars offset = Ok (sv_inner v scalars offset, rest) &
    [/\ sv_ok rest, sv_domain_size rest = sv_domain_size v,
        (forall k, (k \in sv_indices rest) = (k \in sv_indices v) && ~~ (offset <= k < offset + size scalars)%N) &
        forall k, sv_at rest k = if (offset <= k < offset + size scalars)%N then 0 else sv_at v k].
Proof.
move=> hv hg; exists (acc_rest v scalars offset); first exact: sv_accumulate_ok.
split=> //; first exact: acc_rest_ok.
  by move=> k; rewrite /= range_filter // mem_filter andbC.
by move=> k; apply: acc_rest_at.
Qed.

Lemma accumulate_chunks_spec (av : accumulation_vector T) (chunks : seq (seq F)) (offset : nat) :
  let input := flatten chunks in
  sv_ok (av_rest av) -> no_gap (av_rest av) offset (offset + size input) ->
  exists2 av', accumulate_chunks av chunks offset = Ok av' &
    [/\ accumulate_chunk av input offset = Ok av',
        av_first av' = av_first av + sv_inner (av_rest av) input offset,
        (forall k, (k \in sv_indices (av_rest av')) =
                   (k \in sv_indices (av_rest av)) && ~~ (offset <= k < offset + size input)%N) &
        av_is_fully_accumulated av' =
        all (fun k => (offset <= k < offset + size input)%N) (sv_indices (av_rest av))].
Proof.
move=> input hv hg; have [av' e [h1 h2 h3 h4 [h5 h6]]] := accumulate_chunks_ok hv hg.
exists av' => //; split=> //.
  by move=> k; rewrite h5 mem_filter andbC.
rewrite /av_is_fully_accumulated /sv_empty h5 /nilp size_filter -/input.
rewrite -leqn0 leqNgt -has_count -all_predC; apply: eq_all => k /=; by rewrite negbK.
Qed.

End AccumulateSpec.

Section KC.
Variables (F : fieldType) (T1 T2 : lmodType F).
Local Notation kc := (kc T1 T2).
Implicit Types (vec : kc_vector T1 T2).

Lemma zip_rcons (A B : Type) (s : seq A) (t : seq B) a b : size s = size t ->
  zip (rcons s a) (rcons t b) = rcons (zip s t) (a, b).
Proof. by elim: s t => [|x s IH] [|y t] //= [/IH ->]. Qed.

Lemma kc_loop_ok min_idx max_idx (scalars : seq F) ks (vs : seq kc) acc p g :
  sorted ltn ks -> size vs = size ks -> size p = size g ->
  (forall k, k \in ks -> (k < max_idx)%N -> (k - min_idx < size scalars)%N) ->
  exists acc' p' g', [/\ kc_loop min_idx max_idx scalars ks vs acc p g = Ok (acc', p', g'),
    size p' = size g' &
    acc' + \sum_(e <- zip p' g') e.1 *: e.2 = acc + \sum_(e <- zip p g) e.1 *: e.2 +
      \sum_(e <- zip ks vs | (e.1 < max_idx)%N) scalars`_(e.1 - min_idx) *: e.2].
Proof.
elim: ks vs acc p g => [|k ks IH] [|x vs] acc p g //.
  by move=> _ _ h _; exists acc, p, g; split=> //; rewrite big_nil addr0.
move=> hs [hsz] hpg hin.
rewrite [kc_loop _ _ _ _ _ _ _ _]/=; case: ifP => hk; last first.
  exists acc, p, g; split=> //; rewrite [X in _ = _ + X]big_seq_cond [X in _ = _ + X]big1 ?addr0 // => -[j y] /= /andP [hj hlt].
  have : j \in k :: ks.
    exact: (mem_zip_fst (hj : (j, y) \in zip (k :: ks) (x :: vs))).
  rewrite inE => /orP [/eqP e|hj2]; first by rewrite -e hlt in hk.
  by have := allP (order_path_min ltn_trans hs) _ hj2; move: hlt hk; rewrite /=; lia.
have hks : forall j, j \in ks -> (j < max_idx)%N -> (j - min_idx < size scalars)%N.
  by move=> j hj; apply: hin; rewrite inE hj orbT.
rewrite (@oget_nth F 0); last by apply: hin; rewrite ?inE ?eqxx.
rewrite obindE big_cons /= hk; set sc := scalars`_ _.
case: eqP => [e0|n0].
  have [acc' [p' [g' [-> h1 h2]]]] := IH vs acc p g (path_sorted hs) hsz hpg hks.
  by exists acc', p', g'; split=> //; rewrite h2 e0 scale0r add0r.
case: eqP => [e1|n1].
  have [acc' [p' [g' [-> h1 h2]]]] := IH vs (acc + x) p g (path_sorted hs) hsz hpg hks.
  by exists acc', p', g'; split=> //; rewrite h2 e1 scale1r -!addrA; congr (_ + _); rewrite addrCA.
have hpg' : size (rcons p sc) = size (rcons g x) by rewrite !size_rcons hpg.
have [acc' [p' [g' [-> h1 h2]]]] := IH vs acc (rcons p sc) (rcons g x) (path_sorted hs) hsz hpg' hks.
by exists acc', p', g'; split=> //; rewrite h2 zip_rcons // -cats1 big_cat big_seq1 /= !addrA.
Qed.

Lemma sum_entries_zip (T : lmodType F) (v : sparse_vector T) (f : nat -> F) lo hi : sv_ok v -> (lo <= hi)%N ->
  \sum_(lo <= k < hi) f k *: sv_at v k =
  \sum_(e <- zip (drop (lower_bound (sv_indices v) lo) (sv_indices v)) (drop (lower_bound (sv_indices v) lo) (sv_values v))
     | (e.1 < hi)%N) f e.1 *: e.2.
Proof.
move=> hv hlh; rewrite sum_entries //; set p := lower_bound _ lo; set q := lower_bound _ hi.
have hs := sv_ok_sorted hv; have hsz := sv_ok_size hv.
rewrite (big_nth (0%N, 0)) size_zip !size_drop hsz minnn.
have hq : (q <= size (sv_indices v))%N by apply: lower_bound_size.
have hpq : (p <= q)%N by apply: lower_bound_mono.
rewrite -[in LHS](add0n p) big_addn.
rewrite [RHS](@big_cat_nat _ _ _ (q - p)) /=; [|by []|lia].
rewrite [X in _ = _ + X]big_nat_cond [X in _ = _ + X]big1 ?addr0; last first.
  move=> i /andP [hi1]; rewrite nth_zip /=; last by rewrite !size_drop hsz.
  by rewrite nth_drop lower_bound_lt //; rewrite -/q; lia.
rewrite big_nat_cond [RHS]big_nat_cond; apply: eq_big.
  move=> i; rewrite nth_zip /=; last by rewrite !size_drop hsz.
  case hi1: (i < q - p)%N => //; rewrite nth_drop lower_bound_lt //; [rewrite -/q|]; lia.
move=> i /andP [hi1 _]; rewrite nth_zip /=; last by rewrite !size_drop hsz.
by rewrite !nth_drop addnC.
Qed.

Lemma kc_multi_exp_ok vec min_idx max_idx (scalars : seq F) :
  sv_ok vec -> (min_idx <= max_idx)%N -> (size scalars <= sv_domain_size vec)%N ->
  (max_idx - min_idx <= size scalars)%N ->
  kc_multi_exp vec min_idx max_idx scalars =
  Ok (\sum_(min_idx <= i < max_idx) scalars`_(i - min_idx) *: sv_at vec i).
Proof.
move=> hv hmm hd hsc; rewrite /kc_multi_exp hd oassertT.
set off := lower_bound _ _.
have hs : sorted ltn (drop off (sv_indices vec)) by apply: drop_sorted; apply: sv_ok_sorted.
have hsz : size (drop off (sv_values vec)) = size (drop off (sv_indices vec)).
  by rewrite !size_drop sv_ok_size.
have hin k : k \in drop off (sv_indices vec) -> (k < max_idx)%N -> (k - min_idx < size scalars)%N.
  move=> /(nthP 0%N) [i]; rewrite size_drop => hi <-; rewrite nth_drop => hk.
  have [_ h2] := lower_boundP min_idx (sv_ok_sorted hv).
  have h3 : (min_idx <= nth 0%N (sv_indices vec) (off + i))%N.
    by apply: h2; rewrite -/off leq_addr /= -ltn_subRL.
  by apply: leq_trans hsc; exact: (ltn_sub2r (leq_ltn_trans h3 hk) hk).
have [acc' [p' [g' [-> h1 e]]]] := kc_loop_ok 0 hs hsz (erefl (size ([::] : seq kc)) : size ([::] : seq F) = _) hin.
rewrite obindE multi_expE -h1 eqxx obindE e big_nil !add0r.
by rewrite (@sum_entries_zip _ vec (fun i => scalars`_(i - min_idx))).
Qed.

(** ** Batch exponentiation *)

Variables (g1 : T1) (g2 : T2).

Definition kc_at (c1 c2 : F) (v : seq F) (i : nat) : kc := ((c1 * v`_i) *: g1, (c2 * v`_i) *: g2).

Lemma kc_internal_ok c1 c2 (v : seq F) pos k : (pos + k <= size v)%N ->
  kc_batch_exp_internal g1 g2 c1 c2 v pos k =
  Ok ([seq i <- iota pos k | v`_i != 0], [seq kc_at c1 c2 v i | i <- iota pos k & v`_i != 0]).
Proof.
elim: k pos => [|k IH] pos h //=.
rewrite (@oget_nth F 0); last by lia.
rewrite obindE IH; last by lia.
by rewrite obindE /=; case: (_ != 0).
Qed.

Definition count_nz (v : seq F) (n : nat) := count (fun i => v`_i != 0) (iota 0 n).

Lemma nonzero_count (v : seq F) : foldl (fun n x => n + (if x == 0%R then 0 else 1))%N 0%N v = count_nz v (size v).
Proof.
have e : forall n, foldl (fun n x => n + (if x == 0%R then 0 else 1))%N n v = (n + count (fun x : F => x != 0%R) v)%N.
  elim: v => [|x v IH] n /=; first by rewrite addn0.
  by rewrite IH; case: eqP => _ /=; lia.
rewrite e add0n /count_nz -{1}(mkseq_nth 0 v) /mkseq count_map; exact: eq_count.
Qed.

Lemma chunk_loop_ok (v : seq F) cs nc m : (m <= size v)%N -> (0 < cs)%N -> (0 < nc)%N ->
  exists cp cnt chunkno, [/\ ofold (chunk_step v cs nc) (nseq nc.+1 0%N, 0%N, 1%N) (iota 0 m) = Ok (cp, cnt, chunkno),
    size cp = nc.+1, (0 < chunkno <= nc)%N,
    [/\ nth 0%N cp 0 = 0%N, (forall i, (i < chunkno)%N -> (nth 0%N cp i <= m)%N) &
        forall i, (i.+1 < chunkno)%N -> (nth 0%N cp i <= nth 0%N cp i.+1)%N] &
    ((chunkno.-1 * cs + cnt)%N = count_nz v m /\ ((cnt < cs)%N || (chunkno == nc)))].
Proof.
move=> hm hcs hnc; elim: m hm => [|m IH] hm.
  exists (nseq nc.+1 0%N), 0%N, 1%N; split=> //; rewrite ?size_nseq //.
    by split=> // i; rewrite !nth_nseq !if_same.
  by rewrite hcs.
have [cp [cnt [ch [e s1 hch [h1 h2 h3] [h4 h5]]]]] := IH (ltnW hm).
rewrite -[m.+1]addn1 iotaD ofold_cat e obindE ofold_cons /chunk_step.
rewrite (@oget_nth F 0) ?obindE; last by lia.
have e4 : count_nz v (m + 1) = (count_nz v m + (v`_m != 0)%R)%N.
  by rewrite /count_nz iotaD count_cat /= addn0.
set c := (cnt + _)%N; have ec : c = (cnt + (v`_m != 0)%R)%N by rewrite /c; case: eqP.
case: ifP => hc; last first.
  exists cp, c, ch; split=> //.
    by split=> // i /h2; lia.
  by rewrite e4 -h4 addnA ec; split=> //; move: hc h5; rewrite ec; lia.
case/andP: hc => /eqP hc1 hc2.
rewrite (@oput_set_nth _ 0%N) ?obindE; last by lia.
exists (set_nth 0%N cp ch m), 0%N, ch.+1; split=> //.
- by rewrite size_set_nth s1; lia.
- split=> [|i|i].
  + by rewrite nth_set_nth /= h1; case: eqP => //; lia.
  + by rewrite nth_set_nth /=; case: eqP => [_|hne] hi; [lia|have := h2 i; lia].
  + rewrite !nth_set_nth /= => hi; case: (eqVneq i ch) => [e1|hne]; first by lia.
    by case: eqP => [e2|hne2]; [apply: h2; lia|apply: h3; lia].
- rewrite e4 -h4 addn0 /= hcs; split=> //.
  have -> : (ch * cs = ch.-1 * cs + cs)%N by rewrite -{1}(prednK (_ : 0 < ch)%N) ?mulSn 1?addnC //; lia.
  by rewrite -addnA -ec hc1.
Qed.

Lemma flatten_ranges (A : Type) (f : nat -> nat -> seq A) (cp : seq nat) m :
  (forall a b c, (a <= b)%N -> (b <= c)%N -> f a b ++ f b c = f a c) ->
  (forall a, f a a = [::]) ->
  (forall i, (i < m)%N -> (nth 0%N cp i <= nth 0%N cp i.+1)%N) ->
  flatten [seq f (nth 0%N cp i) (nth 0%N cp i.+1) | i <- iota 0 m] = f (nth 0%N cp 0) (nth 0%N cp m)
  /\ (nth 0%N cp 0 <= nth 0%N cp m)%N.
Proof.
move=> hcat hnil; elim: m => [|m IH] h; first by rewrite /= hnil.
have [|e1 e2] := IH; first by move=> i hi; apply: h; lia.
have hm := h m (ltnSn m); split; last by apply: leq_trans hm.
rewrite -[in iota _ _]addn1 iotaD map_cat flatten_cat e1 /= cats0.
exact: hcat.
Qed.

Lemma kc_batch_exp_ok c1 c2 (v : seq F) chunks :
  kc_batch_exp g1 g2 c1 c2 v chunks =
  Ok (SparseVector [seq i <- iota 0 (size v) | v`_i != 0]
                   [seq kc_at c1 c2 v i | i <- iota 0 (size v) & v`_i != 0] (size v)).
Proof.
rewrite /kc_batch_exp nonzero_count; set N := count_nz _ _.
set nc := maxn 1 _; set cs := (_ %/ _)%N.
have hnc : (0 < nc)%N by rewrite /nc; lia.
have -> : oput (nseq nc.+1 0%N) 0 0%N = Ok (nseq nc.+1 0%N) by [].
rewrite obindE.
have [cp [cnt [ch [-> s1 hch h2 h3]]]] : exists cp cnt chunkno,
   [/\ ofold (chunk_step v cs nc) (nseq nc.+1 0%N, 0%N, 1%N) (iota 0 (size v)) = Ok (cp, cnt, chunkno),
    size cp = nc.+1, chunkno = nc, nth 0%N cp 0 = 0%N &
    (forall i, (i < nc)%N -> (nth 0%N cp i <= size v)%N) /\
        forall i, (i.+1 < nc)%N -> (nth 0%N cp i <= nth 0%N cp i.+1)%N].
  case: (posnP N) => [N0|Npos].
    have en : nc = 1%N by rewrite /nc N0 min0n.
    have hz : forall m, (m <= size v)%N -> exists cnt,
      ofold (chunk_step v cs 1) (nseq 2 0%N, 0%N, 1%N) (iota 0 m) = Ok (nseq 2 0%N, cnt, 1%N).
      elim=> [|m IH] hm; first by exists 0%N.
      have [cnt e] := IH (ltnW hm); rewrite -[m.+1]addn1 iotaD ofold_cat e obindE ofold_cons /chunk_step.
      rewrite (@oget_nth F 0) ?obindE //; rewrite ltnn andbF; by eexists.
    rewrite en; have [cnt e] := hz _ (leqnn _); exists (nseq 2 0%N), cnt, 1%N; split=> //; split=> // i hi.
    by have -> : i = 0%N by lia.
  have hcs : (0 < cs)%N by rewrite /cs divn_gt0 // /nc; lia.
  have [cp [cnt [ch [e s1 hch [h1 h2 h3] [h4 h5]]]]] := chunk_loop_ok (leqnn (size v)) hcs hnc.
  have ech : ch = nc.
    case/orP: h5 => [hlt|/eqP //]; apply/eqP; rewrite eqn_leq; case/andP: hch => hp -> /=.
    rewrite leqNgt; apply/negP => hlt2.
    have h6 : (nc * cs <= N)%N by rewrite mulnC leq_trunc_div.
    have h7 : (ch * cs <= nc * cs)%N by rewrite leq_mul2r (ltnW hlt2) orbT.
    have h8 : (ch.+1 * cs <= nc * cs)%N by rewrite leq_mul2r hlt2 orbT.
    have h9 : (ch * cs = ch.-1 * cs + cs)%N by rewrite -{1}(prednK hp) mulSn addnC.
    by rewrite /N -h4 in h6; move: h6 h7 h8 h9; rewrite mulSn; lia.
  by exists cp, cnt, ch; split=> //; rewrite -ech.
rewrite obindE (@oput_set_nth _ 0%N) ?obindE /=; last by rewrite s1.
case: h3 => h3 h4; set cp' := set_nth _ _ _ _.
have cp'n : nth 0%N cp' nc = size v by rewrite nth_set_nth /= eqxx.
have cp'0 : nth 0%N cp' 0 = 0%N by rewrite nth_set_nth /=; case: eqP => //; lia.
have cp's : size cp' = nc.+1 by rewrite size_set_nth s1; lia.
have mono i : (i < nc)%N -> (nth 0%N cp' i <= nth 0%N cp' i.+1)%N.
  move=> hi; rewrite !nth_set_nth /= (_ : (i == nc) = false); last by apply/eqP; lia.
  by case: eqP => [_|hne]; [apply: h3|apply: h4; lia].
have bound i : (i <= nc)%N -> (nth 0%N cp' i <= size v)%N.
  by move=> hi; rewrite nth_set_nth /=; case: eqP => // hne; apply: h3; lia.
rewrite (@omapm_Ok _ _ _ (fun i => ([seq k <- iota (nth 0%N cp' i) (nth 0%N cp' i.+1 - nth 0%N cp' i) | v`_k != 0],
   [seq kc_at c1 c2 v k | k <- iota (nth 0%N cp' i) (nth 0%N cp' i.+1 - nth 0%N cp' i) & v`_k != 0]))); last first.
  move=> i /In_mem; rewrite mem_iota add0n => /andP [_ hi].
  rewrite (@oget_nth _ 0%N) ?obindE; last by lia.
  rewrite (@oget_nth _ 0%N) ?obindE; last by lia.
  rewrite mono // kc_internal_ok // subnKC ?mono //; apply: bound; lia.
rewrite obindE.
have ri a b c : (a <= b)%N -> (b <= c)%N -> iota a (b - a) ++ iota b (c - b) = iota a (c - a).
  by move=> hab hbc; have -> : (c - a = (b - a) + (c - b))%N; [lia|rewrite iotaD subnKC].
have [|||f1 _] := @flatten_ranges _ (fun a b => [seq k <- iota a (b - a) | v`_k != 0]) cp' nc.
- by move=> a b c hab hbc; rewrite -filter_cat ri.
- by move=> a; rewrite subnn.
- exact: mono.
have [|||f2 _] := @flatten_ranges _ (fun a b => [seq kc_at c1 c2 v k | k <- iota a (b - a) & v`_k != 0]) cp' nc.
- by move=> a b c hab hbc; rewrite -map_cat -filter_cat ri.
- by move=> a; rewrite subnn.
- exact: mono.
rewrite cp'0 cp'n subn0 in f1 f2.
case: eqP => [e1|_].
  by move: cp'n; rewrite e1 /= cp'0 subn0 => ->.
by rewrite -!map_comp /comp /= f1 f2.
Qed.

Lemma kc_batch_exp_sv_ok (v : seq F) c1 c2 :
  sv_ok (SparseVector [seq i <- iota 0 (size v) | v`_i != 0]
                   [seq kc_at c1 c2 v i | i <- iota 0 (size v) & v`_i != 0] (size v)).
Proof.
apply/and3P; split; first by rewrite /= size_map.
  by apply: sorted_filter; [apply: ltn_trans|apply: iota_ltn_sorted].
by apply/allP => k /=; rewrite mem_filter mem_iota => /andP [_].
Qed.

Lemma kc_batch_exp_at (v : seq F) c1 c2 k :
  sv_at (SparseVector [seq i <- iota 0 (size v) | v`_i != 0]
                   [seq kc_at c1 c2 v i | i <- iota 0 (size v) & v`_i != 0] (size v)) k =
  kc_at c1 c2 v k.
Proof.
rewrite /sv_at /=; case: ifP => h.
  by rewrite (nth_map 0%N) ?index_mem // nth_index.
move: h; rewrite mem_filter mem_iota add0n /= => /negbT; rewrite negb_and negbK => hk.
have e : v`_k = 0 by case/orP: hk => [/eqP //|h]; rewrite nth_default // leqNgt.
by rewrite /kc_at e !mulr0 !scale0r.
Qed.

(** Whatever the number of chunks. *)
Lemma kc_batch_exp_spec c1 c2 (v : seq F) : exists2 r : kc_vector T1 T2,
  forall chunks, kc_batch_exp g1 g2 c1 c2 v chunks = Ok r &
  [/\ sv_ok r, sv_domain_size r = size v,
      (forall k, (k \in sv_indices r) = (k < size v)%N && (v`_k != 0)) &
      forall k, sv_at r k = ((c1 * v`_k) *: g1, (c2 * v`_k) *: g2)].
Proof.
eexists; first by move=> chunks; apply: kc_batch_exp_ok.
split=> //; first exact: kc_batch_exp_sv_ok.
  by move=> k; rewrite mem_filter mem_iota add0n andbC.
by move=> k; rewrite kc_batch_exp_at.
Qed.

End KC.

(** ** Equality with a dense vector is wrong in general *)

Section Dense.
Variable T : zmodType.

(** Rejects an equal vector; accepts a different one; reads out of bounds. *)
Lemma sv_eq_dense_refuted (x : T) : x != 0 ->
  [/\ exists v, [/\ sv_ok v, (forall k, sv_at v k = [:: 0; x]`_k), sv_domain_size v = 2%N &
                    sv_eq_dense v [:: 0; x] = Ok false],
      exists v, [/\ sv_ok v, sv_at v 1 != [:: 0; x]`_1, sv_domain_size v = 2%N &
                    sv_eq_dense v [:: 0; x] = Ok true] &
      exists v, [/\ sv_ok v, (forall k, sv_at v k = [:: x; 0]`_k), sv_domain_size v = 2%N &
                    sv_eq_dense v [:: x; 0] = UB]].
Proof.
move=> hx; split.
- exists (SparseVector [:: 1%N] [:: x] 2); split=> //.
    by case=> [|[|[|k]]].
  by rewrite /sv_eq_dense /= eqxx /= hx.
- exists (SparseVector [:: 1%N] [:: 0] 2); split=> //.
    by rewrite eq_sym.
  by rewrite /sv_eq_dense /= !eqxx.
- exists (SparseVector [:: 0%N] [:: x] 2); split=> //.
    by case=> [|[|[|k]]].
  by rewrite /sv_eq_dense /= eqxx.
Qed.

Lemma sv_eq_dense_loop_ok (es other : seq T) i k : (i + k <= size es)%N -> (i + k = size other)%N ->
  sv_eq_dense_loop (sv_of_vector es) other i i k = Ok (drop i other == take k (drop i es)).
Proof.
elim: k i => [|k IH] i h1 h2 /=; first by rewrite take0 drop_oversize ?h2 // -h2 addn0.
rewrite (@oget_nth _ 0%N) ?size_iota; last by lia.
rewrite obindE nth_iota ?add0n ?eqxx; last by lia.
rewrite (@oget_nth _ 0) ?obindE; last by lia.
rewrite (@oget_nth _ 0) ?obindE; last by lia.
rewrite (drop_nth 0 (_ : i < size es)%N); last by lia.
rewrite (drop_nth 0 (_ : i < size other)%N); last by lia.
rewrite /= eqseq_cons [other`_i == _]eq_sym; case: eqP => //= _.
by rewrite IH; [|lia|lia].
Qed.

(** On a vector without gaps it compares the common prefix only. *)
Lemma sv_eq_dense_of_vector (es other : seq T) :
  sv_eq_dense (sv_of_vector es) other = Ok ((size other <= size es)%N && (other == take (size other) es)).
Proof.
rewrite /sv_eq_dense /=; case: ltnP => h //=.
by rewrite sv_eq_dense_loop_ok ?drop0 //; lia.
Qed.

End Dense.
