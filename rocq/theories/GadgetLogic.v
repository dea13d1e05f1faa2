(** Reasoning principles for gadgets.  Models nothing of /repo. *)
From mathcomp Require Import all_ssreflect all_algebra zify.
From Verif Require Import Outcome Lincomb LincombSpec LincombFacts R1CS R1CSSpec R1CSFacts Protoboard GadgetSpec
  Fieldtac.
Import GRing.Theory.
Set Implicit Arguments.
Unset Strict Implicit.
Unset Printing Implicit Defensive.
Local Open Scope ring_scope.

(** Inclusions between explicit lists of variables. *)
Ltac subset_tac :=
  let w := fresh "w" in
  move=> w; rewrite ?(mem_cat, mem_rcons, inE) //; rewrite -?orbA;
  repeat (case/orP); by [move=> ->; rewrite ?orbT | move=> /eqP ->; rewrite ?eqxx ?orbT].

Section Logic.
Variable F : fieldType.
Add Field Ff : (Fth F).
Implicit Types (x k : seq F) (l : linear_combination F) (pb : protoboard F).

(** * Constraints *)
Lemma holds_nil x : holds [::] x <-> True.
Proof. by split=> // _ c []. Qed.
Lemma holds_cons (c : r1cs_constraint F) cs x : holds (c :: cs) x <-> constraint_holds c x /\ holds cs x.
Proof.
split=> [h|[h1 h2] d [<-|hd]] //; last exact: h2.
by split; [apply: h; left|move=> d hd; apply: h; right].
Qed.
Lemma holds_cat (a b : seq (r1cs_constraint F)) x : holds (a ++ b) x <-> holds a x /\ holds b x.
Proof.
elim: a => [|c a IH] /=; first by rewrite holds_nil; tauto.
by rewrite !holds_cons IH; tauto.
Qed.
Lemma holds_map (T : Type) (f : T -> r1cs_constraint F) (s : seq T) x :
  holds (map f s) x <-> forall t, List.In t s -> constraint_holds (f t) x.
Proof.
elim: s => [|t s IH] /=; first by split=> // _ c [].
rewrite holds_cons IH; split=> [[h1 h2] u [<-|]|h] //; first exact: h2.
by split; [apply: h; left|move=> u hu; apply: h; right].
Qed.
Lemma holds_flatten (T : Type) (f : T -> seq (r1cs_constraint F)) (s : seq T) x :
  holds (flatten (map f s)) x <-> forall t, List.In t s -> holds (f t) x.
Proof.
elim: s => [|t s IH] /=; first by split=> // _ c [].
rewrite holds_cat IH; split=> [[h1 h2] u [<-|]|h] //; first exact: h2.
by split; [apply: h; left|move=> u hu; apply: h; right].
Qed.
Lemma In_iota i m n : List.In i (iota m n) <-> (m <= i < m + n)%N.
Proof.
elim: n m => [|n IH] m /=; first by split=> //; lia.
rewrite IH; split; first by case; lia.
by move=> h; case: (@eqP _ m i); [left|right]; lia.
Qed.
Lemma In_mem (T : eqType) (a : T) (s : seq T) : List.In a s <-> a \in s.
Proof.
elim: s => [|b s IH] //=; rewrite inE IH; split.
  by case=> [->|->]; rewrite ?eqxx ?orbT.
by case/orP => [/eqP->|]; [left|right].
Qed.
Lemma holds_iota (f : nat -> r1cs_constraint F) n x :
  holds (map f (iota 0 n)) x <-> forall i, (i < n)%N -> constraint_holds (f i) x.
Proof. by rewrite holds_map; split=> h i hi; apply: h; move: hi; rewrite In_iota. Qed.
Lemma holds_flatten_iota (f : nat -> seq (r1cs_constraint F)) n x :
  holds (flatten (map f (iota 0 n))) x <-> forall i, (i < n)%N -> holds (f i) x.
Proof. by rewrite holds_flatten; split=> h i hi; apply: h; move: hi; rewrite In_iota. Qed.
Lemma cs_in_range_cat n (a b : seq (r1cs_constraint F)) :
  cs_in_range n (a ++ b) = cs_in_range n a && cs_in_range n b.
Proof. exact: all_cat. Qed.
Lemma cs_in_range_catI n (a b : seq (r1cs_constraint F)) :
  cs_in_range n a -> cs_in_range n b -> cs_in_range n (a ++ b).
Proof. by rewrite cs_in_range_cat => -> ->. Qed.
Lemma cs_in_range_flatten n (s : seq (seq (r1cs_constraint F))) :
  cs_in_range n (flatten s) = all (cs_in_range n) s.
Proof. exact: all_flatten. Qed.

(** * Values *)
Lemma xval0 x : xval x 0 = 1. Proof. by []. Qed.

Lemma formal_sum_add_term l t x : formal_sum (add_term l t) x = formal_sum l x + t.2 * xval x t.1.
Proof. by rewrite /add_term -cats1 formal_sum_cat formal_sum_cons formal_sum_nil addr0. Qed.
Lemma formal_sum_var_add v l x : formal_sum (var_add_lc v l) x = xval x v + formal_sum l x.
Proof.
by rewrite /var_add_lc formal_sum_cat formal_sum_add_term /lc_zero formal_sum_nil /= add0r mul1r addrC.
Qed.
Lemma formal_sum_var_sub v l x : formal_sum (var_sub_lc v l) x = xval x v - formal_sum l x.
Proof. by rewrite formal_sum_var_add formal_sum_neg. Qed.
Lemma formal_sum_lt_add t l x : formal_sum (lt_add_lc t l) x = t.2 * xval x t.1 + formal_sum l x.
Proof. by rewrite formal_sum_add formal_sum_term. Qed.
Lemma formal_sum_lt_sub t l x : formal_sum (lt_sub_lc t l) x = t.2 * xval x t.1 - formal_sum l x.
Proof. by rewrite formal_sum_lt_add formal_sum_neg. Qed.
Lemma formal_sum_const_add c l x : formal_sum (const_add_lc c l) x = c + formal_sum l x.
Proof. by rewrite formal_sum_add formal_sum_const. Qed.
Lemma formal_sum_const_sub c l x : formal_sum (const_sub_lc c l) x = c - formal_sum l x.
Proof. by rewrite formal_sum_sub formal_sum_const. Qed.
Lemma formal_sum_zero x : formal_sum (@lc_zero F) x = 0.
Proof. exact: formal_sum_nil. Qed.
Lemma formal_sum_from_terms (ts : seq (linear_term F)) x : formal_sum (lc_from_terms ts) x = formal_sum ts x.
Proof. by rewrite /lc_from_terms formal_sum_merge; apply: formal_sum_perm; rewrite perm_sort. Qed.
Lemma in_range_from_terms n (ts : seq (linear_term F)) : in_range n (lc_from_terms ts) = in_range n ts.
Proof. by rewrite /lc_from_terms in_range_merge /in_range; apply: perm_all; rewrite perm_sort. Qed.

Definition fsE := (formal_sum_var, formal_sum_const, formal_sum_int, formal_sum_term,
  formal_sum_add_term, formal_sum_var_add, formal_sum_var_sub, formal_sum_lt_add,
  formal_sum_lt_sub, formal_sum_const_add, formal_sum_const_sub, formal_sum_zero, formal_sum_add,
  formal_sum_sub, formal_sum_neg, formal_sum_scale).

Lemma in_range_nil n : in_range n ([::] : seq (nat * F)). Proof. by []. Qed.
Lemma in_range_cons n (t : nat * F) l : in_range n (t :: l) = (t.1 <= n)%N && in_range n l. Proof. by []. Qed.
Lemma in_range_cat n (a b : seq (nat * F)) : in_range n (a ++ b) = in_range n a && in_range n b.
Proof. exact: all_cat. Qed.
Lemma in_range_add_term n l t : in_range n (add_term l t) = in_range n l && (t.1 <= n)%N.
Proof. by rewrite /add_term -cats1 in_range_cat in_range_cons andbT. Qed.
Lemma in_range_zero n : in_range n (@lc_zero F). Proof. by []. Qed.
Lemma in_range_var n v : in_range n (lc_of_var F v) = (v <= n)%N. Proof. by rewrite in_range_add_term. Qed.
Lemma in_range_const n c : in_range n (lc_of_const (c : F)). Proof. by rewrite in_range_add_term. Qed.
Lemma in_range_int n c : in_range n (lc_of_int F c). Proof. by rewrite in_range_add_term. Qed.
Lemma in_range_term n (t : linear_term F) : in_range n (lc_of_term t) = (t.1 <= n)%N.
Proof. by rewrite in_range_add_term. Qed.
Lemma in_range_neg n l : in_range n (lc_neg l) = in_range n l.
Proof. exact: in_range_scale. Qed.
Lemma in_range_var_add n v l : in_range n (var_add_lc v l) = (v <= n)%N && in_range n l.
Proof. by rewrite /var_add_lc in_range_cat in_range_add_term andbC. Qed.
Lemma in_range_var_sub n v l : in_range n (var_sub_lc v l) = (v <= n)%N && in_range n l.
Proof. by rewrite in_range_var_add in_range_neg. Qed.
Lemma in_range_lt_add n t l : in_range n (lt_add_lc t l) = (t.1 <= n)%N && in_range n l.
Proof. by rewrite in_range_add in_range_term. Qed.
Lemma in_range_lt_sub n t l : in_range n (lt_sub_lc t l) = (t.1 <= n)%N && in_range n l.
Proof. by rewrite in_range_lt_add in_range_neg. Qed.
Lemma in_range_const_add n c l : in_range n (const_add_lc c l) = in_range n l.
Proof. by rewrite in_range_add in_range_const. Qed.
Lemma in_range_const_sub n c l : in_range n (const_sub_lc c l) = in_range n l.
Proof. by rewrite in_range_sub in_range_const. Qed.
Lemma in_range_le n m l : (n <= m)%N -> in_range n l -> in_range m l.
Proof. by move=> h; apply: sub_all => t /= ht; exact: leq_trans ht h. Qed.

Definition irE := (in_range_zero, in_range_var, in_range_const, in_range_int, in_range_term, in_range_add_term, in_range_var_add, in_range_var_sub, in_range_lt_add,
  in_range_lt_sub, in_range_const_add, in_range_const_sub, in_range_add, in_range_sub, in_range_neg,
  in_range_scale).

Lemma cs_in_range_le n m (cs : seq (r1cs_constraint F)) : (n <= m)%N -> cs_in_range n cs -> cs_in_range m cs.
Proof.
move=> h; apply: sub_all => c; rewrite /constraint_in_range => /and3P [h1 h2 h3].
by rewrite !(in_range_le h).
Qed.

(** * Assigning one variable *)
Definition put x (v : nat) (a : F) : seq F := if v is v'.+1 then set_nth 0 x v' a else x.

Lemma size_put x v a : (v <= size x)%N -> size (put x v a) = size x.
Proof. by case: v => [|v] //= h; rewrite size_set_nth; lia. Qed.
Lemma xval_put x v a w : (0 < v <= size x)%N -> xval (put x v a) w = if w == v then a else xval x w.
Proof.
case: v => [|v] //= h; rewrite /xval; case: w => [|w] //=.
by rewrite nth_set_nth /= eqSS.
Qed.
Lemma xval_put_eq x v a : (0 < v <= size x)%N -> xval (put x v a) v = a.
Proof. by move=> h; rewrite xval_put // eqxx. Qed.
Lemma xval_put_neq x v a w : (v <= size x)%N -> w != v -> xval (put x v a) w = xval x w.
Proof. by case: v => [|v] // h hw; rewrite xval_put; [rewrite (negbTE hw)|lia]. Qed.

(** * Frames *)
Lemma changes_refl m x : changes_only m x x. Proof. by []. Qed.
Lemma changes_trans m1 m2 x y z :
  changes_only m1 x y -> changes_only m2 y z -> changes_only (m1 ++ m2) x z.
Proof.
move=> [s1 h1] [s2 h2]; split; first by rewrite s2.
by move=> v; rewrite mem_cat negb_or => /andP [v1 v2]; rewrite h2 // h1.
Qed.
Lemma changes_sub m1 m2 x y : {subset m1 <= m2} -> changes_only m1 x y -> changes_only m2 x y.
Proof.
move=> hs [s1 h1]; split=> // v hv; apply: h1.
by apply/negP => /hs; exact/negP.
Qed.
Lemma changes_trans_in m1 m2 m x y z : {subset m1 <= m} -> {subset m2 <= m} ->
  changes_only m1 x y -> changes_only m2 y z -> changes_only m x z.
Proof.
move=> s1 s2 c1 c2; apply: changes_sub (changes_trans c1 c2) => v.
by rewrite mem_cat => /orP [/s1|/s2].
Qed.
Lemma changes_put x v a : (v <= size x)%N -> changes_only [:: v] x (put x v a).
Proof.
move=> h; split; first exact: size_put.
by move=> w; rewrite inE => hw; apply: xval_put_neq.
Qed.
Lemma changes_fs m x y l : changes_only m x y -> avoids m l -> formal_sum l y = formal_sum l x.
Proof.
case=> _ h; rewrite /formal_sum; elim: l => [|t l IH] //=; first by rewrite !big_nil.
by case/andP => ht hl; rewrite !big_cons h // IH.
Qed.
Lemma avoids_cat m a b : avoids m (a ++ b : seq (nat * F)) = avoids m a && avoids m b.
Proof. exact: all_cat. Qed.
Lemma avoids0 (l : seq (nat * F)) : avoids [::] l.
Proof. exact/allP. Qed.
Lemma avoids_mem m1 m2 l : avoids (m1 ++ m2) l = avoids m1 l && avoids m2 l.
Proof.
elim: l => [|t l IH] //=; rewrite IH mem_cat negb_or.
by case: (t.1 \in m1); case: (t.1 \in m2) => //=; rewrite ?andbF.
Qed.
Lemma avoids_above n m l : in_range n l -> all (fun v => n < v)%N m -> avoids m l.
Proof.
move=> hl hm; apply/allP => t ht; apply/negP => hv.
by have /= h1 := allP hl t ht; have /= h2 := allP hm _ hv; lia.
Qed.
Lemma avoids_in_range n m l : in_range n l -> (forall v, v \in m -> (n < v)%N) -> avoids m l.
Proof. by move=> hl hm; apply: (avoids_above hl); apply/allP. Qed.

(** * Protoboard states *)
Definition upd pb x k : protoboard F :=
  Protoboard 1 x (pb_next_free_var pb) (pb_next_free_lc pb) k (pb_cs pb).

Lemma upd_id pb : pb_constant_term pb = 1 -> upd pb (pb_values pb) (pb_lc_values pb) = pb.
Proof. by case: pb => c v n m k cs /= ->. Qed.
Lemma upd_upd pb x k x' k' : upd (upd pb x k) x' k' = upd pb x' k'. Proof. by []. Qed.

Lemma pb_val_upd pb x k v : (v <= size x)%N -> pb_val (upd pb x k) v = Ok (xval x v).
Proof. by rewrite /pb_val /= => h; rewrite h; case: v h => [|v] //= h; rewrite (oget_nth 0). Qed.
Lemma pb_set_upd pb x k v a : (0 < v <= size x)%N -> pb_set (upd pb x k) v a = Ok (upd pb (put x v a) k).
Proof.
rewrite /pb_set /= => /andP [h0 h1]; rewrite h1; case: v h0 h1 => [|v] //= _ h.
by rewrite (oput_set_nth 0).
Qed.

Definition kput k (i : nat) (a : F) : seq F := set_nth 0 k i a.
Lemma pb_lc_val_var pb x k (l : pb_linear_combination F) : lc_is_variable l -> (lc_index l <= size x)%N ->
  pb_lc_val (upd pb x k) l = Ok (xval x (lc_index l)).
Proof. by rewrite /pb_lc_val => -> h; rewrite pb_val_upd. Qed.
Lemma pb_lc_val_slot pb x k (l : pb_linear_combination F) : ~~ lc_is_variable l -> (lc_index l < size k)%N ->
  pb_lc_val (upd pb x k) l = Ok (nth 0 k (lc_index l)).
Proof. by rewrite /pb_lc_val => /negbTE-> h; rewrite /= h /= (oget_nth 0). Qed.

(** The value slot of [l] is up to date. *)
Definition cached x k (l : pb_linear_combination F) : Prop :=
  lc_is_variable l \/ nth 0 k (lc_index l) = lval x l.

Lemma lval_var x v : lval x (plc_of_var F v) = xval x v.
Proof. by rewrite /lval /= formal_sum_cons formal_sum_nil /= mul1r addr0. Qed.
Lemma lval_proper_var slot n m x (l : pb_linear_combination F) :
  lc_proper slot n m l -> lc_is_variable l -> lval x l = xval x (lc_index l).
Proof.
rewrite /lc_proper => h hv; move: h; rewrite hv => -[_ ht].
by rewrite /lval ht formal_sum_cons formal_sum_nil /= mul1r addr0.
Qed.
Lemma lc_proper_range slot n m (l : pb_linear_combination F) : lc_proper slot n m l -> in_range n (lc_terms l).
Proof. by rewrite /lc_proper; case: ifP => _; [case=> h ->; rewrite /= h|case]. Qed.
Lemma lc_proper_plc_var slot n m v : (v <= n)%N -> lc_proper slot n m (plc_of_var F v).
Proof. by []. Qed.
Lemma lc_proper_le slot n n' m m' (l : pb_linear_combination F) : (n <= n')%N -> (m <= m')%N ->
  lc_proper slot n m l -> lc_proper slot n' m' l.
Proof.
move=> hn hm; rewrite /lc_proper; case: ifP => _.
  by case=> h ->; split=> //; lia.
by case=> h -> hr; split=> //; [lia|apply: in_range_le hr].
Qed.

Lemma read_cached pb x k slot (l : pb_linear_combination F) : lc_proper slot (size x) (size k) l -> cached x k l ->
  pb_lc_val (upd pb x k) l = Ok (lval x l).
Proof.
move=> hp hc; case hv: (lc_is_variable l).
  rewrite pb_lc_val_var // ?(lval_proper_var _ hp hv) //.
  by move: hp; rewrite /lc_proper hv; case.
case: hc => [|<-]; first by rewrite hv.
by rewrite pb_lc_val_slot ?hv //; move: hp; rewrite /lc_proper hv; case.
Qed.

Lemma lc_sum_ok pb x k (l : linear_combination F) acc : in_range (size x) l ->
  ofold (fun sum t => let! a := pb_val (upd pb x k) (lt_index t) in Ok (sum + lt_coeff t * a)) acc l
  = Ok (acc + formal_sum l x).
Proof.
elim: l acc => [|t l IH] acc /=; first by rewrite formal_sum_nil addr0.
case/andP => h1 h2; rewrite pb_val_upd //= IH // formal_sum_cons addrA //.
Qed.

(** [k'] extends what is cached: slots change only to up-to-date values. *)
Definition cache_grows slot x k k' : Prop :=
  size k' = size k /\
  forall i, nth 0 k' i = nth 0 k i \/ nth 0 k' i = formal_sum (slot i) x.

Lemma cache_refl slot x k : cache_grows slot x k k.
Proof. by split=> // i; left. Qed.
Lemma cache_trans slot x k1 k2 k3 : cache_grows slot x k1 k2 -> cache_grows slot x k2 k3 -> cache_grows slot x k1 k3.
Proof.
move=> [s1 h1] [s2 h2]; split; first by rewrite s2.
by move=> i; case: (h2 i) => ->; [exact: h1|right].
Qed.
Lemma cached_grows slot x k k' n m (l : pb_linear_combination F) :
  lc_proper slot n m l -> cache_grows slot x k k' -> cached x k l -> cached x k' l.
Proof.
rewrite /lc_proper /cached => hp [_ h] [hv|hc]; first by left.
case hv: (lc_is_variable l); first by left.
right; move: hp; rewrite hv => -[_ ht _].
by case: (h (lc_index l)) => ->; rewrite ?hc // /lval ht.
Qed.

Lemma lc_evaluate_ok pb x k slot (l : pb_linear_combination F) : lc_proper slot (size x) (size k) l ->
  exists k', [/\ lc_evaluate (upd pb x k) l = Ok (upd pb x k'), cache_grows slot x k k' & cached x k' l].
Proof.
move=> hp; rewrite /lc_evaluate; case hv: (lc_is_variable l).
  by exists k; split=> //; [exact: cache_refl|left].
move: (hp); rewrite /lc_proper hv => -[hi ht hr].
rewrite lc_sum_ok //= add0r /pb_lc_set hv /= hi /= (oput_set_nth 0) //=.
exists (set_nth 0 k (lc_index l) (lval x l)); split=> //.
  split; first by rewrite size_set_nth; lia.
  move=> i; rewrite nth_set_nth /=; case: eqP => [->|_]; last by left.
  by right; rewrite /lval ht.
by right; rewrite nth_set_nth /= eqxx.
Qed.

Lemma lcs_evaluate_ok pb x k slot (ls : pb_linear_combination_array F) :
  (forall o, List.In o ls -> lc_proper slot (size x) (size k) o) ->
  exists k', [/\ lcs_evaluate (upd pb x k) ls = Ok (upd pb x k'), cache_grows slot x k k' &
                 forall o, List.In o ls -> cached x k' o].
Proof.
rewrite /lcs_evaluate; elim: ls k => [|o ls IH] k hp /=.
  by exists k; split=> //; apply: cache_refl.
have [k1 [-> g1 c1]] := @lc_evaluate_ok pb x k slot o (hp o (or_introl erefl)).
have [|k2 [h2 g2 c2]] := IH k1.
  by move=> o' ho'; rewrite (proj1 g1); apply: hp; right.
exists k2; split=> //=; first exact: cache_trans g1 g2.
move=> o' [<-|] //; last exact: c2.
exact: cached_grows (hp o (or_introl erefl)) g2 c1.
Qed.

(** One step of witness generation: only variables of [m] change, and the value
    slots of combinations that avoid [m] keep their contents or become up to
    date. *)
Definition wstep slot (m : seq nat) x k x' k' : Prop :=
  [/\ changes_only m x x', size k' = size k &
      forall i, avoids m (slot i) -> nth 0 k' i = nth 0 k i \/ nth 0 k' i = formal_sum (slot i) x].

Lemma wstep_refl slot m x k : wstep slot m x k x k.
Proof. by split=> // i; left. Qed.
Lemma wstep_changes slot m x k x' : changes_only m x x' -> wstep slot m x k x' k.
Proof. by move=> h; split=> // i; left. Qed.
Lemma wstep_cache slot m x k k' : cache_grows slot x k k' -> wstep slot m x k x k'.
Proof. by case=> h1 h2; split=> // i _; apply: h2. Qed.
Lemma wstep_size slot m x k x' k' : wstep slot m x k x' k' -> size x' = size x.
Proof. by case=> [[]]. Qed.
Lemma wstep_ksize slot m x k x' k' : wstep slot m x k x' k' -> size k' = size k.
Proof. by case. Qed.
Lemma wstep_changes_only slot m x k x' k' : wstep slot m x k x' k' -> changes_only m x x'.
Proof. by case. Qed.
Lemma wstep_val slot m x k x' k' v : wstep slot m x k x' k' -> v \notin m -> xval x' v = xval x v.
Proof. by case=> [[_ h] _ _]; apply: h. Qed.
Lemma wstep_fs slot m x k x' k' l : wstep slot m x k x' k' -> avoids m l -> formal_sum l x' = formal_sum l x.
Proof. by case=> h _ _; apply: changes_fs h. Qed.
Lemma avoids_subset m1 m2 l : {subset m1 <= m2} -> avoids m2 l -> avoids m1 l.
Proof.
move=> hs; apply: sub_all => t /= ht; apply/negP => h; move/negP: ht; apply; exact: hs.
Qed.
Lemma wstep_sub slot m1 m2 x k x' k' : {subset m1 <= m2} -> wstep slot m1 x k x' k' -> wstep slot m2 x k x' k'.
Proof.
move=> hs [h1 h2 h3]; split=> //; first exact: changes_sub h1.
by move=> i hi; apply: h3; apply: avoids_subset hi.
Qed.
Lemma wstep_trans slot m1 m2 m x k y k1 z k2 : {subset m1 <= m} -> {subset m2 <= m} ->
  wstep slot m1 x k y k1 -> wstep slot m2 y k1 z k2 -> wstep slot m x k z k2.
Proof.
move=> s1 s2 [c1 e1 h1] [c2 e2 h2]; split; first exact: changes_trans_in c1 c2.
  by rewrite e2.
move=> i hi; case: (h2 i (avoids_subset s2 hi)) => ->; first exact: h1 (avoids_subset s1 hi).
by right; apply: changes_fs c1 (avoids_subset s1 hi).
Qed.
Lemma wstep_cached slot m x k x' k' n p (o : pb_linear_combination F) :
  wstep slot m x k x' k' -> lc_proper slot n p o -> avoids m (lc_terms o) -> cached x k o -> cached x' k' o.
Proof.
rewrite /lc_proper /cached => -[hc hk h] hp ha [hv|hl]; first by left.
case hv: (lc_is_variable o); first by left.
move: hp; rewrite hv => -[_ ht _]; right; rewrite /lval (changes_fs hc ha).
by rewrite ht in ha *; case: (h _ ha) => -> //; rewrite hl /lval ht.
Qed.
Lemma wstep_proper slot m x k x' k' (o : pb_linear_combination F) :
  wstep slot m x k x' k' -> lc_proper slot (size x) (size k) o -> lc_proper slot (size x') (size k') o.
Proof. by move=> h; rewrite (wstep_size h) (wstep_ksize h). Qed.
Lemma wstep_eval pb slot x k (o : pb_linear_combination F) : lc_proper slot (size x) (size k) o ->
  exists k', [/\ lc_evaluate (upd pb x k) o = Ok (upd pb x k'), wstep slot [::] x k x k' & cached x k' o].
Proof.
by move=> /(@lc_evaluate_ok pb) [k' [h1 h2 h3]]; exists k'; split=> //; apply: wstep_cache.
Qed.
Lemma wstep_put slot x k v a : (v <= size x)%N -> wstep slot [:: v] x k (put x v a) k.
Proof. by move=> h; apply: wstep_changes; apply: changes_put. Qed.

(** * Allocation *)
Lemma allocate_var_wf pb v pb' : pb_wf pb -> allocate_var pb = (v, pb') ->
  [/\ v = (size (pb_values pb)).+1, pb_values pb' = rcons (pb_values pb) 0,
      pb_lc_values pb' = pb_lc_values pb, constraints (pb_cs pb') = constraints (pb_cs pb) & pb_wf pb'].
Proof.
case: pb => c vs nv nl lv [pi ax cs] [/= -> -> -> hn] [<- <-]; split=> //.
by split=> //=; rewrite size_rcons // -hn /num_variables /= addnS.
Qed.

Lemma allocate_arrayS pb n : allocate_array pb n.+1 =
  let: (v, pb1) := allocate_var pb in let: (vs, pb2) := allocate_array pb1 n in (v :: vs, pb2).
Proof. by []. Qed.
Lemma allocate_array_wf pb n vs pb' : pb_wf pb -> allocate_array pb n = (vs, pb') ->
  [/\ vs = iota (size (pb_values pb)).+1 n, pb_values pb' = pb_values pb ++ nseq n 0,
      pb_lc_values pb' = pb_lc_values pb, constraints (pb_cs pb') = constraints (pb_cs pb) & pb_wf pb'].
Proof.
elim: n pb vs pb' => [|n IH] pb vs pb' hw; first by case=> <- <-; rewrite cats0.
rewrite allocate_arrayS.
case e1: (allocate_var pb) => [v pb1]; case e2: (allocate_array pb1 n) => [vs1 pb2] [<- <-].
have [-> hv hl hc hw1] := allocate_var_wf hw e1.
have [-> h2 h3 h4 h5] := IH _ _ _ hw1 e2.
rewrite hv size_rcons in h2 *; split=> //; [|by rewrite h3|by rewrite h4].
by rewrite h2 -cats1 -catA.
Qed.

Lemma lc_assign_wf pb (l : linear_combination F) o pb' : pb_wf pb -> lc_assign pb l = (o, pb') ->
  [/\ o = PbLc false (size (pb_lc_values pb)) l, pb_values pb' = pb_values pb,
      pb_lc_values pb' = rcons (pb_lc_values pb) 0, constraints (pb_cs pb') = constraints (pb_cs pb) & pb_wf pb'].
Proof.
case: pb => c vs nv nl lv cs [/= -> -> -> hn] [<- <-]; split=> //.
by split=> //=; rewrite size_rcons.
Qed.

End Logic.

(** * Bits *)
Lemma bits_nat_lt bs : (bits_nat bs < 2 ^ size bs)%N.
Proof. by elim: bs => [|b bs IH] //=; rewrite expnS; case: b; lia. Qed.

Lemma bits_nat_inj bs cs : size bs = size cs -> bits_nat bs = bits_nat cs -> bs = cs.
Proof.
elim: bs cs => [|b bs IH] [|c cs] //= [hs] h.
have e : b = c by case: b h; case: c => //=; lia.
by rewrite e (IH cs) //; move: h; rewrite e; lia.
Qed.

Lemma test_bit0 r : test_bit r 0 = odd r.
Proof. by rewrite /test_bit expn0 divn1. Qed.
Lemma test_bitS r i : test_bit r i.+1 = test_bit (r %/ 2) i.
Proof. by rewrite /test_bit expnS divnMA. Qed.

Lemma bits_nat_test_bit r n : bits_nat [seq test_bit r i | i <- iota 0 n] = (r %% 2 ^ n)%N.
Proof.
elim: n r => [|n IH] r /=; first by rewrite expn0 modn1.
rewrite -[iota 1 n]/(iota (1 + 0) n) iotaDl -map_comp.
have -> : [seq (test_bit r \o addn 1) i | i <- iota 0 n] = [seq test_bit (r %/ 2) i | i <- iota 0 n].
  by apply: eq_map => i /=; rewrite add1n test_bitS.
rewrite IH test_bit0 expnS.
have h1 := divn_eq r 2; have h2 := divn_eq (r %/ 2) (2 ^ n).
have h3 : ((r %/ 2) %% 2 ^ n < 2 ^ n)%N by rewrite ltn_mod expn_gt0.
have ho : (odd r = r %% 2 :> nat)%N by rewrite modn2.
have e : r = ((r %/ 2 %/ 2 ^ n) * (2 * 2 ^ n) + (odd r + 2 * ((r %/ 2) %% 2 ^ n)))%N.
  rewrite {1}h1 {1}h2 ho; lia.
have e' : (r %% (2 * 2 ^ n) = odd r + 2 * ((r %/ 2) %% 2 ^ n))%N.
  rewrite {1}e modnMDl; apply: modn_small.
  by case: (odd r); lia.
by rewrite e'.
Qed.

Lemma bits_nat_cat a b : bits_nat (a ++ b) = (bits_nat a + 2 ^ size a * bits_nat b)%N.
Proof. by elim: a => [|c a IH] /=; [rewrite expn0; lia|rewrite IH expnS; lia]. Qed.

Lemma test_bit_nat bs i : test_bit (bits_nat bs) i = nth false bs i.
Proof.
elim: bs i => [|b bs IH] i; first by rewrite /test_bit /= div0n nth_nil.
case: i => [|i] /=; first by rewrite test_bit0; case: b; lia.
rewrite test_bitS -IH; congr test_bit; case: b => /=; lia.
Qed.

(** * Prime fields *)
Section Prime.
Variables (F : fieldType) (R : bigint_repr F).
Lemma fp_char : fp_order R \in [char F].
Proof. by rewrite inE fp_prime fp_order0 eqxx. Qed.
Lemma natF_eq0 n : (n%:R == 0 :> F) = (fp_order R %| n)%N.
Proof. by rewrite (dvdn_charf fp_char). Qed.
Lemma natF_inj a b : (a < fp_order R)%N -> (b < fp_order R)%N -> a%:R = b%:R :> F -> a = b.
Proof.
wlog hab : a b / (a <= b)%N => [hw ha hb h|ha hb h].
  by case/orP: (leq_total a b) => hle; [apply: hw|symmetry; apply: hw].
have : (b - a)%:R == 0 :> F by rewrite natrB // h subrr.
rewrite natF_eq0 => /dvdnP [[|q] hq]; first by lia.
by move: hq; rewrite mulSn; lia.
Qed.
Lemma as_bigint_nat n : (n < fp_order R)%N -> as_bigint R n%:R = n.
Proof. by move=> h; apply: natF_inj => //; [exact: as_bigint_lt|rewrite as_bigintK]. Qed.
End Prime.
