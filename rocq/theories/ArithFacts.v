(** Proofs about ArithPrograms.v: generic part. *)
From mathcomp Require Import all_ssreflect all_algebra.
From Verif Require Import Outcome Lincomb LincombSpec LincombFacts R1CS R1CSSpec R1CSFacts
  Domain DomainFacts ArithPrograms ArithSpec Fieldtac.
Set Implicit Arguments.
Unset Strict Implicit.
Unset Printing Implicit Defensive.
Import GRing.Theory.
Local Open Scope ring_scope.

Section Identities.
Variable R : comRingType.
Add Ring Rr : (Rth R).
Lemma qap_identity (A B C Z e f g : R) :
  A * B - C + (f * A + e * B - g + e * f * Z) * Z = (A + e * Z) * (B + f * Z) - (C + g * Z).
Proof. cring R. Qed.
End Identities.

Section Generic.
Variable F : fieldType.
Implicit Types (D : evaluation_domain F) (u v w : seq F) (l : seq (update F)).
Add Field Ff : (Fth F).

(** ** Folds of vector updates *)

Lemma vec_add_ok v k (x : F) : (k < size v)%N ->
  vec_add v (k, x) = Ok (set_nth 0 v k (v`_k + x)).
Proof. by move=> h; rewrite /vec_add /= (oget_nth 0) //= (oput_set_nth 0). Qed.

Lemma size_set_nth_in (A : Type) (d : A) (v : seq A) k x : (k < size v)%N -> size (set_nth d v k x) = size v.
Proof. by move=> h; rewrite size_set_nth; apply/maxn_idPr. Qed.

(** Sum of the values added at position [k]. *)
Definition add_sum (l : seq (nat * F)) (k : nat) : F := \sum_(e <- l | e.1 == k) e.2.

Lemma vec_add_fold v (l : seq (nat * F)) : all (fun e => e.1 < size v)%N l ->
  exists2 v', ofold (@vec_add F) v l = Ok v' &
    size v' = size v /\ forall k, v'`_k = v`_k + add_sum l k.
Proof.
elim: l v => [|[k x] l IH] v /=.
  by move=> _; exists v => //; split=> // k; rewrite /add_sum big_nil addr0.
case/andP=> h1 h2; rewrite vec_add_ok //=.
have hs := size_set_nth_in 0 (v`_k + x) h1.
have [|v' e1 [e2 e3]] := IH (set_nth 0 v k (v`_k + x)); first by rewrite hs.
exists v' => //; split; first by rewrite e2.
move=> j; rewrite e3 nth_set_nth /= /add_sum big_cons /= [k == j]eq_sym.
by case: eqP => [->|_] //; rewrite addrA.
Qed.

(** ** Sparse updates *)

(** What the updates contribute to the value of variable [k]'s polynomial,
    [f row] being the value of the Lagrange polynomial of that row. *)
Definition upd_sum (f : nat -> F) (l : seq (update F)) (k : nat) : F :=
  \sum_(e <- l | e.1.1 == k) f e.1.2 * e.2.

Lemma upd_sum_cat f l l' k : upd_sum f (l ++ l') k = upd_sum f l k + upd_sum f l' k.
Proof. by rewrite /upd_sum big_cat. Qed.
Lemma upd_sum_nil f k : upd_sum f [::] k = 0. Proof. by rewrite /upd_sum big_nil. Qed.
Lemma upd_sum_cons f e l k :
  upd_sum f (e :: l) k = (if e.1.1 == k then f e.1.2 * e.2 else 0) + upd_sum f l k.
Proof. by rewrite /upd_sum big_cons; case: ifP => //; rewrite add0r. Qed.

Definition upd_in (nv m : nat) (l : seq (update F)) : bool :=
  all (fun e => (e.1.1 < nv) && (e.1.2 < m))%N l.

Lemma upd_in_cat nv m l l' : upd_in nv m (l ++ l') = upd_in nv m l && upd_in nv m l'.
Proof. exact: all_cat. Qed.

Lemma eval_add_fold u (Pt : seq F) l : upd_in (size Pt) (size u) l ->
  exists2 Pt', ofold (eval_add u) Pt l = Ok Pt' &
    size Pt' = size Pt /\ forall k, Pt'`_k = Pt`_k + upd_sum (fun i => u`_i) l k.
Proof.
elim: l Pt => [|[[var row] c] l IH] Pt /=.
  by move=> _; exists Pt => //; split=> // k; rewrite upd_sum_nil addr0.
case/andP=> /andP [/= h1 h2] h3; rewrite (oget_nth 0) //= (oget_nth 0) //= (oput_set_nth 0) //=.
have hs := size_set_nth_in 0 (Pt`_var + u`_row * c) h1.
have [|v' e1 [e2 e3]] := IH (set_nth 0 Pt var (Pt`_var + u`_row * c)); first by rewrite hs.
exists v' => //; split; first by rewrite e2.
move=> j; rewrite e3 nth_set_nth /= upd_sum_cons /= [var == j]eq_sym.
by case: eqP => [->|_] //; rewrite ?add0r ?addrA.
Qed.

(** Assigning is adding when the entry is still zero. *)
Lemma eval_set_fold u (Pt : seq F) (l : seq (nat * nat)) :
  uniq (map fst l) -> all (fun e => Pt`_e.1 == 0) l ->
  ofold (eval_set u) Pt l = ofold (eval_add u) Pt [seq (e, 1) | e <- l].
Proof.
elim: l Pt => [|[var row] l IH] Pt //= /andP [h1 h2] /andP [/eqP h3 h4].
rewrite /eval_set /=; case: (oget u row) => [x||] //=.
case: (ltnP var (size Pt)) => hv; last by rewrite oput_UB // oget_UB.
rewrite (oget_nth 0) //= h3 add0r mulr1 (oput_set_nth 0) //=.
apply: IH => //; apply/allP => -[var' row'] hin; rewrite nth_set_nth /=.
case: (var' =P var) => e; last by move/allP: h4 => /(_ _ hin).
by case/negP: h1; rewrite -e; apply/mapP; exists (var', row').
Qed.

(** *** The Lagrange-basis variant *)

Definition smap_val (f : nat -> F) (m : smap F) : F := \sum_(e <- m) f e.1 * e.2.
Definition keys (m : smap F) : seq nat := map fst m.

Lemma smap_val_add f m k (c : F) : smap_val f (smap_add m k c) = smap_val f m + f k * c.
Proof.
rewrite /smap_val; elim: m => [|e m IH] /=.
  by rewrite big_cons !big_nil /= add0r addrC.
case: eqP => [<-|_] /=; rewrite !big_cons /=; last by rewrite IH addrA.
by rewrite mulrDr addrAC.
Qed.

Lemma keys_add m k (c : F) : {subset keys (smap_add m k c) <= k :: keys m}.
Proof.
move=> j; elim: m => [|e m IH] //=.
case: eqP => [<-|_] /=; rewrite !inE; first by move=> ->; rewrite orbT.
case/orP=> [->|/IH]; first by rewrite orbT.
by rewrite !inE => /orP [] ->; rewrite ?orbT.
Qed.

Lemma smap_set_fresh m k (c : F) : k \notin keys m -> smap_set m k c = smap_add m k c.
Proof.
elim: m => [|e m IH] /=; first by rewrite add0r.
by rewrite inE negb_or => /andP [h1 h2]; rewrite eq_sym (negbTE h1) IH.
Qed.

Lemma lagrange_add_fold (P : seq (smap F)) (l : seq (update F)) mx :
  upd_in (size P) mx l ->
  exists2 P', ofold (@lagrange_add F) P l = Ok P' &
    [/\ size P' = size P,
        forall f k, (k < size P)%N -> smap_val f (nth [::] P' k) = smap_val f (nth [::] P k) + upd_sum f l k &
        forall k j, (k < size P)%N -> j \in keys (nth [::] P' k) ->
          (j \in keys (nth [::] P k)) || has (fun e => (e.1.1 == k) && (e.1.2 == j)) l].
Proof.
elim: l P => [|[[var row] c] l IH] P /=.
  move=> _; exists P => //; split=> // [f k _|k j _ ->] //.
  by rewrite upd_sum_nil addr0.
case/andP=> /andP [/= h1 h2] h3; rewrite (oget_nth [::]) //= (oput_set_nth [::]) //=.
set P1 := set_nth _ _ _ _.
have hs : size P1 = size P := size_set_nth_in [::] _ h1.
have [|P' e1 [e2 e3 e4]] := IH P1; first by rewrite hs.
exists P' => //; split; first by rewrite e2.
- move=> f k hk; rewrite e3 ?hs // /P1 nth_set_nth /= upd_sum_cons /= [var == k]eq_sym.
  by case: eqP => [->|_] //; rewrite ?add0r // smap_val_add addrA.
- move=> k j hk; rewrite -hs in hk; move/(e4 _ _ hk).
  rewrite /P1 nth_set_nth /= [var == k]eq_sym; case: eqP => [->|_] //=.
  case/orP=> [/keys_add|->]; last by rewrite !orbT.
  by rewrite inE [row == j]eq_sym => /orP [] ->; rewrite ?orbT.
Qed.

Lemma lagrange_set_fresh (P : seq (smap F)) var row (c : F) :
  row \notin keys (nth [::] P var) ->
  lagrange_set P (var, row, c) = lagrange_add P (var, row, c).
Proof.
rewrite /lagrange_set /lagrange_add; case: (ltnP var (size P)) => h; last by rewrite !oget_UB.
by move=> hk; rewrite (oget_nth [::]) //= smap_set_fresh.
Qed.

Local Arguments lagrange_set : simpl never.
Local Arguments lagrange_add : simpl never.

Lemma lagrange_set_fold (P : seq (smap F)) (l : seq (update F)) :
  uniq (map (fun e : update F => e.1.1) l) -> all (fun e : update F => nilp (nth [::] P e.1.1)) l ->
  ofold (@lagrange_set F) P l = ofold (@lagrange_add F) P l.
Proof.
elim: l P => [|[[var row] c] l IH] P //= /andP [h1 h2] /andP [/nilP h3 h4].
rewrite lagrange_set_fresh ?h3 // /lagrange_add.
case: (ltnP var (size P)) => hv; last by rewrite oget_UB.
rewrite (oget_nth [::]) //= (oput_set_nth [::]) //=; apply: IH => //.
apply/allP => -[[var' row'] c'] hin; rewrite nth_set_nth /=.
case: (var' =P var) => e; last by move/allP: h4 => /(_ _ hin).
by case/negP: h1; apply/mapP; exists (var', row', c').
Qed.

Lemma lagrange_atE u (m : smap F) : all (fun j => j < size u)%N (keys m) ->
  lagrange_at u m = Ok (smap_val (fun i => u`_i) m).
Proof.
rewrite /lagrange_at /smap_val => h.
suff H : forall a, ofold (fun acc e => omap (fun x => acc + x * e.2) (oget u e.1)) a m
   = Ok (a + \sum_(e <- m) u`_e.1 * e.2) by rewrite H add0r.
elim: m h => [|e m IH] /= h a; first by rewrite big_nil addr0.
by case/andP: h => h1 h2; rewrite (oget_nth 0) //= IH // big_cons addrA.
Qed.

Lemma eval_from_zero u n l : upd_in n (size u) l ->
  exists2 Pt, ofold (eval_add u) (nseq n 0) l = Ok Pt &
    size Pt = n /\ forall k, Pt`_k = upd_sum (fun i => u`_i) l k.
Proof.
move=> h; have [|Pt e [s k]] := @eval_add_fold u (nseq n 0) l; first by rewrite size_nseq.
exists Pt => //; rewrite s size_nseq; split=> // j.
by rewrite k nth_nseq if_same add0r.
Qed.

Lemma lagrange_from_zero n mx (l : seq (update F)) : upd_in n mx l ->
  exists2 P, ofold (@lagrange_add F) (nseq n [::]) l = Ok P &
    [/\ size P = n,
        forall f k, (k < n)%N -> smap_val f (nth [::] P k) = upd_sum f l k &
        forall k j, (k < n)%N -> j \in keys (nth [::] P k) -> has (fun e => e.1.2 == j) l].
Proof.
move=> h; have [|P e [s v k]] := @lagrange_add_fold (nseq n [::]) l mx; first by rewrite size_nseq.
have nn : forall k, nth [::] (nseq n ([::] : smap F)) k = [::].
  by move=> j; rewrite nth_nseq if_same.
rewrite size_nseq in s v k; exists P => //; split=> //.
  by move=> f j hj; rewrite v // nn /smap_val big_nil add0r.
move=> j i hj /(k _ _ hj); rewrite nn /= => /hasP [x hx /andP [_ h2]].
by apply/hasP; exists x.
Qed.

(** The whole pipeline: build from [n] empty maps, then evaluate. *)
Lemma lagrange_pipeline u (P : seq (smap F)) (l : seq (update F)) n :
  size P = n ->
  upd_in n (size u) l ->
  (forall f k, (k < n)%N -> smap_val f (nth [::] P k) = upd_sum f l k) ->
  (forall k j, (k < n)%N -> j \in keys (nth [::] P k) -> has (fun e => e.1.2 == j) l) ->
  omapm (fun i => obind (oget P i) (lagrange_at u)) (iota 0 n)
  = Ok (mkseq (upd_sum (fun i => u`_i) l) n).
Proof.
move=> hP hl h1 h2; rewrite (@omapm_Ok _ _ _ (upd_sum (fun i => u`_i) l)) //.
move=> k hk; have {}hk : (k < n)%N.
  have : k \in iota 0 n by elim: (iota 0 n) hk => [|a s IH] //= [->|/IH h]; rewrite inE ?eqxx ?h ?orbT.
  by rewrite mem_iota.
rewrite (oget_nth [::]) ?hP //= lagrange_atE ?h1 //.
apply/allP => j /(h2 _ _ hk) /hasP [e he /eqP <-].
by move/allP: hl => /(_ _ he) /andP [].
Qed.

(** ** Linear algebra: columns to rows *)

Definition row_sum (l : seq (update F)) (w : seq F) (i : nat) : F :=
  \sum_(e <- l | e.1.2 == i) e.2 * xval w e.1.1.

Lemma row_sum_cat l l' w i : row_sum (l ++ l') w i = row_sum l w i + row_sum l' w i.
Proof. by rewrite /row_sum big_cat. Qed.
Lemma row_sum_nil w i : row_sum [::] w i = 0. Proof. by rewrite /row_sum big_nil. Qed.
Lemma row_sum_cons e l w i :
  row_sum (e :: l) w i = (if e.1.2 == i then e.2 * xval w e.1.1 else 0) + row_sum l w i.
Proof. by rewrite /row_sum big_cons; case: ifP => //; rewrite add0r. Qed.

Lemma inner_sum (a b : seq F) n : size a = n -> size b = n -> inner a b = \sum_(i < n) a`_i * b`_i.
Proof.
rewrite /inner => ha hb.
suff H : forall acc, foldl (fun acc p => acc + p.1 * p.2) acc (zip a b) = acc + \sum_(i < n) a`_i * b`_i.
  by rewrite H add0r.
elim: n a b ha hb => [|n IH] [|x a] [|y b] // ha hb acc /=.
  by rewrite big_ord0 addr0.
case: ha => ha; case: hb => hb.
by rewrite (IH a b) // big_ord_recl /= addrA.
Qed.

Lemma answer_sum (Pt w : seq F) n : size Pt = n.+1 -> size w = n ->
  Pt`_0 + inner (behead Pt) w = \sum_(k < n.+1) Pt`_k * xval w k.
Proof.
move=> hP hw; rewrite big_ord_recl /= mulr1; congr (_ + _).
rewrite (@inner_sum _ _ n) ?size_behead ?hP //; apply: eq_bigr => i _.
by rewrite nth_behead.
Qed.

Lemma columns_to_rows (f : nat -> F) (l : seq (update F)) (w : seq F) n m :
  upd_in n.+1 m l ->
  \sum_(k < n.+1) upd_sum f l k * xval w k = \sum_(i < m) f i * row_sum l w i.
Proof.
elim: l => [|[[var row] c] l IH] /=.
  by move=> _; rewrite !big1 // => i _; rewrite ?upd_sum_nil ?row_sum_nil ?mul0r ?mulr0.
case/andP=> /andP [/= h1 h2] h3.
under eq_bigr do rewrite upd_sum_cons mulrDl.
under [in RHS]eq_bigr do rewrite row_sum_cons mulrDr.
rewrite !big_split /= IH //; congr (_ + _).
rewrite (bigD1 (Ordinal h1)) //= eqxx big1 ?addr0; last first.
  by move=> i; rewrite -val_eqE /= eq_sym => /negbTE ->; rewrite mul0r.
rewrite (bigD1 (Ordinal h2)) //= eqxx big1 ?addr0 ?mulrA //.
by move=> i; rewrite -val_eqE /= eq_sym => /negbTE ->; rewrite mulr0.
Qed.

(** The polynomial whose value at the i-th domain point is the i-th row. *)
Definition row_poly D (l : seq (update F)) (w : seq F) : {poly F} :=
  interpolate (d_points D) (mkseq (row_sum l w) (d_size D)).

Lemma size_row_poly D l w : (size (row_poly D l w) <= d_size D)%N.
Proof. exact: size_interpolate. Qed.

Lemma row_poly_nth D l w i : (i < d_size D)%N ->
  (row_poly D l w).[(d_points D)`_i] = row_sum l w i.
Proof. by move=> hi; rewrite /row_poly interpolate_nth ?d_uniq // nth_mkseq. Qed.

Lemma size_all_lagrange D t : size (evaluate_all_lagrange_polynomials D t) = d_size D.
Proof. exact: size_mkseq. Qed.

Lemma answer_poly D l (Pt w : seq F) t n :
  upd_in n.+1 (d_size D) l -> size Pt = n.+1 -> size w = n ->
  (forall k, (k < n.+1)%N -> Pt`_k = upd_sum (fun i => (evaluate_all_lagrange_polynomials D t)`_i) l k) ->
  Pt`_0 + inner (behead Pt) w = (row_poly D l w).[t].
Proof.
move=> hl hP hw h; rewrite (answer_sum hP hw).
under eq_bigr do rewrite h //.
rewrite (columns_to_rows _ _ hl) /row_poly interpolate_horner.
by apply: eq_bigr => i _; rewrite !nth_mkseq.
Qed.

(** Powers. *)
Lemma size_powers_from n (a t : F) : size (powers_from n a t) = n.
Proof. by elim: n a => [|n IH] a //=; rewrite IH. Qed.
Lemma powersE n (t : F) i : (i < n)%N -> (powers n t)`_i = t ^+ i.
Proof.
rewrite /powers -[RHS]mul1r; move: 1; elim: n i => [|n IH] [|i] //= a hi.
  by rewrite mulr1.
by rewrite IH // exprS mulrA.
Qed.
Lemma size_powers n (t : F) : size (powers n t) = n.
Proof. exact: size_powers_from. Qed.

Lemma inner_powers n (h : seq F) t : size h = n -> inner (powers n t) h = (Poly h).[t].
Proof.
move=> hh; rewrite (@inner_sum _ _ n) ?size_powers // -hh -horner_coefs.
by apply: eq_bigr => i _; rewrite powersE.
Qed.

(** ** The quotient *)

(** Coefficients of H: [patch] is a polynomial of size <= m, then the
    multiple of Z, then the quotient. *)
Lemma patch_poly D (f : nat -> F) (p : {poly F}) : (size p <= d_size D)%N ->
  (forall i, (i < d_size D)%N -> f i = p`_i) -> Poly (patch_init (d_size D) f) = p.
Proof.
move=> hp h; apply/polyP => i; rewrite coef_Poly /patch_init.
case: (ltnP i (d_size D).+1) => hi; last first.
  by rewrite !nth_default ?size_mkseq // (leq_trans hp) // ltnW.
rewrite nth_mkseq //; case: ifP => hi2; first exact: h.
by rewrite nth_default // (leq_trans hp) // leqNgt hi2.
Qed.

Lemma size_patch m (f : nat -> F) : size (patch_init m f) = m.+1.
Proof. exact: size_mkseq. Qed.

Lemma Poly_sub_first (H : seq F) d : H != [::] -> Poly (sub_first H d) = Poly H - d%:P.
Proof.
case: H => // h H _; apply/polyP => i; rewrite coefB !coef_Poly coefC.
by case: i => [|i] //=; rewrite subr0.
Qed.
Lemma size_sub_first (H : seq F) d : size (sub_first H d) = size H.
Proof. by case: H. Qed.

Lemma Poly_add_poly_Z D c (H : seq F) : size H = (d_size D).+1 ->
  Poly (add_poly_Z D c H) = Poly H + c *: vanishing (d_points D).
Proof.
move=> hH; apply/polyP => i; rewrite coefD coefZ !coef_Poly /add_poly_Z.
case: (ltnP i (size H)) => hi; first by rewrite nth_mkseq.
rewrite nth_default ?size_mkseq // nth_default // add0r.
by rewrite nth_default ?mulr0 // size_vanishing -/(d_size D) -hH.
Qed.
Lemma size_add_poly_Z D c (H : seq F) : size (add_poly_Z D c H) = size H.
Proof. exact: size_mkseq. Qed.

Lemma Poly_add_first m (H : seq F) (p : {poly F}) : (m <= size H)%N -> (size p <= m)%N ->
  Poly (add_first_m m H (coeffs m p)) = Poly H + p.
Proof.
move=> hH hp; apply/polyP => i; rewrite coefD !coef_Poly /add_first_m.
case: (ltnP i (size H)) => hi.
  rewrite nth_mkseq //; case: ltnP => him; first by rewrite nth_coeffs.
  by rewrite [p`_i]nth_default ?addr0 // (leq_trans hp).
by rewrite !nth_default ?size_mkseq ?addr0 // (leq_trans hp) // (leq_trans hH).
Qed.
Lemma size_add_first m (H v : seq F) : size (add_first_m m H v) = size H.
Proof. exact: size_mkseq. Qed.

(** Degree of the exact quotient. *)
Lemma size_quotient D (P Q : {poly F}) :
  P = Q * vanishing (d_points D) -> (size P <= (d_size D).*2.-1)%N -> (size Q <= d_size D)%N.
Proof.
move=> hP; case: (eqVneq Q 0) => [->|hQ]; first by rewrite size_poly0.
rewrite hP size_mul ?vanishing_neq0 // size_vanishing -/(d_size D) addnS /= => h.
rewrite -(leq_add2r (d_size D)); apply: leq_trans h _.
by rewrite -addnn; apply: leq_pred.
Qed.

(** Divisibility by the vanishing polynomial. *)
Lemma dvd_values D (P : {poly F}) :
  (vanishing (d_points D) %| P) <-> (forall i, (i < d_size D)%N -> P.[(d_points D)`_i] = 0).
Proof.
rewrite vanishing_dvd ?d_uniq //; split.
- by move/allP => h i hi; apply/eqP; rewrite -rootE; apply: h; apply: mem_nth.
- by move=> h; apply/allP => x /(nthP 0) [i hi <-]; rewrite rootE h.
Qed.

(** Many accepting points force a polynomial identity. *)
Lemma many_points (P Q : {poly F}) (ts : seq F) n :
  uniq ts -> (n <= size ts)%N -> (size P <= n)%N -> (size Q <= n)%N ->
  all (fun t => P.[t] == Q.[t]) ts -> P = Q.
Proof.
move=> hu hn hP hQ h; apply: (poly_ext hu); try exact: leq_trans hn.
by move=> x hx; apply/eqP; move/allP: h; apply.
Qed.

Lemma vec_set_fold v (l : seq (nat * F)) :
  uniq (map fst l) -> all (fun e => v`_e.1 == 0) l ->
  ofold (@vec_set F) v l = ofold (@vec_add F) v l.
Proof.
elim: l v => [|[k x] l IH] v //= /andP [h1 h2] /andP [/eqP h3 h4].
rewrite /vec_set /vec_add /=.
case: (ltnP k (size v)) => hv; last by rewrite oput_UB // oget_UB.
rewrite (oget_nth 0) //= h3 add0r (oput_set_nth 0) //=.
apply: IH => //; apply/allP => -[k' x'] hin; rewrite nth_set_nth /=.
case: (k' =P k) => e; last by move/allP: h4 => /(_ _ hin).
by case/negP: h1; rewrite -e; apply/mapP; exists (k', x').
Qed.

Lemma vec_from_zero n (l : seq (nat * F)) : all (fun e => e.1 < n)%N l ->
  ofold (@vec_add F) (nseq n 0) l = Ok (mkseq (add_sum l) n).
Proof.
move=> h; have [|v -> [s k]] := @vec_add_fold (nseq n 0) l; first by rewrite size_nseq.
congr Ok; apply: (@eq_from_nth _ 0); rewrite s size_nseq ?size_mkseq // => i hi.
by rewrite k nth_nseq if_same add0r nth_mkseq.
Qed.

Lemma add_sum_cat (l l' : seq (nat * F)) k : add_sum (l ++ l') k = add_sum l k + add_sum l' k.
Proof. by rewrite /add_sum big_cat. Qed.

Lemma add_sum_enum (A : Type) (g : A -> F) (d : A) (l : seq A) i j : g d = 0 ->
  add_sum [seq (p.1, g p.2) | p <- zip (iota j (size l)) l] i
  = if (j <= i)%N then g (nth d l (i - j)) else 0.
Proof.
move=> hd; elim: l j => [|x l IH] j /=.
  by rewrite /add_sum big_nil nth_nil hd; case: ifP.
rewrite -cat1s add_sum_cat IH {1}/add_sum big_cons big_nil /= addr0.
case: (ltngtP j i) => h /=; rewrite ?add0r ?addr0 //.
  by rewrite subnS; case: (i - j)%N (subn_gt0 j i) => [|k]; rewrite h.
by rewrite h subnn.
Qed.

(** Turning a fold whose body computes a value first into a fold over
    computed values. *)
Lemma ofold_map_val (A S B : Type) (f : S -> B -> outcome S) (g : A -> outcome B) (h : A -> B) s (l : seq A) :
  (forall a, List.In a l -> g a = Ok (h a)) ->
  ofold (fun s a => let! x := g a in f s x) s l = ofold f s (map h l).
Proof.
elim: l s => [|a l IH] s //= hh.
rewrite hh /=; last by left.
by case: (f s (h a)) => //= s'; apply: IH => b hb; apply: hh; right.
Qed.

Lemma size_mul_bound (P Q : {poly F}) n :
  (size P <= n.+1)%N -> (size Q <= n.+1)%N -> (size (P * Q)%R <= (2 * n).+1)%N.
Proof.
move=> hP hQ; apply: leq_trans (size_mul_leq _ _) _.
have := leq_add hP hQ; rewrite addnS addSn mul2n -addnn.
by case: (size P + size Q)%N => [|k] //=; rewrite ltnS.
Qed.

Lemma size_sub_bound (P Q : {poly F}) n :
  (size P <= n)%N -> (size Q <= n)%N -> (size (P - Q)%R <= n)%N.
Proof.
by move=> hP hQ; apply: leq_trans (size_add _ _) _; rewrite size_opp geq_max hP.
Qed.

Lemma size_shifted D l w (d : F) :
  (size (row_poly D l w + d *: vanishing (d_points D))%R <= (d_size D).+1)%N.
Proof.
apply: leq_trans (size_add _ _) _; rewrite geq_max (leq_trans (size_row_poly _ _ _)) //=.
by rewrite (leq_trans (size_scale_leq _ _)) // size_vanishing.
Qed.

Lemma size_HZ D (H : seq F) : size H = (d_size D).+1 ->
  (size (Poly H * vanishing (d_points D))%R <= (2 * d_size D).+1)%N.
Proof.
by move=> h; apply: size_mul_bound; [rewrite -h; apply: size_Poly | rewrite size_vanishing].
Qed.

(** ** Additive functionals of concatenations *)

Lemma additive_flat (X : Type) (S : seq X -> F) (f : nat -> seq X) a n q :
  (forall l l' : seq X, S (l ++ l') = S l + S l') -> S [::] = 0 ->
  (forall i, i <> q -> S (f i) = 0) ->
  S (flatten [seq f i | i <- iota a n]) = if (a <= q < a + n)%N then S (f q) else 0.
Proof.
move=> hc h0 hq; elim: n a => [|n IH] a /=.
  by rewrite h0 addn0 leqNgt; case: ltnP.
rewrite hc IH; case: (ltngtP a q) => h /=.
- by rewrite hq ?add0r ?addSnnS //; apply/eqP; rewrite neq_ltn h.
- by rewrite hq ?addr0 //; apply/eqP; rewrite neq_ltn h orbT.
- by rewrite h addr0 -addSnnS leq_addr.
Qed.

Lemma enum_iota (A B : Type) (d : A) (f : nat * A -> B) (l : seq A) :
  [seq f p | p <- enum_from0 l] = [seq f (i, nth d l i) | i <- iota 0 (size l)].
Proof.
rewrite /enum_from0.
have H : forall k, [seq f p | p <- zip (iota k (size l)) l] = [seq f (i, nth d l (i - k)) | i <- iota k (size l)].
  elim: l => [|x l IH] k //=; rewrite subnn IH; congr cons.
  apply/eq_in_map => i; rewrite mem_iota => /andP [hi _].
  by rewrite subnS; case: (i - k)%N (subn_gt0 k i) => [|j] //=; rewrite hi.
by rewrite H; apply: eq_map => i; rewrite subn0.
Qed.

Lemma add_sum_nil k : add_sum [::] k = 0. Proof. by rewrite /add_sum big_nil. Qed.
Lemma add_sum_cons (e : nat * F) (l : seq (nat * F)) k :
  add_sum (e :: l) k = (if e.1 == k then e.2 else 0) + add_sum l k.
Proof. by rewrite /add_sum big_cons; case: ifP => //; rewrite add0r. Qed.

Lemma flat_agree (X : Type) (g : X -> seq (nat * F)) (f : X -> seq (update F)) (s : seq X) W r :
  (forall x, List.In x s -> add_sum (g x) r = row_sum (f x) W r) ->
  add_sum (flatten (map g s)) r = row_sum (flatten (map f s)) W r.
Proof.
elim: s => [|x s IH] h /=; first by rewrite add_sum_nil row_sum_nil.
rewrite add_sum_cat row_sum_cat IH; last by move=> y hy; apply: h; right.
by rewrite h //; left.
Qed.

(** A loop that adds a computed list of values in each iteration. *)
Lemma vec_loop (X : Type) (body : seq F -> X -> outcome (seq F)) (g : X -> seq (nat * F)) v (s : seq X) :
  (forall v x, List.In x s -> body v x = ofold (@vec_add F) v (g x)) ->
  ofold body v s = ofold (@vec_add F) v (flatten (map g s)).
Proof.
elim: s v => [|x s IH] v h //=.
rewrite ofold_cat h; last by left.
by case: (ofold _ v (g x)) => //= v'; apply: IH => v'' y hy; apply: h; right.
Qed.

Lemma xval_cat x y i : (i <= size x)%N -> xval (x ++ y) i = xval x i :> F.
Proof. by case: i => // i hi; rewrite /xval /= nth_cat hi. Qed.

Lemma formal_sum_extend (l : linear_combination F) x y : in_range (size x) l ->
  formal_sum l (x ++ y) = formal_sum l x.
Proof.
elim: l => [|t l IH] /=; first by rewrite !formal_sum_nil.
by case/andP=> h1 h2; rewrite !formal_sum_cons IH // xval_cat.
Qed.

Lemma in_range_le n k (l : linear_combination F) : (n <= k)%N -> in_range n l -> in_range k l.
Proof. by move=> h /allP hl; apply/allP => t /hl ht; apply: leq_trans ht h. Qed.

(** Columns at [t]: the sum a column denotes is the value of the interpolating
    polynomial of its rows. *)
Lemma row_value_val (m : smap F) i : row_value m i = smap_val (fun j => (j == i)%:R) m.
Proof.
rewrite /row_value /smap_val big_mkcond; apply: eq_bigr => e _.
by case: eqP => _; rewrite ?mul1r ?mul0r.
Qed.

Lemma column_poly D (l : seq (update F)) n (m : smap F) k (P : {poly F}) t :
  upd_in n (d_size D) l ->
  (forall f, smap_val f m = upd_sum f l k) ->
  (size P <= d_size D)%N ->
  (forall i, (i < d_size D)%N -> P.[(d_points D)`_i] = row_value m i) ->
  upd_sum (fun i => (evaluate_all_lagrange_polynomials D t)`_i) l k = P.[t].
Proof.
move=> hl hm hP hv.
have -> : P = interpolate (d_points D) (mkseq (row_value m) (d_size D)).
  apply: (poly_ext (d_uniq D)); rewrite ?size_interpolate //.
  move=> x /(nthP 0) [i hi <-]; rewrite interpolate_nth ?d_uniq // nth_mkseq //; exact: hv.
rewrite interpolate_horner.
transitivity (\sum_(i < d_size D) (lagrange (d_points D) i).[t] * upd_sum (fun j => (j == i)%:R) l k); last first.
  by apply: eq_bigr => i _; rewrite nth_mkseq // row_value_val hm.
elim: l hl {hm} => [|[[var row] c] l IH] /=.
  by move=> _; rewrite upd_sum_nil big1 // => i _; rewrite upd_sum_nil mulr0.
case/andP=> /andP [/= h1 h2] h3; rewrite upd_sum_cons IH //=.
under [in RHS]eq_bigr do rewrite upd_sum_cons mulrDr.
rewrite big_split /=; congr (_ + _).
case: ifP => hv'; last by rewrite big1 // => i _; rewrite mulr0.
rewrite (bigD1 (Ordinal h2)) //= eqxx mul1r big1 ?addr0 ?nth_mkseq //.
by move=> i hi; rewrite eq_sym [(_ == _ :> nat)](negbTE hi) mul0r mulr0.
Qed.


(** Two polynomials of degree less than [m] that agree everywhere are equal. *)
Lemma combined_unique D (at_t : F -> seq F -> Prop) x P Q :
  (forall t, exists cols, at_t t cols) ->
  combined_polynomial D at_t x P -> combined_polynomial D at_t x Q -> P = Q.
Proof.
move=> h [h1 h2] [h3 h4]; apply: (poly_ext (d_uniq D)) => // t _.
by have [cols hc] := h t; rewrite -(h2 _ _ hc) -(h4 _ _ hc).
Qed.

Lemma combined_row_poly D (at_t : F -> seq F -> Prop) x (l : seq (update F)) n :
  upd_in n.+1 (d_size D) l ->
  (forall t cols, at_t t cols -> size cols = n.+1 /\
     forall k, cols`_k = upd_sum (fun i => (evaluate_all_lagrange_polynomials D t)`_i) l k) ->
  size x = n -> combined_polynomial D at_t x (row_poly D l x).
Proof.
move=> hl hc hx; split; first exact: size_row_poly.
move=> t cols /hc [hs hk]; rewrite -(@answer_poly D l cols x t n hl hs hx) //.
by rewrite (@answer_sum cols x n hs hx) /combination hs.
Qed.

(** ** The common computation of H *)
Section Quotient.
Variables (D : evaluation_domain F) (A B C : {poly F}) (d1 d2 d3 : F).
Let m := d_size D.
Let Z := vanishing (d_points D).
Hypotheses (hA : (size A <= m)%N) (hB : (size B <= m)%N) (hC : (size C <= m)%N).
Hypothesis hdvd : Z %| A * B - C.

Lemma quotient_ok : exists2 Q : {poly F}, A * B - C = Q * Z & (size Q <= m)%N.
Proof.
have /dvdpP [Q hQ] := hdvd; exists Q => //.
apply: (size_quotient hQ); case: (posnP m) => hm0.
  have -> : A = 0 by apply/eqP; rewrite -size_poly_leq0 -hm0.
  have -> : C = 0 by apply/eqP; rewrite -size_poly_leq0 -hm0.
  by rewrite mul0r subr0 size_poly0.
apply: leq_trans (size_add _ _) _; rewrite size_opp geq_max; apply/andP; split.
  apply: leq_trans (size_mul_leq _ _) _; rewrite -addnn -!subn1.
  by apply: leq_sub2r; apply: leq_add.
apply: leq_trans hC _; rewrite -addnn -subn1 -addnBA //; exact: leq_addr.
Qed.

Lemma coset_value (P : {poly F}) i : (size P <= m)%N -> (i < m)%N ->
  (cosetFFT D (coeffs m P))`_i = P.[(coset_points D)`_i].
Proof. by move=> hP hi; rewrite cosetFFT_nth // Poly_coeffs. Qed.

(** The polynomial H: any way of computing the coset values [v] of A*B-C and
    any patch polynomial [p]. *)
Lemma H_poly (H v : seq F) (p : {poly F}) :
  size H = m.+1 -> Poly H = p -> size v = m ->
  (forall i, (i < m)%N -> v`_i = (A * B - C).[(coset_points D)`_i]) ->
  let H' := add_first_m m H (icosetFFT D (divide_by_Z_on_coset D v)) in
  size H' = m.+1 /\ Poly H' * Z = A * B - C + p * Z.
Proof.
move=> sH pH sv hv H'; have [Q hQ sQ] := quotient_ok.
split; first by rewrite size_add_first.
rewrite /H' (coset_quotient sv hQ sQ hv) Poly_add_first ?sH ?leqnSn //.
by rewrite pH mulrDl -hQ addrC.
Qed.
End Quotient.

End Generic.
