(** Proofs about Domain.v. *)
From mathcomp Require Import all_ssreflect all_algebra.
From Verif Require Import Domain.
Set Implicit Arguments.
Unset Strict Implicit.
Unset Printing Implicit Defensive.
Import GRing.Theory.
Local Open Scope ring_scope.

Section DomainFacts.
Variable F : fieldType.
Implicit Types (xs vs : seq F) (p q : {poly F}) (D : evaluation_domain F).

Lemma vanishing_root xs x : root (vanishing xs) x = (x \in xs).
Proof. exact: root_prod_XsubC. Qed.

Lemma size_vanishing xs : size (vanishing xs) = (size xs).+1.
Proof. exact: size_prod_XsubC. Qed.

Lemma vanishing_monic xs : vanishing xs \is monic.
Proof. exact: monic_prod_XsubC. Qed.

Lemma vanishing_neq0 xs : vanishing xs != 0.
Proof. by rewrite monic_neq0 // vanishing_monic. Qed.

Lemma vanishing_dvd xs p : uniq xs -> (vanishing xs %| p) = all (root p) xs.
Proof.
move=> hu; apply/idP/idP => [/dvdpP [q ->]|h].
  apply/allP => x hx; rewrite rootM orbC vanishing_root hx //.
rewrite /vanishing; apply: uniq_roots_dvdp => //.
by rewrite uniq_rootsE.
Qed.

Lemma others_notin xs i : uniq xs -> (i < size xs)%N ->
  nth 0 xs i \notin take i xs ++ drop i.+1 xs.
Proof.
move=> hu hi; move: hu.
rewrite -{1}(cat_take_drop i xs) (drop_nth 0 hi) cat_uniq /= => /and3P [_].
rewrite negb_or mem_cat => /andP [h1 _] /andP [h2 _].
by rewrite negb_or h1 h2.
Qed.

Lemma mem_others xs i j : (i < size xs)%N -> (j < size xs)%N -> j != i ->
  nth 0 xs j \in take i xs ++ drop i.+1 xs.
Proof.
move=> hi hj hne; rewrite mem_cat; case: (ltnP j i) => h.
  by rewrite -(nth_take 0 h) mem_nth // size_takel // ltnW.
have h' : (i < j)%N by rewrite ltn_neqAle eq_sym hne.
apply/orP; right.
rewrite -(subnKC h') -nth_drop mem_nth // size_drop.
by rewrite ltn_sub2r // (leq_ltn_trans h').
Qed.

Lemma lagrange_nth xs i j : uniq xs -> (i < size xs)%N -> (j < size xs)%N ->
  (lagrange xs i).[nth 0 xs j] = (i == j)%:R.
Proof.
move=> hu hi hj; rewrite /lagrange hornerZ; case: eqP => [<-|/eqP hne].
  by rewrite mulVf // -rootE vanishing_root others_notin.
suff -> : (vanishing (take i xs ++ drop i.+1 xs)).[nth 0 xs j] = 0 by rewrite mulr0.
by apply/eqP; rewrite -rootE vanishing_root mem_others // eq_sym.
Qed.

Lemma size_lagrange xs i : (i < size xs)%N -> (size (lagrange xs i) <= size xs)%N.
Proof.
move=> hi; apply: leq_trans (size_scale_leq _ _) _.
rewrite size_vanishing size_cat size_takel ?(ltnW hi) // size_drop.
by rewrite -addnS subnSK // subnKC // ltnW.
Qed.

Lemma interpolate_nth xs vs j : uniq xs -> (j < size xs)%N ->
  (interpolate xs vs).[nth 0 xs j] = vs`_j.
Proof.
move=> hu hj; rewrite /interpolate horner_sum (bigD1 (Ordinal hj)) //=.
rewrite hornerZ lagrange_nth // eqxx mulr1 big1 ?addr0 // => i hi.
by rewrite hornerZ lagrange_nth // -val_eqE /= in hi *; rewrite (negbTE hi) mulr0.
Qed.

Lemma size_interpolate xs vs : (size (interpolate xs vs) <= size xs)%N.
Proof.
apply: leq_trans (size_sum _ _ _) _; apply/bigmax_leqP => i _.
by apply: leq_trans (size_scale_leq _ _) _; apply: size_lagrange.
Qed.

(** A polynomial with more roots than its degree is zero. *)
Lemma poly_ext xs p q : uniq xs -> (size p <= size xs)%N -> (size q <= size xs)%N ->
  (forall x, x \in xs -> p.[x] = q.[x]) -> p = q.
Proof.
move=> hu hp hq h; apply/eqP; rewrite -subr_eq0; apply/eqP.
apply: (@roots_geq_poly_eq0 _ _ xs) => //.
- by apply/allP => x hx; rewrite rootE hornerD hornerN h // subrr.
- by apply: leq_trans (size_add _ _) _; rewrite size_opp geq_max hp hq.
Qed.

Lemma interpolate_eq xs vs p : uniq xs -> (size p <= size xs)%N ->
  (forall i, (i < size xs)%N -> p.[nth 0 xs i] = vs`_i) -> interpolate xs vs = p.
Proof.
move=> hu hp h; apply: (poly_ext hu) => //; first exact: size_interpolate.
move=> x /(nthP 0) [i hi <-]; by rewrite interpolate_nth // h.
Qed.

Lemma Poly_coeffs n p : (size p <= n)%N -> Poly (coeffs n p) = p.
Proof.
move=> h; apply/polyP => i; rewrite coef_Poly /coeffs.
case: (ltnP i n) => hi; first by rewrite nth_mkseq.
by rewrite !nth_default ?size_mkseq // (leq_trans h).
Qed.

Lemma size_coeffs n p : size (coeffs n p) = n. Proof. exact: size_mkseq. Qed.
Lemma nth_coeffs n p i : (i < n)%N -> (coeffs n p)`_i = p`_i.
Proof. exact: nth_mkseq. Qed.

Lemma coset_uniq D : uniq (coset_points D).
Proof.
rewrite map_inj_uniq; first exact: d_uniq.
exact: mulfI (d_shift_nz D).
Qed.
Lemma size_coset D : size (coset_points D) = d_size D.
Proof. by rewrite size_map. Qed.

Lemma nth_coset D i : (i < d_size D)%N -> (coset_points D)`_i = d_shift D * (d_points D)`_i.
Proof. by move=> hi; rewrite (nth_map 0). Qed.

Lemma coset_Z D i : (i < d_size D)%N ->
  compute_vanishing_polynomial D (coset_points D)`_i != 0.
Proof.
move=> hi; rewrite nth_coset //.
by have /allP := d_coset D; apply; apply: mem_nth.
Qed.

(** Values-to-values computation of a quotient on the coset. *)
Lemma coset_quotient D (v : seq F) (P Q : {poly F}) :
  size v = d_size D -> P = Q * vanishing (d_points D) -> (size Q <= d_size D)%N ->
  (forall i, (i < d_size D)%N -> v`_i = P.[(coset_points D)`_i]) ->
  icosetFFT D (divide_by_Z_on_coset D v) = coeffs (d_size D) Q.
Proof.
move=> hv hP hQ h; rewrite /icosetFFT; congr coeffs.
apply: interpolate_eq; rewrite ?size_coset //; first exact: coset_uniq.
move=> i hi; rewrite /divide_by_Z_on_coset (nth_map (0, 0)); last by rewrite size_zip size_coset hv minnn.
rewrite nth_zip ?size_coset // h // hP hornerM mulfK //.
exact: coset_Z.
Qed.

Lemma cosetFFT_nth D (a : seq F) i : (i < d_size D)%N ->
  (cosetFFT D a)`_i = (Poly a).[(coset_points D)`_i].
Proof. by move=> hi; rewrite /cosetFFT (nth_map 0) // size_coset. Qed.

Lemma size_cosetFFT D (a : seq F) : size (cosetFFT D a) = d_size D.
Proof. by rewrite size_map size_coset. Qed.

Lemma Poly_iFFT D (a : seq F) : Poly (iFFT D a) = interpolate (d_points D) a.
Proof. by rewrite Poly_coeffs // size_interpolate. Qed.

Lemma size_iFFT D (a : seq F) : size (iFFT D a) = d_size D.
Proof. exact: size_coeffs. Qed.

(** Linearity of interpolation. *)
Lemma interpolate_horner xs vs t :
  (interpolate xs vs).[t] = \sum_(i < size xs) (lagrange xs i).[t] * vs`_i.
Proof. by rewrite horner_sum; apply: eq_bigr => i _; rewrite hornerZ mulrC. Qed.

(** Inner product of powers with a coefficient vector. *)
Lemma horner_coefs (h : seq F) t : \sum_(i < size h) t ^+ i * h`_i = (Poly h).[t].
Proof.
rewrite (@horner_coef_wide _ (size h)) ?size_Poly //.
by apply: eq_bigr => i _; rewrite coef_Poly mulrC.
Qed.

End DomainFacts.
