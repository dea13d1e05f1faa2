(** Evaluation domains.  These come from libfqfft, an external library whose
    sources are not in /repo (depends/libfqfft is an empty submodule).  Its
    documented interface, as used by
    /repo/libsnark/reductions/{r1cs_to_qap,r1cs_to_sap,uscs_to_ssp}/*.tcc, is
    modelled here by mathematical definitions; this file is therefore part of
    the trusted base and models no code of /repo.

    A domain is a list of pairwise distinct points (the order fixes the basis of
    Lagrange polynomials) together with the coset shift
    [FieldT::multiplicative_generator]; the shifted points must avoid the domain,
    since otherwise the division by Z on the coset would divide by zero. *)
From mathcomp Require Import all_ssreflect all_algebra.
Set Implicit Arguments.
Unset Strict Implicit.
Unset Printing Implicit Defensive.
Import GRing.Theory.
Local Open Scope ring_scope.

Section Domain.
Variable F : fieldType.

(** The monic polynomial vanishing exactly on the points. *)
Definition vanishing (xs : seq F) : {poly F} := \prod_(x <- xs) ('X - x%:P).

Record evaluation_domain := EvaluationDomain {
  d_points : seq F;
  d_shift : F;
  d_uniq : uniq d_points;
  d_shift_nz : d_shift != 0;
  d_coset : all (fun x => (vanishing d_points).[d_shift * x] != 0) d_points
}.

Implicit Type D : evaluation_domain.

(** [domain->m] *)
Definition d_size D : nat := size (d_points D).

(** i-th Lagrange basis polynomial of a list of points. *)
Definition lagrange (xs : seq F) (i : nat) : {poly F} :=
  let others := take i xs ++ drop i.+1 xs in
  ((vanishing others).[nth 0 xs i])^-1 *: vanishing others.

(** The interpolation polynomial through points [xs] and values [vs]. *)
Definition interpolate (xs vs : seq F) : {poly F} :=
  \sum_(i < size xs) vs`_i *: lagrange xs i.

(** First [n] coefficients of a polynomial, as a vector. *)
Definition coeffs (n : nat) (p : {poly F}) : seq F := mkseq (fun i => p`_i) n.

(** [compute_vanishing_polynomial(t)] *)
Definition compute_vanishing_polynomial D (t : F) : F := (vanishing (d_points D)).[t].
(** [evaluate_all_lagrange_polynomials(t)] *)
Definition evaluate_all_lagrange_polynomials D (t : F) : seq F :=
  mkseq (fun i => (lagrange (d_points D) i).[t]) (d_size D).
(** [iFFT(a)]: from values on the domain to coefficients. *)
Definition iFFT D (a : seq F) : seq F := coeffs (d_size D) (interpolate (d_points D) a).
Definition coset_points D : seq F := [seq d_shift D * x | x <- d_points D].
(** [cosetFFT(a, g)]: from coefficients to values on the shifted points. *)
Definition cosetFFT D (a : seq F) : seq F := [seq (Poly a).[y] | y <- coset_points D].
(** [icosetFFT(a, g)] *)
Definition icosetFFT D (a : seq F) : seq F := coeffs (d_size D) (interpolate (coset_points D) a).
(** [divide_by_Z_on_coset(P)] *)
Definition divide_by_Z_on_coset D (a : seq F) : seq F :=
  [seq p.1 / compute_vanishing_polynomial D p.2 | p <- zip a (coset_points D)].
(** [add_poly_Z(c, H)]: adds the [m+1] coefficients of c*Z. *)
Definition add_poly_Z D (c : F) (H : seq F) : seq F :=
  mkseq (fun i => H`_i + c * (vanishing (d_points D))`_i) (size H).

End Domain.
