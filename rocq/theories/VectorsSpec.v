(** Specification of sparse vectors: what they denote. *)
From mathcomp Require Import all_ssreflect all_algebra.
From Verif Require Import Outcome Vectors.
Set Implicit Arguments.
Unset Strict Implicit.
Unset Printing Implicit Defensive.
Import GRing.Theory.
Local Open Scope ring_scope.

(** The representation invariant: as many indices as values, and the indices
    strictly increasing and below the domain size. *)
Definition sv_ok (T : zmodType) (v : sparse_vector T) : bool :=
  [&& size (sv_values v) == size (sv_indices v), sorted ltn (sv_indices v) &
      all (fun i => i < sv_domain_size v)%N (sv_indices v)].

(** The value stored for [k], or zero. *)
Definition sv_at (T : zmodType) (v : sparse_vector T) (k : nat) : T :=
  if k \in sv_indices v then nth 0 (sv_values v) (index k (sv_indices v)) else 0.

(** The stored indices within [[lo, hi)] are consecutive. *)
Definition no_gap (T : zmodType) (v : sparse_vector T) (lo hi : nat) : Prop :=
  forall i j k : nat, (lo <= i < hi)%N -> (lo <= k < hi)%N -> (i <= j <= k)%N ->
    i \in sv_indices v -> k \in sv_indices v -> j \in sv_indices v.

(** The inner product of scalars with the entries from [offset] on. *)
Definition sv_inner (F : fieldType) (T : lmodType F) (v : sparse_vector T) (scalars : seq F) (offset : nat) : T :=
  \sum_(0 <= j < size scalars) scalars`_j *: sv_at v (offset + j).
