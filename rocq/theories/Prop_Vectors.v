(** C19 (knowledge commitments), C20 (sparse vectors), C21 (accumulation
    vectors).  Vocabulary: Vectors.v (model), VectorsSpec.v ([sv_ok], [sv_at],
    [no_gap], [sv_inner]); [accumulate_chunks] folds [accumulate_chunk] over
    consecutive chunks. *)
From mathcomp Require Import all_ssreflect all_algebra.
From Verif Require Import Outcome Vectors VectorsSpec VectorsFacts Prop_Relations.
Set Implicit Arguments.
Unset Strict Implicit.
Unset Printing Implicit Defensive.
Import GRing.Theory.
Local Open Scope ring_scope.

(** ** C19 *)

(** One result for every suggested number of chunks: the entry of [k] is
    [(c1 v_k g1, c2 v_k g2)], and exactly the non-zero positions are stored. *)
Theorem C19_kc_batch_exp (F : fieldType) (T1 T2 : lmodType F) (g1 : T1) (g2 : T2) (c1 c2 : F) (v : seq F) :
  exists2 r : kc_vector T1 T2,
    forall chunks, kc_batch_exp g1 g2 c1 c2 v chunks = Ok r &
    [/\ sv_ok r, sv_domain_size r = size v,
        (forall k, (k \in sv_indices r) = (k < size v)%N && (v`_k != 0)) &
        forall k, sv_at r k = ((c1 * v`_k) *: g1, (c2 * v`_k) *: g2)].
Proof. exact (kc_batch_exp_spec g1 g2 c1 c2 v). Qed.
Print Assumptions C19_kc_batch_exp.

Theorem C19_kc_multi_exp (F : fieldType) (T1 T2 : lmodType F) (vec : kc_vector T1 T2)
    (min_idx max_idx : nat) (scalars : seq F) :
  sv_ok vec -> (min_idx <= max_idx)%N -> (size scalars <= sv_domain_size vec)%N ->
  (max_idx - min_idx <= size scalars)%N ->
  kc_multi_exp vec min_idx max_idx scalars =
  Ok (\sum_(min_idx <= i < max_idx) scalars`_(i - min_idx) *: sv_at vec i).
Proof. exact (@kc_multi_exp_ok F T1 T2 vec min_idx max_idx scalars). Qed.
Print Assumptions C19_kc_multi_exp.

(** Three chunks are used, one entry is skipped, one added, two multiplied. *)
Example C19_example :
  let r := kc_batch_exp (1 : F7^o) (1 : F7^o) 2 3 [:: 1; 0; 2; 0; 3; 1] 3 in
  ((let! v := r in
   let! w := kc_batch_exp (1 : F7^o) (1 : F7^o) 2 3 [:: 1; 0; 2; 0; 3; 1] 1 in
   let! a := kc_multi_exp v 0 5 [:: 1; 4; 0; 5; 6] in
   Ok [&& sv_indices v == [:: 0; 2; 4; 5]%N, sv_values v == sv_values w &
          a == ((2 + 6 * (2 * 3)), (3 + 6 * (3 * 3)))])
  = Ok true).
Proof. by vm_compute. Qed.

(** ** C20 *)

Theorem C20_get (T : zmodType) (v : sparse_vector T) (k : nat) :
  sv_ok v -> sv_get v k = Ok (sv_at v k).
Proof. exact (@sv_get_ok T v k). Qed.
Print Assumptions C20_get.

Theorem C20_equality (T : zmodType) (a b : sparse_vector T) :
  sv_ok a -> sv_ok b ->
  exists2 r, sv_eqb a b = Ok r &
    r <-> sv_domain_size a = sv_domain_size b /\ forall k, sv_at a k = sv_at b k.
Proof. exact (@sv_eqb_ok T a b). Qed.
Print Assumptions C20_equality.

Theorem C20_accumulate (F : fieldType) (T : lmodType F) (v : sparse_vector T) (scalars : seq F) (offset : nat) :
  sv_ok v -> no_gap v offset (offset + size scalars) ->
  exists2 rest, sv_accumulate v scalars offset = Ok (sv_inner v scalars offset, rest) &
    [/\ sv_ok rest, sv_domain_size rest = sv_domain_size v,
        (forall k, (k \in sv_indices rest) = (k \in sv_indices v) && ~~ (offset <= k < offset + size scalars)%N) &
        forall k, sv_at rest k = if (offset <= k < offset + size scalars)%N then 0 else sv_at v k].
Proof. exact (@sv_accumulate_spec F T v scalars offset). Qed.
Print Assumptions C20_accumulate.

(** Across a gap, libff's multi-exponentiation is called on ranges of
    different lengths, outside its contract. *)
Theorem C20_accumulate_gap_refuted (F : fieldType) (T : lmodType F) (v : sparse_vector T) (scalars : seq F)
    (offset : nat) :
  sv_ok v -> ~ no_gap v offset (offset + size scalars) -> sv_accumulate v scalars offset = UB.
Proof. exact (@sv_accumulate_gap F T v scalars offset). Qed.
Print Assumptions C20_accumulate_gap_refuted.

(** [is_valid] rejects every vector that satisfies its documented invariant. *)
Theorem C20_is_valid_refuted (T : zmodType) (v : sparse_vector T) : sv_ok v -> sv_is_valid v = false.
Proof. exact (@sv_is_valid_wrong T v). Qed.
Print Assumptions C20_is_valid_refuted.

(** Equality with a dense vector rejects an equal vector, accepts a different
    one, and reads out of bounds; without gaps it compares the prefix. *)
Theorem C20_equality_dense_refuted (T : zmodType) (x : T) : x != 0 ->
  [/\ exists v, [/\ sv_ok v, (forall k, sv_at v k = [:: 0; x]`_k), sv_domain_size v = 2%N &
                    sv_eq_dense v [:: 0; x] = Ok false],
      exists v, [/\ sv_ok v, sv_at v 1 != [:: 0; x]`_1, sv_domain_size v = 2%N &
                    sv_eq_dense v [:: 0; x] = Ok true] &
      exists v, [/\ sv_ok v, (forall k, sv_at v k = [:: x; 0]`_k), sv_domain_size v = 2%N &
                    sv_eq_dense v [:: x; 0] = UB]].
Proof. exact (@sv_eq_dense_refuted T x). Qed.
Print Assumptions C20_equality_dense_refuted.

Theorem C20_equality_dense_prefix (T : zmodType) (es other : seq T) :
  sv_eq_dense (sv_of_vector es) other = Ok ((size other <= size es)%N && (other == take (size other) es)).
Proof. exact (@sv_eq_dense_of_vector T es other). Qed.
Print Assumptions C20_equality_dense_prefix.

(** A vector with and one without a gap in the accumulated range. *)
Example C20_example :
  let v := SparseVector [:: 1; 2; 5]%N ([:: 3; 4; 6] : seq F7^o) 8 in
  [/\ sv_ok v, no_gap v 1 3, ~ no_gap v 1 6 &
      (let! r := sv_accumulate v ([:: 2; 2] : seq F7) 1 in
       Ok ((r.1 == (2 * 3 + 2 * 4 : F7)) && (sv_indices r.2 == [:: 5%N]))) = Ok true].
Proof.
split=> //.
  by move=> [|[|[|i]]] [|[|[|j]]] [|[|[|k]]].
by move=> /(_ 1%N 3%N 5%N isT isT isT isT isT).
Qed.

(** ** C21 *)

Theorem C21_chunks (F : fieldType) (T : lmodType F) (av : accumulation_vector T) (chunks : seq (seq F)) (offset : nat) :
  let input := flatten chunks in
  sv_ok (av_rest av) -> no_gap (av_rest av) offset (offset + size input) ->
  exists2 av', accumulate_chunks av chunks offset = Ok av' &
    [/\ accumulate_chunk av input offset = Ok av',
        av_first av' = av_first av + sv_inner (av_rest av) input offset,
        (forall k, (k \in sv_indices (av_rest av')) =
                   (k \in sv_indices (av_rest av)) && ~~ (offset <= k < offset + size input)%N) &
        av_is_fully_accumulated av' =
        all (fun k => (offset <= k < offset + size input)%N) (sv_indices (av_rest av))].
Proof. exact (@accumulate_chunks_spec F T av chunks offset). Qed.
Print Assumptions C21_chunks.

(** The verifier's use: a dense query vector, accumulated from the start. *)
Theorem C21_dense (F : fieldType) (T : lmodType F) (first : T) (es : seq T) (chunks : seq (seq F)) :
  let input := flatten chunks in
  exists2 av', accumulate_chunks (av_of_vector first es) chunks 0 = Ok av' &
    [/\ accumulate_chunk (av_of_vector first es) input 0 = Ok av',
        av_first av' = first + \sum_(0 <= j < size input) input`_j *: es`_j,
        av_domain_size av' = size es &
        av_is_fully_accumulated av' = (size es <= size input)%N].
Proof. exact (@accumulate_dense F T first es chunks). Qed.
Print Assumptions C21_dense.

Example C21_example :
  ((let! a := accumulate_chunks (av_of_vector (1 : F7^o) [:: 2; 3; 4]) [:: [:: 5]; [:: 6; 1]] 0 in
   Ok ((av_first a == (1 + 5 * 2 + 6 * 3 + 4 : F7)) && av_is_fully_accumulated a)) = Ok true).
Proof. by vm_compute. Qed.
