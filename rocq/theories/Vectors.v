(** Model of libsnark/common/data_structures/{sparse_vector,accumulation_vector}.{hpp,tcc}
    and libsnark/knowledge_commitment/{knowledge_commitment,kc_multiexp}.{hpp,tcc}.

    - Group elements are elements of a module over the scalar field; the
      default-constructed group element is zero.
    - [std::lower_bound] on a sorted range is the first position whose element
      is not below the key.
    - libff's [multi_exp] is given by its contract: on two ranges of equal
      length it returns the sum of the products; ranges of different lengths
      violate the contract and are modelled as undefined behaviour.
    - libff's [windowed_exp(..., table of g, x)] is [x] times [g].
      [mixed_add], [to_special] and [batch_to_special] only change
      representations.
    - Printing, profiling and OpenMP scheduling are ignored. *)
From mathcomp Require Import all_ssreflect all_algebra.
From Verif Require Import Outcome.
Set Implicit Arguments.
Unset Strict Implicit.
Unset Printing Implicit Defensive.
Import GRing.Theory.
Local Open Scope ring_scope.

Section SparseVector.
Variable T : zmodType.

(** sparse_vector.hpp:33-67 [class sparse_vector]. *)
Record sparse_vector := SparseVector {
  sv_indices : seq nat;
  sv_values : seq T;
  sv_domain_size : nat }.

(** sparse_vector.tcc:27-33 the constructor from a dense vector. *)
Definition sv_of_vector (v : seq T) : sparse_vector :=
  SparseVector (iota 0 (size v)) v (size v).

(** [std::lower_bound(indices.begin(), indices.end(), idx) - indices.begin()]. *)
Definition lower_bound (l : seq nat) (idx : nat) : nat := find (fun j => idx <= j)%N l.

(** sparse_vector.tcc:35-40 operator[]. *)
Definition sv_get (v : sparse_vector) (idx : nat) : outcome T :=
  let it := lower_bound (sv_indices v) idx in
  if (it < size (sv_indices v))%N && (nth 0%N (sv_indices v) it == idx)
  then oget (sv_values v) it
  else Ok 0.

(** sparse_vector.tcc:80-97, one of the two trailing loops: the remaining
    indices and values of one vector. *)
Fixpoint sv_rest_zero (ks : seq nat) (vs : seq T) : outcome bool :=
  match ks with
  | [::] => Ok true
  | _ :: ks' =>
      match vs with
      | [::] => UB
      | x :: vs' => if x != 0 then Ok false else sv_rest_zero ks' vs'
      end
  end.

(** sparse_vector.tcc:50-97 the three loops of operator==, on the suffixes of
    the two vectors that have not been visited. *)
Fixpoint sv_eq_loop (a b : seq nat * seq T) (n : nat) : outcome bool :=
  match n with
  | 0 => UB
  | n'.+1 =>
      match a.1, b.1 with
      | i :: ks1, j :: js1 =>
          if i == j then
            match a.2, b.2 with
            | x :: xs, y :: ys => if x != y then Ok false else sv_eq_loop (ks1, xs) (js1, ys) n'
            | _, _ => UB
            end
          else if (i < j)%N then
            match a.2 with
            | x :: xs => if x != 0 then Ok false else sv_eq_loop (ks1, xs) b n'
            | _ => UB
            end
          else
            match b.2 with
            | y :: ys => if y != 0 then Ok false else sv_eq_loop a (js1, ys) n'
            | _ => UB
            end
      | _, _ =>
          let! r := sv_rest_zero a.1 a.2 in
          if r then sv_rest_zero b.1 b.2 else Ok false
      end
  end.

(** sparse_vector.tcc:42-100 operator== on sparse vectors.  The loop advances
    one of the two positions in each step, so the given bound on the number of
    steps is never exhausted. *)
Definition sv_eqb (a b : sparse_vector) : outcome bool :=
  if sv_domain_size a != sv_domain_size b then Ok false
  else sv_eq_loop (sv_indices a, sv_values a) (sv_indices b, sv_values b)
                  (size (sv_indices a) + size (sv_indices b)).+1.

(** sparse_vector.tcc:110-130 the loop of operator== with a dense vector;
    [k] counts the remaining iterations. *)
Fixpoint sv_eq_dense_loop (v : sparse_vector) (other : seq T) (i j k : nat) : outcome bool :=
  match k with
  | 0 => Ok true
  | k'.+1 =>
      let! idx := oget (sv_indices v) j in
      if idx == i then
        let! x := oget (sv_values v) j in
        let! y := oget other j in
        if x != y then Ok false else sv_eq_dense_loop v other i.+1 j.+1 k'
      else
        let! y := oget other j in
        if y != 0 then Ok false else sv_eq_dense_loop v other i.+1 j k'
  end.

(** sparse_vector.tcc:102-131 operator== with a dense vector. *)
Definition sv_eq_dense (v : sparse_vector) (other : seq T) : outcome bool :=
  if (sv_domain_size v < size other)%N then Ok false
  else sv_eq_dense_loop v other 0 0 (size other).

(** sparse_vector.tcc:133-155 [is_valid]. *)
Definition sv_is_valid (v : sparse_vector) : bool :=
  if (size (sv_values v) == size (sv_indices v)) && (size (sv_values v) <= sv_domain_size v)%N
  then false else
  if ~~ all (fun i => nth 0%N (sv_indices v) i < nth 0%N (sv_indices v) i.+1)%N
            (iota 0 (size (sv_indices v)).-1)
  then false else
  if (sv_indices v != [::]) && (sv_domain_size v <= last 0%N (sv_indices v))%N
  then false else true.

(** sparse_vector.tcc:157-173 [empty], [size]. *)
Definition sv_empty (v : sparse_vector) : bool := nilp (sv_indices v).
Definition sv_size (v : sparse_vector) : nat := size (sv_indices v).

End SparseVector.

Section Accumulate.
Variables (F : fieldType) (T : lmodType F).

(** libff::multi_exp over two ranges (contract). *)
Definition multi_exp (vs : seq T) (scalars : seq F) : outcome T :=
  if size vs == size scalars 
  then Ok (foldl (fun acc (p : F * T) => acc + p.1 *: p.2) 0 (zip scalars vs)) else UB.

(** The range [v.begin()+a, v.begin()+b). *)
Definition range (A : Type) (v : seq A) (a b : nat) : seq A := take (b - a) (drop a v).

(** The mutable variables of [accumulate]; the block is [Some (first_pos,
    last_pos)] when [in_block] holds. *)
Record acc_state := AccState {
  as_value : T;
  as_indices : seq nat;
  as_values : seq T;
  as_block : option (nat * nat) }.

(** sparse_vector.tcc:225-230 and 260-265 the multi-exponentiation of a block. *)
Definition block_exp (v : sparse_vector T) (scalars : seq F) (offset first_pos last_pos : nat) : outcome T :=
  let! fi := oget (sv_indices v) first_pos in
  let! la := oget (sv_indices v) last_pos in
  multi_exp (range (sv_values v) first_pos last_pos.+1)
            (range scalars (fi - offset) (la - offset).+1).

(** sparse_vector.tcc:201-253 one iteration. *)
Definition acc_step (v : sparse_vector T) (scalars : seq F) (offset : nat) (s : acc_state) (i : nat) :
    outcome acc_state :=
  let! idx := oget (sv_indices v) i in
  let matching := (offset <= idx)%N && (idx < offset + size scalars)%N in
  let copy_over s' :=
    let! x := oget (sv_values v) i in
    Ok (AccState (as_value s') (rcons (as_indices s') idx) (rcons (as_values s') x) (as_block s')) in
  match as_block s with
  | Some (first_pos, last_pos) =>
      if matching && (last_pos.+1 == i)
      then Ok (AccState (as_value s) (as_indices s) (as_values s) (Some (first_pos, i)))
      else
        let! b := block_exp v scalars offset first_pos last_pos in
        copy_over (AccState (as_value s + b) (as_indices s) (as_values s) None)
  | None =>
      if matching
      then Ok (AccState (as_value s) (as_indices s) (as_values s) (Some (i, i)))
      else copy_over s
  end.

(** sparse_vector.tcc:181-269 [accumulate]. *)
Definition sv_accumulate (v : sparse_vector T) (scalars : seq F) (offset : nat) :
    outcome (T * sparse_vector T) :=
  let! s := ofold (acc_step v scalars offset) (AccState 0 [::] [::] None)
                  (iota 0 (size (sv_indices v))) in
  let! total := (if as_block s is Some (first_pos, last_pos)
                 then let! b := block_exp v scalars offset first_pos last_pos in
                      Ok (as_value s + b)
                 else Ok (as_value s)) in
  Ok (total, SparseVector (as_indices s) (as_values s) (sv_domain_size v)).

(** accumulation_vector.hpp:35-69 [class accumulation_vector]. *)
Record accumulation_vector := AccumulationVector {
  av_first : T;
  av_rest : sparse_vector T }.

(** accumulation_vector.hpp:46 the constructor from a dense vector. *)
Definition av_of_vector (first : T) (v : seq T) : accumulation_vector :=
  AccumulationVector first (sv_of_vector v).

(** accumulation_vector.tcc:25-41 *)
Definition av_is_fully_accumulated (v : accumulation_vector) : bool := sv_empty (av_rest v).
Definition av_domain_size (v : accumulation_vector) : nat := sv_domain_size (av_rest v).
Definition av_size (v : accumulation_vector) : nat := sv_domain_size (av_rest v).

(** accumulation_vector.tcc:19-23 operator==; [&&] is short-circuiting. *)
Definition av_eqb (a b : accumulation_vector) : outcome bool :=
  if av_first a == av_first b then sv_eqb (av_rest a) (av_rest b) else Ok false.

(** accumulation_vector.tcc:51-60 [accumulate_chunk]. *)
Definition accumulate_chunk (v : accumulation_vector) (scalars : seq F) (offset : nat) :
    outcome accumulation_vector :=
  let! r := sv_accumulate (av_rest v) scalars offset in
  Ok (AccumulationVector (av_first v + r.1) r.2).

End Accumulate.

Section KnowledgeCommitment.
Variables (F : fieldType) (T1 T2 : lmodType F).

(** knowledge_commitment.hpp:44-82 [class knowledge_commitment]: a pair, with
    componentwise addition and scalar multiplication
    (knowledge_commitment.tcc:23-113). *)
Definition kc : lmodType F := [lmodType F of T1 * T2].
(** knowledge_commitment.hpp:86-87 *)
Definition kc_vector := sparse_vector kc.

(** kc_multiexp.tcc:54-88 the loop; the remaining indices and values, and
    the state: the accumulator, the scalars [p] and the commitments [g]. *)
Fixpoint kc_loop (min_idx max_idx : nat) (scalars : seq F) (ks : seq nat) (vs : seq kc)
    (acc : kc) (p : seq F) (g : seq kc) : outcome (kc * seq F * seq kc) :=
  match ks with
  | [::] => Ok (acc, p, g)
  | i :: ks' =>
      if (i < max_idx)%N then
        let! scalar := oget scalars (i - min_idx) in
        match vs with
        | [::] => UB
        | x :: vs' =>
            if scalar == 0 then kc_loop min_idx max_idx scalars ks' vs' acc p g
            else if scalar == 1 then kc_loop min_idx max_idx scalars ks' vs' (acc + x) p g
            else kc_loop min_idx max_idx scalars ks' vs' acc (rcons p scalar) (rcons g x)
        end
      else Ok (acc, p, g)
  end.

(** kc_multiexp.tcc:21-96 [kc_multi_exp_with_mixed_addition]. *)
Definition kc_multi_exp (vec : kc_vector) (min_idx max_idx : nat) (scalars : seq F) : outcome kc :=
  assert! (size scalars <= sv_domain_size vec)%N in
  let offset := lower_bound (sv_indices vec) min_idx in
  let! r := kc_loop min_idx max_idx scalars (drop offset (sv_indices vec)) (drop offset (sv_values vec))
                    0 [::] [::] in
  let: (acc, p, g) := r in
  let! m := multi_exp g p in
  Ok (acc + m).

Variables (g1 : T1) (g2 : T2).

(** kc_multiexp.tcc:98-127 [kc_batch_exp_internal] on positions
    [start_pos, end_pos); [k] counts the remaining iterations
    ([pos != end_pos]), the tables hold the multiples of [g1] and [g2]. *)
Fixpoint kc_batch_exp_internal (c1 c2 : F) (v : seq F) (pos k : nat) : outcome (seq nat * seq kc) :=
  match k with
  | 0 => Ok ([::], [::])
  | k'.+1 =>
      let! x := oget v pos in
      let! r := kc_batch_exp_internal c1 c2 v pos.+1 k' in
      if x != 0
      then Ok (pos :: r.1, (((c1 * x) *: g1, (c2 * x) *: g2) : kc) :: r.2)
      else Ok r
  end.

(** kc_multiexp.tcc:164-176 the chunk boundaries: state
    ([chunk_pos], [cnt], [chunkno]). *)
Definition chunk_step (v : seq F) (chunk_size num_chunks : nat) (s : seq nat * nat * nat) (i : nat) :
    outcome (seq nat * nat * nat) :=
  let: (chunk_pos, cnt, chunkno) := s in
  let! x := oget v i in
  let cnt := (cnt + (if x == 0%R then 0 else 1))%N in
  if (cnt == chunk_size) && (chunkno < num_chunks)%N
  then let! cp := oput chunk_pos chunkno i in Ok (cp, 0%N, chunkno.+1)
  else Ok (chunk_pos, cnt, chunkno).

(** kc_multiexp.tcc:129-206 [kc_batch_exp].  A chunk whose end lies before its
    start would not terminate normally and is undefined behaviour. *)
Definition kc_batch_exp (c1 c2 : F) (v : seq F) (suggested_num_chunks : nat) : outcome kc_vector :=
  let nonzero := foldl (fun n x => n + (if x == 0%R then 0 else 1))%N 0%N v in
  let num_chunks := maxn 1 (minn nonzero suggested_num_chunks) in
  let chunk_size := (nonzero %/ num_chunks)%N in
  let! chunk_pos := oput (nseq num_chunks.+1 0%N) 0 0%N in
  let! s := ofold (chunk_step v chunk_size num_chunks) (chunk_pos, 0%N, 1%N) (iota 0 (size v)) in
  let! chunk_pos := oput s.1.1 num_chunks (size v) in
  let! tmp := omapm (fun i =>
      let! a := oget chunk_pos i in
      let! b := oget chunk_pos i.+1 in
      if (a <= b)%N then kc_batch_exp_internal c1 c2 v a (b - a) else UB)
    (iota 0 num_chunks) in
  if num_chunks == 1%N
  then let! t0 := oget tmp 0 in Ok (SparseVector t0.1 t0.2 (size v))
  else Ok (SparseVector (flatten [seq t.1 | t <- tmp]) (flatten [seq t.2 | t <- tmp]) (size v)).

End KnowledgeCommitment.
