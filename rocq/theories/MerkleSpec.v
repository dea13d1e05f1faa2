(** What a Merkle tree over a list of leaves is; independent of the model. *)
From mathcomp Require Import all_ssreflect.
Set Implicit Arguments.
Unset Strict Implicit.
Unset Printing Implicit Defensive.

Section Spec.
Variable hash : seq bool -> seq bool.

(** The hash at height [h] (0 at the leaves) and position [p] of the complete
    binary tree whose leaves are [leaf 0], [leaf 1], ... *)
Fixpoint node_hash (leaf : nat -> seq bool) (h p : nat) : seq bool :=
  if h is h'.+1 then hash (node_hash leaf h' (2 * p) ++ node_hash leaf h' (2 * p + 1)) else leaf p.

Definition merkle_root (leaf : nat -> seq bool) (depth : nat) : seq bool := node_hash leaf depth 0.

(** Hashing upwards from position [p] with the given siblings (lowest first). *)
Fixpoint climb (p : nat) (cur : seq bool) (siblings : seq (seq bool)) : seq bool :=
  if siblings is s :: siblings'
  then climb (p %/ 2) (if odd p then hash (s ++ cur) else hash (cur ++ s)) siblings'
  else cur.

(** An authentication path, listed from the root downwards, verifies. *)
Definition path_verifies (root : seq bool) (address : nat) (leaf : seq bool) (path : seq (seq bool)) : Prop :=
  climb address leaf (rev path) = root.

(** The blocks that are hashed to compute [node_hash leaf h p], [climb p cur
    siblings] and to verify a path. *)
Fixpoint node_blocks (leaf : nat -> seq bool) (h p : nat) : seq (seq bool) :=
  if h is h'.+1
  then (node_hash leaf h' (2 * p) ++ node_hash leaf h' (2 * p + 1)) ::
       node_blocks leaf h' (2 * p) ++ node_blocks leaf h' (2 * p + 1)
  else [::].
Fixpoint climb_blocks (p : nat) (cur : seq bool) (siblings : seq (seq bool)) : seq (seq bool) :=
  if siblings is s :: siblings'
  then let block := if odd p then s ++ cur else cur ++ s in
       block :: climb_blocks (p %/ 2) (hash block) siblings'
  else [::].
Definition path_blocks (address : nat) (leaf : seq bool) (path : seq (seq bool)) : seq (seq bool) :=
  climb_blocks address leaf (rev path).
(** Two different blocks with the same hash, one in each list.  (That a function
    with a bounded range has collisions is trivial; the point is where one is
    found.) *)
Definition collision_in (us vs : seq (seq bool)) : Prop :=
  exists u v, [/\ u \in us, v \in vs, u <> v & hash u = hash v].
End Spec.

(** Zero-padding to [n] bits. *)
Definition pad (n : nat) (v : seq bool) : seq bool := v ++ nseq (n - size v) false.

(** The value at [a] after the given writes, initially [v0]. *)
Definition last_written (ops : seq (nat * seq bool)) (v0 : seq bool) (a : nat) : seq bool :=
  foldl (fun v op => if op.1 == a then op.2 else v) v0 ops.

(** The distinct elements of a list in order of their first occurrence. *)
Definition distinct (T : eqType) (l : seq T) : seq T :=
  foldl (fun acc x => if x \in acc then acc else rcons acc x) [::] l.
