(** Vocabulary for stating what the Merkle-tree gadgets do.  Models nothing of
    /repo. *)
From mathcomp Require Import all_ssreflect all_algebra.
From Verif Require Import Outcome Lincomb LincombSpec R1CS R1CSSpec Protoboard GadgetSpec BasicGadgets BasicGadgetsCopy.
From Verif Require Import MerkleGadget.
From Verif Require Sha256Spec.
Set Implicit Arguments.
Unset Strict Implicit.
Unset Printing Implicit Defensive.
Local Open Scope ring_scope.

(** [rel block digest] says that [digest] is a hash of [block].  Hashing upwards
    from position [p] with the given siblings (lowest first) can lead to [root]. *)
Fixpoint climbs (rel : seq bool -> seq bool -> Prop) (p : nat) (cur : seq bool) (siblings : seq (seq bool))
    (root : seq bool) : Prop :=
  if siblings is s :: siblings'
  then exists2 parent, rel (if odd p then s ++ cur else cur ++ s) parent & climbs rel (p %/ 2) parent siblings' root
  else root = cur.
(** An authentication path, listed from the root downwards, verifies. *)
Definition path_connects rel (root : seq bool) (address : nat) (leaf : seq bool) (path : seq (seq bool)) : Prop :=
  climbs rel address leaf (rev path) root.

(** The function that [rel] is the graph of. *)
Definition graph (hash : seq bool -> seq bool) : seq bool -> seq bool -> Prop := fun block digest => digest = hash block.

(** The two-to-one hash as a function from 512 bits to 256 bits. *)
Definition word_bits (w : Sha256Spec.word) : seq bool :=
  [seq BinNat.N.testbit w (BinNat.N.of_nat (31 - i)) | i <- iota 0 32].
Definition sha256_two_to_one (block : seq bool) : seq bool :=
  flatten (map word_bits (Sha256Spec.sha256_compress Sha256Spec.H256 (Sha256Spec.words_of_bits 16 block))).

(** All the variables of a path; the digests at level [i] that lie on the path to
    the address with bits [a] (lowest first), and their siblings. *)
Definition path_vars (path : path_variable) : seq nat := flatten (pv_left path) ++ flatten (pv_right path).
Definition path_side (path : path_variable) (a : seq bool) (i : nat) : pb_variable_array :=
  if nth false a (size a - 1 - i) then nth [::] (pv_right path) i else nth [::] (pv_left path) i.
Definition path_sib (path : path_variable) (a : seq bool) (i : nat) : pb_variable_array :=
  if nth false a (size a - 1 - i) then nth [::] (pv_left path) i else nth [::] (pv_right path) i.

Section Values.
Variable F : fieldType.
(** The bits that some variables carry; the variables carry bits. *)
Definition var_bits (x : seq F) (vs : pb_variable_array) : seq bool := [seq bit_of (xval x v) | v <- vs].
Definition var_isbits (x : seq F) (vs : pb_variable_array) : bool := all (fun v => isbit (xval x v)) vs.
Definition lc_bits (x : seq F) (ls : pb_linear_combination_array F) : seq bool := [seq bit_of (lval x l) | l <- ls].
Definition lc_isbits (x : seq F) (ls : pb_linear_combination_array F) : bool := all (fun l => isbit (lval x l)) ls.

(** The siblings on the path from the root to [address], from the root downwards:
    the left digest if the path goes to the right. *)
Definition path_siblings (x : seq F) (path : path_variable) (address : seq bool) : seq (seq bool) :=
  [seq (if nth false address (size address - 1 - i)
        then var_bits x (nth [::] (pv_left path) i) else var_bits x (nth [::] (pv_right path) i))
  | i <- iota 0 (size address)].

(** A path of [depth] levels of digests of [n] variables. *)
Definition path_shape (depth n : nat) (path : path_variable) : Prop :=
  [/\ size (pv_left path) = depth, size (pv_right path) = depth,
      all (fun d => size d == n) (pv_left path) & all (fun d => size d == n) (pv_right path)].

(** * Hash gadgets *)
Variable HashT : hash_gadget F.
(** Constructors allocate only. *)
Definition hash_allocates : Prop := forall pb0 len block out g pb1,
  pb_wf pb0 -> size block = len -> size out = hg_digest_len HashT -> hg_new HashT pb0 len block out = Ok (g, pb1) ->
  allocates pb0 pb1.
(** On blocks of [len] bits the constraints enforce [rel]: whenever the block and
    the output consist of bits, the output is a hash of the block; if asked to, they
    enforce that the output consists of bits. *)
Definition hash_enforces (len : nat) (rel : seq bool -> seq bool -> Prop) : Prop := forall pb0 block out g pb1 e x,
  pb_wf pb0 -> size block = len -> size out = hg_digest_len HashT -> hg_new HashT pb0 len block out = Ok (g, pb1) ->
  var_isbits x block -> holds (hg_constraints g e) x ->
  (e -> var_isbits x out) /\ (var_isbits x out -> rel (var_bits x block) (var_bits x out)).
(** Stronger: whatever the values of the output are (even if not bits), if they
    pack to the same elements as [d], in chunks of [c], then [d] is a hash of the
    block. *)
Definition hash_enforces_packed (c len : nat) (rel : seq bool -> seq bool -> Prop) : Prop :=
  forall pb0 block out g pb1 e x d,
  pb_wf pb0 -> size block = len -> size out = hg_digest_len HashT -> hg_new HashT pb0 len block out = Ok (g, pb1) ->
  var_isbits x block -> holds (hg_constraints g e) x ->
  size d = hg_digest_len HashT ->
  map (@pack F) (chunks (map (xval x) out) c) = map (@pack F) (chunks [seq bit_val F b | b <- d] c) ->
  rel (var_bits x block) d.
End Values.
