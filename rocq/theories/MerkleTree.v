(** Model of libsnark/common/data_structures/merkle_tree.{hpp,tcc} (lines cited
    below are of the .tcc) and set_commitment.{hpp,tcc}.

    - The hash [HashT::get_hash] and the digest length [HashT::get_digest_len()]
      are parameters.
    - [size_t] is modelled by [nat]: the constructor asserts depth < 64, so
      indices up to 2^(depth+1) do not overflow.
    - [libff::log2] is the rounded-up logarithm (with log2(0) = 0).
    - [dump] only prints. *)
From mathcomp Require Import all_ssreflect.
From Verif Require Import Outcome StdMap.
Set Implicit Arguments.
Unset Strict Implicit.
Unset Printing Implicit Defensive.

(** libff [log2]: the least r with n <= 2^r. *)
Definition log2 (n : nat) : nat := up_log 2 n.

Definition bit_vector := seq bool.
(** [v.resize(n)]: truncate, or fill up with zeros. *)
Definition resize (v : bit_vector) (n : nat) : bit_vector := take n v ++ nseq (n - size v) false.
(** [n ^ 1]. *)
Definition xor1 (n : nat) : nat := if odd n then n - 1 else n + 1.

Section MerkleTree.
Variables (get_hash : bit_vector -> bit_vector) (digest_len : nat).

(** Lines 24-39 [two_to_one_CRH]. *)
Definition two_to_one_CRH (l r : bit_vector) : bit_vector := get_hash (l ++ r).

(** merkle_tree.hpp:42-68 [class merkle_tree]. *)
Record merkle_tree := MerkleTree {
  mt_hash_defaults : seq bit_vector;
  mt_values : nmap bit_vector;
  mt_hashes : nmap bit_vector;
  mt_depth : nat;
  mt_value_size : nat;
  mt_digest_size : nat }.

(** Lines 41-60 the empty tree. *)
Definition mt_new (depth value_size : nat) : outcome merkle_tree :=
  assert! (depth < 64) in
  let digest_size := digest_len in
  assert! (value_size <= digest_size) in
  let last := nseq digest_size false in
  let st := foldl (fun st _ => let last := two_to_one_CRH st.2 st.2 in (rcons st.1 last, last))
                  ([:: last], last) (iota 0 depth) in
  Ok (MerkleTree (rev st.1) [::] [::] depth value_size digest_size).

(** Lines 82-90: the hashes of one layer of the vector constructor.  [hashes[i]]
    on the right-hand side inserts an empty vector if the key is missing. *)
Definition vector_layer (dflt : bit_vector) (idx_begin idx_end : nat) (hashes : nmap bit_vector) :
    nmap bit_vector :=
  foldl (fun hashes idx =>
           let: (l, hashes) := nm_index [::] hashes idx in
           let: (r, hashes) := if (idx + 1 < idx_end)%N then nm_index [::] hashes (idx + 1)
                               else (dflt, hashes) in
           nm_set hashes ((idx - 1) %/ 2) (two_to_one_CRH l r))
        hashes [seq idx_begin + 2 * i | i <- iota 0 ((idx_end - idx_begin).+1 %/ 2)].

(** Lines 62-95 the constructor from a vector. *)
Definition mt_of_vector (depth value_size : nat) (contents : seq bit_vector) : outcome merkle_tree :=
  let! t := mt_new depth value_size in
  assert! (log2 (size contents) <= depth) in
  let first := 2 ^ depth - 1 in
  let leaves := zip (iota first (size contents)) contents in
  let values := foldl (fun m kv => nm_set m kv.1 kv.2) (mt_values t) leaves in
  let hashes := foldl (fun m kv => nm_set m kv.1 (resize kv.2 (mt_digest_size t))) (mt_hashes t) leaves in
  let! st := ofold (fun st layer =>
                      let: (hashes, idx_begin, idx_end) := st in
                      let! dflt := oget (mt_hash_defaults t) layer in
                      Ok (vector_layer dflt idx_begin idx_end hashes,
                          (idx_begin - 1) %/ 2, (idx_end - 1) %/ 2))
                   (hashes, first, size contents + first) (rev (iota 1 depth)) in
  Ok (MerkleTree (mt_hash_defaults t) values st.1.1 depth value_size (mt_digest_size t)).

(** Lines 122-147: the parents of one layer, given as the remaining (key, hash)
    pairs of the layer in order.  The keys that are inserted are smaller than all
    keys of the layer, so the insertions do not interfere with the iteration. *)
Fixpoint map_layer (dflt : bit_vector) (elems : nmap bit_vector) (hashes : nmap bit_vector) :
    nmap bit_vector :=
  match elems with
  | [::] => hashes
  | (idx, hash) :: rest =>
      if ~~ odd idx
      then map_layer dflt rest (nm_set hashes ((idx - 1) %/ 2) (two_to_one_CRH dflt hash))
      else match rest with
           | (idx', hash') :: rest' =>
               if idx' != idx + 1
               then map_layer dflt rest (nm_set hashes ((idx - 1) %/ 2) (two_to_one_CRH hash dflt))
               else map_layer dflt rest' (nm_set hashes ((idx - 1) %/ 2) (two_to_one_CRH hash hash'))
           | [::] => nm_set hashes ((idx - 1) %/ 2) (two_to_one_CRH hash dflt)
           end
  end.

(** Lines 96-153 the constructor from a map.  The iterator [last_it] is given by
    the key it points to, [None] for [hashes.end()]. *)
Definition mt_of_map (depth value_size : nat) (contents : nmap bit_vector) : outcome merkle_tree :=
  let! t := mt_new depth value_size in
  if nilp contents then Ok t
  else
    assert! (last 0 (nm_keys contents) < 2 ^ depth) in
    let values := foldl (fun m kv => nm_set m kv.1 kv.2) (mt_values t) contents in
    let hashes := foldl (fun m kv => nm_set m (kv.1 + 2 ^ depth - 1) (resize kv.2 (mt_digest_size t)))
                        (mt_hashes t) contents in
    let! st := ofold (fun st layer =>
                        let: (hashes, last_it) := st in
                        let next_last_it := head 0 (nm_keys hashes) in
                        let elems := if last_it is Some k then [seq kv <- hashes | kv.1 < k] else hashes in
                        let! dflt := oget (mt_hash_defaults t) layer in
                        Ok (map_layer dflt elems hashes, Some next_last_it))
                     (hashes, None) (rev (iota 1 depth)) in
    Ok (MerkleTree (mt_hash_defaults t) values st.1 depth value_size (mt_digest_size t)).

(** Lines 155-165 [get_value]. *)
Definition mt_get_value (t : merkle_tree) (address : nat) : outcome bit_vector :=
  assert! (log2 address <= mt_depth t) in
  let padded_result := odflt (nseq (mt_digest_size t) false) (nm_find (mt_values t) address) in
  Ok (resize padded_result (mt_value_size t)).

(** [it == hashes.end() ? hash_defaults[layer] : it->second] *)
Definition mt_node (t : merkle_tree) (hashes : nmap bit_vector) (idx layer : nat) : outcome bit_vector :=
  if nm_find hashes idx is Some h then Ok h else oget (mt_hash_defaults t) layer.

(** Lines 167-192 [set_value]. *)
Definition mt_set_value (t : merkle_tree) (address : nat) (value : bit_vector) : outcome merkle_tree :=
  assert! (log2 address <= mt_depth t) in
  let idx := address + 2 ^ mt_depth t - 1 in
  assert! (size value == mt_value_size t) in
  let values := nm_set (mt_values t) address value in
  let hashes := nm_set (mt_hashes t) idx (resize value (mt_digest_size t)) in
  let! st := ofold (fun st layer =>
                      let: (idx, hashes) := st in
                      let idx := (idx - 1) %/ 2 in
                      let! l := mt_node t hashes (2 * idx + 1) layer.+1 in
                      let! r := mt_node t hashes (2 * idx + 2) layer.+1 in
                      Ok (idx, nm_set hashes idx (two_to_one_CRH l r)))
                   (idx, hashes) (rev (iota 0 (mt_depth t))) in
  Ok (MerkleTree (mt_hash_defaults t) values st.2 (mt_depth t) (mt_value_size t) (mt_digest_size t)).

(** Lines 194-199 [get_root]. *)
Definition mt_get_root (t : merkle_tree) : outcome bit_vector := mt_node t (mt_hashes t) 0 0.

(** Lines 201-227 [get_path].  The vector is filled from its last entry to its
    first, i.e. by consing. *)
Definition mt_get_path (t : merkle_tree) (address : nat) : outcome (seq bit_vector) :=
  assert! (log2 address <= mt_depth t) in
  let first := 2 ^ mt_depth t - 1 in
  let! st := ofold (fun st layer =>
                      let: (idx, result) := st in
                      let sibling_idx := xor1 (idx + 1) - 1 in
                      let! node :=
                        if layer == mt_depth t
                        then let v := odflt (nseq (mt_value_size t) false)
                                            (nm_find (mt_values t) (sibling_idx - first)) in
                             Ok (resize v (mt_digest_size t))
                        else mt_node t (mt_hashes t) sibling_idx layer in
                      Ok ((idx - 1) %/ 2, node :: result))
                   (address + 2 ^ mt_depth t - 1, [::]) (rev (iota 1 (mt_depth t))) in
  Ok st.2.

(** set_commitment.hpp:40-60 [class set_commitment_accumulator]; the map
    [hash_to_pos] is only searched, extended and counted. *)
Record set_commitment := SetCommitment {
  sc_tree : merkle_tree;
  sc_hash_to_pos : seq (bit_vector * nat);
  sc_depth : nat; sc_digest_size : nat; sc_value_size : nat }.

Definition sc_find (s : set_commitment) (h : bit_vector) : option nat :=
  Option.map snd (ohead [seq kv <- sc_hash_to_pos s | kv.1 == h]).

(** set_commitment.tcc:16-24 *)
Definition sc_new (max_entries value_size : nat) : outcome set_commitment :=
  let depth := log2 max_entries in
  let! t := mt_new depth digest_len in
  Ok (SetCommitment t [::] depth digest_len value_size).

(** set_commitment.tcc:26-38 [add]. *)
Definition sc_add (s : set_commitment) (value : bit_vector) : outcome set_commitment :=
  assert! ((sc_value_size s == 0) || (size value == sc_value_size s)) in
  let hash := get_hash value in
  if sc_find s hash is None
  then let pos := size (sc_hash_to_pos s) in
       let! t := mt_set_value (sc_tree s) pos hash in
       Ok (SetCommitment t (rcons (sc_hash_to_pos s) (hash, pos)) (sc_depth s) (sc_digest_size s)
                         (sc_value_size s))
  else Ok s.

(** set_commitment.tcc:40-46 [is_in_set]. *)
Definition sc_is_in_set (s : set_commitment) (value : bit_vector) : outcome bool :=
  assert! ((sc_value_size s == 0) || (size value == sc_value_size s)) in
  Ok (isSome (sc_find s (get_hash value))).

(** set_commitment.tcc:48-52 [get_commitment]. *)
Definition sc_get_commitment (s : set_commitment) : outcome bit_vector := mt_get_root (sc_tree s).

(** set_commitment.tcc:54-66 [get_membership_proof]. *)
Definition sc_get_membership_proof (s : set_commitment) (value : bit_vector) :
    outcome (nat * seq bit_vector) :=
  if sc_find s (get_hash value) is Some pos
  then let! path := mt_get_path (sc_tree s) pos in Ok (pos, path)
  else AssertFail.

End MerkleTree.
