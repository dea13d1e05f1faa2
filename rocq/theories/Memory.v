(** Model of libsnark/relations/ram_computations/memory: ra_memory.{hpp,cpp},
    delegated_ra_memory.{hpp,tcc}, memory_store_trace.{hpp,cpp}.

    Addresses and timestamps ([size_t]) are [nat]s, values ([size_t]) are [N]s.  The
    constructor of [delegated_ra_memory] from a vector (delegated_ra_memory.tcc:55-64)
    is not modelled: it calls [contents.size()] on a [unique_ptr] and passes a vector as
    an output iterator, so it does not compile when it is instantiated. *)
From Coq Require Import NArith.
From mathcomp Require Import all_ssreflect.
From Verif Require Import Outcome StdMap MerkleTree.
Set Implicit Arguments.
Unset Strict Implicit.
Unset Printing Implicit Defensive.
Delimit Scope N_scope with num.

(** memory_interface.hpp:24 *)
Definition memory_contents := nmap N.

(** ra_memory.hpp:22-34, memory_interface.hpp:35-50 *)
Record ra_memory := RaMemory { rm_num_addresses : nat; rm_value_size : nat; rm_contents : memory_contents }.
(** ra_memory.cpp:20-23 *)
Definition rm_new (num_addresses value_size : nat) : ra_memory := RaMemory num_addresses value_size [::].
(** ra_memory.cpp:25-35 *)
Definition rm_of_vector (num_addresses value_size : nat) (v : seq N) : ra_memory :=
  RaMemory num_addresses value_size (foldl (fun m kv => nm_set m kv.1 kv.2) [::] (zip (iota 0 (size v)) v)).
(** ra_memory.cpp:38-43 *)
Definition rm_of_map (num_addresses value_size : nat) (m : memory_contents) : ra_memory :=
  RaMemory num_addresses value_size m.
(** ra_memory.cpp:45-50 *)
Definition rm_get_value (m : ra_memory) (address : nat) : outcome N :=
  assert! (address < rm_num_addresses m) in
  Ok (odflt 0%num (nm_find (rm_contents m) address)).
(** ra_memory.cpp:52-55 *)
Definition rm_set_value (m : ra_memory) (address : nat) (value : N) : ra_memory :=
  RaMemory (rm_num_addresses m) (rm_value_size m) (nm_set (rm_contents m) address value).

Section Delegated.
Variables (get_hash : bit_vector -> bit_vector) (digest_len : nat).

(** delegated_ra_memory.hpp:24-44 *)
Record delegated_memory := DelegatedMemory {
  dm_num_addresses : nat; dm_value_size : nat; dm_contents : merkle_tree }.

(** delegated_ra_memory.tcc:24-33; shifting a 64-bit word by 64 or more is undefined. *)
Definition int_to_tree_elem (value_size : nat) (i : N) : outcome bit_vector :=
  if 64 < value_size then UB
  else Ok [seq N.land i (N.shiftl 1 (N.of_nat k)) != 0%num | k <- iota 0 value_size].
(** delegated_ra_memory.tcc:35-45 *)
Definition int_from_tree_elem (value_size : nat) (v : bit_vector) : outcome N :=
  if 64 < value_size then UB
  else ofold (fun r i => let! b := oget v i in
                         Ok (N.lor r (N.shiftl (if b then 1%num else 0%num) (N.of_nat i))))
             0%num (iota 0 value_size).

(** delegated_ra_memory.tcc:47-53 *)
Definition dm_new (num_addresses value_size : nat) : outcome delegated_memory :=
  let! t := mt_new get_hash digest_len (log2 num_addresses) value_size in
  Ok (DelegatedMemory num_addresses value_size t).
(** delegated_ra_memory.tcc:66-79 *)
Definition dm_of_map (num_addresses value_size : nat) (m : memory_contents) : outcome delegated_memory :=
  let! bits := ofold (fun acc kv => let! v := int_to_tree_elem value_size kv.2 in Ok (nm_set acc kv.1 v)) [::] m in
  let! t := mt_of_map get_hash digest_len (log2 num_addresses) value_size bits in
  Ok (DelegatedMemory num_addresses value_size t).
(** delegated_ra_memory.tcc:81-85 *)
Definition dm_get_value (m : delegated_memory) (address : nat) : outcome N :=
  let! v := mt_get_value (dm_contents m) address in
  int_from_tree_elem (dm_value_size m) v.
(** delegated_ra_memory.tcc:87-92 *)
Definition dm_set_value (m : delegated_memory) (address : nat) (value : N) : outcome delegated_memory :=
  let! v := int_to_tree_elem (dm_value_size m) value in
  let! t := mt_set_value get_hash (dm_contents m) address v in
  Ok (DelegatedMemory (dm_num_addresses m) (dm_value_size m) t).
(** delegated_ra_memory.tcc:94-104 *)
Definition dm_get_root (m : delegated_memory) : outcome bit_vector := mt_get_root (dm_contents m).
Definition dm_get_path (m : delegated_memory) (address : nat) : outcome (seq bit_vector) :=
  mt_get_path (dm_contents m) address.
End Delegated.

(** memory_store_trace.hpp:23-39: a map from timestamps to (address, value) pairs. *)
Definition memory_store_trace := nmap (nat * N).
(** memory_store_trace.cpp:22-26 *)
Definition get_trace_entry (t : memory_store_trace) (timestamp : nat) : nat * N :=
  odflt (0, 0%num) (nm_find t timestamp).
(** memory_store_trace.cpp:33-36 *)
Definition set_trace_entry (t : memory_store_trace) (timestamp : nat) (av : nat * N) : memory_store_trace :=
  nm_set t timestamp av.
(** memory_store_trace.cpp:38-48; the iteration is in the order of the timestamps. *)
Definition as_memory_contents (t : memory_store_trace) : memory_contents :=
  foldl (fun m e => nm_set m e.2.1 e.2.2) [::] t.
