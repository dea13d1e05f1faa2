(** Model of libsnark/gadgetlib1/gadgets/hashes/digest_selector_gadget.tcc,
    gadgets/merkle_tree/{merkle_authentication_path_variable,
    merkle_tree_check_read_gadget,merkle_tree_check_update_gadget}.tcc and
    gadgets/set_commitment/{set_membership_proof_variable,set_commitment_gadget}.tcc.

    The template parameter [HashT] is a record of the operations that these
    files use.  Digests and blocks are given by their variables. *)
From Coq Require Import NArith.
From mathcomp Require Import all_ssreflect all_algebra.
From Verif Require Import Outcome Lincomb R1CS Protoboard BasicGadgets Sha256Gadget Knapsack MerkleTree.
Set Implicit Arguments.
Unset Strict Implicit.
Unset Printing Implicit Defensive.
Local Open Scope ring_scope.

(** The interface of a hash gadget class, as used by the Merkle gadgets:
    [HashT::get_digest_len], the constructor [HashT(pb, block_length, block, output, _)],
    [generate_r1cs_constraints(ensure_output_bitness)], [generate_r1cs_witness]
    and [HashT::expected_constraints]. *)
Record hash_gadget (F : fieldType) := HashGadget {
  hg_type : Type;
  hg_digest_len : nat;
  hg_new : protoboard F -> nat -> pb_variable_array -> pb_variable_array -> outcome (hg_type * protoboard F);
  hg_constraints : hg_type -> bool -> seq (r1cs_constraint F);
  hg_witness : hg_type -> protoboard F -> outcome (protoboard F);
  hg_expected : bool -> N }.

(** The two hash gadgets of /repo. *)
Definition sha256_hash (F : fieldType) (R : bigint_repr F) : hash_gadget F :=
  HashGadget SHA256_digest_size (@two_to_one_new_block F) (@two_to_one_constraints F) (@two_to_one_witness F R)
    (fun=> sha256_expected_constraints).
(** The coefficients are those of the cache after construction; Prop_MerkleGadgets.v
    shows that later extensions of the cache do not matter. *)
Definition knapsack_hash (F : fieldType) (R : bigint_repr F) (dimension : nat) (rng : nat -> F) (cache : seq F) :
    hash_gadget F :=
  HashGadget (knapsack_digest_len R dimension)
    (fun pb n block out => let! r := knapsack_bit_new R dimension rng cache pb n block out in Ok (r.1.1, r.1.2))
    (fun g e => knapsack_bit_constraints dimension cache g e) (knapsack_bit_witness R dimension cache)
    (knapsack_bit_expected_constraints R dimension).

Section MerkleGadget.
Variable F : fieldType.
Variable R : bigint_repr F.
Variable HashT : hash_gadget F.
Implicit Types (pb : protoboard F).
Local Notation digest := pb_variable_array.
Local Notation digest_len := (hg_digest_len HashT).
Let vlc (v : pb_variable) := lc_of_var F v.

(** * digest_selector_gadget, digest_selector_gadget.tcc:13-58.  Reading beyond
    the end of a digest is undefined behaviour; the theorems assume digests of
    [digest_size] bits, the model reads the constant. *)
Record digest_selector := DigestSelector {
  ds_size : nat; ds_input : digest; ds_is_right : pb_linear_combination F; ds_left : digest; ds_right : digest }.
Definition digest_selector_constraints (g : digest_selector) : seq (r1cs_constraint F) :=
  [seq R1csConstraint (lc_terms (ds_is_right g))
         (var_sub_lc (nth 0%N (ds_right g) i) (vlc (nth 0%N (ds_left g) i)))
         (var_sub_lc (nth 0%N (ds_input g) i) (vlc (nth 0%N (ds_left g) i))) | i <- iota 0 (ds_size g)].
Definition copy_digest pb (size : nat) (target source : digest) : outcome (protoboard F) :=
  ofold (fun pb i => let! v := pb_val pb (nth 0%N source i) in pb_set pb (nth 0%N target i) v) pb (iota 0 size).
Definition digest_selector_witness (g : digest_selector) pb : outcome (protoboard F) :=
  let! pb := lc_evaluate pb (ds_is_right g) in
  let! r := pb_lc_val pb (ds_is_right g) in
  assert! (r == 1) || (r == 0) in
  if r == 1 then copy_digest pb (ds_size g) (ds_right g) (ds_input g)
  else copy_digest pb (ds_size g) (ds_left g) (ds_input g).

(** * merkle_authentication_path_variable, lines 14-77 *)
Record path_variable := PathVariable { pv_left : seq digest; pv_right : seq digest }.
Definition path_variable_new pb (tree_depth : nat) : outcome (path_variable * protoboard F) :=
  let! r := new_all (fun (_ : nat) pb =>
              let: (l, pb) := digest_variable_new pb digest_len in
              let: (r, pb) := digest_variable_new pb digest_len in Ok ((l, r), pb)) (iota 0 tree_depth) pb in
  Ok (PathVariable (map fst r.1) (map snd r.1), r.2).
Definition path_variable_constraints (g : path_variable) : seq (r1cs_constraint F) :=
  flatten [seq digest_variable_constraints F lr.1 ++ digest_variable_constraints F lr.2
          | lr <- zip (pv_left g) (pv_right g)].
(** [address & (1ul << (tree_depth-1-i))]; a shift by 64 or more is undefined
    behaviour. *)
Definition path_bit (tree_depth address i : nat) : outcome bool :=
  if (tree_depth - 1 - i < 64)%N then Ok (odd (address %/ 2 ^ (tree_depth - 1 - i))) else UB.
Definition path_variable_witness (g : path_variable) (address : nat) (path : seq (seq bool)) pb : outcome (protoboard F) :=
  let tree_depth := size (pv_left g) in
  assert! size path == tree_depth in
  ofold (fun pb i =>
    let! b := path_bit tree_depth address i in
    let! node := oget path i in
    if b then let! d := oget (pv_left g) i in digest_variable_witness d pb node
    else let! d := oget (pv_right g) i in digest_variable_witness d pb node) pb (iota 0 tree_depth).
Definition get_authentication_path (g : path_variable) (address : nat) pb : outcome (seq (seq bool)) :=
  let tree_depth := size (pv_left g) in
  omapm (fun i =>
    let! b := path_bit tree_depth address i in
    if b then let! d := oget (pv_left g) i in get_digest d pb
    else let! d := oget (pv_right g) i in get_digest d pb) (iota 0 tree_depth).

(** [i < tree_depth - 1 ? internal_output[i] : leaf] and
    [i == 0 ? root : internal_output[i-1]] *)
Definition level_input (tree_depth : nat) (internal : seq digest) (leaf : digest) (i : nat) : digest :=
  if (i < tree_depth - 1)%N then nth [::] internal i else leaf.
Definition level_output (internal : seq digest) (root : digest) (i : nat) : digest :=
  if i == 0%N then root else nth [::] internal (i - 1).
Definition new_digests pb (n : nat) : outcome (seq digest * protoboard F) :=
  new_all (fun (_ : nat) pb => Ok (digest_variable_new pb digest_len)) (iota 0 n) pb.
Definition hasher_new (path : path_variable) (output : digest) (i : nat) pb : outcome (hg_type HashT * protoboard F) :=
  let! l := oget (pv_left path) i in
  let! r := oget (pv_right path) i in
  let! inp := block_variable_pair l r in
  hg_new HashT pb (2 * digest_len) inp output.
Definition propagator (tree_depth : nat) (address_bits : pb_linear_combination_array F) (path : path_variable)
    (input : digest) (i : nat) : digest_selector :=
  DigestSelector digest_len input (lc_nth address_bits (tree_depth - 1 - i))
    (nth [::] (pv_left path) i) (nth [::] (pv_right path) i).

(** * merkle_tree_check_read_gadget *)
Record check_read := CheckRead {
  cr_hashers : seq (hg_type HashT);
  cr_propagators : seq digest_selector;
  cr_check_root : bit_vector_copy F }.
(** merkle_tree_check_read_gadget.tcc:19-77 *)
Definition check_read_new pb (tree_depth : nat) (address_bits : pb_linear_combination_array F) (leaf root : digest)
    (path : path_variable) (read_successful : pb_linear_combination F) : outcome (check_read * protoboard F) :=
  assert! (0 < tree_depth)%N in
  assert! tree_depth == size address_bits in
  let! ip := new_digests pb (tree_depth - 1) in
  let: (internal, pb) := ip in
  let: (computed_root, pb) := digest_variable_new pb digest_len in
  let! hp := new_all (fun i pb => hasher_new path (level_output internal computed_root i) i pb) (iota 0 tree_depth) pb in
  let propagators := [seq propagator tree_depth address_bits path (level_input tree_depth internal leaf i) i
                     | i <- iota 0 tree_depth] in
  let! cp := bit_vector_copy_new hp.2 computed_root root read_successful (capacity R) in
  Ok (CheckRead hp.1 propagators cp.1, cp.2).
(** merkle_tree_check_read_gadget.tcc:79-96 *)
Definition check_read_constraints (g : check_read) : seq (r1cs_constraint F) :=
  flatten [seq hg_constraints h false | h <- cr_hashers g] ++
  flatten [seq digest_selector_constraints p | p <- cr_propagators g] ++
  bit_vector_copy_constraints (cr_check_root g) false false.
(** merkle_tree_check_read_gadget.tcc:98-112 *)
Definition check_read_witness (g : check_read) pb : outcome (protoboard F) :=
  let! pb := ofold (fun pb ph => let! pb := digest_selector_witness ph.1 pb in hg_witness ph.2 pb) pb
               (rev (zip (cr_propagators g) (cr_hashers g))) in
  bit_vector_copy_witness (cr_check_root g) pb.
(** merkle_tree_check_read_gadget.tcc:120-130 *)
Definition check_read_expected (tree_depth : nat) : N :=
  (N.of_nat tree_depth * hg_expected HashT false + N.of_nat (tree_depth * digest_len)
   + N.of_nat (2 * tree_depth * digest_len) + N.of_nat (3 * div_ceil digest_len (capacity R)))%num.

(** * merkle_tree_check_update_gadget *)
(** The loops that handle the previous and the next path alternately: [(i, false)]
    is level [i] of the previous path, [(i, true)] of the next one. *)
Definition levels2 (tree_depth : nat) : seq (nat * bool) := [seq (i, b) | i <- iota 0 tree_depth, b <- [:: false; true]].
Record check_update := CheckUpdate {
  cu_depth : nat;
  cu_address_bits : pb_variable_array;
  cu_prev_path : path_variable; cu_next_path : path_variable;
  cu_hashers : seq (hg_type HashT);        (* prev_hashers and next_hashers, alternating *)
  cu_propagators : seq digest_selector;    (* prev_propagators and next_propagators, alternating *)
  cu_check_next_root : bit_vector_copy F }.
(** merkle_tree_check_update_gadget.tcc:18-78 *)
Definition check_update_new pb (tree_depth : nat) (address_bits : pb_variable_array)
    (prev_leaf prev_root : digest) (prev_path : path_variable)
    (next_leaf next_root : digest) (next_path : path_variable)
    (update_successful : pb_linear_combination F) : outcome (check_update * protoboard F) :=
  assert! (0 < tree_depth)%N in
  assert! tree_depth == size address_bits in
  let! ip := new_all (fun (_ : nat * bool) pb => Ok (digest_variable_new pb digest_len)) (levels2 (tree_depth - 1)) pb in
  let: (internals, pb) := ip in
  let internal b := [seq nth [::] internals (2 * i + b) | i <- iota 0 (tree_depth - 1)] in
  let: (computed_root, pb) := digest_variable_new pb digest_len in
  let path (b : bool) := if b then next_path else prev_path in
  let! hp := new_all (fun t pb => hasher_new (path t.2)
                        (level_output (internal t.2) (if t.2 then computed_root else prev_root) t.1) t.1 pb)
               (levels2 tree_depth) pb in
  let propagators := [seq propagator tree_depth (plcs_of_vars F address_bits) (path t.2)
                            (level_input tree_depth (internal t.2) (if t.2 then next_leaf else prev_leaf) t.1) t.1
                     | t <- levels2 tree_depth] in
  let! cp := bit_vector_copy_new hp.2 computed_root next_root update_successful (capacity R) in
  Ok (CheckUpdate tree_depth address_bits prev_path next_path hp.1 propagators cp.1, cp.2).
(** merkle_tree_check_update_gadget.tcc:97-111: the siblings of the two paths
    are equal. *)
Definition aux_check (g : check_update) (i j : nat) : r1cs_constraint F :=
  let bit (ds : seq digest) := nth 0%N (nth [::] ds i) j in
  let prev_left := bit (pv_left (cu_prev_path g)) in let prev_right := bit (pv_right (cu_prev_path g)) in
  let next_left := bit (pv_left (cu_next_path g)) in let next_right := bit (pv_right (cu_next_path g)) in
  R1csConstraint (vlc (nth 0%N (cu_address_bits g) (cu_depth g - 1 - i)))
    (lc_add (lc_sub (var_sub_lc prev_left (vlc next_left)) (vlc prev_right)) (vlc next_right))
    (var_sub_lc next_right (vlc prev_right)).
(** merkle_tree_check_update_gadget.tcc:80-127 *)
Definition check_update_constraints (g : check_update) : seq (r1cs_constraint F) :=
  flatten [seq hg_constraints th.2 th.1.2 | th <- zip (levels2 (cu_depth g)) (cu_hashers g)] ++
  flatten [seq digest_selector_constraints p | p <- cu_propagators g] ++
  [seq aux_check g i j | i <- iota 0 (cu_depth g), j <- iota 0 digest_len] ++
  bit_vector_copy_constraints (cu_check_next_root g) false false.
(** merkle_tree_check_update_gadget.tcc:129-155 *)
Definition copy_sibling (g : check_update) (i : nat) pb : outcome (protoboard F) :=
  let! a := oget (cu_address_bits g) (cu_depth g - 1 - i) in
  let! v := pb_val pb a in
  let: (source, target) := if v == 1 then (pv_left (cu_prev_path g), pv_left (cu_next_path g))
                           else (pv_right (cu_prev_path g), pv_right (cu_next_path g)) in
  let! d := get_digest (nth [::] source i) pb in
  digest_variable_witness (nth [::] target i) pb d.
Definition check_update_level_witness (g : check_update) pb (i : nat) : outcome (protoboard F) :=
  let! pb := copy_sibling g i pb in
  let! prev_prop := oget (cu_propagators g) (2 * i) in
  let! next_prop := oget (cu_propagators g) (2 * i).+1 in
  let! pb := digest_selector_witness prev_prop pb in
  let! pb := digest_selector_witness next_prop pb in
  let! prev_hasher := oget (cu_hashers g) (2 * i) in
  let! next_hasher := oget (cu_hashers g) (2 * i).+1 in
  let! pb := hg_witness prev_hasher pb in
  hg_witness next_hasher pb.
Definition check_update_witness (g : check_update) pb : outcome (protoboard F) :=
  let! pb := ofold (check_update_level_witness g) pb (rev (iota 0 (cu_depth g))) in
  bit_vector_copy_witness (cu_check_next_root g) pb.
(** merkle_tree_check_update_gadget.tcc:163-178 *)
Definition check_update_expected (tree_depth : nat) : N :=
  (N.of_nat tree_depth * hg_expected HashT false + N.of_nat tree_depth * hg_expected HashT true
   + N.of_nat (2 * tree_depth * digest_len) + N.of_nat (tree_depth * digest_len) + N.of_nat (tree_depth * digest_len)
   + N.of_nat (3 * div_ceil digest_len (capacity R)) + N.of_nat (tree_depth * digest_len))%num.

(** * set_membership_proof_variable, set_membership_proof_variable.tcc:14-49 *)
Record proof_variable := ProofVariable { sp_address_bits : pb_variable_array; sp_path : path_variable }.
Definition proof_variable_new pb (max_entries : nat) : outcome (proof_variable * protoboard F) :=
  let tree_depth := log2 max_entries in
  if (0 < tree_depth)%N
  then let: (address_bits, pb) := allocate_array pb tree_depth in
       let! pp := path_variable_new pb tree_depth in
       Ok (ProofVariable address_bits pp.1, pp.2)
  else Ok (ProofVariable [::] (PathVariable [::] [::]), pb).
Definition proof_variable_constraints (g : proof_variable) : seq (r1cs_constraint F) :=
  [seq boolean_constraint (lc_terms (plc_of_var F b)) | b <- sp_address_bits g] ++ path_variable_constraints (sp_path g).
(** [FieldT(proof.address)] *)
Definition proof_variable_witness (g : proof_variable) (proof : nat * seq (seq bool)) pb : outcome (protoboard F) :=
  if (0 < size (sp_address_bits g))%N
  then let! pb := fill_with_bits_of pb (sp_address_bits g) (as_bigint R (proof.1%:R)) in
       path_variable_witness (sp_path g) proof.1 proof.2 pb
  else Ok pb.

(** * set_commitment_gadget, set_commitment_gadget.tcc:14-67.
    [generate_r1cs_constraints] of the hasher is called with its default
    argument, [true] for both hashes. *)
Record set_gadget := SetGadget { sg_hash_element : hg_type HashT; sg_check : option check_read }.
Definition set_gadget_new pb (max_entries : nat) (element_bits : pb_variable_array) (root : digest)
    (proof : proof_variable) (check_successful : pb_linear_combination F) : outcome (set_gadget * protoboard F) :=
  let tree_depth := log2 max_entries in
  let element_block := block_variable_parts [:: element_bits] in
  if tree_depth == 0%N
  then let! hp := hg_new HashT pb (size element_bits) element_block root in Ok (SetGadget hp.1 None, hp.2)
  else let: (element_digest, pb) := digest_variable_new pb digest_len in
       let! hp := hg_new HashT pb (size element_bits) element_block element_digest in
       let! cp := check_read_new hp.2 tree_depth (plcs_of_vars F (sp_address_bits proof)) element_digest root
                    (sp_path proof) check_successful in
       Ok (SetGadget hp.1 (Some cp.1), cp.2).
Definition set_gadget_constraints (g : set_gadget) : seq (r1cs_constraint F) :=
  hg_constraints (sg_hash_element g) true ++
  (if sg_check g is Some c then check_read_constraints c else [::]).
Definition set_gadget_witness (g : set_gadget) pb : outcome (protoboard F) :=
  let! pb := hg_witness (sg_hash_element g) pb in
  if sg_check g is Some c then check_read_witness c pb else Ok pb.
End MerkleGadget.
