(** Model of libsnark/gadgetlib1/gadgets/hashes/knapsack/knapsack_gadget.{hpp,tcc}.

    - [knapsack_dimension<FieldT>::dimension] is the parameter [dimension].
    - [libff::SHA512_rng<FieldT>(i)] (not in /repo) is the parameter [rng].
    - The static vector [knapsack_coefficients] (with [num_cached_coefficients],
      its size) is an explicit argument [cache] of the functions that read or
      extend it. *)
From Coq Require Import NArith.
From mathcomp Require Import all_ssreflect all_algebra.
From Verif Require Import Outcome Lincomb R1CS Protoboard BasicGadgets Sha256Gadget.
Set Implicit Arguments.
Unset Strict Implicit.
Unset Printing Implicit Defensive.
Local Open Scope ring_scope.

(** libff (not in /repo): [FieldT::size_in_bits()] is the number of bits of the
    modulus, [FieldT::capacity()] one less. *)
Definition size_in_bits (F : fieldType) (R : bigint_repr F) : nat := num_bits (fp_order R).
Definition capacity (F : fieldType) (R : bigint_repr F) : nat := (size_in_bits R - 1)%N.

Section Knapsack.
Variable F : fieldType.
Variable R : bigint_repr F.
Variable dimension : nat.
Variable rng : nat -> F.
Implicit Types (pb : protoboard F) (cache : seq F).

(** knapsack_gadget.tcc:123-136 [sample_randomness]. *)
Definition sample_randomness cache (input_len : nat) : seq F :=
  let num_coefficients := (dimension * input_len)%N in
  if (num_coefficients > size cache)%N
  then cache ++ [seq rng i | i <- iota (size cache) (num_coefficients - size cache)]
  else cache.

(** [std::vector<FieldT>(c.begin() + n * i, c.begin() + n * (i+1))] *)
Definition nslice (T : Type) (c : seq T) (n i : nat) : seq T := take n (drop (n * i) c).

(** * knapsack_CRH_with_field_out_gadget, knapsack_gadget.hpp:62-92 *)
Record knapsack_field := KnapsackField {
  kf_input_len : nat; kf_block : pb_variable_array; kf_output : pb_linear_combination_array F }.
(** knapsack_gadget.tcc:27-45; the new contents of the cache are the last
    component. *)
Definition knapsack_field_new cache (input_len : nat) (block : pb_variable_array)
    (output : pb_linear_combination_array F) : outcome (knapsack_field * seq F) :=
  assert! size block == input_len in
  let cache := if (size cache < dimension * input_len)%N then sample_randomness cache input_len else cache in
  assert! size output == dimension in
  Ok (KnapsackField input_len block output, cache).
(** knapsack_gadget.tcc:47-58.  [pb_coeff_sum] asserts that there are as many
    coefficients as bits, which the constructor has ensured; the model writes 0
    otherwise. *)
Definition knapsack_row cache (g : knapsack_field) (i : nat) : linear_combination F :=
  if pb_coeff_sum (plcs_of_vars F (kf_block g)) (nslice cache (kf_input_len g) i) is Ok l then l else @lc_zero F.
Definition knapsack_field_constraints cache (g : knapsack_field) : seq (r1cs_constraint F) :=
  [seq R1csConstraint (lc_of_int F 1) (knapsack_row cache g i)
         (lc_terms (nth (plc_of_var F 0%N) (kf_output g) i)) | i <- iota 0 dimension].
(** knapsack_gadget.tcc:60-78 *)
Definition knapsack_sum cache (input_len i : nat) (input : seq bool) : F :=
  foldl (fun sum kb => if kb.2 then sum + nth 0 cache (input_len * i + kb.1) else sum) 0
    (zip (iota 0 input_len) input).
Definition knapsack_field_witness cache (g : knapsack_field) pb : outcome (protoboard F) :=
  let! input := get_bits pb (kf_block g) in
  ofold (fun pb i => let! l := oget (kf_output g) i in
                     pb_lc_set pb l (knapsack_sum cache (kf_input_len g) i input)) pb (iota 0 dimension).
(** knapsack_gadget.tcc:80-121 [get_digest_len], [get_hash] (with the new
    cache), [expected_constraints]. *)
Definition knapsack_field_get_hash cache (input : seq bool) : seq F * seq F :=
  let cache := if (size cache < dimension * size input)%N then sample_randomness cache (size input) else cache in
  ([seq knapsack_sum cache (size input) i input | i <- iota 0 dimension], cache).
Definition knapsack_field_expected_constraints : N := N.of_nat dimension.

(** * knapsack_CRH_with_bit_out_gadget, knapsack_gadget.hpp:96-128 *)
Record knapsack_bit := KnapsackBit {
  kb_output : pb_linear_combination_array F; kb_hasher : knapsack_field; kb_digest : pb_variable_array }.
(** knapsack_gadget.tcc:193-197 *)
Definition knapsack_digest_len : nat := (dimension * size_in_bits R)%N.
(** knapsack_gadget.tcc:138-161 *)
Definition knapsack_bit_new cache pb (input_len : nat) (block digest : pb_variable_array) :
    outcome (knapsack_bit * protoboard F * seq F) :=
  assert! size digest == knapsack_digest_len in
  let! op := new_all (fun i pb => Ok (lc_assign pb (pb_packing_sum (plcs_of_vars F (nslice digest (size_in_bits R) i)))))
               (iota 0 dimension) pb in
  let! hc := knapsack_field_new cache input_len block op.1 in
  Ok (KnapsackBit op.1 hc.1 digest, op.2, hc.2).
(** knapsack_gadget.tcc:164-176 *)
Definition knapsack_bit_constraints cache (g : knapsack_bit) (enforce_bitness : bool) : seq (r1cs_constraint F) :=
  knapsack_field_constraints cache (kb_hasher g) ++
  (if enforce_bitness then [seq boolean_constraint (lc_terms (plc_of_var F b)) | b <- kb_digest g] else [::]).
(** knapsack_gadget.tcc:178-191; [input] is read ([get_bits] asserts) but not
    used. *)
Definition knapsack_bit_witness cache (g : knapsack_bit) pb : outcome (protoboard F) :=
  let! pb := knapsack_field_witness cache (kb_hasher g) pb in
  let! input := get_bits pb (kf_block (kb_hasher g)) in
  ofold (fun pb i => let! l := oget (kb_output g) i in
                     let! v := pb_lc_val pb l in
                     fill_with_bits_of pb (nslice (kb_digest g) (size_in_bits R) i) (as_bigint R v)) pb (iota 0 dimension).
(** knapsack_gadget.tcc:205-218 [get_hash]; [libff::convert_field_element_to_bit_vector]
    (not in /repo) gives the [size_in_bits] lowest bits of the representative,
    lowest first. *)
Definition field_element_bits (a : F) : seq bool := [seq test_bit (as_bigint R a) i | i <- iota 0 (size_in_bits R)].
Definition knapsack_bit_get_hash cache (input : seq bool) : seq bool * seq F :=
  let: (elems, cache) := knapsack_field_get_hash cache input in (flatten (map field_element_bits elems), cache).
(** knapsack_gadget.tcc:220-226 *)
Definition knapsack_bit_expected_constraints (enforce_bitness : bool) : N :=
  N.of_nat (dimension + (if enforce_bitness then knapsack_digest_len else 0)%N).
End Knapsack.
