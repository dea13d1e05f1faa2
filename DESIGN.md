# Formal model of libsnark in Rocq (Coq 8.16.1)

The model lives in `rocq/theories`. Three kinds of files:

* **model files** hold definitions only, each with a comment citing the file and
  lines of `/repo` it models and any simplification (`Lincomb.v`, `R1CS.v`,
  `Circuits.v`, `ArithPrograms.v`, `Vectors.v`, the `*Ppzksnark.v` files,
  `MerkleTree.v`, `Protoboard.v`, `BasicGadgets.v`, `IntegerPermutation.v`,
  `Benes.v`, `AsWaksman.v`, `Sha256Gadget.v`, `Knapsack.v`, `MerkleGadget.v`,
  `FieldGadgets.v`, `Weierstrass.v`, `Memory.v`, `Tinyram.v`,
  `MemoryChecker.v`, `RoutingGadget.v`, ...);
* **specification files** state what the code should do without using the model's
  helpers (`LincombSpec.v`, `R1CSSpec.v`, `CircuitsSpec.v`, `ArithSpec.v`,
  `VectorsSpec.v`, `MerkleSpec.v`, `GadgetSpec.v`, `Sha256Spec.v` = FIPS 180-4,
  `ExtFieldSpec.v`, `CurveSpec.v`, ...);
* **property files** `Prop_*.v` hold the theorems `Cnn_*`, each with
  `Print Assumptions` and with `Example`s that show a concrete, non-trivial case
  meeting the hypotheses. All other files hold proofs.

`properties.jsonl` is generated by `tools/props.py`; `MANIFEST.json` by
`tools/manifest.py` from the theorem names and `tools/claims.json`.

## Trusted base

1. **Coq's kernel** (8.16.1), including `vm_compute` in examples.
2. **Axioms.** `Print Assumptions` answers *Closed under the global context* for
   every theorem in every `Prop_*.v` file. No axiom, of the standard library or of
   any other library, is used. There are no parameters outside sections; section
   variables become universally quantified hypotheses of the theorems.
3. **The transcription** of the C++ into Gallina, function by function, by reading.
   Each definition cites what it models.
4. **Contracts of code outside /repo.** `depends/` holds empty submodules, so libff
   and libfqfft are not part of the repository. Used by contract:
   * prime fields: any `fieldType` (`bigint_repr` where integer representatives
     matter: order, `as_bigint`, size in bits, capacity = size in bits - 1);
   * `libff::log2` = ceiling of the binary logarithm, `div_ceil`, `bigint` bit
     access, `convert_field_element_to_bit_vector`, `int_list_to_bits`,
     `find_wnaf` (digits are a parameter), `to_affine_coordinates`;
   * evaluation domains: distinct points, vanishing polynomial, Lagrange
     coefficients, FFT/iFFT/coset transforms as evaluation/interpolation (`Domain.v`);
   * pairing groups: modules over the scalar field with a bilinear map, with
     miller loop, double miller loop and final exponentiation composing to it
     (`Pairing.v`); `multi_exp`, `windowed_exp`, `batch_exp` = sums of multiples;
   * `SHA512_rng` (an arbitrary function) and the C++ standard library
     (`std::map` = `StdMap.v`, streams = character lists; libff's stream helpers, transcribed in `Serialization.v`).
5. **Random choices** (`FieldT::random_element()`) are parameters: theorems hold for
   every choice, and where the code can abort for some choices these are
   characterised or counted.

## Modelling conventions

* **Fields.** `FieldT` is an arbitrary mathcomp `fieldType`. Integer contents are
  given by a `bigint_repr`. Conditions on the characteristic or the order are
  hypotheses.
* **Undefined behaviour and assertions.** C++ functions that can read out of bounds
  or abort return `outcome A = Ok a | AssertFail | UB`. A theorem that says a
  function is safe says it returns `Ok`. Assertions are taken to be enabled.
* **Machine integers.** `size_t` is `nat`, except where the property concerns
  wrap-around (TinyRAM, memories: `N` with explicit `2^64` wrap, shifts by 64 or
  more undefined).
* **Protoboards.** `pb_linear_combination`s that alias protoboard slots are modelled
  with the slot number; a gadget's constructor maps a protoboard to a gadget and a
  protoboard; `generate_r1cs_constraints` is the list of constraints appended;
  `generate_r1cs_witness` maps a protoboard to a protoboard, `UB` on a read or write
  out of range.
* **Not modelled anywhere:** annotations, profiling output and printing;
  `MULTICORE` parallelism (the chunked loops are modelled, run in order); memory
  exhaustion; timing; the examples, tests and profiling programs.

## What is modelled, and how it is proved

| id | code | how |
|----|------|-----|
| C01 | `relations/variable.{hpp,tcc}` | induction on term lists and the merge |
| C02-C04 | `r1cs.{hpp,tcc}`, `uscs.{hpp,tcc}` | characterisation of `evaluate`; counting for the swap |
| C05 | `operator<<`/`>>` of `variable.tcc`, `r1cs.tcc`, `uscs.tcc`, `bacs.tcc`, `tbcs.cpp` | induction, with an arbitrary rest of the stream |
| C06, C07, C50 | `bacs`, `tbcs`, `bacs_to_r1cs`, `tbcs_to_uscs` | induction on gates; case analysis on gate types |
| C08-C12 | `qap`, `sap`, `ssp`, `r1cs_to_qap`, `r1cs_to_sap`, `uscs_to_ssp` | polynomial identities, root counting |
| C13-C18, C51 | `r1cs_ppzksnark`, `r1cs_gg_ppzksnark`, `r1cs_se_ppzksnark`, `uscs_ppzksnark`, `bacs_ppzksnark`, `tbcs_ppzksnark`: generator, prover, all verifiers | exponent algebra; simulators for zero knowledge |
| C19 | `knowledge_commitment`, `kc_multiexp` | induction on chunks |
| C20, C21 | `sparse_vector`, `accumulation_vector` | induction on sorted lists |
| C22-C24, C52 | `merkle_tree`, `set_commitment` | representation invariant over histories; binding up to an explicit collision |
| C25-C27 | `integer_permutation`, Benes and AS-Waksman routing algorithms | induction on the network recursion, cycles of the constraint graph |
| C28 | `protoboard`, `pb_variable` | histories compared with a reference |
| C29-C32, C44 | `basic_gadgets`, `gadget_from_r1cs` | constraint semantics; witness generators run symbolically |
| C33 | `sha256_aux`, `sha256_components`, `sha256_gadget`, `hash_io` | per-component soundness and completeness, composed over 64 rounds; constraint counts |
| C34, C35, C43, C48 | `digest_selector`, Merkle path/read/update gadgets, `knapsack_gadget`, `set_commitment_gadget` | induction on depth |
| C36 | both routing gadgets | column induction (soundness); a target valuation towards which every step of the witness generator moves (completeness) |
| C37 | `ra_memory`, `delegated_ra_memory`, `memory_store_trace` | invariants over histories |
| C38 | `tinyram_aux` (encoding, initial memory, boot trace, initial state) | arithmetic on `N` |
| C39 | TinyRAM word-level ALU gadgets: constructors, constraints and witnesses of the arithmetic, comparison, division, shift and jump gadgets (Alu.v) | constraint semantics over all assignments, with words as bit lists (AluSpec.v); integer lemmas for the signed product; explicit bad assignments for the refuted parts; witness generators run symbolically (Prop_AluWitness.v) |
| C40 | `trace_lines`, `memory_checker_gadget`, the permutation part of `ram_universal_gadget` | permutation argument |
| C41 | `fp2`/`fp3`/`fp4`/`fp6` gadgets, `exponentiation_gadget` | field identities in F[X]/(X^k - nr); Frobenius |
| C42 | `weierstrass_g1`/`g2` gadgets | affine group law |
| C45 | `compliance_predicate`, `cp_handler`, `r1cs_pcd_params` | list algebra over the wire layout, induction on messages |
| C46 | `r1cs_ppzkadsnark` (signatures and PRF abstract) | algebra in the exponent, as C13 |
| C47 | `gadgetlib2`: `FElem`, `LinearCombination`, `Monomial`, `Polynomial`, `Constraint`, `Protoboard`, `adapters`/`integration`, the gadgets of `gadget.cpp` (R1P versions) | valuation semantics; induction on terms; field algebra; conversion by summation |
| C53 | `argument_decoder_gadget`, `consistency_enforcer_gadget` (TinyramCpu.v) | constraint semantics; the multiplexer's indicator variables; sums over a one-hot vector |
| C54 | `fooram_cpu_checker`, `bar_gadget` (Fooram.v) | constraint semantics; no wrap-around in the field since 3w bits fit |
| C55 | `memory_masking_gadget` and the constraints on memory of `tinyram_cpu_checker` (MemoryMask.v) | one-hot indicators, then arithmetic on slices of the double word; for the refutation, a satisfying assignment is changed in the free variables |
| C56 | instruction fields, opcode indicators, acceptance and tapes of `tinyram_cpu_checker` (TinyramTop.v) | one-hot indicators; case analysis of the products |
| C49 | `operator<<`/`>>` of keys, proofs, commitments | as C05 |

Not modelled: text formats of TinyRAM programs and tapes, the assembly of the whole
TinyRAM CPU checker (its parts are modelled one by one, not their wiring), the pairing
check gadgets (`gadgets/pairing`), the verifier gadgets (`gadgets/verifiers`), the
RAM zkSNARK/ppzkSNARK wrappers (`zk_proof_systems/zksnark`,
`ppzksnark/ram_ppzksnark`), the native part of `fooram`, and the PCD
systems. Soundness and knowledge extraction of the proof systems are computational
statements and are outside the model; what is proved instead is the exact verdict of
the verifiers on arbitrary proofs in terms of the exponents, and the soundness of the
reductions.

## Findings

Where the faithful model violates what a user would expect, the theorem carries the
suffix `_refuted` and the exact behaviour is proved beside it.

* **C03** `linear_combination::is_valid` rejects the top index and dereferences the
  end of an empty vector (`variable.tcc`).
* **C07** TBCS wires are not forced boolean for every gate; soundness fails in
  characteristic 3. **C50** `tbcs_circuit::depth` reads out of bounds.
* **C14, C16** The honest Groth16 prover and the USCS generator abort on some valid
  instances (exact condition proved).
* **C18** Short inputs are zero-extended by two verifiers and crash the other two.
* **C20** `sparse_vector::is_valid` and equality with a dense vector are wrong;
  accumulation across an index gap drops entries.
* **C22** Address `2^depth` is accepted by a Merkle tree. **C23** The vector
  constructor computes a wrong tree unless the tree is full. **C24** A set-commitment
  accumulator accepts more elements than it has leaves.
* **C26** `valid_benes_routing` accepts some routings that misdeliver packet 0.
  **C27** One packet makes the routing function read an empty vector.
* **C29-C32** Packing is not unique beyond the capacity; disjunction fails with as
  many inputs as the characteristic; `loose_multiplexing_gadget` does not force its
  success flag.
* **C33** `sha256_two_to_one_hash_gadget` hashes one block without the padding of
  FIPS 180-4: it is the compression function, not SHA-256 of the 512 bits.
* **C34, C43** Knapsack digests in bits are not unique (bits are not forced to be the
  canonical representative); with two or more rows the read gadget accepts a root
  that is no digest.
* **C36** Routing gadgets with repeated packets: an output can carry any value
  (AS-Waksman with packets in one field element; Benes always, because each packet
  has its own switch bit). An empty packet reads an empty switch-bit vector.
* **C37** Plain memory does not check writes; delegated memory truncates values and
  accepts addresses up to the next power of two; its vector constructor is ill-formed
  C++. **C38** Boot-trace bounds wrap, tape and program can overlap, small words
  truncate.
* **C40** The memory checker never compares timestamps of consecutive lines, so loads
  can return any value; the initial CPU state is not constrained; traces with a single
  address are rejected.
* **C41** `exponentiation_gadget` with base 0 or power 0; `Fp6_mul_by_2345_gadget`
  computes something else. **C42** Multiscalar multiplication: exceptional cases of
  the addition law, and no scalar bits. `weierstrass_g1_gadget.tcc:262-271` passes too
  few arguments to `FMT`.
* **C45** A handler's witness generation does not check the arity and reads beyond its
  message variables. (`compliance_predicate.tcc:217-223` applies `.` to shared pointers:
  with assertions enabled, instantiating `is_satisfied` is ill-formed.)
* **C46** No verifier checks the number of labels against the key; a build with DEBUG
  asserts that the input part of the A-query is zero, which it is not.
* **C39** `ALU_divmod_gadget` range-checks neither quotient nor remainder: for words of two
  bits over the field of order 17 it accepts 1/1 = 2 (with remainder -1) and 1 mod 2 = 0
  (with quotient 1/2), and its flags are in no constraint (`C39_udiv_refuted`,
  `C39_umod_refuted`, `C39_divmod_flags_refuted`). `ALU_shr_shl_gadget` adds the constraint
  for `shr_result` twice and none for `shl_result`, so any result of a left shift is
  accepted (`C39_shl_refuted`); step `i` of its barrel shifter shifts by `i+1` places
  instead of 2^i, so 8 >> 4 can come out as 1 (`C39_shr_refuted`). `ALU_smul_gadget`
  shifts `1ul` by w+1 places, undefined from w = 63 on (`C39_smulh_defined`).
* **C47** In gadgetlib2 an `FElem` that holds an integer is compared with integers, so a
  constraint satisfied modulo p but not over the integers is reported as unsatisfied
  (`C47_small_field_refuted`); arithmetic on integer constants is that of `long` and its
  overflow is undefined (`C47_overflow_refuted`). The witness of the implication gadget
  leaves the flag unassigned when the condition is 0
  (`C47_implication_unassigned_refuted`). The witness of the loose multiplexer looks at the
  low 64 bits of the index (`C47_mux_index_refuted`). `setValuesAsBitArray` shifts `1u` by
  32 or more for values of 2^32 and above (`C47_set_bits_refuted`), and
  `setMultipackedWordValue` writes the value minus 2^64 when the top bit is set
  (`C47_set_packed`). The AND gadget converts the number of inputs to `int`, so its
  theorems ask for fewer than 2^31 inputs; the bound on array sizes uses the low 64 bits
  of p - 1. A converted system never has public inputs (`C47_conversion_shape`). `long` is
  taken to have 64 bits.
* **C49** The SE proving key is written with four group elements back to back: with a
  text format whose elements end in a number, two keys are written alike.
* **C55** `tinyram_cpu_checker` never generates the packing constraints of `desval`,
  `arg1val` and `arg2val` (only their witnesses, at lines 250-252). The bits of `desval`
  occur in one constraint only, the one for store.b, so a prover can store any byte
  whatever the register holds. The bits of `arg2val` give the address of a memory access
  and are equally free of its packed value; that consequence is noted, not proved.

## Testing the theorems

`seeded/LOG.jsonl` lists edits of the model, each a realistic bug, with the theorems
that stopped proving and those that were tightened because they did not.
