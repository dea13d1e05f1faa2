{
 "C01": [
  "proved",
  "All operators and constructors; UB outside the range is also characterised."
 ],
 "C02": [
  "proved",
  "R1CS and USCS."
 ],
 "C03": [
  "proved",
  "The stated ideal is refuted (C03_is_valid_refuted, C03_r1cs_is_valid_refuted); the exact behaviour is C03_is_valid_exact."
 ],
 "C04": [
  "proved",
  ""
 ],
 "C06": [
  "proved",
  ""
 ],
 "C07": [
  "proved",
  "Soundness for characteristic other than 2,3,5,7. That every wire is forced boolean, and soundness in characteristic 3, are refuted."
 ],
 "C08": [
  "proved",
  "For every evaluation domain with at least the requested number of points; libfqfft transforms are modelled by their mathematical meaning (Domain.v)."
 ],
 "C09": [
  "proved",
  "Divisibility iff satisfaction, and at most 2m accepting points for any adversarial witness."
 ],
 "C10": [
  "proved",
  "For QAP, SAP and SSP."
 ],
 "C11": [
  "proved",
  "Completeness in every characteristic; soundness for characteristic other than 2."
 ],
 "C12": [
  "proved",
  "Nonempty domain."
 ],
 "C13": [
  "proved",
  "For every bilinear group and evaluation domain satisfying the contracts of Pairing.v and Domain.v. Also: how often the generator can abort, and the exact verdict on arbitrary proofs under honest keys."
 ],
 "C14": [
  "proved",
  "For every bilinear group and evaluation domain satisfying the contracts of Pairing.v and Domain.v. The exact abort condition of the honest prover, and an instance on which it always aborts."
 ],
 "C15": [
  "proved",
  "For every bilinear group and evaluation domain satisfying the contracts of Pairing.v and Domain.v."
 ],
 "C16": [
  "proved",
  "For every bilinear group and evaluation domain satisfying the contracts of Pairing.v and Domain.v. The generator aborts for every randomness when an input occurs in no constraint; otherwise for a bounded number of points."
 ],
 "C17": [
  "proved",
  "For every bilinear group and evaluation domain satisfying the contracts of Pairing.v and Domain.v."
 ],
 "C18": [
  "proved",
  "Arbitrary keys and proofs. Shorter inputs are zero-extended by the R1CS and Groth16 verifiers; for the SE and USCS verifiers this is refuted (C18_short_input_refuted)."
 ],
 "C19": [
  "proved",
  "libff's windowed_exp and multi_exp are taken by contract. Non-trivial example: three chunks."
 ],
 "C20": [
  "proved",
  "operator[], sparse equality and gap-free accumulation proved; is_valid, equality with a dense vector and accumulation across an index gap refuted with their exact behaviour."
 ],
 "C21": [
  "proved",
  "general sparse rests without gap, and the dense query vectors used by the verifiers."
 ],
 "C22": [
  "proved",
  "The refusal of address 2^depth is refuted (C22_merkle_boundary_refuted)."
 ],
 "C23": [
  "proved",
  "Map constructor equal to repeated writes; vector constructor refuted (values and root), its root is right for a full tree."
 ],
 "C24": [
  "proved",
  "Overflow refuted (C24_set_overflow_refuted)."
 ],
 "C25": [
  "proved",
  "next_permutation is a call of std::next_permutation and is not modelled"
 ],
 "C26": [
  "proved",
  "the sentence that the validity check is exact for every routing is refuted by C26_validity_check_exact_refuted; everything else is proved for every dimension"
 ],
 "C27": [
  "proved",
  "Unbounded n. The validity check is characterised on routings with an entry for each switch and no other; entries at wires are outside the statement. A single packet makes the routing function read routing[0] of an empty vector (reported as undefined behaviour)."
 ],
 "C28": [
  "proved",
  ""
 ],
 "C29": [
  "proved",
  "The last sentence of the statement (uniqueness is lost beyond the capacity) is the _refuted theorem."
 ],
 "C30": [
  "proved",
  "The last sentence of the statement (failure with as many inputs as the characteristic) is the _refuted theorem."
 ],
 "C31": [
  "proved",
  ""
 ],
 "C32": [
  "proved",
  "The _refuted theorem records that the multiplexer does not force its success flag to 1 for an index in range."
 ],
 "C33": [
  "proved",
  "Against an independent transcription of FIPS 180-4 (Sha256Spec.v, checked on the standard test vector). Field order at least 2^35. Completeness of the two-to-one gadget assumes that the value slots of the initial value, filled by the constructor, are not overwritten."
 ],
 "C34": [
  "proved",
  "For the SHA-256 two-to-one gadget (field order at least 2^35) and the knapsack gadget; the hash parameter is a record of the operations the template uses. C34_read_knapsack_refuted: with a two-row knapsack a satisfying assignment exists whose root is no digest of the block (finding)."
 ],
 "C35": [
  "proved",
  "Soundness for both hashes (any knapsack dimension), and its consequence for trees with SHA-256 with collisions made explicit; witness generation is exercised in an example only."
 ],
 "C37": [
  "proved",
  "The constructor of the delegated memory from a vector is ill-formed C++ (it can never be instantiated) and is not modelled. The _refuted theorems are findings included in the statement."
 ],
 "C38": [
  "proved",
  "The text formats (load_preprocessed_program, load_tape) are not modelled. int_list_to_bits is external. The _refuted theorems are findings included in the statement."
 ],
 "C41": [
  "proved",
  "The side conditions (2, 3, 5 and the non-residue non-zero in the field, where the formulas divide by them) are hypotheses. C41_exponentiation_zero_base_refuted, C41_exponentiation_power_zero and C41_fp6_mul_by_2345(_refuted) are findings. libff's find_wnaf is outside the repository: the digits are a parameter."
 ],
 "C42": [
  "proved",
  "Characteristic not 2 (and not 3, non-residue non-zero, over Fp3), as the formulas divide by these. C42_multiscalar_zero_scalar_refuted and C42_multiscalar_no_bits are findings."
 ],
 "C43": [
  "proved",
  "All dimensions, with the static table of coefficients as explicit state. C43_digest_unique_refuted records that the bit digest is not unique (finding)."
 ],
 "C44": [
  "proved",
  ""
 ],
 "C48": [
  "proved",
  "Both hashes (knapsack soundness with one row); C48_accumulator_sha256 composes with the model of the accumulator (C24). Membership at depth 0 ignores check_successful, as in the code."
 ],
 "C50": [
  "proved",
  "BACS depth characterised; TBCS depth refuted (out-of-bounds read)."
 ],
 "C51": [
  "proved",
  "For every bilinear group and evaluation domain satisfying the contracts of Pairing.v and Domain.v. Soundness and knowledge extraction are computational and outside the model."
 ],
 "C52": [
  "proved",
  ""
 ],
 "C40": [
  "proved",
  "Checker sound and complete; honest permutation; soundness of the checks given the time order. C40_any_load_refuted, C40_consistency_refuted: the time order is not enforced, so loads can return any value (DESIGN.md, findings). C40_one_address_refuted: incompleteness for one-address traces."
 ],
 "C36": [
  "proved",
  "Both networks: constructor, soundness, witness generation. AS-Waksman packets of more than one field element need no distinctness. With repeated packets the outputs are refuted to be a permutation: AS-Waksman for packets of one field element, Benes for packets of any size."
 ],
 "C05": [
  "proved",
  "Formats of field elements are a parameter: all that is assumed is that an element reads back, in text mode when white space follows."
 ],
 "C49": [
  "proved",
  "Group-element formats are a parameter as in C05. The SE proving key needs elements that read back whatever follows; without that it is refuted."
 ],
 "C45": [
  "proved",
  "Message and local-data classes enter through their vectors of field elements; derived handler constructors are modelled in the documented allocation order. The PCD proof systems built on top are not modelled."
 ],
 "C46": [
  "proved",
  "Signatures and the pseudorandom function enter through their interface and the correctness of honest signatures. Of the DEBUG-only assertions only the failing one is modelled."
 ],
 "C47": [
  "proved",
  "Values, constraints, conversion to R1CS, and soundness and completeness of the gadgets are for every field (with the stated bound on the characteristic where integers are compared). Sentences marked refuted in the property are the *_refuted theorems."
 ],
 "C39": [
  "proved",
  "Soundness for every ALU gadget but the division and shift ones is full: and, or, xor, not, add, sub, mov, cmov, cmpe/cmpa/cmpae, cmpg/cmpge, mull/umulh, smulh, jmp, cjmp, cnjmp. udiv/umod are right only when quotient and remainder are known to be words, and shr only for shifts by at most 3 or oversized ones; beyond that the property is false of the code (C39_udiv_refuted, C39_umod_refuted, C39_divmod_flags_refuted, C39_shr_refuted, C39_shl_refuted). Witness generation satisfies the constraints of every gadget (the C39_*_complete theorems), smulh for words below 63 bits, where its constraints are defined."
 ],
 "C53": [
  "proved",
  "The register indices of the decoder are constrained to be binary; for the enforcer they are a hypothesis (it packs them without checking, relying on the decoder), discharged in C53_registers."
 ],
 "C54": [
  "proved",
  "The words are hypotheses: the checker packs its inputs and outputs without checking that they are bits."
 ],
 "C55": [
  "proved",
  "The last sentence is a refutation, proved for the constraints of the CPU checker in which the subcontents, the low bits of the destination's value or the double word after occur, together with any further constraints that do not mention them; that no other constraint of the checker mentions them is read off the code."
 ],
 "C56": [
  "proved",
  "The bits of the instruction and the opcode are hypotheses: they are the memory's double word. Acceptance and tapes speak of the packed value of the second argument."
 ]
}
