import json
P=[]
def p(id,title,statement,quant,why,anchors):
    P.append(dict(id=id,title=title,statement=statement,quantifier=quant,why_tests_cant=why,anchors=anchors))
L="libsnark/"
p("C01","Linear-combination arithmetic commutes with evaluation",
 "For linear combinations a, b, a scalar c and an assignment long enough for every index they mention, evaluating a+b, a-b, -a, c*a, variable+lc, or the combination built from any (unsorted, repeating) vector of terms gives the sum, difference, negation, product of the separate evaluations. Building or adding never makes an in-range evaluation go out of range.",
 "all fields, all linear combinations (sorted or not, with duplicates, with index 0), all assignments",
 "A test fixes a handful of combinations; the merge in operator+ and the sort-and-merge constructor have branch structure depending on the interleaving of indices, so correctness must be shown for every pair of term lists.",
 [L+"relations/variable.hpp:linear_combination",L+"relations/variable.tcc:linear_combination<FieldT>::operator+, evaluate, linear_combination(const std::vector<linear_term>&)"])
p("C02","R1CS satisfaction check decides exactly the mathematical relation",
 "For a constraint system whose indices are in range and inputs of the declared sizes, is_satisfied returns true iff for every constraint <a,(1,x,w)>*<b,(1,x,w)> = <c,(1,x,w)>, it reads no element outside the assignment; with inputs of any other size it aborts on an assertion rather than returning a verdict.",
 "all constraint systems, all primary/auxiliary inputs",
 "is_satisfied is the oracle against which every other component is tested; testing it only against itself says nothing about constraint systems that were not tried.",
 [L+"relations/constraint_satisfaction_problems/r1cs/r1cs.tcc:is_satisfied, add_constraint, swap_AB_if_beneficial",L+"relations/variable.tcc:evaluate"])
p("C03","Validity check of linear combinations and constraint systems",
 "is_valid(n) returns true iff the term indices are strictly increasing and every index refers to the constant one or to a variable 1..n, and it never reads outside the term vector. (The code rejects the legal top index n and dereferences the end of an empty vector: shown as a refutation, with the exact behaviour characterised.)",
 "all linear combinations and all n",
 "The off-by-one is only visible for combinations that use the last variable, and the empty-vector read is undefined behaviour that tests may survive silently.",
 [L+"relations/variable.tcc:linear_combination<FieldT>::is_valid",L+"relations/constraint_satisfaction_problems/r1cs/r1cs.tcc:r1cs_constraint_system<FieldT>::is_valid"])
p("C04","Swapping A and B preserves the constraint system's meaning",
 "swap_AB_if_beneficial keeps the number of inputs, variables and constraints, and the resulting system accepts exactly the same primary/auxiliary inputs; it swaps exactly when strictly more variables are touched by the B side than by the A side, so afterwards the B side touches no more variables than the A side.",
 "all in-range constraint systems and all assignments",
 "Every SNARK generator calls it before computing the keys; if it changed satisfaction for some system, proofs for that system would be worthless.",
 [L+"relations/constraint_satisfaction_problems/r1cs/r1cs.tcc:swap_AB_if_beneficial"])
p("C05","Constraint-system serialization round-trips",
 "Reading back what operator<< wrote for linear combinations, R1CS and USCS constraint systems, BACS and TBCS circuits yields the same value and consumes exactly what was written, in text and in binary mode, so that values can be concatenated in one stream; no two values are written alike.",
 "all linear combinations / constraint systems, any following stream contents",
 "Separators and counts interact with all sizes including empty vectors; a parser can be right for the tried sizes only.",
 [L+"relations/variable.tcc:operator<<, operator>>",L+"relations/constraint_satisfaction_problems/r1cs/r1cs.tcc:operator<<, operator>>",L+"relations/constraint_satisfaction_problems/uscs/uscs.tcc:operator<<, operator>>"])
p("C06","BACS to R1CS is complete and sound",
 "For a well-formed bilinear arithmetic circuit and inputs of the declared sizes, the witness produced by the witness map satisfies the R1CS instance iff the circuit accepts (every output gate evaluates to zero), and conversely any R1CS-satisfying auxiliary input determines a circuit witness that is accepted.",
 "all circuits, all primary and auxiliary inputs",
 "Soundness quantifies over all possible (malicious) assignments of the gate wires.",
 [L+"reductions/bacs_to_r1cs/bacs_to_r1cs.tcc",L+"relations/circuit_satisfaction_problems/bacs/bacs.tcc"])
p("C07","TBCS to USCS is complete and sound for satisfiability",
 "For a well-formed two-input boolean circuit over a field of characteristic not in {2,3,5,7}, a satisfying boolean input extends through the witness map to a USCS-satisfying assignment, and every USCS-satisfying assignment of a circuit with at least one gate restricted to the inputs is boolean and makes the circuit accept. (That every wire is forced to be boolean by a constraint of its own is refuted: the last wire is not.)",
 "all circuits with any of the 16 gate types, all assignments",
 "Soundness is over all field assignments; the encoding uses small integer coefficients whose correctness depends on the characteristic.",
 [L+"reductions/tbcs_to_uscs/tbcs_to_uscs.tcc",L+"relations/circuit_satisfaction_problems/tbcs/tbcs.cpp"])
p("C08","R1CS to QAP is complete for every choice of blinding",
 "If the inputs satisfy the R1CS then the witness map returns a QAP witness whose H is a polynomial of the declared degree, and QAP is_satisfied accepts it at every evaluation point t outside the domain handling, for every choice of d1,d2,d3.",
 "all R1CS, all satisfying inputs, all d1,d2,d3, all t",
 "The equation is an identity of polynomials whose number of coefficients grows with the system; zero-knowledge relies on it for every d.",
 [L+"reductions/r1cs_to_qap/r1cs_to_qap.tcc:r1cs_to_qap_witness_map, r1cs_to_qap_instance_map",L+"relations/arithmetic_programs/qap/qap.tcc"])
p("C09","R1CS to QAP is sound",
 "If inputs do not satisfy the R1CS then, for whatever d1,d2,d3 and H of the declared length a prover supplies, the QAP divisibility check can be accepted at no more than 2m of the evaluation points t; in particular divisibility as polynomials holds iff the R1CS is satisfied.",
 "all R1CS, all non-satisfying inputs, all adversarial witnesses",
 "It is a statement about all polynomials an adversary may choose and about a count of bad points in a huge field.",
 [L+"reductions/r1cs_to_qap/r1cs_to_qap.tcc",L+"relations/arithmetic_programs/qap/qap.tcc:is_satisfied"])
p("C10","QAP/SAP/SSP instances evaluated at t agree with the instance",
 "The instance map with evaluation at t yields for every variable the value at t of the polynomial whose values on the domain are the sparse rows produced by the plain instance map; both accept the same witnesses at t.",
 "all constraint systems and all t",
 "Generators use one map and provers the other; disagreement on one index for one shape of system breaks only that system.",
 [L+"reductions/r1cs_to_qap/r1cs_to_qap.tcc:r1cs_to_qap_instance_map_with_evaluation",L+"reductions/r1cs_to_sap/r1cs_to_sap.tcc",L+"reductions/uscs_to_ssp/uscs_to_ssp.tcc"])
p("C11","R1CS to SAP is complete and sound",
 "In a field of characteristic other than 2, the SAP produced from an R1CS has a satisfying extension exactly when the R1CS is satisfied, and the witness map's output passes SAP is_satisfied for all d1,d2 and all t.",
 "all R1CS, all inputs, all blinding values, all evaluation points",
 "Squaring trick introduces extra variables and rows whose bookkeeping must be right for every constraint and input.",
 [L+"reductions/r1cs_to_sap/r1cs_to_sap.tcc",L+"relations/arithmetic_programs/sap/sap.tcc"])
p("C12","USCS to SSP is complete and sound",
 "The SSP witness map's output passes SSP is_satisfied for every satisfying USCS input, every d and every t; and divisibility of V^2-1 by Z holds iff all USCS constraints hold.",
 "all USCS, all inputs, all d, all t",
 "Same reason as C08/C09; also the padded rows must be satisfied for every domain size.",
 [L+"reductions/uscs_to_ssp/uscs_to_ssp.tcc",L+"relations/arithmetic_programs/ssp/ssp.tcc"])
p("C13","R1CS ppzkSNARK completeness",
 "A proof produced by the prover from honestly generated keys and a satisfying input is accepted by the verifier, for every outcome of the generator's and prover's randomness for which the generator does not abort.",
 "all R1CS, satisfying inputs, all random choices",
 "Completeness is for all randomness and all systems; a test samples a few.",
 [L+"zk_proof_systems/ppzksnark/r1cs_ppzksnark/r1cs_ppzksnark.tcc"])
p("C14","Groth16 (gg) ppzkSNARK completeness",
 "A proof produced from honest keys and a satisfying input is accepted. The prover's internal assertion that the top coefficient of H is non-zero is not implied by satisfaction: there are systems with satisfying inputs on which the honest prover aborts for every randomness (refutation).",
 "all R1CS, satisfying inputs, all random choices",
 "Randomised tests virtually never produce an H whose top coefficient vanishes, structured systems do.",
 [L+"zk_proof_systems/ppzksnark/r1cs_gg_ppzksnark/r1cs_gg_ppzksnark.tcc"])
p("C15","Simulation-extractable ppzkSNARK completeness",
 "A proof produced from honest keys and a satisfying input passes both pairing tests of the verifier, for every t with Z(t) != 0 and every other random choice.",
 "all R1CS, satisfying inputs, all random choices",
 "As C13.",
 [L+"zk_proof_systems/ppzksnark/r1cs_se_ppzksnark/r1cs_se_ppzksnark.tcc"])
p("C16","USCS ppzkSNARK completeness",
 "A proof produced from honest keys and a satisfying input is accepted. The generator's assertion that the input polynomials are non-zero at t fails for every t when an input occurs in no constraint (refutation).",
 "all USCS, satisfying inputs, all random choices",
 "As C13; the generator abort depends on the shape of the system only.",
 [L+"zk_proof_systems/ppzksnark/uscs_ppzksnark/uscs_ppzksnark.tcc"])
p("C17","Circuit ppzkSNARKs compose reductions and SNARKs correctly",
 "For BACS and TBCS, a proof made from a satisfying circuit input is accepted by the circuit verifier given the circuit's primary input.",
 "all circuits, satisfying inputs, randomness",
 "As C06/C07 and C13/C16 composed.",
 [L+"zk_proof_systems/ppzksnark/bacs_ppzksnark/bacs_ppzksnark.tcc",L+"zk_proof_systems/ppzksnark/tbcs_ppzksnark/tbcs_ppzksnark.tcc"])
p("C18","Weak, strong, online and offline verification agree as documented",
 "Strong input consistency accepts only inputs of exactly the declared length and then agrees with the weak verifier; the weak verifier's verdict is the conjunction of well-formedness and the published pairing equations, and for the two main R1CS schemes it treats a shorter input as its zero-extension (for the simulation-extractable scheme a shorter input is an out-of-bounds read and for the USCS scheme an abort: refutation); the affine verifiers agree with the weak one up to the well-formedness test that r1cs_ppzksnark's omits; online verification with a processed key equals offline verification.",
 "all keys, proofs (honest or not) and inputs",
 "Quantifies over arbitrary, adversarial proofs and input lengths.",
 [L+"zk_proof_systems/ppzksnark/r1cs_gg_ppzksnark/r1cs_gg_ppzksnark.tcc",L+"zk_proof_systems/ppzksnark/r1cs_ppzksnark/r1cs_ppzksnark.tcc",L+"zk_proof_systems/ppzksnark/r1cs_se_ppzksnark/r1cs_se_ppzksnark.tcc",L+"zk_proof_systems/ppzksnark/uscs_ppzksnark/uscs_ppzksnark.tcc"])
p("C19","Batched knowledge-commitment computations do not depend on chunking",
 "kc_batch_exp returns for every index i the commitment (t1*c1*v[i], t2*c2*v[i]) exactly for the non-zero v[i], whatever the suggested number of chunks; kc_multi_exp_with_mixed_addition equals the sum over the index range of coefficient times commitment.",
 "all vectors, all chunk counts, all sparse vectors",
 "Depends on how chunk boundaries fall relative to zero entries.",
 [L+"knowledge_commitment/kc_multiexp.tcc"])
p("C20","Sparse vectors behave as finite maps",
 "operator[] returns the stored value or zero; equality between sparse vectors holds iff they denote the same function; accumulation of a range returns the inner product with the range plus the untouched entries. (Equality with a dense vector, is_valid, and accumulation across an index gap are refuted, with exact behaviour.)",
 "all sparse vectors with strictly increasing indices, all ranges",
 "Bugs appear only for particular gap patterns.",
 [L+"common/data_structures/sparse_vector.tcc"])
p("C21","Accumulation vectors accumulate independent of chunking",
 "Accumulating an input in consecutive chunks, in any split, gives the same accumulated value as accumulating at once: first plus the inner product with the input; the accumulation is complete iff every entry was consumed.",
 "all query vectors, all splits",
 "Number of splits is exponential.",
 [L+"common/data_structures/accumulation_vector.tcc",L+"common/data_structures/sparse_vector.tcc:accumulate"])
p("C22","Merkle tree: reads, writes, roots and paths over any history",
 "After any sequence of writes at in-range addresses, get_value returns the last written value or zeros, get_root equals the root of the complete binary tree over the current contents, and get_path(a) verifies the value at a against get_root. Addresses above 2^depth are refused; that address 2^depth is refused too is false (refuted): it is accepted and corrupts the root.",
 "all depths, all write histories, all addresses",
 "History-quantified.",
 [L+"common/data_structures/merkle_tree.tcc"])
p("C23","Merkle tree bulk constructors equal repeated writes",
 "Building a tree from a map of contents gives the same values and root as writing the entries one by one. For the vector constructor this is false (refuted), except for the root when all leaves are given.",
 "all contents",
 "Depends on the number and position of the populated leaves.",
 [L+"common/data_structures/merkle_tree.tcc:merkle_tree(depth,value_size,contents_as_vector), merkle_tree(depth,value_size,contents)"])
p("C24","Set commitment membership",
 "After any sequence of additions within capacity, is_in_set says exactly whether a bit vector with the same hash was added, and get_membership_proof of a member yields an address and path that verify against get_commitment. That adding beyond capacity is refused is false (refuted): the element is accepted but the commitment does not cover it.",
 "all histories of additions",
 "History-quantified; overflow needs capacity many additions.",
 [L+"common/data_structures/set_commitment.tcc"])
p("C25","Integer permutations",
 "The constructors give the identity; get and set work inside [min,max] and abort outside; is_valid decides bijectivity on [min,max]; inverse of a valid permutation is valid, composes with it to the identity on both sides and is an involution; slice restricts to a subrange, is valid when the subrange is mapped to itself, and aborts on a bad subrange.",
 "all sizes and permutations",
 "n! permutations.",
 [L+"common/data_structures/integer_permutation.cpp"])
p("C26","Benes routing realises every permutation",
 "For every dimension and every permutation of 2^d packets the computed switch settings route packet i to its destination along the edges of the topology; other sizes abort. The validity check accepts every routing that does, accepts none that takes a packet other than packet 0 elsewhere, and is exact on routings without collisions; it is not exact in general (refuted: a routing that drops packet 0 onto another packet can be accepted).",
 "all d, all permutations",
 "(2^d)! permutations.",
 [L+"common/routing_algorithms/benes_routing_algorithm.cpp"])
p("C27","AS-Waksman routing realises every permutation",
 "For every n >= 2 the arbitrary-size Waksman topology has 2*ceil(log2 n)-1 columns whose straight edges permute the rows and in which every position is a wire or in exactly one switch; for every permutation of n packets the computed routing sets exactly those switches and routes every packet to its destination; the validity check is exact on routings that set exactly the switches and accepts the computed one; fewer than two packets abort.",
 "all n, all permutations, all routings that set exactly the switches",
 "n! permutations; odd/even recursion.",
 [L+"common/routing_algorithms/as_waksman_routing_algorithm.cpp"])
p("C28","Protoboard bookkeeping",
 "Allocating variables returns fresh consecutive indices, writes through one variable are not visible through another, primary and auxiliary inputs partition the assignment at the declared input size, and is_satisfied on the protoboard is satisfaction of the exported constraint system by the exported inputs; setting the input size beyond the number of variables aborts.",
 "all sequences of protoboard operations",
 "History-quantified.",
 [L+"gadgetlib1/protoboard.tcc",L+"gadgetlib1/pb_variable.tcc"])
p("C29","Packing gadgets",
 "The packing constraint with boolean bits holds iff the packed value is the little-endian sum of the bits; it determines the bits whenever 2^n is at most the field order; multipacking splits into chunks of the given size; witness generation in both directions satisfies the constraints. The documented use with more bits than the field capacity loses uniqueness (refuted).",
 "all bit lengths and assignments in prime fields",
 "Soundness is over all field assignments.",
 [L+"gadgetlib1/gadgets/basic_gadgets.tcc:packing_gadget, multipacking_gadget"])
p("C30","Disjunction and conjunction gadgets",
 "With boolean inputs fewer in number than the field characteristic, every satisfying assignment has output = OR (AND) of the inputs, and witness generation yields a satisfying assignment. With as many inputs as the characteristic the disjunction fails (refuted).",
 "all numbers of inputs, all assignments",
 "Soundness is over all field assignments.",
 [L+"gadgetlib1/gadgets/basic_gadgets.tcc:disjunction_gadget, conjunction_gadget"])
p("C31","Comparison gadget",
 "If A and B are below 2^n and 2^(n+1) is below the field order, then in every satisfying assignment less = [A<B] and less_or_eq = [A<=B]; witness generation satisfies.",
 "all n, all A, B, all assignments",
 "Soundness is over all field assignments.",
 [L+"gadgetlib1/gadgets/basic_gadgets.tcc:comparison_gadget"])
p("C32","Inner product, multiplexing and copy gadgets",
 "Every satisfying assignment of the inner-product gadget has result = <A,B>; the loose multiplexer's success flag and result agree with the array lookup; bit-vector and field-vector copy gadgets force equality when enabled and nothing when disabled.",
 "all lengths, all assignments",
 "Soundness is over all field assignments.",
 [L+"gadgetlib1/gadgets/basic_gadgets.tcc:inner_product_gadget, loose_multiplexing_gadget, bit_vector_copy_gadget, field_vector_copy_gadget"])
p("C33","SHA-256 compression gadget computes SHA-256",
 "For boolean input block and previous state, every satisfying assignment of the compression gadget has as output exactly the FIPS 180-4 compression of them, and witness generation satisfies the constraints. The two-to-one gadget and get_hash compute the compression of the standard initial value with the 512 input bits (get_hash aborts on any other length), with the documented 27280 constraints on every protoboard. (The padding constructor of digest_variable, whose assertion is vacuous, does not terminate when the given bits are longer than the digest.)",
 "all input blocks and states, all assignments, all protoboards",
 "Soundness is over all field assignments of tens of thousands of internal wires.",
 [L+"gadgetlib1/gadgets/hashes/sha256/sha256_gadget.tcc",L+"gadgetlib1/gadgets/hashes/sha256/sha256_components.tcc",L+"gadgetlib1/gadgets/hashes/sha256/sha256_aux.tcc"])
p("C34","Merkle authentication-path read gadget is sound and complete",
 "With the SHA-256 gadget or the knapsack gadget with one row as hash, boolean address bits and read_successful = 1, every satisfying assignment contains a path that hashes the leaf at the given address to the given root; a path of bits yields a satisfying witness, with the root that it leads to. With a knapsack of two rows or more the soundness half is false: the last digest is not constrained to be boolean.",
 "all depths, addresses, leaves and assignments",
 "Soundness is over all assignments of the path.",
 [L+"gadgetlib1/gadgets/merkle_tree/merkle_tree_check_read_gadget.tcc",L+"gadgetlib1/gadgets/hashes/digest_selector_gadget.tcc"])
p("C35","Merkle update gadget replaces exactly one leaf",
 "With update_successful = 1, every satisfying assignment has previous and next leaf at the same address along one and the same sibling path to the previous and next root; so, if the previous root is that of a tree, the next root is the root of the tree with just that leaf replaced, or the assignment exhibits a hash collision.",
 "all depths, addresses, leaves, assignments",
 "Soundness is over all assignments of both paths.",
 [L+"gadgetlib1/gadgets/merkle_tree/merkle_tree_check_update_gadget.tcc"])
p("C36","Routing gadgets enforce permutations",
 "Witness generation with a permutation satisfies the routing gadget's constraints and delivers the packets permuted; in every satisfying assignment over pairwise distinct packets the output packets are a permutation of the inputs. Not so with repeated packet values: in an AS-Waksman network whose packets fit into one field element, and in a Benes network with packets of any size, an output may then carry any value. AS-Waksman networks with longer packets do not need distinct packets.",
 "all sizes, permutations, packet contents and assignments",
 "Soundness is over all assignments.",
 [L+"gadgetlib1/gadgets/routing/benes_routing_gadget.tcc",L+"gadgetlib1/gadgets/routing/as_waksman_routing_gadget.tcc"])
p("C37","Random-access memories",
 "For every way of construction and every history of writes, reading a plain memory returns the last value written to the address (or the initial contents, or zero), and aborts at or above the number of addresses; the Merkle-delegated memory returns that value truncated to the value size, its root is the Merkle root of the values and its paths verify; both agree on histories of in-range addresses and values. The store trace returns its last set entries and its contents map each address to the value with the latest timestamp. Not so: writes to the plain memory are not range-checked, the delegated memory silently truncates values that do not fit and accepts addresses up to the next power of two, and value sizes above the machine word are undefined.",
 "all constructors, histories of writes, addresses and values, and (delegated) hash functions",
 "Quantifies over unbounded histories.",
 [L+"relations/ram_computations/memory/ra_memory.cpp",L+"relations/ram_computations/memory/delegated_ra_memory.tcc",L+"relations/ram_computations/memory/memory_store_trace.cpp"])
p("C38","TinyRAM instruction encoding and boot trace",
 "For parameters whose instruction fits a double word of at most 64 bits, encoding an in-range instruction is injective and the CPU checker's decoder recovers its fields; the initial memory holds the program from address 0 and the input words from half the memory on, and nothing else; the boot trace loads exactly these with descending timestamps, its contents are the initial memory, and the primary input is recovered from it; the initial CPU state has the input end address in register 0, zero in the others and the flag set. Not so: the bound of the boot trace is not checked (timestamps wrap around), a program reaching into the input region is accepted and gives different initial memories, and word sizes below 8 divide by zero.",
 "all word sizes, register counts, programs, inputs",
 "Unbounded parameters.",
 [L+"relations/ram_computations/rams/tinyram/tinyram_aux.cpp"])
p("C39","TinyRAM ALU gadgets compute their operation",
 "For each ALU gadget, with packed operands in word range, every satisfying assignment's result and flag are those of the TinyRAM instruction, and witness generation satisfies. Not so: division accepts a wrong quotient or remainder and leaves its flags unconstrained; right shifts by 4 or more are wrong for words of 8 bits, and the result of a left shift is unconstrained.",
 "all word sizes and operand values, all assignments",
 "Soundness is over all assignments.",
 [L+"gadgetlib1/gadgets/cpu_checkers/tinyram/components/alu_arithmetic.tcc"])
p("C40","RAM memory-consistency checking",
 "For lines that fit their widths, the memory checker accepts a line and the line routed next to it exactly if: same address implies the contents are unchanged, a higher address that it starts at zero, a lower address that it is line 0; and its witness generator then succeeds. For every consistent memory trace whose first line has the lowest address and that uses two addresses, the permutation the prover computes is valid and passes all checks. If time also increased between neighbours of the same address, every trace that passes would be one of a memory. Not so: the checker compares the timestamps but never uses the result, so to any passing trace a load from any address can be added that returns any value; and a trace that uses only one address may fail under every permutation.",
 "all fields, widths, lines and assignments; all traces of any length and all permutations",
 "Soundness is over all traces, permutations and assignments; tests only run honest provers.",
 [L+"reductions/ram_to_r1cs/gadgets/memory_checker_gadget.tcc",L+"reductions/ram_to_r1cs/gadgets/trace_lines.tcc",L+"reductions/ram_to_r1cs/gadgets/ram_universal_gadget.tcc"])
p("C41","Extension-field and exponentiation gadgets",
 "Every satisfying assignment of the Fp2/Fp3/Fp4/Fp6 multiplication and squaring gadgets has the product (the square) in F[X]/(X^k - nr) as its result, and every assignment with the right operands and result extends to a satisfying one for multiplication; the Frobenius maps are the p^i-th power maps; the cyclotomic squaring gadgets accept exactly the square on the cyclotomic subgroup; the exponentiation gadget yields the power for every signed-digit expansion of a positive exponent if the base is invertible or no digit is negative. Not so: with base 0 and a negative digit any result is accepted, an exponent with no non-zero digit makes the constructor read outside its vector, and the Fp6 multiplication by a sparse element leaves the odd coefficients of the result unconstrained.",
 "all field elements and assignments",
 "Soundness is over all assignments; Karatsuba/Toom-Cook formulas rely on invertibility of small integers.",
 [L+"gadgetlib1/gadgets/fields/fp2_gadgets.tcc",L+"gadgetlib1/gadgets/fields/fp3_gadgets.tcc",L+"gadgetlib1/gadgets/fields/fp4_gadgets.tcc",L+"gadgetlib1/gadgets/fields/fp6_gadgets.tcc",L+"gadgetlib1/gadgets/fields/exponentiation_gadget.tcc"])
p("C42","Elliptic-curve gadgets",
 "The on-curve checks of G1 and of G2 (over Fp2 and Fp3) accept exactly curve points. The addition gadget accepts exactly the sums of points with different first coordinates; the doubling gadget, for points of a nonsingular curve, exactly the doubles of points not of order two. The multi-scalar multiplication gadget accepts exactly base + sum of scalar times point, provided that no addition of a doubled point to a running result is exceptional; it accepts nothing otherwise, even where the scalar bit is 0 and the addition is not needed. Its assertion on the number of constraints never fails; with zero bits per scalar its constructor's loop bound wraps around.",
 "all curves, points, scalars and assignments",
 "Soundness is over all assignments.",
 [L+"gadgetlib1/gadgets/curves/weierstrass_g1_gadget.tcc",L+"gadgetlib1/gadgets/curves/weierstrass_g2_gadget.tcc"])
p("C43","Knapsack CRH gadget",
 "Every satisfying assignment has output equal to the subset-sum hash of the input bits; the bit-output variant additionally has boolean outputs packing to it, whatever gadgets or get_hash calls extended the shared table of coefficients meanwhile; witness generation satisfies the constraints with the digest that get_hash returns. The bit digest is not unique: a sum of 0 also has the bits of the field order as digest.",
 "all dimensions, inputs and assignments",
 "Soundness is over all assignments.",
 [L+"gadgetlib1/gadgets/hashes/knapsack/knapsack_gadget.tcc"])
p("C44","Gadget from an R1CS",
 "Embedding a constraint system as a gadget into a protoboard yields constraints that are satisfied iff the original system is satisfied by the mapped variables, and the witness copy satisfies.",
 "all systems, all protoboard histories",
 "Quantifies over all systems.",
 [L+"gadgetlib1/gadgets/gadget_from_r1cs.tcc"])
p("C45","Compliance predicate and PCD translation",
 "A well-formed compliance predicate accepts messages, local data and witness of the declared sizes exactly if its constraints hold of the wires in the documented order, rejects other sizes by an assertion, and the order of the wires is unambiguous. The predicate of a handler is well-formed and has the sizes the handler was built with; it accepts what the protoboard holds, with the handler's witness, exactly if the protoboard is satisfied; witness generation puts messages and local data on the right wires; predicates survive serialization. (Refuted: generating a witness with more messages than the maximal arity is not rejected but reads out of bounds.)",
 "all predicates and messages",
 "Quantifies over arities and message lengths.",
 [L+"zk_proof_systems/pcd/r1cs_pcd/compliance_predicate/compliance_predicate.tcc",L+"zk_proof_systems/pcd/r1cs_pcd/compliance_predicate/cp_handler.tcc"])
p("C46","ADSNARK completeness",
 "Proofs made by the honest prover on a satisfying assignment and honest tags are accepted by the verifier with the secret key and by the one with the public key; the generator never aborts; honest tags verify for exactly the signed values; on honest tags the two verifiers agree about every proof; and the verdict is exactly the protocol's equations. (Refuted: the number of labels is not checked against the key, so too many labels read out of bounds; and a build with DEBUG asserts that a part of the A-query is zero that is not, so that the honest prover aborts for almost all keys.)",
 "all systems, assignments, labels, tags, proofs, key and prover randomness, pairings, signature schemes"
,"As C13.",
 [L+"zk_proof_systems/ppzkadsnark/r1cs_ppzkadsnark/r1cs_ppzkadsnark.tcc"])
p("C47","gadgetlib2 constraints and protoboard",
 "gadgetlib2's linear combinations, monomials and polynomials evaluate homomorphically; its gadget library (AND, OR, comparison, packing, ...) enforces the documented functions, and its witnesses satisfy its constraints; a constraint system that the protoboard calls satisfied is satisfied in the field; and conversion of a gadgetlib2 protoboard to an R1CS preserves satisfaction. (Refuted: integer constants are compared as integers, so in a field of small characteristic a satisfied constraint can be reported as unsatisfied; products of constants overflow; the implication gadget's witness leaves a value unset; the multiplexer's witness looks at 64 bits of the index only; writing the bits of a value of 2^32 or more is undefined.)",
 "all protoboards and assignments",
 "Soundness is over all assignments.",
 [L+"gadgetlib2/variable.cpp",L+"gadgetlib2/gadget.cpp",L+"gadgetlib2/adapters.cpp",L+"gadgetlib2/integration.cpp"])
p("C48","Set-commitment gadget",
 "With check_succesful = 1 every satisfying assignment shows that the element's hash is at some address of the tree with the given root; membership proofs produced by the accumulator satisfy the gadget.",
 "all capacities, elements, assignments",
 "Soundness is over all assignments.",
 [L+"gadgetlib1/gadgets/set_commitment/set_commitment_gadget.tcc"])
p("C49","Keys and proofs are stable under serialization",
 "Reading back a serialized sparse or accumulation vector, knowledge commitment, set-membership proof, key, processed key or proof of the ppzkSNARKs yields the same object and leaves the rest of the stream untouched, in text and in binary mode. (Refuted for the proving key of the simulation-extractable scheme when elements need white space after them: it writes four group elements with nothing between them, and two different keys can be written alike.)",
 "all keys and proofs",
 "Size dependent parsing.",
 [L+"zk_proof_systems/ppzksnark/r1cs_ppzksnark/r1cs_ppzksnark.tcc:operator<<, operator>>",L+"common/data_structures/sparse_vector.tcc:operator<<, operator>>",L+"common/data_structures/accumulation_vector.tcc:operator<<, operator>>"])
p("C50","Circuit depth",
 "On a valid circuit the depth query returns, for the constant wire 0, for an input 1 and for a gate one more than its deepest operand, without reading outside its vectors. (For boolean circuits this is refuted: the depth vector has no entry for the constant wire, and a valid circuit makes it read out of bounds.)",
 "all valid circuits",
 "Depends on the gate structure of arbitrary circuits.",
 [L+"relations/circuit_satisfaction_problems/bacs/bacs.tcc:wire_depths, depth",L+"relations/circuit_satisfaction_problems/tbcs/tbcs.cpp:wire_depths, depth"])
p("C51","Perfect zero knowledge of the ppzkSNARKs",
 "With the generator's randomness, and without the witness, one can produce proofs with exactly the distribution of the honest prover's: for every witness there is a bijection between prover and simulator randomness under which proofs coincide (for Groth16, unless the prover aborts; for the PGHR13 and USCS schemes, for t outside the domain).",
 "all systems, statements, witnesses and random choices",
 "A statement about distributions over all randomness and all witnesses.",
 [L+"zk_proof_systems/ppzksnark/r1cs_ppzksnark/r1cs_ppzksnark.tcc",L+"zk_proof_systems/ppzksnark/r1cs_gg_ppzksnark/r1cs_gg_ppzksnark.tcc",L+"zk_proof_systems/ppzksnark/r1cs_se_ppzksnark/r1cs_se_ppzksnark.tcc",L+"zk_proof_systems/ppzksnark/uscs_ppzksnark/uscs_ppzksnark.tcc"])
p("C52","Merkle roots and set commitments are binding",
 "Two different values that verify at the same address against the same root yield a collision of the hash function, and two write histories with the same root leave the same values at all addresses or yield a collision.",
 "all hash functions, depths, paths and histories",
 "Quantifies over all adversarial paths and all histories.",
 [L+"common/data_structures/merkle_tree.tcc"])
p("C53","TinyRAM argument decoding and state update",
 "Every assignment that satisfies the argument decoder names existing registers and gives the destination, the first argument and the second argument the values of the registers named, or the immediate value itself; every assignment that satisfies the consistency enforcer, with the indicator of one opcode set, stores the instruction's result and flag if the instruction writes a register, changes no other register, and moves the program counter to the jump target, to the next instruction, or not at all, as the opcode demands.",
 "all assignments, opcodes, numbers of registers and index widths that the field can hold",
 "Soundness is over all assignments.",
 [L+"gadgetlib1/gadgets/cpu_checkers/tinyram/components/argument_decoder_gadget.tcc:argument_decoder_gadget",L+"gadgetlib1/gadgets/cpu_checkers/tinyram/components/consistency_enforcer_gadget.tcc:consistency_enforcer_gadget",L+"relations/ram_computations/rams/tinyram/tinyram_aux.hpp:tinyram_opcodes_register"])
p("C54","FOORAM CPU checker",
 "Every assignment of words that satisfies the FOORAM CPU checker is one step of the documented machine: an odd instruction x loads [2x + (pc+1)] into the register and leaves memory, an even x stores reg + pc at [pc + x] and leaves the register, all modulo 2^w, and the program counter advances by one. The gadget for a X + b Y modulo 2^w generates a satisfying witness for every two words.",
 "all word sizes w with 2^(3w) at most the field order, all assignments",
 "Soundness is over all assignments.",
 [L+"gadgetlib1/gadgets/cpu_checkers/fooram/fooram_cpu_checker.tcc:fooram_cpu_checker",L+"gadgetlib1/gadgets/cpu_checkers/fooram/components/bar_gadget.tcc:bar_gadget"])
p("C55","Memory access of the TinyRAM CPU checker",
 "In every assignment satisfying the memory masking gadget, the double word after an access is the double word before with the accessed byte or word replaced by the subcontents and everything else kept; and if the double word is kept, the subcontents are the accessed byte or word. With the CPU checker's own constraints a load returns the accessed byte or word, store.w writes the destination's packed value, store.b the number formed by its low bits, and no other instruction changes memory. Refuted: that the CPU checker binds the byte stored by store.b to the destination register; the register's bits are never tied to its packed value, so any byte can be stored.",
 "all word sizes of whole bytes, all double words, subaddresses and contents, all assignments, all bytes",
 "Soundness is over all assignments; an honest prover never shows the missing constraint.",
 [L+"gadgetlib1/gadgets/cpu_checkers/tinyram/components/memory_masking_gadget.tcc:memory_masking_gadget",L+"gadgetlib1/gadgets/cpu_checkers/tinyram/tinyram_cpu_checker.tcc:generate_r1cs_constraints"])
p("C56","Decoding, acceptance and tapes of the TinyRAM CPU checker",
 "The CPU checker cuts the double word of an encoded instruction into its fields; in every satisfying assignment exactly the indicator of the instruction's opcode is one; a step is accepted only if the instruction is answer and its argument is zero; an exhausted tape stays exhausted, a read of it or of any tape but the first raises the flag, and a raised flag makes the result zero.",
 "all architecture parameters for which an instruction fits a double word, all instructions in range, all assignments",
 "Soundness is over all assignments.",
 [L+"gadgetlib1/gadgets/cpu_checkers/tinyram/tinyram_cpu_checker.tcc:tinyram_cpu_checker",L+"relations/ram_computations/rams/tinyram/tinyram_aux.cpp:as_dword"])
open('/verif/properties.jsonl','w').write("".join(json.dumps(x)+"\n" for x in P))
import os
for x in P:
    for a in x['anchors']:
        f=a.split(':')[0]
        if not os.path.exists('/repo/'+f): print(x['id'],'missing',f)
