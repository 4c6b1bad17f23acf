{"id": "C01", "title": "Membership proofs produced by lookup always verify", "statement": "For every Merkle tree reached by any sequence of insertions, whenever lookup(i) returns Ok(elem, proof), verify(commitment, i, elem, proof) returns Ok(Ok(())).", "quantifier": "all arities >= 1, heights, hash functions, trees reachable by any history of updates, and all indices", "why_tests_cant": "A test fixes one arity, height, hash and a handful of indices; the claim ranges over all of them and over every history of calls.", "anchors": ["merkle_tree/src/macros.rs impl_merkle_tree_scheme!", "merkle_tree/src/internal.rs lookup_internal, verify_merkle_proof"]}
{"id": "C02", "title": "A verified membership proof implies presence", "statement": "If verify(commitment, i, e, proof) accepts a proof against the commitment of a tree and the hash admits no collision (with leaf and node digests and the default value disjoint), then for in-range i and a proof of the tree's height the tree really stores e at index i.", "quantifier": "all trees, indices, elements and adversarially chosen proofs", "why_tests_cant": "Soundness quantifies over every forged proof; tests only try a few tampered ones.", "anchors": ["merkle_tree/src/internal.rs verify_merkle_proof", "merkle_tree/src/lib.rs MerkleTreeScheme::verify"]}
{"id": "C03", "title": "The universal tree behaves as a key/value map", "statement": "After any sequence of update/remove calls on in-range keys, universal_lookup(k) reports exactly the element a plain key/value map would hold: the last value written to k if it was not removed later, and NotFound otherwise; other keys are unaffected by each call.", "quantifier": "all sequences of update and removal calls, all keys, arities and heights", "why_tests_cant": "The number of histories is infinite and the tree collapses empty branches, so interactions between keys only show for particular histories.", "anchors": ["merkle_tree/src/universal_merkle_tree.rs update_with", "merkle_tree/src/internal.rs update_with_internal, lookup_internal"]}
{"id": "C04", "title": "The universal tree commitment depends only on contents", "statement": "Two universal trees of the same height that hold the same key/value contents have the same commitment, whatever order of insertions, overwrites and deletions produced them.", "quantifier": "all pairs of histories", "why_tests_cant": "A test fixes one arity, height, hash and a handful of indices; the claim ranges over all of them and over every history of calls.", "anchors": ["merkle_tree/src/internal.rs update_with_internal", "merkle_tree/src/universal_merkle_tree.rs update_with"]}
{"id": "C05", "title": "num_leaves counts the stored elements", "statement": "After any history of updates and removals, num_leaves() equals the number of distinct keys currently present.", "quantifier": "all histories of updates and removals", "why_tests_cant": "A test fixes one arity, height, hash and a handful of indices; the claim ranges over all of them and over every history of calls.", "anchors": ["merkle_tree/src/universal_merkle_tree.rs update_with", "merkle_tree/src/internal.rs update_with_internal"]}
{"id": "C06", "title": "Persistent update agrees with in-place update", "statement": "persistent_update_with(k, f) returns a tree that is indistinguishable (contents, commitment, num_leaves) from the one update_with(k, f) would leave in place, and the original tree is unchanged.", "quantifier": "all trees, keys and update functions", "why_tests_cant": "A test fixes one arity, height, hash and a handful of indices; the claim ranges over all of them and over every history of calls.", "anchors": ["merkle_tree/src/universal_merkle_tree.rs persistent_update_with", "merkle_tree/src/internal.rs update_with_internal"]}
{"id": "C07", "title": "Append order determines the append-only tree", "statement": "from_elems(xs), pushing the elements of xs one by one, and extending by any split of xs into batches all give a tree with the same commitment, the same num_leaves and the same lookups; index i holds the i-th element.", "quantifier": "all element sequences, all ways of splitting them into batches, all arities and heights", "why_tests_cant": "There are exponentially many splits; build and extend are different code paths and only agree if boundary handling is right for each tree shape.", "anchors": ["merkle_tree/src/append_only.rs from_elems, push, extend", "merkle_tree/src/internal.rs build_tree_internal, extend_internal"]}
{"id": "C08", "title": "Capacity is enforced exactly", "statement": "push and extend succeed exactly while fewer than arity^height elements are stored; when extend runs out of room it reports ExceedCapacity after storing the elements that fit; from_elems with an explicit height rejects more than arity^height elements.", "quantifier": "all fill levels, batch sizes, arities, heights", "why_tests_cant": "A test fixes one arity, height, hash and a handful of indices; the claim ranges over all of them and over every history of calls.", "anchors": ["merkle_tree/src/append_only.rs extend", "merkle_tree/src/internal.rs extend_internal, build_tree_internal"]}
{"id": "C09", "title": "The light-weight tree commits like the full tree", "statement": "For every sequence of elements, the light-weight append-only tree has the same commitment and num_leaves as the full append-only tree, whether built at once or extended, although it forgets old leaves.", "quantifier": "all sequences, batches, arities, heights", "why_tests_cant": "A test fixes one arity, height, hash and a handful of indices; the claim ranges over all of them and over every history of calls.", "anchors": ["merkle_tree/src/light_weight.rs", "merkle_tree/src/internal.rs build_light_weight_tree_internal, extend_and_forget_internal"]}
{"id": "C10", "title": "Forgetting does not change the commitment", "statement": "forget(i) never changes the commitment or num_leaves; it returns the element and a proof that verifies; afterwards lookup(i) reports NotInMemory and lookups at other indices return the same element as before.", "quantifier": "all trees and indices", "why_tests_cant": "A test fixes one arity, height, hash and a handful of indices; the claim ranges over all of them and over every history of calls.", "anchors": ["merkle_tree/src/macros.rs impl_forgetable_merkle_tree_scheme!", "merkle_tree/src/internal.rs forget_internal"]}
{"id": "C11", "title": "Remember restores a forgotten element", "statement": "After forget(i) returned (elem, proof), remember(i, elem, proof) succeeds and lookup(i) again returns elem with a verifying proof; remember never changes the commitment, and it returns an error on a proof that does not verify.", "quantifier": "all trees, indices and proofs", "why_tests_cant": "A test fixes one arity, height, hash and a handful of indices; the claim ranges over all of them and over every history of calls.", "anchors": ["merkle_tree/src/macros.rs impl_forgetable_merkle_tree_scheme!", "merkle_tree/src/internal.rs remember_internal"]}
{"id": "C12", "title": "Non-membership proofs produced by universal_lookup verify", "statement": "Whenever universal_lookup(k) returns NotFound(proof), non_membership_verify(commitment, k, proof) returns true.", "quantifier": "all universal trees reachable by any history, all keys", "why_tests_cant": "A test fixes one arity, height, hash and a handful of indices; the claim ranges over all of them and over every history of calls.", "anchors": ["merkle_tree/src/universal_merkle_tree.rs universal_lookup, non_membership_verify", "merkle_tree/src/internal.rs lookup_internal, verify_merkle_proof"]}
{"id": "C13", "title": "A verified non-membership proof implies absence", "statement": "If non_membership_verify(commitment, k, proof) accepts, then the tree has no element at k (assuming a collision-free hash).", "quantifier": "all trees, keys and adversarially chosen proofs", "why_tests_cant": "Soundness quantifies over every forged proof, including proofs of unexpected shape that no test constructs.", "anchors": ["merkle_tree/src/internal.rs verify_merkle_proof", "merkle_tree/src/universal_merkle_tree.rs non_membership_verify"]}
{"id": "C14", "title": "Restoring an absent key keeps the commitment", "statement": "Applying non_membership_remember(k, proof) with a proof that universal_lookup or universal_forget produced leaves the commitment unchanged.", "quantifier": "all universal trees and absent keys", "why_tests_cant": "A test fixes one arity, height, hash and a handful of indices; the claim ranges over all of them and over every history of calls.", "anchors": ["merkle_tree/src/universal_merkle_tree.rs non_membership_remember, universal_forget", "merkle_tree/src/internal.rs remember_internal, forget_internal"]}
{"id": "C15", "title": "Iteration enumerates contents in order", "statement": "Iterating over an append-only tree yields exactly the pairs (0,x0),(1,x1),... of its stored elements in index order, and collecting all leaves with proofs yields, for every stored element, a proof that verifies.", "quantifier": "all trees", "why_tests_cant": "A test fixes one arity, height, hash and a handful of indices; the claim ranges over all of them and over every history of calls.", "anchors": ["merkle_tree/src/internal.rs MerkleTreeIter, collect_all_with_proofs", "merkle_tree/src/append_only.rs"]}
{"id": "C16", "title": "Range proofs are complete", "statement": "range_lookup(i, j) on a tree that stores all of i..j returns exactly those elements with a proof that verify_range_proof accepts.", "quantifier": "all trees and ranges", "why_tests_cant": "A test fixes one arity, height, hash and a handful of indices; the claim ranges over all of them and over every history of calls.", "anchors": ["merkle_tree/src/internal.rs range_lookup_internal, verify_merkle_range_proof", "merkle_tree/src/macros.rs"]}
{"id": "C17", "title": "Reed-Solomon decoding inverts encoding from any k shares", "statement": "For every data vector of length k and every k distinct share indices in the codeword, decoding those shares returns the data.", "quantifier": "all data, all lengths, all k-subsets of share positions", "why_tests_cant": "There are binomially many subsets of shares; tests try a few.", "anchors": ["utilities/src/reed_solomon_code.rs reed_solomon_erasure_encode, reed_solomon_erasure_decode"]}
{"id": "C18", "title": "Reed-Solomon decoding refuses bad share sets", "statement": "Decoding reports an error when fewer than k shares are supplied or when a share index is repeated among those used.", "quantifier": "all share lists", "why_tests_cant": "Every list shape must be covered.", "anchors": ["utilities/src/reed_solomon_code.rs reed_solomon_erasure_decode"]}
{"id": "C19", "title": "Bytes to field elements is lossless", "statement": "bytes_from_field_elements(bytes_to_field_elements(b)) returns b for every byte string b, and distinct byte strings map to distinct element lists.", "quantifier": "all byte strings of any length and every prime field whose modulus has more than 8 bytes", "why_tests_cant": "Boundary behaviour depends on length modulo the chunk size, and injectivity is a statement about pairs of inputs.", "anchors": ["utilities/src/conversion.rs bytes_to_field_elements, bytes_from_field_elements"]}
{"id": "C20", "title": "Field conversions preserve small integers", "statement": "fr_to_fq followed by fq_to_fr is the identity when the source modulus is not larger than the target modulus; the masked conversion always lands below the target modulus and keeps the low-order bytes.", "quantifier": "all field elements and pairs of moduli", "why_tests_cant": "Boundary values near each modulus are not sampled by random tests.", "anchors": ["utilities/src/conversion.rs fr_to_fq, fq_to_fr, fq_to_fr_with_mask, field_switching"]}
{"id": "C21", "title": "Arithmetic gates enforce exactly their function", "statement": "After add, sub, add_constant, mul, mul_constant, lc, mul_add, sum or power_11_gen/pow on circuit variables, an assignment satisfies the inserted constraints exactly when the output variable(s) hold the function's value of the inputs.", "quantifier": "all circuits, all assignments of all variables, all fields", "why_tests_cant": "Tests check the honest witness and one mutated output; soundness is about every assignment.", "anchors": ["relation/src/gadgets/arithmetic.rs", "relation/src/constraint_system.rs check_gate"]}
{"id": "C22", "title": "Boolean gadgets are sound and complete", "statement": "logic_neg, logic_and, logic_and_all, logic_or, logic_or_gate, enforce_true/false, conditional_select: constraints hold exactly when output equals the Boolean function of the (Boolean) inputs.", "quantifier": "all assignments and list lengths", "why_tests_cant": "A test builds one circuit and checks one or two assignments; the claim ranges over every circuit the builder can reach and every assignment, including those a dishonest prover picks.", "anchors": ["relation/src/gadgets/logic.rs", "relation/src/constraint_system.rs enforce_bool"]}
{"id": "C23", "title": "Zero and equality tests cannot be cheated", "statement": "is_zero(x)/is_equal(x,y): in every satisfying assignment the returned Boolean is 1 exactly when x=0 (x=y); non_zero_gate is satisfiable exactly when x is nonzero.", "quantifier": "all assignments", "why_tests_cant": "An adversarial prover chooses the auxiliary inverse witness freely.", "anchors": ["relation/src/gadgets/logic.rs is_zero, is_equal, non_zero_gate"]}
{"id": "C24", "title": "Range and bit decomposition gadgets are exact", "statement": "unpack(x,n)/enforce_in_range(x,n): in every satisfying assignment x equals the sum of the returned bits and lies in [0,2^n); any x in the range can be satisfied. is_in_range returns 1 exactly for x in [0,2^n).", "quantifier": "all x, all n below the field size in bits, all assignments", "why_tests_cant": "Field wrap-around gives a prover many candidate decompositions.", "anchors": ["relation/src/gadgets/range.rs"]}
{"id": "C25", "title": "Comparison gadgets agree with integer order", "statement": "is_lt, is_leq, is_gt, is_geq and enforce_* on field elements agree with the order of their canonical integer representatives, including comparisons with constants, in every satisfying assignment.", "quantifier": "all pairs of field elements, all assignments", "why_tests_cant": "Correctness at (p-1)/2 boundaries and against adversarial decompositions is not sampled.", "anchors": ["relation/src/gadgets/cmp.rs"]}
{"id": "C26", "title": "Wire permutation encodes exactly variable sharing", "statement": "The wire permutation computed for a circuit is a bijection on wire slots whose cycles are exactly the sets of slots that carry the same variable, so an assignment of slots is invariant under it exactly when it comes from an assignment of variables.", "quantifier": "all circuits", "why_tests_cant": "Cycle structure must be right for every sharing pattern.", "anchors": ["relation/src/constraint_system.rs compute_wire_permutation"]}
{"id": "C27", "title": "Finalization preserves meaning", "statement": "finalize_for_arithmetization pads to a power of two and moves input gates to the front without changing which assignments satisfy the circuit; public inputs appear at rows 0..num_inputs-1 in order.", "quantifier": "all circuits and assignments", "why_tests_cant": "A test builds one circuit and checks one or two assignments; the claim ranges over every circuit the builder can reach and every assignment, including those a dishonest prover picks.", "anchors": ["relation/src/constraint_system.rs finalize_for_arithmetization, rearrange_gates, pad"]}
{"id": "C28", "title": "A finalized circuit cannot be modified", "statement": "After finalization every gate-inserting or variable-creating call returns an error and leaves the circuit unchanged.", "quantifier": "all circuits and calls", "why_tests_cant": "Every entry point must be guarded.", "anchors": ["relation/src/constraint_system.rs check_finalize_flag"]}
{"id": "C29", "title": "The permutation argument closes for honest witnesses", "statement": "The grand product of the permutation argument returns to 1 after a full turn for every circuit and witness, for all challenges that avoid a zero denominator.", "quantifier": "all circuits, witnesses and challenges", "why_tests_cant": "Quantifies over random challenges.", "anchors": ["relation/src/constraint_system.rs compute_prod_permutation_polynomial"]}
{"id": "C30", "title": "The permutation argument is sound", "statement": "If slot values violate a copy constraint then the permutation grand product can equal 1 only for a bounded set of challenges (as a polynomial identity in beta and gamma it fails).", "quantifier": "all circuits, slot values", "why_tests_cant": "Quantifies over all cheating slot assignments and challenges.", "anchors": ["relation/src/constraint_system.rs compute_prod_permutation_polynomial", "plonk/src/proof_system/prover.rs compute_quotient_copy_constraint_contribution"]}
{"id": "C31", "title": "Merging two circuits is conjunction", "statement": "merge of a type-A and a type-B finalized circuit is satisfied by the merged witness exactly when both circuits are satisfied, and its public input is the concatenation of both.", "quantifier": "all mergeable circuit pairs", "why_tests_cant": "A test builds one circuit and checks one or two assignments; the claim ranges over every circuit the builder can reach and every assignment, including those a dishonest prover picks.", "anchors": ["relation/src/constraint_system.rs finalize_for_mergeable_circuit, merge"]}
{"id": "C32", "title": "Lookup gates accept exactly table members", "statement": "The Plookup sorted vector is a permutation of table and lookups; the honest grand product closes exactly when every lookup is in the table.", "quantifier": "all tables and lookups", "why_tests_cant": "A test builds one circuit and checks one or two assignments; the claim ranges over every circuit the builder can reach and every assignment, including those a dishonest prover picks.", "anchors": ["relation/src/constraint_system.rs compute_lookup_sorted_vec_polynomials, compute_lookup_prod_polynomial", "relation/src/gadgets/ultraplonk/lookup_table.rs"]}
{"id": "C33", "title": "Emulated field arithmetic is sound and complete", "statement": "emulated_mul / emulated_add gates are satisfiable for honest inputs and force the output to be the product/sum modulo the emulated modulus.", "quantifier": "all limb assignments and emulated fields", "why_tests_cant": "Adversarial carries and quotients are never exercised by tests.", "anchors": ["relation/src/gadgets/emulated.rs"]}
{"id": "C34", "title": "Non-native modular arithmetic is sound", "statement": "mod_mul / mod_add on FpElemVar force the output to be congruent to the product/sum modulo p.", "quantifier": "all assignments", "why_tests_cant": "Adversarial quotient witnesses.", "anchors": ["relation/src/gadgets/ultraplonk/mod_arith.rs"]}
{"id": "C35", "title": "Curve addition gadgets compute the group law", "statement": "ecc_add on twisted Edwards points forces the output to be the group-law sum for all points on a complete curve; emulated short-Weierstrass addition forces the sum, including the point at infinity.", "quantifier": "all points, all assignments", "why_tests_cant": "Exceptional cases (doubling, inverse, infinity) multiply; adversarial flags.", "anchors": ["relation/src/gadgets/ecc/mod.rs ecc_add_gate", "relation/src/gadgets/ecc/emulated/short_weierstrass.rs"]}
{"id": "C36", "title": "Scalar multiplication gadgets compute n*P", "statement": "fixed_base_scalar_mul and variable_base_scalar_mul return the multiple given by the scalar's bits for every base and scalar.", "quantifier": "all scalars, bases, bit lengths", "why_tests_cant": "A test builds one circuit and checks one or two assignments; the claim ranges over every circuit the builder can reach and every assignment, including those a dishonest prover picks.", "anchors": ["relation/src/gadgets/ecc/mod.rs"]}
{"id": "C37", "title": "The Rescue permutation is a bijection", "statement": "The Rescue permutation/PRP is invertible for every round-key schedule, hence has no internal collisions.", "quantifier": "all inputs and keys", "why_tests_cant": "A test hashes a few inputs with one parameter set; the claim ranges over all inputs, lengths and round constants.", "anchors": ["rescue/src/lib.rs prp_with_round_keys, Permutation::eval"]}
{"id": "C38", "title": "Sponge padding is injective", "statement": "Distinct inputs of any lengths are absorbed as distinct block sequences by the bit-padded sponge; fixed-length zero padding is injective on inputs of equal length; outputs have exactly the requested length.", "quantifier": "all pairs of inputs", "why_tests_cant": "Injectivity is a statement about all pairs.", "anchors": ["rescue/src/sponge.rs", "rescue/src/crhf.rs", "poseidon2/src/crhf.rs"]}
{"id": "C39", "title": "Successive squeezes give fresh output", "statement": "Squeezing twice from the Rescue sponge without absorbing returns the continuation of the output stream rather than repeating it.", "quantifier": "all states and output lengths", "why_tests_cant": "A test hashes a few inputs with one parameter set; the claim ranges over all inputs, lengths and round constants.", "anchors": ["rescue/src/sponge.rs squeeze_native_field_elements"]}
{"id": "C40", "title": "Commitments open correctly and bind", "statement": "Commitment::verify accepts exactly the message and blinding that were committed, up to a CRHF collision.", "quantifier": "all messages, blindings, candidate openings", "why_tests_cant": "Binding quantifies over all alternative openings.", "anchors": ["rescue/src/commitment.rs"]}
{"id": "C41", "title": "The Poseidon2 layers are invertible", "statement": "The external and internal linear layers equal their documented matrices and are invertible, so the Poseidon2 permutation is a bijection.", "quantifier": "all widths supported, all states", "why_tests_cant": "A test hashes a few inputs with one parameter set; the claim ranges over all inputs, lengths and round constants.", "anchors": ["poseidon2/src/external.rs", "poseidon2/src/internal.rs", "poseidon2/src/lib.rs permute_mut"]}
{"id": "C42", "title": "Schnorr signatures verify and bind", "statement": "verify(sign(sk, m)) succeeds for every nonzero signing key, message and CS id, also for randomized keys; verify accepts exactly when the verification equation holds for a key that is not of small order; two accepted transcripts with the same nonce commitment and different challenges reveal the key.", "quantifier": "all keys, messages, nonces", "why_tests_cant": "Quantifies over all keys and all forged signatures.", "anchors": ["signature/src/schnorr.rs sign, verify, randomize_with"]}
{"id": "C43", "title": "BLS aggregate verification is complete", "statement": "Aggregating honest signatures on a list of messages verifies under the list of keys; multi-signature verification accepts the sum of honest signatures on one message; mismatched lengths and empty inputs are rejected.", "quantifier": "all lists of keys, messages", "why_tests_cant": "All list lengths.", "anchors": ["signature/src/bls_over_bn254.rs aggregate, aggregate_verify, multi_sig_verify"]}
{"id": "C44", "title": "ElGamal hybrid encryption round-trips", "statement": "decrypt(sk, encrypt(pk, r, m)) = m for every message length, and the ciphertext payload is as long as the message.", "quantifier": "all messages of all lengths, keys, randomness", "why_tests_cant": "Padding depends on the length modulo the block size.", "anchors": ["elgamal/src/lib.rs encrypt, decrypt, apply_counter_mode_stream"]}
{"id": "C45", "title": "VRF outputs are verifiable and unique", "statement": "verify accepts an honestly generated proof and outputs its hash; the output is a function of the accepted proof.", "quantifier": "all keys and messages", "why_tests_cant": "A test signs or encrypts a few messages with one key; the claim ranges over all keys, messages, randomness and forged inputs.", "anchors": ["vrf/src/blsvrf.rs"]}
{"id": "C46", "title": "KZG openings are complete", "statement": "For every polynomial within the SRS degree and every point, open followed by verify accepts the true evaluation.", "quantifier": "all polynomials, points, trapdoors", "why_tests_cant": "A test opens one random polynomial at one point; the claim ranges over all polynomials, points, degrees, batch sizes and dishonest proofs.", "anchors": ["pcs/src/univariate_kzg/mod.rs commit, open, verify"]}
{"id": "C47", "title": "KZG openings of wrong values fail", "statement": "A polynomial-valued (algebraic) proof for a wrong value at z is accepted for at most deg many trapdoors; two accepted openings with different values reveal the trapdoor relation.", "quantifier": "all polynomials, wrong values, algebraic proofs", "why_tests_cant": "Quantifies over all adversarial proofs.", "anchors": ["pcs/src/univariate_kzg/mod.rs verify"]}
{"id": "C48", "title": "Commit refuses polynomials it cannot commit to", "statement": "commit either returns an error or a commitment that depends on every coefficient (degree at most the SRS allows).", "quantifier": "all polynomials and SRS sizes", "why_tests_cant": "The boundary degree = SRS size is one input in infinitely many.", "anchors": ["pcs/src/univariate_kzg/mod.rs commit", "pcs/src/univariate_kzg/srs.rs"]}
{"id": "C49", "title": "Batch verification is equivalent to verifying each claim", "statement": "batch_verify accepts a list of valid claims, and if it accepts for all randomizers then every listed claim is valid.", "quantifier": "all lists of claims and randomizers", "why_tests_cant": "List shapes and adversarial combinations.", "anchors": ["pcs/src/univariate_kzg/mod.rs batch_verify"]}
{"id": "C50", "title": "Multi-point openings are complete", "statement": "multi_point_open followed by multi_point_verify accepts the true evaluations at any list of distinct points.", "quantifier": "all polynomials and point sets", "why_tests_cant": "A test opens one random polynomial at one point; the claim ranges over all polynomials, points, degrees, batch sizes and dishonest proofs.", "anchors": ["pcs/src/univariate_kzg/mod.rs multi_point_open, multi_point_verify"]}
{"id": "C51", "title": "Amortised openings equal single openings", "statement": "The proofs computed together by multi_open / multi_open_rou_proofs for all points equal those computed one at a time by open.", "quantifier": "all polynomials and points", "why_tests_cant": "A test opens one random polynomial at one point; the claim ranges over all polynomials, points, degrees, batch sizes and dishonest proofs.", "anchors": ["pcs/src/univariate_kzg/mod.rs compute_h_poly_in_fk23, multi_open_rou_proofs", "pcs/src/toeplitz.rs"]}
{"id": "C52", "title": "Multilinear openings are complete", "statement": "For every multilinear polynomial within the parameters and every point, open followed by verify accepts, and the opened value is the polynomial's value at the point.", "quantifier": "all polynomials, numbers of variables, points", "why_tests_cant": "A test opens one random polynomial at one point; the claim ranges over all polynomials, points, degrees, batch sizes and dishonest proofs.", "anchors": ["pcs/src/multilinear_kzg/mod.rs open_internal, verify_internal"]}
{"id": "C53", "title": "Multilinear batch opening opens the requested points", "statement": "batch_open returns the evaluations of the polynomials at the given points, succeeds for honest inputs, and batch_verify accepts its result.", "quantifier": "all batches", "why_tests_cant": "A test opens one random polynomial at one point; the claim ranges over all polynomials, points, degrees, batch sizes and dishonest proofs.", "anchors": ["pcs/src/multilinear_kzg/batching.rs", "pcs/src/multilinear_kzg/util.rs compute_w_circ_l, build_l, merge_polynomials"]}
{"id": "C54", "title": "Masking does not change witness values", "statement": "Adding the random mask to a witness polynomial leaves its values on the evaluation domain unchanged.", "quantifier": "all polynomials and masks", "why_tests_cant": "A test proves one small circuit; the claim ranges over all polynomials, challenges, domains and instances.", "anchors": ["plonk/src/proof_system/prover.rs mask_polynomial"]}
{"id": "C55", "title": "Quotient splitting reassembles", "statement": "The split quotient polynomials, with their blinding, recombine at every point to the quotient polynomial.", "quantifier": "all quotient polynomials, randomizers and points", "why_tests_cant": "A test proves one small circuit; the claim ranges over all polynomials, challenges, domains and instances.", "anchors": ["plonk/src/proof_system/prover.rs split_quotient_polynomial, compute_quotient_component_for_lin_poly"]}
{"id": "C56", "title": "Lagrange coefficient helpers are exact", "statement": "first/last/range Lagrange coefficient functions return the Lagrange basis values at every point, inside and outside the domain.", "quantifier": "all domains, cosets and points", "why_tests_cant": "Points inside the domain take separate branches.", "anchors": ["plonk/src/lagrange.rs"]}
{"id": "C57", "title": "Every proof the prover returns is accepted", "statement": "If prove or batch_prove returns a proof for finalized circuits whose satisfiability check accepts the witness, with keys made by preprocess for the same circuits (whatever witness they held then), verify or verify_batch_proof accepts that proof for the public inputs of the witness.", "quantifier": "all circuits reachable through the builder API (with and without lookups), accepted witnesses, prover randomness, transcripts, reference strings and batch sizes", "why_tests_cant": "A test proves one circuit; the claim needs the quotient, linearization and opening identities for all polynomials and challenge values.", "anchors": ["plonk/src/proof_system/snark.rs batch_prove_internal, verify_batch_proof, verify", "plonk/src/proof_system/prover.rs", "plonk/src/proof_system/verifier.rs"]}
{"id": "C58", "title": "Batched proof verification is complete and sound", "statement": "Verifying several PLONK opening instances together accepts when all are valid, and for some invalid instance accepts only for boundedly many combination challenges.", "quantifier": "all lists of instances and challenges", "why_tests_cant": "Quantifies over challenges.", "anchors": ["plonk/src/proof_system/verifier.rs batch_verify_opening_proofs"]}
{"id": "C59", "title": "Proof codec round-trips", "statement": "Converting a TurboPlonk proof to field elements and back returns the proof; distinct proofs convert to distinct vectors; a vector of the wrong length is refused; and whatever decodes re-encodes to the same vector up to reduction of the evaluations.", "quantifier": "all proofs, including those with commitments at infinity, and all vectors", "why_tests_cant": "Depends on exceptional points.", "anchors": ["plonk/src/proof_system/structs.rs 78-206", "plonk/src/proof_system/structs.rs 402-444"]}
{"id": "C60", "title": "Transcript challenges depend on everything appended", "statement": "Two sessions with a transcript that append different data end in different states unless the session exhibits a collision of the underlying hash; two challenges of a session are never drawn from the same hash input, up to such collisions.", "quantifier": "all sequences of messages, keys with public inputs, commitments, scalars and challenges, for the Solidity, Rescue and standard transcripts", "why_tests_cant": "Injectivity over all sequences of calls.", "anchors": ["plonk/src/transcript/rescue.rs", "plonk/src/transcript/solidity.rs", "plonk/src/transcript/standard.rs", "plonk/src/transcript/mod.rs", "relation/src/gadgets/ecc/conversion.rs"]}
{"id": "C61", "title": "Public-input polynomial evaluation is exact", "statement": "The verifier's evaluation of the public input polynomial equals the evaluation of the polynomial interpolating the public inputs on the first (and, for merged circuits, last) rows.", "quantifier": "all public inputs, domains, points", "why_tests_cant": "A test proves one small circuit; the claim ranges over all polynomials, challenges, domains and instances.", "anchors": ["plonk/src/proof_system/verifier.rs evaluate_pi_poly"]}
{"id": "C62", "title": "Range proofs are sound", "statement": "If verify_range_proof accepts indices, elements and a proof against the commitment of a tree (no hash collision), the indices are consecutive and every element is the one stored at its index.", "quantifier": "all trees, index lists, element lists and proofs", "why_tests_cant": "Quantifies over all adversarial proofs.", "anchors": ["merkle_tree/src/internal.rs 202-246"]}
{"id": "C63", "title": "The commitment binds the contents", "statement": "Two universal trees of the same height with equal commitments hold the same contents, unless their hashing exhibits a collision.", "quantifier": "all pairs of histories", "why_tests_cant": "Quantifies over pairs of unbounded histories.", "anchors": ["merkle_tree/src/macros.rs 62-64", "merkle_tree/src/internal.rs 428-440"]}
{"id": "C64", "title": "Padding helpers are exact", "statement": "pad_with_zeros keeps its input as a prefix and appends fewer than `multiple` zeros to reach a multiple (and panics only for multiple 0); hadamard_product is the pointwise product and refuses different lengths.", "quantifier": "all vectors and multiples", "why_tests_cant": "Quantifies over all lengths and multiples.", "anchors": ["utilities/src/lib.rs compute_len_to_next_multiple, pad_with_zeros, hadamard_product"]}
{"id": "C65", "title": "The satisfiability check accepts exactly the satisfying assignments", "statement": "For a circuit under construction built from the public API, check_circuit_satisfiability succeeds on an assignment and public input exactly when the public input has the declared length, every gate equation holds (with the public input value on input gates and 0 elsewhere), every range-checked variable is below the range size and every lookup gate's entry is in the table.", "quantifier": "all fields, all circuits built by variable creation, gate insertion, public inputs and range checks, all assignments and public inputs", "why_tests_cant": "the check is exercised on a handful of circuits; unit tests cannot show that no violated constraint is skipped for an arbitrary circuit", "anchors": ["relation/src/constraint_system.rs:585-650", "relation/src/constraint_system.rs:894-938"]}
{"id": "C66", "title": "Lookup tables constrain lookups to their own rows", "statement": "After create_table_and_lookup_variables(lookups, table), the circuit accepts exactly the previously accepted assignments in which every lookup (key, v0, v1) equals (i, t0, t1) for some row i of that same table; several tables in one circuit do not mix.", "quantifier": "all circuits built by the API with any number of tables, all assignments", "why_tests_cant": "A test builds one circuit and checks one or two assignments; the claim ranges over every circuit the builder can reach and every assignment, including those a dishonest prover picks.", "anchors": ["relation/src/gadgets/ultraplonk/lookup_table.rs create_table_and_lookup_variables", "relation/src/constraint_system.rs check_circuit_satisfiability"]}
{"id": "C67", "title": "Poseidon2 hash padding", "statement": "The variable-length Poseidon2 hash feeds distinct inputs to the sponge as distinct whole-block inputs (rate zero panics). The fixed-length hash refuses an input longer than INPUT_SIZE and zero-pads any shorter input to INPUT_SIZE.", "quantifier": "all inputs, rates, sizes and sponges", "why_tests_cant": "A test hashes a few inputs; injectivity of the padding ranges over all pairs of inputs of all lengths.", "anchors": ["poseidon2/src/crhf.rs"]}
{"id": "C68", "title": "BLS12-381 keys and signatures survive serialization", "statement": "Decoding the encoding of a key or signature in the same mode returns it and consumes exactly its bytes; another mode, a truncated encoding or (with validation) an invalid point is refused; decoding never panics; the announced size is the number of bytes written.", "quantifier": "all keys and signatures, both modes, all byte strings", "why_tests_cant": "A test round-trips a few keys; truncations and arbitrary byte strings are unbounded.", "anchors": ["signature/src/bls_over_bls12381.rs CanonicalSerialize, CanonicalDeserialize"]}
{"id": "C69", "title": "Hashing to the BN254 curve is total and canonical", "statement": "The point a message hashes to lies on the curve, has the smaller ordinate, is the first admissible candidate, does not depend on which square root the field library returns, and exists for every message.", "quantifier": "all messages and field hash values", "why_tests_cant": "A test hashes a few messages; the loop has no bound in the code and the choice of root is made by a library.", "anchors": ["signature/src/bls_over_bn254.rs hash_to_curve"]}
{"id": "C70", "title": "Masks hide the opened values", "statement": "At any bound + 1 distinct points outside the evaluation domain, the masked polynomial takes any prescribed values, and for exactly one mask.", "quantifier": "all polynomials, domains, mask degrees, points and target values", "why_tests_cant": "A test draws one mask; the claim is a bijection between masks and values.", "anchors": ["plonk/src/proof_system/prover.rs mask_polynomial"]}
{"id": "C71", "title": "The verifier returns an error on malformed proofs", "statement": "Verifying a proof whose lists have the lengths of the verifying key never panics; a proof with other lengths is refused with an error.", "quantifier": "all verifying keys, public inputs and proofs, including adversarial ones", "why_tests_cant": "A fuzzer samples a few malformed proofs; the claim ranges over all shapes.", "anchors": ["plonk/src/proof_system/verifier.rs prepare_pcs_info", "plonk/src/proof_system/snark.rs verify, batch_verify"]}
{"id": "C72", "title": "The constraints do not depend on the values", "statement": "Two runs of one circuit-building program on different values emit the same gates, wires, public inputs and tables, and so the same proving and verifying keys; an accepted assignment of the inputs extends to the variables of a gadget that was run on other values.", "quantifier": "all programs composed of the builder's calls, all values", "why_tests_cant": "A test builds a circuit for one or two witnesses; a branch on a value that changes the constraints shows up for particular values only, and makes an honest statement unprovable under the published key.", "anchors": ["relation/src/gadgets", "relation/src/constraint_system.rs", "plonk/src/proof_system/snark.rs preprocess"]}
{"id": "C73", "title": "Truncation returns the low bits", "statement": "truncate(a, n) forces its result to be a mod 2^n, and truncate_gate(a, b, n) holds exactly when b = a mod 2^n.", "quantifier": "all field sizes, bit lengths, table sizes and assignments, including adversarial hints", "why_tests_cant": "Tests only run honest hints; which assignments are accepted is a property of the constraints.", "anchors": ["relation/src/gadgets/arithmetic.rs:326-500", "plonk/src/circuit/transcript.rs:199"]}
{"id": "C74", "title": "The Rescue gadgets compute the off-circuit hash", "statement": "In every assignment accepted by a circuit (or by any circuit it is extended to), the outputs of the Rescue permutation, keyed permutation, sponge, padded sponge, PRF and commitment gadgets are the values the off-circuit functions return on the inputs; the values the code computes are accepted.", "quantifier": "all fields and parameter sets with inverse exponents 5 or 11, all circuits, inputs, numbers of inputs and outputs, and assignments, including adversarial ones", "why_tests_cant": "A test builds one circuit and checks one or two assignments; the claim ranges over every circuit the builder can reach and every assignment, including those a dishonest prover picks.", "anchors": ["rescue/src/gadgets/native.rs", "rescue/src/gadgets/prf.rs", "rescue/src/gadgets/commitment.rs"]}
{"id": "C75", "title": "The Merkle gadgets accept exactly the pairs and absences of the tree", "statement": "A circuit that enforces a membership (non-membership) statement for a ternary Rescue Merkle tree with a given root can be satisfied only if the value is stored in the tree at a key whose field image is the index variable (no value is stored at such a key), unless a hash collision with the tree is exhibited. The proofs returned by lookups satisfy it: always for absent keys and in append-only trees, and in sparse trees exactly when no leftmost sub-block on the path of the key is empty. The Boolean variants report the same condition, and the constraints of a membership circuit do not depend on the proof.", "quantifier": "all fields of odd characteristic, all Rescue parameter sets with inverse exponents 5 or 11, all trees reachable by the API of every height, all proofs, circuits and assignments, including adversarial ones", "why_tests_cant": "A test builds one circuit and checks one or two assignments; the claim ranges over every circuit the builder can reach and every assignment, including those a dishonest prover picks.", "anchors": ["merkle_tree/src/gadgets/mod.rs", "merkle_tree/src/gadgets/universal_merkle_tree.rs", "merkle_tree/src/prelude.rs"]}
{"id": "C76", "title": "The signature gadget accepts exactly the signatures the verifier accepts", "statement": "In every assignment accepted by a circuit that calls verify_signature, whose key and signature variables carry points of the curve and whose key is not of small order, the values of key, message and signature are accepted by the off-circuit Schnorr verification with the same domain separator; check_signature_validity returns 1 exactly then and 0 otherwise. The circuit built for a signature made by sign is satisfied by the values the code computes.", "quantifier": "all complete twisted Edwards curves over prime fields, Rescue parameters, messages of every length, keys, signatures, circuits and assignments, including adversarial ones", "why_tests_cant": "A test builds one circuit and checks one or two assignments; the claim ranges over every circuit the builder can reach and every assignment, including those a dishonest prover picks.", "anchors": ["signature/src/gadgets/schnorr.rs", "signature/src/schnorr.rs verify"]}
{"id": "C77", "title": "The encryption gadget computes the ciphertext that decrypts to the plaintext", "statement": "In every assignment accepted by a circuit that calls elgamal_encrypt, the ciphertext variables carry the ciphertext the library computes from the values of key, plaintext and randomness; hence decrypting them with the secret of the key returns the plaintext.", "quantifier": "all complete twisted Edwards curves over prime fields, Rescue parameters, plaintexts of every length, keys, randomness, circuits and assignments, including adversarial ones", "why_tests_cant": "A test builds one circuit and checks one or two assignments; the claim ranges over every circuit the builder can reach and every assignment, including those a dishonest prover picks.", "anchors": ["elgamal/src/gadgets.rs", "elgamal/src/lib.rs"]}
{"id": "C78", "title": "The transcript in the circuit draws the challenges of the transcript outside", "statement": "In every assignment accepted by a circuit that uses the Rescue transcript gadget, each challenge variable carries the challenge that the Rescue transcript outside the circuit returns after the same calls on the values of the variables; the values the code computes are accepted.", "quantifier": "all sequences of calls (variables, messages, commitments, verifying keys with public inputs, proof evaluations, challenges) with anything else done to the circuit in between, all circuits with lookups and all assignments, including adversarial ones", "why_tests_cant": "A test compares one honest session; which challenges a dishonest prover can have accepted is a property of the constraints.", "anchors": ["plonk/src/circuit/transcript.rs", "plonk/src/transcript/rescue.rs"]}
{"id": "C79", "title": "Encryption with associated data decrypts only to what was encrypted", "statement": "decrypt with the key pair of the recipient and the same associated data returns the message that encrypt was given; with other associated data or another key pair it returns an error; key pairs and ciphertexts survive every serialization, and malformed bytes are an error; key pairs that compare equal decrypt alike.", "quantifier": "all keys, messages, associated data, randomness, ciphertexts (also forged ones) and byte strings", "why_tests_cant": "A test encrypts one message and drops one byte of one encoding; the claim ranges over all keys, messages, forged ciphertexts and byte strings.", "anchors": ["aead/src/lib.rs"]}
{"id": "C80", "title": "The verifier inside a circuit checks the same opening claim as the verifier outside", "statement": "The gates that partial_verify_circuit lays after its transcript (challenges as non-native elements, public input polynomial, linearization, aggregation of commitments and evaluations) succeed for every batch of keys, public inputs and proofs of the right shape; an honest run is accepted; and in every accepted assignment the evaluation points, the claimed evaluation, the scalars and bases of the combined commitment and the opening proofs are those that the verifier outside computes from the same keys, inputs, proofs and challenges.", "quantifier": "all fields, range tables, domain sizes, batches, proofs, challenges and assignments, also dishonest ones", "why_tests_cant": "A test verifies one batch of honest proofs; the claim ranges over all assignments that a dishonest prover picks and all batches and challenges.", "anchors": ["plonk/src/circuit/plonk_verifier/mod.rs", "plonk/src/circuit/plonk_verifier/gadgets.rs", "plonk/src/circuit/plonk_verifier/poly.rs", "plonk/src/circuit/plonk_verifier/structs.rs", "plonk/src/proof_system/verifier.rs"]}
{"id": "C81", "title": "The verifier inside a circuit draws the challenges of the verifier outside", "statement": "The transcript that the verifier circuit runs absorbs the keys, the public inputs and the proof in the order of the verifier outside; it refuses batches whose lengths differ; with honest values it yields the challenges that the verifier outside draws from the same keys, inputs and proof, so that the whole preparation of the opening claim inside the circuit agrees with that outside; and in every accepted assignment each challenge variable holds that value or the one other value that the unreduced remainder allows.", "quantifier": "all batches of keys, public inputs, proofs, sponge parameters and assignments, also dishonest ones", "why_tests_cant": "A test compares challenges of one honest batch; the claim ranges over all batches and over all assignments that a dishonest prover picks.", "anchors": ["plonk/src/circuit/plonk_verifier/gadgets.rs", "plonk/src/circuit/plonk_verifier/mod.rs", "plonk/src/circuit/transcript.rs", "plonk/src/transcript/rescue.rs", "plonk/src/proof_system/verifier.rs"]}
{"id": "C82", "title": "Aggregating verifying keys inside the circuit aggregates them outside", "statement": "Merging two verifying key variables, or two lists of them, yields in every assignment of a circuit the key that the merge outside gives for the two keys that the variables stand for; keys that were already merged or whose domain, number of inputs or wire constants differ are refused, and nothing else is; lists of different lengths and the empty list are refused; the parameters for non-native elements that the verifier circuit derives from its circuit are those of the scalar field and the range table.", "quantifier": "all keys, lists of keys, fields, range tables and assignments", "why_tests_cant": "A test merges one pair of keys of honest circuits; the claim ranges over all keys and assignments.", "anchors": ["plonk/src/circuit/plonk_verifier/mod.rs", "plonk/src/proof_system/structs.rs"]}
{"id": "C83", "title": "The two points that the verifier circuit returns pair if and only if the verifier outside accepts", "statement": "partial_verify_circuit succeeds on every batch of the right shape and lays a circuit that the honest assignment satisfies; the two points it returns satisfy the pairing check of its caller exactly when the verifier outside accepts the same keys, public inputs (twice per instance) and proof, whatever the blinding factor; in every accepted assignment the same equivalence holds once the challenges hold the values drawn outside; empty batches, batches of the wrong length, keys of different domains and circuits with no range table are refused.", "quantifier": "all batches, proofs, keys, generators, blinding factors, curves, pairings and assignments, also dishonest ones", "why_tests_cant": "A test verifies one batch of honest proofs and one with a changed public input; the claim ranges over all proofs and all assignments that a dishonest prover picks.", "anchors": ["plonk/src/circuit/plonk_verifier/mod.rs", "plonk/src/circuit/plonk_verifier/gadgets.rs", "relation/src/gadgets/ecc/msm.rs", "plonk/src/proof_system/verifier.rs", "plonk/src/proof_system/batch_arg.rs"]}
{"id": "C84", "title": "Multiplication with the endomorphism uses halves that make up the scalar, and the right image of the base point", "statement": "The decomposition of every scalar below the order of Bandersnatch succeeds, its halves are below 2^128 and k1 -/+ k2 lambda is the scalar. The decomposition gates accept, for a scalar, exactly the halves for which a number of multiples and a carry below 2^128 solve two equations modulo the field, whoever the prover is; the halves make up the scalar when these equations hold over the integers; the assignment of the library's prover carries the halves of the decomposition. The gates of the endomorphism accept exactly the points that satisfy two equations, which determine the image of a point of the curve away from the zeros of the denominators; the image is on the curve.", "quantifier": "all scalars, circuits, points and assignments, also dishonest ones", "why_tests_cant": "The tests multiply a few random scalars and points; about one scalar in 1500 behaves differently, and the tests do not try assignments of a dishonest prover.", "anchors": ["relation/src/gadgets/ecc/glv.rs"]}
{"id": "C85", "title": "Keys can be made exactly when the reference string is long enough, and arguments that do not fit are reported", "statement": "For every circuit built with the public operations and finalized, preprocess succeeds if the reference string has at least three powers more than the domain has elements, and returns an error otherwise; on an open circuit it returns an error. Verification and proving return a parameter error when the numbers of keys, public inputs, proofs and messages do not agree or are zero, when a public input has the wrong length, when a proof lacks or adds a lookup part, and when a proving key belongs to another domain size, number of inputs or kind of circuit.", "quantifier": "all circuits reachable through the builder API with and without lookups, reference strings, keys, proofs and argument lists", "why_tests_cant": "A test preprocesses one circuit with one reference string; the boundary moves with the circuit, and the refusals range over all argument lists.", "anchors": ["plonk/src/proof_system/snark.rs preprocess, batch_verify, verify_batch_proof, batch_prove_internal", "plonk/src/proof_system/verifier.rs prepare_pcs_info", "pcs/src/univariate_kzg/srs.rs trim"]}
{"id": "C86", "title": "Rescue over a non-native field inside the circuit is Rescue outside", "statement": "In a circuit over another field, the Rescue gadgets for states of two-limb elements (creation of a state, permutation, sponge with and without padding, keyed sponge with and without padding, keyed permutation) succeed on well-formed inputs, keep the assignment of an honest prover accepted, and hold every accepted assignment to the output that the hash outside computes for the values of the inputs, in range limbs included. Empty data, data of the wrong length, states of different moduli and parameter sets with an exponent other than 11 are reported as parameter errors.", "quantifier": "all states, keys, data, moduli, limb and table sizes with room for the sums, extensions of the circuit and assignments, also dishonest ones", "why_tests_cant": "The tests compare the honest output with the hash outside for a few inputs; the claim ranges over all assignments that a dishonest prover picks.", "anchors": ["rescue/src/gadgets/non_native.rs", "relation/src/gadgets/ultraplonk/mod_arith.rs", "relation/src/gadgets/ultraplonk/non_native_gates.rs"]}
{"id": "C87", "title": "Converting a point to Edwards form keeps the group law", "statement": "TEPoint::from on a point of the short Weierstrass curve gives a point of the twisted Edwards curve, sends infinity to the neutral point, opposite points to opposite points, different points to different points, and the sum of two points to the sum of their images wherever the Edwards law is defined. It panics exactly on points with zero ordinate and on points with Montgomery abscissa -1, and on every finite point of the curves with dummy constants. The constants of BLS12-377 meet what this needs; the Edwards curve they lead to has a square coefficient d, so that every point off the axes has a partner with which additions panic or are not determined. On the images of a finite subgroup without a point of order two neither happens: all its points convert and the Edwards law is defined and closed there.", "quantifier": "all fields, curves and constants related as the conversion asks, all points, all sets of points closed under the Edwards law", "why_tests_cant": "A test converts random points and checks the curve equation; it does not compare the group laws and never meets the exceptional points.", "anchors": ["relation/src/gadgets/ecc/conversion.rs From<SWAffine> for TEPoint, SWToTEConParam", "relation/src/gadgets/ecc/mod.rs ecc_add"]}
{"id": "C88", "title": "Point addition over an emulated field enforces the group law", "statement": "The gates on points of a curve over an emulated field (comparison, zero test, selection, the twisted Edwards and short Weierstrass additions) accept an assignment exactly when the limbs satisfy what their name says: comparison and selection hold limb by limb, an accepted addition satisfies the equations of the curve law as far as emulated arithmetic enforces them, and the point that the code computes for an addition is the sum of its arguments and is accepted. The short Weierstrass gate fails on points whose sum is the point at infinity: the honest run is refused, any other finite point is accepted as their sum, and a finite sum may be declared infinite.", "quantifier": "for all native and emulated prime fields with room for the limbs, all curve constants, circuits, points, assignments and public inputs", "why_tests_cant": "A test adds a few points of one curve with the assignment that the code computes and never tries opposite points in the circuit; the claim ranges over all assignments, also adversarial ones.", "anchors": ["relation/src/gadgets/emulated.rs:589-656", "relation/src/gadgets/ecc/emulated/short_weierstrass.rs:61-345", "relation/src/gadgets/ecc/emulated/twisted_edwards.rs:21-165"]}
{"id": "C89", "title": "Public values and points are pinned to the public inputs, in order", "statement": "Declaring a list of values, an element of an emulated field or a point of a curve over it public appends exactly its serialisation to the public inputs of the circuit; in every accepted assignment of the circuit, and of every circuit it is later extended to, the declared variables carry the values which the verifier's inputs have at that place, so that if these inputs serialise an element or a point the variable stands for this element or point; and the honest assignment stays accepted.", "quantifier": "all circuits under construction, lists of values, fields, emulated fields, limb sizes, points, later extensions, assignments and public inputs", "why_tests_cant": "A test declares a few values and checks them at once; the claim ranges over all later extensions and all assignments.", "anchors": ["relation/src/constraint_system.rs", "relation/src/gadgets/emulated.rs", "relation/src/gadgets/ecc/emulated/short_weierstrass.rs:38-104", "relation/src/gadgets/ecc/emulated/twisted_edwards.rs:50-58"]}
