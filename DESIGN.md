# Design: a Rocq model of EspressoSystems/jellyfish

The claims are listed in `properties.jsonl` (C01, C02, ...). This file says what is
modelled, how the claims are proved, what is trusted, and what was found.
`MANIFEST.json` maps each claim to the theorems that establish it.

## Method

* Every Rust function in scope becomes a total Gallina function over lists,
  `nat`/`N`/`Z`, options and records. `Result` stays data; an index out of
  bounds, an integer underflow, an `unwrap` on an error or an `assert!` is the explicit
  outcome `Panic`. Each definition cites the file and lines it models, and says where
  it simplifies.
* Primitives that come from other crates (hash functions, curve groups, pairings,
  blst, FFT libraries) are parameters. They are quantified in the theorem through a
  `Section`, with the laws they must satisfy as hypotheses or record fields; nothing
  is postulated. Prime fields, twisted Edwards groups and polynomials are constructed.
* Model files hold no proofs. Proofs live in `*Proofs.v` and similar files; the claims
  are restated in `*Props.v` next to a small specification, with concrete
  examples that meet the hypotheses.
* Where the full English claim is false of the code as written, a theorem
  `..._refuted` exhibits a concrete counterexample, and the strongest true variant
  found is proved beside it (with the suffix `_partial` when it needs a restriction
  that the claim does not mention).
* `seeded/LOG.jsonl` records edits of the model that mimic realistic bugs and the
  theorems they break; theorems that survived a harmful edit were tightened.

## Trusted base

* Coq 8.16.1's kernel (and `coqchk`, which the gate runs on every module).
* `Print Assumptions` follows each theorem of the `*Props.v` files. Every one prints
  `Closed under the global context`: no axiom is used, neither of the standard library
  nor of any other library. (`coqchk` lists a few parameters of the module
  `Coq.ssr.ssrunder` that is loaded by the standard `ssreflect` plugin files; no
  theorem depends on them.)
* The correspondence between the Rust text and the Gallina model is by reading.
* Only the standard library of Coq is imported.

## What is modelled

| crate | files | remarks |
|---|---|---|
| `merkle_tree` | `internal.rs`, `append_only.rs`, `light_weight.rs`, `universal_merkle_tree.rs`, `macros.rs`, `prelude.rs` (Rescue digest), `gadgets/*` | the hash is any function off the circuit, Rescue in it; iterators are lists |
| `utilities` | `reed_solomon_code.rs`, `conversion.rs`, padding helpers of `lib.rs` | |
| `relation` | `constraint_system.rs`, `constants.rs`, `gates/*`, `gadgets/{arithmetic,logic,range,cmp,utils}.rs`, `gadgets/ultraplonk/{range,lookup_table,mod_arith,non_native_gates}.rs`, `gadgets/emulated.rs`, `gadgets/ecc/{mod,msm,glv,conversion}.rs`, `gadgets/ecc/emulated/*` | the monad of builder states keeps errors and panics; `finalize`, the wire permutation, the lookup vectors and merging included |
| `rescue` | `lib.rs`, `sponge.rs`, `crhf.rs`, `prf.rs`, `commitment.rs`, `rescue_constants/*`, `gadgets/{native,non_native,prf,commitment}.rs` | constants transcribed |
| `poseidon2` | `lib.rs`, `external.rs`, `internal.rs`, `crhf.rs`, `constants` | |
| `signature`, `elgamal`, `vrf` | `schnorr.rs`, `bls_over_bn254.rs`, `bls_over_bls12381.rs`, `signature/src/gadgets/schnorr.rs`, `elgamal/src/{lib,gadgets}.rs`, `vrf/src/bls` | groups and blst are parameters |
| `aead` | `lib.rs` | `crypto_kx`, the cipher, bincode and JSON as documented by their crates |
| `pcs` | `univariate_kzg/*`, `multilinear_kzg/*`, `poly.rs`, `toeplitz.rs` | groups are vector spaces with a pairing |
| `plonk` | `lagrange.rs`, `proof_system/{prover,verifier,snark,structs}.rs`, `transcript/*`, `circuit/transcript.rs`, `circuit/plonk_verifier/*` | randomness is an explicit input |

## What is not modelled

* The internals of `arkworks`, `blst`, `merlin`, `sha3`, `chacha20poly1305`:
  their functions appear as parameters or as mathematical operations.
* Rust's memory behaviour, threads (`rayon`), serialization of keys through
  `ark-serialize` derive macros, `Display`/`Debug`, benchmarks and tests.
* Computational assumptions: a statement such as "binding" is reduced to an explicit
  collision, an explicit relation among group elements, or a bound on the number of
  bad challenges.

## Per property

| claim | what | model | status | remarks |
|---|---|---|---|---|
| C01 | Membership proofs produced by lookup always verify | MerkleModel | proved | histories: universal tree with update/delete/forget/remember; append-only and light-weight trees with build/extend/push/forget/remember |
| C02 | A verified membership proof implies presence | MerkleModel | proved | collision-freeness is a hypothesis about the hash queries of this tree and this verification; range and proof length are conclusions |
| C03 | The universal tree behaves as a key/value map | MerkleModel | proved | keys in range; out-of-range keys alias (refuted) |
| C04 | The universal tree commitment depends only on contents | MerkleModel | partial | holds for histories of updates, deletions and forgetting; refuted once remember is in the history |
| C05 | num_leaves counts the stored elements | MerkleModel | proved |  |
| C06 | Persistent update agrees with in-place update | MerkleModel | proved | both run the same traversal; immutability of the old tree is inherent in the model |
| C07 | Append order determines the append-only tree | MerkleModel | proved |  |
| C08 | Capacity is enforced exactly | MerkleModel | proved | a full tree answers ExistingLeaf (append-only) or ExistingLeaf/ForgottenLeaf (light-weight), not ExceedCapacity |
| C09 | The light-weight tree commits like the full tree | MerkleModel | proved |  |
| C10 | Forgetting does not change the commitment | MerkleModel | proved |  |
| C11 | Remember restores a forgotten element | MerkleModel | proved | finding: remember panics on a verifying proof shorter than the height |
| C12 | Non-membership proofs produced by universal_lookup verify | MerkleModel | proved | finding: the proof returned by universal_forget for an absent key need not verify |
| C13 | A verified non-membership proof implies absence | MerkleModel | partial | needs a proof of the height of the tree, which the code does not check; refuted without |
| C14 | Restoring an absent key keeps the commitment | MerkleModel | partial | needs full proof levels; refuted for honest proofs with empty levels |
| C15 | Iteration enumerates contents in order | MerkleModel | proved |  |
| C16 | Range proofs are complete | MerkleModel | proved |  |
| C17 | Reed-Solomon decoding inverts encoding from any k shares | RSModel | proved | needs the share positions to be distinct field elements (codeword shorter than the characteristic); refuted without |
| C18 | Reed-Solomon decoding refuses bad share sets | RSModel | proved |  |
| C19 | Bytes to field elements is lossless | ConvModel | proved | for moduli whose top byte is the top byte of their limbs; for other fields above 64 bits decoding always panics (finding) |
| C20 | Field conversions preserve small integers | ConvModel | proved | the masked conversion is exact unless the target bit length is a multiple of 8 (refuted there) |
| C21 | Arithmetic gates enforce exactly their function | CircuitModel, GadgetModel | proved | for every circuit state reachable by the builder and every field |
| C22 | Boolean gadgets are sound and complete | CircuitModel, GadgetModel | proved | a public Boolean variable gets no Boolean constraint (refuted) |
| C23 | Zero and equality tests cannot be cheated | CircuitModel, GadgetModel | proved |  |
| C24 | Range and bit decomposition gadgets are exact | CircuitModel, GadgetModel | proved | bit lengths up to the modulus size; beyond it decomposition is not canonical and is_in_range fails (refuted) |
| C25 | Comparison gadgets agree with integer order | CircuitModel, GadgetModel | proved |  |
| C26 | Wire permutation encodes exactly variable sharing | FinalModel | proved | for circuits reached by the builder whose tables start after the public inputs |
| C27 | Finalization preserves meaning | FinalModel | proved | tables must start at a gate index not below the number of public inputs; refuted without |
| C28 | A finalized circuit cannot be modified | FinalModel | proved | 61 building calls; create_table_and_lookup_variables modifies a finalized circuit (refuted) |
| C29 | The permutation argument closes for honest witnesses | FinalModel | proved | all assignments, challenges with nonzero denominators |
| C30 | The permutation argument is sound | FinalModel | proved | counts the bad challenges |
| C31 | Merging two circuits is conjunction | FinalModel | proved |  |
| C32 | Lookup gates accept exactly table members | FinalModel | proved | tables must end two rows before the domain end; refuted without (both directions) |
| C33 | Emulated field arithmetic is sound and complete | EmulatedModel | partial | the values a prover can give to a result are characterised exactly: products are enforced modulo 2^T*p with a quotient below 2^T, sums modulo 2^T; so products are right modulo q if q is below the native modulus, but can be forged in both shipped configurations; sums can be forged everywhere, and the computed sum is rejected when a limb sum is 2^B-1 and a carry comes in |
| C34 | Non-native modular arithmetic is sound | ModArithModel | partial | products and powers are proved; sums are refuted: their limbs are not range checked, and the exact set of accepted limbs is proved instead |
| C35 | Curve addition gadgets compute the group law | EccModel, Edwards | partial | Proved for native twisted Edwards curves on any set of points in which the law does not divide by zero and which is closed under it: all points of a curve with A a square and D not a square, a finite subgroup of any other curve. There the group law is constructed and ecc_add computes it for every accepted assignment. For all points of curves that are not complete (Bandersnatch, the Edwards form of BLS12-377) the claim is refuted. The additions over emulated fields are C88. |
| C36 | Scalar multiplication gadgets compute n*P | EccModel, Edwards | partial | Proved on complete curves, and on subgroups of others (C35), for fixed bases, for bit decompositions, for the naive algorithm of circuits without lookups, and for the windowed algorithm of circuits with lookups, whose tables and lookups are covered: the multiple accepted is that of some integer within the windows congruent to the scalar, so the right one when the windows stay below the modulus. When they exceed it another multiple is accepted: refuted. |
| C37 | The Rescue permutation is a bijection | RescueModel, PoseidonModel | proved | bijection for any parameters with inverse exponents and nonsingular MDS, and for the five non-mock parameter files, whose moduli are proved prime (C37_shipped_fields); the two mock files (all-zero) are not permutations (refuted); precomputed round keys = zero-key schedule is re-checked for one file only |
| C38 | Sponge padding is injective | RescueModel, PoseidonModel | proved | collisions reduce to the sponge; the fixed-length variant does not separate lengths (refuted) |
| C39 | Successive squeezes give fresh output | RescueModel, PoseidonModel | proved | one squeeze call is prefix-consistent; successive squeeze calls repeat output (refuted) |
| C40 | Commitments open correctly and bind | RescueModel, PoseidonModel | proved | binding up to a sponge collision |
| C41 | The Poseidon2 layers are invertible | RescueModel, PoseidonModel | proved | at sizes 2 and 3 the supplied diagonal is ignored (refuted) |
| C42 | Schnorr signatures verify and bind | SigModel, BlsModel | proved | the zero key, identifiers differing by trailing zero bytes and keys with a small-order component are refuted |
| C43 | BLS aggregate verification is complete | SigModel, BlsModel | proved | over an abstract bilinear pairing; rogue keys, the identity key and the unseparated identifier are recorded as refuted expectations |
| C44 | ElGamal hybrid encryption round-trips | SigModel, BlsModel | proved | the scheme gives no integrity (C44_malleable); decoding an off-curve point panics (refuted) |
| C45 | VRF outputs are verifiable and unique | SigModel, BlsModel | proved | blst is a parameter |
| C46 | KZG openings are complete | KzgModel, MlModel | proved |  |
| C47 | KZG openings of wrong values fail | KzgModel, MlModel | proved | algebraic provers; the computational assumption itself is not modelled |
| C48 | Commit refuses polynomials it cannot commit to | KzgModel, MlModel | proved | up to the supported degree; the degree check is off by one (refuted at supported degree + 1) |
| C49 | Batch verification is equivalent to verifying each claim | KzgModel, MlModel | proved | for lists of equal length; other lengths are silently cut (refuted) |
| C50 | Multi-point openings are complete | KzgModel, MlModel | proved | a repeated point panics |
| C51 | Amortised openings equal single openings | KzgModel, MlModel | proved | multi_open below the cutoff of two-adicity squared points (it panics above) and with FFT-sized parameters |
| C52 | Multilinear openings are complete | KzgModel, MlModel | proved | a proof of the wrong length panics instead of being refused |
| C53 | Multilinear batch opening opens the requested points | KzgModel, MlModel | partial | complete when the key has exactly the merged number of variables and the composed polynomial fits the chosen domain; values are those at the reversed points; all three restrictions are refuted in general |
| C54 | Masking does not change witness values | PlonkModel | proved |  |
| C55 | Quotient splitting reassembles | PlonkModel | proved | splitting succeeds exactly when no lower slice of the quotient ends in a zero coefficient; otherwise the prover panics (refuted) |
| C56 | Lagrange coefficient helpers are exact | PlonkModel | proved | radix-2 domains and their cosets; the combined function is wrong on the one-point domain (refuted) |
| C57 | Every proof the prover returns is accepted | PlonkModel | proved | for radix-2 domains and transcripts whose commitment and challenge steps are total; the prover itself may return an error |
| C58 | Batched proof verification is complete and sound | PlonkModel | proved | for keys with one opening key; refuted for keys from different reference strings, because the first opening key is used for all |
| C59 | Proof codec round-trips | TranscriptModel | proved | for proofs whose commitments are finite points; refuted for commitments at infinity, on which decoding panics, and for coordinates off the curve |
| C60 | Transcript challenges depend on everything appended | TranscriptModel | proved | for sessions of the same shape; refuted for the lookup part of a verifying key (bound by no transcript), for most of the key with the Rescue transcript, for message boundaries, and for the curves with dummy conversion constants |
| C61 | Public-input polynomial evaluation is exact | PlonkModel | proved |  |
| C62 | Range proofs are sound | MerkleModel | proved | needs a leaf digest that depends on the position; refuted for the SHA3/Keccak digests, which ignore it |
| C63 | The commitment binds the contents | MerkleModel | proved |  |
| C64 | Padding helpers are exact | ConvModel | proved |  |
| C65 | The satisfiability check accepts exactly the satisfying assignments | CircuitModel, GadgetModel | proved |  |
| C66 | Lookup tables constrain lookups to their own rows | FinalModel | proved |  |
| C67 | Poseidon2 hash padding | RescueModel, PoseidonModel | proved | the empty input is not padded to INPUT_SIZE and panics at INPUT_SIZE 0 (refuted) |
| C68 | BLS12-381 keys and signatures survive serialization | SigModel, BlsModel | proved | announced sizes are wrong (refuted) |
| C69 | Hashing to the BN254 curve is total and canonical | SigModel, BlsModel | proved |  |
| C70 | Masks hide the opened values | PlonkModel | proved |  |
| C71 | The verifier returns an error on malformed proofs | PlonkModel | partial | refuted: a proof with missing evaluations makes the verifier panic |
| C72 | The constraints do not depend on the values | all circuit models | proved | for every call in the model, and for every program composed of them |
| C73 | Truncation returns the low bits | ModArithModel | partial | the exact set of accepted results is proved; it is the truncation only when both parts are range checked, and then up to one wrap around the modulus |
| C74 | The Rescue gadgets compute the off-circuit hash | RescueGadgetModel | proved | for non-empty inputs; the gadgets refuse the empty input that the off-circuit functions accept (C74_empty_input_refuted) |
| C75 | The Merkle gadgets accept exactly the pairs and absences of the tree | MerkleGadgetModel | proved | completeness for stored pairs holds in a sparse tree exactly when no leftmost block on the path is empty, and is false otherwise (C75_empty_left_sibling_refuted); keys are told apart only below the field size (C75_index_wrap_refuted); the constraints of non-membership circuits depend on the proof (C72_non_membership_refuted) |
| C76 | The signature gadget accepts exactly the signatures the verifier accepts | SigGadgetModel | proved | under the stated conditions on key and points, which the circuit does not check itself (C76_small_order_key_refuted, C76_off_curve_refuted) |
| C77 | The encryption gadget computes the ciphertext that decrypts to the plaintext | SigGadgetModel | partial | proved for circuits without lookups and keys in the prime-order subgroup; false in circuits with lookups (C77_lookup_not_decryptable_refuted) |
| C78 | The transcript in the circuit draws the challenges of the transcript outside | TranscriptGadgetModel | partial | sessions of any length; exact characterisation of the accepted challenges. The full statement is false: when the hash plus the modulus still fits the bit length of the modulus a second challenge is accepted (C78_second_challenge_refuted), and with a range table whose size divides 248 the challenge is free up to multiples of 2^248 (C78_aligned_table_refuted). It holds when every hash is large (C78_session_large) |
| C79 | Encryption with associated data decrypts only to what was encrypted | AeadModel | partial | encryption, decryption and the canonical encodings are proved. Refusal assumes that the cipher binds key and associated data, and needs the key pair to be consistent. False of the serde encodings (a wrong nonce length panics, C79_bincode_shifted_refuted; JSON is never read back, C79_json_refuted), of equal and of default key pairs (C79_equal_keys_refuted, C79_default_refuted) |
| C80 | The verifier inside a circuit checks the same opening claim as the verifier outside | PlonkVerifierModel | partial | proved for every accepted assignment that keeps the limbs of the unchecked elements in range and has zeta outside the domain. Missing: the code does not range check the limbs of challenges, sums and negations, and without it the claim is false (C80_challenge_square_refuted). The transcript that produces the challenge variables is C78, the final multi-scalar multiplications are C36. |
| C81 | The verifier inside a circuit draws the challenges of the verifier outside | PlonkVerifierModel, TranscriptGadgetModel | partial | calls, refusals and honest challenges are proved in full. For accepted assignments each challenge is proved to be that of the verifier outside or the low 248 bits of hash plus modulus, the second value being admitted by the code (C78). Missing: assignments whose input limbs are not canonical, and batches with lookups, which the circuit does not support. The instance leaves open whether the drawn zeta lies in the domain, since this depends on the hash over the large field. |
| C82 | Aggregating verifying keys inside the circuit aggregates them outside | PlonkVerifierModel | proved | the instance merges keys over the field with 131 elements. |
| C83 | The two points that the verifier circuit returns pair if and only if the verifier outside accepts | PlonkVerifierModel | partial | the honest half and the refusals are proved in full. For accepted assignments the equivalence is proved when each challenge variable holds the value drawn outside (the code also admits a second value, C78), the limbs of unchecked elements are in range (C80_challenge_square_refuted) and the input points are on the curve and in a set where its law is defined (C35). The points of C83_instance are those of a group with 11 elements over the field with 131 elements; those of C83_instance_whole, in the fields of BLS12-377, are neutral, since a run with other points cannot be computed in the kernel. |
| C84 | Multiplication with the endomorphism uses halves that make up the scalar, and the right image of the base point | GlvModel | partial | the set of halves that the gates accept is characterised exactly; it contains halves of other scalars, since the number of multiples is not range checked, so that "the halves make up the scalar" holds only when the equation does not wrap (C84_gate_sound_partial, C84_wrong_multiple_refuted). The honest assignment is refused for some scalars (C84_scalar_refused_refuted). That the endomorphism multiplies by lambda on the subgroup, and the sum of the two multiples (additions on a curve without complete formulas, see C35), are not covered. |
| C85 | Keys can be made exactly when the reference string is long enough, and arguments that do not fit are reported | PlonkModel | proved | for reference strings with at least two powers in the second group; the search for coset representatives is assumed to succeed; with exactly two powers more than the domain the error is that of the commitment scheme, not IndexTooLarge |
| C86 | Rescue over a non-native field inside the circuit is Rescue outside | NonNativeRescueModel | partial | complete for the permutation and the sponges; for the keyed permutation the sums of states and round keys that enter the odd rounds have limbs that no gate checks, and so has the output, so that the equality is proved for assignments with these limbs in range (C86_keyed_permutation_partial, C86_stands_in_range). Fields with room for M*M*(2B+8) below the modulus, as for the shipped curves. |
| C87 | Converting a point to Edwards form keeps the group law | TranscriptModel, Edwards | proved | the sum of two points must not be the point of order two at -NEG_ALPHA, which has an Edwards image but makes the code divide by zero (C87_panics_refuted). |
| C88 | Point addition over an emulated field enforces the group law | EmulatedModel | partial | comparison, zero test and selection are proved in full. For the additions, an accepted assignment satisfies the equations with the relations that emulated multiplication and addition enforce, which are weaker than arithmetic modulo q (C33); C88_te_meaning and C88_sw_meaning show that with exact relations they are the group law. The honest direction asks that no addition meets a limb of all ones (C33). For short Weierstrass points the claim is false when the sum is infinite (the four _refuted theorems). |
| C89 | Public values and points are pinned to the public inputs, in order | PublicProps | proved | Later extensions may add variables, gates, range checks and further public inputs, but not reorder the declared ones. The reading of an element needs the inputs to be limbs of an element: the code itself puts no range check on public limbs, so a verifier who builds the inputs in another way gets no such guarantee. |

### How each group is proved

* **MerkleModel** (C01, C02, C03, C04, C05, C06, C07, C08, C09, C10, C11, C12, C13, C14, C15, C16, C62, C63): Refinement: every reachable tree equals the canonical tree of a key/value map, or a pruning of it; induction on height, on histories of calls, and on proof paths. Soundness assumes no collision among the hash queries made.
* **RSModel** (C17, C18): Lagrange interpolation and root counting for list polynomials over any field.
* **ConvModel** (C19, C20, C64): Induction on chunks, integer arithmetic modulo the field.
* **CircuitModel, GadgetModel** (C21, C22, C23, C24, C25, C65): Each gadget is specified by the constraints it appends (`gspec`), lifted to what `check_circuit_satisfiability` accepts in every later circuit state (`gadget_ok`); algebra over any (prime) field.
* **FinalModel** (C26, C27, C28, C29, C30, C31, C32, C66): Invariants of circuits reached by the builder; cycle decomposition of the wire permutation; grand-product arguments by root counting.
* **EmulatedModel** (C33): Exact characterisation of the accepted results (an assignment extends iff ...), integer arithmetic on limbs.
* **ModArithModel** (C34, C73): Gadget specifications over the integers; the exact set of accepted limbs or truncations, by running a variant of the program with chosen hints and transferring its witness.
* **EccModel, Edwards** (C35, C36): The group of a twisted Edwards curve is constructed on any set of points closed under a law without zero denominators (associativity by explicit polynomial cofactors); gadget specifications by induction on bits, windows and bases.
* **RescueModel, PoseidonModel** (C37, C38, C39, C40, C41, C67): Bijectivity of each layer, induction on rounds, Fermat's little theorem for the inverse exponents; padding by list reasoning.
* **SigModel, BlsModel** (C42, C43, C44, C45, C68, C69): Algebra in an abstract commutative group, or an abstract bilinear pairing; induction on lists of signers.
* **KzgModel, MlModel** (C46, C47, C48, C49, C50, C51, C52, C53): Polynomial division, discrete Fourier transforms, root counting; commitments live in abstract vector spaces with a pairing. Provers are algebraic where binding is claimed.
* **PlonkModel** (C54, C55, C56, C57, C58, C61, C70, C71, C85): Polynomial identities over any field with a radix-2 domain: vanishing of the constraint function, quotient, linearisation, opening, pairing check.
* **TranscriptModel** (C59, C60): Hash chains and injective encodings; binding up to an explicit collision.
* **RescueGadgetModel** (C74): Every gadget is a functional specification (`fg`): its outputs are a function of its inputs in every assignment; composed along the rounds and blocks by induction.
* **MerkleGadgetModel** (C75): Builder programs are specified by what every assignment satisfies, by when the computed assignment is accepted, and by the values it has; levels are folded by induction. The relation is then compared with the canonical tree of a map, by induction on the levels, with collision-freeness and non-zero digests as hypotheses about the tree's own queries.
* **TranscriptGadgetModel** (C78): Each call is related to the calls outside that it stands for by the values of its variables; the invariant that both transcripts hold the same is kept by every call, with arbitrary circuit building in between; the challenge is composed of the sponge gadget and the truncation gate, whose accepted values are characterised exactly.
* **PlonkVerifierModel** (C82): The reading of a key variable under an assignment is a homomorphism: point addition gates compute the sum (C35) and the decoding of points is additive on the group of the commitments. Refusals are computed by cases.
* **PlonkVerifierModel** (C83): C81 gives the opening claim inside the circuit; the two multi-scalar multiplications are resolved by the table-aware variant of C36, so that the two points are the two sides of the claim displaced by a multiple of a pair of points which pairs to the same value; bilinearity then gives the check outside.
* **GlvModel** (C84): Arithmetic of the lattice basis over the integers gives the bounds and the congruence; the gates are specified by their equations, the family of runs with other hints (C72) turns the specification into an equivalence for any prover, and the findings are solutions of the equations. The curve equation of the image is a polynomial identity of which the five coefficients are computed for the shipped constants.
* **PlonkVerifierModel, TranscriptGadgetModel** (C81): The calls the circuit makes on its transcript are computed as a list and compared with the list of calls of the verifier outside; C78 gives the value of each challenge of such a list, for the honest run and for any accepted assignment. The result is composed with C80 into a statement about the whole preparation.
* **PlonkVerifierModel** (C80): Each call on two-limb elements gets a specification with three parts: the value in the scalar field for any satisfying assignment with the listed unchecked limbs in range, acceptance of the honest run, and canonical honest values. The calls are composed in the order of the code, and the resulting values are shown to be those of the functions of the verifier outside, which are modelled separately; multi-scalar sums are compared as group elements.
* **AeadModel** (C79): The key exchange and the cipher are parameters with their laws; decryption is shown to accept exactly what encryption produces; the readers are inverted step by step, which gives round trips, uniqueness and errors on every truncation.
* **SigGadgetModel** (C76, C77): Composition of the curve, bit and Rescue gadget specifications; the relation of the circuit is then rewritten into the off-circuit functions of SigModel for the group of the curve.
* **PublicProps** (C89): A closed form of what the declarations add to gates, wires, witness and input positions; the input gate at each declared position equates wire and public input, and limbs determine the element.
* **EmulatedModel** (C88): Each gate of the addition is a step of the gadget calculus: soundness collects the relations of the emulated operations, completeness computes their values from canonical inputs; flags carry the Boolean logic of the special cases.
* **TranscriptModel, Edwards** (C87): Points go through Montgomery coordinates; chord and tangent are polynomial identities with explicit cofactors, checked by ring.
* **NonNativeRescueModel** (C86): Each element of a state stands for a value of the hash's field up to a bounded multiple of the modulus; the linear layers keep this relation with a growing bound, the power gates bring it back into range; composed along rounds and blocks by induction, for the honest run and for any accepted assignment.
* **all circuit models** (C72): A relational logic for the circuit monad: two runs on circuits that differ in the witness only.

## Findings

Each is a theorem of the development (name in parentheses). They are facts about the
model; the cited Rust lines are in the comments at the definitions.

Circuits
* In UltraPlonk circuits `variable_base_scalar_mul`/`msm` decompose the scalar into windows
  modulo the field only; the windows reach beyond the modulus for every shipped curve, so
  a prover can use `s + p` for `s` (`C36_pippenger_wraps_refuted`,
  `C36_shipped_windows_wrap_refuted`).
* Sums of two-limb elements (`mod_add`, `mod_add_vec`, `mod_add_constant`, `mod_negate`) do not
  range check the limbs they return, so their high limb is free
  (`C34_mod_add_forged_refuted`), and a product of such a sum can be wrong
  (`C34_sum_then_product_refuted`). The linear layer of the non-native hash gates ends in such
  sums.
* `truncate` checks the low part only when the bit length is larger than the range table and not
  a multiple of it, and the same for the high part. In the transcript gadget (248 bits of 377)
  with an 8-bit table the challenge is not determined; with a 16-bit table it is, up to a wrap
  around the modulus (`C73_aligned_refuted`, `C73_truncate_partial`, `C73_transcript_sizes`).
* On curves where neither coefficient is a square (Bandersnatch) the addition gate leaves a
  coordinate free for some pairs of points, and building the addition panics for others
  (`C35_incomplete_curve_refuted`, `C35_incomplete_panic_refuted`).  The theorems on curve
  gadgets are therefore stated for a set of points in which the law is defined and closed
  (`C35_complete_law`, `C35_subgroup_law`).  The Edwards form of BLS12-377, in which the
  verifier circuit computes, has a square coefficient `d`: every point off the axes has a
  partner with which the addition panics or leaves the abscissa free
  (`C87_shipped_not_complete`); subgroups of odd order are not concerned
  (`C87_odd_subgroup`).  Converting a point of
  order two, or one of order four, panics (`C87_panics_refuted`).
* The membership gadget asks that the leftmost label of every level is not zero. A pair in a sparse
  tree with an empty leftmost sub-block on its path has a valid proof but cannot be
  proved in a circuit (`C75_empty_left_sibling_refuted`).
* The membership gadget does not tie the index to the branches: for roots that are not roots
  of a tree it accepts what the verifier rejects (`C75_index_not_bound_refuted`). Indices are
  compared in the field, so keys beyond the modulus wrap (`C75_index_wrap_refuted`). A level
  of zero siblings means different things on and off the circuit (`C75_zero_level_refuted`).
* The wiring of a non-membership circuit depends on which levels of the proof are empty, so
  one proving key does not serve all keys (`C72_non_membership_refuted`).
* The Schnorr gadget does not repeat the verifier's check against keys of small order: under the
  neutral key every message has a signature that the circuit accepts
  (`C76_small_order_key_refuted`). It does not check that the points lie on the curve
  (`C76_off_curve_refuted`), nor that the response is reduced
  (`C76_response_not_unique_refuted`).
* In circuits with lookups the ElGamal gadget inherits the window wrap of `msm`: it accepts
  ciphertexts that do not decrypt to the plaintext (`C77_lookup_not_decryptable_refuted`).
* Emulated multiplication is enforced modulo `2^T * p` with a quotient below `2^T`; with
  an emulated modulus above the native one (both shipped configurations) products can be
  forged (`C33_mul_forged_refuted`, `C33_bn254_forged_refuted`, `C33_bls377_forged_refuted`);
  sums can be forged or honest sums rejected (`C33_add_forged_refuted`,
  `C33_add_rejects_honest_refuted`).
* The emulated short Weierstrass addition gate tests its infinity flag the wrong way round:
  for opposite points it demands a finite result, so the honest run is refused
  (`C88_opposite_refused_refuted`, `C88_sw_ecc_add_opposite_refuted`) and any other finite point
  is accepted as their sum (`C88_opposite_any_refuted`); a finite sum may carry the flag of
  infinity (`C88_infinity_claimed_refuted`).
* `unpack` with more bits than the modulus is not canonical, `is_in_range` fails at the full
  bit size (`C24_*_refuted`); public Boolean variables are not constrained
  (`C22_public_boolean_refuted`).
* Tables created before enough gates exist are displaced by finalization
  (`C27_early_table_refuted`); a table in the last row is not looked up, and a stuck table makes
  an accepted circuit unprovable (`C32_*_refuted`); `create_table_and_lookup_variables` modifies a
  finalized circuit (`C28_tables_refuted`); `set_variable_public` does not check its variable
  (`C27_unchecked_public_refuted`); `msm` of no bases panics (`C36_msm_empty_panics_refuted`).
* In the non-native Rescue gadgets the keyed permutation leaves the limbs of the sums of states
  and round keys that enter the odd rounds, and of its output, without a range check
  (C86, `C86_keyed_permutation_partial`); the permutation and the sponges check all of theirs.
  Only the exponent 11 is supported (`C86_other_exponent`).

Trees
* Non-membership proofs of any length verify (`C13_any_length_refuted`); the universal tree's
  commitment depends on `remember` (`C04_after_remember_refuted`), restoring with honest proofs
  that have empty levels fails (`C14_empty_level_refuted`), `universal_forget`'s proof of
  an absent key need not verify (`C12_universal_forget_proof_refuted`); out-of-range keys alias
  (`C03_out_of_range_refuted`); `remember` panics on a short verifying proof
  (`C11_short_proof_panics_refuted`); position-blind digests break range proofs
  (`C62_position_blind_refuted`). The example `IntervalMerkleTree` hashes four elements with
  an unpadded sponge of rate three, which always errs.

Commitments and proofs
* `multi_open` panics above a number of points, with exactly trimmed keys
  (`C51_*_refuted`); batch verification truncates lists (`C49_truncates_refuted`); the degree
  check of `commit` is off by one (`C48_top_degree_refuted`); multilinear proofs of the wrong
  length panic (`C52_proof_length_refuted`); batched multilinear openings open reversed points
  and need exact keys (`C53_*_refuted`).
* A proof with missing evaluations makes the PLONK verifier panic (`C71_malformed_proof_refuted`);
  batches use the first opening key for all (`C58_open_keys_refuted`); the prover panics when a
  slice of the quotient ends in zero (`C55_zero_slice_refuted`); one-point domains are
  wrong (`C56_single_refuted`); circuits with domain size at most two are not provable.
* No transcript binds the lookup part of a verifying key, the Rescue transcript binds only
  selectors, permutation and inputs, and message boundaries are not marked (`C60_*_refuted`).
* The challenge of the transcript in the circuit is not always that of the transcript outside:
  if the hash is small a second value is accepted (`C78_second_challenge_refuted`), and with a
  range table of 8 bits there are `2^129` values (`C78_aligned_table_refuted`).
* The transcript of the verifier circuit absorbs the limbs of its inputs without reducing them and
  truncates a hash whose decomposition is not compared with the modulus, so that each challenge
  has two admissible values (`C81_challenges_partial`).
* The verifier circuit does not range check the limbs of the challenges: at small parameters it
  accepts a wrong square of a challenge (`C80_challenge_square_refuted`). It panics while the
  circuit is built if the challenge is one (`C80_zeta_one_panics`).
* Decoding proofs with commitments at infinity, lookup parts or points off the curve panics or
  mis-decodes (`C59_*_refuted`).
* `preprocess` compares the number of powers, not the degree, with the size it needs: one power
  short of enough, the error is that of the commitment scheme instead of `IndexTooLarge`
  (`C85_preprocess_boundary`).

Hashes, signatures, encodings
* The Rescue sponge and PRF gadgets refuse the empty input, which the off-circuit functions
  accept (`C74_empty_input_refuted`).
* Mock Rescue parameters are not permutations (`C37_mock_parameters_refuted`); fixed-length
  sponges do not separate lengths (`C38_lengths_not_separated_refuted`); a second `squeeze`
  repeats the output of the first (`C39_successive_squeezes_refuted`); Poseidon2 ignores
  supplied diagonals at sizes two and three (`C41_small_diagonal_ignored_refuted`); the
  empty input is not padded (`C67_empty_input_refuted`).
* Multiplication with the endomorphism (`glv_mul`): the number of multiples of the order is not range
  checked, so that a prover can use the halves of another scalar, for instance a nonzero multiple
  for the scalar zero, in every circuit (`C84_wrong_multiple_refuted`); the sign of the carry is
  dropped, so that the library's own assignment is refused for some scalars below the order
  (`C84_scalar_refused_refuted`); on the neutral point the first coordinate of the image is free
  (`C84_endomorphism_free_refuted`) and an honest builder panics (`C84_endomorphism_panics_refuted`).
* Schnorr accepts the zero key, identifiers that differ by trailing zeros, keys with small-order
  components (`C42_*_refuted`); BLS aggregation is open to rogue and identity keys
  (`C43_*_refuted`); announced key sizes are wrong (`C68_sizes_refuted`); ElGamal decoding
  of an invalid point panics (`C44_invalid_point_panics_refuted`). `hash_to_field` panics for
  fields above 384 bits.
* AEAD: a ciphertext whose encoded nonce has another length than 24 panics instead of returning an
  error, also when the first byte of a good encoding is lost and the nonce starts with a zero byte
  (`C79_bincode_shifted_refuted`); no ciphertext survives JSON, the visitor expecting the nonce
  as an element of the array that holds its bytes (`C79_json_refuted`); key pairs that compare equal
  may hold different secret keys (`C79_equal_keys_refuted`); the default key pair cannot open
  what is encrypted to it (`C79_default_refuted`).
* Reed-Solomon positions collide in short fields (`C17_long_codeword_refuted`); byte
  decoding panics for some fields (`C19_spare_byte_refuted`); masked conversions lose a bit at
  multiples of eight (`C20_*_refuted`).
