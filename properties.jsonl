{"id": "C01", "title": "Completeness of PPE proofs", "statement": "For every pairing-product equation (PPE) with m>=1 X variables in G1 and n>=1 Y variables in G2, m-by-n gamma, n constants A and m constants B, every CRS with two elements in each commitment key, and every witness satisfying the equation, commit_and_prove returns a proof without panicking and verify accepts it.", "quantifier": "all sizes m,n >= 1, all constants, targets, witnesses satisfying the equation, all CRS values with two-element keys, all RNG behaviours, all rayon schedules in prover and verifier", "why_tests_cant": "a test fixes one size, one equation, one seed and one schedule; the claim is over all of them", "anchors": ["src/prover/prove.rs:PPE::commit_and_prove", "src/prover/prove.rs:PPE::prove", "src/verifier.rs:PPE::verify"]}
{"id": "C02", "title": "Completeness of MSMEG1 proofs", "statement": "For every multi-scalar multiplication equation in G1 (MSMEG1) with m>=1 X variables in G1 and n>=1 Y variables in Fr, m-by-n gamma, n constants A and m constants B, every CRS with two elements in each commitment key, and every witness satisfying the equation, commit_and_prove returns a proof without panicking and verify accepts it.", "quantifier": "all sizes m,n >= 1, all constants, targets, witnesses satisfying the equation, all CRS values with two-element keys, all RNG behaviours, all rayon schedules in prover and verifier", "why_tests_cant": "a test fixes one size, one equation, one seed and one schedule; the claim is over all of them", "anchors": ["src/prover/prove.rs:MSMEG1::commit_and_prove", "src/prover/prove.rs:MSMEG1::prove", "src/verifier.rs:MSMEG1::verify"]}
{"id": "C03", "title": "Completeness of MSMEG2 proofs", "statement": "For every multi-scalar multiplication equation in G2 (MSMEG2) with m>=1 X variables in Fr and n>=1 Y variables in G2, m-by-n gamma, n constants A and m constants B, every CRS with two elements in each commitment key, and every witness satisfying the equation, commit_and_prove returns a proof without panicking and verify accepts it.", "quantifier": "all sizes m,n >= 1, all constants, targets, witnesses satisfying the equation, all CRS values with two-element keys, all RNG behaviours, all rayon schedules in prover and verifier", "why_tests_cant": "a test fixes one size, one equation, one seed and one schedule; the claim is over all of them", "anchors": ["src/prover/prove.rs:MSMEG2::commit_and_prove", "src/prover/prove.rs:MSMEG2::prove", "src/verifier.rs:MSMEG2::verify"]}
{"id": "C04", "title": "Completeness of QuadEqu proofs", "statement": "For every quadratic equation (QuadEqu) with m>=1 X variables in Fr and n>=1 Y variables in Fr, m-by-n gamma, n constants A and m constants B, every CRS with two elements in each commitment key, and every witness satisfying the equation, commit_and_prove returns a proof without panicking and verify accepts it.", "quantifier": "all sizes m,n >= 1, all constants, targets, witnesses satisfying the equation, all CRS values with two-element keys, all RNG behaviours, all rayon schedules in prover and verifier", "why_tests_cant": "a test fixes one size, one equation, one seed and one schedule; the claim is over all of them", "anchors": ["src/prover/prove.rs:QuadEqu::commit_and_prove", "src/prover/prove.rs:QuadEqu::prove", "src/verifier.rs:QuadEqu::verify"]}
{"id": "C05", "title": "Perfect soundness of PPE verification", "statement": "For every CRS output by generate_crs there are extraction maps on single commitments, inverse to the commit functions, such that whenever verify returns true on a pairing-product equation (PPE) and an arbitrary (possibly adversarial) proof, the extracted X and Y values satisfy the equation.", "quantifier": "all RNG behaviours, all equations of any (even ragged) shape, all CProof values however produced, all schedules", "why_tests_cant": "soundness is a statement about every forged proof; tests only try honest ones", "anchors": ["src/verifier.rs:PPE::verify", "src/generator.rs:CRS::generate_crs"]}
{"id": "C06", "title": "Perfect soundness of MSMEG1 verification", "statement": "For every CRS output by generate_crs (provided the generator(s) of the group(s) hosting scalar commitments drawn by generate_crs are not the identity) there are extraction maps on single commitments, inverse to the commit functions, such that whenever verify returns true on a multi-scalar multiplication equation in G1 (MSMEG1) and an arbitrary (possibly adversarial) proof, the extracted X and Y values satisfy the equation.", "quantifier": "all RNG behaviours, all equations of any (even ragged) shape, all CProof values however produced, all schedules", "why_tests_cant": "soundness is a statement about every forged proof; tests only try honest ones", "anchors": ["src/verifier.rs:MSMEG1::verify", "src/generator.rs:CRS::generate_crs"]}
{"id": "C07", "title": "Perfect soundness of MSMEG2 verification", "statement": "For every CRS output by generate_crs (provided the generator(s) of the group(s) hosting scalar commitments drawn by generate_crs are not the identity) there are extraction maps on single commitments, inverse to the commit functions, such that whenever verify returns true on a multi-scalar multiplication equation in G2 (MSMEG2) and an arbitrary (possibly adversarial) proof, the extracted X and Y values satisfy the equation.", "quantifier": "all RNG behaviours, all equations of any (even ragged) shape, all CProof values however produced, all schedules", "why_tests_cant": "soundness is a statement about every forged proof; tests only try honest ones", "anchors": ["src/verifier.rs:MSMEG2::verify", "src/generator.rs:CRS::generate_crs"]}
{"id": "C08", "title": "Perfect soundness of QuadEqu verification", "statement": "For every CRS output by generate_crs (provided the generator(s) of the group(s) hosting scalar commitments drawn by generate_crs are not the identity) there are extraction maps on single commitments, inverse to the commit functions, such that whenever verify returns true on a quadratic equation (QuadEqu) and an arbitrary (possibly adversarial) proof, the extracted X and Y values satisfy the equation.", "quantifier": "all RNG behaviours, all equations of any (even ragged) shape, all CProof values however produced, all schedules", "why_tests_cant": "soundness is a statement about every forged proof; tests only try honest ones", "anchors": ["src/verifier.rs:QuadEqu::verify", "src/generator.rs:CRS::generate_crs"]}
{"id": "C09", "title": "Honest proofs of false statements are rejected", "statement": "If commit_and_prove is run on a witness that does not satisfy the equation, it still returns a proof, and verify returns false: verify(commit_and_prove(w)) is true exactly when w satisfies the equation (for PPE under every CRS; for the others when the maps of scalars into the commitment group are injective, as for generate_crs with non-identity generators).", "quantifier": "all sizes >= 1, all equations and witnesses, all RNGs and schedules", "why_tests_cant": "tests check no negative case at all; accepting one false witness would be invisible to them", "anchors": ["src/prover/prove.rs:Provable::commit_and_prove", "src/verifier.rs:Verifiable::verify"]}
{"id": "C10", "title": "Group-element commitments are perfectly binding", "statement": "Under a CRS from generate_crs, if commit_G1 (resp. commit_G2) of two values with any randomness gives the same commitment then the values are equal.", "quantifier": "all RNG behaviours for key and commitments, all pairs of values", "why_tests_cant": "requires ruling out every collision", "anchors": ["src/prover/commit.rs:commit_G1", "src/prover/commit.rs:commit_G2", "src/generator.rs:CRS::generate_crs"]}
{"id": "C11", "title": "Scalar commitments are perfectly binding", "statement": "Under a CRS from generate_crs whose generator in the target group is not the identity, if commit_scalar_to_B1 (resp. B2) of two scalars gives the same commitment then the scalars are equal.", "quantifier": "all RNG behaviours, all pairs of scalars", "why_tests_cant": "requires ruling out every collision", "anchors": ["src/prover/commit.rs:commit_scalar_to_B1", "src/prover/commit.rs:commit_scalar_to_B2"]}
{"id": "C12", "title": "Commitments under a hiding key are perfectly hiding", "statement": "Under a key built with prepare_simulated_hinding_key (non-identity generators), for any two values there is a bijection of the randomness under which all four single and batch commit functions output the same commitments: the commitment distribution does not depend on the value. Under keys from generate_crs this fails for any two different values.", "quantifier": "all hiding keys, all pairs of equally long value vectors, all randomness", "why_tests_cant": "equality of distributions quantifies over all random tapes", "anchors": ["src/generator.rs:CRS::prepare_simulated_hinding_key", "src/prover/commit.rs:batch_commit_G1", "src/prover/commit.rs:batch_commit_scalar_to_B1"]}
{"id": "C13", "title": "Perfect witness indistinguishability under a hiding key", "statement": "Under a hiding key, for any two witnesses satisfying the same equation there is a bijection of random tapes such that commit_and_prove outputs the same commitments, pi and theta for both; hence the public part of the output is identically distributed. For all four equation types.", "quantifier": "all hiding keys, all sizes >= 1, all equations, all pairs of satisfying witnesses, all random tapes", "why_tests_cant": "equality of distributions quantifies over all random tapes and witness pairs", "anchors": ["src/prover/prove.rs:Provable::commit_and_prove", "src/generator.rs:CRS::prepare_simulated_hinding_key"]}
{"id": "C14", "title": "Equations sharing commitments are satisfied jointly", "statement": "If several equations, possibly of different types, verify against the same commitment vectors under one generated CRS, then one single assignment of the variables satisfies all of them.", "quantifier": "all lists of equations of the four types, all proofs, all CRS from generate_crs", "why_tests_cant": "conjunction over all forged proof sets", "anchors": ["src/verifier.rs:Verifiable::verify", "src/statement.rs:Statement"]}
{"id": "C15", "title": "Published commitments keep the witness secret", "statement": "A Commit1/Commit2 value, or its serialization, does not determine the committed values for the holder of the CRS. (Refuted: the derived serialization includes the commitment randomness, from which every committed value is recovered.)", "quantifier": "all commitments produced by the API, all CRS", "why_tests_cant": "a leak is a statement about what can be computed from all outputs", "anchors": ["src/prover/commit.rs:Commit1", "src/prover/commit.rs:Commit2"]}
{"id": "C16", "title": "Batch commitment equals appended single commitments", "statement": "For each of the four commit functions, batch-committing a non-empty list gives the same Commit value and leaves the RNG in the same state as committing element by element with the same RNG and appending the results in order.", "quantifier": "all non-empty lists, all keys with two elements, all RNGs", "why_tests_cant": "tests check length 3 with one seed", "anchors": ["src/prover/commit.rs:batch_commit_G1", "src/prover/commit.rs:commit_G1", "src/prover/commit.rs:append"]}
{"id": "C17", "title": "commit_and_prove is commit, commit, prove", "statement": "For each equation type commit_and_prove yields exactly the commitments of the batch commit functions on X then Y and the proof of prove on them, with the RNG threaded through in that order; it panics exactly when one of these steps does.", "quantifier": "all inputs including ill-shaped ones, all RNGs, schedules", "why_tests_cant": "tests check one seed and one shape", "anchors": ["src/prover/prove.rs:Provable::commit_and_prove"]}
{"id": "C18", "title": "Random draws consumed", "statement": "commit_G1/G2 consume exactly 2 field draws, scalar commits 1, the batch versions 2 or 1 per element in element order, prove consumes 4, 2, 2 and 1 draws for PPE, MSMEG1, MSMEG2, QuadEqu, generate_crs one G1, one G2 and four field draws; results depend on the RNG only through those draws.", "quantifier": "all RNGs and inputs on which the call returns", "why_tests_cant": "tests rely on it to synchronise RNGs but never establish it in general", "anchors": ["src/prover/commit.rs", "src/prover/prove.rs", "src/generator.rs:generate_crs"]}
{"id": "C19", "title": "append concatenates and drains", "statement": "append(self, other) leaves self holding its own commitments then other's in order, the randomness rows likewise, and other empty; it panics exactly when one of the two has different numbers of commitments and randomness rows, and then nothing has been changed.", "quantifier": "all Commit values", "why_tests_cant": "all shapes, including deserialized inconsistent ones", "anchors": ["src/prover/commit.rs:Commit::append"]}
{"id": "C20", "title": "API-built commitments always match their randomness", "statement": "Every Commit value obtained by any sequence of commit, batch commit and append operations has one randomness row per commitment and each commitment is the map of a value plus that row times the key; hence append on such values never panics.", "quantifier": "all finite histories of commit/batch/append operations, all RNGs, values, keys with two elements", "why_tests_cant": "an invariant over unbounded histories", "anchors": ["src/prover/commit.rs:Commit::append", "src/prover/commit.rs:batch_commit_G1"]}
{"id": "C21", "title": "Parallel and sequential matrix products agree", "statement": "left_mul and right_mul on field, Com1 and Com2 matrices give the same outcome (same value, or the same kind of panic) with is_parallel true under every order in which the worker threads compute the entries as with is_parallel false.", "quantifier": "all matrices of any shape, all execution orders of the entry computations", "why_tests_cant": "schedules cannot be enumerated by tests", "anchors": ["src/data_structures.rs:Mat::left_mul", "src/data_structures.rs:Mat::right_mul"]}
{"id": "C22", "title": "Matrix products are the mathematical ones", "statement": "For non-empty rectangular operands of matching dimension left_mul/right_mul return the matrix whose (i,j) entry is the sum over k of lhs_ik rhs_kj; products associate ((A B) C = A (B C)) and distribute over add, for scalar-scalar, scalar-commitment and commitment-scalar products.", "quantifier": "all dimensions >= 1, all entries", "why_tests_cant": "tests check a few fixed sizes", "anchors": ["src/data_structures.rs:Mat::left_mul", "src/data_structures.rs:Mat::right_mul"]}
{"id": "C23", "title": "Matrix addition, negation and scalar multiplication laws", "statement": "On non-empty rectangular matrices of equal shape add is entry-wise, commutative and associative, M + neg M is zero, scalar_mul multiplies each entry and distributes.", "quantifier": "all shapes >= 1x1, all entries", "why_tests_cant": "tests check fixed sizes", "anchors": ["src/data_structures.rs:Mat::add", "src/data_structures.rs:Mat::neg", "src/data_structures.rs:Mat::scalar_mul"]}
{"id": "C24", "title": "Transpose laws", "statement": "On non-empty rectangular matrices transpose swaps indices and is an involution, and transposing a field product reverses it: (A B)^T = B^T A^T.", "quantifier": "all dimensions >= 1", "why_tests_cant": "tests check fixed sizes", "anchors": ["src/data_structures.rs:Mat::transpose"]}
{"id": "C25", "title": "Exact panic conditions of matrix operations", "statement": "add, scalar_mul, transpose, left_mul, right_mul and col_vec_to_vec panic exactly on the stated shapes (empty operand for add, scalar_mul and transpose, mismatched counts, rows too short, transpose with a row longer than the first), and return the stated value on all others, including ragged ones: rows longer than needed are silently truncated.", "quantifier": "all matrices of any shape, ragged ones included", "why_tests_cant": "all shapes", "anchors": ["src/data_structures.rs:Mat"]}
{"id": "C26", "title": "Commitment groups are abelian groups", "statement": "Com1, Com2 and ComT with +, -, unary -, zero, sum form abelian groups with == as equality and is_zero recognising exactly zero; += and -= agree with + and -; sum of a sequence is independent of order.", "quantifier": "all elements and sequences", "why_tests_cant": "tests check random samples", "anchors": ["src/data_structures.rs:impl_base_commit_groups", "src/data_structures.rs:ComT"]}
{"id": "C27", "title": "scalar_mul is a module action", "statement": "scalar_mul on Com1 and Com2 distributes over both additions, is compatible with field multiplication, and 1 acts as identity.", "quantifier": "all elements and scalars", "why_tests_cant": "tests check single samples", "anchors": ["src/data_structures.rs:Com1::scalar_mul", "src/data_structures.rs:Com2::scalar_mul"]}
{"id": "C28", "title": "The commitment pairing is bilinear and non-degenerate", "statement": "ComT::pairing is additive and homogeneous in both arguments; pairing x with every y gives zero only for x zero (and symmetrically); pairing_sum equals the sum of pairings and panics exactly on different lengths.", "quantifier": "all elements and vectors", "why_tests_cant": "tests check single samples", "anchors": ["src/data_structures.rs:ComT::pairing", "src/data_structures.rs:ComT::pairing_sum"]}
{"id": "C29", "title": "Linear maps commute with the pairings", "statement": "For each equation type pairing the images of two values equals the image of their product in the equation's own pairing (e(x,y), y*x, x*y in G2, x*y in Fr), for any CRS with two-element keys; the maps are linear; batch maps are element-wise.", "quantifier": "all values and CRSs", "why_tests_cant": "tests check single samples under generated CRS", "anchors": ["src/data_structures.rs:linear_map_PPE", "src/data_structures.rs:linear_map_MSMEG1", "src/data_structures.rs:linear_map_MSMEG2", "src/data_structures.rs:linear_map_quad"]}
{"id": "C30", "title": "Matrix conversions round-trip and reject wrong shapes", "statement": "From(as_col_vec(c)) = c for Com1 and Com2, as_vec lists the same entries as as_col_vec, From(as_matrix(t)) = t for ComT, From panics exactly on matrices that are not 2x1 (resp. 2x2) in their first two rows, col_vec_to_vec inverts vec_to_col_vec on every vector.", "quantifier": "all elements, matrices and vectors", "why_tests_cant": "all shapes", "anchors": ["src/data_structures.rs:From", "src/data_structures.rs:as_col_vec", "src/data_structures.rs:as_matrix", "src/data_structures.rs:col_vec_to_vec", "src/data_structures.rs:vec_to_col_vec"]}
{"id": "C31", "title": "Shape of a generated CRS", "statement": "For every RNG generate_crs returns (never panics) a CRS with two elements in each key, u[0] = (g1_gen, a1 g1_gen), u[1] = t1 u[0], v[0] = (g2_gen, a2 g2_gen), v[1] = t2 v[0] for the scalars drawn, and gt_gen = e(g1_gen, g2_gen), which is non-zero exactly when both generators are. When the generators are non-zero, the two points and four scalars drawn are determined by the reference string; and every binding reference string is returned on some RNG.", "quantifier": "all RNG behaviours", "why_tests_cant": "tests use one seed", "anchors": ["src/generator.rs:CRS::generate_crs", "src/generator.rs:CRS::prepare_real_binding_key"]}
{"id": "C32", "title": "Binding and hiding keys differ only in one component each", "statement": "A key prepared with prepare_simulated_hinding_key from the same random values as a generated CRS differs from it only in u[1].1 and v[1].1, by exactly one generator; with a non-identity generator the hiding keys span the whole commitment group, the binding keys never do.", "quantifier": "all random values", "why_tests_cant": "all values", "anchors": ["src/generator.rs:CRS::prepare_simulated_hinding_key", "src/generator.rs:CRS::prepare_real_binding_key"]}
{"id": "C33", "title": "Verification ignores private randomness", "statement": "verify returns the same outcome for two CProofs that agree on commitments, pi, theta and equ_type, whatever their stored randomness; it does not depend on gt_gen either; for PPE it depends on the CRS only through u and v.", "quantifier": "all equations, proofs, CRSs, schedules", "why_tests_cant": "non-interference is a two-run property over all inputs", "anchors": ["src/verifier.rs:Verifiable::verify"]}
{"id": "C34", "title": "Exact outcomes of verify on arbitrary input", "statement": "verify panics exactly when the number of equation proofs is not one, the type tag differs, or the listed length conditions between constants, gamma, commitments, pi, theta and CRS fail; otherwise it returns a boolean.", "quantifier": "all equations, proofs and CRSs, any shape", "why_tests_cant": "all shapes", "anchors": ["src/verifier.rs:Verifiable::verify"]}
{"id": "C35", "title": "Exact panic conditions of prove", "statement": "prove panics exactly when the numbers of variables, randomness rows and columns, gamma rows and columns, constants and key elements do not match the equation type's dimensions (all at least 1); otherwise it returns a proof of the right type with the right numbers of pi and theta elements.", "quantifier": "all inputs of any shape", "why_tests_cant": "all shapes", "anchors": ["src/prover/prove.rs:Provable::prove"]}
{"id": "C36", "title": "Every satisfiable statement can be proved", "statement": "Completeness including equations with no X variables or no Y variables. (Refuted: batch commitment and hence commit_and_prove panic on an empty variable list, and verify panics on every equation with X variables but no Y variables.)", "quantifier": "all equations with m = 0 or n = 0", "why_tests_cant": "tests contain no empty case", "anchors": ["src/prover/commit.rs:batch_commit_G1", "src/data_structures.rs:Mat::add", "src/prover/prove.rs:Provable::commit_and_prove"]}
{"id": "C37", "title": "Proofs have a unique accepted length", "statement": "verify accepts only proofs with exactly the number of pi and theta elements that prove produces. (Holds for PPE; refuted for MSMEG1, MSMEG2 and QuadEqu, where surplus elements are ignored.)", "quantifier": "all equations and proofs", "why_tests_cant": "concerns all forged proofs", "anchors": ["src/verifier.rs:MSMEG1::verify", "src/verifier.rs:MSMEG2::verify", "src/verifier.rs:QuadEqu::verify"]}
{"id": "C38", "title": "Proofs can be re-randomized", "statement": "For every accepted proof and every choice of proof randomness, shifting pi by -T^T v and theta by T u gives another accepted proof for the same commitments; so verification does not bind a unique proof.", "quantifier": "all equations, accepted proofs, randomness", "why_tests_cant": "all accepted proofs", "anchors": ["src/verifier.rs:Verifiable::verify", "src/prover/prove.rs:Provable::prove"]}
{"id": "C39", "title": "Equation type encoding", "statement": "Serializing an EquType writes exactly one byte in either mode, deserializing returns the same type and leaves the rest of the input, every other tag byte and empty input is rejected, and reported size is 1.", "quantifier": "all types, modes and byte strings", "why_tests_cant": "all byte strings", "anchors": ["src/statement.rs:EquType"]}
{"id": "C40", "title": "Serialization round-trips", "statement": "For PPE, MSMEG1, MSMEG2, QuadEqu, Commit1, Commit2, EquProof, Com1, Com2 and CRS: deserializing what was serialized, followed by any other bytes, gives an equal value and exactly those other bytes, in compressed and uncompressed mode, with or without validation, given that the element codecs do.", "quantifier": "all values with vector lengths below 2^64, both modes, any trailing bytes", "why_tests_cant": "tests check one random value per type", "anchors": ["src/statement.rs:PPE", "src/prover/commit.rs:Commit1", "src/prover/prove.rs:EquProof", "src/generator.rs:CRS"]}
{"id": "C41", "title": "Serialization is canonical and prefix-free", "statement": "No two distinct byte strings deserialize (consuming everything) to the same value, and no proper prefix of a serialization deserializes, given element codecs with these properties.", "quantifier": "all values and byte strings", "why_tests_cant": "all byte strings", "anchors": ["src/statement.rs", "src/prover/commit.rs", "src/prover/prove.rs", "src/generator.rs"]}
{"id": "C42", "title": "serialized_size is exact", "statement": "serialized_size of each serializable type equals the number of bytes serialize_with_mode writes.", "quantifier": "all values and modes", "why_tests_cant": "all values", "anchors": ["src/statement.rs:EquType::serialized_size", "src/statement.rs:PPE"]}
{"id": "C43", "title": "Verification after transport", "statement": "Serializing a statement, CRS, commitments and equation proof and verifying the deserialized values gives the same outcome as verifying the originals.", "quantifier": "all statements, proofs, CRSs, modes", "why_tests_cant": "all values", "anchors": ["src/statement.rs", "src/verifier.rs"]}
{"id": "C44", "title": "Non-identity generators are needed for soundness", "statement": "generate_crs never outputs a CRS under which a false statement is accepted. (Refuted without the non-identity assumption: if the RNG draws the identity as generator, generate_crs returns it unchecked and false MSMEG1, MSMEG2 and quadratic statements are accepted.)", "quantifier": "all RNG behaviours", "why_tests_cant": "the event has negligible probability so sampling never sees it", "anchors": ["src/generator.rs:CRS::generate_crs"]}
{"id": "C45", "title": "Commitments are additively homomorphic", "statement": "The sum of commitments to x and x' under randomness r and r' is the commitment to x+x' under r+r', for all four commit functions.", "quantifier": "all values and randomness, two-element keys", "why_tests_cant": "all values", "anchors": ["src/prover/commit.rs:commit_G1", "src/prover/commit.rs:commit_scalar_to_B1"]}
{"id": "C46", "title": "Type tags are consistent", "statement": "prove stamps the proof with the equation's get_type, and verifying a proof under an equation of another type panics rather than accepting.", "quantifier": "all equations and proofs", "why_tests_cant": "all inputs", "anchors": ["src/prover/prove.rs:EquProof", "src/verifier.rs:Verifiable::verify", "src/statement.rs:Equation::get_type"]}
{"id": "C47", "title": "Verifier reads only the m-by-n part of gamma", "statement": "Two equations that differ only in gamma entries beyond the first n columns of rows after the first have the same verification outcome, so a ragged gamma is not rejected by verify though prove rejects it.", "quantifier": "all equations, proofs, CRSs", "why_tests_cant": "all shapes", "anchors": ["src/verifier.rs:PPE::verify", "src/data_structures.rs:Mat::left_mul"]}
{"id": "C48", "title": "Zero-knowledge under a hiding key", "statement": "Under a hiding key with known trapdoor there is a simulator that, without a witness, produces commitments, pi and theta distributed exactly as commit_and_prove on any satisfying witness, for MSMEG1, MSMEG2 and QuadEqu with any target and for PPE whose target is given as e(k*g1, Q) + e(P, l*g2) with k, l known. Its proofs are accepted by verify even when no assignment satisfies the equation.", "quantifier": "all hiding keys, equations, satisfying witnesses, random tapes", "why_tests_cant": "equality of distributions over all tapes", "anchors": ["src/prover/prove.rs:Provable::commit_and_prove", "src/generator.rs:CRS::prepare_simulated_hinding_key"]}
{"id": "C49", "title": "Binding and hiding keys are indistinguishable under SXDH", "statement": "For any randomized test, |Pr[test on generate_crs output] - Pr[test on hiding CRS]| is at most the sum of the DDH advantages of four explicit distinguishers built from it, two in G1 and two in G2; hence advantage eps gives DDH advantage at least eps/4 (counting over all random choices; base points from any sampler).", "quantifier": "all boolean tests on CRSs, all finite bilinear groups", "why_tests_cant": "a reduction is about every adversary", "anchors": ["src/generator.rs:CRS::generate_crs"]}
{"id": "C50", "title": "Witness indistinguishability of real proofs reduces to key indistinguishability", "statement": "Under generate_crs keys, the advantage of any randomized test (which may choose equation and witnesses after seeing the CRS) in telling apart the public proof output of two satisfying witnesses is at most the sum of two explicit key-distinguishing advantages plus the probability that a sampled base point is the identity; combined with C49, the sum of eight DDH advantages plus that probability. For all four equation types.", "quantifier": "all tests, witness pairs, equations", "why_tests_cant": "a reduction is about every adversary", "anchors": ["src/prover/prove.rs:Provable::commit_and_prove", "src/generator.rs:CRS::generate_crs"]}
{"id": "C51", "title": "Validated deserialization checks every element", "statement": "When a value of any serializable type is deserialized with Validate::Yes, every scalar and group element inside it satisfies what the element's own validation checks (e.g. subgroup membership), including elements in nested vectors.", "quantifier": "all types, modes, byte strings and element validity predicates", "why_tests_cant": "all byte strings; a skipped check is invisible on honest data", "anchors": ["src/data_structures.rs:Com1", "src/generator.rs:CRS", "src/prover/commit.rs:Commit1", "src/prover/prove.rs:EquProof", "src/statement.rs:PPE"]}
{"id": "C52", "title": "Byte layout", "statement": "Each serializable type is written as its fields in order of declaration, a vector as its length in 8 little-endian bytes followed by its items, a matrix as a vector of vectors, an equation type as one tag byte.", "quantifier": "all values and modes", "why_tests_cant": "round-trip tests do not see the layout", "anchors": ["src/statement.rs", "src/prover/commit.rs", "src/prover/prove.rs", "src/generator.rs"]}
{"id": "C53", "title": "Computational zero-knowledge of real proofs", "statement": "Any randomized test tells public commit_and_prove output under generate_crs keys from simulator output under hiding keys with advantage at most one explicit key-distinguishing advantage (hence four DDH advantages) plus the probability that a sampled base point is the identity. For all four equation types (PPE with a target given as e(k*g1,Q)+e(P,l*g2)).", "quantifier": "all tests, equations, satisfying witnesses, base-point samplers, finite bilinear groups", "why_tests_cant": "a reduction is about every adversary", "anchors": ["src/prover/prove.rs:Provable::commit_and_prove", "src/generator.rs:CRS::generate_crs", "src/generator.rs:CRS::prepare_simulated_hinding_key"]}
{"id": "C54", "title": "Equality of API values is exact", "statement": "== on Commit1, Commit2, PPE, MSMEG1, MSMEG2, QuadEqu, EquProof and CProof returns true exactly when the two values agree in every field, lengths of vectors and private randomness included; so two proofs with the same public content but different stored randomness compare unequal.", "quantifier": "all pairs of values of each type", "why_tests_cant": "tests compare a few values; a comparison that ignores a field or a length passes them", "anchors": ["src/prover/commit.rs:PartialEq", "src/statement.rs:PPE", "src/statement.rs:MSMEG1", "src/statement.rs:MSMEG2", "src/statement.rs:QuadEqu", "src/prover/prove.rs:EquProof", "src/prover/prove.rs:CProof"]}
{"id": "C55", "title": "Outcomes do not depend on thread scheduling", "statement": "For every input, well-formed or not, prove, commit_and_prove and verify have the same outcome (same value and RNG state, or the same kind of panic) under any two orders in which the worker threads run the tasks of the parallel matrix products.", "quantifier": "all pairs of execution orders, all inputs, RNGs, four equation types", "why_tests_cant": "schedules cannot be enumerated by running the code", "anchors": ["src/prover/prove.rs:Provable", "src/verifier.rs:Verifiable", "src/data_structures.rs:Mat::left_mul", "src/data_structures.rs:Mat::right_mul"]}
{"id": "C56", "title": "prove works on commitments built in any way", "statement": "For every equation type, if the x-commitments and y-commitments were obtained by any sequence of single commits, batch commits and appends under the key and hold a satisfying assignment, prove on them returns a proof that verify accepts; for an assignment that does not satisfy the equation the honest proof is rejected (given non-degenerate pairing and usable keys).", "quantifier": "all call histories of the commitment API, RNGs and states, schedules, equations, assignments", "why_tests_cant": "the tests of the repository only prove over one batch commitment per side; histories cannot be enumerated", "anchors": ["src/prover/prove.rs:Provable", "src/prover/commit.rs:Commit", "src/verifier.rs:Verifiable"]}
{"id": "C57", "title": "Systems of equations over shared commitments", "statement": "Committing once to group elements and scalars in both groups and then proving any list of equations of any of the four types over those commitments gives proofs that all verify if all equations hold, and are not all accepted if some equation does not hold; and whatever commitments and proofs are accepted under a generated key, the equations hold jointly for the one assignment the commitments determine.", "quantifier": "all lists of equations of all types, assignments, keys, RNGs, schedules; for soundness all commitments and proofs", "why_tests_cant": "systems and adversarial proofs are infinitely many", "anchors": ["src/prover/prove.rs:Provable", "src/prover/commit.rs:batch_commit_G1", "src/verifier.rs:Verifiable", "src/generator.rs:generate_crs"]}
{"id": "C58", "title": "Witness indistinguishability and zero-knowledge for systems", "statement": "Under a hiding key the published part of the commitments and proofs of a system of equations over shared commitments has the same distribution for any two satisfying assignments, and is reproduced by a simulator that uses the trapdoors and zero in place of every variable; under keys from generate_crs the distinguishing probabilities are bounded by advantages against DDH in the two groups plus the probability of an identity generator.", "quantifier": "all lists of equations of all types, satisfying assignments, hiding keys, tests", "why_tests_cant": "distributions over all random tapes; single-equation hiding does not imply it because commitments are shared", "anchors": ["src/prover/prove.rs:Provable", "src/prover/commit.rs:batch_commit_G1", "src/generator.rs:generate_crs"]}
{"id": "C59", "title": "Under a hiding key the accepted proofs of a true equation are exactly the prover's outputs", "statement": "For commitments made under a hiding key to an assignment that satisfies the equation, and for every proof element of the right type and lengths: verify accepts it if and only if there is exactly one choice of the prover's random scalars from which prove computes it. (For quadratic equations this also holds under a binding key.)", "quantifier": "all equations of all four types, satisfying assignments, commitments, hiding keys, candidate proofs, RNGs, schedules", "why_tests_cant": "the candidate proofs are all tuples of group elements, and 'every accepted proof is an output' quantifies over all of them", "anchors": ["src/prover/prove.rs:Provable", "src/verifier.rs:Verifiable"]}
{"id": "C60", "title": "Proofs can be re-randomized without the witness", "statement": "Adding fresh multiples of the key elements to the commitments of a proof and correcting pi and theta (with the equation's public constants and fresh scalars, no witness) leaves the outcome of verify unchanged, keeps the committed values, and, when the proof came from commit_and_prove, gives the same distribution of commitments and proofs as a fresh commit_and_prove for the same assignment.", "quantifier": "all equations, proofs (also adversarial ones), keys, random scalars; for the distribution all runs of commit_and_prove and all tapes", "why_tests_cant": "distributions over all tapes and arbitrary proofs cannot be enumerated", "anchors": ["src/prover/prove.rs:Provable", "src/prover/commit.rs:batch_commit_G1", "src/verifier.rs:Verifiable"]}
{"id": "C61", "title": "The example equations in the documentation", "statement": "With the constants, variables and matrix given in the documentation of PPE, MSMEG1, MSMEG2 and QuadEqu, commit_and_prove followed by verify accepts exactly when the documented equation holds, where ^5 means multiplication by 5 (multiplicative notation); read as a fifth power of a scalar the documented quadratic equation is not what is proved.", "quantifier": "all values of the variables and constants, keys, RNGs, schedules", "why_tests_cant": "the repository has no test of these examples and the values are unbounded", "anchors": ["src/statement.rs:PPE", "src/statement.rs:MSMEG1", "src/statement.rs:MSMEG2", "src/statement.rs:QuadEqu"]}
{"id": "C62", "title": "Commitments are homomorphic, proofs combine linearly, and variables can be substituted linearly", "statement": "The combination c + k c' of commitments to X and X' is a commitment to X + k X'. From accepted proofs of two equations about the same commitments, the combination of the proofs is an accepted proof of the combined equation. For equations without products of variables, from accepted proofs about different commitments the combination is an accepted proof about the combined commitments with the combined target. For any matrices L and K, an equation about the combinations L X and K Y of committed values is an equation about X and Y: the two hold together, verification with the combined commitments has the same outcome, panics included, as verification of the equation about X and Y, and prove returns the same proof and state for both.", "quantifier": "all commitments, equations, proofs, scalars, matrices of scalars, keys", "why_tests_cant": "infinitely many adversarial proofs and equations", "anchors": ["src/prover/commit.rs:batch_commit_G1", "src/verifier.rs:Verifiable"]}
{"id": "C63", "title": "Under a binding key an accepted proof exists exactly for satisfying commitments", "statement": "Under a binding key with non-identity generators and for an equation of the right shape, there is a proof element that verify accepts for given commitments if and only if the commitments can be opened to an assignment that satisfies the equation.", "quantifier": "all equations of all four types, commitments (also adversarial), binding keys, schedules", "why_tests_cant": "quantifies over all proofs and all openings", "anchors": ["src/verifier.rs:Verifiable", "src/prover/prove.rs:Provable", "src/generator.rs:generate_crs"]}
{"id": "C64", "title": "Under a hiding key every equation has an accepted proof", "statement": "Under a hiding key with non-identity generators, for every equation of the right shape, satisfiable or not, and any commitments whatsoever (for quadratic equations any commitments to scalars), there is a proof element that verify accepts; so soundness depends on generate_crs making binding keys.", "quantifier": "all equations, commitments, hiding keys, schedules", "why_tests_cant": "existence for every equation and every commitment", "anchors": ["src/verifier.rs:Verifiable", "src/generator.rs:generate_crs"]}
{"id": "C65", "title": "Exactly when an accepted proof exists, for an arbitrary reference string", "statement": "For every reference string whose keys have two elements each and whose generators are not the identity, no matter how it was made, and for commitments that open to X and Y: there is a proof element that verify accepts for an equation of the right shape if and only if X and Y satisfy the equation or one of the two kinds of commitment used is not binding under that reference string.", "quantifier": "all reference strings, equations of all four types, commitments, openings, schedules", "why_tests_cant": "quantifies over all reference strings and all proofs", "anchors": ["src/verifier.rs:Verifiable", "src/prover/prove.rs:Provable", "src/generator.rs:CRS"]}
{"id": "C66", "title": "Each kind of commitment is binding or perfectly hiding, never both", "statement": "For every reference string with two-element keys, commitments to G1, to G2, to scalars in B1 and to scalars in B2 are each either binding (no commitment opens to two values) or perfectly hiding (the single and the batch commit functions give identically distributed commitments for any two inputs of the same length), and never both (for points: in groups with more than one element).", "quantifier": "all reference strings, values, batches, RNGs", "why_tests_cant": "quantifies over all reference strings and all random tapes", "anchors": ["src/prover/commit.rs:commit_G1", "src/prover/commit.rs:batch_commit_G1", "src/prover/commit.rs:commit_scalar_to_B1", "src/prover/commit.rs:batch_commit_scalar_to_B1"]}
{"id": "C67", "title": "Exact panic behaviour of every function", "statement": "For every input, including ill-formed ones, each matrix operation, each conversion from a matrix, each scalar and target map, append, all eight commit functions, verify, prove and commit_and_prove for all four equation types end as the first failing entry of an explicit list of checks in program order says: they return if no check fails, and otherwise panic with the kind (failed assertion or index out of bounds) of the first check that fails. Whether and how a call panics depends only on lengths and the equation type of the proof, never on values, random draws or the schedule.", "quantifier": "all inputs of any shape, RNG states, schedules, parallel and sequential", "why_tests_cant": "exhausts all shapes of ragged matrices, keys, proofs and batches, and the order of the checks", "anchors": ["src/data_structures.rs:Mat", "src/data_structures.rs:col_vec_to_vec", "src/prover/commit.rs", "src/prover/prove.rs:Provable", "src/verifier.rs:Verifiable"]}
{"id": "C68", "title": "Draws from the RNG, also when a call panics", "statement": "For every input, including ill-formed ones, each commit function leaves the generator after exactly the draws of its batch even if it panics (the draws come first). prove draws exactly 4, 2, 2 or 1 scalars (PPE, MSMEG1, MSMEG2, quadratic) if its opening assertions and the transpositions of the commitment randomness succeed, even if it panics afterwards, and none otherwise. commit_and_prove draws for the x commitments, then, if that call returns, for the y commitments, then, if that call returns and gamma has the dimensions of the variables, for the proof. The number of draws never depends on values, only on lengths.", "quantifier": "all inputs of any shape, RNGs and RNG states, schedules", "why_tests_cant": "exhausts all ill-formed inputs and RNGs; a caller that catches panics and reuses the generator observes this state", "anchors": ["src/prover/commit.rs", "src/prover/prove.rs:Provable"]}
{"id": "C69", "title": "Every function in closed form", "statement": "For every input of any shape, each matrix operation (both implementations), conversion, map into the commitment spaces, commit function, verify, prove and commit_and_prove is equal to its closed form: it panics with the first of its checks, in program order, that fails; if none fails it returns the value given by an explicit formula (entrywise sums and products; c_i = x_i + sum r_il u_l with the randomness in the order drawn; pi and theta of the Groth-Sahai prover; the truth of the verification equation) and leaves the generator after the stated number of draws. No assumption on the groups, the pairing, the reference string or the arguments is made.", "quantifier": "all fields, groups, pairings (bilinear or not), inputs of any shape including ragged and empty matrices and malformed reference strings, RNGs and states, thread schedules", "why_tests_cant": "a complete functional description: two programs that differ on any input cannot both satisfy it", "anchors": ["src/data_structures.rs", "src/prover/commit.rs", "src/prover/prove.rs", "src/verifier.rs"]}
{"id": "C70", "title": "Validation is exactly check", "statement": "For Com1, Com2, CRS, Commit1, Commit2, EquProof, EquType and the four equation types, if the element types have these laws: reading without validation returns any written value; reading with validation accepts exactly the inputs that are read without validation as a value that passes check; batch_check accepts exactly the batches all of whose items pass check; check accepts exactly the values each of whose group elements and scalars pass check.", "quantifier": "all values, byte strings, batches, modes and element codecs", "why_tests_cant": "a check that skips one field or one row is only visible on an input that is invalid in exactly that place", "anchors": ["src/data_structures.rs", "src/generator.rs", "src/prover/commit.rs", "src/prover/prove.rs", "src/statement.rs"]}
{"id": "C71", "title": "Truncated input and error values", "statement": "For the same types, if the element types behave so: every strict prefix of the serialization of a value is rejected with IoError (lack of input), with and without validation; and reading, check and batch_check return no error values besides those of the element types, IoError and, for the type tag, InvalidData.", "quantifier": "all values, prefixes, byte strings, modes and element codecs", "why_tests_cant": "exhausts all prefixes of all serializations", "anchors": ["src/data_structures.rs", "src/generator.rs", "src/prover/commit.rs", "src/prover/prove.rs", "src/statement.rs"]}
{"id": "C72", "title": "The repository's own tests pass in every environment", "statement": "Each of the 96 tests of /repo passes for every pairing (bilinear where the test pairs), every random generator in every state and every schedule of parallel tasks, where the two generators of a test start in the same state; test_valid_generators and test_valid_binding_CRS pass exactly when the drawn generators (and the two scalars that hide the generators) are not zero; test_MSMEG2_cproof_is_commit_and_prove and test_quadratic_cproof_is_commit_and_prove, which do not fix the seed of the generator, can fail when their two generators differ.", "quantifier": "all pairings, generators, states, schedules and element codecs", "why_tests_cant": "a test run sees one curve, one seed and one schedule", "anchors": ["src/data_structures.rs", "src/generator.rs", "src/statement.rs", "src/prover/commit.rs", "src/prover/prove.rs", "tests/commit.rs", "tests/prover.rs"]}
{"id": "C73", "title": "What the benchmarks compute", "statement": "For every pairing, generator, state, schedule and number of iterations: the matrix benchmarks compute the product in every iteration, sequentially and in parallel; the commitment benchmarks return in every iteration the commitment with fresh randomness and advance the generator by a fixed number of draws; the proof benchmarks return the proofs with fresh randomness; the verify benchmarks accept in every iteration exactly if the dummy target equals the left-hand side of the equation. The large PPE benchmarks, read as functions of the numbers m and n of variables, panic unless m = n, as they give a_consts m and b_consts n entries; with the sizes of the source (334 and 334) they never panic.", "quantifier": "all pairings, generators, states, schedules, iteration counts and sizes", "why_tests_cant": "benchmarks drop the values they compute", "anchors": ["benches/bench.rs"]}
{"id": "C74", "title": "Soundness error of a generated reference string", "statement": "Over the uniform random choices of generate_crs and any choices of an adversary that sees the reference string: no adversary ever has a false pairing product equation accepted; a false MSMEG1, MSMEG2 or quadratic equation is accepted at most with the probability that the generator of G2, of G1, or one of the two is the identity, and some adversary reaches exactly this probability. The same probabilities bound the chance to open a scalar commitment to two values, and are reached; commitments to group elements are never opened to two values. For uniform points of groups of orders p1 and p2 the probabilities are 1/p1, 1/p2 and 1/p1 + 1/p2 - 1/(p1 p2).", "quantifier": "all finite fields, pairings, point samplers, adversaries with random choices, classes of unsatisfiable equations, schedules", "why_tests_cant": "a probability over all keys and a bound over all adversaries", "anchors": ["src/generator.rs", "src/verifier.rs"]}
{"id": "C75", "title": "Extraction with the discrete logarithms of the key", "statement": "The second components of u1 and v1 of a generated reference string are known multiples a1, a2 of its generators, namely by the first two scalars that generate_crs draws. Decrypting c as c.2 - a c.1 with these scalars gives back the group elements that were committed to, and the generator times the scalars that were committed to. The decryptions of the commitments of every accepted proof satisfy the pairing product equation; for the other equation kinds they satisfy the equation with scalars replaced by multiples of the generators.", "quantifier": "all bilinear pairings, keys from generate_crs in any RNG state, secret keys, schedules, equations and accepted proofs, with no condition on the generators", "why_tests_cant": "an extractor given as a formula in the key, for every accepted proof however it was made", "anchors": ["src/generator.rs", "src/prover/commit.rs", "src/verifier.rs"]}
{"id": "C76", "title": "Equivocation with the trapdoor of a hiding key", "statement": "With the trapdoor scalars t1, t2 of a hiding reference string and the discrete logarithms of committed values, the randomness of any commitment can be changed such that the commit functions return the same commitment for any other values of the same number. With these reopened commitments the prover makes a proof, accepted for the unchanged commitments, of any equation that the new values satisfy, whatever the first values were.", "quantifier": "all bilinear pairings, hiding keys, RNG states, schedules, committed values, new values and equations", "why_tests_cant": "the simulator's trapdoor use, proved of the commit and prove functions themselves", "anchors": ["src/prover/commit.rs", "src/prover/prove.rs", "src/verifier.rs"]}
{"id": "C77", "title": "A Type-III pairing is needed", "statement": "If there is a one-to-one homomorphism from G1 to G2, or from G2 to G1, a test that uses only the reference string, this map and the pairing decides for every commitment in the first group, under every generated reference string with non-identity generator, whether it contains given values. This test tells published proofs made from different values apart, for each of the four equation types, with advantage exactly the probability that the generator is not the identity. The map also tells generated keys from hiding keys with this advantage, and solves decisional Diffie-Hellman up to a factor of 1 - 1/|F|.", "quantifier": "all non-degenerate bilinear pairings, maps, samplers of base points, RNG states, equations and pairs of assignments that differ", "why_tests_cant": "an attack for every pairing with such a map, with its exact advantage; the README's requirement of a Type-III pairing as a theorem", "anchors": ["README.md", "src/generator.rs", "src/prover/commit.rs", "src/prover/prove.rs"]}
{"id": "C78", "title": "SXDH is needed", "statement": "Every distinguisher for decisional Diffie-Hellman in G1 or in G2 becomes, by random self-reduction, a test that tells generated keys from hiding keys, and a test that tells published proofs for two assignments apart whenever they differ in a variable committed in that group, for each of the four equation types. The advantage of each test is exactly the distinguisher's advantage times |F|/(|F|-1).", "quantifier": "all pairings, samplers of base points, randomized distinguishers, equations of the given size, pairs of assignments that differ at a position, schedules", "why_tests_cant": "the exact advantage of a reduction over all keys and proof randomness; the converse of C49 and C50, so that the assumption the README names is necessary as well as sufficient", "anchors": ["README.md", "src/generator.rs", "src/prover/commit.rs", "src/prover/prove.rs"]}
{"id": "C79", "title": "Affine and projective points", "statement": "When the arkworks types represent the elements of the groups (each operation on representations does what the group operation does on the elements; representations need not be unique, and other points may exist), every function of the library, with its conversions between affine and projective points, maps representations to representations of what the function over the abstract groups returns: all operators of Com1, Com2, ComT and their matrices, the linear maps, key generation, the commitments, append, derived ==, prove and commit_and_prove of the four types, including panics; and verify returns the same result.", "quantifier": "all curves and pairings given by operations without laws, all representations, all arguments that represent elements, generators, schedules", "why_tests_cant": "relates two models for every representation of every input; tests use the one representation that arkworks happens to produce", "anchors": ["src/data_structures.rs", "src/generator.rs", "src/prover/commit.rs", "src/prover/prove.rs", "src/verifier.rs"]}
{"id": "C80", "title": "The guarantees hold for every implementation of the groups", "statement": "For any implementation in the sense of C79, with proofs and keys made by the functions that work on affine and projective points: an honestly made proof is accepted exactly if the assignment satisfies the equation; for a generated key there are extractors that recover every committed value and under which every accepted proof consists of a satisfying assignment; and under a hiding key a bijection of the random tapes makes the published points of two satisfying assignments equal, if affine representations are unique.", "quantifier": "all implementations, equations, assignments, keys, generators, schedules, proofs that represent elements", "why_tests_cant": "universal over implementations, adversarial proofs and randomness", "anchors": ["src/data_structures.rs", "src/generator.rs", "src/prover/commit.rs", "src/prover/prove.rs", "src/verifier.rs"]}
{"id": "C81", "title": "Points of G1 that the pairing does not see", "statement": "If points of the G1 components of a proof are replaced by points with the same pairings, verify returns the same result, for each of the four equation types. So it is false that the commitments of an accepted proof represent group elements (refuted by a curve with points outside the group, as can be read with Validate::No). Soundness survives: the equation holds of the values extracted from the points with the invisible part removed.", "quantifier": "all implementations without laws, relations of points with the same pairings, proofs; for the refutation an explicit implementation", "why_tests_cant": "concerns adversarial points outside the prime-order subgroup, which honest code never makes", "anchors": ["src/verifier.rs", "src/data_structures.rs", "src/prover/prove.rs"]}
{"id": "C82", "title": "Proofs received as bytes", "statement": "Over affine points: whatever bytes a verifier reads with Validate::Yes as a key, commitment, equation or proof, the value read represents group elements, and every representing value survives serialization in either mode. For a generated key and each of the four equation types: any bytes that are read with validation and accepted yield extracted values that satisfy the equation, and an honest proof that is sent and read, with or without validation, is accepted exactly if the values satisfy the equation. With Validate::No it is false that accepted bytes represent group elements.", "quantifier": "all implementations and element codecs whose validation accepts exactly the represented points, byte strings, compression modes, equations, values, randomness, schedules", "why_tests_cant": "quantifies over every byte string an attacker can send", "anchors": ["src/data_structures.rs", "src/prover/commit.rs", "src/prover/prove.rs", "src/statement.rs", "src/generator.rs", "src/verifier.rs"]}
{"id": "C83", "title": "Computational witness indistinguishability over affine points", "statement": "Over affine and projective points, for a reference string output by generate_crs and each of the four equation types: a distinguisher that sees the reference string and the published part of a proof made with one of two witnesses of an equation of its choice has at most the advantage of eight explicit DDH distinguishers, four in each group, which see affine points and compute with the operations of the curves, plus the probability that a base point is the identity.", "quantifier": "all implementations of the groups with unique affine representations, finite fields, distinguishers with any random choices, equations and witnesses that depend on them and on the reference string, schedules", "why_tests_cant": "a statement about the sums over all randomness and about every distinguisher", "anchors": ["src/generator.rs", "src/prover/prove.rs", "src/prover/commit.rs"]}
{"id": "C84", "title": "Computational zero-knowledge over affine points", "statement": "Over affine and projective points, for a reference string output by generate_crs and each of the four equation types: a distinguisher tells the reference string and the published part of a proof from a simulated hiding reference string and a proof made with all variables zero and corrected with the trapdoors, computed with the operations of the curves, with at most the advantage of four explicit DDH distinguishers that see affine points, plus the probability that a base point is the identity.", "quantifier": "all implementations of the groups with unique affine representations, finite fields, distinguishers with any random choices, true equations that depend on them and on the reference string, schedules", "why_tests_cant": "a statement about the sums over all randomness and about every distinguisher", "anchors": ["src/generator.rs", "src/prover/prove.rs", "src/prover/commit.rs"]}
{"id": "C85", "title": "Many proofs requested adaptively", "statement": "An adversary who sees the reference string requests proofs of systems of equations one after another, choosing each system and its satisfying assignments from all answers published so far; the prover answers with the library's commit and prove functions, one RNG passed from call to call. Under a hiding key the sequence of answers has the same distribution for any two ways of choosing the witnesses, and is reproduced by a simulator that uses the trapdoors and zero for every variable. Under keys from generate_crs the distinguishing probability is bounded by the advantages of explicit DDH distinguishers plus the probability of an identity generator, and the bound does not grow with the number of requests. Proving a system draws exactly the number of scalars its sizes determine.", "quantifier": "all strategies of requests, numbers of requests, systems of all equation types, satisfying assignments, tests with any random choices, finite fields, schedules", "why_tests_cant": "distributions over the random tapes of whole interactive sessions and every adaptive strategy", "anchors": ["src/prover/prove.rs:Provable", "src/prover/commit.rs", "src/generator.rs:generate_crs"]}
{"id": "C86", "title": "Unused and known variables, the order of variables and the order of the two groups do not matter", "statement": "Let an equation about m left and n right variables be restated about longer lists of m' and n' variables: variable i becomes variable f i (g j on the right) for injective f and g, coefficients and entries of gamma move along, and every coefficient or gamma entry of a variable that is not in the original equation is zero. Then the two equations hold together, whatever values the additional variables have; prove produces the same proof elements from the same randomness, whatever the values and the commitment randomness of the additional variables; and verify returns the same outcome, panics included, whatever the additional commitments are. Nor does it matter which group is called the first: over the pairing with its two groups exchanged, with the two keys of the reference string exchanged (a binding key stays binding, a hiding key hiding), gamma transposed, the variables, constants, commitments and pi and theta of the two sides exchanged, the commitment functions of one side are those of the other (result, panics and draws); an equation holds exactly if its mirror image does (MSMEG1 and MSMEG2 are mirror images); verify has the same answer on the mirror image of a proof; and up to a bijection of the random scalars prove on the mirror image returns the mirror image of the proof, and commit_and_prove on the mirror image makes the same commitments with the same randomness, on the other sides, and the mirror image of the proof. Finally, a variable whose value is known can be made part of the constants: if the commitment to the last left (or right) variable is its value itself, that is the commitment with zero randomness, then verify has the same outcome, panics included, as on the proof without that commitment for the equation in which the terms with that variable are moved into the constants of the other side and the target; prove with zero randomness for it returns the same proof and state; and the two equations hold together.", "quantifier": "for every pairing (bilinear where the statement pairs), all m, n > 0, all m', n', all injective renamings, all well-formed equations of the four types, all variables, commitments, proofs, common reference strings, schedules and generator states", "why_tests_cant": "all numbers of variables, all injective renamings, and all values, randomness and commitments of the additional variables", "anchors": ["src/statement.rs:24-28", "src/prover/prove.rs:Provable", "src/verifier.rs:Verifiable", "src/prover/commit.rs:batch_commit_G1, batch_commit_G2"]}
{"id": "C87", "title": "Systems of equations over affine and projective points", "statement": "For any implementation of the groups by affine and projective points, committing to all variables of a system once and proving its equations of any types gives representations of what the group-level functions give, with the same panics, and verifying gives the same outcome. Hence over points: honest proofs of a well-formed system are accepted exactly when the system holds; under the output of generate_crs, whatever system is accepted holds for one assignment determined by the commitments, as long as every point in the commitments and proofs represents a group element; and under a hiding key, when each element has one affine point, a bijection of the random scalars turns the published points of one satisfying assignment into those of another.", "quantifier": "all curve and pairing implementations, systems of all four equation types, assignments, commitments and proofs, schedules, generator states", "why_tests_cant": "all implementations of the curve operations, all systems and all dishonest proofs", "anchors": ["src/prover/prove.rs:Provable", "src/prover/commit.rs", "src/verifier.rs:Verifiable", "src/generator.rs:generate_crs"]}
{"id": "C88", "title": "Adaptively requested proofs over affine and projective points", "statement": "An adversary who sees affine points requests proofs of systems one after another, choosing systems and witnesses from the reference string and all answers so far. Under generate_crs run on projective points, the probabilities with which any test accepts the answers made from two choices of witnesses, or the real and simulated answers, differ at most by the advantages of explicit DDH distinguishers on affine points plus the probability that a base point is the identity.", "quantifier": "all curve and pairing implementations in which each element has one affine point, all strategies, numbers of requests, tests with any random choices, finite fields, schedules", "why_tests_cant": "distributions over the random tapes of whole interactive sessions, every adaptive strategy and every implementation of the curves", "anchors": ["src/prover/prove.rs:Provable", "src/prover/commit.rs", "src/generator.rs:generate_crs"]}
{"id": "C89", "title": "Pseudorandom generators", "statement": "What commit, prove and commit_and_prove compute, panics included, depends on the random generator only through the next scalars it gives, as many as the sizes of the variables determine. So when the reference string and then proofs of an equation of any type, of a system, or of adaptively chosen systems are made with one generator started from a random seed, the probabilities with which any test accepts for two choices of witnesses, or for real and simulated proofs, differ at most by the advantages of explicit tests that tell the generator's outputs from uniform ones, of explicit DDH distinguishers, and the probability that a base point is the identity. False pairing product equations are never accepted whatever the generator; false equations of the other types are accepted at most as often as a base point is the identity, up to the advantage of one test of the first two points drawn.", "quantifier": "all generators and finite seed sets, all pairings over finite fields, equations, witnesses, sizes, schedules, adversaries and tests", "why_tests_cant": "distributions over all seeds of any generator and every test of its outputs", "anchors": ["src/generator.rs:generate_crs", "src/prover/commit.rs", "src/prover/prove.rs:Provable", "src/verifier.rs:Verifiable"]}
{"id": "C90", "title": "Memory requested while reading", "statement": "Deserializing a reference string, commitments, a proof or an equation, when room for a vector is requested right after its length is read and a request may be refused: any result is the one there would be with unlimited room; with room for every 64-bit length there always is a result; what was written is read back if there is room for its vectors; reading ends without a result only if the input contains, as eight little-endian bytes, a length that is refused; if there is room for as many items as the input has bytes, such an input would have been an error anyway; and any refused length, alone or followed by anything, ends the reading of every one of these types (2^63 under Rust's limit). A receiver of an equation, a reference string, commitments and a proof concludes the same as with unlimited room, or nothing.", "quantifier": "all element encodings, all allocation policies, all byte strings, modes and values", "why_tests_cant": "any byte string and any policy", "anchors": ["src/data_structures.rs:Com1", "src/generator.rs:CRS", "src/prover/commit.rs:Commit1", "src/prover/prove.rs:EquProof", "src/statement.rs:PPE"]}
{"id": "C91", "title": "Group operations depend on sizes only", "statement": "generate_crs, the commitment functions, prove and commit_and_prove compute every point of their result by an expression (additions, negations, multiplications by scalars, conversions between affine and projective points, pairings) that depends only on the sizes of the inputs: two runs on inputs of the same sizes, with different witnesses, equations, keys, pairings, fields and random draws, compute the same expressions, draw equally often, and both return or both panic. verify compares outputs whose expressions depend on the sizes of the equation, the key and the proof only. Recording expressions does not change results. The expressions of generate_crs are given, the weighted number of operations of each component of a commitment or proof is given by a formula in the sizes, and so is the number of pairings on each side of every comparison of verify.", "quantifier": "all fields, pairings, generators, witnesses, equations, keys, proofs, schedules and weights", "why_tests_cant": "any two runs, any observer of expressions", "anchors": ["src/generator.rs:generate_crs", "src/prover/commit.rs:batch_commit_G1", "src/prover/prove.rs:prove", "src/verifier.rs:verify"]}
{"id": "C92", "title": "Reusing the state of a random generator", "statement": "If a commitment function runs twice from the same state of the random generator on as many values, both runs use the same randomness, end in the same state, and the entrywise differences of the commitments are the images of the differences of the values: (0, x - x') for group elements, (x - x') times the image of one for scalars; so the commitments are equal exactly when the values are (for scalars if the image of one is not zero). Two proofs made from the same state for any two equations of the same type and sizes, under any key including a hiding one, publish commitments with these differences, so whether the two witnesses are equal can be read off, and knowing one witness of group elements gives the other.", "quantifier": "all keys, generators, states, equations, witnesses of equal sizes, and schedules", "why_tests_cant": "any two witnesses and any state", "anchors": ["src/prover/commit.rs:batch_commit_G1", "src/prover/commit.rs:batch_commit_scalar_to_B1", "src/prover/prove.rs:commit_and_prove", "src/data_structures.rs:930"]}
{"id": "C93", "title": "Values with several encodings", "statement": "Over affine points and any element formats, in either compression mode: a value of each of the ten serializable types all of whose elements are read from one byte string only is itself read from one byte string only; and if some element of a value whose elements are read back and pass validation is also read from other bytes, with and without validation, then so is the value.", "quantifier": "all element formats, compression modes, values (of fewer than 2^64 entries per vector), byte strings", "why_tests_cant": "quantifies over every byte string", "anchors": ["src/data_structures.rs:128-133", "src/prover/commit.rs:18-28", "src/prover/prove.rs:55-61", "src/generator.rs:35-42", "src/statement.rs:117-185"]}
{"id": "C94", "title": "The default formats of field elements and points", "statement": "For the default formats of ark-ff (prime fields, quadratic extensions) and ark-ec (points of short Weierstrass curves) with any curve and any subgroup check: field elements and points of the group, and no others, are read back with validation; sizes are exact; missing bytes are noticed; what C82 assumes of the element formats holds, so that a verifier reading with validation obtains group elements. Field elements have one encoding. It is false, on every curve, that points do: uncompressed, every point of the group has another encoding; compressed, exactly the point at infinity and points with y = -y do. Hence uncompressed every nonempty commitment and equation proof has another encoding that passes validation, and the bytes of every proof sent uncompressed can be changed so that the verifier reads the same proof; compressed, commitments and proofs without such points have one encoding.", "quantifier": "all primes, extensions, curves, subgroup checks, points, values of the derived types, byte strings", "why_tests_cant": "quantifies over every curve and byte string", "anchors": ["src/data_structures.rs:128-133", "src/prover/commit.rs:18-28", "src/prover/prove.rs:55-61", "Cargo.toml:17-21"]}
{"id": "C95", "title": "Replacing one element of an accepted proof", "statement": "Given a proof that verify accepts, replace one element of it, of its equation or of the keys, keeping the shapes. Verify returns, and accepts exactly if: (pi, theta) the element is the same or the key it is paired with is zero; (a commitment) it is the same or what multiplies the variable - the constant plus the combination of the other side's commitments given by gamma - is zero; (a constant) it is the same, or the commitment it is paired with is zero, or it is a scalar and the image of 1 is zero; (an entry of gamma) it is the same or one of the two commitments is zero; (the target) it is the same, or it is not in GT and the image of 1 is zero; (a key used for pi or theta only) it is the same or the element it is paired with is zero. Elements of pi and theta beyond the first are not read on a scalar side. For a binding key the first keys and the images of 1 are not zero, and the second keys are zero exactly if t is; for a hiding key no key is zero and the images of 1 are zero exactly if t is.", "quantifier": "all pairings (bilinear, non-degenerate), equations of the four types, proofs however produced, reference strings, positions, replacements, schedules of both runs", "why_tests_cant": "quantifies over every proof accepted and every replacement", "anchors": ["src/verifier.rs:23-55", "src/verifier.rs:57-89", "src/verifier.rs:91-123", "src/verifier.rs:125-157"]}
{"id": "C96", "title": "All proofs accepted for the same commitments under a binding key", "statement": "Given a proof accepted under a binding key with t1, t2 and the same commitments, another pi', theta' of the right shape is accepted exactly if for some scalar k the combination pi'_0 + t1 pi'_1 (pi'_0 on a scalar side) is that of pi plus k v_0 and theta'_0 + t2 theta'_1 (theta'_0 on a scalar side) is that of theta minus k u_0. For quadratic equations these are the outputs of prove (C59); for the other three types it is false that they are: for all commitments, witnesses and binding keys some accepted proof is not an output of prove for any choice of its random scalars. Which proofs are outputs is known exactly: given one output pi, theta of prove for these commitments under a binding key, pi', theta' of the right shape is an output for some choice of the random scalars exactly if pi'_i = pi_i - a_i v_0 and theta'_j = theta_j + b_j u_0 for scalars with a_0 + t1 a_1 = b_0 + t2 b_1 (PPE; for MSMEG1 theta' is moved by a_0 + t1 a_1, for MSMEG2 pi' by b_0 + t2 b_1, for quadratic equations and any key both by one scalar); for a true equation, exactly if it is accepted and differs from pi along v_0 (MSMEG1), from theta along u_0 (MSMEG2), or both (PPE).", "quantifier": "all pairings (bilinear, non-degenerate, G2 cyclic), binding keys with generators that are not the identity, equations, proofs accepted however produced, candidate proofs, schedules", "why_tests_cant": "quantifies over all proofs and all random tapes", "anchors": ["src/verifier.rs:23-157", "src/prover/prove.rs:71-488"]}
{"id": "C97", "title": "A proof can be sent without its randomness", "statement": "The serialized commitments and proof keep the randomness, and so determine the witness under any key: for two witnesses their bytes never agree, so they are not distributed alike. Writing the public fields followed by an empty list in place of each randomness field gives bytes that are read back as the same value with the randomness emptied; verify answers the same for it, panics included, for every value and also when equation, reference string and proof are all read from bytes. These bytes depend on the public fields only. Under a hiding key they have the same distribution for two witnesses of an equation, and the same as for simulated proofs; under the keys of generate_crs they are told apart only by solving DDH in G1 or G2.", "quantifier": "all codecs (with the laws of reading back where something is read), equations, witnesses, keys, values of CProof, random tapes, distinguishers", "why_tests_cant": "quantifies over all random tapes, distinguishers and codecs", "anchors": ["src/prover/commit.rs:19-28", "src/prover/prove.rs:56-70", "src/verifier.rs:23-157"]}
{"id": "C98", "title": "Which random tapes give the same proof", "statement": "Fix an equation, variables, commitments and a reference string on which prove returns. For PPE under a binding key with non-zero generators (u2 = t1 u1, v2 = t2 v1), two runs of prove return the same pi and theta exactly when the four scalars drawn differ by k(t1 t2, -t2, -t1, 1) for some k; so over a finite field every proof returned comes from exactly |Fr| tapes, and the proof is uniform on the set of proofs that prove can return. For MSMEG1 (v1 not zero), MSMEG2 (u1 not zero) and QuadEqu (either not zero), under any reference string, different scalars give different proofs, so each comes from exactly one tape. Commitments: under a binding key two runs of batch_commit_G1 give the same commitments exactly when r1 + t1 r2 agree for each variable (so |Fr|^m tapes for m variables), under a hiding key exactly when all scalars agree; commitments to scalars agree exactly when the scalars do, if u1 (v1) is not zero; likewise for G2. Whole runs of commit_and_prove under a binding key: two PPE runs publish the same proof exactly when the scalars of the commitments differ by k_i(-t1, 1) and l_j(-t2, 1) with sum k_i (b_i + sum gamma_ij y_j) = 0 and sum l_j (a_j + sum gamma_ij x_i) = 0, and the last four differ by a stated expression with one free scalar; for MSMEG1 only the k_i, for MSMEG2 only the l_j are free, and for QuadEqu nothing is. So every proof that is returned comes from the same number of tapes, |Fr| to the power m+n+1 less one for each of the two conditions that is not trivial (MSMEG1: m less one; MSMEG2: n less one; QuadEqu: 0, so one tape), and the published proof is uniform on the proofs that can be returned. The same descriptions hold of the commitment functions, prove and commit_and_prove over affine and projective points, when inputs and outputs are represented canonically.", "quantifier": "all equations, variables (satisfying or not), commitments, keys, RNGs and states, schedules", "why_tests_cant": "quantifies over all pairs of random tapes and counts them", "anchors": ["src/prover/prove.rs:92-171", "src/prover/prove.rs:195-274", "src/prover/prove.rs:298-379", "src/prover/prove.rs:409-488", "src/prover/commit.rs:78-256", "src/prover/prove.rs:72-90", "src/prover/prove.rs:175-193", "src/prover/prove.rs:278-296", "src/prover/prove.rs:383-407"]}
{"id": "C99", "title": "Under a hiding key the prover reaches each accepted proof exactly once", "statement": "Fix a hiding reference string with non-zero generators, an equation and variables that satisfy it. For PPE, a proof with the right numbers of commitments and one equation proof of the right type and sizes is accepted by verify exactly when there is exactly one tape of 2m+2n+4 scalars on which commit_and_prove returns its public part (commitments, pi, theta, type). For MSMEG1, MSMEG2 and QuadEqu the same holds, with 2m+n+2, m+2n+2 and m+n+1 scalars, of the accepted proofs whose commitments to scalars are multiples of v1 (u1), and only those. So with uniform scalars the published proof is uniform on these accepted proofs, whichever satisfying variables were used. The same holds of the program over affine and projective points, when inputs and outputs are represented canonically.", "quantifier": "all pairings that are bilinear and non-degenerate on cyclic groups, equations, satisfying variables, proofs, hiding keys, schedules", "why_tests_cant": "a statement about every accepted proof and every random tape: both existence and uniqueness", "anchors": ["src/prover/prove.rs:72-90", "src/prover/prove.rs:175-193", "src/prover/prove.rs:278-296", "src/prover/prove.rs:383-407", "src/prover/commit.rs", "src/verifier.rs", "src/generator.rs"]}
