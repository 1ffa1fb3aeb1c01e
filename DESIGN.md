# Formal model of groth-sahai-rs in Coq 8.16.1 / mathcomp

## What is modelled

All code of `/repo/src` except documentation, the tests in `/repo/tests` and the
benchmarks in `/repo/benches`, function by function, as executable Gallina functions. Each definition cites its source lines.

| file in rocq/theories | models |
|---|---|
| `Base.v` | panics (`res`), indexing, `assert_eq!`, loops, rayon `into_par_iter().map().collect()` under an arbitrary execution order |
| `Group.v` | the `ark_ec::Pairing` parameter `E`: a record of a field, three modules over it and a map `e`; its laws are *separate predicates* that appear as hypotheses of the theorems that need them. Also the RNG interface |
| `DataStructures.v` | `data_structures.rs`: `Com1`, `Com2`, `ComT`, all operators, linear maps, pairings, the `Mat` impls for field, `Com1` and `Com2` matrices, `vec_to_col_vec`, `col_vec_to_vec` |
| `Generator.v` | `generator.rs`: `generate_crs`, `prepare_real_binding_key`, `prepare_simulated_hinding_key` |
| `Commit.v` | `prover/commit.rs`: the eight commit functions, `append`, `==` |
| `Statement.v` | the types and `get_type` of `statement.rs`; `EquProof`, `CProof` of `prover/prove.rs` |
| `Derived.v` | the derived `PartialEq` of PPE, MSMEG1, MSMEG2, QuadEqu, EquProof, CProof |
| `Prove.v`, `Verify.v` | `prover/prove.rs`, `verifier.rs`: `prove`, `commit_and_prove`, `verify` of the four equation types |
| `RngState.v` | the eight commit functions, `prove` and `commit_and_prove` again, keeping the state of the generator when they panic |
| `Codec.v` | the hand-written `CanonicalSerialize`/`CanonicalDeserialize`/`Valid` impl of `EquType`, the derived ones of Com1, Com2, CRS, Commit1, Commit2, EquProof, PPE, MSMEG1, MSMEG2, QuadEqu, and the `Vec`, `u64`, `u8` impls of ark-serialize they call |
| `Ark.v` | the code of `data_structures.rs`, `generator.rs`, `prover/`, `verifier.rs` and the derived `==` a second time, over affine and projective points with every conversion of the source (`into_group`, `into_affine`, `into`); curve operations, pairing and RNG are parameters without laws |
| `ArkCodec.v` | the derived serialization of `Codec.v` over the affine points of `Ark.v` |
| `CodecAlloc.v` | deserialization of `Codec.v` a second time, with refusal of memory for vectors |
| `Formats.v` | the default formats of ark-ff and ark-ec for field elements and points of short Weierstrass curves, behind the element types of the derived serialization; from documentation, only C94 depends on it |
| `Suite.v` | the 96 tests: the `#[cfg(test)]` modules of `/repo/src` and the files of `/repo/tests` |
| `Bench.v` | the benchmarks of `/repo/benches/bench.rs`, with an arbitrary number of iterations |

Specifications (no code of `/repo`):

| file | content |
|---|---|
| `Spec.v` | what it means to satisfy an equation (plain sums), shapes, binding and hiding keys, draws of an RNG |
| `SpecApi.v` | histories of API calls on commitments; recovering values from a `Commit` |
| `SpecMat.v`, `SpecCom.v` | rows/entries of matrices, same outcome; laws of groups, modules, bilinear maps |
| `SpecVerify.v` | the verification equation and the shapes that verify needs; the public part of a proof |
| `SpecCodec.v` | round trip, canonicity, prefix-freeness, exact size, layout of a codec |
| `SpecHide.v` | views, tapes, `same_output` (a bijection of random tapes), simulators' corrections |
| `SpecSxdh.v` | probabilities over finite tapes, advantages, DDH games, key games |
| `SpecError.v` | the forgery and double-opening games |
| `SpecTrap.v` | decryption, equations lifted to the groups, reopening randomness |
| `SpecType3.v` | maps between the groups and the tests they allow |
| `SpecNec.v` | tests of keys and proofs made from a DDH distinguisher |
| `SpecArk.v` | what it means that curves, target group and RNG represent the abstract groups; points that the pairing does not see |
| `SpecArkGame.v` | the DDH and proof games of `SpecSxdh.v` over affine and projective points |
| `SpecArkZk.v` | the simulators of `SpecHide.v` over affine and projective points |
| `SpecWire.v` | element codecs whose validation accepts exactly the points that represent group elements; sending a proof as bytes, reading and checking it |
| `SpecMulti.v` | assignments and systems of equations over shared commitments |
| `SpecArkMulti.v` | systems and sessions over affine and projective points, and how they represent those of `SpecMulti.v` and `SpecAdaptive.v` |
| `SpecPad.v` | equations restated about a longer list of variables in any order |
| `SpecPrg.v` | generators started from a seed: dependence on the outputs only, the games of `SpecSxdh.v` and `SpecError.v` with a generator, tests of its outputs |
| `SpecAlloc.v` | what reading with refusal of memory has in common with reading without |
| `SpecTrace.v` | the operations of `Ark.v` once more with, at each point and output, the expression by which it was computed; equal expressions, sizes, costs |
| `SpecTwice.v` | values that are read from one byte string, or from several; all or some elements of a value |
| `SpecFormats.v` | numberings of fields, points of a curve and its group, square roots |
| `SpecTamper.v` | lists, matrices and proofs with one element replaced; what multiplies a variable in the verification equation |
| `SpecStrip.v` | a proof with its randomness emptied; its bytes |
| `SpecBij.v` | the tapes on which a program returns a given public part; lists of multiples of a key |
| `SpecArkBij.v` | the same tapes for the program over affine and projective points |
| `SpecGen.v` | the two points and four scalars that key generation draws |
| `SpecArkRun.v` | scalars drawn from a generator over affine and projective points; the same two relations on them |
| `SpecRun.v` | pairs of scalars moved along a key; tuples of scalars orthogonal to a list; equality of equation types |
| `SpecReuse.v` | entrywise differences of two lists |
| `SpecAdaptive.v` | sessions: systems requested one after another by an adversary who sees the answers |
| `SpecRerand.v` | re-randomization of commitments and proofs, combinations of equations and proofs, the tapes that yield a proof |
| `SpecKeys.v` | a kind of commitment being binding or hiding under a reference string |
| `SpecPanic.v` | lists of checks in program order, the first one that fails; the list of each function |
| `SpecRng.v` | the number of draws of a call that may panic |
| `SpecCodec2.v` | validation, checks, truncated input |
| `SpecFormula.v` | the value every function returns, as an explicit formula |

Proofs are in the remaining files; the property theorems are in `P_*.v`, which contain
nothing else except examples showing that the hypotheses are met (`Cxx_..._case`).
`Concrete*.v` holds the concrete field, pairing, RNG, CRS, equations and codecs for these
examples.

The RNG is an arbitrary state machine (`rng`), so every theorem quantifies over all RNG
behaviours. `is_parallel = true` products take a schedule oracle that gives, for each
call site, the order in which the entries are computed; every theorem about
`prove`/`verify` quantifies over all valid schedules.

A panic (failed `assert_eq!`, out-of-bounds index) is the value `Panic p`. Functions that
take `&mut` return the new value. `append` returns the new values of both arguments also
when it panics (`commit_append_mut`), so that C19 can speak about them. Likewise
`RngState.v` has the sixteen functions that draw, with the state of the generator at the
end of the call whether it returns or panics; C68 shows that they agree with `Commit.v`
and `Prove.v`, in which a panic discards the state.

## Not modelled

* `pub type Statement = Vec<dyn Equ>` (statement.rs): an unusable type (an unsized item
  type); no value of it can exist.
* criterion (timing, reports) and its configuration in `benches/bench.rs:577-673`; doc comments (except where a property quotes one).
* `Debug`, `Clone`, `Copy` derives. `Clone` is the identity on values.
* Stack and heap exhaustion, timing and constant-time behaviour; except that `CodecAlloc.v` represents the refusal of
  memory for a vector whose length is read from the input (`Vec::with_capacity` in ark-serialize, if the version in use
  reserves before reading; which requests are refused is a parameter, and one that refuses none is a version that does not
  reserve). A panic and an abort are not told apart there. Of timing, C91 represents which operations on points, outputs
  and pairings a function performs, in which combination; how long one operation takes (a multiplication may take longer for
  some scalars; `==` on the four outputs stops at the first difference), operations on scalars, and memory access are not
  represented.
* Poisoning and unwinding across threads: a panic in a parallel task is the panic of the
  whole product (rayon propagates it); if several tasks panic the model reports the first
  in execution order, and the theorems about outcomes do not distinguish which.

## Simplifications

* In every model file but `Ark.v`, group elements are elements of an abstract module over
  the scalar field: conversions between affine and projective points are the identity.
  C79 removes this simplification: the functions of `Ark.v`, which keep the conversions,
  agree with those of the other files for every representation of the groups. C80, C83 and
  C84 carry completeness, soundness, witness indistinguishability and zero-knowledge over.
  That the curve arithmetic of arkworks is right (`repr_ok`, `implements`) remains a hypothesis.
* Points outside the prime-order subgroup (obtainable by deserializing with
  `Validate::No`) exist in `Ark.v` only. C81 covers points of G1 that the pairing cannot
  distinguish from points of the group; points of G2 outside the group, on which the
  arkworks pairing need not be bilinear, are not covered.
* `E::multi_pairing` is the sum of the pairings of the zipped lists, and the target group
  is written additively, as `PairingOutput` does.
* Element codecs of arkworks (points, scalars, GT) are parameters of the serialization
  theorems; their round-trip and canonicity laws are hypotheses. For the default formats C94 proves the
  former and refutes the latter for points. `Formats.v` is written from the documentation of ark-ff and ark-ec;
  ark-bls12-381, which the tests use, has a format of its own, which is not represented. Square roots and the subgroup check
  are parameters of a curve there; `ext_numbering` covers quadratic extensions, and a target field is any numbered type. `usize` has 64 bits.
* In `mat_add` and similar functions loops that fill a row are `mapM`; where the source
  reads `self[i][j]` for `j` below the width of the first row, so does the model.
* Probabilities (C49, C50, C53, C58, C74, C77, C78, C83-C85, C88, C89) are counts over finite sets of random tapes: the
  field is a `finFieldType`, and group elements drawn by the RNG range over finite types.

## Findings about the code

Each is a theorem.

* `batch_commit_*` and `commit_and_prove` panic on empty variable lists, and `verify`
  panics on equations with X variables and no Y variables (C36).
* Surplus `theta` (MSMEG1, QuadEqu) or `pi` (MSMEG2, QuadEqu) elements are ignored by
  `verify` (C37), so proofs are malleable also by lengthening.
* `Commit1`/`Commit2` and `CProof` hold, and serialize, the commitment randomness; anyone
  who sees a serialized commitment recovers the committed values (C15).
* `==` on `CProof` and `EquProof` compares private randomness (C54).
* `verify` ignores entries of a ragged `gamma` beyond the first row's width; `prove`
  rejects such a `gamma` (C47).
* Commitments built by mixing `commit_G1` and `commit_scalar_to_B1` in one `Commit1`
  make `prove` panic (C35, C56).
* `generate_crs` does not reject the identity as generator; false MSMEG1, MSMEG2 and
  quadratic statements are then accepted (C44).
* `verify` panics, instead of returning false, on proofs of the wrong shape or type (C34,
  C46): a service that verifies untrusted proofs can be crashed.
* `transpose` of a ragged matrix compresses columns, `col_vec_to_vec` on a matrix of one
  row returns the whole row (C25, C30).

* The documentation of `MSMEG1`, `MSMEG2` and `QuadEqu` writes `(v * U)^5` where the matrix
  entry 5 is a factor, not a power (C61).

* `verify` cannot tell a point of G1 from the same point plus a component of an order that
  the pairing does not see, so accepted proofs may contain points outside the group when they
  are read with `Validate::No`; soundness survives (C81). Reading with `Validate::Yes` excludes
  them (C82).
* With a homomorphism between G1 and G2 the proofs hide nothing (C77): the README's
  requirement of a Type-III pairing is not checked by the code or its types.
* Two proofs made from the same state of the generator reveal the difference of the witnesses,
  also under a hiding key (C92); nothing in the code prevents such a reuse.
* With arkworks' default point format (C94), the serialization of commitments and proofs is not canonical: uncompressed, every
  nonempty commitment has another byte string that passes validation and is read as the same value. Byte strings of proofs
  must not be used as identifiers of proofs.

## Plan per property

* C01-C04 completeness: all list code is evaluated to closed `mkmat`/bigop form
  under the shape hypotheses, then one generic bilinear identity covers the four
  types (number of key elements used on each side is 1 or 2).
* C05-C08, C14 soundness: projection `p(c) = c.1 - a c.0` kills the key elements of
  a generated CRS; apply it to the verification equation. Verify's shape analysis
  (C34) gives the lengths for arbitrary proofs.
* C09: exact iff; the difference of the two sides of the verification equation is
  the image of (value of the equation - target), and that map is injective.
* C10, C11: projection of C05. C12, C13, C48: explicit bijection on random tapes
  (shift by the coordinates in the basis given by the hiding key), and uniqueness
  of pi given commitments and theta.
* C15: explicit recovery function, `_refuted`.
* C16-C20: evaluation of the monadic code; induction over lists / histories.
* C21: permutation of cell writes, induction over the order.
* C22-C25: evaluation to `mkmat`; exact panic conditions by case analysis.
* C26-C30: algebra in mathcomp modules.
* C31, C32, C44, C45: direct computation, C44 with an explicit counterexample. `C31_one_key`: the generators are fields of the
  key, and a scalar is read off a multiple of a non-zero element.
* C33, C34, C46, C47, C37, C38: evaluation of verify to closed form.
* C35: evaluation of prove on arbitrary shapes.
* C36: `_refuted`, evaluation on empty lists.
* C39-C43, C51, C52: prefix codec combinators, plain Coq lists of bytes.
* C49, C50, C53: counting over finite sets of random choices, triangle inequality over
  hybrids, explicit DDH distinguishers.
* C54: structural induction on the lists compared; C55: both orders give the same cells,
  the panicking case included.
* C56: API-built commitments have the form that C01-C04 need (C20), then completeness on
  that form. C57: induction over the list of equations, joint extraction (C14).
* C58: one bijection of the tape for the shared commitments and, equation by equation,
  for the proofs; hybrids as in C50/C53.
* C59: under a hiding key the differences of two accepted proofs are `- T v`, `T u` for a
  matrix T; T is determined because the key elements are independent.
* C60: re-randomization is composition of tapes (addition of random scalars, with a
  correction of T), a bijection; the verification equation absorbs it for any proof.
* C61: C09 on the documented equations. C62: linearity of the verification equation.
  Substitution (SpecSubst): gamma becomes `L^T gamma K`, the constants `K^T a` and `L^T b`;
  exchange of sums in the formulas of SpecFormula.
* C63: C14 one way; the other way choose the randomness of the opening and use C01-C04.
* C64: under a hiding key `f(u1, _) + f(u2, _)` is onto; for quadratic equations everything
  lies on the line through `f(u1, v1)`.
* C65, C66: linear algebra in a two-dimensional space: either a linear functional kills the
  key but not the encoded values (binding, and the functional extracts), or the encodings lie
  in the span of the key (hiding, and the proof elements absorb any value).
* C67: every step of a function is described by its checks and by the dimensions of its
  result (`step` in `PanicLemmas.v`); the lists of checks are concatenated along the code,
  and checks that cannot fail after the earlier ones are dropped.
* C68: the state-keeping functions simulate those of `Commit.v` and `Prove.v` line by line;
  the final state follows from the checks that precede the draws.
* C69: the checks are those of C67; when they pass, the values are those of the lemmas
  used for the earlier properties, restated for arbitrary shapes.
* C74: soundness and binding (C05-C11) hold unless a generator is the identity; if it is,
  C44 gives the accepted proof. The rest is counting.
* C75: decryption is additive and kills multiples of the keys; it is applied to the closed
  form of the verification equation.
* C76: the reopened randomness changes the closed form of the commitments (C69) by nothing;
  completeness (C01-C04) then applies to the reopened commitments.
* C77: with a map between the groups the decryption of C75 can be tested by pairings, without
  the secret key. The rest is counting.
* C78: random self-reduction. A key scaled by a random non-zero scalar, or the difference of a
  commitment and one candidate's image, is a DDH challenge: real for one case, random but not
  real for the other. Hence the factor |F|/(|F|-1).
* C79: a relation between the two models, proved function by function (`ArkRel.v` for the
  monadic and matrix combinators, `ArkLemmas.v` for the library). C80: C09, C05-C08 and C13
  through that relation, with an RNG of the abstract model scripted to draw the same scalars.
* C81: verify uses points of G1 only through pairings.
* C82: validation composes through the codec combinators (C39-C43); then C80.
* C83: with unique affine representations the outputs of the second model are functions of
  those of the first, so the games are equal; then C50.
* C84: the corrections preserve representation; then as C83, from C53.
* C85: tapes are counted round by round: the first request uses a prefix of the tape, and for
  each answer the rest is the same session with one request less. Then as C50/C53.
* C86: the closed forms of C69; sums over the longer lists are sums over the shorter ones.
  Exchanging the two groups (`SpecMirror.v`, `MirrorProps.v`, `MirrorRun.v`): by the closed forms of C69; the verification
  equation is transposed; the mirrored prover has T'_kl = (R^T gamma S)_kl - T_lk, which is the bijection of the random
  scalars. For a whole run the two stretches of the tape used for commitments also change places.
  Known variables (`SpecKnown.v`, `KnownProps.v`, `KnownYProps.v`): the last term of each sum is moved by bilinearity. Only the
  last variable is treated; by the first part of C86 the order of the variables does not matter.
* C89: outcomes including panics are a function of the scalars drawn (the panic conditions of C67 do not mention the
  generator); the game with the generator is the test run on its outputs, the game with uniform outputs is that of C50.
* C87, C88: the functions of `SpecArkMulti.v` preserve representation by C79; the rest is carried over from C57, C58 and C85.
* C90: each statement is preserved by vectors, pairs and structs; a refused length is longer than what is left of the input, so
  reading the items would have failed.
* C91: each function preserves equality of expressions (`TraceLemmas.v`, as `ArkLemmas.v` does for representation); costs by
  following the function (`TraceCost.v`). An expression is a tree: a point used twice is counted twice, so the costs of two
  components are not added up. Scalars do not occur in expressions, nor do points computed and then not used.
* C93: each combinator preserves 'one encoding' and 'another encoding' (`TwiceProps.v`). C94: little-endian numbers below the
  modulus are read back and only they (`FormatsLemmas.v`); the two flag bits are free since 4p <= 256^n; examples over a real curve
  with chord-and-tangent arithmetic, which also shows `implements` (C79) inhabited by such a curve (`Concrete22.v`).
* C95: the difference of the two sides of the verification equation changes by one pairing, which is zero only if one of its
  arguments is (C28).
* C96: u_0 (x) a + b (x) v_0 = 0 exactly if a = k v_0, b = -k u_0 (componentwise, G2 cyclic); the second element of pi (theta) in
  two outputs of prove differs by a multiple of v_0 (u_0) by C69. The exact set of outputs: on another tape the closed form of
  C69 moves pi along v_0 and theta along u_0 by linear forms of the change of T, and each admissible choice of coefficients
  comes from some change of T (`OutputProps.v`).
* C97: the emptied value has the same public part; verify ignores the rest (C33); transport is C43 with an empty matrix; the
  views of C13, C48, C50, C53 are composed with the bytes as a function of the public part; for the contrast, the commitments
  are read back from the bytes and their randomness subtracted (C15).
* C98: by the closed form of C69 two runs differ only in the terms of the random matrix T. Under a binding key these are
  multiples of v1 and u1 with coefficients T00+t2 T10, T01+t2 T11, T00+t1 T01, T10+t1 T11, a linear map with a kernel of
  dimension one; for the other types some coefficient is each entry of T itself.
  `C98_*_run`: in the closed forms of C69, pi is the image of sum r_i w_i plus a multiple of v1, and theta the image of
  sum s_j w'_j plus a multiple of u1. The image and v1 (u1) are independent under a binding key, so equality of proofs is
  a linear system in the scalars, which is solved explicitly. The number of solutions is then counted.
* C99: the tape is split among the two commitments and the proof. A commitment minus the image of the value has unique
  coordinates in u1, u2 (v1, v2) under a hiding key (C15); a scalar commitment is a multiple of u1 (v1) because u2 plus the
  generator is one. The last part is C59. The converse is C01-C04 and C33. `C99_*_ark` follows because
  the program over affine points implements the other one (C79) and canonical representations of equal elements are equal.
* C92: from the closed forms of C69: the random part of a commitment is the same in both runs and cancels.
* C70, C71: each law is preserved by the codecs of vectors, pairs and structs.

## Seeded bugs

`seeded/LOG.jsonl` has one line per experiment: the edited definition, the edit, the claim
broken, the lemma at which the build stops, the property theorems that depend on it, and
the theorems tightened or added in response.

What an entry shows depends on its kind:

* Most entries: the build stops at the lemma named. A proof script that stops shows that the edit is noticed,
  not by itself that the theorem became false.
* W01-W59 except W39, which turned out to change no outcome (W47, W48 and W53-W55 also break honest runs): edits made consistently to prover and verifier, or which leave honest runs accepted. The entry holds an
  instance, computed in the edited model, that contradicts the theorems named, and that computes to the opposite
  in the unmodified model. Proof scripts were not rerun on these; only theorems the instance contradicts are named.
* Entries noted "survived": no theorem failed. Some edits change no behaviour. The others are in the model of the
  crate's tests (`Suite.v`), where the claim is only that a test passes: dropping one of its assertions, or drawing
  its inputs in another order, is not detected.

## Trusted base

Coq 8.16.1 kernel; the reading of the Rust source recorded in the comments of the model;
the simplifications above. No axioms. (`coqchk -o` on the whole context also lists the fields
of module types with which ssreflect and mathcomp seal definitions, such as those of
`bigop`, `finset` and `tuple`. They are implemented in those libraries, no theorem here
depends on an assumption, and `Print Assumptions` reports every theorem as closed.)

## Print Assumptions of each theorem

`Print Assumptions` stands under every property theorem, so its output appears in
the build log. For each of the 1352 theorems listed here it prints
`Closed under the global context`: no axiom of the standard library, of mathcomp or
of this development is used.

| property | file | theorems (each: Closed under the global context) |
|---|---|---|
| C01 | `P_Complete.v` | `C01_ppe_completeness` |
| C02 | `P_Complete.v` | `C02_ms1_completeness` |
| C03 | `P_Complete.v` | `C03_ms2_completeness` |
| C04 | `P_Complete.v` | `C04_quad_completeness` |
| C05 | `P_Sound.v` | `C05_ppe_soundness` |
| C06 | `P_Sound.v` | `C06_ms1_soundness` |
| C07 | `P_Sound.v` | `C07_ms2_soundness` |
| C08 | `P_Sound.v` | `C08_quad_soundness` |
| C09 | `P_Complete.v` | `C09_ppe_decides`, `C09_ms1_decides`, `C09_ms2_decides`, `C09_quad_decides`, `C09_generated_keys` |
| C10 | `P_Sound.v` | `C10_G1_binding`, `C10_G1_batch_binding`, `C10_G2_binding`, `C10_G2_batch_binding` |
| C11 | `P_Sound.v` | `C11_B1_binding`, `C11_B1_batch_binding`, `C11_B2_binding`, `C11_B2_batch_binding` |
| C12 | `P_Hide.v` | `C12_G1_one`, `C12_G1_batch`, `C12_G1_counts`, `C12_G1_binding`, `C12_G2_one`, `C12_G2_batch`, `C12_G2_counts`, `C12_G2_binding`, `C12_B1_one`, `C12_B1_batch`, `C12_B1_counts`, `C12_B1_binding`, `C12_B2_one`, `C12_B2_batch`, `C12_B2_counts`, `C12_B2_binding` |
| C13 | `P_Hide.v` | `C13_ppe`, `C13_ppe_counts`, `C13_ms1`, `C13_ms1_counts`, `C13_ms2`, `C13_ms2_counts`, `C13_quad`, `C13_quad_counts` |
| C14 | `P_Sound.v` | `C14_joint_satisfaction`, `C14_unique_assignment` |
| C15 | `P_Codec.v`, `P_Commit.v` | `C15_G1_secret_refuted`, `C15_B1_secret_refuted`, `C15_B1_single_secret_refuted`, `C15_G2_secret_refuted`, `C15_B2_secret_refuted`, `C15_B2_single_secret_refuted`, `C15_ppe_proof_secret_refuted`, `C15_ms1_proof_secret_refuted`, `C15_ms2_proof_secret_refuted`, `C15_ms1_proof_scalars_refuted`, `C15_ms2_proof_scalars_refuted`, `C15_quad_proof_scalars_refuted`, `C15_G1_bytes_secret_refuted`, `C15_G2_bytes_secret_refuted` |
| C16 | `P_Commit.v` | `C16_G1_batch_is_singles`, `C16_G2_batch_is_singles`, `C16_B1_batch_is_singles`, `C16_B2_batch_is_singles` |
| C17 | `P_Complete.v` | `C17_ppe_steps`, `C17_ppe_total`, `C17_ms1_steps`, `C17_ms1_total`, `C17_ms2_steps`, `C17_ms2_total`, `C17_quad_steps`, `C17_quad_total` |
| C18 | `P_Commit.v` | `C18_G1_draws`, `C18_G1_batch_draws`, `C18_G2_draws`, `C18_G2_batch_draws`, `C18_B1_draws`, `C18_B1_batch_draws`, `C18_B2_draws`, `C18_B2_batch_draws`, `C18_ppe_prove_draws`, `C18_ppe_cap_draws`, `C18_ms1_prove_draws`, `C18_ms1_cap_draws`, `C18_ms2_prove_draws`, `C18_ms2_cap_draws`, `C18_quad_prove_draws`, `C18_quad_cap_draws`, `C18_generate_draws` |
| C19 | `P_Commit.v` | `C19_append_returns`, `C19_append_panics`, `C19_append_panic_unchanged`, `C19_append_assoc` |
| C20 | `P_Commit.v` | `C20_api_made1`, `C20_api_append1`, `C20_api_made2`, `C20_api_append2` |
| C21 | `P_Mat.v` | `C21_field_right`, `C21_field_left`, `C21_com_right`, `C21_com_left` |
| C22 | `P_Mat.v` | `C22_field_right_value`, `C22_field_left_value`, `C22_field_right_assoc`, `C22_field_left_assoc`, `C22_field_left_right`, `C22_field_right_addl`, `C22_field_right_addr`, `C22_field_left_addl`, `C22_field_left_addr`, `C22_com_right_value`, `C22_com_left_value`, `C22_com_right_assoc`, `C22_com_left_assoc`, `C22_com_left_right`, `C22_com_right_addl`, `C22_com_right_addr`, `C22_com_left_addl`, `C22_com_left_addr` |
| C23 | `P_Mat.v` | `C23_field_add_value`, `C23_field_add_comm`, `C23_field_add_assoc`, `C23_field_neg_value`, `C23_field_add_neg`, `C23_field_add_zero`, `C23_field_scalar_value`, `C23_field_scalar_addl`, `C23_field_scalar_addr`, `C23_field_scalar_mul`, `C23_field_scalar_one`, `C23_com_add_value`, `C23_com_add_comm`, `C23_com_add_assoc`, `C23_com_neg_value`, `C23_com_add_neg`, `C23_com_add_zero`, `C23_com_scalar_value`, `C23_com_scalar_addl`, `C23_com_scalar_addr`, `C23_com_scalar_mul`, `C23_com_scalar_one` |
| C24 | `P_Mat.v` | `C24_field_transpose_value`, `C24_field_transpose_involutive`, `C24_field_transpose_right`, `C24_field_transpose_left`, `C24_com_transpose_value`, `C24_com_transpose_involutive`, `C24_com_transpose_right`, `C24_com_transpose_left` |
| C25 | `P_Mat.v` | `C25_field_add`, `C25_field_neg`, `C25_field_scalar_mul`, `C25_field_transpose`, `C25_field_right_mul`, `C25_field_left_mul`, `C25_com_add`, `C25_com_neg`, `C25_com_scalar_mul`, `C25_com_transpose`, `C25_com_right_mul`, `C25_com_left_mul`, `C25_col_vec_to_vec` |
| C26 | `P_Com.v` | `C26_com_abelian`, `C26_com_sub`, `C26_com_eq`, `C26_com_is_zero`, `C26_com_sum`, `C26_comT_abelian`, `C26_comT_sub`, `C26_comT_eq`, `C26_comT_is_zero`, `C26_comT_sum` |
| C27 | `P_Com.v` | `C27_module` |
| C28 | `P_Com.v` | `C28_additive`, `C28_homogeneous`, `C28_no_zero_divisors`, `C28_nondegenerate`, `C28_pairing_sum`, `C28_entries`, `C28_sum_entries` |
| C29 | `P_Com.v` | `C29_PPE`, `C29_MSMEG1`, `C29_MSMEG2`, `C29_quad`, `C29_com1_maps_linear`, `C29_com1_batch_maps`, `C29_com2_maps_linear`, `C29_com2_batch_maps`, `C29_target_maps_linear` |
| C30 | `P_Mat.v` | `C30_com_from_as_col_vec`, `C30_as_vec`, `C30_com_from_exact`, `C30_comT_from_as_matrix`, `C30_comT_from_exact`, `C30_col_vec_round_trip` |
| C31 | `P_Gen.v` | `C31_shape`, `C31_gt`, `C31_one_key`, `C31_every_key` |
| C32 | `P_Gen.v` | `C32_difference`, `C32_hiding_spans`, `C32_hiding_independent`, `C32_binding_does_not_span` |
| C33 | `P_Verify.v` | `C33_ppe_randomness`, `C33_ppe_crs`, `C33_ms1_randomness`, `C33_ms1_crs`, `C33_ms2_randomness`, `C33_ms2_crs`, `C33_quad_randomness`, `C33_quad_crs` |
| C34 | `P_Verify.v` | `C34_ppe_panics`, `C34_ppe_value`, `C34_ms1_panics`, `C34_ms1_value`, `C34_ms2_panics`, `C34_ms2_value`, `C34_quad_panics`, `C34_quad_value` |
| C35 | `P_Verify.v` | `C35_ppe_panics`, `C35_ppe_shape`, `C35_ms1_panics`, `C35_ms1_shape`, `C35_ms2_panics`, `C35_ms2_shape`, `C35_quad_panics`, `C35_quad_shape` |
| C36 | `P_Complete.v` | `C36_ppe_refuted`, `C36_ppe_verify_refuted`, `C36_ms1_refuted`, `C36_ms1_verify_refuted`, `C36_ms2_refuted`, `C36_ms2_verify_refuted`, `C36_quad_refuted`, `C36_quad_verify_refuted` |
| C37 | `P_Verify.v` | `C37_ppe_pi`, `C37_ppe_theta`, `C37_ms1_pi`, `C37_ms1_theta_refuted`, `C37_ms2_pi_refuted`, `C37_ms2_theta`, `C37_quad_pi_refuted`, `C37_quad_theta_refuted` |
| C38 | `P_Verify.v` | `C38_ppe`, `C38_ms1`, `C38_ms2`, `C38_quad` |
| C39 | `P_Codec.v` | `C39_bytes`, `C39_reads_back`, `C39_canonical`, `C39_rejects`, `C39_empty`, `C39_size` |
| C40 | `P_Codec.v` | `C40_com1`, `C40_com2`, `C40_crs`, `C40_commit1`, `C40_commit2`, `C40_equproof`, `C40_ppe`, `C40_ms1`, `C40_ms2`, `C40_quad` |
| C41 | `P_Codec.v` | `C41_com1_canonical`, `C41_com1_one`, `C41_com1_prefix`, `C41_com2_canonical`, `C41_com2_one`, `C41_com2_prefix`, `C41_crs_canonical`, `C41_crs_one`, `C41_crs_prefix`, `C41_commit1_canonical`, `C41_commit1_one`, `C41_commit1_prefix`, `C41_commit2_canonical`, `C41_commit2_one`, `C41_commit2_prefix`, `C41_equproof_canonical`, `C41_equproof_one`, `C41_equproof_prefix`, `C41_ppe_canonical`, `C41_ppe_one`, `C41_ppe_prefix`, `C41_ms1_canonical`, `C41_ms1_one`, `C41_ms1_prefix`, `C41_ms2_canonical`, `C41_ms2_one`, `C41_ms2_prefix`, `C41_quad_canonical`, `C41_quad_one`, `C41_quad_prefix` |
| C42 | `P_Codec.v` | `C42_com1`, `C42_com2`, `C42_crs`, `C42_commit1`, `C42_commit2`, `C42_equproof`, `C42_ppe`, `C42_ms1`, `C42_ms2`, `C42_quad` |
| C43 | `P_Codec.v` | `C43_ppe`, `C43_ms1`, `C43_ms2`, `C43_quad` |
| C44 | `P_Sound.v` | `C44_ms1_refuted`, `C44_ms2_refuted`, `C44_quad_refuted` |
| C45 | `P_Commit.v` | `C45_G1_homomorphic`, `C45_G1_batch_homomorphic`, `C45_G2_homomorphic`, `C45_G2_batch_homomorphic`, `C45_B1_homomorphic`, `C45_B1_batch_homomorphic`, `C45_B2_homomorphic`, `C45_B2_batch_homomorphic` |
| C46 | `P_Verify.v` | `C46_ppe_stamp`, `C46_ppe_mismatch`, `C46_ms1_stamp`, `C46_ms1_mismatch`, `C46_ms2_stamp`, `C46_ms2_mismatch`, `C46_quad_stamp`, `C46_quad_mismatch` |
| C47 | `P_Verify.v` | `C47_ppe_verify`, `C47_ppe_prove`, `C47_ms1_verify`, `C47_ms1_prove`, `C47_ms2_verify`, `C47_ms2_prove`, `C47_quad_verify`, `C47_quad_prove` |
| C48 | `P_Hide.v` | `C48_ppe_simulated`, `C48_ppe_counts`, `C48_ppe_accepted`, `C48_ms1_simulated`, `C48_ms1_counts`, `C48_ms1_accepted`, `C48_ms2_simulated`, `C48_ms2_counts`, `C48_ms2_accepted`, `C48_quad_simulated`, `C48_quad_counts`, `C48_quad_accepted` |
| C49 | `P_Sxdh.v` | `C49_bound`, `C49_quarter`, `C49_games`, `C49_real` |
| C50 | `P_Sxdh.v` | `C50_ppe`, `C50_ppe_ddh`, `C50_ms1`, `C50_ms1_ddh`, `C50_ms2`, `C50_ms2_ddh`, `C50_quad`, `C50_quad_ddh` |
| C51 | `P_Codec.v` | `C51_com1`, `C51_com2`, `C51_crs`, `C51_commit1`, `C51_commit2`, `C51_equproof`, `C51_ppe`, `C51_ms1`, `C51_ms2`, `C51_quad` |
| C52 | `P_Codec.v` | `C52_com1`, `C52_com2`, `C52_crs`, `C52_commit1`, `C52_commit2`, `C52_equproof`, `C52_ppe`, `C52_ms1`, `C52_ms2`, `C52_quad` |
| C53 | `P_Sxdh.v` | `C53_ppe`, `C53_ppe_ddh`, `C53_ms1`, `C53_ms1_ddh`, `C53_ms2`, `C53_ms2_ddh`, `C53_quad`, `C53_quad_ddh` |
| C54 | `P_Eq.v` | `C54_commit`, `C54_ppe`, `C54_ms1`, `C54_ms2`, `C54_quad`, `C54_equproof`, `C54_cproof`, `C54_private` |
| C55 | `P_Eq.v` | `C55_ppe_prove`, `C55_ppe_commit_and_prove`, `C55_ppe_verify`, `C55_ms1_prove`, `C55_ms1_commit_and_prove`, `C55_ms1_verify`, `C55_ms2_prove`, `C55_ms2_commit_and_prove`, `C55_ms2_verify`, `C55_quad_prove`, `C55_quad_commit_and_prove`, `C55_quad_verify` |
| C56 | `P_Multi.v` | `C56_ppe_complete`, `C56_ppe_decides`, `C56_ms1_complete`, `C56_ms1_decides`, `C56_ms2_complete`, `C56_ms2_decides`, `C56_quad_complete`, `C56_quad_decides` |
| C57 | `P_Multi.v` | `C57_system_complete`, `C57_system_built`, `C57_system_decides`, `C57_system_sound` |
| C58 | `P_Multi.v` | `C58_system_wi`, `C58_system_wi_counts`, `C58_system_zk`, `C58_system_zk_counts`, `C58_system_comp_wi`, `C58_system_comp_wi_ddh`, `C58_system_comp_zk`, `C58_system_comp_zk_ddh` |
| C59 | `P_Exist.v` | `C59_ppe`, `C59_ms1`, `C59_ms2`, `C59_quad` |
| C60 | `P_Rerand.v` | `C60_ppe_verifies`, `C60_ppe_fresh`, `C60_ppe_counts`, `C60_ms1_verifies`, `C60_ms1_fresh`, `C60_ms1_counts`, `C60_ms2_verifies`, `C60_ms2_fresh`, `C60_ms2_counts`, `C60_quad_verifies`, `C60_quad_fresh`, `C60_quad_counts`, `C60_G1_values`, `C60_G2_values`, `C60_B1_values`, `C60_B2_values` |
| C61 | `P_Exist.v` | `C61_ppe`, `C61_ms1`, `C61_ms2`, `C61_quad`, `C61_literal_power_refuted` |
| C62 | `P_Rerand.v`, `P_Subst.v` | `C62_G1_homomorphic`, `C62_G2_homomorphic`, `C62_B1_homomorphic`, `C62_B2_homomorphic`, `C62_ppe_equations`, `C62_ppe_runs`, `C62_ms1_equations`, `C62_ms1_runs`, `C62_ms2_equations`, `C62_ms2_runs`, `C62_quad_equations`, `C62_quad_runs`, `C62_ppe_subst_holds`, `C62_ppe_subst_verify`, `C62_ppe_subst_prove`, `C62_ms1_subst_holds`, `C62_ms1_subst_verify`, `C62_ms1_subst_prove`, `C62_ms2_subst_holds`, `C62_ms2_subst_verify`, `C62_ms2_subst_prove`, `C62_quad_subst_holds`, `C62_quad_subst_verify`, `C62_quad_subst_prove` |
| C63 | `P_Exist.v` | `C63_ppe`, `C63_ms1`, `C63_ms2`, `C63_quad` |
| C64 | `P_Exist.v` | `C64_ppe`, `C64_ms1`, `C64_ms2`, `C64_quad` |
| C65 | `P_Keys.v` | `C65_ppe`, `C65_ms1`, `C65_ms2`, `C65_quad` |
| C66 | `P_Keys.v` | `C66_G1`, `C66_G2`, `C66_B1`, `C66_B2` |
| C67 | `P_Panic.v` | `C67_field_add`, `C67_field_neg`, `C67_field_scalar_mul`, `C67_field_transpose`, `C67_field_right_mul`, `C67_field_left_mul`, `C67_com_add`, `C67_com_neg`, `C67_com_scalar_mul`, `C67_com_transpose`, `C67_com_right_mul`, `C67_com_left_mul`, `C67_flatten`, `C67_com_from`, `C67_comT_from`, `C67_pairing_sum`, `C67_scalar_map1`, `C67_batch_scalar_map1`, `C67_scalar_map2`, `C67_batch_scalar_map2`, `C67_linear_map_MSMEG1`, `C67_linear_map_MSMEG2`, `C67_linear_map_quad`, `C67_append`, `C67_commit_G1`, `C67_batch_commit_G1`, `C67_commit_G2`, `C67_batch_commit_G2`, `C67_commit_B1`, `C67_batch_commit_B1`, `C67_commit_B2`, `C67_batch_commit_B2`, `C67_ppe_verify`, `C67_ms1_verify`, `C67_ms2_verify`, `C67_quad_verify`, `C67_ppe_prove`, `C67_ms1_prove`, `C67_ms2_prove`, `C67_quad_prove`, `C67_ppe_commit_and_prove`, `C67_ms1_commit_and_prove`, `C67_ms2_commit_and_prove`, `C67_quad_commit_and_prove` |
| C68 | `P_RngState.v` | `C68_commit_G1`, `C68_batch_commit_G1`, `C68_commit_scalar_to_B1`, `C68_batch_commit_scalar_to_B1`, `C68_commit_G2`, `C68_batch_commit_G2`, `C68_commit_scalar_to_B2`, `C68_batch_commit_scalar_to_B2`, `C68_ppe_prove`, `C68_ppe_commit_and_prove`, `C68_ms1_prove`, `C68_ms1_commit_and_prove`, `C68_ms2_prove`, `C68_ms2_commit_and_prove`, `C68_quad_prove`, `C68_quad_commit_and_prove` |
| C69 | `P_Formula.v` | `C69_field_add`, `C69_field_neg`, `C69_field_scalar_mul`, `C69_field_transpose`, `C69_field_right_mul`, `C69_field_left_mul`, `C69_com_add`, `C69_com_neg`, `C69_com_scalar_mul`, `C69_com_transpose`, `C69_com_right_mul`, `C69_com_left_mul`, `C69_flatten`, `C69_com_from`, `C69_comT_from`, `C69_pairing_sum`, `C69_scalar_map1`, `C69_batch_scalar_map1`, `C69_scalar_map2`, `C69_batch_scalar_map2`, `C69_linear_map_MSMEG1`, `C69_linear_map_MSMEG2`, `C69_linear_map_quad`, `C69_append`, `C69_commit_G1`, `C69_batch_commit_G1`, `C69_commit_B1`, `C69_batch_commit_B1`, `C69_commit_G2`, `C69_batch_commit_G2`, `C69_commit_B2`, `C69_batch_commit_B2`, `C69_ppe_verify`, `C69_ms1_verify`, `C69_ms2_verify`, `C69_quad_verify`, `C69_ppe_prove`, `C69_ms1_prove`, `C69_ms2_prove`, `C69_quad_prove`, `C69_ppe_commit_and_prove`, `C69_ms1_commit_and_prove`, `C69_ms2_commit_and_prove`, `C69_quad_commit_and_prove` |
| C70 | `P_Codec2.v` | `C70_equtype`, `C70_com1`, `C70_com1_check`, `C70_com2`, `C70_com2_check`, `C70_crs`, `C70_crs_check`, `C70_commit1`, `C70_commit1_check`, `C70_commit2`, `C70_commit2_check`, `C70_equproof`, `C70_equproof_check`, `C70_ppe`, `C70_ppe_check`, `C70_ms1`, `C70_ms1_check`, `C70_ms2`, `C70_ms2_check`, `C70_quad`, `C70_quad_check` |
| C71 | `P_Codec2.v` | `C71_equtype`, `C71_com1`, `C71_com1_errors`, `C71_com2`, `C71_com2_errors`, `C71_crs`, `C71_crs_errors`, `C71_commit1`, `C71_commit1_errors`, `C71_commit2`, `C71_commit2_errors`, `C71_equproof`, `C71_equproof_errors`, `C71_ppe`, `C71_ppe_errors`, `C71_ms1`, `C71_ms1_errors`, `C71_ms2`, `C71_ms2_errors`, `C71_quad`, `C71_quad_errors` |
| C72 | `P_Suite.v` | `C72_test_B1_add_zero`, `C72_test_B2_add_zero`, `C72_test_BT_add_zero`, `C72_test_B1_add`, `C72_test_B2_add`, `C72_test_BT_add`, `C72_test_B1_sum`, `C72_test_B2_sum`, `C72_test_BT_sum`, `C72_test_B1_neg`, `C72_test_B2_neg`, `C72_test_BT_neg`, `C72_test_B1_sub`, `C72_test_B2_sub`, `C72_test_BT_sub`, `C72_test_B1_scalar_mul`, `C72_test_B2_scalar_mul`, `C72_test_B1_serde`, `C72_test_B2_serde`, `C72_test_B_pairing_zero_G1`, `C72_test_B_pairing_zero_G2`, `C72_test_B_pairing_commit`, `C72_test_B_pairing_rand`, `C72_test_B_pairing_sum`, `C72_test_B_into_matrix`, `C72_test_B_from_matrix`, `C72_test_batched_linear_maps`, `C72_test_batched_scalar_linear_maps`, `C72_test_PPE_linear_maps`, `C72_test_MSMEG1_linear_maps`, `C72_test_MSMEG2_linear_maps`, `C72_test_QuadEqu_linear_maps`, `C72_test_col_vec_to_vec`, `C72_test_vec_to_col_vec`, `C72_test_field_matrix_left_mul_entry`, `C72_test_field_matrix_right_mul_entry`, `C72_test_field_matrix_left_mul`, `C72_test_field_matrix_right_mul`, `C72_test_field_matrix_left_mul_par`, `C72_test_field_matrix_right_mul_par`, `C72_test_B1_matrix_left_mul_entry`, `C72_test_B1_matrix_right_mul_entry`, `C72_test_field_matrix_scalar_mul`, `C72_test_B1_matrix_scalar_mul`, `C72_test_B2_matrix_scalar_mul`, `C72_test_B1_transpose_vec`, `C72_test_B1_matrix_transpose`, `C72_test_B2_transpose_vec`, `C72_test_B2_matrix_transpose`, `C72_test_field_transpose_vec`, `C72_test_field_matrix_transpose`, `C72_test_field_matrix_neg`, `C72_test_B1_matrix_neg`, `C72_test_B2_matrix_neg`, `C72_test_field_matrix_add`, `C72_test_B1_matrix_add`, `C72_test_B2_matrix_add`, `C72_test_valid_generators`, `C72_test_valid_binding_CRS`, `C72_test_CRS_serde`, `C72_test_equtypes_serde`, `C72_test_PPE_equation_type`, `C72_test_PPE_equation_serde`, `C72_test_MSMEG1_equation_type`, `C72_test_MSMEG1_equation_serde`, `C72_test_MSMEG2_equation_type`, `C72_test_MSMEG2_equation_serde`, `C72_test_quadratic_equation_type`, `C72_test_quadratic_equation_serde`, `C72_test_commit_serde`, `C72_test_commit_append_com1`, `C72_test_commit_append_com2`, `C72_test_commit_G1_batching`, `C72_test_commit_G2_batching`, `C72_test_commit_scalar_B1_batching`, `C72_test_commit_scalar_B2_batching`, `C72_test_PPE_proof_type`, `C72_test_PPE_cproof_is_commit_and_prove`, `C72_test_PPE_cproof_serde`, `C72_test_MSMEG1_proof_type`, `C72_test_MSMEG1_cproof_is_commit_and_prove`, `C72_test_MSGMEG1_cproof_serde`, `C72_test_MSMEG2_proof_type`, `C72_test_MSMEG2_cproof_is_commit_and_prove`, `C72_test_MSMEG2_proof_serde`, `C72_test_quadratic_proof_type`, `C72_test_quadratic_cproof_is_commit_and_prove`, `C72_test_quadratic_proof_serde`, `C72_PPE_linear_bilinear_map_commutativity`, `C72_MSMEG1_linear_bilinear_map_commutativity`, `C72_MSMEG2_linear_bilinear_map_commutativity`, `C72_QuadEqu_linear_bilinear_map_commutativity`, `C72_pairing_product_equation_verifies`, `C72_multi_scalar_mult_equation_G1_verifies`, `C72_multi_scalar_mult_equation_G2_verifies`, `C72_quadratic_equation_verifies`, `C72_MSMEG2_cproof_two_states_refuted`, `C72_quadratic_cproof_two_states_refuted` |
| C73 | `P_Bench.v` | `C73_small_field_matrix_mul`, `C73_field_matrix_mul`, `C73_large_field_matrix_mul`, `C73_small_B1_matrix_mul`, `C73_group_arith`, `C73_small_batch_commit_G1`, `C73_batch_commit_G1`, `C73_large_batch_commit_G1`, `C73_small_batch_commit_G2`, `C73_batch_commit_G2`, `C73_large_batch_commit_G2`, `C73_small_batch_commit_scalar_to_B1`, `C73_batch_commit_scalar_to_B1`, `C73_large_batch_commit_scalar_to_B1`, `C73_small_batch_commit_scalar_to_B2`, `C73_batch_commit_scalar_to_B2`, `C73_large_batch_commit_scalar_to_B2`, `C73_small_PPE_proof`, `C73_PPE_proof`, `C73_large_PPE_proof`, `C73_small_PPE_verify`, `C73_PPE_verify`, `C73_large_PPE_verify` |
| C74 | `P_Error.v` | `C74_ppe_never`, `C74_ms1_bound`, `C74_ms1_tight`, `C74_ms2_bound`, `C74_ms2_tight`, `C74_quad_bound`, `C74_quad_tight`, `C74_uniform`, `C74_G1_binding`, `C74_G2_binding`, `C74_B1_binding`, `C74_B1_tight`, `C74_B2_binding`, `C74_B2_tight` |
| C75 | `P_Trap.v` | `C75_keys`, `C75_decrypt_G1`, `C75_decrypt_G2`, `C75_decrypt_B1`, `C75_decrypt_B2`, `C75_ppe`, `C75_ms1`, `C75_ms2`, `C75_quad` |
| C76 | `P_Trap.v` | `C76_G1`, `C76_G2`, `C76_B1`, `C76_B2`, `C76_ppe`, `C76_ms1`, `C76_ms2`, `C76_quad` |
| C77 | `P_Type3.v` | `C77_opens_G1`, `C77_opens_G2`, `C77_opens_B1`, `C77_opens_B2`, `C77_keys_1`, `C77_keys_2`, `C77_ddh_1`, `C77_ddh_2`, `C77_ppe_X`, `C77_ppe_Y`, `C77_ms1_X`, `C77_ms1_Y`, `C77_ms2_X`, `C77_ms2_Y`, `C77_quad_X`, `C77_quad_Y` |
| C78 | `P_Nec.v` | `C78_keys_1`, `C78_keys_2`, `C78_ppe_X`, `C78_ppe_Y`, `C78_ms1_X`, `C78_ms1_Y`, `C78_ms2_X`, `C78_ms2_Y`, `C78_quad_X`, `C78_quad_Y` |
| C79 | `P_Ark.v` | `C79_com`, `C79_mat`, `C79_comT`, `C79_maps`, `C79_generate_crs`, `C79_prepare_keys`, `C79_commit_G1`, `C79_batch_commit_G1`, `C79_commit_scalar_to_B1`, `C79_batch_commit_scalar_to_B1`, `C79_commit_G2`, `C79_batch_commit_G2`, `C79_commit_scalar_to_B2`, `C79_batch_commit_scalar_to_B2`, `C79_append`, `C79_derived_eq`, `C79_ppe_prove`, `C79_ppe_commit_and_prove`, `C79_ppe_verify`, `C79_ms1_prove`, `C79_ms1_commit_and_prove`, `C79_ms1_verify`, `C79_ms2_prove`, `C79_ms2_commit_and_prove`, `C79_ms2_verify`, `C79_quad_prove`, `C79_quad_commit_and_prove`, `C79_quad_verify` |
| C80 | `P_Ark.v` | `C80_ppe_decides`, `C80_ppe_sound`, `C80_ppe_wi`, `C80_ms1_decides`, `C80_ms1_sound`, `C80_ms1_wi`, `C80_ms2_decides`, `C80_ms2_sound`, `C80_ms2_wi`, `C80_quad_decides`, `C80_quad_sound`, `C80_quad_wi` |
| C81 | `P_Ark.v` | `C81_ppe_shift`, `C81_ppe_refuted`, `C81_ppe_sound`, `C81_ms1_shift`, `C81_ms1_refuted`, `C81_ms1_sound`, `C81_ms2_shift`, `C81_ms2_refuted`, `C81_ms2_sound`, `C81_quad_shift`, `C81_quad_refuted`, `C81_quad_sound` |
| C82 | `P_Wire.v` | `C82_crs_represent`, `C82_crs_roundtrip`, `C82_commit1_represent`, `C82_commit1_roundtrip`, `C82_commit2_represent`, `C82_commit2_roundtrip`, `C82_equproof_represent`, `C82_equproof_roundtrip`, `C82_ppe_represent`, `C82_ppe_roundtrip`, `C82_ms1_represent`, `C82_ms1_roundtrip`, `C82_ms2_represent`, `C82_ms2_roundtrip`, `C82_quad_represent`, `C82_quad_roundtrip`, `C82_read`, `C82_send`, `C82_ppe_decides`, `C82_ppe_sound`, `C82_ppe_unvalidated_refuted`, `C82_ms1_decides`, `C82_ms1_sound`, `C82_ms1_unvalidated_refuted`, `C82_ms2_decides`, `C82_ms2_sound`, `C82_ms2_unvalidated_refuted`, `C82_quad_decides`, `C82_quad_sound`, `C82_quad_unvalidated_refuted` |
| C83 | `P_ArkGame.v` | `C83_ppe`, `C83_ms1`, `C83_ms2`, `C83_quad` |
| C84 | `P_ArkZk.v` | `C84_ppe`, `C84_ms1`, `C84_ms2`, `C84_quad` |
| C85 | `P_Adaptive.v` | `C85_system_draws`, `C85_perfect_wi`, `C85_perfect_zk`, `C85_comp_wi`, `C85_comp_wi_ddh`, `C85_comp_zk`, `C85_comp_zk_ddh` |
| C86 | `P_Known.v`, `P_KnownY.v`, `P_Mirror.v`, `P_MirrorRun.v`, `P_Pad.v` | `C86_ppe_known_holds`, `C86_ppe_known_verify`, `C86_ppe_known_prove`, `C86_ms1_known_holds`, `C86_ms1_known_verify`, `C86_ms1_known_prove`, `C86_ms2_known_holds`, `C86_ms2_known_verify`, `C86_ms2_known_prove`, `C86_quad_known_holds`, `C86_quad_known_verify`, `C86_quad_known_prove`, `C86_G1_mirror`, `C86_G2_mirror`, `C86_B1_mirror`, `C86_B2_mirror`, `C86_binding_mirror`, `C86_hiding_mirror`, `C86_ppe_mirror_holds`, `C86_ppe_mirror_verify`, `C86_ppe_mirror_prove`, `C86_ms1_mirror_holds`, `C86_ms1_mirror_verify`, `C86_ms1_mirror_prove`, `C86_ms2_mirror_holds`, `C86_ms2_mirror_verify`, `C86_ms2_mirror_prove`, `C86_quad_mirror_holds`, `C86_quad_mirror_verify`, `C86_quad_mirror_prove`, `C86_ppe_holds`, `C86_ppe_verify`, `C86_ppe_prove`, `C86_ms1_holds`, `C86_ms1_verify`, `C86_ms1_prove`, `C86_ms2_holds`, `C86_ms2_verify`, `C86_ms2_prove`, `C86_quad_holds`, `C86_quad_verify`, `C86_quad_prove`, `C86_ppe_known_y_holds`, `C86_ppe_known_y_verify`, `C86_ppe_known_y_prove`, `C86_ms1_known_y_holds`, `C86_ms1_known_y_verify`, `C86_ms1_known_y_prove`, `C86_ms2_known_y_holds`, `C86_ms2_known_y_verify`, `C86_ms2_known_y_prove`, `C86_quad_known_y_holds`, `C86_quad_known_y_verify`, `C86_quad_known_y_prove`, `C86_ppe_mirror_run`, `C86_ms1_mirror_run`, `C86_ms2_mirror_run`, `C86_quad_mirror_run` |
| C87 | `P_ArkMulti.v` | `C87_prove_system`, `C87_verify_system`, `C87_system_complete`, `C87_system_decides`, `C87_system_sound`, `C87_system_wi` |
| C88 | `P_ArkMulti.v` | `C88_comp_wi`, `C88_comp_zk` |
| C89 | `P_Prg.v` | `C89_commit_G1`, `C89_commit_G2`, `C89_commit_scalar_to_B1`, `C89_commit_scalar_to_B2`, `C89_batch_commit_G1`, `C89_batch_commit_G2`, `C89_batch_commit_scalar_to_B1`, `C89_batch_commit_scalar_to_B2`, `C89_ppe_prove`, `C89_ppe_cap`, `C89_ms1_prove`, `C89_ms1_cap`, `C89_ms2_prove`, `C89_ms2_cap`, `C89_quad_prove`, `C89_quad_cap`, `C89_system`, `C89_session`, `C89_game`, `C89_crs`, `C89_ppe_wi`, `C89_ms1_wi`, `C89_ms2_wi`, `C89_quad_wi`, `C89_ppe_zk`, `C89_ms1_zk`, `C89_ms2_zk`, `C89_quad_zk`, `C89_system_wi`, `C89_system_zk`, `C89_session_wi`, `C89_session_zk`, `C89_ppe_forgery`, `C89_ms1_forgery`, `C89_ms2_forgery`, `C89_quad_forgery` |
| C90 | `P_Alloc.v` | `C90_crs_agrees`, `C90_crs_enough`, `C90_crs_back`, `C90_crs_blame`, `C90_crs_errors`, `C90_crs_total_refuted`, `C90_commit1_agrees`, `C90_commit1_enough`, `C90_commit1_back`, `C90_commit1_blame`, `C90_commit1_errors`, `C90_commit1_total_refuted`, `C90_commit2_agrees`, `C90_commit2_enough`, `C90_commit2_back`, `C90_commit2_blame`, `C90_commit2_errors`, `C90_commit2_total_refuted`, `C90_equproof_agrees`, `C90_equproof_enough`, `C90_equproof_back`, `C90_equproof_blame`, `C90_equproof_errors`, `C90_equproof_total_refuted`, `C90_ppe_agrees`, `C90_ppe_enough`, `C90_ppe_back`, `C90_ppe_blame`, `C90_ppe_errors`, `C90_ppe_total_refuted`, `C90_ms1_agrees`, `C90_ms1_enough`, `C90_ms1_back`, `C90_ms1_blame`, `C90_ms1_errors`, `C90_ms1_total_refuted`, `C90_ms2_agrees`, `C90_ms2_enough`, `C90_ms2_back`, `C90_ms2_blame`, `C90_ms2_errors`, `C90_ms2_total_refuted`, `C90_quad_agrees`, `C90_quad_enough`, `C90_quad_back`, `C90_quad_blame`, `C90_quad_errors`, `C90_quad_total_refuted`, `C90_capacity`, `C90_receive`, `C90_receive_sent` |
| C91 | `P_Trace.v` | `C91_traced_generate_crs`, `C91_alike_generate_crs`, `C91_traced_commit_G1`, `C91_alike_commit_G1`, `C91_traced_batch_commit_G1`, `C91_alike_batch_commit_G1`, `C91_traced_commit_scalar_to_B1`, `C91_alike_commit_scalar_to_B1`, `C91_traced_batch_commit_scalar_to_B1`, `C91_alike_batch_commit_scalar_to_B1`, `C91_traced_commit_G2`, `C91_alike_commit_G2`, `C91_traced_batch_commit_G2`, `C91_alike_batch_commit_G2`, `C91_traced_commit_scalar_to_B2`, `C91_alike_commit_scalar_to_B2`, `C91_traced_batch_commit_scalar_to_B2`, `C91_alike_batch_commit_scalar_to_B2`, `C91_traced_ppe_prove`, `C91_alike_ppe_prove`, `C91_traced_ppe_commit_and_prove`, `C91_alike_ppe_commit_and_prove`, `C91_traced_ppe_verify`, `C91_alike_ppe_verify`, `C91_traced_ms1_prove`, `C91_alike_ms1_prove`, `C91_traced_ms1_commit_and_prove`, `C91_alike_ms1_commit_and_prove`, `C91_traced_ms1_verify`, `C91_alike_ms1_verify`, `C91_traced_ms2_prove`, `C91_alike_ms2_prove`, `C91_traced_ms2_commit_and_prove`, `C91_alike_ms2_commit_and_prove`, `C91_traced_ms2_verify`, `C91_alike_ms2_verify`, `C91_traced_quad_prove`, `C91_alike_quad_prove`, `C91_traced_quad_commit_and_prove`, `C91_alike_quad_commit_and_prove`, `C91_traced_quad_verify`, `C91_alike_quad_verify`, `C91_named_ppe_commit_and_prove`, `C91_named_ms1_commit_and_prove`, `C91_named_ms2_commit_and_prove`, `C91_named_quad_commit_and_prove`, `C91_sizes_ppe_commit_and_prove`, `C91_sizes_ppe_verify`, `C91_sizes_ms1_commit_and_prove`, `C91_sizes_ms1_verify`, `C91_sizes_ms2_commit_and_prove`, `C91_sizes_ms2_verify`, `C91_sizes_quad_commit_and_prove`, `C91_sizes_quad_verify`, `C91_generate_crs_expr`, `C91_cost_commit_G1`, `C91_cost_batch_commit_G1`, `C91_cost_commit_scalar_to_B1`, `C91_cost_batch_commit_scalar_to_B1`, `C91_cost_commit_G2`, `C91_cost_batch_commit_G2`, `C91_cost_commit_scalar_to_B2`, `C91_cost_batch_commit_scalar_to_B2`, `C91_cost_ppe_prove`, `C91_cost_ms1_prove`, `C91_cost_ms2_prove`, `C91_cost_quad_prove`, `C91_pairs_ppe_verify`, `C91_pairs_ms1_verify`, `C91_pairs_ms2_verify`, `C91_pairs_quad_verify` |
| C92 | `P_Reuse.v` | `C92_batch_commit_G1`, `C92_batch_commit_G1_same`, `C92_commit_G1`, `C92_batch_commit_scalar_to_B1`, `C92_batch_commit_scalar_to_B1_same`, `C92_commit_scalar_to_B1`, `C92_batch_commit_G2`, `C92_batch_commit_G2_same`, `C92_commit_G2`, `C92_batch_commit_scalar_to_B2`, `C92_batch_commit_scalar_to_B2_same`, `C92_commit_scalar_to_B2`, `C92_ppe`, `C92_ppe_same`, `C92_ms1`, `C92_ms1_same`, `C92_ms2`, `C92_ms2_same`, `C92_quad`, `C92_quad_same` |
| C93 | `P_Twice.v` | `C93_com1_one`, `C93_com1_other`, `C93_com2_one`, `C93_com2_other`, `C93_crs_one`, `C93_crs_other`, `C93_commit1_one`, `C93_commit1_other`, `C93_commit2_one`, `C93_commit2_other`, `C93_equproof_one`, `C93_equproof_other`, `C93_ppe_one`, `C93_ppe_other`, `C93_ms1_one`, `C93_ms1_other`, `C93_ms2_one`, `C93_ms2_other`, `C93_quad_one`, `C93_quad_other` |
| C94 | `P_Formats.v` | `C94_prime_field`, `C94_extension`, `C94_field_members`, `C94_field_canonical`, `C94_field_size`, `C94_field_cuttable`, `C94_point_members`, `C94_point_lawful`, `C94_point_size`, `C94_point_cut`, `C94_point_errors`, `C94_field_io`, `C94_point_io`, `C94_point_flags`, `C94_point_one`, `C94_point_exact`, `C94_point_uncompressed`, `C94_point_canonical_refuted`, `C94_transports`, `C94_commit1_uncompressed`, `C94_commit1_compressed`, `C94_commit2_uncompressed`, `C94_commit2_compressed`, `C94_equproof_uncompressed`, `C94_equproof_compressed`, `C94_proof_malleable` |
| C95 | `P_Tamper.v` | `C95_ppe_pi`, `C95_ppe_theta`, `C95_ppe_x`, `C95_ppe_y`, `C95_ppe_a`, `C95_ppe_b`, `C95_ppe_gamma`, `C95_ppe_target`, `C95_ppe_u`, `C95_ppe_v`, `C95_ms1_pi`, `C95_ms1_theta`, `C95_ms1_x`, `C95_ms1_y`, `C95_ms1_a`, `C95_ms1_b`, `C95_ms1_gamma`, `C95_ms1_target`, `C95_ms1_u`, `C95_ms2_pi`, `C95_ms2_theta`, `C95_ms2_x`, `C95_ms2_y`, `C95_ms2_a`, `C95_ms2_b`, `C95_ms2_gamma`, `C95_ms2_target`, `C95_ms2_v`, `C95_quad_pi`, `C95_quad_theta`, `C95_quad_x`, `C95_quad_y`, `C95_quad_a`, `C95_quad_b`, `C95_quad_gamma`, `C95_quad_target`, `C95_ms1_theta_rest`, `C95_ms2_pi_rest`, `C95_quad_pi_rest`, `C95_quad_theta_rest`, `C95_binding_keys`, `C95_hiding_keys` |
| C96 | `P_Mall.v`, `P_Output.v` | `C96_ppe`, `C96_ppe_outputs_refuted`, `C96_ms1`, `C96_ms1_outputs_refuted`, `C96_ms2`, `C96_ms2_outputs_refuted`, `C96_quad`, `C96_ppe_outputs`, `C96_ppe_accepted`, `C96_ms1_outputs`, `C96_ms1_accepted`, `C96_ms2_outputs`, `C96_ms2_accepted`, `C96_quad_outputs` |
| C97 | `P_Strip.v` | `C97_strip`, `C97_bytes`, `C97_built`, `C97_commit1_read`, `C97_commit2_read`, `C97_equproof_read`, `C97_ppe_verdict`, `C97_ppe_received`, `C97_ppe_wi`, `C97_ppe_wi_counts`, `C97_ppe_zk`, `C97_ppe_zk_counts`, `C97_ppe_wi_ddh`, `C97_ppe_zk_ddh`, `C97_ppe_full_refuted`, `C97_ppe_full_wi_refuted`, `C97_ms1_verdict`, `C97_ms1_received`, `C97_ms1_wi`, `C97_ms1_wi_counts`, `C97_ms1_zk`, `C97_ms1_zk_counts`, `C97_ms1_wi_ddh`, `C97_ms1_zk_ddh`, `C97_ms1_full_refuted`, `C97_ms1_full_wi_refuted`, `C97_ms2_verdict`, `C97_ms2_received`, `C97_ms2_wi`, `C97_ms2_wi_counts`, `C97_ms2_zk`, `C97_ms2_zk_counts`, `C97_ms2_wi_ddh`, `C97_ms2_zk_ddh`, `C97_ms2_full_refuted`, `C97_ms2_full_wi_refuted`, `C97_quad_verdict`, `C97_quad_received`, `C97_quad_wi`, `C97_quad_wi_counts`, `C97_quad_zk`, `C97_quad_zk_counts`, `C97_quad_wi_ddh`, `C97_quad_zk_ddh`, `C97_quad_full_refuted`, `C97_quad_full_wi_refuted` |
| C98 | `P_ArkFibre.v`, `P_ArkRun.v`, `P_Fibre.v`, `P_FibreCom.v`, `P_Run.v` | `C98_ppe_run_ark`, `C98_ms1_run_ark`, `C98_ms2_run_ark`, `C98_quad_run_ark`, `C98_G1_binding_ark`, `C98_G1_hiding_ark`, `C98_B1_ark`, `C98_G2_binding_ark`, `C98_G2_hiding_ark`, `C98_B2_ark`, `C98_ppe_ark`, `C98_ms1_ark`, `C98_ms2_ark`, `C98_quad_ark`, `C98_G1_binding`, `C98_G1_hiding`, `C98_B1`, `C98_G2_binding`, `C98_G2_hiding`, `C98_B2`, `C98_G1_counts`, `C98_G2_counts`, `C98_ppe_run`, `C98_ppe_run_counts`, `C98_ms1_run`, `C98_ms1_run_counts`, `C98_ms2_run`, `C98_ms2_run_counts`, `C98_quad_run`, `C98_quad_run_counts`, `C98_orthogonal`, `C98_ppe`, `C98_ppe_counts`, `C98_ms1`, `C98_ms1_counts`, `C98_ms2`, `C98_ms2_counts`, `C98_quad`, `C98_quad_counts` |
| C99 | `P_ArkBij.v`, `P_Bij.v` | `C99_ppe_ark`, `C99_ms1_ark`, `C99_ms2_ark`, `C99_quad_ark`, `C99_ppe`, `C99_ms1`, `C99_ms2`, `C99_quad` |
