(** Sending a proof without the randomness kept in it. *)
From mathcomp Require Import all_ssreflect all_algebra.
From Coq Require Import Strings.Byte.
From Verif Require Import Base Group DataStructures Commit Statement Prove Verify Codec.
Set Implicit Arguments.
Unset Strict Implicit.
Unset Printing Implicit Defensive.
Import GRing.Theory.
Local Open Scope ring_scope.

Section SpecStrip.
Context {E : pairing}.

(** The proof with every field [rand] emptied. The fields [rand] are private
    (src/prover/commit.rs:19-28, src/prover/prove.rs:56-61): a caller outside
    the crate gets this value by writing the public fields and an empty list
    (eight zero bytes) and reading them back (theorems C97_built and C97_*_read). *)
Definition strip (p : CProof E) : CProof E :=
  mkCProof (mkCommit (coms (xcoms p)) [::]) (mkCommit (coms (ycoms p)) [::])
    [seq mkEquProof (pi f) (theta f) (equ_type f) [::] | f <- equ_proofs p].

(** The serialized commitments and proofs, one after the other; and the same
    for the emptied value. *)
Definition wire (cs : codecs E) (md : Compress) (p : CProof E) : seq byte :=
  ser (commit1_codec cs) md (xcoms p) ++ ser (commit2_codec cs) md (ycoms p)
  ++ flatten [seq ser (equproof_codec cs) md f | f <- equ_proofs p].
Definition stripped (cs : codecs E) (md : Compress) (p : CProof E) : seq byte := wire cs md (strip p).
End SpecStrip.
