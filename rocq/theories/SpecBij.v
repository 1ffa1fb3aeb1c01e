(** What C99 says of [commit_and_prove], independently of how it computes. *)
From mathcomp Require Import all_ssreflect all_algebra.
From Verif Require Import Base Group DataStructures Generator Commit Statement Prove Spec SpecVerify SpecHide.
Set Implicit Arguments.
Unset Strict Implicit.
Unset Printing Implicit Defensive.
Import GRing.Theory.
Local Open Scope ring_scope.

(** Run on any generator whose next [N] scalars are [t], the program [f]
    returns a proof whose public part is the public part of [p]. *)
Definition gives {E : pairing} (N : nat) (f : forall R : rng E, rst R -> res (CProof E * rst R)) (p : CProof E)
  (t : N.-tuple (Fr E)) : Prop :=
  forall (R : rng E) (s : rst R), draws N s = t -> seen public (f R s) = Ok (public p).

(** Every commitment of the list is a multiple of [w]. *)
Definition multiples {F : fieldType} {G : lmodType F} (w : com G) (c : seq (com G)) : Prop :=
  forall i, (i < size c)%N -> exists r : F, nth 0 c i = r *: w.
