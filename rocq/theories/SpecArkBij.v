(** What C99 says of [commit_and_prove] over affine and projective points. *)
From mathcomp Require Import all_ssreflect all_algebra.
From Verif Require Import Base Group Commit Statement Ark SpecArk.
Set Implicit Arguments.
Unset Strict Implicit.
Unset Printing Implicit Defensive.
Import GRing.Theory.
Local Open Scope ring_scope.

(** Run on any generator whose next [N] scalars are [t], the program [g]
    publishes what [p] publishes. *)
Definition ark_gives {F : fieldType} {A : ark F} (N : nat) (g : forall R : ark_rng A, ark_rst R -> res (ark_CProof A * ark_rst R))
  (p : ark_CProof A) (t : N.-tuple F) : Prop :=
  forall (R : ark_rng A) (s : ark_rst R), ark_draws N s = t -> ark_seen (g R s) = Ok (ark_public p).
