(** Specification: what it means for a commitment key to be binding or hiding. *)
From mathcomp Require Import all_ssreflect all_algebra.
From Verif Require Import Base Group DataStructures Commit Spec SpecVerify SpecHide.
Set Implicit Arguments.
Unset Strict Implicit.
Unset Printing Implicit Defensive.

Section SpecKeys.
Context {E : pairing}.
(** No commitment of the kind [cm] opens to two values. *)
Definition binding_for {V C : Type} (cm : CRS E -> V -> seq (Fr E) -> C -> Prop) (crs : CRS E) : Prop :=
  forall x x' r r' c, cm crs x r c -> cm crs x' r' c -> x = x'.

(** The committing functions [one] and [batch], which use [k] random scalars per value, produce commitments that
    say nothing about the values. *)
Definition hiding_for {V : Type} {G : lmodType (Fr E)} (k : nat)
  (one : forall R : rng E, V -> CRS E -> rst R -> res (commit G * rst R))
  (batch : forall R : rng E, seq V -> CRS E -> rst R -> res (commit G * rst R)) (crs : CRS E) : Prop :=
  (forall x x', same_output k (@coms _ _) (@coms _ _) (fun R s => one R x crs s) (fun R s => one R x' crs s)) /\
  (forall X X', size X = size X' ->
     same_output (k * size X) (@coms _ _) (@coms _ _) (fun R s => batch R X crs s) (fun R s => batch R X' crs s)).
End SpecKeys.
