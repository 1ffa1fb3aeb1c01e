(** What C98 says of whole runs of [commit_and_prove] over affine and projective points. *)
From mathcomp Require Import all_ssreflect all_algebra.
From Verif Require Import Base Group Commit Statement Ark SpecArk.
Set Implicit Arguments.
Unset Strict Implicit.
Unset Printing Implicit Defensive.
Import GRing.Theory.
Local Open Scope ring_scope.

(** The scalar drawn after [i] others. *)
Definition ark_drawn {F : fieldType} {A : ark F} {R : ark_rng A} (s : ark_rst R) (i : nat) : F := nth 0 (ark_draws i.+1 s) i.

(** From the [o]-th scalar on, [n] pairs of scalars: the pairs drawn from [z]
    are those drawn from [s] with [k i] moved, at the rate [t], from the first
    to the second scalar. *)
Definition ark_moved {F : fieldType} {A : ark F} {R R' : ark_rng A} (s : ark_rst R) (z : ark_rst R') (o n : nat) (t : F) (k : nat -> F) : Prop :=
  forall i, (i < n)%N -> ark_drawn z (o + 2 * i) = ark_drawn s (o + 2 * i) - t * k i /\
                         ark_drawn z (o + 2 * i).+1 = ark_drawn s (o + 2 * i).+1 + k i.

(** From the [o]-th scalar on, the same [n] scalars. *)
Definition ark_same_from {F : fieldType} {A : ark F} {R R' : ark_rng A} (s : ark_rst R) (z : ark_rst R') (o n : nat) : Prop :=
  forall i, (i < n)%N -> ark_drawn z (o + i) = ark_drawn s (o + i).
