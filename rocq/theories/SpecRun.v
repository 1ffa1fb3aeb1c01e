(** What C98 says of whole runs of [commit_and_prove]. *)
From mathcomp Require Import all_ssreflect all_algebra.
From Verif Require Import Base Group DataStructures Statement Prove Spec.
Set Implicit Arguments.
Unset Strict Implicit.
Unset Printing Implicit Defensive.
Import GRing.Theory.
Local Open Scope ring_scope.

(** From the [o]-th scalar on, [n] pairs of scalars: the pairs drawn from [z]
    are those drawn from [s] with [k i] moved, at the rate [t], from the first
    to the second scalar. *)
Definition moved {E : pairing} {R R' : rng E} (s : rst R) (z : rst R') (o n : nat) (t : Fr E) (k : nat -> Fr E) : Prop :=
  forall i, (i < n)%N -> drawn z (o + 2 * i) = drawn s (o + 2 * i) - t * k i /\
                         drawn z (o + 2 * i).+1 = drawn s (o + 2 * i).+1 + k i.

(** From the [o]-th scalar on, the same [n] scalars. *)
Definition same_from {E : pairing} {R R' : rng E} (s : rst R) (z : rst R') (o n : nat) : Prop :=
  forall i, (i < n)%N -> drawn z (o + i) = drawn s (o + i).

(** The number of tuples of scalars orthogonal to [w]. *)
Definition orthogonal {F : finFieldType} {W : lmodType F} (n : nat) (w : nat -> W) : nat :=
  #|[set k : n.-tuple F | \sum_(i < n) nth 0 k i *: w i == 0]|.

(** Equality of equation types, so that published proofs can be compared. *)
Definition equ_type_nat (t : EquType) : nat :=
  match t with PairingProduct => 0 | MultiScalarG1 => 1 | MultiScalarG2 => 2 | Quadratic => 3 end.
Definition nat_equ_type (n : nat) : option EquType :=
  match n with 0 => Some PairingProduct | 1 => Some MultiScalarG1 | 2 => Some MultiScalarG2 | 3 => Some Quadratic | _ => None end.
Lemma equ_type_natK : pcancel equ_type_nat nat_equ_type. Proof. by case. Qed.
Definition equ_type_eqMixin := PcanEqMixin equ_type_natK.
Canonical equ_type_eqType := EqType EquType equ_type_eqMixin.
