(** Equations about some of the variables, restated about a longer list in any order, as
    statement.rs:24-28 asks of every equation of a statement. *)
From mathcomp Require Import all_ssreflect all_algebra.
From Verif Require Import Base Group DataStructures Commit Statement Spec.
Set Implicit Arguments.
Unset Strict Implicit.
Unset Printing Implicit Defensive.
Import GRing.Theory.
Local Open Scope ring_scope.

(** Variable [i] of [m] becomes variable [f i] of [m']. *)
Definition renames (m m' : nat) (f : nat -> nat) : Prop :=
  (forall i, (i < m)%N -> (f i < m')%N) /\
  (forall i j, (i < m)%N -> (j < m)%N -> f i = f j -> i = j).
(** [k] is not one of the [m] variables. *)
Definition unused (m : nat) (f : nat -> nat) (k : nat) : Prop := forall i, (i < m)%N -> f i <> k.

(** [l'] has the items of [l] at their new places, and whatever else at the others... *)
Definition placed {T : Type} (d : T) (m : nat) (f : nat -> nat) (l l' : seq T) : Prop :=
  forall i, (i < m)%N -> nth d l' (f i) = nth d l i.
(** ... or zero at the others. *)
Definition padded {V : zmodType} (m : nat) (f : nat -> nat) (l l' : seq V) : Prop :=
  placed 0 m f l l' /\ forall k, unused m f k -> nth 0 l' k = 0.

Section Equations.
Context {E : pairing}.
(** The matrix of coefficients: zero if one of the two variables is not in the equation. *)
Definition padded_gamma (m n : nat) (f g : nat -> nat) (G G' : matrix (Fr E)) : Prop :=
  (forall i j, (i < m)%N -> (j < n)%N -> entry G' (f i) (g j) = entry G i j) /\
  (forall i j, unused m f i \/ unused n g j -> entry G' i j = 0).

Definition ppe_padded (m n : nat) (f g : nat -> nat) (q q' : PPE E) : Prop :=
  [/\ padded n g (ppe_a q) (ppe_a q'), padded m f (ppe_b q) (ppe_b q'),
      padded_gamma m n f g (ppe_gamma q) (ppe_gamma q') & ppe_target q' = ppe_target q].
Definition ms1_padded (m n : nat) (f g : nat -> nat) (q q' : MSMEG1 E) : Prop :=
  [/\ padded n g (ms1_a q) (ms1_a q'), padded m f (ms1_b q) (ms1_b q'),
      padded_gamma m n f g (ms1_gamma q) (ms1_gamma q') & ms1_target q' = ms1_target q].
Definition ms2_padded (m n : nat) (f g : nat -> nat) (q q' : MSMEG2 E) : Prop :=
  [/\ padded n g (ms2_a q) (ms2_a q'), padded m f (ms2_b q) (ms2_b q'),
      padded_gamma m n f g (ms2_gamma q) (ms2_gamma q') & ms2_target q' = ms2_target q].
Definition quad_padded (m n : nat) (f g : nat -> nat) (q q' : QuadEqu E) : Prop :=
  [/\ padded n g (quad_a q) (quad_a q'), padded m f (quad_b q) (quad_b q'),
      padded_gamma m n f g (quad_gamma q) (quad_gamma q') & quad_target q' = quad_target q].

(** Two proofs with the same proof elements; the commitments of the first are among those of the second. *)
Definition placed_proof (m n : nat) (f g : nat -> nat) (p p' : CProof E) : Prop :=
  [/\ placed 0 m f (coms (xcoms p)) (coms (xcoms p')), placed 0 n g (coms (ycoms p)) (coms (ycoms p'))
    & equ_proofs p' = equ_proofs p].
End Equations.
