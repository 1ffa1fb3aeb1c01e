(** Specifications for matrices: rows, entries, equal outcomes. *)
From mathcomp Require Import all_ssreflect all_algebra.
From Verif Require Import Base Spec.
Set Implicit Arguments.
Unset Strict Implicit.
Unset Printing Implicit Defensive.
Import GRing.Theory.
Local Open Scope ring_scope.

(** Row [i], and entry [i], [j]. *)
Definition mrow {T} (M : matrix T) (i : nat) : seq T := nth [::] M i.
Definition at_ {V : zmodType} (M : matrix V) (i j : nat) : V := nth 0 (mrow M i) j.

(** [M] is the [m] by [n] matrix with entries [f i j]. *)
Definition is_mat {V : zmodType} (m n : nat) (M : matrix V) (f : nat -> nat -> V) : Prop :=
  dims m n M /\ forall i j, (i < m)%N -> (j < n)%N -> at_ M i j = f i j.

(** The call returns. *)
Definition returns {A} (r : res A) : Prop := exists a, r = Ok a.

(** Both calls return, with the same value. *)
Definition agree {A} (r r' : res A) : Prop := exists a, r = Ok a /\ r' = Ok a.

(** Every task is run exactly once. *)
Definition valid_ord (ord : nat -> nat -> order) : Prop :=
  forall r c, perm_eq (ord r c) (tasks r c).

(** The zero matrix. *)
Definition zero_mat {V : zmodType} (m n : nat) : matrix V := nseq m (nseq n 0).
