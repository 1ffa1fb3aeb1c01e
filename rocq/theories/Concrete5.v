(** Concrete cases for games: the small field as a finite field. *)
From mathcomp Require Import all_ssreflect all_algebra.
From Verif Require Import Base Group Concrete.
Set Implicit Arguments.
Unset Strict Implicit.
Unset Printing Implicit Defensive.
Import GRing.Theory.
Local Open Scope ring_scope.

Definition F7f : finFieldType := [finFieldType of 'F_7].
Definition toy_e (x y : F7o) : F7o := (x : F7) * y.
Lemma card_F7 : #|F7f| = 7%N. Proof. by rewrite card_ord. Qed.
