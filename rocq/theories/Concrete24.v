(** Matrices for the examples of P_Mat.v. Not a model of any code in /repo. *)
From mathcomp Require Import all_ssreflect all_algebra.
From Verif Require Import Base BaseLemmas Group DataStructures Spec SpecMat Concrete MatLemmas.
Set Implicit Arguments.
Unset Strict Implicit.
Unset Printing Implicit Defensive.
Import GRing.Theory.
Local Open Scope ring_scope.

Definition F7m : lmodType F7 := F7o.
Lemma vb : valid_ord (bwd 0%N). Proof. by move=> r c; rewrite perm_rev. Qed.
Definition f23 : matrix F7 := [:: [:: n7 1; n7 2; n7 3]; [:: n7 4; n7 5; n7 6]].
Definition f23' : matrix F7 := [:: [:: n7 0; n7 6; n7 2]; [:: n7 3; n7 3; n7 1]].
Definition f32 : matrix F7 := [:: [:: n7 1; n7 0]; [:: n7 0; n7 2]; [:: n7 5; n7 1]].
Definition f32' : matrix F7 := [:: [:: n7 4; n7 1]; [:: n7 2; n7 2]; [:: n7 0; n7 6]].
Definition c23 : matrix (com F7o) := [:: [:: (n7 0, n7 0); (n7 2, n7 0); (n7 1, n7 1)]; [:: (n7 6, n7 3); (n7 3, n7 4); (n7 5, n7 0)]].
Definition c23' : matrix (com F7o) := [:: [:: (n7 1, n7 6); (n7 2, n7 5); (n7 0, n7 3)]; [:: (n7 6, n7 6); (n7 0, n7 1); (n7 2, n7 2)]].
Definition c32 : matrix (com F7o) := [:: [:: (n7 0, n7 1); (n7 2, n7 0)]; [:: (n7 6, n7 3); (n7 3, n7 4)]; [:: (n7 5, n7 5); (n7 0, n7 0)]].
Definition c32' : matrix (com F7o) := [:: [:: (n7 3, n7 1); (n7 2, n7 2)]; [:: (n7 0, n7 0); (n7 1, n7 4)]; [:: (n7 5, n7 6); (n7 1, n7 0)]].
(** Ragged. *)
Definition fr2 : matrix F7 := [:: [:: n7 1]; [:: n7 2; n7 3]].
Definition cr2 : matrix (com F7o) := [:: [:: (n7 0, n7 1)]; [:: (n7 2, n7 3); (n7 6, n7 5)]].
Lemma dim_f23 : dims 2 3 f23. Proof. by split=> // -[|[|]]. Qed.
Lemma dim_f23' : dims 2 3 f23'. Proof. by split=> // -[|[|]]. Qed.
Lemma dim_c23 : dims 2 3 c23. Proof. by split=> // -[|[|]]. Qed.
Lemma dim_c23' : dims 2 3 c23'. Proof. by split=> // -[|[|]]. Qed.
Lemma dim_f32 : dims 3 2 f32. Proof. by split=> // -[|[|[|]]]. Qed.
Lemma dim_f32' : dims 3 2 f32'. Proof. by split=> // -[|[|[|]]]. Qed.
Lemma dim_c32 : dims 3 2 c32. Proof. by split=> // -[|[|[|]]]. Qed.
Lemma dim_c32' : dims 3 2 c32'. Proof. by split=> // -[|[|[|]]]. Qed.
