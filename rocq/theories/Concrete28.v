(** Commitments over the points of Concrete13.v. Not a model of any code in /repo. *)
From mathcomp Require Import all_ssreflect all_algebra.
From Verif Require Import Base Group DataStructures Commit Spec Concrete Ark SpecArk Concrete13.
Set Implicit Arguments.
Unset Strict Implicit.
Unset Printing Implicit Defensive.
Import GRing.Theory.
Local Open Scope ring_scope.

Definition lcom (c : F7 * F7) : ark_com tcurve := ((c.1, false), (c.2, false)).
Definition lcommit (c : commit F7o) : ark_commit tcurve := ark_mkCommit (C := tcurve) [seq lcom x | x <- coms c] (crand c).
Lemma lcommit_rel c : rcommit trepr c (lcommit c).
Proof. by split=> //; rewrite /lcommit /=; elim: (coms c) => [|x s h] //=; split. Qed.
