(** The implementation of [Concrete13.v] gives each element one affine point. *)
From mathcomp Require Import all_ssreflect all_algebra.
From Verif Require Import Base Group DataStructures Generator Commit Statement Spec Concrete Concrete5 Ark SpecArk ArkRel Concrete13 SpecArkGame.
Set Implicit Arguments.
Unset Strict Implicit.
Unset Printing Implicit Defensive.
Import GRing.Theory.
Local Open Scope ring_scope.

Definition in_group (x : F7) : F7 * bool := (x, false).
Lemma tark_faithful : faithful (F := F7f) toy_e (A := tark) trepr trepr (fun x a => x = a) in_group in_group id.
Proof. by split=> //; exact: tark_ok. Qed.

(** Two base points with representations that are not in lowest terms. *)
Definition tz (b : bool) : F7o := if b then n7 3 else n7 2.
Definition ts (b : bool) : prj tcurve := if b then (n7 6, n7 2, false) else (n7 3, n7 5, false).
Lemma ts_rel b : rp trepr (tz b) (ts b).
Proof. by case: b; split=> //; apply/eqP. Qed.
