(** Concrete values for C77. *)
From mathcomp Require Import all_ssreflect all_algebra.
From Verif Require Import Base Group DataStructures Generator Commit Statement Prove Spec SpecVerify SpecHide SpecSxdh SpecType3 Sxdh ErrorLemmas Concrete Concrete4 Concrete5.
Set Implicit Arguments.
Unset Strict Implicit.
Unset Printing Implicit Defensive.
Import Order.Theory GRing.Theory Num.Theory.
Local Open Scope ring_scope.

(** In the examples the two groups are the same, so the identity is such a map. *)
Lemma toy_id : embedding (F := F7) (A := F7o) (B := F7o) (fun x => x).
Proof. by split. Qed.
Lemma toy_zero : Pr (fun o : F7f => (o : F7o) == 0) = 7%:R^-1.
Proof. by rewrite (Pr_bij_zero (s := fun o : F7f => o : F7o)) ?card_F7 //; exists 0. Qed.
