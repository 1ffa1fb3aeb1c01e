(** Concrete values for C78. *)
From mathcomp Require Import all_ssreflect all_algebra.
From Verif Require Import Base Group DataStructures Generator Commit Statement Prove Spec SpecVerify SpecHide SpecSxdh SpecType3 Type3Lemmas Concrete Concrete4 Concrete5 Concrete11.
Set Implicit Arguments.
Unset Strict Implicit.
Unset Printing Implicit Defensive.
Import Order.Theory GRing.Theory Num.Theory.
Local Open Scope ring_scope.

(** In the examples DDH is easy: this is the exact test. *)
Definition toy_D (_ : unit) (P Q T Z : F7o) : bool := toy_e T Q == toy_e Z P.
Lemma toy_ddh : ddh_adv (F := F7f) (G := F7o) (fun o : F7f => o : F7o) toy_D = 36%:R / 49%:R.
Proof.
have n : (0 < #|F7f|)%N by rewrite card_F7.
rewrite (t3_C77_ddh_1 (fun o : F7f => o : F7o) toy_bilinear toy_nondegenerate toy_id n) toy_zero card_F7; exact/eqP.
Qed.
