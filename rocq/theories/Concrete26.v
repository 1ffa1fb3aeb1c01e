(** Commitments and equations used in examples. Not a model of any code in /repo. *)
From mathcomp Require Import all_ssreflect all_algebra.
From Verif Require Import Base BaseLemmas Group DataStructures Generator Commit Statement Prove Verify Spec SpecVerify Concrete Concrete2 Concrete25 Complete.
Set Implicit Arguments.
Unset Strict Implicit.
Unset Printing Implicit Defensive.
Import GRing.Theory.
Local Open Scope ring_scope.

Lemma made_commits (C : lmodType F7) (V : Type) (cm : CRS toy -> V -> seq F7 -> com C -> Prop) dv X c :
  made_of cm dv crs0 X c -> commits (E := toy) cm 0 dv crs0 (coms c) X.
Proof. by move=> [hs _ h]; split=> [//|i]; rewrite hs => hi; exists (nth [::] (crand c) i); exact: h. Qed.
Lemma commits_G10 : commits_G1 crs0 (coms many_G10.1) xs0. Proof. exact: (made_commits (batch_made_G1 many_G10E)). Qed.
Lemma commits_G11 : commits_G1 crs0 (coms many_G11.1) xs1. Proof. exact: (made_commits (batch_made_G1 many_G11E)). Qed.
Lemma commits_G20 : commits_G2 crs0 (coms many_G20.1) xs0. Proof. exact: (made_commits (batch_made_G2 many_G20E)). Qed.
Lemma commits_G21 : commits_G2 crs0 (coms many_G21.1) xs1. Proof. exact: (made_commits (batch_made_G2 many_G21E)). Qed.
Lemma commits_B10 : commits_B1 crs0 (coms many_B10.1) xs0. Proof. exact: (made_commits (batch_made_B1 many_B10E)). Qed.
Lemma commits_B11 : commits_B1 crs0 (coms many_B11.1) xs1. Proof. exact: (made_commits (batch_made_B1 many_B11E)). Qed.
Lemma commits_B20 : commits_B2 crs0 (coms many_B20.1) xs0. Proof. exact: (made_commits (batch_made_B2 many_B20E)). Qed.
Lemma commits_B21 : commits_B2 crs0 (coms many_B21.1) xs1. Proof. exact: (made_commits (batch_made_B2 many_B21E)). Qed.

(** As [gamma0], with more entries in the second row. *)
Definition glong : matrix F7 := [:: [:: n7 2]; [:: n7 6; n7 5; n7 4]].
Lemma long_visible : same_visible (E := toy) gamma0 glong.
Proof. by split=> // -[|[|i]]. Qed.
Definition ppe_long : PPE toy := mkPPE (E := toy) [:: n7 1] [:: n7 2; n7 3] glong (n7 1).
Definition ms1_long : MSMEG1 toy := mkMSMEG1 (E := toy) [:: n7 1] [:: n7 2; n7 3] glong (n7 1).
Definition ms2_long : MSMEG2 toy := mkMSMEG2 (E := toy) [:: n7 1] [:: n7 2; n7 3] glong (n7 1).
Definition quad_long : QuadEqu toy := mkQuadEqu (E := toy) [:: n7 1] [:: n7 2; n7 3] glong (n7 1).
