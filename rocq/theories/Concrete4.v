(** Concrete cases for hiding: a hiding key, unsatisfiable equations. *)
From mathcomp Require Import all_ssreflect all_algebra.
From Verif Require Import Base Group DataStructures Generator Commit Statement Spec Concrete.
Set Implicit Arguments.
Unset Strict Implicit.
Unset Printing Implicit Defensive.
Import GRing.Theory.
Local Open Scope ring_scope.

Lemma crsh_hid : hiding_crs crsh.
Proof. by exists (n7 2), (n7 3), (n7 4), (n7 5); exact: crsh_hiding. Qed.
Lemma crsh_prop : proper_crs crsh. Proof. by []. Qed.

(** Equations [0 = 3] with two x-variables and one y-variable. *)
Lemma noA i : nth 0 [:: n7 0] i = 0. Proof. by case: i => [|[|]]. Qed.
Lemma noB i : nth 0 [:: n7 0; n7 0] i = 0. Proof. by case: i => [|[|[|]]]. Qed.
Lemma noG i j : entry (E := toy) [:: [:: n7 0]; [:: n7 0]] i j = 0.
Proof. by case: i => [|[|i]]; case: j => [|[|j]]; rewrite /entry /= ?nth_nil. Qed.
Definition no_ppe : PPE toy := mkPPE (E := toy) [:: n7 0] [:: n7 0; n7 0] [:: [:: n7 0]; [:: n7 0]] (n7 3).
Lemma no_ppe_fails X Y : ~ ppe_holds no_ppe X Y.
Proof.
rewrite /ppe_holds => /eqP; rewrite eq_sym (_ : _ + _ = 0) //; apply/eqP.
by rewrite ![\sum_(i < _) _]big1 ?addr0 //= => i _; rewrite ?(noA i) ?(noB i); rewrite ?big1 // => *; rewrite ?noG ?mul0r ?mulr0 ?scale0r ?scaler0.
Qed.
Definition no_ms1 : MSMEG1 toy := mkMSMEG1 (E := toy) [:: n7 0] [:: n7 0; n7 0] [:: [:: n7 0]; [:: n7 0]] (n7 3).
Lemma no_ms1_fails X Y : ~ ms1_holds no_ms1 X Y.
Proof.
rewrite /ms1_holds => /eqP; rewrite eq_sym (_ : _ + _ = 0) //; apply/eqP.
by rewrite ![\sum_(i < _) _]big1 ?addr0 //= => i _; rewrite ?(noA i) ?(noB i); rewrite ?big1 // => *; rewrite ?noG ?mul0r ?mulr0 ?scale0r ?scaler0.
Qed.
Definition no_ms2 : MSMEG2 toy := mkMSMEG2 (E := toy) [:: n7 0] [:: n7 0; n7 0] [:: [:: n7 0]; [:: n7 0]] (n7 3).
Lemma no_ms2_fails X Y : ~ ms2_holds no_ms2 X Y.
Proof.
rewrite /ms2_holds => /eqP; rewrite eq_sym (_ : _ + _ = 0) //; apply/eqP.
by rewrite ![\sum_(i < _) _]big1 ?addr0 //= => i _; rewrite ?(noA i) ?(noB i); rewrite ?big1 // => *; rewrite ?noG ?mul0r ?mulr0 ?scale0r ?scaler0.
Qed.
Definition no_quad : QuadEqu toy := mkQuadEqu (E := toy) [:: n7 0] [:: n7 0; n7 0] [:: [:: n7 0]; [:: n7 0]] (n7 3).
Lemma no_quad_fails X Y : ~ quad_holds no_quad X Y.
Proof.
rewrite /quad_holds => /eqP; rewrite eq_sym (_ : _ + _ = 0) //; apply/eqP.
by rewrite ![\sum_(i < _) _]big1 ?addr0 //= => i _; rewrite ?(noA i) ?(noB i); rewrite ?big1 // => *; rewrite ?noG ?mul0r ?mulr0 ?scale0r ?scaler0.
Qed.
