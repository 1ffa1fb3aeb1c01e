(** A concrete pairing, RNG, schedules and equations, used to show that the
    hypotheses of the theorems are met. Not a model of any code in /repo. *)
From mathcomp Require Import all_ssreflect all_algebra.
From Verif Require Import Base Group DataStructures Generator Commit Statement Spec.
Set Implicit Arguments.
Unset Strict Implicit.
Unset Printing Implicit Defensive.
Import GRing.Theory.
Local Open Scope ring_scope.

(** The integers modulo 7 as scalars and as all three groups, with
    multiplication as pairing. *)
Definition F7 : fieldType := [fieldType of 'F_7].
Definition F7o : lmodType F7 := [lmodType F7 of F7^o].
Definition toy : pairing := @Pairing F7 F7o F7o F7o (fun x y : F7 => x * y).

Lemma toy_bilinear : bilinear toy.
Proof.
split=> /= [x x' y|x y y'|k x y|k x y].
- exact: mulrDl.
- exact: mulrDr.
- exact/esym/mulrA.
- exact: mulrCA.
Qed.

Lemma toy_nondegenerate : nondegenerate toy.
Proof. by move=> x y /= /eqP; rewrite mulf_eq0 => /orP[] /eqP; [left | right]. Qed.

Lemma toy_cyclic : cyclic F7o.
Proof. by move=> P Q hP; exists ((Q : F7) / (P : F7)); rewrite /GRing.scale /= mulfVK. Qed.

(** A counter as RNG. It draws scalars [n], points [n + 1]. *)
Definition ctr : rng toy :=
  @Rng toy nat (fun n => (n%:R : F7, n.+1)) (fun n => (n.+1%:R : F7, n.+1)) (fun n => (n.+1%:R : F7, n.+1)).

(** The RNG which draws only zeros. *)
Definition zeros : rng toy :=
  @Rng toy unit (fun n => (0 : F7, n)) (fun n => (0 : F7, n)) (fun n => (0 : F7, n)).

(** Row by row, and backwards. *)
Definition fwd : sched := fun _ r c => tasks r c.
Definition bwd : sched := fun _ r c => rev (tasks r c).
Lemma fwd_valid : valid_sched fwd. Proof. by move=> k r c; exact: perm_refl. Qed.
Lemma bwd_valid : valid_sched bwd. Proof. by move=> k r c; rewrite perm_rev. Qed.

(** The reference string drawn from the counter at [0]:
    [P1 = 1, P2 = 2, a1 = 2, a2 = 3, t1 = 4, t2 = 5]. *)
Definition crs0 : CRS toy := (generate_crs (R := ctr) 0%N).1.

Notation n7 k := (k%:R : F7) (only parsing).

(** The corresponding hiding key: one generator less in the last components. *)
Definition crsh : CRS toy :=
  mkCRS (E := toy) [:: (n7 1, n7 2); (n7 4, n7 8 - n7 1)] [:: (n7 2, n7 6); (n7 10, n7 30 - n7 2)]
    (n7 1) (n7 2) (n7 2).

Lemma crsh_hiding : hiding_crs_with crsh (n7 2) (n7 3) (n7 4) (n7 5).
Proof. by split; apply/eqP; vm_compute. Qed.

(** Equations with two x-variables and one y-variable, with assignments. *)
Definition xs0 : seq F7 := [:: n7 3; n7 5].
Definition ys0 : seq F7 := [:: n7 4].
Definition gamma0 : matrix F7 := [:: [:: n7 2]; [:: n7 6]].
Definition ppe0 : PPE toy := mkPPE (E := toy) [:: n7 1] [:: n7 2; n7 3] gamma0 (n7 1).
Definition ms10 : MSMEG1 toy := mkMSMEG1 (E := toy) [:: n7 1] [:: n7 2; n7 3] gamma0 (n7 1).
Definition ms20 : MSMEG2 toy := mkMSMEG2 (E := toy) [:: n7 1] [:: n7 2; n7 3] gamma0 (n7 1).
Definition quad0 : QuadEqu toy := mkQuadEqu (E := toy) [:: n7 1] [:: n7 2; n7 3] gamma0 (n7 1).

Lemma crs0E : generate_crs (R := ctr) 0%N = (crs0, 6%N). Proof. by []. Qed.
Lemma crs0_two : two_keys crs0. Proof. by []. Qed.
Lemma crsh_two : two_keys crsh. Proof. by []. Qed.
Lemma crs0_g1 : g1_gen crs0 != 0. Proof. by []. Qed.
Lemma crs0_g2 : g2_gen crs0 != 0. Proof. by []. Qed.
Lemma crsh_g1 : g1_gen crsh != 0. Proof. by []. Qed.
Lemma crsh_g2 : g2_gen crsh != 0. Proof. by []. Qed.

Lemma gamma0_dims : dims 2 1 gamma0. Proof. by split=> // -[|[|]]. Qed.
Lemma ppe0_wf : ppe_wf ppe0 2 1. Proof. by split=> //; apply: gamma0_dims. Qed.
Lemma ms10_wf : ms1_wf ms10 2 1. Proof. by split=> //; apply: gamma0_dims. Qed.
Lemma ms20_wf : ms2_wf ms20 2 1. Proof. by split=> //; apply: gamma0_dims. Qed.
Lemma quad0_wf : quad_wf quad0 2 1. Proof. by split=> //; apply: gamma0_dims. Qed.

Lemma ppe0_holds : ppe_holds ppe0 xs0 ys0.
Proof. by rewrite /ppe_holds /= !big_ord_recl !big_ord0; apply/eqP; vm_compute. Qed.
Lemma ms10_holds : ms1_holds ms10 xs0 ys0.
Proof. by rewrite /ms1_holds /= !big_ord_recl !big_ord0; apply/eqP; vm_compute. Qed.
Lemma ms20_holds : ms2_holds ms20 xs0 ys0.
Proof. by rewrite /ms2_holds /= !big_ord_recl !big_ord0; apply/eqP; vm_compute. Qed.
Lemma quad0_holds : quad_holds quad0 xs0 ys0.
Proof. by rewrite /quad_holds /= !big_ord_recl !big_ord0; apply/eqP; vm_compute. Qed.

(** Another assignment satisfying the same equations, and one which does not. *)
Definition xs1 : seq F7 := [:: n7 5; n7 4].
Definition ys1 : seq F7 := [:: n7 1].
Definition ys2 : seq F7 := [:: n7 5].
Lemma ppe0_holds1 : ppe_holds ppe0 xs1 ys1.
Proof. by rewrite /ppe_holds /= !big_ord_recl !big_ord0; apply/eqP; vm_compute. Qed.
Lemma ppe0_fails : ~ ppe_holds ppe0 xs0 ys2.
Proof. by rewrite /ppe_holds /= !big_ord_recl !big_ord0 => /eqP; vm_compute. Qed.
Lemma ms10_holds1 : ms1_holds ms10 xs1 ys1.
Proof. by rewrite /ms1_holds /= !big_ord_recl !big_ord0; apply/eqP; vm_compute. Qed.
Lemma ms10_fails : ~ ms1_holds ms10 xs0 ys2.
Proof. by rewrite /ms1_holds /= !big_ord_recl !big_ord0 => /eqP; vm_compute. Qed.
Lemma ms20_holds1 : ms2_holds ms20 xs1 ys1.
Proof. by rewrite /ms2_holds /= !big_ord_recl !big_ord0; apply/eqP; vm_compute. Qed.
Lemma ms20_fails : ~ ms2_holds ms20 xs0 ys2.
Proof. by rewrite /ms2_holds /= !big_ord_recl !big_ord0 => /eqP; vm_compute. Qed.
Lemma quad0_holds1 : quad_holds quad0 xs1 ys1.
Proof. by rewrite /quad_holds /= !big_ord_recl !big_ord0; apply/eqP; vm_compute. Qed.
Lemma quad0_fails : ~ quad_holds quad0 xs0 ys2.
Proof. by rewrite /quad_holds /= !big_ord_recl !big_ord0 => /eqP; vm_compute. Qed.
