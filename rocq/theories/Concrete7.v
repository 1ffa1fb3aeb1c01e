(** Concrete cases for re-randomization and combinations: second equations about the same
    commitments, linear equations, a hiding key. *)
From mathcomp Require Import all_ssreflect all_algebra.
From Verif Require Import Base Group DataStructures Generator Commit Statement Prove Verify Spec Concrete Concrete2 Concrete4.
Set Implicit Arguments.
Unset Strict Implicit.
Unset Printing Implicit Defensive.
Import GRing.Theory.
Local Open Scope ring_scope.

Lemma crs0_bind : binding_crs crs0.
Proof. by exists (n7 2), (n7 3), (n7 4), (n7 5); split; apply/eqP; vm_compute. Qed.
Lemma crs0_prop : proper_crs crs0. Proof. by []. Qed.

Definition pf_err : EquProof toy := mkEquProof [::] [::] Quadratic [::].
Definition gamma1 : matrix F7 := [:: [:: n7 1]; [:: n7 3]].
Definition gammaL : matrix F7 := [:: [:: n7 0]; [:: n7 0]].

Definition ppe_q1 : PPE toy := mkPPE (E := toy) [:: n7 2] [:: n7 1; n7 4] gamma1 (n7 5).
Definition ppe_g1 : EquProof toy := (value (pf_err, 0%N) (ppe_prove fwd ppe_q1 xs0 ys0 (xcoms ppe_p0) (ycoms ppe_p0) crs0 (29%N : rst ctr))).1.
Lemma ppe_g0_ok : ppe_verify fwd ppe0 (mkCProof (xcoms ppe_p0) (ycoms ppe_p0) [:: pf_of ppe_p0]) crs0 = Ok true. Proof. by vm_compute. Qed.
Lemma ppe_g1_ok : ppe_verify fwd ppe_q1 (mkCProof (xcoms ppe_p0) (ycoms ppe_p0) [:: ppe_g1]) crs0 = Ok true. Proof. by vm_compute. Qed.
Definition ppe_L0 : PPE toy := mkPPE (E := toy) [:: n7 1] [:: n7 2; n7 3] gammaL (n7 4).
Definition ppe_L1 : PPE toy := mkPPE (E := toy) [:: n7 1] [:: n7 2; n7 3] gammaL (n7 2).
Definition ppe_l0 : CProof toy := (value (cproof0, 0%N) (ppe_commit_and_prove fwd ppe_L0 xs0 ys0 crs0 (6%N : rst ctr))).1.
Definition ppe_l1 : CProof toy := (value (cproof0, 0%N) (ppe_commit_and_prove fwd ppe_L1 xs1 ys1 crs0 (17%N : rst ctr))).1.
Lemma ppe_l0_ok : ppe_verify fwd ppe_L0 (mkCProof (xcoms ppe_l0) (ycoms ppe_l0) [:: pf_of ppe_l0]) crs0 = Ok true. Proof. by vm_compute. Qed.
Lemma ppe_l1_ok : ppe_verify fwd ppe_L1 (mkCProof (xcoms ppe_l1) (ycoms ppe_l1) [:: pf_of ppe_l1]) crs0 = Ok true. Proof. by vm_compute. Qed.
Definition ppe_h0 : CProof toy := (value (cproof0, 0%N) (ppe_commit_and_prove fwd ppe0 xs0 ys0 crsh (6%N : rst ctr))).1.

Definition ms1_q1 : MSMEG1 toy := mkMSMEG1 (E := toy) [:: n7 2] [:: n7 1; n7 4] gamma1 (n7 5).
Definition ms1_g1 : EquProof toy := (value (pf_err, 0%N) (ms1_prove fwd ms1_q1 xs0 ys0 (xcoms ms1_p0) (ycoms ms1_p0) crs0 (29%N : rst ctr))).1.
Lemma ms1_g0_ok : ms1_verify fwd ms10 (mkCProof (xcoms ms1_p0) (ycoms ms1_p0) [:: pf_of ms1_p0]) crs0 = Ok true. Proof. by vm_compute. Qed.
Lemma ms1_g1_ok : ms1_verify fwd ms1_q1 (mkCProof (xcoms ms1_p0) (ycoms ms1_p0) [:: ms1_g1]) crs0 = Ok true. Proof. by vm_compute. Qed.
Definition ms1_L0 : MSMEG1 toy := mkMSMEG1 (E := toy) [:: n7 1] [:: n7 2; n7 3] gammaL (n7 4).
Definition ms1_L1 : MSMEG1 toy := mkMSMEG1 (E := toy) [:: n7 1] [:: n7 2; n7 3] gammaL (n7 2).
Definition ms1_l0 : CProof toy := (value (cproof0, 0%N) (ms1_commit_and_prove fwd ms1_L0 xs0 ys0 crs0 (6%N : rst ctr))).1.
Definition ms1_l1 : CProof toy := (value (cproof0, 0%N) (ms1_commit_and_prove fwd ms1_L1 xs1 ys1 crs0 (17%N : rst ctr))).1.
Lemma ms1_l0_ok : ms1_verify fwd ms1_L0 (mkCProof (xcoms ms1_l0) (ycoms ms1_l0) [:: pf_of ms1_l0]) crs0 = Ok true. Proof. by vm_compute. Qed.
Lemma ms1_l1_ok : ms1_verify fwd ms1_L1 (mkCProof (xcoms ms1_l1) (ycoms ms1_l1) [:: pf_of ms1_l1]) crs0 = Ok true. Proof. by vm_compute. Qed.
Definition ms1_h0 : CProof toy := (value (cproof0, 0%N) (ms1_commit_and_prove fwd ms10 xs0 ys0 crsh (6%N : rst ctr))).1.

Definition ms2_q1 : MSMEG2 toy := mkMSMEG2 (E := toy) [:: n7 2] [:: n7 1; n7 4] gamma1 (n7 5).
Definition ms2_g1 : EquProof toy := (value (pf_err, 0%N) (ms2_prove fwd ms2_q1 xs0 ys0 (xcoms ms2_p0) (ycoms ms2_p0) crs0 (29%N : rst ctr))).1.
Lemma ms2_g0_ok : ms2_verify fwd ms20 (mkCProof (xcoms ms2_p0) (ycoms ms2_p0) [:: pf_of ms2_p0]) crs0 = Ok true. Proof. by vm_compute. Qed.
Lemma ms2_g1_ok : ms2_verify fwd ms2_q1 (mkCProof (xcoms ms2_p0) (ycoms ms2_p0) [:: ms2_g1]) crs0 = Ok true. Proof. by vm_compute. Qed.
Definition ms2_L0 : MSMEG2 toy := mkMSMEG2 (E := toy) [:: n7 1] [:: n7 2; n7 3] gammaL (n7 4).
Definition ms2_L1 : MSMEG2 toy := mkMSMEG2 (E := toy) [:: n7 1] [:: n7 2; n7 3] gammaL (n7 2).
Definition ms2_l0 : CProof toy := (value (cproof0, 0%N) (ms2_commit_and_prove fwd ms2_L0 xs0 ys0 crs0 (6%N : rst ctr))).1.
Definition ms2_l1 : CProof toy := (value (cproof0, 0%N) (ms2_commit_and_prove fwd ms2_L1 xs1 ys1 crs0 (17%N : rst ctr))).1.
Lemma ms2_l0_ok : ms2_verify fwd ms2_L0 (mkCProof (xcoms ms2_l0) (ycoms ms2_l0) [:: pf_of ms2_l0]) crs0 = Ok true. Proof. by vm_compute. Qed.
Lemma ms2_l1_ok : ms2_verify fwd ms2_L1 (mkCProof (xcoms ms2_l1) (ycoms ms2_l1) [:: pf_of ms2_l1]) crs0 = Ok true. Proof. by vm_compute. Qed.
Definition ms2_h0 : CProof toy := (value (cproof0, 0%N) (ms2_commit_and_prove fwd ms20 xs0 ys0 crsh (6%N : rst ctr))).1.

Definition quad_q1 : QuadEqu toy := mkQuadEqu (E := toy) [:: n7 2] [:: n7 1; n7 4] gamma1 (n7 5).
Definition quad_g1 : EquProof toy := (value (pf_err, 0%N) (quad_prove fwd quad_q1 xs0 ys0 (xcoms quad_p0) (ycoms quad_p0) crs0 (29%N : rst ctr))).1.
Lemma quad_g0_ok : quad_verify fwd quad0 (mkCProof (xcoms quad_p0) (ycoms quad_p0) [:: pf_of quad_p0]) crs0 = Ok true. Proof. by vm_compute. Qed.
Lemma quad_g1_ok : quad_verify fwd quad_q1 (mkCProof (xcoms quad_p0) (ycoms quad_p0) [:: quad_g1]) crs0 = Ok true. Proof. by vm_compute. Qed.
Definition quad_L0 : QuadEqu toy := mkQuadEqu (E := toy) [:: n7 1] [:: n7 2; n7 3] gammaL (n7 4).
Definition quad_L1 : QuadEqu toy := mkQuadEqu (E := toy) [:: n7 1] [:: n7 2; n7 3] gammaL (n7 2).
Definition quad_l0 : CProof toy := (value (cproof0, 0%N) (quad_commit_and_prove fwd quad_L0 xs0 ys0 crs0 (6%N : rst ctr))).1.
Definition quad_l1 : CProof toy := (value (cproof0, 0%N) (quad_commit_and_prove fwd quad_L1 xs1 ys1 crs0 (17%N : rst ctr))).1.
Lemma quad_l0_ok : quad_verify fwd quad_L0 (mkCProof (xcoms quad_l0) (ycoms quad_l0) [:: pf_of quad_l0]) crs0 = Ok true. Proof. by vm_compute. Qed.
Lemma quad_l1_ok : quad_verify fwd quad_L1 (mkCProof (xcoms quad_l1) (ycoms quad_l1) [:: pf_of quad_l1]) crs0 = Ok true. Proof. by vm_compute. Qed.
Definition quad_h0 : CProof toy := (value (cproof0, 0%N) (quad_commit_and_prove fwd quad0 xs0 ys0 crsh (6%N : rst ctr))).1.
