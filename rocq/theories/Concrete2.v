(** Concrete proofs for the equations of Concrete.v. Not a model of any code in /repo. *)
From mathcomp Require Import all_ssreflect all_algebra.
From Verif Require Import Base Group DataStructures Generator Commit Statement Prove Verify Spec Concrete.
Set Implicit Arguments.
Unset Strict Implicit.
Unset Printing Implicit Defensive.
Import GRing.Theory.
Local Open Scope ring_scope.

Definition value {A} (d : A) (r : res A) : A := if r is Ok a then a else d.
Definition cproof0 : CProof toy := mkCProof (mkCommit [::] [::]) (mkCommit [::] [::]) [::].
Definition pf_of (p : CProof toy) : EquProof toy := head (mkEquProof [::] [::] Quadratic [::]) (equ_proofs p).

(** An honest proof for [ppe0], and one with a wrong witness. *)
Definition ppe_p0 : CProof toy := (value (cproof0, 0%N) (ppe_commit_and_prove fwd ppe0 xs0 ys0 crs0 (6%N : rst ctr))).1.
Definition ppe_p2 : CProof toy := (value (cproof0, 0%N) (ppe_commit_and_prove fwd ppe0 xs0 ys2 crs0 (6%N : rst ctr))).1.
Lemma ppe_p0_one : equ_proofs ppe_p0 = [:: pf_of ppe_p0]. Proof. by []. Qed.
Lemma ppe_p0E : ppe_p0 = mkCProof (xcoms ppe_p0) (ycoms ppe_p0) [:: pf_of ppe_p0]. Proof. by []. Qed.
Lemma ppe_p0_ok : ppe_verify fwd ppe0 ppe_p0 crs0 = Ok true. Proof. by vm_compute. Qed.
Lemma ppe_p2_ok : ppe_verify fwd ppe0 ppe_p2 crs0 = Ok false. Proof. by vm_compute. Qed.

(** An honest proof for [ms10], and one with a wrong witness. *)
Definition ms1_p0 : CProof toy := (value (cproof0, 0%N) (ms1_commit_and_prove fwd ms10 xs0 ys0 crs0 (6%N : rst ctr))).1.
Definition ms1_p2 : CProof toy := (value (cproof0, 0%N) (ms1_commit_and_prove fwd ms10 xs0 ys2 crs0 (6%N : rst ctr))).1.
Lemma ms1_p0_one : equ_proofs ms1_p0 = [:: pf_of ms1_p0]. Proof. by []. Qed.
Lemma ms1_p0E : ms1_p0 = mkCProof (xcoms ms1_p0) (ycoms ms1_p0) [:: pf_of ms1_p0]. Proof. by []. Qed.
Lemma ms1_p0_ok : ms1_verify fwd ms10 ms1_p0 crs0 = Ok true. Proof. by vm_compute. Qed.
Lemma ms1_p2_ok : ms1_verify fwd ms10 ms1_p2 crs0 = Ok false. Proof. by vm_compute. Qed.

(** An honest proof for [ms20], and one with a wrong witness. *)
Definition ms2_p0 : CProof toy := (value (cproof0, 0%N) (ms2_commit_and_prove fwd ms20 xs0 ys0 crs0 (6%N : rst ctr))).1.
Definition ms2_p2 : CProof toy := (value (cproof0, 0%N) (ms2_commit_and_prove fwd ms20 xs0 ys2 crs0 (6%N : rst ctr))).1.
Lemma ms2_p0_one : equ_proofs ms2_p0 = [:: pf_of ms2_p0]. Proof. by []. Qed.
Lemma ms2_p0E : ms2_p0 = mkCProof (xcoms ms2_p0) (ycoms ms2_p0) [:: pf_of ms2_p0]. Proof. by []. Qed.
Lemma ms2_p0_ok : ms2_verify fwd ms20 ms2_p0 crs0 = Ok true. Proof. by vm_compute. Qed.
Lemma ms2_p2_ok : ms2_verify fwd ms20 ms2_p2 crs0 = Ok false. Proof. by vm_compute. Qed.

(** An honest proof for [quad0], and one with a wrong witness. *)
Definition quad_p0 : CProof toy := (value (cproof0, 0%N) (quad_commit_and_prove fwd quad0 xs0 ys0 crs0 (6%N : rst ctr))).1.
Definition quad_p2 : CProof toy := (value (cproof0, 0%N) (quad_commit_and_prove fwd quad0 xs0 ys2 crs0 (6%N : rst ctr))).1.
Lemma quad_p0_one : equ_proofs quad_p0 = [:: pf_of quad_p0]. Proof. by []. Qed.
Lemma quad_p0E : quad_p0 = mkCProof (xcoms quad_p0) (ycoms quad_p0) [:: pf_of quad_p0]. Proof. by []. Qed.
Lemma quad_p0_ok : quad_verify fwd quad0 quad_p0 crs0 = Ok true. Proof. by vm_compute. Qed.
Lemma quad_p2_ok : quad_verify fwd quad0 quad_p2 crs0 = Ok false. Proof. by vm_compute. Qed.

