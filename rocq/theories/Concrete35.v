(** A concrete case for the statements about combinations of committed values. *)
From mathcomp Require Import all_ssreflect all_algebra.
From Verif Require Import Base BaseLemmas Group DataStructures Generator Commit Statement Prove Verify Spec SpecVerify SpecSubst Complete Concrete Concrete2.
Set Implicit Arguments.
Unset Strict Implicit.
Unset Printing Implicit Defensive.
Import GRing.Theory.
Local Open Scope ring_scope.

(** Two combinations of three values, and one of two. *)
Definition xs35 : seq F7 := [:: n7 1; n7 2; n7 1].
Definition ys35 : seq F7 := [:: n7 1; n7 3].
Definition L35 : matrix F7 := [:: [:: n7 1; n7 1; n7 0]; [:: n7 0; n7 2; n7 1]].
Definition K35 : matrix F7 := [:: [:: n7 1; n7 1]].
Lemma comb35x : comb (E := toy) (V := F7o) 2 L35 xs35 = xs0.
Proof. by rewrite /comb /mkseq /= !big_ord_recl !big_ord0; apply/eqP; vm_compute. Qed.
Lemma comb35y : comb (E := toy) (V := F7o) 1 K35 ys35 = ys0.
Proof. by rewrite /comb /mkseq /= !big_ord_recl !big_ord0; apply/eqP; vm_compute. Qed.
Lemma combs35x : combs (E := toy) 2 L35 xs35 = xs0. Proof. exact: comb35x. Qed.
Lemma combs35y : combs (E := toy) 1 K35 ys35 = ys0. Proof. exact: comb35y. Qed.
Definition ppe_q35 : PPE toy := subst_ppe (E := toy) 3 2 L35 K35 ppe0.
Definition ms1_q35 : MSMEG1 toy := subst_ms1 (E := toy) 3 2 L35 K35 ms10.
Definition ms2_q35 : MSMEG2 toy := subst_ms2 (E := toy) 3 2 L35 K35 ms20.
Definition quad_q35 : QuadEqu toy := subst_quad (E := toy) 3 2 L35 K35 quad0.
Definition ppe_e35 : PPE toy := mkPPE (E := toy) [:: n7 1; n7 1] [:: n7 2; n7 8; n7 3] [:: [:: n7 2; n7 2]; [:: n7 14; n7 14]; [:: n7 6; n7 6]] (n7 1).
Lemma ppe_q35E : ppe_q35 = ppe_e35.
Proof.
rewrite /ppe_q35 /ppe_e35 /subst_ppe /subst_gamma /mkseq /=; congr mkPPE; rewrite ?big_ord_recl ?big_ord0; apply/eqP.
all: by vm_compute.
Qed.
Definition ppe_p36 : CProof toy := (value (cproof0, 0%N) (ppe_commit_and_prove (E := toy) fwd ppe_e35 xs35 ys35 crs0 (8%N : rst ctr))).1.
Lemma ppe_p36_sx : size (coms (xcoms ppe_p36)) = 3%N. Proof. by vm_compute. Qed.
Lemma ppe_p36_sy : size (coms (ycoms ppe_p36)) = 2%N. Proof. by vm_compute. Qed.
Lemma ppe_p36_px : (0 < size (coms (xcoms ppe_p36)))%N. Proof. by rewrite ppe_p36_sx. Qed.
Lemma ppe_p36_py : (0 < size (coms (ycoms ppe_p36)))%N. Proof. by rewrite ppe_p36_sy. Qed.
Lemma ppe_p36_rx : dims (size xs35) 2 (crand (xcoms ppe_p36)). Proof. by apply/Complete.dims_rect; vm_compute. Qed.
Lemma ppe_p36_ry : dims (size ys35) 2 (crand (ycoms ppe_p36)). Proof. by apply/Complete.dims_rect; vm_compute. Qed.
Lemma ppe_p36_ok : ppe_verify (E := toy) fwd (subst_ppe (E := toy) 3 2 L35 K35 ppe0) ppe_p36 crs0 = Ok true.
Proof. by rewrite -[subst_ppe _ _ _ _ _]/ppe_q35 ppe_q35E; vm_compute. Qed.
Definition ms1_e35 : MSMEG1 toy := mkMSMEG1 (E := toy) [:: n7 1; n7 1] [:: n7 2; n7 8; n7 3] [:: [:: n7 2; n7 2]; [:: n7 14; n7 14]; [:: n7 6; n7 6]] (n7 1).
Lemma ms1_q35E : ms1_q35 = ms1_e35.
Proof.
rewrite /ms1_q35 /ms1_e35 /subst_ms1 /subst_gamma /mkseq /=; congr mkMSMEG1; rewrite ?big_ord_recl ?big_ord0; apply/eqP.
all: by vm_compute.
Qed.
Definition ms1_p36 : CProof toy := (value (cproof0, 0%N) (ms1_commit_and_prove (E := toy) fwd ms1_e35 xs35 ys35 crs0 (8%N : rst ctr))).1.
Lemma ms1_p36_sx : size (coms (xcoms ms1_p36)) = 3%N. Proof. by vm_compute. Qed.
Lemma ms1_p36_sy : size (coms (ycoms ms1_p36)) = 2%N. Proof. by vm_compute. Qed.
Lemma ms1_p36_px : (0 < size (coms (xcoms ms1_p36)))%N. Proof. by rewrite ms1_p36_sx. Qed.
Lemma ms1_p36_py : (0 < size (coms (ycoms ms1_p36)))%N. Proof. by rewrite ms1_p36_sy. Qed.
Lemma ms1_p36_rx : dims (size xs35) 2 (crand (xcoms ms1_p36)). Proof. by apply/Complete.dims_rect; vm_compute. Qed.
Lemma ms1_p36_ry : dims (size ys35) 1 (crand (ycoms ms1_p36)). Proof. by apply/Complete.dims_rect; vm_compute. Qed.
Lemma ms1_p36_ok : ms1_verify (E := toy) fwd (subst_ms1 (E := toy) 3 2 L35 K35 ms10) ms1_p36 crs0 = Ok true.
Proof. by rewrite -[subst_ms1 _ _ _ _ _]/ms1_q35 ms1_q35E; vm_compute. Qed.
Definition ms2_e35 : MSMEG2 toy := mkMSMEG2 (E := toy) [:: n7 1; n7 1] [:: n7 2; n7 8; n7 3] [:: [:: n7 2; n7 2]; [:: n7 14; n7 14]; [:: n7 6; n7 6]] (n7 1).
Lemma ms2_q35E : ms2_q35 = ms2_e35.
Proof.
rewrite /ms2_q35 /ms2_e35 /subst_ms2 /subst_gamma /mkseq /=; congr mkMSMEG2; rewrite ?big_ord_recl ?big_ord0; apply/eqP.
all: by vm_compute.
Qed.
Definition ms2_p36 : CProof toy := (value (cproof0, 0%N) (ms2_commit_and_prove (E := toy) fwd ms2_e35 xs35 ys35 crs0 (8%N : rst ctr))).1.
Lemma ms2_p36_sx : size (coms (xcoms ms2_p36)) = 3%N. Proof. by vm_compute. Qed.
Lemma ms2_p36_sy : size (coms (ycoms ms2_p36)) = 2%N. Proof. by vm_compute. Qed.
Lemma ms2_p36_px : (0 < size (coms (xcoms ms2_p36)))%N. Proof. by rewrite ms2_p36_sx. Qed.
Lemma ms2_p36_py : (0 < size (coms (ycoms ms2_p36)))%N. Proof. by rewrite ms2_p36_sy. Qed.
Lemma ms2_p36_rx : dims (size xs35) 1 (crand (xcoms ms2_p36)). Proof. by apply/Complete.dims_rect; vm_compute. Qed.
Lemma ms2_p36_ry : dims (size ys35) 2 (crand (ycoms ms2_p36)). Proof. by apply/Complete.dims_rect; vm_compute. Qed.
Lemma ms2_p36_ok : ms2_verify (E := toy) fwd (subst_ms2 (E := toy) 3 2 L35 K35 ms20) ms2_p36 crs0 = Ok true.
Proof. by rewrite -[subst_ms2 _ _ _ _ _]/ms2_q35 ms2_q35E; vm_compute. Qed.
Definition quad_e35 : QuadEqu toy := mkQuadEqu (E := toy) [:: n7 1; n7 1] [:: n7 2; n7 8; n7 3] [:: [:: n7 2; n7 2]; [:: n7 14; n7 14]; [:: n7 6; n7 6]] (n7 1).
Lemma quad_q35E : quad_q35 = quad_e35.
Proof.
rewrite /quad_q35 /quad_e35 /subst_quad /subst_gamma /mkseq /=; congr mkQuadEqu; rewrite ?big_ord_recl ?big_ord0; apply/eqP.
all: by vm_compute.
Qed.
Definition quad_p36 : CProof toy := (value (cproof0, 0%N) (quad_commit_and_prove (E := toy) fwd quad_e35 xs35 ys35 crs0 (8%N : rst ctr))).1.
Lemma quad_p36_sx : size (coms (xcoms quad_p36)) = 3%N. Proof. by vm_compute. Qed.
Lemma quad_p36_sy : size (coms (ycoms quad_p36)) = 2%N. Proof. by vm_compute. Qed.
Lemma quad_p36_px : (0 < size (coms (xcoms quad_p36)))%N. Proof. by rewrite quad_p36_sx. Qed.
Lemma quad_p36_py : (0 < size (coms (ycoms quad_p36)))%N. Proof. by rewrite quad_p36_sy. Qed.
Lemma quad_p36_rx : dims (size xs35) 1 (crand (xcoms quad_p36)). Proof. by apply/Complete.dims_rect; vm_compute. Qed.
Lemma quad_p36_ry : dims (size ys35) 1 (crand (ycoms quad_p36)). Proof. by apply/Complete.dims_rect; vm_compute. Qed.
Lemma quad_p36_ok : quad_verify (E := toy) fwd (subst_quad (E := toy) 3 2 L35 K35 quad0) quad_p36 crs0 = Ok true.
Proof. by rewrite -[subst_quad _ _ _ _ _]/quad_q35 quad_q35E; vm_compute. Qed.
