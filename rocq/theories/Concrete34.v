(** A concrete case for the statements about a known variable. *)
From mathcomp Require Import all_ssreflect all_algebra.
From Verif Require Import Base BaseLemmas Group DataStructures Generator Commit Statement Prove Verify Spec SpecVerify SpecFormula SpecKnown Complete Concrete Concrete2.
Set Implicit Arguments.
Unset Strict Implicit.
Unset Printing Implicit Defensive.
Import GRing.Theory.
Local Open Scope ring_scope.

Definition xs34 : seq F7 := [:: n7 3].
Definition x34 : F7 := n7 5.
Definition ppe_p34 : CProof toy := (value (cproof0, 0%N) (ppe_commit_and_prove (E := toy) fwd (known_ppe (E := toy) ppe0 x34) xs34 ys0 crs0 (6%N : rst ctr))).1.
Lemma ppe_p34_sx : size (coms (xcoms ppe_p34)) = 1%N. Proof. by vm_compute. Qed.
Lemma ppe_p34_sy : size (coms (ycoms ppe_p34)) = 1%N. Proof. by vm_compute. Qed.
Lemma ppe_p34_px : (0 < size (coms (xcoms ppe_p34)))%N. Proof. by rewrite ppe_p34_sx. Qed.
Lemma ppe_p34_py : (0 < size (coms (ycoms ppe_p34)))%N. Proof. by rewrite ppe_p34_sy. Qed.
Lemma ppe_p34_wf : ppe_wf ppe0 (size (coms (xcoms ppe_p34))).+1 (size (coms (ycoms ppe_p34))). Proof. by rewrite ppe_p34_sx ppe_p34_sy; exact: ppe0_wf. Qed.
Lemma ppe_p34_rx : dims (size xs34) 2 (crand (xcoms ppe_p34)). Proof. by apply/Complete.dims_rect; vm_compute. Qed.
Lemma ppe_p34_ry : dims (size ys0) 2 (crand (ycoms ppe_p34)). Proof. by apply/Complete.dims_rect; vm_compute. Qed.
Lemma ppe_p34_ok : ppe_verify (E := toy) fwd (known_ppe (E := toy) ppe0 x34) ppe_p34 crs0 = Ok true. Proof. by vm_compute. Qed.
Definition ms1_p34 : CProof toy := (value (cproof0, 0%N) (ms1_commit_and_prove (E := toy) fwd (known_ms1 (E := toy) ms10 x34) xs34 ys0 crs0 (6%N : rst ctr))).1.
Lemma ms1_p34_sx : size (coms (xcoms ms1_p34)) = 1%N. Proof. by vm_compute. Qed.
Lemma ms1_p34_sy : size (coms (ycoms ms1_p34)) = 1%N. Proof. by vm_compute. Qed.
Lemma ms1_p34_px : (0 < size (coms (xcoms ms1_p34)))%N. Proof. by rewrite ms1_p34_sx. Qed.
Lemma ms1_p34_py : (0 < size (coms (ycoms ms1_p34)))%N. Proof. by rewrite ms1_p34_sy. Qed.
Lemma ms1_p34_wf : ms1_wf ms10 (size (coms (xcoms ms1_p34))).+1 (size (coms (ycoms ms1_p34))). Proof. by rewrite ms1_p34_sx ms1_p34_sy; exact: ms10_wf. Qed.
Lemma ms1_p34_rx : dims (size xs34) 2 (crand (xcoms ms1_p34)). Proof. by apply/Complete.dims_rect; vm_compute. Qed.
Lemma ms1_p34_ry : dims (size ys0) 1 (crand (ycoms ms1_p34)). Proof. by apply/Complete.dims_rect; vm_compute. Qed.
Lemma ms1_p34_ok : ms1_verify (E := toy) fwd (known_ms1 (E := toy) ms10 x34) ms1_p34 crs0 = Ok true. Proof. by vm_compute. Qed.
Definition ms2_p34 : CProof toy := (value (cproof0, 0%N) (ms2_commit_and_prove (E := toy) fwd (known_ms2 (E := toy) ms20 x34) xs34 ys0 crs0 (6%N : rst ctr))).1.
Lemma ms2_p34_sx : size (coms (xcoms ms2_p34)) = 1%N. Proof. by vm_compute. Qed.
Lemma ms2_p34_sy : size (coms (ycoms ms2_p34)) = 1%N. Proof. by vm_compute. Qed.
Lemma ms2_p34_px : (0 < size (coms (xcoms ms2_p34)))%N. Proof. by rewrite ms2_p34_sx. Qed.
Lemma ms2_p34_py : (0 < size (coms (ycoms ms2_p34)))%N. Proof. by rewrite ms2_p34_sy. Qed.
Lemma ms2_p34_wf : ms2_wf ms20 (size (coms (xcoms ms2_p34))).+1 (size (coms (ycoms ms2_p34))). Proof. by rewrite ms2_p34_sx ms2_p34_sy; exact: ms20_wf. Qed.
Lemma ms2_p34_rx : dims (size xs34) 1 (crand (xcoms ms2_p34)). Proof. by apply/Complete.dims_rect; vm_compute. Qed.
Lemma ms2_p34_ry : dims (size ys0) 2 (crand (ycoms ms2_p34)). Proof. by apply/Complete.dims_rect; vm_compute. Qed.
Lemma ms2_p34_ok : ms2_verify (E := toy) fwd (known_ms2 (E := toy) ms20 x34) ms2_p34 crs0 = Ok true. Proof. by vm_compute. Qed.
Definition quad_p34 : CProof toy := (value (cproof0, 0%N) (quad_commit_and_prove (E := toy) fwd (known_quad (E := toy) quad0 x34) xs34 ys0 crs0 (6%N : rst ctr))).1.
Lemma quad_p34_sx : size (coms (xcoms quad_p34)) = 1%N. Proof. by vm_compute. Qed.
Lemma quad_p34_sy : size (coms (ycoms quad_p34)) = 1%N. Proof. by vm_compute. Qed.
Lemma quad_p34_px : (0 < size (coms (xcoms quad_p34)))%N. Proof. by rewrite quad_p34_sx. Qed.
Lemma quad_p34_py : (0 < size (coms (ycoms quad_p34)))%N. Proof. by rewrite quad_p34_sy. Qed.
Lemma quad_p34_wf : quad_wf quad0 (size (coms (xcoms quad_p34))).+1 (size (coms (ycoms quad_p34))). Proof. by rewrite quad_p34_sx quad_p34_sy; exact: quad0_wf. Qed.
Lemma quad_p34_rx : dims (size xs34) 1 (crand (xcoms quad_p34)). Proof. by apply/Complete.dims_rect; vm_compute. Qed.
Lemma quad_p34_ry : dims (size ys0) 1 (crand (ycoms quad_p34)). Proof. by apply/Complete.dims_rect; vm_compute. Qed.
Lemma quad_p34_ok : quad_verify (E := toy) fwd (known_quad (E := toy) quad0 x34) quad_p34 crs0 = Ok true. Proof. by vm_compute. Qed.

(** Equations with one x-variable and two y-variables. *)
Definition gamma35 : matrix F7 := [:: [:: n7 2; n7 6]].
Lemma gamma35_dims : dims 1 2 gamma35. Proof. by split=> // -[|]. Qed.
Definition ppe35 : PPE toy := mkPPE (E := toy) [:: n7 2; n7 3] [:: n7 1] gamma35 (n7 1).
Lemma ppe35_wf : ppe_wf ppe35 1 2. Proof. by split=> //; apply: gamma35_dims. Qed.
Lemma ppe35_holds : ppe_holds ppe35 ys0 xs0. Proof. by rewrite /ppe_holds /= !big_ord_recl !big_ord0; apply/eqP; vm_compute. Qed.
Definition ppe_p35 : CProof toy := (value (cproof0, 0%N) (ppe_commit_and_prove (E := toy) fwd (known_y_ppe (E := toy) ppe35 x34) ys0 xs34 crs0 (6%N : rst ctr))).1.
Lemma ppe_p35_sx : size (coms (xcoms ppe_p35)) = 1%N. Proof. by vm_compute. Qed.
Lemma ppe_p35_sy : size (coms (ycoms ppe_p35)) = 1%N. Proof. by vm_compute. Qed.
Lemma ppe_p35_px : (0 < size (coms (xcoms ppe_p35)))%N. Proof. by rewrite ppe_p35_sx. Qed.
Lemma ppe_p35_py : (0 < size (coms (ycoms ppe_p35)))%N. Proof. by rewrite ppe_p35_sy. Qed.
Lemma ppe_p35_wf : ppe_wf ppe35 (size (coms (xcoms ppe_p35))) (size (coms (ycoms ppe_p35))).+1. Proof. by rewrite ppe_p35_sx ppe_p35_sy; exact: ppe35_wf. Qed.
Lemma ppe_p35_rx : dims (size ys0) 2 (crand (xcoms ppe_p35)). Proof. by apply/Complete.dims_rect; vm_compute. Qed.
Lemma ppe_p35_ry : dims (size xs34) 2 (crand (ycoms ppe_p35)). Proof. by apply/Complete.dims_rect; vm_compute. Qed.
Lemma ppe_p35_ok : ppe_verify (E := toy) fwd (known_y_ppe (E := toy) ppe35 x34) ppe_p35 crs0 = Ok true. Proof. by vm_compute. Qed.
Definition ms135 : MSMEG1 toy := mkMSMEG1 (E := toy) [:: n7 2; n7 3] [:: n7 1] gamma35 (n7 1).
Lemma ms135_wf : ms1_wf ms135 1 2. Proof. by split=> //; apply: gamma35_dims. Qed.
Lemma ms135_holds : ms1_holds ms135 ys0 xs0. Proof. by rewrite /ms1_holds /= !big_ord_recl !big_ord0; apply/eqP; vm_compute. Qed.
Definition ms1_p35 : CProof toy := (value (cproof0, 0%N) (ms1_commit_and_prove (E := toy) fwd (known_y_ms1 (E := toy) ms135 x34) ys0 xs34 crs0 (6%N : rst ctr))).1.
Lemma ms1_p35_sx : size (coms (xcoms ms1_p35)) = 1%N. Proof. by vm_compute. Qed.
Lemma ms1_p35_sy : size (coms (ycoms ms1_p35)) = 1%N. Proof. by vm_compute. Qed.
Lemma ms1_p35_px : (0 < size (coms (xcoms ms1_p35)))%N. Proof. by rewrite ms1_p35_sx. Qed.
Lemma ms1_p35_py : (0 < size (coms (ycoms ms1_p35)))%N. Proof. by rewrite ms1_p35_sy. Qed.
Lemma ms1_p35_wf : ms1_wf ms135 (size (coms (xcoms ms1_p35))) (size (coms (ycoms ms1_p35))).+1. Proof. by rewrite ms1_p35_sx ms1_p35_sy; exact: ms135_wf. Qed.
Lemma ms1_p35_rx : dims (size ys0) 2 (crand (xcoms ms1_p35)). Proof. by apply/Complete.dims_rect; vm_compute. Qed.
Lemma ms1_p35_ry : dims (size xs34) 1 (crand (ycoms ms1_p35)). Proof. by apply/Complete.dims_rect; vm_compute. Qed.
Lemma ms1_p35_ok : ms1_verify (E := toy) fwd (known_y_ms1 (E := toy) ms135 x34) ms1_p35 crs0 = Ok true. Proof. by vm_compute. Qed.
Definition ms235 : MSMEG2 toy := mkMSMEG2 (E := toy) [:: n7 2; n7 3] [:: n7 1] gamma35 (n7 1).
Lemma ms235_wf : ms2_wf ms235 1 2. Proof. by split=> //; apply: gamma35_dims. Qed.
Lemma ms235_holds : ms2_holds ms235 ys0 xs0. Proof. by rewrite /ms2_holds /= !big_ord_recl !big_ord0; apply/eqP; vm_compute. Qed.
Definition ms2_p35 : CProof toy := (value (cproof0, 0%N) (ms2_commit_and_prove (E := toy) fwd (known_y_ms2 (E := toy) ms235 x34) ys0 xs34 crs0 (6%N : rst ctr))).1.
Lemma ms2_p35_sx : size (coms (xcoms ms2_p35)) = 1%N. Proof. by vm_compute. Qed.
Lemma ms2_p35_sy : size (coms (ycoms ms2_p35)) = 1%N. Proof. by vm_compute. Qed.
Lemma ms2_p35_px : (0 < size (coms (xcoms ms2_p35)))%N. Proof. by rewrite ms2_p35_sx. Qed.
Lemma ms2_p35_py : (0 < size (coms (ycoms ms2_p35)))%N. Proof. by rewrite ms2_p35_sy. Qed.
Lemma ms2_p35_wf : ms2_wf ms235 (size (coms (xcoms ms2_p35))) (size (coms (ycoms ms2_p35))).+1. Proof. by rewrite ms2_p35_sx ms2_p35_sy; exact: ms235_wf. Qed.
Lemma ms2_p35_rx : dims (size ys0) 1 (crand (xcoms ms2_p35)). Proof. by apply/Complete.dims_rect; vm_compute. Qed.
Lemma ms2_p35_ry : dims (size xs34) 2 (crand (ycoms ms2_p35)). Proof. by apply/Complete.dims_rect; vm_compute. Qed.
Lemma ms2_p35_ok : ms2_verify (E := toy) fwd (known_y_ms2 (E := toy) ms235 x34) ms2_p35 crs0 = Ok true. Proof. by vm_compute. Qed.
Definition quad35 : QuadEqu toy := mkQuadEqu (E := toy) [:: n7 2; n7 3] [:: n7 1] gamma35 (n7 1).
Lemma quad35_wf : quad_wf quad35 1 2. Proof. by split=> //; apply: gamma35_dims. Qed.
Lemma quad35_holds : quad_holds quad35 ys0 xs0. Proof. by rewrite /quad_holds /= !big_ord_recl !big_ord0; apply/eqP; vm_compute. Qed.
Definition quad_p35 : CProof toy := (value (cproof0, 0%N) (quad_commit_and_prove (E := toy) fwd (known_y_quad (E := toy) quad35 x34) ys0 xs34 crs0 (6%N : rst ctr))).1.
Lemma quad_p35_sx : size (coms (xcoms quad_p35)) = 1%N. Proof. by vm_compute. Qed.
Lemma quad_p35_sy : size (coms (ycoms quad_p35)) = 1%N. Proof. by vm_compute. Qed.
Lemma quad_p35_px : (0 < size (coms (xcoms quad_p35)))%N. Proof. by rewrite quad_p35_sx. Qed.
Lemma quad_p35_py : (0 < size (coms (ycoms quad_p35)))%N. Proof. by rewrite quad_p35_sy. Qed.
Lemma quad_p35_wf : quad_wf quad35 (size (coms (xcoms quad_p35))) (size (coms (ycoms quad_p35))).+1. Proof. by rewrite quad_p35_sx quad_p35_sy; exact: quad35_wf. Qed.
Lemma quad_p35_rx : dims (size ys0) 1 (crand (xcoms quad_p35)). Proof. by apply/Complete.dims_rect; vm_compute. Qed.
Lemma quad_p35_ry : dims (size xs34) 1 (crand (ycoms quad_p35)). Proof. by apply/Complete.dims_rect; vm_compute. Qed.
Lemma quad_p35_ok : quad_verify (E := toy) fwd (known_y_quad (E := toy) quad35 x34) quad_p35 crs0 = Ok true. Proof. by vm_compute. Qed.
