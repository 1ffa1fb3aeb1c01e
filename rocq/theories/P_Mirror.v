(** Property C86: the order of the two groups does not matter. *)
From mathcomp Require Import all_ssreflect all_algebra.
From Verif Require Import Base BaseLemmas Group DataStructures Generator Commit Statement Prove Verify Spec SpecMat SpecVerify SpecHide Complete SpecMirror MirrorProps Concrete Concrete2 Concrete4 Concrete7.
Set Implicit Arguments.
Unset Strict Implicit.
Unset Printing Implicit Defensive.
Import GRing.Theory.
Local Open Scope ring_scope.

(** Committing on one side is committing on the other side of the mirror image, panics included. *)
Theorem C86_G1_mirror : forall (E : pairing) (R : rng E) (X : seq (G1 E)) (crs : CRS E) (s : rst R), batch_commit_G1 X crs s = batch_commit_G2 (E := (mirror E)) X (mirror_crs crs) (s : rst (mirror_rng R)).
Proof. exact: @k_C86_G1_mirror. Qed.
Print Assumptions C86_G1_mirror.

Example C86_G1_mirror_case : isok (batch_commit_G2 (E := mirror toy) (R := mirror_rng ctr) xs0 (mirror_crs crs0) (6%N : rst (mirror_rng ctr))).
Proof. by rewrite -(@C86_G1_mirror toy ctr); vm_compute. Qed.

Theorem C86_G2_mirror : forall (E : pairing) (R : rng E) (X : seq (G2 E)) (crs : CRS E) (s : rst R), batch_commit_G2 X crs s = batch_commit_G1 (E := (mirror E)) X (mirror_crs crs) (s : rst (mirror_rng R)).
Proof. exact: @k_C86_G2_mirror. Qed.
Print Assumptions C86_G2_mirror.

Example C86_G2_mirror_case : isok (batch_commit_G1 (E := mirror toy) (R := mirror_rng ctr) ys0 (mirror_crs crs0) (6%N : rst (mirror_rng ctr))).
Proof. by rewrite -(@C86_G2_mirror toy ctr); vm_compute. Qed.

Theorem C86_B1_mirror : forall (E : pairing) (R : rng E) (X : seq (Fr E)) (crs : CRS E) (s : rst R), batch_commit_scalar_to_B1 X crs s = batch_commit_scalar_to_B2 (E := (mirror E)) X (mirror_crs crs) (s : rst (mirror_rng R)).
Proof. exact: @k_C86_B1_mirror. Qed.
Print Assumptions C86_B1_mirror.

Example C86_B1_mirror_case : isok (batch_commit_scalar_to_B2 (E := mirror toy) (R := mirror_rng ctr) xs0 (mirror_crs crs0) (6%N : rst (mirror_rng ctr))).
Proof. by rewrite -(@C86_B1_mirror toy ctr); vm_compute. Qed.

Theorem C86_B2_mirror : forall (E : pairing) (R : rng E) (X : seq (Fr E)) (crs : CRS E) (s : rst R), batch_commit_scalar_to_B2 X crs s = batch_commit_scalar_to_B1 (E := (mirror E)) X (mirror_crs crs) (s : rst (mirror_rng R)).
Proof. exact: @k_C86_B2_mirror. Qed.
Print Assumptions C86_B2_mirror.

Example C86_B2_mirror_case : isok (batch_commit_scalar_to_B1 (E := mirror toy) (R := mirror_rng ctr) ys0 (mirror_crs crs0) (6%N : rst (mirror_rng ctr))).
Proof. by rewrite -(@C86_B2_mirror toy ctr); vm_compute. Qed.

(** The two kinds of keys are kept. *)
Theorem C86_binding_mirror : forall (E : pairing) (crs : CRS E) (a1 a2 t1 t2 : Fr E), binding_crs_with crs a1 a2 t1 t2 <-> binding_crs_with (mirror_crs crs) a2 a1 t2 t1.
Proof. exact: @k_C86_binding_mirror. Qed.
Print Assumptions C86_binding_mirror.

Example C86_binding_mirror_case : binding_crs_with (mirror_crs crs0) (n7 3) (n7 2) (n7 5) (n7 4).
Proof. by apply: (C86_binding_mirror (E := toy) _ _ _ _ _).1; split; apply/eqP; vm_compute. Qed.

Theorem C86_hiding_mirror : forall (E : pairing) (crs : CRS E) (a1 a2 t1 t2 : Fr E), hiding_crs_with crs a1 a2 t1 t2 <-> hiding_crs_with (mirror_crs crs) a2 a1 t2 t1.
Proof. exact: @k_C86_hiding_mirror. Qed.
Print Assumptions C86_hiding_mirror.

Example C86_hiding_mirror_case : exists a1 a2 t1 t2, hiding_crs_with (mirror_crs crsh) a1 a2 t1 t2.
Proof. by case: crsh_hid => a1 [a2 [t1 [t2 h]]]; exists a2, a1, t2, t1; apply: (C86_hiding_mirror (E := toy) _ _ _ _ _).1. Qed.

(** The mirror image holds exactly if the equation does. *)
Theorem C86_ppe_mirror_holds : forall (E : pairing) (q : PPE E) X Y, ppe_wf q (size X) (size Y) ->
  (ppe_holds q X Y <-> ppe_holds (mirror_ppe q) Y X).
Proof. exact: @k_C86_ppe_mirror_holds. Qed.
Print Assumptions C86_ppe_mirror_holds.

Example C86_ppe_mirror_holds_case : ppe_holds (mirror_ppe ppe0) ys0 xs0.
Proof. exact: ((@C86_ppe_mirror_holds toy ppe0 xs0 ys0 ppe0_wf).1 ppe0_holds). Qed.

(** The mirror image of a proof has the same answer. *)
Theorem C86_ppe_mirror_verify : forall (E : pairing) (sch sch' : sched) (q : PPE E) (p : CProof E) (crs : CRS E) (b : bool), bilinear E -> valid_sched sch -> valid_sched sch' ->
  (0 < size (coms (xcoms p)))%N -> (0 < size (coms (ycoms p)))%N -> ppe_wf q (size (coms (xcoms p))) (size (coms (ycoms p))) ->
  (ppe_verify sch q p crs = Ok b <-> ppe_verify sch' (mirror_ppe q) (mirror_proof p) (mirror_crs crs) = Ok b).
Proof. by move=> E sch sch' q p crs b hb; exact: (k_C86_ppe_mirror_verify hb). Qed.
Print Assumptions C86_ppe_mirror_verify.

Example C86_ppe_mirror_verify_case : ppe_verify bwd (mirror_ppe ppe0) (mirror_proof ppe_p0) (mirror_crs crs0) = Ok true.
Proof. exact: ((@C86_ppe_mirror_verify toy fwd bwd ppe0 ppe_p0 crs0 true toy_bilinear fwd_valid bwd_valid isT isT ppe0_wf).1 ppe_p0_ok). Qed.

(** Up to a bijection of the random scalars, [prove] on the mirror image returns the mirror image. *)
Theorem C86_ppe_mirror_prove : forall (E : pairing) (sch sch' : sched) (q : PPE E) (X : seq (G1 E)) (Y : seq (G2 E)) (cx : Commit1 E) (cy : Commit2 E) (crs : CRS E), valid_sched sch -> valid_sched sch' ->
  (0 < size X)%N -> (0 < size Y)%N -> ppe_wf q (size X) (size Y) -> two_keys crs ->
  dims (size X) 2 (crand cx) -> dims (size Y) 2 (crand cy) ->
  exists phi : 4.-tuple (Fr E) -> 4.-tuple (Fr E), bijective phi /\
  forall (R : rng E) (R' : rng (mirror E)) (s : rst R) (z : rst R'), draws 4 z = phi (draws 4 s) ->
  exists p t, seen (fun f => (pi f, theta f)) (ppe_prove sch q X Y cx cy crs s) = Ok (p, t) /\
    seen (fun f => (pi f, theta f)) (ppe_prove (E := (mirror E)) sch' (mirror_ppe q) Y X cy cx (mirror_crs crs) z) = Ok (t, p).
Proof. exact: @k_C86_ppe_mirror_prove. Qed.
Print Assumptions C86_ppe_mirror_prove.

Example ppe_p0_randx_case : dims (size xs0) 2 (crand (xcoms ppe_p0)).
Proof. by apply/Complete.dims_rect; vm_compute. Qed.
Example ppe_p0_randy_case : dims (size ys0) 2 (crand (ycoms ppe_p0)).
Proof. by apply/Complete.dims_rect; vm_compute. Qed.
Example C86_ppe_mirror_prove_case := @C86_ppe_mirror_prove toy fwd bwd ppe0 xs0 ys0 (xcoms ppe_p0) (ycoms ppe_p0) crs0 fwd_valid bwd_valid isT isT ppe0_wf crs0_two ppe_p0_randx_case ppe_p0_randy_case.

(** The mirror image holds exactly if the equation does. *)
Theorem C86_ms1_mirror_holds : forall (E : pairing) (q : MSMEG1 E) X Y, ms1_wf q (size X) (size Y) ->
  (ms1_holds q X Y <-> ms2_holds (mirror_ms1 q) Y X).
Proof. exact: @k_C86_ms1_mirror_holds. Qed.
Print Assumptions C86_ms1_mirror_holds.

Example C86_ms1_mirror_holds_case : ms2_holds (mirror_ms1 ms10) ys0 xs0.
Proof. exact: ((@C86_ms1_mirror_holds toy ms10 xs0 ys0 ms10_wf).1 ms10_holds). Qed.

(** The mirror image of a proof has the same answer. *)
Theorem C86_ms1_mirror_verify : forall (E : pairing) (sch sch' : sched) (q : MSMEG1 E) (p : CProof E) (crs : CRS E) (b : bool), bilinear E -> valid_sched sch -> valid_sched sch' ->
  (0 < size (coms (xcoms p)))%N -> (0 < size (coms (ycoms p)))%N -> ms1_wf q (size (coms (xcoms p))) (size (coms (ycoms p))) ->
  (ms1_verify sch q p crs = Ok b <-> ms2_verify sch' (mirror_ms1 q) (mirror_proof p) (mirror_crs crs) = Ok b).
Proof. by move=> E sch sch' q p crs b hb; exact: (k_C86_ms1_mirror_verify hb). Qed.
Print Assumptions C86_ms1_mirror_verify.

Example C86_ms1_mirror_verify_case : ms2_verify bwd (mirror_ms1 ms10) (mirror_proof ms1_p0) (mirror_crs crs0) = Ok true.
Proof. exact: ((@C86_ms1_mirror_verify toy fwd bwd ms10 ms1_p0 crs0 true toy_bilinear fwd_valid bwd_valid isT isT ms10_wf).1 ms1_p0_ok). Qed.

(** Up to a bijection of the random scalars, [prove] on the mirror image returns the mirror image. *)
Theorem C86_ms1_mirror_prove : forall (E : pairing) (sch sch' : sched) (q : MSMEG1 E) (X : seq (G1 E)) (Y : seq (Fr E)) (cx : Commit1 E) (cy : Commit2 E) (crs : CRS E), valid_sched sch -> valid_sched sch' ->
  (0 < size X)%N -> (0 < size Y)%N -> ms1_wf q (size X) (size Y) -> two_keys crs ->
  dims (size X) 2 (crand cx) -> dims (size Y) 1 (crand cy) ->
  exists phi : 2.-tuple (Fr E) -> 2.-tuple (Fr E), bijective phi /\
  forall (R : rng E) (R' : rng (mirror E)) (s : rst R) (z : rst R'), draws 2 z = phi (draws 2 s) ->
  exists p t, seen (fun f => (pi f, theta f)) (ms1_prove sch q X Y cx cy crs s) = Ok (p, t) /\
    seen (fun f => (pi f, theta f)) (ms2_prove (E := (mirror E)) sch' (mirror_ms1 q) Y X cy cx (mirror_crs crs) z) = Ok (t, p).
Proof. exact: @k_C86_ms1_mirror_prove. Qed.
Print Assumptions C86_ms1_mirror_prove.

Example ms1_p0_randx_case : dims (size xs0) 2 (crand (xcoms ms1_p0)).
Proof. by apply/Complete.dims_rect; vm_compute. Qed.
Example ms1_p0_randy_case : dims (size ys0) 1 (crand (ycoms ms1_p0)).
Proof. by apply/Complete.dims_rect; vm_compute. Qed.
Example C86_ms1_mirror_prove_case := @C86_ms1_mirror_prove toy fwd bwd ms10 xs0 ys0 (xcoms ms1_p0) (ycoms ms1_p0) crs0 fwd_valid bwd_valid isT isT ms10_wf crs0_two ms1_p0_randx_case ms1_p0_randy_case.

(** The mirror image holds exactly if the equation does. *)
Theorem C86_ms2_mirror_holds : forall (E : pairing) (q : MSMEG2 E) X Y, ms2_wf q (size X) (size Y) ->
  (ms2_holds q X Y <-> ms1_holds (mirror_ms2 q) Y X).
Proof. exact: @k_C86_ms2_mirror_holds. Qed.
Print Assumptions C86_ms2_mirror_holds.

Example C86_ms2_mirror_holds_case : ms1_holds (mirror_ms2 ms20) ys0 xs0.
Proof. exact: ((@C86_ms2_mirror_holds toy ms20 xs0 ys0 ms20_wf).1 ms20_holds). Qed.

(** The mirror image of a proof has the same answer. *)
Theorem C86_ms2_mirror_verify : forall (E : pairing) (sch sch' : sched) (q : MSMEG2 E) (p : CProof E) (crs : CRS E) (b : bool), bilinear E -> valid_sched sch -> valid_sched sch' ->
  (0 < size (coms (xcoms p)))%N -> (0 < size (coms (ycoms p)))%N -> ms2_wf q (size (coms (xcoms p))) (size (coms (ycoms p))) ->
  (ms2_verify sch q p crs = Ok b <-> ms1_verify sch' (mirror_ms2 q) (mirror_proof p) (mirror_crs crs) = Ok b).
Proof. by move=> E sch sch' q p crs b hb; exact: (k_C86_ms2_mirror_verify hb). Qed.
Print Assumptions C86_ms2_mirror_verify.

Example C86_ms2_mirror_verify_case : ms1_verify bwd (mirror_ms2 ms20) (mirror_proof ms2_p0) (mirror_crs crs0) = Ok true.
Proof. exact: ((@C86_ms2_mirror_verify toy fwd bwd ms20 ms2_p0 crs0 true toy_bilinear fwd_valid bwd_valid isT isT ms20_wf).1 ms2_p0_ok). Qed.

(** Up to a bijection of the random scalars, [prove] on the mirror image returns the mirror image. *)
Theorem C86_ms2_mirror_prove : forall (E : pairing) (sch sch' : sched) (q : MSMEG2 E) (X : seq (Fr E)) (Y : seq (G2 E)) (cx : Commit1 E) (cy : Commit2 E) (crs : CRS E), valid_sched sch -> valid_sched sch' ->
  (0 < size X)%N -> (0 < size Y)%N -> ms2_wf q (size X) (size Y) -> two_keys crs ->
  dims (size X) 1 (crand cx) -> dims (size Y) 2 (crand cy) ->
  exists phi : 2.-tuple (Fr E) -> 2.-tuple (Fr E), bijective phi /\
  forall (R : rng E) (R' : rng (mirror E)) (s : rst R) (z : rst R'), draws 2 z = phi (draws 2 s) ->
  exists p t, seen (fun f => (pi f, theta f)) (ms2_prove sch q X Y cx cy crs s) = Ok (p, t) /\
    seen (fun f => (pi f, theta f)) (ms1_prove (E := (mirror E)) sch' (mirror_ms2 q) Y X cy cx (mirror_crs crs) z) = Ok (t, p).
Proof. exact: @k_C86_ms2_mirror_prove. Qed.
Print Assumptions C86_ms2_mirror_prove.

Example ms2_p0_randx_case : dims (size xs0) 1 (crand (xcoms ms2_p0)).
Proof. by apply/Complete.dims_rect; vm_compute. Qed.
Example ms2_p0_randy_case : dims (size ys0) 2 (crand (ycoms ms2_p0)).
Proof. by apply/Complete.dims_rect; vm_compute. Qed.
Example C86_ms2_mirror_prove_case := @C86_ms2_mirror_prove toy fwd bwd ms20 xs0 ys0 (xcoms ms2_p0) (ycoms ms2_p0) crs0 fwd_valid bwd_valid isT isT ms20_wf crs0_two ms2_p0_randx_case ms2_p0_randy_case.

(** The mirror image holds exactly if the equation does. *)
Theorem C86_quad_mirror_holds : forall (E : pairing) (q : QuadEqu E) X Y, quad_wf q (size X) (size Y) ->
  (quad_holds q X Y <-> quad_holds (mirror_quad q) Y X).
Proof. exact: @k_C86_quad_mirror_holds. Qed.
Print Assumptions C86_quad_mirror_holds.

Example C86_quad_mirror_holds_case : quad_holds (mirror_quad quad0) ys0 xs0.
Proof. exact: ((@C86_quad_mirror_holds toy quad0 xs0 ys0 quad0_wf).1 quad0_holds). Qed.

(** The mirror image of a proof has the same answer. *)
Theorem C86_quad_mirror_verify : forall (E : pairing) (sch sch' : sched) (q : QuadEqu E) (p : CProof E) (crs : CRS E) (b : bool), bilinear E -> valid_sched sch -> valid_sched sch' ->
  (0 < size (coms (xcoms p)))%N -> (0 < size (coms (ycoms p)))%N -> quad_wf q (size (coms (xcoms p))) (size (coms (ycoms p))) ->
  (quad_verify sch q p crs = Ok b <-> quad_verify sch' (mirror_quad q) (mirror_proof p) (mirror_crs crs) = Ok b).
Proof. by move=> E sch sch' q p crs b hb; exact: (k_C86_quad_mirror_verify hb). Qed.
Print Assumptions C86_quad_mirror_verify.

Example C86_quad_mirror_verify_case : quad_verify bwd (mirror_quad quad0) (mirror_proof quad_p0) (mirror_crs crs0) = Ok true.
Proof. exact: ((@C86_quad_mirror_verify toy fwd bwd quad0 quad_p0 crs0 true toy_bilinear fwd_valid bwd_valid isT isT quad0_wf).1 quad_p0_ok). Qed.

(** Up to a bijection of the random scalars, [prove] on the mirror image returns the mirror image. *)
Theorem C86_quad_mirror_prove : forall (E : pairing) (sch sch' : sched) (q : QuadEqu E) (X : seq (Fr E)) (Y : seq (Fr E)) (cx : Commit1 E) (cy : Commit2 E) (crs : CRS E), valid_sched sch -> valid_sched sch' ->
  (0 < size X)%N -> (0 < size Y)%N -> quad_wf q (size X) (size Y) -> two_keys crs ->
  dims (size X) 1 (crand cx) -> dims (size Y) 1 (crand cy) ->
  exists phi : 1.-tuple (Fr E) -> 1.-tuple (Fr E), bijective phi /\
  forall (R : rng E) (R' : rng (mirror E)) (s : rst R) (z : rst R'), draws 1 z = phi (draws 1 s) ->
  exists p t, seen (fun f => (pi f, theta f)) (quad_prove sch q X Y cx cy crs s) = Ok (p, t) /\
    seen (fun f => (pi f, theta f)) (quad_prove (E := (mirror E)) sch' (mirror_quad q) Y X cy cx (mirror_crs crs) z) = Ok (t, p).
Proof. exact: @k_C86_quad_mirror_prove. Qed.
Print Assumptions C86_quad_mirror_prove.

Example quad_p0_randx_case : dims (size xs0) 1 (crand (xcoms quad_p0)).
Proof. by apply/Complete.dims_rect; vm_compute. Qed.
Example quad_p0_randy_case : dims (size ys0) 1 (crand (ycoms quad_p0)).
Proof. by apply/Complete.dims_rect; vm_compute. Qed.
Example C86_quad_mirror_prove_case := @C86_quad_mirror_prove toy fwd bwd quad0 xs0 ys0 (xcoms quad_p0) (ycoms quad_p0) crs0 fwd_valid bwd_valid isT isT quad0_wf crs0_two quad_p0_randx_case quad_p0_randy_case.

