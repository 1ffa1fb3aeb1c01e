(** Property C86: a left variable whose value is known can be made part of the constants. *)
From mathcomp Require Import all_ssreflect all_algebra.
From Verif Require Import Base BaseLemmas Group DataStructures Generator Commit Statement Prove Verify Spec SpecMat SpecVerify SpecFormula SpecKnown KnownProps Concrete Concrete2 Concrete34.
Set Implicit Arguments.
Unset Strict Implicit.
Unset Printing Implicit Defensive.
Import GRing.Theory.
Local Open Scope ring_scope.

(** The equation without the known variable is well formed, and holds exactly if the equation does. *)
Theorem C86_ppe_known_holds : forall (E : pairing) (q : PPE E) (X : seq (G1 E)) (x : G1 E) (Y : seq (G2 E)), bilinear E -> ppe_wf q (size X).+1 (size Y) ->
  ppe_wf (known_ppe q x) (size X) (size Y) /\ (ppe_holds q (rcons X x) Y <-> ppe_holds (known_ppe q x) X Y).
Proof. exact: @k_C86_ppe_known. Qed.
Print Assumptions C86_ppe_known_holds.

Example C86_ppe_known_holds_case : ppe_holds (known_ppe (E := toy) ppe0 x34) xs34 ys0.
Proof. exact: ((@C86_ppe_known_holds toy ppe0 xs34 x34 ys0 toy_bilinear ppe0_wf).2.1 ppe0_holds). Qed.

(** A proof with the value itself as the last left commitment has the same outcome, panics included, as the proof without it of the equation without the variable. *)
Theorem C86_ppe_known_verify : forall (E : pairing) (sch sch' : sched) (q : PPE E) (x : G1 E) (p : CProof E) (crs : CRS E), bilinear E -> valid_sched sch -> valid_sched sch' ->
  (0 < size (coms (xcoms p)))%N -> (0 < size (coms (ycoms p)))%N -> ppe_wf q (size (coms (xcoms p))).+1 (size (coms (ycoms p))) ->
  ppe_verify sch q (with_known 2 p (i1 x)) crs = ppe_verify sch' (known_ppe q x) p crs.
Proof. by move=> E sch sch' q x p crs hb; exact: (k_C86_ppe_known_verify hb). Qed.
Print Assumptions C86_ppe_known_verify.

Example C86_ppe_known_verify_case : ppe_verify (E := toy) bwd ppe0 (with_known 2 ppe_p34 (i1 (E := toy) x34)) crs0 = Ok true.
Proof. by rewrite (@C86_ppe_known_verify toy bwd fwd ppe0 x34 ppe_p34 crs0 toy_bilinear bwd_valid fwd_valid ppe_p34_px ppe_p34_py ppe_p34_wf) ppe_p34_ok. Qed.

(** [prove] with zero randomness for the known value returns the same proof and leaves the same state as [prove] for the equation without the variable. *)
Theorem C86_ppe_known_prove : forall (E : pairing) (R : rng E) (sch sch' : sched) (q : PPE E) (X : seq (G1 E)) (x : G1 E) (Y : seq (G2 E)) (cx : Commit1 E) (cy : Commit2 E) (crs : CRS E) (s : rst R),
  valid_sched sch -> valid_sched sch' -> two_keys crs ->
  (0 < size X)%N -> (0 < size Y)%N -> ppe_wf q (size X).+1 (size Y) -> dims (size X) 2 (crand cx) -> dims (size Y) 2 (crand cy) ->
  ppe_prove sch q (rcons X x) Y (and_known 2 cx (i1 x)) cy crs s = ppe_prove sch' (known_ppe q x) X Y cx cy crs s.
Proof. exact: @k_C86_ppe_known_prove. Qed.
Print Assumptions C86_ppe_known_prove.

Example C86_ppe_known_prove_case := @C86_ppe_known_prove toy ctr fwd bwd ppe0 xs34 x34 ys0 (xcoms ppe_p34) (ycoms ppe_p34) crs0 (29%N : rst ctr) fwd_valid bwd_valid crs0_two isT isT ppe0_wf ppe_p34_rx ppe_p34_ry.

(** The equation without the known variable is well formed, and holds exactly if the equation does. *)
Theorem C86_ms1_known_holds : forall (E : pairing) (q : MSMEG1 E) (X : seq (G1 E)) (x : G1 E) (Y : seq (Fr E)), ms1_wf q (size X).+1 (size Y) ->
  ms1_wf (known_ms1 q x) (size X) (size Y) /\ (ms1_holds q (rcons X x) Y <-> ms1_holds (known_ms1 q x) X Y).
Proof. exact: @k_C86_ms1_known. Qed.
Print Assumptions C86_ms1_known_holds.

Example C86_ms1_known_holds_case : ms1_holds (known_ms1 (E := toy) ms10 x34) xs34 ys0.
Proof. exact: ((@C86_ms1_known_holds toy ms10 xs34 x34 ys0 ms10_wf).2.1 ms10_holds). Qed.

(** A proof with the value itself as the last left commitment has the same outcome, panics included, as the proof without it of the equation without the variable. *)
Theorem C86_ms1_known_verify : forall (E : pairing) (sch sch' : sched) (q : MSMEG1 E) (x : G1 E) (p : CProof E) (crs : CRS E), bilinear E -> valid_sched sch -> valid_sched sch' ->
  (0 < size (coms (xcoms p)))%N -> (0 < size (coms (ycoms p)))%N -> ms1_wf q (size (coms (xcoms p))).+1 (size (coms (ycoms p))) ->
  ms1_verify sch q (with_known 2 p (i1 x)) crs = ms1_verify sch' (known_ms1 q x) p crs.
Proof. by move=> E sch sch' q x p crs hb; exact: (k_C86_ms1_known_verify hb). Qed.
Print Assumptions C86_ms1_known_verify.

Example C86_ms1_known_verify_case : ms1_verify (E := toy) bwd ms10 (with_known 2 ms1_p34 (i1 (E := toy) x34)) crs0 = Ok true.
Proof. by rewrite (@C86_ms1_known_verify toy bwd fwd ms10 x34 ms1_p34 crs0 toy_bilinear bwd_valid fwd_valid ms1_p34_px ms1_p34_py ms1_p34_wf) ms1_p34_ok. Qed.

(** [prove] with zero randomness for the known value returns the same proof and leaves the same state as [prove] for the equation without the variable. *)
Theorem C86_ms1_known_prove : forall (E : pairing) (R : rng E) (sch sch' : sched) (q : MSMEG1 E) (X : seq (G1 E)) (x : G1 E) (Y : seq (Fr E)) (cx : Commit1 E) (cy : Commit2 E) (crs : CRS E) (s : rst R),
  valid_sched sch -> valid_sched sch' -> two_keys crs ->
  (0 < size X)%N -> (0 < size Y)%N -> ms1_wf q (size X).+1 (size Y) -> dims (size X) 2 (crand cx) -> dims (size Y) 1 (crand cy) ->
  ms1_prove sch q (rcons X x) Y (and_known 2 cx (i1 x)) cy crs s = ms1_prove sch' (known_ms1 q x) X Y cx cy crs s.
Proof. exact: @k_C86_ms1_known_prove. Qed.
Print Assumptions C86_ms1_known_prove.

Example C86_ms1_known_prove_case := @C86_ms1_known_prove toy ctr fwd bwd ms10 xs34 x34 ys0 (xcoms ms1_p34) (ycoms ms1_p34) crs0 (29%N : rst ctr) fwd_valid bwd_valid crs0_two isT isT ms10_wf ms1_p34_rx ms1_p34_ry.

(** The equation without the known variable is well formed, and holds exactly if the equation does. *)
Theorem C86_ms2_known_holds : forall (E : pairing) (q : MSMEG2 E) (X : seq (Fr E)) (x : Fr E) (Y : seq (G2 E)), ms2_wf q (size X).+1 (size Y) ->
  ms2_wf (known_ms2 q x) (size X) (size Y) /\ (ms2_holds q (rcons X x) Y <-> ms2_holds (known_ms2 q x) X Y).
Proof. exact: @k_C86_ms2_known. Qed.
Print Assumptions C86_ms2_known_holds.

Example C86_ms2_known_holds_case : ms2_holds (known_ms2 (E := toy) ms20 x34) xs34 ys0.
Proof. exact: ((@C86_ms2_known_holds toy ms20 xs34 x34 ys0 ms20_wf).2.1 ms20_holds). Qed.

(** A proof with the value itself as the last left commitment has the same outcome, panics included, as the proof without it of the equation without the variable. *)
Theorem C86_ms2_known_verify : forall (E : pairing) (sch sch' : sched) (q : MSMEG2 E) (x : Fr E) (p : CProof E) (crs : CRS E), bilinear E -> valid_sched sch -> valid_sched sch' ->
  (0 < size (coms (xcoms p)))%N -> (0 < size (coms (ycoms p)))%N -> ms2_wf q (size (coms (xcoms p))).+1 (size (coms (ycoms p))) ->
  ms2_verify sch q (with_known 1 p (k1 crs x)) crs = ms2_verify sch' (known_ms2 q x) p crs.
Proof. by move=> E sch sch' q x p crs hb; exact: (k_C86_ms2_known_verify hb). Qed.
Print Assumptions C86_ms2_known_verify.

Example C86_ms2_known_verify_case : ms2_verify (E := toy) bwd ms20 (with_known 1 ms2_p34 (k1 (E := toy) crs0 x34)) crs0 = Ok true.
Proof. by rewrite (@C86_ms2_known_verify toy bwd fwd ms20 x34 ms2_p34 crs0 toy_bilinear bwd_valid fwd_valid ms2_p34_px ms2_p34_py ms2_p34_wf) ms2_p34_ok. Qed.

(** [prove] with zero randomness for the known value returns the same proof and leaves the same state as [prove] for the equation without the variable. *)
Theorem C86_ms2_known_prove : forall (E : pairing) (R : rng E) (sch sch' : sched) (q : MSMEG2 E) (X : seq (Fr E)) (x : Fr E) (Y : seq (G2 E)) (cx : Commit1 E) (cy : Commit2 E) (crs : CRS E) (s : rst R),
  valid_sched sch -> valid_sched sch' -> two_keys crs ->
  (0 < size X)%N -> (0 < size Y)%N -> ms2_wf q (size X).+1 (size Y) -> dims (size X) 1 (crand cx) -> dims (size Y) 2 (crand cy) ->
  ms2_prove sch q (rcons X x) Y (and_known 1 cx (k1 crs x)) cy crs s = ms2_prove sch' (known_ms2 q x) X Y cx cy crs s.
Proof. exact: @k_C86_ms2_known_prove. Qed.
Print Assumptions C86_ms2_known_prove.

Example C86_ms2_known_prove_case := @C86_ms2_known_prove toy ctr fwd bwd ms20 xs34 x34 ys0 (xcoms ms2_p34) (ycoms ms2_p34) crs0 (29%N : rst ctr) fwd_valid bwd_valid crs0_two isT isT ms20_wf ms2_p34_rx ms2_p34_ry.

(** The equation without the known variable is well formed, and holds exactly if the equation does. *)
Theorem C86_quad_known_holds : forall (E : pairing) (q : QuadEqu E) (X : seq (Fr E)) (x : Fr E) (Y : seq (Fr E)), quad_wf q (size X).+1 (size Y) ->
  quad_wf (known_quad q x) (size X) (size Y) /\ (quad_holds q (rcons X x) Y <-> quad_holds (known_quad q x) X Y).
Proof. exact: @k_C86_quad_known. Qed.
Print Assumptions C86_quad_known_holds.

Example C86_quad_known_holds_case : quad_holds (known_quad (E := toy) quad0 x34) xs34 ys0.
Proof. exact: ((@C86_quad_known_holds toy quad0 xs34 x34 ys0 quad0_wf).2.1 quad0_holds). Qed.

(** A proof with the value itself as the last left commitment has the same outcome, panics included, as the proof without it of the equation without the variable. *)
Theorem C86_quad_known_verify : forall (E : pairing) (sch sch' : sched) (q : QuadEqu E) (x : Fr E) (p : CProof E) (crs : CRS E), bilinear E -> valid_sched sch -> valid_sched sch' ->
  (0 < size (coms (xcoms p)))%N -> (0 < size (coms (ycoms p)))%N -> quad_wf q (size (coms (xcoms p))).+1 (size (coms (ycoms p))) ->
  quad_verify sch q (with_known 1 p (k1 crs x)) crs = quad_verify sch' (known_quad q x) p crs.
Proof. by move=> E sch sch' q x p crs hb; exact: (k_C86_quad_known_verify hb). Qed.
Print Assumptions C86_quad_known_verify.

Example C86_quad_known_verify_case : quad_verify (E := toy) bwd quad0 (with_known 1 quad_p34 (k1 (E := toy) crs0 x34)) crs0 = Ok true.
Proof. by rewrite (@C86_quad_known_verify toy bwd fwd quad0 x34 quad_p34 crs0 toy_bilinear bwd_valid fwd_valid quad_p34_px quad_p34_py quad_p34_wf) quad_p34_ok. Qed.

(** [prove] with zero randomness for the known value returns the same proof and leaves the same state as [prove] for the equation without the variable. *)
Theorem C86_quad_known_prove : forall (E : pairing) (R : rng E) (sch sch' : sched) (q : QuadEqu E) (X : seq (Fr E)) (x : Fr E) (Y : seq (Fr E)) (cx : Commit1 E) (cy : Commit2 E) (crs : CRS E) (s : rst R),
  valid_sched sch -> valid_sched sch' -> two_keys crs ->
  (0 < size X)%N -> (0 < size Y)%N -> quad_wf q (size X).+1 (size Y) -> dims (size X) 1 (crand cx) -> dims (size Y) 1 (crand cy) ->
  quad_prove sch q (rcons X x) Y (and_known 1 cx (k1 crs x)) cy crs s = quad_prove sch' (known_quad q x) X Y cx cy crs s.
Proof. exact: @k_C86_quad_known_prove. Qed.
Print Assumptions C86_quad_known_prove.

Example C86_quad_known_prove_case := @C86_quad_known_prove toy ctr fwd bwd quad0 xs34 x34 ys0 (xcoms quad_p34) (ycoms quad_p34) crs0 (29%N : rst ctr) fwd_valid bwd_valid crs0_two isT isT quad0_wf quad_p34_rx quad_p34_ry.
