(** Property C86: a right variable whose value is known can be made part of the constants. *)
From mathcomp Require Import all_ssreflect all_algebra.
From Verif Require Import Base BaseLemmas Group DataStructures Generator Commit Statement Prove Verify Spec SpecMat SpecVerify SpecFormula SpecKnown KnownYProps Concrete Concrete2 Concrete34.
Set Implicit Arguments.
Unset Strict Implicit.
Unset Printing Implicit Defensive.
Import GRing.Theory.
Local Open Scope ring_scope.

(** The equation without the known variable is well formed, and holds exactly if the equation does. *)
Theorem C86_ppe_known_y_holds : forall (E : pairing) (q : PPE E) (X : seq (G1 E)) (Y : seq (G2 E)) (y : G2 E), bilinear E -> ppe_wf q (size X) (size Y).+1 ->
  ppe_wf (known_y_ppe q y) (size X) (size Y) /\ (ppe_holds q X (rcons Y y) <-> ppe_holds (known_y_ppe q y) X Y).
Proof. exact: @k_C86_ppe_known_y. Qed.
Print Assumptions C86_ppe_known_y_holds.

Example C86_ppe_known_y_holds_case : ppe_holds (known_y_ppe (E := toy) ppe35 x34) ys0 xs34.
Proof. exact: ((@C86_ppe_known_y_holds toy ppe35 ys0 xs34 x34 toy_bilinear ppe35_wf).2.1 ppe35_holds). Qed.

(** A proof with the value itself as the last right commitment has the same outcome, panics included, as the proof without it of the equation without the variable. *)
Theorem C86_ppe_known_y_verify : forall (E : pairing) (sch sch' : sched) (q : PPE E) (y : G2 E) (p : CProof E) (crs : CRS E), bilinear E -> valid_sched sch -> valid_sched sch' ->
  (0 < size (coms (xcoms p)))%N -> (0 < size (coms (ycoms p)))%N -> ppe_wf q (size (coms (xcoms p))) (size (coms (ycoms p))).+1 ->
  ppe_verify sch q (with_known_y 2 p (i2 y)) crs = ppe_verify sch' (known_y_ppe q y) p crs.
Proof. by move=> E sch sch' q y p crs hb; exact: (k_C86_ppe_known_y_verify hb). Qed.
Print Assumptions C86_ppe_known_y_verify.

Example C86_ppe_known_y_verify_case : ppe_verify (E := toy) bwd ppe35 (with_known_y 2 ppe_p35 (i2 (E := toy) x34)) crs0 = Ok true.
Proof. by rewrite (@C86_ppe_known_y_verify toy bwd fwd ppe35 x34 ppe_p35 crs0 toy_bilinear bwd_valid fwd_valid ppe_p35_px ppe_p35_py ppe_p35_wf) ppe_p35_ok. Qed.

(** [prove] with zero randomness for the known value returns the same proof and leaves the same state as [prove] for the equation without the variable. *)
Theorem C86_ppe_known_y_prove : forall (E : pairing) (R : rng E) (sch sch' : sched) (q : PPE E) (X : seq (G1 E)) (Y : seq (G2 E)) (y : G2 E) (cx : Commit1 E) (cy : Commit2 E) (crs : CRS E) (s : rst R),
  valid_sched sch -> valid_sched sch' -> two_keys crs ->
  (0 < size X)%N -> (0 < size Y)%N -> ppe_wf q (size X) (size Y).+1 -> dims (size X) 2 (crand cx) -> dims (size Y) 2 (crand cy) ->
  ppe_prove sch q X (rcons Y y) cx (and_known_y 2 cy (i2 y)) crs s = ppe_prove sch' (known_y_ppe q y) X Y cx cy crs s.
Proof. exact: @k_C86_ppe_known_y_prove. Qed.
Print Assumptions C86_ppe_known_y_prove.

Example C86_ppe_known_y_prove_case := @C86_ppe_known_y_prove toy ctr fwd bwd ppe35 ys0 xs34 x34 (xcoms ppe_p35) (ycoms ppe_p35) crs0 (29%N : rst ctr) fwd_valid bwd_valid crs0_two isT isT ppe35_wf ppe_p35_rx ppe_p35_ry.

(** The equation without the known variable is well formed, and holds exactly if the equation does. *)
Theorem C86_ms1_known_y_holds : forall (E : pairing) (q : MSMEG1 E) (X : seq (G1 E)) (Y : seq (Fr E)) (y : Fr E), ms1_wf q (size X) (size Y).+1 ->
  ms1_wf (known_y_ms1 q y) (size X) (size Y) /\ (ms1_holds q X (rcons Y y) <-> ms1_holds (known_y_ms1 q y) X Y).
Proof. exact: @k_C86_ms1_known_y. Qed.
Print Assumptions C86_ms1_known_y_holds.

Example C86_ms1_known_y_holds_case : ms1_holds (known_y_ms1 (E := toy) ms135 x34) ys0 xs34.
Proof. exact: ((@C86_ms1_known_y_holds toy ms135 ys0 xs34 x34 ms135_wf).2.1 ms135_holds). Qed.

(** A proof with the value itself as the last right commitment has the same outcome, panics included, as the proof without it of the equation without the variable. *)
Theorem C86_ms1_known_y_verify : forall (E : pairing) (sch sch' : sched) (q : MSMEG1 E) (y : Fr E) (p : CProof E) (crs : CRS E), bilinear E -> valid_sched sch -> valid_sched sch' ->
  (0 < size (coms (xcoms p)))%N -> (0 < size (coms (ycoms p)))%N -> ms1_wf q (size (coms (xcoms p))) (size (coms (ycoms p))).+1 ->
  ms1_verify sch q (with_known_y 1 p (k2 crs y)) crs = ms1_verify sch' (known_y_ms1 q y) p crs.
Proof. by move=> E sch sch' q y p crs hb; exact: (k_C86_ms1_known_y_verify hb). Qed.
Print Assumptions C86_ms1_known_y_verify.

Example C86_ms1_known_y_verify_case : ms1_verify (E := toy) bwd ms135 (with_known_y 1 ms1_p35 (k2 (E := toy) crs0 x34)) crs0 = Ok true.
Proof. by rewrite (@C86_ms1_known_y_verify toy bwd fwd ms135 x34 ms1_p35 crs0 toy_bilinear bwd_valid fwd_valid ms1_p35_px ms1_p35_py ms1_p35_wf) ms1_p35_ok. Qed.

(** [prove] with zero randomness for the known value returns the same proof and leaves the same state as [prove] for the equation without the variable. *)
Theorem C86_ms1_known_y_prove : forall (E : pairing) (R : rng E) (sch sch' : sched) (q : MSMEG1 E) (X : seq (G1 E)) (Y : seq (Fr E)) (y : Fr E) (cx : Commit1 E) (cy : Commit2 E) (crs : CRS E) (s : rst R),
  valid_sched sch -> valid_sched sch' -> two_keys crs ->
  (0 < size X)%N -> (0 < size Y)%N -> ms1_wf q (size X) (size Y).+1 -> dims (size X) 2 (crand cx) -> dims (size Y) 1 (crand cy) ->
  ms1_prove sch q X (rcons Y y) cx (and_known_y 1 cy (k2 crs y)) crs s = ms1_prove sch' (known_y_ms1 q y) X Y cx cy crs s.
Proof. exact: @k_C86_ms1_known_y_prove. Qed.
Print Assumptions C86_ms1_known_y_prove.

Example C86_ms1_known_y_prove_case := @C86_ms1_known_y_prove toy ctr fwd bwd ms135 ys0 xs34 x34 (xcoms ms1_p35) (ycoms ms1_p35) crs0 (29%N : rst ctr) fwd_valid bwd_valid crs0_two isT isT ms135_wf ms1_p35_rx ms1_p35_ry.

(** The equation without the known variable is well formed, and holds exactly if the equation does. *)
Theorem C86_ms2_known_y_holds : forall (E : pairing) (q : MSMEG2 E) (X : seq (Fr E)) (Y : seq (G2 E)) (y : G2 E), ms2_wf q (size X) (size Y).+1 ->
  ms2_wf (known_y_ms2 q y) (size X) (size Y) /\ (ms2_holds q X (rcons Y y) <-> ms2_holds (known_y_ms2 q y) X Y).
Proof. exact: @k_C86_ms2_known_y. Qed.
Print Assumptions C86_ms2_known_y_holds.

Example C86_ms2_known_y_holds_case : ms2_holds (known_y_ms2 (E := toy) ms235 x34) ys0 xs34.
Proof. exact: ((@C86_ms2_known_y_holds toy ms235 ys0 xs34 x34 ms235_wf).2.1 ms235_holds). Qed.

(** A proof with the value itself as the last right commitment has the same outcome, panics included, as the proof without it of the equation without the variable. *)
Theorem C86_ms2_known_y_verify : forall (E : pairing) (sch sch' : sched) (q : MSMEG2 E) (y : G2 E) (p : CProof E) (crs : CRS E), bilinear E -> valid_sched sch -> valid_sched sch' ->
  (0 < size (coms (xcoms p)))%N -> (0 < size (coms (ycoms p)))%N -> ms2_wf q (size (coms (xcoms p))) (size (coms (ycoms p))).+1 ->
  ms2_verify sch q (with_known_y 2 p (i2 y)) crs = ms2_verify sch' (known_y_ms2 q y) p crs.
Proof. by move=> E sch sch' q y p crs hb; exact: (k_C86_ms2_known_y_verify hb). Qed.
Print Assumptions C86_ms2_known_y_verify.

Example C86_ms2_known_y_verify_case : ms2_verify (E := toy) bwd ms235 (with_known_y 2 ms2_p35 (i2 (E := toy) x34)) crs0 = Ok true.
Proof. by rewrite (@C86_ms2_known_y_verify toy bwd fwd ms235 x34 ms2_p35 crs0 toy_bilinear bwd_valid fwd_valid ms2_p35_px ms2_p35_py ms2_p35_wf) ms2_p35_ok. Qed.

(** [prove] with zero randomness for the known value returns the same proof and leaves the same state as [prove] for the equation without the variable. *)
Theorem C86_ms2_known_y_prove : forall (E : pairing) (R : rng E) (sch sch' : sched) (q : MSMEG2 E) (X : seq (Fr E)) (Y : seq (G2 E)) (y : G2 E) (cx : Commit1 E) (cy : Commit2 E) (crs : CRS E) (s : rst R),
  valid_sched sch -> valid_sched sch' -> two_keys crs ->
  (0 < size X)%N -> (0 < size Y)%N -> ms2_wf q (size X) (size Y).+1 -> dims (size X) 1 (crand cx) -> dims (size Y) 2 (crand cy) ->
  ms2_prove sch q X (rcons Y y) cx (and_known_y 2 cy (i2 y)) crs s = ms2_prove sch' (known_y_ms2 q y) X Y cx cy crs s.
Proof. exact: @k_C86_ms2_known_y_prove. Qed.
Print Assumptions C86_ms2_known_y_prove.

Example C86_ms2_known_y_prove_case := @C86_ms2_known_y_prove toy ctr fwd bwd ms235 ys0 xs34 x34 (xcoms ms2_p35) (ycoms ms2_p35) crs0 (29%N : rst ctr) fwd_valid bwd_valid crs0_two isT isT ms235_wf ms2_p35_rx ms2_p35_ry.

(** The equation without the known variable is well formed, and holds exactly if the equation does. *)
Theorem C86_quad_known_y_holds : forall (E : pairing) (q : QuadEqu E) (X : seq (Fr E)) (Y : seq (Fr E)) (y : Fr E), quad_wf q (size X) (size Y).+1 ->
  quad_wf (known_y_quad q y) (size X) (size Y) /\ (quad_holds q X (rcons Y y) <-> quad_holds (known_y_quad q y) X Y).
Proof. exact: @k_C86_quad_known_y. Qed.
Print Assumptions C86_quad_known_y_holds.

Example C86_quad_known_y_holds_case : quad_holds (known_y_quad (E := toy) quad35 x34) ys0 xs34.
Proof. exact: ((@C86_quad_known_y_holds toy quad35 ys0 xs34 x34 quad35_wf).2.1 quad35_holds). Qed.

(** A proof with the value itself as the last right commitment has the same outcome, panics included, as the proof without it of the equation without the variable. *)
Theorem C86_quad_known_y_verify : forall (E : pairing) (sch sch' : sched) (q : QuadEqu E) (y : Fr E) (p : CProof E) (crs : CRS E), bilinear E -> valid_sched sch -> valid_sched sch' ->
  (0 < size (coms (xcoms p)))%N -> (0 < size (coms (ycoms p)))%N -> quad_wf q (size (coms (xcoms p))) (size (coms (ycoms p))).+1 ->
  quad_verify sch q (with_known_y 1 p (k2 crs y)) crs = quad_verify sch' (known_y_quad q y) p crs.
Proof. by move=> E sch sch' q y p crs hb; exact: (k_C86_quad_known_y_verify hb). Qed.
Print Assumptions C86_quad_known_y_verify.

Example C86_quad_known_y_verify_case : quad_verify (E := toy) bwd quad35 (with_known_y 1 quad_p35 (k2 (E := toy) crs0 x34)) crs0 = Ok true.
Proof. by rewrite (@C86_quad_known_y_verify toy bwd fwd quad35 x34 quad_p35 crs0 toy_bilinear bwd_valid fwd_valid quad_p35_px quad_p35_py quad_p35_wf) quad_p35_ok. Qed.

(** [prove] with zero randomness for the known value returns the same proof and leaves the same state as [prove] for the equation without the variable. *)
Theorem C86_quad_known_y_prove : forall (E : pairing) (R : rng E) (sch sch' : sched) (q : QuadEqu E) (X : seq (Fr E)) (Y : seq (Fr E)) (y : Fr E) (cx : Commit1 E) (cy : Commit2 E) (crs : CRS E) (s : rst R),
  valid_sched sch -> valid_sched sch' -> two_keys crs ->
  (0 < size X)%N -> (0 < size Y)%N -> quad_wf q (size X) (size Y).+1 -> dims (size X) 1 (crand cx) -> dims (size Y) 1 (crand cy) ->
  quad_prove sch q X (rcons Y y) cx (and_known_y 1 cy (k2 crs y)) crs s = quad_prove sch' (known_y_quad q y) X Y cx cy crs s.
Proof. exact: @k_C86_quad_known_y_prove. Qed.
Print Assumptions C86_quad_known_y_prove.

Example C86_quad_known_y_prove_case := @C86_quad_known_y_prove toy ctr fwd bwd quad35 ys0 xs34 x34 (xcoms quad_p35) (ycoms quad_p35) crs0 (29%N : rst ctr) fwd_valid bwd_valid crs0_two isT isT quad35_wf quad_p35_rx quad_p35_ry.
