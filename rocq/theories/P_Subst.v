(** Property C62: an equation about linear combinations of committed values is an equation about the values. *)
From mathcomp Require Import all_ssreflect all_algebra.
From Verif Require Import Base BaseLemmas Group DataStructures Generator Commit Statement Prove Verify Spec SpecMat SpecVerify SpecSubst SubstProps SubstHold Concrete Concrete2 Concrete35.
Set Implicit Arguments.
Unset Strict Implicit.
Unset Printing Implicit Defensive.
Import GRing.Theory.
Local Open Scope ring_scope.

(** The equation about the values is well formed, and holds exactly if the given equation holds for the combinations. *)
Theorem C62_ppe_subst_holds : forall (E : pairing) (q : PPE E) (m n : nat) (L K : matrix (Fr E)) (X : seq (G1 E)) (Y : seq (G2 E)), bilinear E -> ppe_wf q m n ->
  ppe_wf (subst_ppe (size X) (size Y) L K q) (size X) (size Y) /\
  (ppe_holds q (comb m L X) (comb n K Y) <-> ppe_holds (subst_ppe (size X) (size Y) L K q) X Y).
Proof. exact: @k_C62_ppe_subst. Qed.
Print Assumptions C62_ppe_subst_holds.

Example C62_ppe_subst_holds_case : ppe_holds ppe_q35 xs35 ys35.
Proof. by apply: ((@C62_ppe_subst_holds toy ppe0 2 1 L35 K35 xs35 ys35 toy_bilinear ppe0_wf).2.1); rewrite comb35x comb35y; exact: ppe0_holds. Qed.

(** Verification with the same combinations of the commitments has the same outcome, panics included, as verification of the equation about the values. *)
Theorem C62_ppe_subst_verify : forall (E : pairing) (sch sch' : sched) (q : PPE E) (m n : nat) (L K : matrix (Fr E)) (p : CProof E) (crs : CRS E), bilinear E -> valid_sched sch -> valid_sched sch' ->
  (0 < m)%N -> (0 < n)%N -> (0 < size (coms (xcoms p)))%N -> (0 < size (coms (ycoms p)))%N -> ppe_wf q m n ->
  ppe_verify sch q (comb_proof 2 2 m n L K p) crs = ppe_verify sch' (subst_ppe (size (coms (xcoms p))) (size (coms (ycoms p))) L K q) p crs.
Proof. by move=> E sch sch' q m n L K p crs hb; exact: (k_C62_ppe_subst_verify hb). Qed.
Print Assumptions C62_ppe_subst_verify.

Example C62_ppe_subst_verify_case : ppe_verify (E := toy) bwd ppe0 (comb_proof (E := toy) 2 2 2 1 L35 K35 ppe_p36) crs0 = Ok true.
Proof. by rewrite (@C62_ppe_subst_verify toy bwd fwd ppe0 2 1 L35 K35 ppe_p36 crs0 toy_bilinear bwd_valid fwd_valid isT isT ppe_p36_px ppe_p36_py ppe0_wf) ppe_p36_sx ppe_p36_sy ppe_p36_ok. Qed.

(** [prove] for the combinations, with the combined randomness, returns the same proof and leaves the same state as [prove] for the equation about the values. *)
Theorem C62_ppe_subst_prove : forall (E : pairing) (R : rng E) (sch sch' : sched) (q : PPE E) (m n : nat) (L K : matrix (Fr E)) (X : seq (G1 E)) (Y : seq (G2 E)) (cx : Commit1 E) (cy : Commit2 E) (crs : CRS E) (s : rst R),
  valid_sched sch -> valid_sched sch' -> two_keys crs ->
  (0 < m)%N -> (0 < n)%N -> (0 < size X)%N -> (0 < size Y)%N -> ppe_wf q m n -> dims (size X) 2 (crand cx) -> dims (size Y) 2 (crand cy) ->
  ppe_prove sch q (comb m L X) (comb n K Y) (comb_com 2 m L cx) (comb_com 2 n K cy) crs s = ppe_prove sch' (subst_ppe (size X) (size Y) L K q) X Y cx cy crs s.
Proof. exact: @k_C62_ppe_subst_prove. Qed.
Print Assumptions C62_ppe_subst_prove.

Example C62_ppe_subst_prove_case := @C62_ppe_subst_prove toy ctr fwd bwd ppe0 2 1 L35 K35 xs35 ys35 (xcoms ppe_p36) (ycoms ppe_p36) crs0 (29%N : rst ctr) fwd_valid bwd_valid crs0_two isT isT isT isT ppe0_wf ppe_p36_rx ppe_p36_ry.

(** The equation about the values is well formed, and holds exactly if the given equation holds for the combinations. *)
Theorem C62_ms1_subst_holds : forall (E : pairing) (q : MSMEG1 E) (m n : nat) (L K : matrix (Fr E)) (X : seq (G1 E)) (Y : seq (Fr E)), ms1_wf q m n ->
  ms1_wf (subst_ms1 (size X) (size Y) L K q) (size X) (size Y) /\
  (ms1_holds q (comb m L X) (combs n K Y) <-> ms1_holds (subst_ms1 (size X) (size Y) L K q) X Y).
Proof. exact: @k_C62_ms1_subst. Qed.
Print Assumptions C62_ms1_subst_holds.

Example C62_ms1_subst_holds_case : ms1_holds ms1_q35 xs35 ys35.
Proof. by apply: ((@C62_ms1_subst_holds toy ms10 2 1 L35 K35 xs35 ys35 ms10_wf).2.1); rewrite comb35x combs35y; exact: ms10_holds. Qed.

(** Verification with the same combinations of the commitments has the same outcome, panics included, as verification of the equation about the values. *)
Theorem C62_ms1_subst_verify : forall (E : pairing) (sch sch' : sched) (q : MSMEG1 E) (m n : nat) (L K : matrix (Fr E)) (p : CProof E) (crs : CRS E), bilinear E -> valid_sched sch -> valid_sched sch' ->
  (0 < m)%N -> (0 < n)%N -> (0 < size (coms (xcoms p)))%N -> (0 < size (coms (ycoms p)))%N -> ms1_wf q m n ->
  ms1_verify sch q (comb_proof 2 1 m n L K p) crs = ms1_verify sch' (subst_ms1 (size (coms (xcoms p))) (size (coms (ycoms p))) L K q) p crs.
Proof. by move=> E sch sch' q m n L K p crs hb; exact: (k_C62_ms1_subst_verify hb). Qed.
Print Assumptions C62_ms1_subst_verify.

Example C62_ms1_subst_verify_case : ms1_verify (E := toy) bwd ms10 (comb_proof (E := toy) 2 1 2 1 L35 K35 ms1_p36) crs0 = Ok true.
Proof. by rewrite (@C62_ms1_subst_verify toy bwd fwd ms10 2 1 L35 K35 ms1_p36 crs0 toy_bilinear bwd_valid fwd_valid isT isT ms1_p36_px ms1_p36_py ms10_wf) ms1_p36_sx ms1_p36_sy ms1_p36_ok. Qed.

(** [prove] for the combinations, with the combined randomness, returns the same proof and leaves the same state as [prove] for the equation about the values. *)
Theorem C62_ms1_subst_prove : forall (E : pairing) (R : rng E) (sch sch' : sched) (q : MSMEG1 E) (m n : nat) (L K : matrix (Fr E)) (X : seq (G1 E)) (Y : seq (Fr E)) (cx : Commit1 E) (cy : Commit2 E) (crs : CRS E) (s : rst R),
  valid_sched sch -> valid_sched sch' -> two_keys crs ->
  (0 < m)%N -> (0 < n)%N -> (0 < size X)%N -> (0 < size Y)%N -> ms1_wf q m n -> dims (size X) 2 (crand cx) -> dims (size Y) 1 (crand cy) ->
  ms1_prove sch q (comb m L X) (combs n K Y) (comb_com 2 m L cx) (comb_com 1 n K cy) crs s = ms1_prove sch' (subst_ms1 (size X) (size Y) L K q) X Y cx cy crs s.
Proof. exact: @k_C62_ms1_subst_prove. Qed.
Print Assumptions C62_ms1_subst_prove.

Example C62_ms1_subst_prove_case := @C62_ms1_subst_prove toy ctr fwd bwd ms10 2 1 L35 K35 xs35 ys35 (xcoms ms1_p36) (ycoms ms1_p36) crs0 (29%N : rst ctr) fwd_valid bwd_valid crs0_two isT isT isT isT ms10_wf ms1_p36_rx ms1_p36_ry.

(** The equation about the values is well formed, and holds exactly if the given equation holds for the combinations. *)
Theorem C62_ms2_subst_holds : forall (E : pairing) (q : MSMEG2 E) (m n : nat) (L K : matrix (Fr E)) (X : seq (Fr E)) (Y : seq (G2 E)), ms2_wf q m n ->
  ms2_wf (subst_ms2 (size X) (size Y) L K q) (size X) (size Y) /\
  (ms2_holds q (combs m L X) (comb n K Y) <-> ms2_holds (subst_ms2 (size X) (size Y) L K q) X Y).
Proof. exact: @k_C62_ms2_subst. Qed.
Print Assumptions C62_ms2_subst_holds.

Example C62_ms2_subst_holds_case : ms2_holds ms2_q35 xs35 ys35.
Proof. by apply: ((@C62_ms2_subst_holds toy ms20 2 1 L35 K35 xs35 ys35 ms20_wf).2.1); rewrite combs35x comb35y; exact: ms20_holds. Qed.

(** Verification with the same combinations of the commitments has the same outcome, panics included, as verification of the equation about the values. *)
Theorem C62_ms2_subst_verify : forall (E : pairing) (sch sch' : sched) (q : MSMEG2 E) (m n : nat) (L K : matrix (Fr E)) (p : CProof E) (crs : CRS E), bilinear E -> valid_sched sch -> valid_sched sch' ->
  (0 < m)%N -> (0 < n)%N -> (0 < size (coms (xcoms p)))%N -> (0 < size (coms (ycoms p)))%N -> ms2_wf q m n ->
  ms2_verify sch q (comb_proof 1 2 m n L K p) crs = ms2_verify sch' (subst_ms2 (size (coms (xcoms p))) (size (coms (ycoms p))) L K q) p crs.
Proof. by move=> E sch sch' q m n L K p crs hb; exact: (k_C62_ms2_subst_verify hb). Qed.
Print Assumptions C62_ms2_subst_verify.

Example C62_ms2_subst_verify_case : ms2_verify (E := toy) bwd ms20 (comb_proof (E := toy) 1 2 2 1 L35 K35 ms2_p36) crs0 = Ok true.
Proof. by rewrite (@C62_ms2_subst_verify toy bwd fwd ms20 2 1 L35 K35 ms2_p36 crs0 toy_bilinear bwd_valid fwd_valid isT isT ms2_p36_px ms2_p36_py ms20_wf) ms2_p36_sx ms2_p36_sy ms2_p36_ok. Qed.

(** [prove] for the combinations, with the combined randomness, returns the same proof and leaves the same state as [prove] for the equation about the values. *)
Theorem C62_ms2_subst_prove : forall (E : pairing) (R : rng E) (sch sch' : sched) (q : MSMEG2 E) (m n : nat) (L K : matrix (Fr E)) (X : seq (Fr E)) (Y : seq (G2 E)) (cx : Commit1 E) (cy : Commit2 E) (crs : CRS E) (s : rst R),
  valid_sched sch -> valid_sched sch' -> two_keys crs ->
  (0 < m)%N -> (0 < n)%N -> (0 < size X)%N -> (0 < size Y)%N -> ms2_wf q m n -> dims (size X) 1 (crand cx) -> dims (size Y) 2 (crand cy) ->
  ms2_prove sch q (combs m L X) (comb n K Y) (comb_com 1 m L cx) (comb_com 2 n K cy) crs s = ms2_prove sch' (subst_ms2 (size X) (size Y) L K q) X Y cx cy crs s.
Proof. exact: @k_C62_ms2_subst_prove. Qed.
Print Assumptions C62_ms2_subst_prove.

Example C62_ms2_subst_prove_case := @C62_ms2_subst_prove toy ctr fwd bwd ms20 2 1 L35 K35 xs35 ys35 (xcoms ms2_p36) (ycoms ms2_p36) crs0 (29%N : rst ctr) fwd_valid bwd_valid crs0_two isT isT isT isT ms20_wf ms2_p36_rx ms2_p36_ry.

(** The equation about the values is well formed, and holds exactly if the given equation holds for the combinations. *)
Theorem C62_quad_subst_holds : forall (E : pairing) (q : QuadEqu E) (m n : nat) (L K : matrix (Fr E)) (X : seq (Fr E)) (Y : seq (Fr E)), quad_wf q m n ->
  quad_wf (subst_quad (size X) (size Y) L K q) (size X) (size Y) /\
  (quad_holds q (combs m L X) (combs n K Y) <-> quad_holds (subst_quad (size X) (size Y) L K q) X Y).
Proof. exact: @k_C62_quad_subst. Qed.
Print Assumptions C62_quad_subst_holds.

Example C62_quad_subst_holds_case : quad_holds quad_q35 xs35 ys35.
Proof. by apply: ((@C62_quad_subst_holds toy quad0 2 1 L35 K35 xs35 ys35 quad0_wf).2.1); rewrite combs35x combs35y; exact: quad0_holds. Qed.

(** Verification with the same combinations of the commitments has the same outcome, panics included, as verification of the equation about the values. *)
Theorem C62_quad_subst_verify : forall (E : pairing) (sch sch' : sched) (q : QuadEqu E) (m n : nat) (L K : matrix (Fr E)) (p : CProof E) (crs : CRS E), bilinear E -> valid_sched sch -> valid_sched sch' ->
  (0 < m)%N -> (0 < n)%N -> (0 < size (coms (xcoms p)))%N -> (0 < size (coms (ycoms p)))%N -> quad_wf q m n ->
  quad_verify sch q (comb_proof 1 1 m n L K p) crs = quad_verify sch' (subst_quad (size (coms (xcoms p))) (size (coms (ycoms p))) L K q) p crs.
Proof. by move=> E sch sch' q m n L K p crs hb; exact: (k_C62_quad_subst_verify hb). Qed.
Print Assumptions C62_quad_subst_verify.

Example C62_quad_subst_verify_case : quad_verify (E := toy) bwd quad0 (comb_proof (E := toy) 1 1 2 1 L35 K35 quad_p36) crs0 = Ok true.
Proof. by rewrite (@C62_quad_subst_verify toy bwd fwd quad0 2 1 L35 K35 quad_p36 crs0 toy_bilinear bwd_valid fwd_valid isT isT quad_p36_px quad_p36_py quad0_wf) quad_p36_sx quad_p36_sy quad_p36_ok. Qed.

(** [prove] for the combinations, with the combined randomness, returns the same proof and leaves the same state as [prove] for the equation about the values. *)
Theorem C62_quad_subst_prove : forall (E : pairing) (R : rng E) (sch sch' : sched) (q : QuadEqu E) (m n : nat) (L K : matrix (Fr E)) (X : seq (Fr E)) (Y : seq (Fr E)) (cx : Commit1 E) (cy : Commit2 E) (crs : CRS E) (s : rst R),
  valid_sched sch -> valid_sched sch' -> two_keys crs ->
  (0 < m)%N -> (0 < n)%N -> (0 < size X)%N -> (0 < size Y)%N -> quad_wf q m n -> dims (size X) 1 (crand cx) -> dims (size Y) 1 (crand cy) ->
  quad_prove sch q (combs m L X) (combs n K Y) (comb_com 1 m L cx) (comb_com 1 n K cy) crs s = quad_prove sch' (subst_quad (size X) (size Y) L K q) X Y cx cy crs s.
Proof. exact: @k_C62_quad_subst_prove. Qed.
Print Assumptions C62_quad_subst_prove.

Example C62_quad_subst_prove_case := @C62_quad_subst_prove toy ctr fwd bwd quad0 2 1 L35 K35 xs35 ys35 (xcoms quad_p36) (ycoms quad_p36) crs0 (29%N : rst ctr) fwd_valid bwd_valid crs0_two isT isT isT isT quad0_wf quad_p36_rx quad_p36_ry.
