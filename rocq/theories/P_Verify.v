(** C33-C35, C37, C38, C46, C47: what the verifier accepts and reads, shapes of proofs. *)
From mathcomp Require Import all_ssreflect all_algebra.
From Verif Require Import Base Group DataStructures Generator Commit Statement Prove Verify Spec SpecMat SpecVerify.
From Verif Require Import Concrete Concrete2 VProps.
From Verif Require Import Concrete25.
From Verif Require Import Concrete26.
Set Implicit Arguments.
Unset Strict Implicit.
Unset Printing Implicit Defensive.
Import GRing.Theory.
Local Open Scope ring_scope.

(** C33: verification depends only on the public parts of the proof, and on few parts of the reference string. *)
Theorem C33_ppe_randomness : forall (E : pairing) (sch : sched) (q : PPE E) (p p' : CProof E) (crs : CRS E),
  public p = public p' -> ppe_verify sch q p crs = ppe_verify sch q p' crs.
Proof. exact: @k_C33_ppe_randomness. Qed.
Print Assumptions C33_ppe_randomness.

Example C33_ppe_randomness_case := @C33_ppe_randomness toy fwd ppe0 ppe_p0 (mkCProof (mkCommit (coms (xcoms ppe_p0)) [::]) (ycoms ppe_p0) (equ_proofs ppe_p0)) crs0 erefl.

Theorem C33_ppe_crs : forall (E : pairing) (sch : sched) (q : PPE E) (p : CProof E) (crs crs' : CRS E),
  crs_u crs = crs_u crs' -> crs_v crs = crs_v crs' -> ppe_verify sch q p crs = ppe_verify sch q p crs'.
Proof. exact: @k_C33_ppe_crs. Qed.
Print Assumptions C33_ppe_crs.

Example C33_ppe_case : public ppe_p0 = public (mkCProof (mkCommit (coms (xcoms ppe_p0)) [::]) (mkCommit (coms (ycoms ppe_p0)) [::]) [:: mkEquProof (pi (pf_of ppe_p0)) (theta (pf_of ppe_p0)) (equ_type (pf_of ppe_p0)) [::]]) /\ crand (xcoms ppe_p0) <> [::] /\
  ppe_verify fwd ppe0 (mkCProof (mkCommit (coms (xcoms ppe_p0)) [::]) (mkCommit (coms (ycoms ppe_p0)) [::]) [:: mkEquProof (pi (pf_of ppe_p0)) (theta (pf_of ppe_p0)) (equ_type (pf_of ppe_p0)) [::]]) (mkCRS (crs_u crs0) (crs_v crs0) (g1_gen crs0) (g2_gen crs0) 0) = Ok true.
Proof.
split; first by []. split; first by [].
by rewrite -(@C33_ppe_randomness toy fwd ppe0 ppe_p0) // -(@C33_ppe_crs toy fwd ppe0 ppe_p0 crs0) //; exact: ppe_p0_ok.
Qed.

Theorem C33_ms1_randomness : forall (E : pairing) (sch : sched) (q : MSMEG1 E) (p p' : CProof E) (crs : CRS E),
  public p = public p' -> ms1_verify sch q p crs = ms1_verify sch q p' crs.
Proof. exact: @k_C33_ms1_randomness. Qed.
Print Assumptions C33_ms1_randomness.

Example C33_ms1_randomness_case := @C33_ms1_randomness toy fwd ms10 ms1_p0 (mkCProof (mkCommit (coms (xcoms ms1_p0)) [::]) (ycoms ms1_p0) (equ_proofs ms1_p0)) crs0 erefl.

Theorem C33_ms1_crs : forall (E : pairing) (sch : sched) (q : MSMEG1 E) (p : CProof E) (crs crs' : CRS E),
  crs_u crs = crs_u crs' -> crs_v crs = crs_v crs' -> g1_gen crs = g1_gen crs' -> g2_gen crs = g2_gen crs' ->
  ms1_verify sch q p crs = ms1_verify sch q p crs'.
Proof. exact: @k_C33_ms1_crs. Qed.
Print Assumptions C33_ms1_crs.

Example C33_ms1_case : public ms1_p0 = public (mkCProof (mkCommit (coms (xcoms ms1_p0)) [::]) (mkCommit (coms (ycoms ms1_p0)) [::]) [:: mkEquProof (pi (pf_of ms1_p0)) (theta (pf_of ms1_p0)) (equ_type (pf_of ms1_p0)) [::]]) /\ crand (xcoms ms1_p0) <> [::] /\
  ms1_verify fwd ms10 (mkCProof (mkCommit (coms (xcoms ms1_p0)) [::]) (mkCommit (coms (ycoms ms1_p0)) [::]) [:: mkEquProof (pi (pf_of ms1_p0)) (theta (pf_of ms1_p0)) (equ_type (pf_of ms1_p0)) [::]]) (mkCRS (crs_u crs0) (crs_v crs0) (g1_gen crs0) (g2_gen crs0) 0) = Ok true.
Proof.
split; first by []. split; first by [].
by rewrite -(@C33_ms1_randomness toy fwd ms10 ms1_p0) // -(@C33_ms1_crs toy fwd ms10 ms1_p0 crs0) //; exact: ms1_p0_ok.
Qed.

Theorem C33_ms2_randomness : forall (E : pairing) (sch : sched) (q : MSMEG2 E) (p p' : CProof E) (crs : CRS E),
  public p = public p' -> ms2_verify sch q p crs = ms2_verify sch q p' crs.
Proof. exact: @k_C33_ms2_randomness. Qed.
Print Assumptions C33_ms2_randomness.

Example C33_ms2_randomness_case := @C33_ms2_randomness toy fwd ms20 ms2_p0 (mkCProof (mkCommit (coms (xcoms ms2_p0)) [::]) (ycoms ms2_p0) (equ_proofs ms2_p0)) crs0 erefl.

Theorem C33_ms2_crs : forall (E : pairing) (sch : sched) (q : MSMEG2 E) (p : CProof E) (crs crs' : CRS E),
  crs_u crs = crs_u crs' -> crs_v crs = crs_v crs' -> g1_gen crs = g1_gen crs' -> g2_gen crs = g2_gen crs' ->
  ms2_verify sch q p crs = ms2_verify sch q p crs'.
Proof. exact: @k_C33_ms2_crs. Qed.
Print Assumptions C33_ms2_crs.

Example C33_ms2_case : public ms2_p0 = public (mkCProof (mkCommit (coms (xcoms ms2_p0)) [::]) (mkCommit (coms (ycoms ms2_p0)) [::]) [:: mkEquProof (pi (pf_of ms2_p0)) (theta (pf_of ms2_p0)) (equ_type (pf_of ms2_p0)) [::]]) /\ crand (xcoms ms2_p0) <> [::] /\
  ms2_verify fwd ms20 (mkCProof (mkCommit (coms (xcoms ms2_p0)) [::]) (mkCommit (coms (ycoms ms2_p0)) [::]) [:: mkEquProof (pi (pf_of ms2_p0)) (theta (pf_of ms2_p0)) (equ_type (pf_of ms2_p0)) [::]]) (mkCRS (crs_u crs0) (crs_v crs0) (g1_gen crs0) (g2_gen crs0) 0) = Ok true.
Proof.
split; first by []. split; first by [].
by rewrite -(@C33_ms2_randomness toy fwd ms20 ms2_p0) // -(@C33_ms2_crs toy fwd ms20 ms2_p0 crs0) //; exact: ms2_p0_ok.
Qed.

Theorem C33_quad_randomness : forall (E : pairing) (sch : sched) (q : QuadEqu E) (p p' : CProof E) (crs : CRS E),
  public p = public p' -> quad_verify sch q p crs = quad_verify sch q p' crs.
Proof. exact: @k_C33_quad_randomness. Qed.
Print Assumptions C33_quad_randomness.

Example C33_quad_randomness_case := @C33_quad_randomness toy fwd quad0 quad_p0 (mkCProof (mkCommit (coms (xcoms quad_p0)) [::]) (ycoms quad_p0) (equ_proofs quad_p0)) crs0 erefl.

Theorem C33_quad_crs : forall (E : pairing) (sch : sched) (q : QuadEqu E) (p : CProof E) (crs crs' : CRS E),
  crs_u crs = crs_u crs' -> crs_v crs = crs_v crs' -> g1_gen crs = g1_gen crs' -> g2_gen crs = g2_gen crs' ->
  quad_verify sch q p crs = quad_verify sch q p crs'.
Proof. exact: @k_C33_quad_crs. Qed.
Print Assumptions C33_quad_crs.

Example C33_quad_case : public quad_p0 = public (mkCProof (mkCommit (coms (xcoms quad_p0)) [::]) (mkCommit (coms (ycoms quad_p0)) [::]) [:: mkEquProof (pi (pf_of quad_p0)) (theta (pf_of quad_p0)) (equ_type (pf_of quad_p0)) [::]]) /\ crand (xcoms quad_p0) <> [::] /\
  quad_verify fwd quad0 (mkCProof (mkCommit (coms (xcoms quad_p0)) [::]) (mkCommit (coms (ycoms quad_p0)) [::]) [:: mkEquProof (pi (pf_of quad_p0)) (theta (pf_of quad_p0)) (equ_type (pf_of quad_p0)) [::]]) (mkCRS (crs_u crs0) (crs_v crs0) (g1_gen crs0) (g2_gen crs0) 0) = Ok true.
Proof.
split; first by []. split; first by [].
by rewrite -(@C33_quad_randomness toy fwd quad0 quad_p0) // -(@C33_quad_crs toy fwd quad0 quad_p0 crs0) //; exact: quad_p0_ok.
Qed.

(** C34: [verify] panics unless there is exactly one proof, of the right type, and the lengths match; otherwise it decides the Groth-Sahai equation. *)
Theorem C34_ppe_panics : forall (E : pairing) (sch : sched) (q : PPE E) (p : CProof E) (crs : CRS E), valid_sched sch ->
  returns (ppe_verify sch q p crs) <->
  exists pf, [/\ equ_proofs p = [:: pf], equ_type pf = PairingProduct,
    size (ppe_a q) = size (coms (ycoms p)) /\ size (ppe_b q) = size (coms (xcoms p)),
    gamma_fits (size (coms (xcoms p))) (size (coms (ycoms p))) (ppe_gamma q)
    & size (pi pf) = size (crs_u crs) /\ size (theta pf) = size (crs_v crs)].
Proof. exact: @k_C34_ppe_panics. Qed.
Print Assumptions C34_ppe_panics.

Example C34_ppe_panics_case := @C34_ppe_panics toy fwd ppe0 ppe_p0 crs0 fwd_valid.

Theorem C34_ppe_value : forall (E : pairing) (sch : sched) (q : PPE E) (p : CProof E) (crs : CRS E) b pf, bilinear E -> valid_sched sch ->
  equ_proofs p = [:: pf] -> ppe_verify sch q p crs = Ok b ->
  (b <-> gs_check [seq (0, x) | x <- ppe_a q] [seq (0, y) | y <- ppe_b q] (ppe_gamma q) (coms (xcoms p)) (coms (ycoms p))
           (((0, 0), (0, ppe_target q))) crs pf (size (crs_u crs)) (size (crs_v crs))).
Proof. exact: @k_C34_ppe_value. Qed.
Print Assumptions C34_ppe_value.

Example C34_ppe_case : returns (ppe_verify fwd ppe0 ppe_p2 crs0) /\
  ~ returns (ppe_verify fwd ppe0 (mkCProof (mkCommit [::] [::]) (ycoms ppe_p2) (equ_proofs ppe_p2)) crs0) /\
  gs_check [seq (0, x) | x <- ppe_a ppe0] [seq (0, y) | y <- ppe_b ppe0] (ppe_gamma ppe0) (coms (xcoms ppe_p0)) (coms (ycoms ppe_p0))
    (((0, 0), (0, ppe_target ppe0))) crs0 (pf_of ppe_p0) (size (crs_u crs0)) (size (crs_v crs0)) /\
  ~ gs_check [seq (0, x) | x <- ppe_a ppe0] [seq (0, y) | y <- ppe_b ppe0] (ppe_gamma ppe0) (coms (xcoms ppe_p2)) (coms (ycoms ppe_p2))
    (((0, 0), (0, ppe_target ppe0))) crs0 (pf_of ppe_p2) (size (crs_u crs0)) (size (crs_v crs0)).
Proof.
split; first by exists false; exact: ppe_p2_ok.
split; first by case/(@C34_ppe_panics toy fwd ppe0 _ crs0 fwd_valid) => pf [_ _ [_ /=]].
split; first exact: (proj1 (@C34_ppe_value toy fwd ppe0 ppe_p0 crs0 true _ toy_bilinear fwd_valid erefl ppe_p0_ok) isT).
by move/(proj2 (@C34_ppe_value toy fwd ppe0 ppe_p2 crs0 false _ toy_bilinear fwd_valid erefl ppe_p2_ok)).
Qed.

Theorem C34_ms1_panics : forall (E : pairing) (sch : sched) (q : MSMEG1 E) (p : CProof E) (crs : CRS E), valid_sched sch ->
  returns (ms1_verify sch q p crs) <->
  exists pf, [/\ equ_proofs p = [:: pf], equ_type pf = MultiScalarG1,
    size (ms1_a q) = size (coms (ycoms p)) /\ size (ms1_b q) = size (coms (xcoms p)),
    gamma_fits (size (coms (xcoms p))) (size (coms (ycoms p))) (ms1_gamma q)
    & size (pi pf) = size (crs_u crs) /\ (0 < size (theta pf))%N /\ (1 < size (crs_v crs))%N].
Proof. exact: @k_C34_ms1_panics. Qed.
Print Assumptions C34_ms1_panics.

Example C34_ms1_panics_case := @C34_ms1_panics toy fwd ms10 ms1_p0 crs0 fwd_valid.

Theorem C34_ms1_value : forall (E : pairing) (sch : sched) (q : MSMEG1 E) (p : CProof E) (crs : CRS E) b pf, bilinear E -> valid_sched sch ->
  equ_proofs p = [:: pf] -> ms1_verify sch q p crs = Ok b ->
  (b <-> gs_check [seq (0, x) | x <- ms1_a q] [seq y *: one2 crs | y <- ms1_b q] (ms1_gamma q) (coms (xcoms p)) (coms (ycoms p))
           (pairT (0, ms1_target q) (one2 crs)) crs pf (size (crs_u crs)) (1%N)).
Proof. exact: @k_C34_ms1_value. Qed.
Print Assumptions C34_ms1_value.

Example C34_ms1_case : returns (ms1_verify fwd ms10 ms1_p2 crs0) /\
  ~ returns (ms1_verify fwd ms10 (mkCProof (mkCommit [::] [::]) (ycoms ms1_p2) (equ_proofs ms1_p2)) crs0) /\
  gs_check [seq (0, x) | x <- ms1_a ms10] [seq y *: one2 crs0 | y <- ms1_b ms10] (ms1_gamma ms10) (coms (xcoms ms1_p0)) (coms (ycoms ms1_p0))
    (pairT (0, ms1_target ms10) (one2 crs0)) crs0 (pf_of ms1_p0) (size (crs_u crs0)) (1%N) /\
  ~ gs_check [seq (0, x) | x <- ms1_a ms10] [seq y *: one2 crs0 | y <- ms1_b ms10] (ms1_gamma ms10) (coms (xcoms ms1_p2)) (coms (ycoms ms1_p2))
    (pairT (0, ms1_target ms10) (one2 crs0)) crs0 (pf_of ms1_p2) (size (crs_u crs0)) (1%N).
Proof.
split; first by exists false; exact: ms1_p2_ok.
split; first by case/(@C34_ms1_panics toy fwd ms10 _ crs0 fwd_valid) => pf [_ _ [_ /=]].
split; first exact: (proj1 (@C34_ms1_value toy fwd ms10 ms1_p0 crs0 true _ toy_bilinear fwd_valid erefl ms1_p0_ok) isT).
by move/(proj2 (@C34_ms1_value toy fwd ms10 ms1_p2 crs0 false _ toy_bilinear fwd_valid erefl ms1_p2_ok)).
Qed.

Theorem C34_ms2_panics : forall (E : pairing) (sch : sched) (q : MSMEG2 E) (p : CProof E) (crs : CRS E), valid_sched sch ->
  returns (ms2_verify sch q p crs) <->
  exists pf, [/\ equ_proofs p = [:: pf], equ_type pf = MultiScalarG2,
    size (ms2_a q) = size (coms (ycoms p)) /\ size (ms2_b q) = size (coms (xcoms p)),
    gamma_fits (size (coms (xcoms p))) (size (coms (ycoms p))) (ms2_gamma q)
    & size (theta pf) = size (crs_v crs) /\ (0 < size (pi pf))%N /\ (1 < size (crs_u crs))%N].
Proof. exact: @k_C34_ms2_panics. Qed.
Print Assumptions C34_ms2_panics.

Example C34_ms2_panics_case := @C34_ms2_panics toy fwd ms20 ms2_p0 crs0 fwd_valid.

Theorem C34_ms2_value : forall (E : pairing) (sch : sched) (q : MSMEG2 E) (p : CProof E) (crs : CRS E) b pf, bilinear E -> valid_sched sch ->
  equ_proofs p = [:: pf] -> ms2_verify sch q p crs = Ok b ->
  (b <-> gs_check [seq x *: one1 crs | x <- ms2_a q] [seq (0, y) | y <- ms2_b q] (ms2_gamma q) (coms (xcoms p)) (coms (ycoms p))
           (pairT (one1 crs) (0, ms2_target q)) crs pf (1%N) (size (crs_v crs))).
Proof. exact: @k_C34_ms2_value. Qed.
Print Assumptions C34_ms2_value.

Example C34_ms2_case : returns (ms2_verify fwd ms20 ms2_p2 crs0) /\
  ~ returns (ms2_verify fwd ms20 (mkCProof (mkCommit [::] [::]) (ycoms ms2_p2) (equ_proofs ms2_p2)) crs0) /\
  gs_check [seq x *: one1 crs0 | x <- ms2_a ms20] [seq (0, y) | y <- ms2_b ms20] (ms2_gamma ms20) (coms (xcoms ms2_p0)) (coms (ycoms ms2_p0))
    (pairT (one1 crs0) (0, ms2_target ms20)) crs0 (pf_of ms2_p0) (1%N) (size (crs_v crs0)) /\
  ~ gs_check [seq x *: one1 crs0 | x <- ms2_a ms20] [seq (0, y) | y <- ms2_b ms20] (ms2_gamma ms20) (coms (xcoms ms2_p2)) (coms (ycoms ms2_p2))
    (pairT (one1 crs0) (0, ms2_target ms20)) crs0 (pf_of ms2_p2) (1%N) (size (crs_v crs0)).
Proof.
split; first by exists false; exact: ms2_p2_ok.
split; first by case/(@C34_ms2_panics toy fwd ms20 _ crs0 fwd_valid) => pf [_ _ [_ /=]].
split; first exact: (proj1 (@C34_ms2_value toy fwd ms20 ms2_p0 crs0 true _ toy_bilinear fwd_valid erefl ms2_p0_ok) isT).
by move/(proj2 (@C34_ms2_value toy fwd ms20 ms2_p2 crs0 false _ toy_bilinear fwd_valid erefl ms2_p2_ok)).
Qed.

Theorem C34_quad_panics : forall (E : pairing) (sch : sched) (q : QuadEqu E) (p : CProof E) (crs : CRS E), valid_sched sch ->
  returns (quad_verify sch q p crs) <->
  exists pf, [/\ equ_proofs p = [:: pf], equ_type pf = Quadratic,
    size (quad_a q) = size (coms (ycoms p)) /\ size (quad_b q) = size (coms (xcoms p)),
    gamma_fits (size (coms (xcoms p))) (size (coms (ycoms p))) (quad_gamma q)
    & (0 < size (pi pf))%N /\ (0 < size (theta pf))%N /\ (1 < size (crs_u crs))%N /\ (1 < size (crs_v crs))%N].
Proof. exact: @k_C34_quad_panics. Qed.
Print Assumptions C34_quad_panics.

Example C34_quad_panics_case := @C34_quad_panics toy fwd quad0 quad_p0 crs0 fwd_valid.

Theorem C34_quad_value : forall (E : pairing) (sch : sched) (q : QuadEqu E) (p : CProof E) (crs : CRS E) b pf, bilinear E -> valid_sched sch ->
  equ_proofs p = [:: pf] -> quad_verify sch q p crs = Ok b ->
  (b <-> gs_check [seq x *: one1 crs | x <- quad_a q] [seq y *: one2 crs | y <- quad_b q] (quad_gamma q) (coms (xcoms p)) (coms (ycoms p))
           (quad_target q *: pairT (one1 crs) (one2 crs)) crs pf (1%N) (1%N)).
Proof. exact: @k_C34_quad_value. Qed.
Print Assumptions C34_quad_value.

Example C34_quad_case : returns (quad_verify fwd quad0 quad_p2 crs0) /\
  ~ returns (quad_verify fwd quad0 (mkCProof (mkCommit [::] [::]) (ycoms quad_p2) (equ_proofs quad_p2)) crs0) /\
  gs_check [seq x *: one1 crs0 | x <- quad_a quad0] [seq y *: one2 crs0 | y <- quad_b quad0] (quad_gamma quad0) (coms (xcoms quad_p0)) (coms (ycoms quad_p0))
    (quad_target quad0 *: pairT (one1 crs0) (one2 crs0)) crs0 (pf_of quad_p0) (1%N) (1%N) /\
  ~ gs_check [seq x *: one1 crs0 | x <- quad_a quad0] [seq y *: one2 crs0 | y <- quad_b quad0] (quad_gamma quad0) (coms (xcoms quad_p2)) (coms (ycoms quad_p2))
    (quad_target quad0 *: pairT (one1 crs0) (one2 crs0)) crs0 (pf_of quad_p2) (1%N) (1%N).
Proof.
split; first by exists false; exact: quad_p2_ok.
split; first by case/(@C34_quad_panics toy fwd quad0 _ crs0 fwd_valid) => pf [_ _ [_ /=]].
split; first exact: (proj1 (@C34_quad_value toy fwd quad0 quad_p0 crs0 true _ toy_bilinear fwd_valid erefl quad_p0_ok) isT).
by move/(proj2 (@C34_quad_value toy fwd quad0 quad_p2 crs0 false _ toy_bilinear fwd_valid erefl quad_p2_ok)).
Qed.

(** C35: [prove] panics unless all dimensions match; otherwise the proof has the right type and size. *)
Theorem C35_ppe_panics : forall (E : pairing) (sch : sched) (R : rng E) (q : PPE E) (X : seq (G1 E)) (Y : seq (G2 E)) cx cy crs (s : rst R), valid_sched sch ->
  returns (ppe_prove sch q X Y cx cy crs s) <->
  [/\ (0 < size X)%N /\ (0 < size Y)%N, dims (size X) 2 (crand cx) /\ dims (size Y) 2 (crand cy),
      dims (size X) (size Y) (ppe_gamma q), size (ppe_a q) = size Y /\ size (ppe_b q) = size X
    & size (crs_u crs) = 2%N /\ size (crs_v crs) = 2%N].
Proof. exact: @k_C35_ppe_panics. Qed.
Print Assumptions C35_ppe_panics.

Example C35_ppe_panics_case := @C35_ppe_panics toy fwd ctr ppe0 xs0 ys0 (xcoms ppe_p0) (ycoms ppe_p0) crs0 6%N fwd_valid.

Theorem C35_ppe_shape : forall (E : pairing) (sch : sched) (R : rng E) (q : PPE E) (X : seq (G1 E)) (Y : seq (G2 E)) cx cy crs (s s' : rst R) pf, valid_sched sch ->
  ppe_prove sch q X Y cx cy crs s = Ok (pf, s') ->
  [/\ equ_type pf = PairingProduct, size (pi pf) = 2%N, size (theta pf) = 2%N & dims 2 2 (pf_rand pf)].
Proof. exact: @k_C35_ppe_shape. Qed.
Print Assumptions C35_ppe_shape.

Example C35_ppe_case : returns (ppe_prove fwd ppe0 xs0 ys0 (xcoms ppe_p0) (ycoms ppe_p0) crs0 (12%N : rst ctr)) /\
  ~ returns (ppe_prove fwd ppe0 xs0 ys0 (mkCommit (coms (xcoms ppe_p0)) [::]) (ycoms ppe_p0) crs0 (12%N : rst ctr)).
Proof.
split; first by apply/(@C35_ppe_panics toy fwd ctr ppe0 xs0 ys0 _ _ crs0 12%N fwd_valid); do !split=> //; case=> [|[|]].
by case/(@C35_ppe_panics toy fwd ctr ppe0 xs0 ys0 _ _ crs0 12%N fwd_valid) => _ [[]].
Qed.

Theorem C35_ms1_panics : forall (E : pairing) (sch : sched) (R : rng E) (q : MSMEG1 E) (X : seq (G1 E)) (Y : seq (Fr E)) cx cy crs (s : rst R), valid_sched sch ->
  returns (ms1_prove sch q X Y cx cy crs s) <->
  [/\ (0 < size X)%N /\ (0 < size Y)%N, dims (size X) 2 (crand cx) /\ dims (size Y) 1 (crand cy),
      dims (size X) (size Y) (ms1_gamma q), size (ms1_a q) = size Y /\ size (ms1_b q) = size X
    & size (crs_u crs) = 2%N /\ (1 < size (crs_v crs))%N].
Proof. exact: @k_C35_ms1_panics. Qed.
Print Assumptions C35_ms1_panics.

Example C35_ms1_panics_case := @C35_ms1_panics toy fwd ctr ms10 xs0 ys0 (xcoms ms1_p0) (ycoms ms1_p0) crs0 6%N fwd_valid.

Theorem C35_ms1_shape : forall (E : pairing) (sch : sched) (R : rng E) (q : MSMEG1 E) (X : seq (G1 E)) (Y : seq (Fr E)) cx cy crs (s s' : rst R) pf, valid_sched sch ->
  ms1_prove sch q X Y cx cy crs s = Ok (pf, s') ->
  [/\ equ_type pf = MultiScalarG1, size (pi pf) = 2%N, size (theta pf) = 1%N & dims 1 2 (pf_rand pf)].
Proof. exact: @k_C35_ms1_shape. Qed.
Print Assumptions C35_ms1_shape.

Example C35_ms1_case : returns (ms1_prove fwd ms10 xs0 ys0 (xcoms ms1_p0) (ycoms ms1_p0) crs0 (12%N : rst ctr)) /\
  ~ returns (ms1_prove fwd ms10 xs0 ys0 (mkCommit (coms (xcoms ms1_p0)) [::]) (ycoms ms1_p0) crs0 (12%N : rst ctr)).
Proof.
split; first by apply/(@C35_ms1_panics toy fwd ctr ms10 xs0 ys0 _ _ crs0 12%N fwd_valid); do !split=> //; case=> [|[|]].
by case/(@C35_ms1_panics toy fwd ctr ms10 xs0 ys0 _ _ crs0 12%N fwd_valid) => _ [[]].
Qed.

Theorem C35_ms2_panics : forall (E : pairing) (sch : sched) (R : rng E) (q : MSMEG2 E) (X : seq (Fr E)) (Y : seq (G2 E)) cx cy crs (s : rst R), valid_sched sch ->
  returns (ms2_prove sch q X Y cx cy crs s) <->
  [/\ (0 < size X)%N /\ (0 < size Y)%N, dims (size X) 1 (crand cx) /\ dims (size Y) 2 (crand cy),
      dims (size X) (size Y) (ms2_gamma q), size (ms2_a q) = size Y /\ size (ms2_b q) = size X
    & (1 < size (crs_u crs))%N /\ size (crs_v crs) = 2%N].
Proof. exact: @k_C35_ms2_panics. Qed.
Print Assumptions C35_ms2_panics.

Example C35_ms2_panics_case := @C35_ms2_panics toy fwd ctr ms20 xs0 ys0 (xcoms ms2_p0) (ycoms ms2_p0) crs0 6%N fwd_valid.

Theorem C35_ms2_shape : forall (E : pairing) (sch : sched) (R : rng E) (q : MSMEG2 E) (X : seq (Fr E)) (Y : seq (G2 E)) cx cy crs (s s' : rst R) pf, valid_sched sch ->
  ms2_prove sch q X Y cx cy crs s = Ok (pf, s') ->
  [/\ equ_type pf = MultiScalarG2, size (pi pf) = 1%N, size (theta pf) = 2%N & dims 2 1 (pf_rand pf)].
Proof. exact: @k_C35_ms2_shape. Qed.
Print Assumptions C35_ms2_shape.

Example C35_ms2_case : returns (ms2_prove fwd ms20 xs0 ys0 (xcoms ms2_p0) (ycoms ms2_p0) crs0 (12%N : rst ctr)) /\
  ~ returns (ms2_prove fwd ms20 xs0 ys0 (mkCommit (coms (xcoms ms2_p0)) [::]) (ycoms ms2_p0) crs0 (12%N : rst ctr)).
Proof.
split; first by apply/(@C35_ms2_panics toy fwd ctr ms20 xs0 ys0 _ _ crs0 12%N fwd_valid); do !split=> //; case=> [|[|]].
by case/(@C35_ms2_panics toy fwd ctr ms20 xs0 ys0 _ _ crs0 12%N fwd_valid) => _ [[]].
Qed.

Theorem C35_quad_panics : forall (E : pairing) (sch : sched) (R : rng E) (q : QuadEqu E) (X : seq (Fr E)) (Y : seq (Fr E)) cx cy crs (s : rst R), valid_sched sch ->
  returns (quad_prove sch q X Y cx cy crs s) <->
  [/\ (0 < size X)%N /\ (0 < size Y)%N, dims (size X) 1 (crand cx) /\ dims (size Y) 1 (crand cy),
      dims (size X) (size Y) (quad_gamma q), size (quad_a q) = size Y /\ size (quad_b q) = size X
    & (1 < size (crs_u crs))%N /\ (1 < size (crs_v crs))%N].
Proof. exact: @k_C35_quad_panics. Qed.
Print Assumptions C35_quad_panics.

Example C35_quad_panics_case := @C35_quad_panics toy fwd ctr quad0 xs0 ys0 (xcoms quad_p0) (ycoms quad_p0) crs0 6%N fwd_valid.

Theorem C35_quad_shape : forall (E : pairing) (sch : sched) (R : rng E) (q : QuadEqu E) (X : seq (Fr E)) (Y : seq (Fr E)) cx cy crs (s s' : rst R) pf, valid_sched sch ->
  quad_prove sch q X Y cx cy crs s = Ok (pf, s') ->
  [/\ equ_type pf = Quadratic, size (pi pf) = 1%N, size (theta pf) = 1%N & dims 1 1 (pf_rand pf)].
Proof. exact: @k_C35_quad_shape. Qed.
Print Assumptions C35_quad_shape.

Example C35_quad_case : returns (quad_prove fwd quad0 xs0 ys0 (xcoms quad_p0) (ycoms quad_p0) crs0 (12%N : rst ctr)) /\
  ~ returns (quad_prove fwd quad0 xs0 ys0 (mkCommit (coms (xcoms quad_p0)) [::]) (ycoms quad_p0) crs0 (12%N : rst ctr)).
Proof.
split; first by apply/(@C35_quad_panics toy fwd ctr quad0 xs0 ys0 _ _ crs0 12%N fwd_valid); do !split=> //; case=> [|[|]].
by case/(@C35_quad_panics toy fwd ctr quad0 xs0 ys0 _ _ crs0 12%N fwd_valid) => _ [[]].
Qed.

(** C37: PPE proofs have exactly the size of the key. Refuted for the [theta] of MSMEG1, the [pi] of MSMEG2 and both for QuadEqu: surplus elements are ignored. *)
Theorem C37_ppe_pi : forall (E : pairing) (sch : sched) (q : PPE E) (p : CProof E) (crs : CRS E) b pf, valid_sched sch ->
  equ_proofs p = [:: pf] -> ppe_verify sch q p crs = Ok b -> size (pi pf) = size (crs_u crs).
Proof. exact: @k_C37_ppe_pi. Qed.
Print Assumptions C37_ppe_pi.

Example C37_ppe_pi_case := @C37_ppe_pi toy fwd ppe0 ppe_p0 crs0 true (pf_of ppe_p0) fwd_valid ppe_p0_one ppe_p0_ok.

Theorem C37_ppe_theta : forall (E : pairing) (sch : sched) (q : PPE E) (p : CProof E) (crs : CRS E) b pf, valid_sched sch ->
  equ_proofs p = [:: pf] -> ppe_verify sch q p crs = Ok b -> size (theta pf) = size (crs_v crs).
Proof. exact: @k_C37_ppe_theta. Qed.
Print Assumptions C37_ppe_theta.

Example C37_ppe_case : ppe_verify fwd ppe0 ppe_p0 crs0 = Ok true /\ size (pi (pf_of ppe_p0)) = 2%N /\
  ~ returns (ppe_verify fwd ppe0 (mkCProof (xcoms ppe_p0) (ycoms ppe_p0) [:: longer (pf_of ppe_p0) [::] [:: 0]]) crs0).
Proof.
split; first exact: ppe_p0_ok. split; first by [].
by case=> b; set p := mkCProof _ _ _ => h; have := @C37_ppe_theta toy fwd ppe0 p crs0 b _ fwd_valid erefl h.
Qed.

Theorem C37_ms1_pi : forall (E : pairing) (sch : sched) (q : MSMEG1 E) (p : CProof E) (crs : CRS E) b pf, valid_sched sch ->
  equ_proofs p = [:: pf] -> ms1_verify sch q p crs = Ok b -> size (pi pf) = size (crs_u crs).
Proof. exact: @k_C37_ms1_pi. Qed.
Print Assumptions C37_ms1_pi.

Example C37_ms1_pi_case := @C37_ms1_pi toy fwd ms10 ms1_p0 crs0 true (pf_of ms1_p0) fwd_valid ms1_p0_one ms1_p0_ok.

Theorem C37_ms1_theta_refuted : forall (E : pairing) (sch : sched) (q : MSMEG1 E) cx cy pf (crs : CRS E) b extra, valid_sched sch ->
  ms1_verify sch q (mkCProof cx cy [:: pf]) crs = Ok b ->
  ms1_verify sch q (mkCProof cx cy [:: longer pf [::] extra]) crs = Ok b.
Proof. exact: @k_C37_ms1_theta_refuted. Qed.
Print Assumptions C37_ms1_theta_refuted.

Example C37_ms1_theta_case :
  ms1_verify fwd ms10 (mkCProof (xcoms ms1_p0) (ycoms ms1_p0) [:: longer (E := toy) (pf_of ms1_p0) [::] [:: (n7 5, n7 6)]]) crs0 = Ok true.
Proof. exact: (@C37_ms1_theta_refuted toy fwd ms10 _ _ _ crs0 true _ fwd_valid ms1_p0_ok). Qed.

Theorem C37_ms2_pi_refuted : forall (E : pairing) (sch : sched) (q : MSMEG2 E) cx cy pf (crs : CRS E) b extra, valid_sched sch ->
  ms2_verify sch q (mkCProof cx cy [:: pf]) crs = Ok b ->
  ms2_verify sch q (mkCProof cx cy [:: longer pf extra [::]]) crs = Ok b.
Proof. exact: @k_C37_ms2_pi_refuted. Qed.
Print Assumptions C37_ms2_pi_refuted.

Example C37_ms2_pi_refuted_case := @C37_ms2_pi_refuted toy fwd ms20 (xcoms ms2_p0) (ycoms ms2_p0) (pf_of ms2_p0) crs0 true [:: (n7 1, n7 2)] fwd_valid ms2_p0_ok.

Theorem C37_ms2_theta : forall (E : pairing) (sch : sched) (q : MSMEG2 E) (p : CProof E) (crs : CRS E) b pf, valid_sched sch ->
  equ_proofs p = [:: pf] -> ms2_verify sch q p crs = Ok b -> size (theta pf) = size (crs_v crs).
Proof. exact: @k_C37_ms2_theta. Qed.
Print Assumptions C37_ms2_theta.

Example C37_ms2_pi_case :
  ms2_verify fwd ms20 (mkCProof (xcoms ms2_p0) (ycoms ms2_p0) [:: longer (E := toy) (pf_of ms2_p0) [:: (n7 5, n7 6)] [::]]) crs0 = Ok true.
Proof. exact: (@C37_ms2_pi_refuted toy fwd ms20 _ _ _ crs0 true _ fwd_valid ms2_p0_ok). Qed.

Theorem C37_quad_pi_refuted : forall (E : pairing) (sch : sched) (q : QuadEqu E) cx cy pf (crs : CRS E) b extra, valid_sched sch ->
  quad_verify sch q (mkCProof cx cy [:: pf]) crs = Ok b ->
  quad_verify sch q (mkCProof cx cy [:: longer pf extra [::]]) crs = Ok b.
Proof. exact: @k_C37_quad_pi_refuted. Qed.
Print Assumptions C37_quad_pi_refuted.

Example C37_quad_pi_refuted_case := @C37_quad_pi_refuted toy fwd quad0 (xcoms quad_p0) (ycoms quad_p0) (pf_of quad_p0) crs0 true [:: (n7 1, n7 2)] fwd_valid quad_p0_ok.

Theorem C37_quad_theta_refuted : forall (E : pairing) (sch : sched) (q : QuadEqu E) cx cy pf (crs : CRS E) b extra, valid_sched sch ->
  quad_verify sch q (mkCProof cx cy [:: pf]) crs = Ok b ->
  quad_verify sch q (mkCProof cx cy [:: longer pf [::] extra]) crs = Ok b.
Proof. exact: @k_C37_quad_theta_refuted. Qed.
Print Assumptions C37_quad_theta_refuted.

Example C37_quad_pi_case :
  quad_verify fwd quad0 (mkCProof (xcoms quad_p0) (ycoms quad_p0) [:: longer (E := toy) (pf_of quad_p0) [:: (n7 5, n7 6)] [::]]) crs0 = Ok true.
Proof. exact: (@C37_quad_pi_refuted toy fwd quad0 _ _ _ crs0 true _ fwd_valid quad_p0_ok). Qed.

Example C37_quad_theta_case :
  quad_verify fwd quad0 (mkCProof (xcoms quad_p0) (ycoms quad_p0) [:: longer (E := toy) (pf_of quad_p0) [::] [:: (n7 5, n7 6)]]) crs0 = Ok true.
Proof. exact: (@C37_quad_theta_refuted toy fwd quad0 _ _ _ crs0 true _ fwd_valid quad_p0_ok). Qed.

(** C38: shifting an accepted proof by any [T] gives another accepted proof (a rejected one stays rejected). *)
Theorem C38_ppe : forall (E : pairing) (sch : sched) (q : PPE E) cx cy pf (crs : CRS E) b (T : nat -> nat -> Fr E), bilinear E -> valid_sched sch ->
  ppe_verify sch q (mkCProof cx cy [:: pf]) crs = Ok b ->
  ppe_verify sch q (mkCProof cx cy [:: shift_proof T crs (size (crs_u crs)) (size (crs_v crs)) pf]) crs = Ok b.
Proof. exact: @k_C38_ppe. Qed.
Print Assumptions C38_ppe.

Example C38_ppe_case :
  let pf' := shift_proof (E := toy) (fun l i => (l + i).+1%:R) crs0 (2%N) (2%N) (pf_of ppe_p0) in
  ppe_verify fwd ppe0 (mkCProof (xcoms ppe_p0) (ycoms ppe_p0) [:: pf']) crs0 = Ok true /\ theta pf' <> theta (pf_of ppe_p0).
Proof.
split; first exact: (@C38_ppe toy fwd ppe0 _ _ _ crs0 true _ toy_bilinear fwd_valid ppe_p0_ok).
move/(congr1 (fun s => nth 0 s 0)); rewrite nth_mkseq // => /eqP; rewrite -subr_eq0 addrAC subrr add0r.
by rewrite !big_ord_recl !big_ord0; vm_compute.
Qed.

Theorem C38_ms1 : forall (E : pairing) (sch : sched) (q : MSMEG1 E) cx cy pf (crs : CRS E) b (T : nat -> nat -> Fr E), bilinear E -> valid_sched sch ->
  ms1_verify sch q (mkCProof cx cy [:: pf]) crs = Ok b ->
  ms1_verify sch q (mkCProof cx cy [:: shift_proof T crs (size (crs_u crs)) (1%N) pf]) crs = Ok b.
Proof. exact: @k_C38_ms1. Qed.
Print Assumptions C38_ms1.

Example C38_ms1_case :
  let pf' := shift_proof (E := toy) (fun l i => (l + i).+1%:R) crs0 (2%N) (1%N) (pf_of ms1_p0) in
  ms1_verify fwd ms10 (mkCProof (xcoms ms1_p0) (ycoms ms1_p0) [:: pf']) crs0 = Ok true /\ theta pf' <> theta (pf_of ms1_p0).
Proof.
split; first exact: (@C38_ms1 toy fwd ms10 _ _ _ crs0 true _ toy_bilinear fwd_valid ms1_p0_ok).
move/(congr1 (fun s => nth 0 s 0)); rewrite nth_mkseq // => /eqP; rewrite -subr_eq0 addrAC subrr add0r.
by rewrite !big_ord_recl !big_ord0; vm_compute.
Qed.

Theorem C38_ms2 : forall (E : pairing) (sch : sched) (q : MSMEG2 E) cx cy pf (crs : CRS E) b (T : nat -> nat -> Fr E), bilinear E -> valid_sched sch ->
  ms2_verify sch q (mkCProof cx cy [:: pf]) crs = Ok b ->
  ms2_verify sch q (mkCProof cx cy [:: shift_proof T crs (1%N) (size (crs_v crs)) pf]) crs = Ok b.
Proof. exact: @k_C38_ms2. Qed.
Print Assumptions C38_ms2.

Example C38_ms2_case :
  let pf' := shift_proof (E := toy) (fun l i => (l + i).+1%:R) crs0 (1%N) (2%N) (pf_of ms2_p0) in
  ms2_verify fwd ms20 (mkCProof (xcoms ms2_p0) (ycoms ms2_p0) [:: pf']) crs0 = Ok true /\ theta pf' <> theta (pf_of ms2_p0).
Proof.
split; first exact: (@C38_ms2 toy fwd ms20 _ _ _ crs0 true _ toy_bilinear fwd_valid ms2_p0_ok).
move/(congr1 (fun s => nth 0 s 0)); rewrite nth_mkseq // => /eqP; rewrite -subr_eq0 addrAC subrr add0r.
by rewrite !big_ord_recl !big_ord0; vm_compute.
Qed.

Theorem C38_quad : forall (E : pairing) (sch : sched) (q : QuadEqu E) cx cy pf (crs : CRS E) b (T : nat -> nat -> Fr E), bilinear E -> valid_sched sch ->
  quad_verify sch q (mkCProof cx cy [:: pf]) crs = Ok b ->
  quad_verify sch q (mkCProof cx cy [:: shift_proof T crs (1%N) (1%N) pf]) crs = Ok b.
Proof. exact: @k_C38_quad. Qed.
Print Assumptions C38_quad.

Example C38_quad_case :
  let pf' := shift_proof (E := toy) (fun l i => (l + i).+1%:R) crs0 (1%N) (1%N) (pf_of quad_p0) in
  quad_verify fwd quad0 (mkCProof (xcoms quad_p0) (ycoms quad_p0) [:: pf']) crs0 = Ok true /\ theta pf' <> theta (pf_of quad_p0).
Proof.
split; first exact: (@C38_quad toy fwd quad0 _ _ _ crs0 true _ toy_bilinear fwd_valid quad_p0_ok).
move/(congr1 (fun s => nth 0 s 0)); rewrite nth_mkseq // => /eqP; rewrite -subr_eq0 addrAC subrr add0r.
by rewrite !big_ord_recl !big_ord0; vm_compute.
Qed.

(** C46: [prove] stamps the type of the equation; [verify] panics on any other type. *)
Theorem C46_ppe_stamp : forall (E : pairing) (sch : sched) (R : rng E) (q : PPE E) (X : seq (G1 E)) (Y : seq (G2 E)) cx cy crs (s s' : rst R) pf,
  ppe_prove sch q X Y cx cy crs s = Ok (pf, s') -> equ_type pf = ppe_get_type q /\ ppe_get_type q = PairingProduct.
Proof. exact: @k_C46_ppe_stamp. Qed.
Print Assumptions C46_ppe_stamp.

Example C46_ppe_stamp_case := @C46_ppe_stamp toy fwd ctr ppe0 xs0 ys0 (xcoms ppe_p0) (ycoms ppe_p0) crs0 29%N ppe_again.2 ppe_again.1 ppe_againE.

Theorem C46_ppe_mismatch : forall (E : pairing) (sch : sched) (q : PPE E) cx cy pf (crs : CRS E), equ_type pf <> PairingProduct ->
  ppe_verify sch q (mkCProof cx cy [:: pf]) crs = Panic AssertFailed.
Proof. exact: @k_C46_ppe_mismatch. Qed.
Print Assumptions C46_ppe_mismatch.

Example C46_ppe_case : equ_type (pf_of ppe_p0) = ppe_get_type ppe0 /\
  ppe_verify fwd ppe0 (mkCProof (xcoms ppe_p0) (ycoms ppe_p0)
    [:: mkEquProof (pi (pf_of ppe_p0)) (theta (pf_of ppe_p0)) Quadratic [::]]) crs0 = Panic AssertFailed.
Proof. by split=> //; apply: C46_ppe_mismatch. Qed.

Theorem C46_ms1_stamp : forall (E : pairing) (sch : sched) (R : rng E) (q : MSMEG1 E) (X : seq (G1 E)) (Y : seq (Fr E)) cx cy crs (s s' : rst R) pf,
  ms1_prove sch q X Y cx cy crs s = Ok (pf, s') -> equ_type pf = ms1_get_type q /\ ms1_get_type q = MultiScalarG1.
Proof. exact: @k_C46_ms1_stamp. Qed.
Print Assumptions C46_ms1_stamp.

Example C46_ms1_stamp_case := @C46_ms1_stamp toy fwd ctr ms10 xs0 ys0 (xcoms ms1_p0) (ycoms ms1_p0) crs0 29%N ms1_again.2 ms1_again.1 ms1_againE.

Theorem C46_ms1_mismatch : forall (E : pairing) (sch : sched) (q : MSMEG1 E) cx cy pf (crs : CRS E), equ_type pf <> MultiScalarG1 ->
  ms1_verify sch q (mkCProof cx cy [:: pf]) crs = Panic AssertFailed.
Proof. exact: @k_C46_ms1_mismatch. Qed.
Print Assumptions C46_ms1_mismatch.

Example C46_ms1_case : equ_type (pf_of ms1_p0) = ms1_get_type ms10 /\
  ms1_verify fwd ms10 (mkCProof (xcoms ms1_p0) (ycoms ms1_p0)
    [:: mkEquProof (pi (pf_of ms1_p0)) (theta (pf_of ms1_p0)) Quadratic [::]]) crs0 = Panic AssertFailed.
Proof. by split=> //; apply: C46_ms1_mismatch. Qed.

Theorem C46_ms2_stamp : forall (E : pairing) (sch : sched) (R : rng E) (q : MSMEG2 E) (X : seq (Fr E)) (Y : seq (G2 E)) cx cy crs (s s' : rst R) pf,
  ms2_prove sch q X Y cx cy crs s = Ok (pf, s') -> equ_type pf = ms2_get_type q /\ ms2_get_type q = MultiScalarG2.
Proof. exact: @k_C46_ms2_stamp. Qed.
Print Assumptions C46_ms2_stamp.

Example C46_ms2_stamp_case := @C46_ms2_stamp toy fwd ctr ms20 xs0 ys0 (xcoms ms2_p0) (ycoms ms2_p0) crs0 29%N ms2_again.2 ms2_again.1 ms2_againE.

Theorem C46_ms2_mismatch : forall (E : pairing) (sch : sched) (q : MSMEG2 E) cx cy pf (crs : CRS E), equ_type pf <> MultiScalarG2 ->
  ms2_verify sch q (mkCProof cx cy [:: pf]) crs = Panic AssertFailed.
Proof. exact: @k_C46_ms2_mismatch. Qed.
Print Assumptions C46_ms2_mismatch.

Example C46_ms2_case : equ_type (pf_of ms2_p0) = ms2_get_type ms20 /\
  ms2_verify fwd ms20 (mkCProof (xcoms ms2_p0) (ycoms ms2_p0)
    [:: mkEquProof (pi (pf_of ms2_p0)) (theta (pf_of ms2_p0)) Quadratic [::]]) crs0 = Panic AssertFailed.
Proof. by split=> //; apply: C46_ms2_mismatch. Qed.

Theorem C46_quad_stamp : forall (E : pairing) (sch : sched) (R : rng E) (q : QuadEqu E) (X : seq (Fr E)) (Y : seq (Fr E)) cx cy crs (s s' : rst R) pf,
  quad_prove sch q X Y cx cy crs s = Ok (pf, s') -> equ_type pf = quad_get_type q /\ quad_get_type q = Quadratic.
Proof. exact: @k_C46_quad_stamp. Qed.
Print Assumptions C46_quad_stamp.

Example C46_quad_stamp_case := @C46_quad_stamp toy fwd ctr quad0 xs0 ys0 (xcoms quad_p0) (ycoms quad_p0) crs0 29%N quad_again.2 quad_again.1 quad_againE.

Theorem C46_quad_mismatch : forall (E : pairing) (sch : sched) (q : QuadEqu E) cx cy pf (crs : CRS E), equ_type pf <> Quadratic ->
  quad_verify sch q (mkCProof cx cy [:: pf]) crs = Panic AssertFailed.
Proof. exact: @k_C46_quad_mismatch. Qed.
Print Assumptions C46_quad_mismatch.

Example C46_quad_case : equ_type (pf_of quad_p0) = quad_get_type quad0 /\
  quad_verify fwd quad0 (mkCProof (xcoms quad_p0) (ycoms quad_p0)
    [:: mkEquProof (pi (pf_of quad_p0)) (theta (pf_of quad_p0)) PairingProduct [::]]) crs0 = Panic AssertFailed.
Proof. by split=> //; apply: C46_quad_mismatch. Qed.

(** C47: [verify] ignores what lies beyond the first row's length in [gamma], though [prove] does not return if the rows differ in length. *)
Theorem C47_ppe_verify : forall (E : pairing) (sch : sched) (q q' : PPE E) (p : CProof E) (crs : CRS E), valid_sched sch ->
  ppe_a q = ppe_a q' -> ppe_b q = ppe_b q' -> ppe_target q = ppe_target q' -> same_visible (ppe_gamma q) (ppe_gamma q') ->
  ppe_verify sch q p crs = ppe_verify sch q' p crs.
Proof. exact: @k_C47_ppe_verify. Qed.
Print Assumptions C47_ppe_verify.

Example C47_ppe_verify_case := @C47_ppe_verify toy fwd ppe0 ppe_long ppe_p0 crs0 fwd_valid erefl erefl erefl long_visible.

Theorem C47_ppe_prove : forall (E : pairing) (sch : sched) (R : rng E) (q : PPE E) (X : seq (G1 E)) (Y : seq (G2 E)) cx cy crs (s : rst R) i, valid_sched sch ->
  (i < size (ppe_gamma q))%N -> size (mrow (ppe_gamma q) i) <> size (mrow (ppe_gamma q) 0) ->
  ~ returns (ppe_prove sch q X Y cx cy crs s).
Proof. exact: @k_C47_ppe_prove. Qed.
Print Assumptions C47_ppe_prove.

Example C47_ppe_case :
  ppe_verify bwd (mkPPE (E := toy) (ppe_a ppe0) (ppe_b ppe0) [:: [:: n7 2]; [:: n7 6; n7 3]] (ppe_target ppe0)) ppe_p0 crs0 = Ok true /\
  ~ returns (ppe_prove fwd (mkPPE (E := toy) (ppe_a ppe0) (ppe_b ppe0) [:: [:: n7 2]; [:: n7 6; n7 3]] (ppe_target ppe0)) xs0 ys0 (xcoms ppe_p0) (ycoms ppe_p0) crs0 (12%N : rst ctr)).
Proof.
split; last exact: (@C47_ppe_prove toy fwd ctr _ xs0 ys0 _ _ crs0 12%N 1 fwd_valid).
rewrite -(@C47_ppe_verify toy bwd ppe0 (mkPPE (E := toy) (ppe_a ppe0) (ppe_b ppe0) [:: [:: n7 2]; [:: n7 6; n7 3]] (ppe_target ppe0)) ppe_p0 crs0 bwd_valid erefl erefl erefl); first by vm_compute.
by split=> // -[|[|[]]].
Qed.

Theorem C47_ms1_verify : forall (E : pairing) (sch : sched) (q q' : MSMEG1 E) (p : CProof E) (crs : CRS E), valid_sched sch ->
  ms1_a q = ms1_a q' -> ms1_b q = ms1_b q' -> ms1_target q = ms1_target q' -> same_visible (ms1_gamma q) (ms1_gamma q') ->
  ms1_verify sch q p crs = ms1_verify sch q' p crs.
Proof. exact: @k_C47_ms1_verify. Qed.
Print Assumptions C47_ms1_verify.

Example C47_ms1_verify_case := @C47_ms1_verify toy fwd ms10 ms1_long ms1_p0 crs0 fwd_valid erefl erefl erefl long_visible.

Theorem C47_ms1_prove : forall (E : pairing) (sch : sched) (R : rng E) (q : MSMEG1 E) (X : seq (G1 E)) (Y : seq (Fr E)) cx cy crs (s : rst R) i, valid_sched sch ->
  (i < size (ms1_gamma q))%N -> size (mrow (ms1_gamma q) i) <> size (mrow (ms1_gamma q) 0) ->
  ~ returns (ms1_prove sch q X Y cx cy crs s).
Proof. exact: @k_C47_ms1_prove. Qed.
Print Assumptions C47_ms1_prove.

Example C47_ms1_case :
  ms1_verify bwd (mkMSMEG1 (E := toy) (ms1_a ms10) (ms1_b ms10) [:: [:: n7 2]; [:: n7 6; n7 3]] (ms1_target ms10)) ms1_p0 crs0 = Ok true /\
  ~ returns (ms1_prove fwd (mkMSMEG1 (E := toy) (ms1_a ms10) (ms1_b ms10) [:: [:: n7 2]; [:: n7 6; n7 3]] (ms1_target ms10)) xs0 ys0 (xcoms ms1_p0) (ycoms ms1_p0) crs0 (12%N : rst ctr)).
Proof.
split; last exact: (@C47_ms1_prove toy fwd ctr _ xs0 ys0 _ _ crs0 12%N 1 fwd_valid).
rewrite -(@C47_ms1_verify toy bwd ms10 (mkMSMEG1 (E := toy) (ms1_a ms10) (ms1_b ms10) [:: [:: n7 2]; [:: n7 6; n7 3]] (ms1_target ms10)) ms1_p0 crs0 bwd_valid erefl erefl erefl); first by vm_compute.
by split=> // -[|[|[]]].
Qed.

Theorem C47_ms2_verify : forall (E : pairing) (sch : sched) (q q' : MSMEG2 E) (p : CProof E) (crs : CRS E), valid_sched sch ->
  ms2_a q = ms2_a q' -> ms2_b q = ms2_b q' -> ms2_target q = ms2_target q' -> same_visible (ms2_gamma q) (ms2_gamma q') ->
  ms2_verify sch q p crs = ms2_verify sch q' p crs.
Proof. exact: @k_C47_ms2_verify. Qed.
Print Assumptions C47_ms2_verify.

Example C47_ms2_verify_case := @C47_ms2_verify toy fwd ms20 ms2_long ms2_p0 crs0 fwd_valid erefl erefl erefl long_visible.

Theorem C47_ms2_prove : forall (E : pairing) (sch : sched) (R : rng E) (q : MSMEG2 E) (X : seq (Fr E)) (Y : seq (G2 E)) cx cy crs (s : rst R) i, valid_sched sch ->
  (i < size (ms2_gamma q))%N -> size (mrow (ms2_gamma q) i) <> size (mrow (ms2_gamma q) 0) ->
  ~ returns (ms2_prove sch q X Y cx cy crs s).
Proof. exact: @k_C47_ms2_prove. Qed.
Print Assumptions C47_ms2_prove.

Example C47_ms2_case :
  ms2_verify bwd (mkMSMEG2 (E := toy) (ms2_a ms20) (ms2_b ms20) [:: [:: n7 2]; [:: n7 6; n7 3]] (ms2_target ms20)) ms2_p0 crs0 = Ok true /\
  ~ returns (ms2_prove fwd (mkMSMEG2 (E := toy) (ms2_a ms20) (ms2_b ms20) [:: [:: n7 2]; [:: n7 6; n7 3]] (ms2_target ms20)) xs0 ys0 (xcoms ms2_p0) (ycoms ms2_p0) crs0 (12%N : rst ctr)).
Proof.
split; last exact: (@C47_ms2_prove toy fwd ctr _ xs0 ys0 _ _ crs0 12%N 1 fwd_valid).
rewrite -(@C47_ms2_verify toy bwd ms20 (mkMSMEG2 (E := toy) (ms2_a ms20) (ms2_b ms20) [:: [:: n7 2]; [:: n7 6; n7 3]] (ms2_target ms20)) ms2_p0 crs0 bwd_valid erefl erefl erefl); first by vm_compute.
by split=> // -[|[|[]]].
Qed.

Theorem C47_quad_verify : forall (E : pairing) (sch : sched) (q q' : QuadEqu E) (p : CProof E) (crs : CRS E), valid_sched sch ->
  quad_a q = quad_a q' -> quad_b q = quad_b q' -> quad_target q = quad_target q' -> same_visible (quad_gamma q) (quad_gamma q') ->
  quad_verify sch q p crs = quad_verify sch q' p crs.
Proof. exact: @k_C47_quad_verify. Qed.
Print Assumptions C47_quad_verify.

Example C47_quad_verify_case := @C47_quad_verify toy fwd quad0 quad_long quad_p0 crs0 fwd_valid erefl erefl erefl long_visible.

Theorem C47_quad_prove : forall (E : pairing) (sch : sched) (R : rng E) (q : QuadEqu E) (X : seq (Fr E)) (Y : seq (Fr E)) cx cy crs (s : rst R) i, valid_sched sch ->
  (i < size (quad_gamma q))%N -> size (mrow (quad_gamma q) i) <> size (mrow (quad_gamma q) 0) ->
  ~ returns (quad_prove sch q X Y cx cy crs s).
Proof. exact: @k_C47_quad_prove. Qed.
Print Assumptions C47_quad_prove.

Example C47_quad_case :
  quad_verify bwd (mkQuadEqu (E := toy) (quad_a quad0) (quad_b quad0) [:: [:: n7 2]; [:: n7 6; n7 3]] (quad_target quad0)) quad_p0 crs0 = Ok true /\
  ~ returns (quad_prove fwd (mkQuadEqu (E := toy) (quad_a quad0) (quad_b quad0) [:: [:: n7 2]; [:: n7 6; n7 3]] (quad_target quad0)) xs0 ys0 (xcoms quad_p0) (ycoms quad_p0) crs0 (12%N : rst ctr)).
Proof.
split; last exact: (@C47_quad_prove toy fwd ctr _ xs0 ys0 _ _ crs0 12%N 1 fwd_valid).
rewrite -(@C47_quad_verify toy bwd quad0 (mkQuadEqu (E := toy) (quad_a quad0) (quad_b quad0) [:: [:: n7 2]; [:: n7 6; n7 3]] (quad_target quad0)) quad_p0 crs0 bwd_valid erefl erefl erefl); first by vm_compute.
by split=> // -[|[|[]]].
Qed.

