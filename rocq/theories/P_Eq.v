(** C54, C55: equality of API values; outcomes do not depend on the order in which the worker threads run. *)
From mathcomp Require Import all_ssreflect all_algebra.
From Verif Require Import Base Group DataStructures Generator Commit Statement Derived Prove Verify Spec SpecMat SpecVerify Concrete Concrete2 BaseLemmas EqProps SchedProps.
From Verif Require Import Concrete25.
From Verif Require Import Concrete26.
Set Implicit Arguments.
Unset Strict Implicit.
Unset Printing Implicit Defensive.
Import GRing.Theory.
Local Open Scope ring_scope.

(** C54: [==] on the values of the API holds exactly for identical values: constants, gamma, target, commitments, proof elements, type and private randomness. *)
Theorem C54_commit : forall (F : fieldType) (G : lmodType F) (c d : commit G), commit_eq c d <-> c = d.
Proof. exact: @k_C54_commit. Qed.
Print Assumptions C54_commit.

Theorem C54_ppe : forall (E : pairing) (x y : PPE E), ppe_eq x y <-> x = y.
Proof. exact: @k_C54_ppe. Qed.
Print Assumptions C54_ppe.

Theorem C54_ms1 : forall (E : pairing) (x y : MSMEG1 E), ms1_eq x y <-> x = y.
Proof. exact: @k_C54_ms1. Qed.
Print Assumptions C54_ms1.

Theorem C54_ms2 : forall (E : pairing) (x y : MSMEG2 E), ms2_eq x y <-> x = y.
Proof. exact: @k_C54_ms2. Qed.
Print Assumptions C54_ms2.

Theorem C54_quad : forall (E : pairing) (x y : QuadEqu E), quad_eq x y <-> x = y.
Proof. exact: @k_C54_quad. Qed.
Print Assumptions C54_quad.

Theorem C54_equproof : forall (E : pairing) (x y : EquProof E), equproof_eq x y <-> x = y.
Proof. exact: @k_C54_equproof. Qed.
Print Assumptions C54_equproof.

Theorem C54_cproof : forall (E : pairing) (x y : CProof E), cproof_eq x y <-> x = y.
Proof. exact: @k_C54_cproof. Qed.
Print Assumptions C54_cproof.

(** Proofs that show the same to everybody are still unequal when their private randomness differs. *)
Theorem C54_private : forall (E : pairing) (p p' : CProof E), public p = public p' -> crand (xcoms p) <> crand (xcoms p') -> ~~ cproof_eq p p'.
Proof. exact: @k_C54_private. Qed.
Print Assumptions C54_private.

Example C54_case : commit_eq (xcoms ppe_p0) (xcoms ppe_p0) /\ ~~ commit_eq (xcoms ppe_p0) (mkCommit (coms (xcoms ppe_p0)) [::]) /\
  ~~ commit_eq (xcoms ppe_p0) (mkCommit (take 1 (coms (xcoms ppe_p0))) (crand (xcoms ppe_p0))) /\
  ppe_eq ppe0 ppe0 /\ ~~ ms1_eq ms10 (mkMSMEG1 (E := toy) [:: n7 1] [:: n7 2; n7 3] gamma0 (n7 2)) /\
  cproof_eq quad_p0 quad_p0 /\ ~~ cproof_eq quad_p0 quad_p2.
Proof. by do 6 (split; first by vm_compute); vm_compute. Qed.

(** C55: any two orders of the parallel tasks give the same outcome on every input, a panic included. *)
Theorem C55_ppe_prove : forall (E : pairing) (sch sch' : sched), valid_sched sch -> valid_sched sch' ->
  forall (R : rng E) (q : PPE E) (X : seq (G1 E)) (Y : seq (G2 E)) (cx : Commit1 E) (cy : Commit2 E) (crs : CRS E) (s : rst R),
  ppe_prove sch q X Y cx cy crs s = ppe_prove sch' q X Y cx cy crs s.
Proof. exact: @ppe_prove_sched. Qed.
Print Assumptions C55_ppe_prove.

Example C55_ppe_prove_case := @C55_ppe_prove toy fwd bwd fwd_valid bwd_valid ctr ppe0 xs0 ys0 (xcoms ppe_p0) (ycoms ppe_p0) crs0 6%N.

Theorem C55_ppe_commit_and_prove : forall (E : pairing) (sch sch' : sched), valid_sched sch -> valid_sched sch' ->
  forall (R : rng E) (q : PPE E) (X : seq (G1 E)) (Y : seq (G2 E)) (crs : CRS E) (s : rst R),
  ppe_commit_and_prove sch q X Y crs s = ppe_commit_and_prove sch' q X Y crs s.
Proof. exact: @ppe_cap_sched. Qed.
Print Assumptions C55_ppe_commit_and_prove.

Example C55_ppe_commit_and_prove_case := @C55_ppe_commit_and_prove toy fwd bwd fwd_valid bwd_valid ctr ppe0 xs0 ys0 crs0 6%N.

Theorem C55_ppe_verify : forall (E : pairing) (sch sch' : sched), valid_sched sch -> valid_sched sch' ->
  forall (q : PPE E) (p : CProof E) (crs : CRS E),
  ppe_verify sch q p crs = ppe_verify sch' q p crs.
Proof. exact: @ppe_verify_sched. Qed.
Print Assumptions C55_ppe_verify.

Example C55_ppe_case : valid_sched fwd /\ valid_sched bwd /\ fwd 0%N 2%N 2%N <> bwd 0%N 2%N 2%N /\
  ppe_verify bwd ppe0 ppe_p0 crs0 = Ok true /\
  isok (ppe_prove fwd ppe0 xs0 [::] (xcoms ppe_p0) (ycoms ppe_p0) crs0 (0%N : rst ctr)) = false /\
  isok (ppe_prove bwd ppe0 xs0 [::] (xcoms ppe_p0) (ycoms ppe_p0) crs0 (0%N : rst ctr)) = false.
Proof.
split; first exact: fwd_valid; split; first exact: bwd_valid; split; first by [].
split; first exact (etrans (@C55_ppe_verify toy bwd fwd bwd_valid fwd_valid ppe0 ppe_p0 crs0) ppe_p0_ok).
by split; vm_compute.
Qed.

Theorem C55_ms1_prove : forall (E : pairing) (sch sch' : sched), valid_sched sch -> valid_sched sch' ->
  forall (R : rng E) (q : MSMEG1 E) (X : seq (G1 E)) (Y : seq (Fr E)) (cx : Commit1 E) (cy : Commit2 E) (crs : CRS E) (s : rst R),
  ms1_prove sch q X Y cx cy crs s = ms1_prove sch' q X Y cx cy crs s.
Proof. exact: @ms1_prove_sched. Qed.
Print Assumptions C55_ms1_prove.

Example C55_ms1_prove_case := @C55_ms1_prove toy fwd bwd fwd_valid bwd_valid ctr ms10 xs0 ys0 (xcoms ms1_p0) (ycoms ms1_p0) crs0 6%N.

Theorem C55_ms1_commit_and_prove : forall (E : pairing) (sch sch' : sched), valid_sched sch -> valid_sched sch' ->
  forall (R : rng E) (q : MSMEG1 E) (X : seq (G1 E)) (Y : seq (Fr E)) (crs : CRS E) (s : rst R),
  ms1_commit_and_prove sch q X Y crs s = ms1_commit_and_prove sch' q X Y crs s.
Proof. exact: @ms1_cap_sched. Qed.
Print Assumptions C55_ms1_commit_and_prove.

Example C55_ms1_commit_and_prove_case := @C55_ms1_commit_and_prove toy fwd bwd fwd_valid bwd_valid ctr ms10 xs0 ys0 crs0 6%N.

Theorem C55_ms1_verify : forall (E : pairing) (sch sch' : sched), valid_sched sch -> valid_sched sch' ->
  forall (q : MSMEG1 E) (p : CProof E) (crs : CRS E),
  ms1_verify sch q p crs = ms1_verify sch' q p crs.
Proof. exact: @ms1_verify_sched. Qed.
Print Assumptions C55_ms1_verify.

Example C55_ms1_case : valid_sched fwd /\ valid_sched bwd /\ fwd 0%N 2%N 2%N <> bwd 0%N 2%N 2%N /\
  ms1_verify bwd ms10 ms1_p0 crs0 = Ok true /\
  isok (ms1_prove fwd ms10 xs0 [::] (xcoms ms1_p0) (ycoms ms1_p0) crs0 (0%N : rst ctr)) = false /\
  isok (ms1_prove bwd ms10 xs0 [::] (xcoms ms1_p0) (ycoms ms1_p0) crs0 (0%N : rst ctr)) = false.
Proof.
split; first exact: fwd_valid; split; first exact: bwd_valid; split; first by [].
split; first exact (etrans (@C55_ms1_verify toy bwd fwd bwd_valid fwd_valid ms10 ms1_p0 crs0) ms1_p0_ok).
by split; vm_compute.
Qed.

Theorem C55_ms2_prove : forall (E : pairing) (sch sch' : sched), valid_sched sch -> valid_sched sch' ->
  forall (R : rng E) (q : MSMEG2 E) (X : seq (Fr E)) (Y : seq (G2 E)) (cx : Commit1 E) (cy : Commit2 E) (crs : CRS E) (s : rst R),
  ms2_prove sch q X Y cx cy crs s = ms2_prove sch' q X Y cx cy crs s.
Proof. exact: @ms2_prove_sched. Qed.
Print Assumptions C55_ms2_prove.

Example C55_ms2_prove_case := @C55_ms2_prove toy fwd bwd fwd_valid bwd_valid ctr ms20 xs0 ys0 (xcoms ms2_p0) (ycoms ms2_p0) crs0 6%N.

Theorem C55_ms2_commit_and_prove : forall (E : pairing) (sch sch' : sched), valid_sched sch -> valid_sched sch' ->
  forall (R : rng E) (q : MSMEG2 E) (X : seq (Fr E)) (Y : seq (G2 E)) (crs : CRS E) (s : rst R),
  ms2_commit_and_prove sch q X Y crs s = ms2_commit_and_prove sch' q X Y crs s.
Proof. exact: @ms2_cap_sched. Qed.
Print Assumptions C55_ms2_commit_and_prove.

Example C55_ms2_commit_and_prove_case := @C55_ms2_commit_and_prove toy fwd bwd fwd_valid bwd_valid ctr ms20 xs0 ys0 crs0 6%N.

Theorem C55_ms2_verify : forall (E : pairing) (sch sch' : sched), valid_sched sch -> valid_sched sch' ->
  forall (q : MSMEG2 E) (p : CProof E) (crs : CRS E),
  ms2_verify sch q p crs = ms2_verify sch' q p crs.
Proof. exact: @ms2_verify_sched. Qed.
Print Assumptions C55_ms2_verify.

Example C55_ms2_case : valid_sched fwd /\ valid_sched bwd /\ fwd 0%N 2%N 2%N <> bwd 0%N 2%N 2%N /\
  ms2_verify bwd ms20 ms2_p0 crs0 = Ok true /\
  isok (ms2_prove fwd ms20 xs0 [::] (xcoms ms2_p0) (ycoms ms2_p0) crs0 (0%N : rst ctr)) = false /\
  isok (ms2_prove bwd ms20 xs0 [::] (xcoms ms2_p0) (ycoms ms2_p0) crs0 (0%N : rst ctr)) = false.
Proof.
split; first exact: fwd_valid; split; first exact: bwd_valid; split; first by [].
split; first exact (etrans (@C55_ms2_verify toy bwd fwd bwd_valid fwd_valid ms20 ms2_p0 crs0) ms2_p0_ok).
by split; vm_compute.
Qed.

Theorem C55_quad_prove : forall (E : pairing) (sch sch' : sched), valid_sched sch -> valid_sched sch' ->
  forall (R : rng E) (q : QuadEqu E) (X : seq (Fr E)) (Y : seq (Fr E)) (cx : Commit1 E) (cy : Commit2 E) (crs : CRS E) (s : rst R),
  quad_prove sch q X Y cx cy crs s = quad_prove sch' q X Y cx cy crs s.
Proof. exact: @quad_prove_sched. Qed.
Print Assumptions C55_quad_prove.

Example C55_quad_prove_case := @C55_quad_prove toy fwd bwd fwd_valid bwd_valid ctr quad0 xs0 ys0 (xcoms quad_p0) (ycoms quad_p0) crs0 6%N.

Theorem C55_quad_commit_and_prove : forall (E : pairing) (sch sch' : sched), valid_sched sch -> valid_sched sch' ->
  forall (R : rng E) (q : QuadEqu E) (X : seq (Fr E)) (Y : seq (Fr E)) (crs : CRS E) (s : rst R),
  quad_commit_and_prove sch q X Y crs s = quad_commit_and_prove sch' q X Y crs s.
Proof. exact: @quad_cap_sched. Qed.
Print Assumptions C55_quad_commit_and_prove.

Example C55_quad_commit_and_prove_case := @C55_quad_commit_and_prove toy fwd bwd fwd_valid bwd_valid ctr quad0 xs0 ys0 crs0 6%N.

Theorem C55_quad_verify : forall (E : pairing) (sch sch' : sched), valid_sched sch -> valid_sched sch' ->
  forall (q : QuadEqu E) (p : CProof E) (crs : CRS E),
  quad_verify sch q p crs = quad_verify sch' q p crs.
Proof. exact: @quad_verify_sched. Qed.
Print Assumptions C55_quad_verify.

Example C55_quad_case : valid_sched fwd /\ valid_sched bwd /\ fwd 0%N 2%N 2%N <> bwd 0%N 2%N 2%N /\
  quad_verify bwd quad0 quad_p0 crs0 = Ok true /\
  isok (quad_prove fwd quad0 xs0 [::] (xcoms quad_p0) (ycoms quad_p0) crs0 (0%N : rst ctr)) = false /\
  isok (quad_prove bwd quad0 xs0 [::] (xcoms quad_p0) (ycoms quad_p0) crs0 (0%N : rst ctr)) = false.
Proof.
split; first exact: fwd_valid; split; first exact: bwd_valid; split; first by [].
split; first exact (etrans (@C55_quad_verify toy bwd fwd bwd_valid fwd_valid quad0 quad_p0 crs0) quad_p0_ok).
by split; vm_compute.
Qed.

