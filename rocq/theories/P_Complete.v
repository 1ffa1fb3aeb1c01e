(** Properties C01-C04, C09, C17, C36: what honest provers and verifiers do. *)
From mathcomp Require Import all_ssreflect all_algebra.
From Verif Require Import Base Group DataStructures Generator Commit Statement Prove Verify Spec Concrete.
From Verif Require Import Main CapLemmas CapRefuted.
From Verif Require Import Concrete2.
From Verif Require Import Concrete25.
From Verif Require Import Concrete26.
Set Implicit Arguments.
Unset Strict Implicit.
Unset Printing Implicit Defensive.
Import GRing.Theory.
Local Open Scope ring_scope.

(** C01: completeness of PPE proofs. *)
Theorem C01_ppe_completeness : forall (E : pairing) (R : rng E) (sch sch' : sched)
  (q : PPE E) (X : seq (G1 E)) (Y : seq (G2 E)) (crs : CRS E) (s : rst R),
  bilinear E -> valid_sched sch -> valid_sched sch' ->
  (0 < size X)%N -> (0 < size Y)%N -> ppe_wf q (size X) (size Y) -> two_keys crs ->
  ppe_holds q X Y ->
  exists p s', ppe_commit_and_prove sch q X Y crs s = Ok (p, s') /\
               ppe_verify sch' q p crs = Ok true.
Proof. move=> E R sch sch' q X Y crs s hb vs vs'; exact: ppe_cap_complete. Qed.
Print Assumptions C01_ppe_completeness.

Example C01_ppe_case :
  exists p s', ppe_commit_and_prove bwd ppe0 xs0 ys0 crs0 (6%N : rst ctr) = Ok (p, s') /\
               ppe_verify fwd ppe0 p crs0 = Ok true.
Proof.
exact: (@C01_ppe_completeness toy ctr bwd fwd ppe0 xs0 ys0 crs0 6%N toy_bilinear
  bwd_valid fwd_valid isT isT ppe0_wf crs0_two ppe0_holds).
Qed.

(** C02: completeness of MSMEG1 proofs. *)
Theorem C02_ms1_completeness : forall (E : pairing) (R : rng E) (sch sch' : sched)
  (q : MSMEG1 E) (X : seq (G1 E)) (Y : seq (Fr E)) (crs : CRS E) (s : rst R),
  bilinear E -> valid_sched sch -> valid_sched sch' ->
  (0 < size X)%N -> (0 < size Y)%N -> ms1_wf q (size X) (size Y) -> two_keys crs ->
  ms1_holds q X Y ->
  exists p s', ms1_commit_and_prove sch q X Y crs s = Ok (p, s') /\
               ms1_verify sch' q p crs = Ok true.
Proof. move=> E R sch sch' q X Y crs s hb vs vs'; exact: ms1_cap_complete. Qed.
Print Assumptions C02_ms1_completeness.

Example C02_ms1_case :
  exists p s', ms1_commit_and_prove bwd ms10 xs0 ys0 crs0 (6%N : rst ctr) = Ok (p, s') /\
               ms1_verify fwd ms10 p crs0 = Ok true.
Proof.
exact: (@C02_ms1_completeness toy ctr bwd fwd ms10 xs0 ys0 crs0 6%N toy_bilinear
  bwd_valid fwd_valid isT isT ms10_wf crs0_two ms10_holds).
Qed.

(** C03: completeness of MSMEG2 proofs. *)
Theorem C03_ms2_completeness : forall (E : pairing) (R : rng E) (sch sch' : sched)
  (q : MSMEG2 E) (X : seq (Fr E)) (Y : seq (G2 E)) (crs : CRS E) (s : rst R),
  bilinear E -> valid_sched sch -> valid_sched sch' ->
  (0 < size X)%N -> (0 < size Y)%N -> ms2_wf q (size X) (size Y) -> two_keys crs ->
  ms2_holds q X Y ->
  exists p s', ms2_commit_and_prove sch q X Y crs s = Ok (p, s') /\
               ms2_verify sch' q p crs = Ok true.
Proof. move=> E R sch sch' q X Y crs s hb vs vs'; exact: ms2_cap_complete. Qed.
Print Assumptions C03_ms2_completeness.

Example C03_ms2_case :
  exists p s', ms2_commit_and_prove bwd ms20 xs0 ys0 crs0 (6%N : rst ctr) = Ok (p, s') /\
               ms2_verify fwd ms20 p crs0 = Ok true.
Proof.
exact: (@C03_ms2_completeness toy ctr bwd fwd ms20 xs0 ys0 crs0 6%N toy_bilinear
  bwd_valid fwd_valid isT isT ms20_wf crs0_two ms20_holds).
Qed.

(** C04: completeness of QuadEqu proofs. *)
Theorem C04_quad_completeness : forall (E : pairing) (R : rng E) (sch sch' : sched)
  (q : QuadEqu E) (X : seq (Fr E)) (Y : seq (Fr E)) (crs : CRS E) (s : rst R),
  bilinear E -> valid_sched sch -> valid_sched sch' ->
  (0 < size X)%N -> (0 < size Y)%N -> quad_wf q (size X) (size Y) -> two_keys crs ->
  quad_holds q X Y ->
  exists p s', quad_commit_and_prove sch q X Y crs s = Ok (p, s') /\
               quad_verify sch' q p crs = Ok true.
Proof. move=> E R sch sch' q X Y crs s hb vs vs'; exact: quad_cap_complete. Qed.
Print Assumptions C04_quad_completeness.

Example C04_quad_case :
  exists p s', quad_commit_and_prove bwd quad0 xs0 ys0 crs0 (6%N : rst ctr) = Ok (p, s') /\
               quad_verify fwd quad0 p crs0 = Ok true.
Proof.
exact: (@C04_quad_completeness toy ctr bwd fwd quad0 xs0 ys0 crs0 6%N toy_bilinear
  bwd_valid fwd_valid isT isT quad0_wf crs0_two quad0_holds).
Qed.

(** C09: an honest proof verifies exactly when the witness is right. *)
Theorem C09_ppe_decides : forall (E : pairing) (R : rng E) (sch sch' : sched)
  (q : PPE E) (X : seq (G1 E)) (Y : seq (G2 E)) (crs : CRS E) (s : rst R),
  bilinear E -> valid_sched sch -> valid_sched sch' ->
  (0 < size X)%N -> (0 < size Y)%N -> ppe_wf q (size X) (size Y) -> two_keys crs ->
  exists p s' b, [/\ ppe_commit_and_prove sch q X Y crs s = Ok (p, s'),
    ppe_verify sch' q p crs = Ok b & b <-> ppe_holds q X Y].
Proof. move=> E R sch sch' q X Y crs s hb vs vs'; exact: ppe_cap_dec. Qed.
Print Assumptions C09_ppe_decides.

Example C09_ppe_case :
  exists p s' b, [/\ ppe_commit_and_prove bwd ppe0 xs0 ys2 crs0 (6%N : rst ctr) = Ok (p, s'),
               ppe_verify fwd ppe0 p crs0 = Ok b & ~~ b].
Proof.
have [p [s' [b [h1 h2 h3]]]] := @C09_ppe_decides toy ctr bwd fwd ppe0 xs0 ys2 crs0 6%N
  toy_bilinear bwd_valid fwd_valid isT isT ppe0_wf crs0_two.
by exists p, s', b; split=> //; apply/negP => /h3 /ppe0_fails.
Qed.

(** C09: an honest proof verifies exactly when the witness is right. *)
Theorem C09_ms1_decides : forall (E : pairing) (R : rng E) (sch sch' : sched)
  (q : MSMEG1 E) (X : seq (G1 E)) (Y : seq (Fr E)) (crs : CRS E) (s : rst R),
  bilinear E -> nondegenerate E -> valid_sched sch -> valid_sched sch' ->
  (0 < size X)%N -> (0 < size Y)%N -> ms1_wf q (size X) (size Y) -> two_keys crs ->
  v2 crs + (0, g2_gen crs) != 0 -> exists p s' b, [/\ ms1_commit_and_prove sch q X Y crs s = Ok (p, s'),
    ms1_verify sch' q p crs = Ok b & b <-> ms1_holds q X Y].
Proof. move=> E R sch sch' q X Y crs s hb hnd vs vs'; exact: ms1_cap_dec. Qed.
Print Assumptions C09_ms1_decides.

Example C09_ms1_case :
  exists p s' b, [/\ ms1_commit_and_prove bwd ms10 xs0 ys2 crs0 (6%N : rst ctr) = Ok (p, s'),
               ms1_verify fwd ms10 p crs0 = Ok b & ~~ b].
Proof.
have [p [s' [b [h1 h2 h3]]]] := @C09_ms1_decides toy ctr bwd fwd ms10 xs0 ys2 crs0 6%N
  toy_bilinear toy_nondegenerate bwd_valid fwd_valid isT isT ms10_wf crs0_two isT.
by exists p, s', b; split=> //; apply/negP => /h3 /ms10_fails.
Qed.

(** C09: an honest proof verifies exactly when the witness is right. *)
Theorem C09_ms2_decides : forall (E : pairing) (R : rng E) (sch sch' : sched)
  (q : MSMEG2 E) (X : seq (Fr E)) (Y : seq (G2 E)) (crs : CRS E) (s : rst R),
  bilinear E -> nondegenerate E -> valid_sched sch -> valid_sched sch' ->
  (0 < size X)%N -> (0 < size Y)%N -> ms2_wf q (size X) (size Y) -> two_keys crs ->
  u2 crs + (0, g1_gen crs) != 0 -> exists p s' b, [/\ ms2_commit_and_prove sch q X Y crs s = Ok (p, s'),
    ms2_verify sch' q p crs = Ok b & b <-> ms2_holds q X Y].
Proof. move=> E R sch sch' q X Y crs s hb hnd vs vs'; exact: ms2_cap_dec. Qed.
Print Assumptions C09_ms2_decides.

Example C09_ms2_case :
  exists p s' b, [/\ ms2_commit_and_prove bwd ms20 xs0 ys2 crs0 (6%N : rst ctr) = Ok (p, s'),
               ms2_verify fwd ms20 p crs0 = Ok b & ~~ b].
Proof.
have [p [s' [b [h1 h2 h3]]]] := @C09_ms2_decides toy ctr bwd fwd ms20 xs0 ys2 crs0 6%N
  toy_bilinear toy_nondegenerate bwd_valid fwd_valid isT isT ms20_wf crs0_two isT.
by exists p, s', b; split=> //; apply/negP => /h3 /ms20_fails.
Qed.

(** C09: an honest proof verifies exactly when the witness is right. *)
Theorem C09_quad_decides : forall (E : pairing) (R : rng E) (sch sch' : sched)
  (q : QuadEqu E) (X : seq (Fr E)) (Y : seq (Fr E)) (crs : CRS E) (s : rst R),
  bilinear E -> nondegenerate E -> valid_sched sch -> valid_sched sch' ->
  (0 < size X)%N -> (0 < size Y)%N -> quad_wf q (size X) (size Y) -> two_keys crs ->
  u2 crs + (0, g1_gen crs) != 0 -> v2 crs + (0, g2_gen crs) != 0 -> exists p s' b, [/\ quad_commit_and_prove sch q X Y crs s = Ok (p, s'),
    quad_verify sch' q p crs = Ok b & b <-> quad_holds q X Y].
Proof. move=> E R sch sch' q X Y crs s hb hnd vs vs'; exact: quad_cap_dec. Qed.
Print Assumptions C09_quad_decides.

Example C09_quad_case :
  exists p s' b, [/\ quad_commit_and_prove bwd quad0 xs0 ys2 crs0 (6%N : rst ctr) = Ok (p, s'),
               quad_verify fwd quad0 p crs0 = Ok b & ~~ b].
Proof.
have [p [s' [b [h1 h2 h3]]]] := @C09_quad_decides toy ctr bwd fwd quad0 xs0 ys2 crs0 6%N
  toy_bilinear toy_nondegenerate bwd_valid fwd_valid isT isT quad0_wf crs0_two isT isT.
by exists p, s', b; split=> //; apply/negP => /h3 /quad0_fails.
Qed.

(** C09 for generated reference strings: the condition on the key is met when
    the generators are not the identity. *)
Theorem C09_generated_keys : forall (E : pairing) (R : rng E) (s : rst R) crs s',
  generate_crs s = (crs, s') ->
  [/\ two_keys crs, g1_gen crs != 0 -> u2 crs + (0, g1_gen crs) != 0
    & g2_gen crs != 0 -> v2 crs + (0, g2_gen crs) != 0].
Proof. move=> E R s crs s'; exact: generated_injective. Qed.
Print Assumptions C09_generated_keys.

Example C09_generated_case : u2 crs0 + (0, g1_gen crs0) != 0 /\ v2 crs0 + (0, g2_gen crs0) != 0.
Proof. by have [_ h1 h2] := C09_generated_keys crs0E; split; [apply: h1 | apply: h2]. Qed.

(** C17: [commit_and_prove] is commit to X, commit to Y, prove. *)
Theorem C17_ppe_steps : forall (E : pairing) (R : rng E) (sch : sched)
  (q : PPE E) (X : seq (G1 E)) (Y : seq (G2 E)) (crs : CRS E) (s s' : rst R) p,
  ppe_commit_and_prove sch q X Y crs s = Ok (p, s') <->
  exists s1 s2 pf, [/\ batch_commit_G1 X crs s = Ok (xcoms p, s1),
    batch_commit_G2 Y crs s1 = Ok (ycoms p, s2),
    ppe_prove sch q X Y (xcoms p) (ycoms p) crs s2 = Ok (pf, s')
    & equ_proofs p = [:: pf]].
Proof. move=> E R sch q X Y crs s s' p; exact: ppe_cap_steps. Qed.
Print Assumptions C17_ppe_steps.

(** C17: the inputs on which it returns. *)
Theorem C17_ppe_total : forall (E : pairing) (R : rng E) (sch : sched)
  (q : PPE E) (X : seq (G1 E)) (Y : seq (G2 E)) (crs : CRS E) (s : rst R),
  valid_sched sch ->
  (exists p s', ppe_commit_and_prove sch q X Y crs s = Ok (p, s')) <->
  [/\ (0 < size X)%N /\ (0 < size Y)%N, ppe_wf q (size X) (size Y), size (crs_u crs) = 2%N & size (crs_v crs) = 2%N].
Proof. move=> E R sch q X Y crs s vs; exact: ppe_cap_total. Qed.
Print Assumptions C17_ppe_total.

Example C17_ppe_case :
  exists p s', ppe_commit_and_prove bwd ppe0 xs0 ys2 crs0 (6%N : rst ctr) = Ok (p, s').
Proof. by apply/C17_ppe_total; [apply: bwd_valid | split=> //; apply: ppe0_wf]. Qed.

(** C17: [commit_and_prove] is commit to X, commit to Y, prove. *)
Theorem C17_ms1_steps : forall (E : pairing) (R : rng E) (sch : sched)
  (q : MSMEG1 E) (X : seq (G1 E)) (Y : seq (Fr E)) (crs : CRS E) (s s' : rst R) p,
  ms1_commit_and_prove sch q X Y crs s = Ok (p, s') <->
  exists s1 s2 pf, [/\ batch_commit_G1 X crs s = Ok (xcoms p, s1),
    batch_commit_scalar_to_B2 Y crs s1 = Ok (ycoms p, s2),
    ms1_prove sch q X Y (xcoms p) (ycoms p) crs s2 = Ok (pf, s')
    & equ_proofs p = [:: pf]].
Proof. move=> E R sch q X Y crs s s' p; exact: ms1_cap_steps. Qed.
Print Assumptions C17_ms1_steps.

(** C17: the inputs on which it returns. *)
Theorem C17_ms1_total : forall (E : pairing) (R : rng E) (sch : sched)
  (q : MSMEG1 E) (X : seq (G1 E)) (Y : seq (Fr E)) (crs : CRS E) (s : rst R),
  valid_sched sch ->
  (exists p s', ms1_commit_and_prove sch q X Y crs s = Ok (p, s')) <->
  [/\ (0 < size X)%N /\ (0 < size Y)%N, ms1_wf q (size X) (size Y), size (crs_u crs) = 2%N & (1 < size (crs_v crs))%N].
Proof. move=> E R sch q X Y crs s vs; exact: ms1_cap_total. Qed.
Print Assumptions C17_ms1_total.

Example C17_ms1_case :
  exists p s', ms1_commit_and_prove bwd ms10 xs0 ys2 crs0 (6%N : rst ctr) = Ok (p, s').
Proof. by apply/C17_ms1_total; [apply: bwd_valid | split=> //; apply: ms10_wf]. Qed.

(** C17: [commit_and_prove] is commit to X, commit to Y, prove. *)
Theorem C17_ms2_steps : forall (E : pairing) (R : rng E) (sch : sched)
  (q : MSMEG2 E) (X : seq (Fr E)) (Y : seq (G2 E)) (crs : CRS E) (s s' : rst R) p,
  ms2_commit_and_prove sch q X Y crs s = Ok (p, s') <->
  exists s1 s2 pf, [/\ batch_commit_scalar_to_B1 X crs s = Ok (xcoms p, s1),
    batch_commit_G2 Y crs s1 = Ok (ycoms p, s2),
    ms2_prove sch q X Y (xcoms p) (ycoms p) crs s2 = Ok (pf, s')
    & equ_proofs p = [:: pf]].
Proof. move=> E R sch q X Y crs s s' p; exact: ms2_cap_steps. Qed.
Print Assumptions C17_ms2_steps.

(** C17: the inputs on which it returns. *)
Theorem C17_ms2_total : forall (E : pairing) (R : rng E) (sch : sched)
  (q : MSMEG2 E) (X : seq (Fr E)) (Y : seq (G2 E)) (crs : CRS E) (s : rst R),
  valid_sched sch ->
  (exists p s', ms2_commit_and_prove sch q X Y crs s = Ok (p, s')) <->
  [/\ (0 < size X)%N /\ (0 < size Y)%N, ms2_wf q (size X) (size Y), (1 < size (crs_u crs))%N & size (crs_v crs) = 2%N].
Proof. move=> E R sch q X Y crs s vs; exact: ms2_cap_total. Qed.
Print Assumptions C17_ms2_total.

Example C17_ms2_case :
  exists p s', ms2_commit_and_prove bwd ms20 xs0 ys2 crs0 (6%N : rst ctr) = Ok (p, s').
Proof. by apply/C17_ms2_total; [apply: bwd_valid | split=> //; apply: ms20_wf]. Qed.

(** C17: [commit_and_prove] is commit to X, commit to Y, prove. *)
Theorem C17_quad_steps : forall (E : pairing) (R : rng E) (sch : sched)
  (q : QuadEqu E) (X : seq (Fr E)) (Y : seq (Fr E)) (crs : CRS E) (s s' : rst R) p,
  quad_commit_and_prove sch q X Y crs s = Ok (p, s') <->
  exists s1 s2 pf, [/\ batch_commit_scalar_to_B1 X crs s = Ok (xcoms p, s1),
    batch_commit_scalar_to_B2 Y crs s1 = Ok (ycoms p, s2),
    quad_prove sch q X Y (xcoms p) (ycoms p) crs s2 = Ok (pf, s')
    & equ_proofs p = [:: pf]].
Proof. move=> E R sch q X Y crs s s' p; exact: quad_cap_steps. Qed.
Print Assumptions C17_quad_steps.

(** C17: the inputs on which it returns. *)
Theorem C17_quad_total : forall (E : pairing) (R : rng E) (sch : sched)
  (q : QuadEqu E) (X : seq (Fr E)) (Y : seq (Fr E)) (crs : CRS E) (s : rst R),
  valid_sched sch ->
  (exists p s', quad_commit_and_prove sch q X Y crs s = Ok (p, s')) <->
  [/\ (0 < size X)%N /\ (0 < size Y)%N, quad_wf q (size X) (size Y), (1 < size (crs_u crs))%N & (1 < size (crs_v crs))%N].
Proof. move=> E R sch q X Y crs s vs; exact: quad_cap_total. Qed.
Print Assumptions C17_quad_total.

Example C17_quad_case :
  exists p s', quad_commit_and_prove bwd quad0 xs0 ys2 crs0 (6%N : rst ctr) = Ok (p, s').
Proof. by apply/C17_quad_total; [apply: bwd_valid | split=> //; apply: quad0_wf]. Qed.

(** C36 (refuted): an equation without x-variables or without y-variables
    cannot be proved, whatever the CRS. *)
Theorem C36_ppe_refuted : forall (E : pairing) (R : rng E) (sch : sched)
  (q : PPE E) (X : seq (G1 E)) (Y : seq (G2 E)) (crs : CRS E) (s : rst R),
  valid_sched sch -> X = [::] \/ Y = [::] ->
  exists e, ppe_commit_and_prove sch q X Y crs s = Panic e.
Proof. move=> E R sch q X Y crs s vs; exact: ppe_cap_empty. Qed.
Print Assumptions C36_ppe_refuted.

Example C36_ppe_refuted_case := @C36_ppe_refuted toy ctr fwd ppe0 [::] ys0 crs0 6%N fwd_valid (or_introl erefl).

(** C36 (refuted): with x-variables but no y-variables every proof makes the verifier panic. *)
Theorem C36_ppe_verify_refuted : forall (E : pairing) (sch : sched) (q : PPE E) (p : CProof E) (crs : CRS E),
  valid_sched sch -> (0 < size (coms (xcoms p)))%N -> coms (ycoms p) = [::] ->
  exists e, ppe_verify sch q p crs = Panic e.
Proof. move=> E sch q p crs vs; exact: ppe_verify_empty. Qed.
Print Assumptions C36_ppe_verify_refuted.

Example C36_ppe_verify_refuted_case := @C36_ppe_verify_refuted toy fwd ppe0 (mkCProof (xcoms ppe_p0) (mkCommit [::] [::]) (equ_proofs ppe_p0)) crs0 fwd_valid isT erefl.

(** C36 (refuted): an equation without x-variables or without y-variables
    cannot be proved, whatever the CRS. *)
Theorem C36_ms1_refuted : forall (E : pairing) (R : rng E) (sch : sched)
  (q : MSMEG1 E) (X : seq (G1 E)) (Y : seq (Fr E)) (crs : CRS E) (s : rst R),
  valid_sched sch -> X = [::] \/ Y = [::] ->
  exists e, ms1_commit_and_prove sch q X Y crs s = Panic e.
Proof. move=> E R sch q X Y crs s vs; exact: ms1_cap_empty. Qed.
Print Assumptions C36_ms1_refuted.

Example C36_ms1_refuted_case := @C36_ms1_refuted toy ctr fwd ms10 [::] ys0 crs0 6%N fwd_valid (or_introl erefl).

(** C36 (refuted): with x-variables but no y-variables every proof makes the verifier panic. *)
Theorem C36_ms1_verify_refuted : forall (E : pairing) (sch : sched) (q : MSMEG1 E) (p : CProof E) (crs : CRS E),
  valid_sched sch -> (0 < size (coms (xcoms p)))%N -> coms (ycoms p) = [::] ->
  exists e, ms1_verify sch q p crs = Panic e.
Proof. move=> E sch q p crs vs; exact: ms1_verify_empty. Qed.
Print Assumptions C36_ms1_verify_refuted.

Example C36_ms1_verify_refuted_case := @C36_ms1_verify_refuted toy fwd ms10 (mkCProof (xcoms ms1_p0) (mkCommit [::] [::]) (equ_proofs ms1_p0)) crs0 fwd_valid isT erefl.

(** C36 (refuted): an equation without x-variables or without y-variables
    cannot be proved, whatever the CRS. *)
Theorem C36_ms2_refuted : forall (E : pairing) (R : rng E) (sch : sched)
  (q : MSMEG2 E) (X : seq (Fr E)) (Y : seq (G2 E)) (crs : CRS E) (s : rst R),
  valid_sched sch -> X = [::] \/ Y = [::] ->
  exists e, ms2_commit_and_prove sch q X Y crs s = Panic e.
Proof. move=> E R sch q X Y crs s vs; exact: ms2_cap_empty. Qed.
Print Assumptions C36_ms2_refuted.

Example C36_ms2_refuted_case := @C36_ms2_refuted toy ctr fwd ms20 [::] ys0 crs0 6%N fwd_valid (or_introl erefl).

(** C36 (refuted): with x-variables but no y-variables every proof makes the verifier panic. *)
Theorem C36_ms2_verify_refuted : forall (E : pairing) (sch : sched) (q : MSMEG2 E) (p : CProof E) (crs : CRS E),
  valid_sched sch -> (0 < size (coms (xcoms p)))%N -> coms (ycoms p) = [::] ->
  exists e, ms2_verify sch q p crs = Panic e.
Proof. move=> E sch q p crs vs; exact: ms2_verify_empty. Qed.
Print Assumptions C36_ms2_verify_refuted.

Example C36_ms2_verify_refuted_case := @C36_ms2_verify_refuted toy fwd ms20 (mkCProof (xcoms ms2_p0) (mkCommit [::] [::]) (equ_proofs ms2_p0)) crs0 fwd_valid isT erefl.

(** C36 (refuted): an equation without x-variables or without y-variables
    cannot be proved, whatever the CRS. *)
Theorem C36_quad_refuted : forall (E : pairing) (R : rng E) (sch : sched)
  (q : QuadEqu E) (X : seq (Fr E)) (Y : seq (Fr E)) (crs : CRS E) (s : rst R),
  valid_sched sch -> X = [::] \/ Y = [::] ->
  exists e, quad_commit_and_prove sch q X Y crs s = Panic e.
Proof. move=> E R sch q X Y crs s vs; exact: quad_cap_empty. Qed.
Print Assumptions C36_quad_refuted.

Example C36_quad_refuted_case := @C36_quad_refuted toy ctr fwd quad0 [::] ys0 crs0 6%N fwd_valid (or_introl erefl).

(** C36 (refuted): with x-variables but no y-variables every proof makes the verifier panic. *)
Theorem C36_quad_verify_refuted : forall (E : pairing) (sch : sched) (q : QuadEqu E) (p : CProof E) (crs : CRS E),
  valid_sched sch -> (0 < size (coms (xcoms p)))%N -> coms (ycoms p) = [::] ->
  exists e, quad_verify sch q p crs = Panic e.
Proof. move=> E sch q p crs vs; exact: quad_verify_empty. Qed.
Print Assumptions C36_quad_verify_refuted.

(** C36: a satisfied, well-formed equation in one variable [2 x = 6] which cannot be proved. *)
Example C36_ppe_case : let q := mkPPE (E := toy) [::] [:: 2%:R : F7] [:: [::]] (6%:R : F7) in
  [/\ ppe_wf q 1 0, ppe_holds q [:: 3%:R : F7] [::]
    & exists e, ppe_commit_and_prove fwd q [:: 3%:R : F7] [::] crs0 (6%N : rst ctr) = Panic e].
Proof.
split; first by split=> //; split=> // -[|].
  by rewrite /ppe_holds /= !big_ord_recl !big_ord0; apply/eqP; vm_compute.
by apply: C36_ppe_refuted fwd_valid _; right.
Qed.

(** C36: a satisfied, well-formed equation in one variable [2 x = 6] which cannot be proved. *)
Example C36_ms1_case : let q := mkMSMEG1 (E := toy) [::] [:: 2%:R : F7] [:: [::]] (6%:R : F7) in
  [/\ ms1_wf q 1 0, ms1_holds q [:: 3%:R : F7] [::]
    & exists e, ms1_commit_and_prove fwd q [:: 3%:R : F7] [::] crs0 (6%N : rst ctr) = Panic e].
Proof.
split; first by split=> //; split=> // -[|].
  by rewrite /ms1_holds /= !big_ord_recl !big_ord0; apply/eqP; vm_compute.
by apply: C36_ms1_refuted fwd_valid _; right.
Qed.

(** C36: a satisfied, well-formed equation in one variable [2 x = 6] which cannot be proved. *)
Example C36_ms2_case : let q := mkMSMEG2 (E := toy) [::] [:: 2%:R : F7] [:: [::]] (6%:R : F7) in
  [/\ ms2_wf q 1 0, ms2_holds q [:: 3%:R : F7] [::]
    & exists e, ms2_commit_and_prove fwd q [:: 3%:R : F7] [::] crs0 (6%N : rst ctr) = Panic e].
Proof.
split; first by split=> //; split=> // -[|].
  by rewrite /ms2_holds /= !big_ord_recl !big_ord0; apply/eqP; vm_compute.
by apply: C36_ms2_refuted fwd_valid _; right.
Qed.

(** C36: a satisfied, well-formed equation in one variable [2 x = 6] which cannot be proved. *)
Example C36_quad_case : let q := mkQuadEqu (E := toy) [::] [:: 2%:R : F7] [:: [::]] (6%:R : F7) in
  [/\ quad_wf q 1 0, quad_holds q [:: 3%:R : F7] [::]
    & exists e, quad_commit_and_prove fwd q [:: 3%:R : F7] [::] crs0 (6%N : rst ctr) = Panic e].
Proof.
split; first by split=> //; split=> // -[|].
  by rewrite /quad_holds /= !big_ord_recl !big_ord0; apply/eqP; vm_compute.
by apply: C36_quad_refuted fwd_valid _; right.
Qed.

