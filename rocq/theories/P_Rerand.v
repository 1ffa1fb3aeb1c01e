(** Properties C60, C62: re-randomization of proofs without the witness; combinations of
    commitments, equations and proofs. *)
From mathcomp Require Import all_ssreflect all_algebra.
From Verif Require Import Base BaseLemmas Group DataStructures Generator Commit Statement Prove Verify Spec SpecVerify SpecHide SpecRerand HideProps Rerand RerandProps Concrete Concrete2 Concrete4 Concrete5 Concrete7.
From Verif Require Import Concrete25.
From Verif Require Import Concrete26.
Set Implicit Arguments.
Unset Strict Implicit.
Unset Printing Implicit Defensive.
Import GRing.Theory.
Local Open Scope ring_scope.

(** C60: a proof re-randomized without the witness verifies as before, for commitments to the same values,
    and is distributed as a proof made from scratch. *)
Theorem C60_ppe_verifies : forall (E : pairing) (sch : sched) (q : PPE E) (p : CProof E) (crs : CRS E) b (R S T : nat -> nat -> Fr E), bilinear E -> valid_sched sch ->
  ppe_verify sch q p crs = Ok b -> ppe_verify sch q (ppe_rerand q crs R S T p) crs = Ok b.
Proof. exact: @k_C60_ppe_verifies. Qed.
Print Assumptions C60_ppe_verifies.

Example C60_ppe_verifies_case :
  ppe_verify fwd ppe0 (ppe_rerand ppe0 crs0 (fun i a => (i + 2 * a + 1)%:R) (fun j b => (j + b + 3)%:R) (fun b a => (b + a + 4)%:R) ppe_p0) crs0 = Ok true /\
  ppe_verify fwd ppe0 (ppe_rerand ppe0 crs0 (fun i a => (i + 2 * a + 1)%:R) (fun j b => (j + b + 3)%:R) (fun b a => (b + a + 4)%:R) ppe_p2) crs0 = Ok false /\
  nth 0 (coms (xcoms (ppe_rerand ppe0 crs0 (fun i a => (i + 2 * a + 1)%:R) (fun j b => (j + b + 3)%:R) (fun b a => (b + a + 4)%:R) ppe_p0))) 0 != nth 0 (coms (xcoms ppe_p0)) 0.
Proof.
split; [|split].
- exact: (C60_ppe_verifies _ _ _ toy_bilinear fwd_valid ppe_p0_ok).
- exact: (C60_ppe_verifies _ _ _ toy_bilinear fwd_valid ppe_p2_ok).
by rewrite -[X in X != _]/(nth 0 (coms (xcoms ppe_p0)) 0 + \sum_(a < _) (0 + 2 * a + 1)%:R *: nth 0 (crs_u crs0) a) !big_ord_recl big_ord0; vm_compute.
Qed.

Theorem C60_ppe_fresh : forall (E : pairing) (sch sch' : sched) (q : PPE E) (X : seq (G1 E)) (Y : seq (G2 E)) (crs : CRS E) (R : rng E) (s s' : rst R) (p : CProof E),
  valid_sched sch -> valid_sched sch' -> two_keys crs -> (0 < size X)%N -> (0 < size Y)%N -> ppe_wf q (size X) (size Y) ->
  ppe_commit_and_prove sch q X Y crs s = Ok (p, s') ->
  same_output (2 * size X + (2 * size Y + 4))%N public public (@with_draws E _ (2 * size X + (2 * size Y + 4))%N (ppe_refresh q crs p))
    (fun R s => ppe_commit_and_prove (R := R) sch' q X Y crs s).
Proof. exact: @k_C60_ppe_fresh. Qed.
Print Assumptions C60_ppe_fresh.

Example C60_ppe_fresh_case : exists p s', ppe_commit_and_prove fwd ppe0 xs0 ys0 crs0 (6%N : rst ctr) = Ok (p, s') /\
  same_output (2 * 2 + (2 * 1 + 4))%N public public (@with_draws toy _ (2 * 2 + (2 * 1 + 4))%N (ppe_refresh ppe0 crs0 p))
    (fun R s => ppe_commit_and_prove (E := toy) (R := R) bwd ppe0 xs0 ys0 crs0 s).
Proof.
have /isokP[[p s'] e] : isok (ppe_commit_and_prove fwd ppe0 xs0 ys0 crs0 (6%N : rst ctr)) by [].
exists p, s'; split; [exact: e|]; refine (@C60_ppe_fresh toy fwd bwd ppe0 xs0 ys0 crs0 ctr 6%N s' p fwd_valid bwd_valid crs0_two isT isT ppe0_wf e).
Qed.

Theorem C60_ppe_counts : forall (F : finFieldType) (A B C : lmodType F) (e : A -> B -> C), let E := Pairing e in
  forall (sch sch' : sched) (q : PPE E) (X : seq (G1 E)) (Y : seq (G2 E)) (crs : CRS E) (R : rng E) (s s' : rst R) (p : CProof E) D,
  valid_sched sch -> valid_sched sch' -> two_keys crs -> (0 < size X)%N -> (0 < size Y)%N -> ppe_wf q (size X) (size Y) ->
  ppe_commit_and_prove sch q X Y crs s = Ok (p, s') ->
  tapes (2 * size X + (2 * size Y + 4))%N public (@with_draws E _ (2 * size X + (2 * size Y + 4))%N (ppe_refresh q crs p)) D
  = tapes (2 * size X + (2 * size Y + 4))%N public (fun R s => ppe_commit_and_prove (R := R) sch' q X Y crs s) D.
Proof. move=> F A B C e E sch sch' q X Y crs R s s' p D vs vs' tk h1 h2 wf h; apply: same_tapes; exact: (k_C60_ppe_fresh vs vs' tk h1 h2 wf h). Qed.
Print Assumptions C60_ppe_counts.

Example C60_ppe_counts_case := @C60_ppe_counts [finFieldType of F7] F7o F7o F7o (fun x y : F7 => x * y) fwd bwd ppe0 xs0 ys0 crs0 ctr 6%N ppe_run0.2 ppe_run0.1 (fun r => if r is Ok c then c.1.1 == [:: (n7 1, n7 2); (n7 3, n7 4)] else false) fwd_valid bwd_valid crs0_two isT isT ppe0_wf ppe_run0E.

Theorem C60_ms1_verifies : forall (E : pairing) (sch : sched) (q : MSMEG1 E) (p : CProof E) (crs : CRS E) b (R S T : nat -> nat -> Fr E), bilinear E -> valid_sched sch ->
  ms1_verify sch q p crs = Ok b -> ms1_verify sch q (ms1_rerand q crs R S T p) crs = Ok b.
Proof. exact: @k_C60_ms1_verifies. Qed.
Print Assumptions C60_ms1_verifies.

Example C60_ms1_verifies_case :
  ms1_verify fwd ms10 (ms1_rerand ms10 crs0 (fun i a => (i + 2 * a + 1)%:R) (fun j b => (j + b + 3)%:R) (fun b a => (b + a + 4)%:R) ms1_p0) crs0 = Ok true /\
  ms1_verify fwd ms10 (ms1_rerand ms10 crs0 (fun i a => (i + 2 * a + 1)%:R) (fun j b => (j + b + 3)%:R) (fun b a => (b + a + 4)%:R) ms1_p2) crs0 = Ok false /\
  nth 0 (coms (xcoms (ms1_rerand ms10 crs0 (fun i a => (i + 2 * a + 1)%:R) (fun j b => (j + b + 3)%:R) (fun b a => (b + a + 4)%:R) ms1_p0))) 0 != nth 0 (coms (xcoms ms1_p0)) 0.
Proof.
split; [|split].
- exact: (C60_ms1_verifies _ _ _ toy_bilinear fwd_valid ms1_p0_ok).
- exact: (C60_ms1_verifies _ _ _ toy_bilinear fwd_valid ms1_p2_ok).
by rewrite -[X in X != _]/(nth 0 (coms (xcoms ms1_p0)) 0 + \sum_(a < _) (0 + 2 * a + 1)%:R *: nth 0 (crs_u crs0) a) !big_ord_recl big_ord0; vm_compute.
Qed.

Theorem C60_ms1_fresh : forall (E : pairing) (sch sch' : sched) (q : MSMEG1 E) (X : seq (G1 E)) (Y : seq (Fr E)) (crs : CRS E) (R : rng E) (s s' : rst R) (p : CProof E),
  valid_sched sch -> valid_sched sch' -> two_keys crs -> (0 < size X)%N -> (0 < size Y)%N -> ms1_wf q (size X) (size Y) ->
  ms1_commit_and_prove sch q X Y crs s = Ok (p, s') ->
  same_output (2 * size X + (size Y + 2))%N public public (@with_draws E _ (2 * size X + (size Y + 2))%N (ms1_refresh q crs p))
    (fun R s => ms1_commit_and_prove (R := R) sch' q X Y crs s).
Proof. exact: @k_C60_ms1_fresh. Qed.
Print Assumptions C60_ms1_fresh.

Example C60_ms1_fresh_case : exists p s', ms1_commit_and_prove fwd ms10 xs0 ys0 crs0 (6%N : rst ctr) = Ok (p, s') /\
  same_output (2 * 2 + (1 + 2))%N public public (@with_draws toy _ (2 * 2 + (1 + 2))%N (ms1_refresh ms10 crs0 p))
    (fun R s => ms1_commit_and_prove (E := toy) (R := R) bwd ms10 xs0 ys0 crs0 s).
Proof.
have /isokP[[p s'] e] : isok (ms1_commit_and_prove fwd ms10 xs0 ys0 crs0 (6%N : rst ctr)) by [].
exists p, s'; split; [exact: e|]; refine (@C60_ms1_fresh toy fwd bwd ms10 xs0 ys0 crs0 ctr 6%N s' p fwd_valid bwd_valid crs0_two isT isT ms10_wf e).
Qed.

Theorem C60_ms1_counts : forall (F : finFieldType) (A B C : lmodType F) (e : A -> B -> C), let E := Pairing e in
  forall (sch sch' : sched) (q : MSMEG1 E) (X : seq (G1 E)) (Y : seq (Fr E)) (crs : CRS E) (R : rng E) (s s' : rst R) (p : CProof E) D,
  valid_sched sch -> valid_sched sch' -> two_keys crs -> (0 < size X)%N -> (0 < size Y)%N -> ms1_wf q (size X) (size Y) ->
  ms1_commit_and_prove sch q X Y crs s = Ok (p, s') ->
  tapes (2 * size X + (size Y + 2))%N public (@with_draws E _ (2 * size X + (size Y + 2))%N (ms1_refresh q crs p)) D
  = tapes (2 * size X + (size Y + 2))%N public (fun R s => ms1_commit_and_prove (R := R) sch' q X Y crs s) D.
Proof. move=> F A B C e E sch sch' q X Y crs R s s' p D vs vs' tk h1 h2 wf h; apply: same_tapes; exact: (k_C60_ms1_fresh vs vs' tk h1 h2 wf h). Qed.
Print Assumptions C60_ms1_counts.

Example C60_ms1_counts_case := @C60_ms1_counts [finFieldType of F7] F7o F7o F7o (fun x y : F7 => x * y) fwd bwd ms10 xs0 ys0 crs0 ctr 6%N ms1_run0.2 ms1_run0.1 (fun r => if r is Ok c then c.1.1 == [:: (n7 1, n7 2); (n7 3, n7 4)] else false) fwd_valid bwd_valid crs0_two isT isT ms10_wf ms1_run0E.

Theorem C60_ms2_verifies : forall (E : pairing) (sch : sched) (q : MSMEG2 E) (p : CProof E) (crs : CRS E) b (R S T : nat -> nat -> Fr E), bilinear E -> valid_sched sch ->
  ms2_verify sch q p crs = Ok b -> ms2_verify sch q (ms2_rerand q crs R S T p) crs = Ok b.
Proof. exact: @k_C60_ms2_verifies. Qed.
Print Assumptions C60_ms2_verifies.

Example C60_ms2_verifies_case :
  ms2_verify fwd ms20 (ms2_rerand ms20 crs0 (fun i a => (i + 2 * a + 1)%:R) (fun j b => (j + b + 3)%:R) (fun b a => (b + a + 4)%:R) ms2_p0) crs0 = Ok true /\
  ms2_verify fwd ms20 (ms2_rerand ms20 crs0 (fun i a => (i + 2 * a + 1)%:R) (fun j b => (j + b + 3)%:R) (fun b a => (b + a + 4)%:R) ms2_p2) crs0 = Ok false /\
  nth 0 (coms (xcoms (ms2_rerand ms20 crs0 (fun i a => (i + 2 * a + 1)%:R) (fun j b => (j + b + 3)%:R) (fun b a => (b + a + 4)%:R) ms2_p0))) 0 != nth 0 (coms (xcoms ms2_p0)) 0.
Proof.
split; [|split].
- exact: (C60_ms2_verifies _ _ _ toy_bilinear fwd_valid ms2_p0_ok).
- exact: (C60_ms2_verifies _ _ _ toy_bilinear fwd_valid ms2_p2_ok).
by rewrite -[X in X != _]/(nth 0 (coms (xcoms ms2_p0)) 0 + \sum_(a < _) (0 + 2 * a + 1)%:R *: nth 0 (crs_u crs0) a) !big_ord_recl big_ord0; vm_compute.
Qed.

Theorem C60_ms2_fresh : forall (E : pairing) (sch sch' : sched) (q : MSMEG2 E) (X : seq (Fr E)) (Y : seq (G2 E)) (crs : CRS E) (R : rng E) (s s' : rst R) (p : CProof E),
  valid_sched sch -> valid_sched sch' -> two_keys crs -> (0 < size X)%N -> (0 < size Y)%N -> ms2_wf q (size X) (size Y) ->
  ms2_commit_and_prove sch q X Y crs s = Ok (p, s') ->
  same_output (size X + (2 * size Y + 2))%N public public (@with_draws E _ (size X + (2 * size Y + 2))%N (ms2_refresh q crs p))
    (fun R s => ms2_commit_and_prove (R := R) sch' q X Y crs s).
Proof. exact: @k_C60_ms2_fresh. Qed.
Print Assumptions C60_ms2_fresh.

Example C60_ms2_fresh_case : exists p s', ms2_commit_and_prove fwd ms20 xs0 ys0 crs0 (6%N : rst ctr) = Ok (p, s') /\
  same_output (2 + (2 * 1 + 2))%N public public (@with_draws toy _ (2 + (2 * 1 + 2))%N (ms2_refresh ms20 crs0 p))
    (fun R s => ms2_commit_and_prove (E := toy) (R := R) bwd ms20 xs0 ys0 crs0 s).
Proof.
have /isokP[[p s'] e] : isok (ms2_commit_and_prove fwd ms20 xs0 ys0 crs0 (6%N : rst ctr)) by [].
exists p, s'; split; [exact: e|]; refine (@C60_ms2_fresh toy fwd bwd ms20 xs0 ys0 crs0 ctr 6%N s' p fwd_valid bwd_valid crs0_two isT isT ms20_wf e).
Qed.

Theorem C60_ms2_counts : forall (F : finFieldType) (A B C : lmodType F) (e : A -> B -> C), let E := Pairing e in
  forall (sch sch' : sched) (q : MSMEG2 E) (X : seq (Fr E)) (Y : seq (G2 E)) (crs : CRS E) (R : rng E) (s s' : rst R) (p : CProof E) D,
  valid_sched sch -> valid_sched sch' -> two_keys crs -> (0 < size X)%N -> (0 < size Y)%N -> ms2_wf q (size X) (size Y) ->
  ms2_commit_and_prove sch q X Y crs s = Ok (p, s') ->
  tapes (size X + (2 * size Y + 2))%N public (@with_draws E _ (size X + (2 * size Y + 2))%N (ms2_refresh q crs p)) D
  = tapes (size X + (2 * size Y + 2))%N public (fun R s => ms2_commit_and_prove (R := R) sch' q X Y crs s) D.
Proof. move=> F A B C e E sch sch' q X Y crs R s s' p D vs vs' tk h1 h2 wf h; apply: same_tapes; exact: (k_C60_ms2_fresh vs vs' tk h1 h2 wf h). Qed.
Print Assumptions C60_ms2_counts.

Example C60_ms2_counts_case := @C60_ms2_counts [finFieldType of F7] F7o F7o F7o (fun x y : F7 => x * y) fwd bwd ms20 xs0 ys0 crs0 ctr 6%N ms2_run0.2 ms2_run0.1 (fun r => if r is Ok c then c.1.1 == [:: (n7 1, n7 2); (n7 3, n7 4)] else false) fwd_valid bwd_valid crs0_two isT isT ms20_wf ms2_run0E.

Theorem C60_quad_verifies : forall (E : pairing) (sch : sched) (q : QuadEqu E) (p : CProof E) (crs : CRS E) b (R S T : nat -> nat -> Fr E), bilinear E -> valid_sched sch ->
  quad_verify sch q p crs = Ok b -> quad_verify sch q (quad_rerand q crs R S T p) crs = Ok b.
Proof. exact: @k_C60_quad_verifies. Qed.
Print Assumptions C60_quad_verifies.

Example C60_quad_verifies_case :
  quad_verify fwd quad0 (quad_rerand quad0 crs0 (fun i a => (i + 2 * a + 1)%:R) (fun j b => (j + b + 3)%:R) (fun b a => (b + a + 4)%:R) quad_p0) crs0 = Ok true /\
  quad_verify fwd quad0 (quad_rerand quad0 crs0 (fun i a => (i + 2 * a + 1)%:R) (fun j b => (j + b + 3)%:R) (fun b a => (b + a + 4)%:R) quad_p2) crs0 = Ok false /\
  nth 0 (coms (xcoms (quad_rerand quad0 crs0 (fun i a => (i + 2 * a + 1)%:R) (fun j b => (j + b + 3)%:R) (fun b a => (b + a + 4)%:R) quad_p0))) 0 != nth 0 (coms (xcoms quad_p0)) 0.
Proof.
split; [|split].
- exact: (C60_quad_verifies _ _ _ toy_bilinear fwd_valid quad_p0_ok).
- exact: (C60_quad_verifies _ _ _ toy_bilinear fwd_valid quad_p2_ok).
by rewrite -[X in X != _]/(nth 0 (coms (xcoms quad_p0)) 0 + \sum_(a < _) (0 + 2 * a + 1)%:R *: nth 0 (crs_u crs0) a) !big_ord_recl big_ord0; vm_compute.
Qed.

Theorem C60_quad_fresh : forall (E : pairing) (sch sch' : sched) (q : QuadEqu E) (X : seq (Fr E)) (Y : seq (Fr E)) (crs : CRS E) (R : rng E) (s s' : rst R) (p : CProof E),
  valid_sched sch -> valid_sched sch' -> two_keys crs -> (0 < size X)%N -> (0 < size Y)%N -> quad_wf q (size X) (size Y) ->
  quad_commit_and_prove sch q X Y crs s = Ok (p, s') ->
  same_output (size X + (size Y + 1))%N public public (@with_draws E _ (size X + (size Y + 1))%N (quad_refresh q crs p))
    (fun R s => quad_commit_and_prove (R := R) sch' q X Y crs s).
Proof. exact: @k_C60_quad_fresh. Qed.
Print Assumptions C60_quad_fresh.

Example C60_quad_fresh_case : exists p s', quad_commit_and_prove fwd quad0 xs0 ys0 crs0 (6%N : rst ctr) = Ok (p, s') /\
  same_output (2 + (1 + 1))%N public public (@with_draws toy _ (2 + (1 + 1))%N (quad_refresh quad0 crs0 p))
    (fun R s => quad_commit_and_prove (E := toy) (R := R) bwd quad0 xs0 ys0 crs0 s).
Proof.
have /isokP[[p s'] e] : isok (quad_commit_and_prove fwd quad0 xs0 ys0 crs0 (6%N : rst ctr)) by [].
exists p, s'; split; [exact: e|]; refine (@C60_quad_fresh toy fwd bwd quad0 xs0 ys0 crs0 ctr 6%N s' p fwd_valid bwd_valid crs0_two isT isT quad0_wf e).
Qed.

Theorem C60_quad_counts : forall (F : finFieldType) (A B C : lmodType F) (e : A -> B -> C), let E := Pairing e in
  forall (sch sch' : sched) (q : QuadEqu E) (X : seq (Fr E)) (Y : seq (Fr E)) (crs : CRS E) (R : rng E) (s s' : rst R) (p : CProof E) D,
  valid_sched sch -> valid_sched sch' -> two_keys crs -> (0 < size X)%N -> (0 < size Y)%N -> quad_wf q (size X) (size Y) ->
  quad_commit_and_prove sch q X Y crs s = Ok (p, s') ->
  tapes (size X + (size Y + 1))%N public (@with_draws E _ (size X + (size Y + 1))%N (quad_refresh q crs p)) D
  = tapes (size X + (size Y + 1))%N public (fun R s => quad_commit_and_prove (R := R) sch' q X Y crs s) D.
Proof. move=> F A B C e E sch sch' q X Y crs R s s' p D vs vs' tk h1 h2 wf h; apply: same_tapes; exact: (k_C60_quad_fresh vs vs' tk h1 h2 wf h). Qed.
Print Assumptions C60_quad_counts.

Example C60_quad_counts_case := @C60_quad_counts [finFieldType of F7] F7o F7o F7o (fun x y : F7 => x * y) fwd bwd quad0 xs0 ys0 crs0 ctr 6%N quad_run0.2 quad_run0.1 (fun r => if r is Ok c then c.1.1 == [:: (n7 1, n7 2); (n7 3, n7 4)] else false) fwd_valid bwd_valid crs0_two isT isT quad0_wf quad_run0E.

Theorem C60_G1_values : forall (E : pairing) (crs : CRS E) (R : nat -> nat -> Fr E) (c : seq (Com1 E)) (X : seq (G1 E)),
  two_keys crs -> commits_G1 crs c X -> commits_G1 crs (fresh_c (size (crs_u crs)) crs R c) X.
Proof. exact: @k_C60_G1. Qed.
Print Assumptions C60_G1_values.

Example C60_G1_values_case := @C60_G1_values toy crs0 (fun i a => (i + 2 * a + 1)%:R) (coms many_G10.1) xs0 crs0_two commits_G10.

Theorem C60_G2_values : forall (E : pairing) (crs : CRS E) (R : nat -> nat -> Fr E) (c : seq (Com2 E)) (X : seq (G2 E)),
  two_keys crs -> commits_G2 crs c X -> commits_G2 crs (fresh_d (size (crs_v crs)) crs R c) X.
Proof. exact: @k_C60_G2. Qed.
Print Assumptions C60_G2_values.

Example C60_G2_values_case := @C60_G2_values toy crs0 (fun i a => (i + 2 * a + 1)%:R) (coms many_G20.1) xs0 crs0_two commits_G20.

Theorem C60_B1_values : forall (E : pairing) (crs : CRS E) (R : nat -> nat -> Fr E) (c : seq (Com1 E)) (X : seq (Fr E)),
  commits_B1 crs c X -> commits_B1 crs (fresh_c 1 crs R c) X.
Proof. exact: @k_C60_B1. Qed.
Print Assumptions C60_B1_values.

Example C60_B1_values_case := @C60_B1_values toy crs0 (fun i a => (i + 2 * a + 1)%:R) (coms many_B10.1) xs0 commits_B10.

Theorem C60_B2_values : forall (E : pairing) (crs : CRS E) (R : nat -> nat -> Fr E) (c : seq (Com2 E)) (X : seq (Fr E)),
  commits_B2 crs c X -> commits_B2 crs (fresh_d 1 crs R c) X.
Proof. exact: @k_C60_B2. Qed.
Print Assumptions C60_B2_values.

Example C60_values_case : commits_G1 crs0 [:: (n7 0, n7 3)] [:: n7 3] /\ commits_B2 crs0 [:: n7 3 *: (v2 crs0 + (0, g2_gen crs0))] [:: n7 3] /\
  commits_G1 crs0 (fresh_c 2 crs0 (fun i a => (i + a + 1)%:R) [:: (n7 0, n7 3)]) [:: n7 3] /\
  commits_B2 crs0 (fresh_d 1 crs0 (fun i a => (i + a + 1)%:R) [:: n7 3 *: (v2 crs0 + (0, g2_gen crs0))]) [:: n7 3].
Proof.
have h1 : commits_G1 crs0 [:: (n7 0, n7 3)] [:: n7 3].
  by split=> // -[|//] _; exists [:: 0; 0], 0, 0; split=> //; rewrite !scale0r !addr0.
have h2 : commits_B2 crs0 [:: n7 3 *: (v2 crs0 + (0, g2_gen crs0))] [:: n7 3].
  by split=> // -[|//] _; exists [:: 0], 0; split=> //; rewrite scale0r addr0.
by do !split=> //; [exact: (C60_G1_values _ crs0_two h1).2 | exact: (C60_B2_values _ h2).2].
Qed.

(** C62: commitments are homomorphic; accepted proofs of two equations about the same commitments combine;
    for equations without products of variables, accepted proofs about different commitments combine. *)
Theorem C62_G1_homomorphic : forall (E : pairing) (crs : CRS E) (k : Fr E) (c c' : seq (Com1 E)) (X X' : seq (G1 E)),
  size c' = size c -> commits_G1 crs c X -> commits_G1 crs c' X' -> commits_G1 crs (comb k c c') (comb k X X').
Proof. exact: @k_C62_G1. Qed.
Print Assumptions C62_G1_homomorphic.

Example C62_G1_homomorphic_case := @C62_G1_homomorphic toy crs0 (n7 3) (coms many_G10.1) (coms many_G11.1) xs0 xs1 erefl commits_G10 commits_G11.

Theorem C62_G2_homomorphic : forall (E : pairing) (crs : CRS E) (k : Fr E) (c c' : seq (Com2 E)) (X X' : seq (G2 E)),
  size c' = size c -> commits_G2 crs c X -> commits_G2 crs c' X' -> commits_G2 crs (comb k c c') (comb k X X').
Proof. exact: @k_C62_G2. Qed.
Print Assumptions C62_G2_homomorphic.

Example C62_G2_homomorphic_case := @C62_G2_homomorphic toy crs0 (n7 3) (coms many_G20.1) (coms many_G21.1) xs0 xs1 erefl commits_G20 commits_G21.

Theorem C62_B1_homomorphic : forall (E : pairing) (crs : CRS E) (k : Fr E) (c c' : seq (Com1 E)) (X X' : seq (Fr E)),
  size c' = size c -> commits_B1 crs c X -> commits_B1 crs c' X' -> commits_B1 crs (comb k c c') (combf k X X').
Proof. exact: @k_C62_B1. Qed.
Print Assumptions C62_B1_homomorphic.

Example C62_B1_homomorphic_case := @C62_B1_homomorphic toy crs0 (n7 3) (coms many_B10.1) (coms many_B11.1) xs0 xs1 erefl commits_B10 commits_B11.

Theorem C62_B2_homomorphic : forall (E : pairing) (crs : CRS E) (k : Fr E) (c c' : seq (Com2 E)) (X X' : seq (Fr E)),
  size c' = size c -> commits_B2 crs c X -> commits_B2 crs c' X' -> commits_B2 crs (comb k c c') (combf k X X').
Proof. exact: @k_C62_B2. Qed.
Print Assumptions C62_B2_homomorphic.

Example C62_homomorphic_case : commits_G1 crs0 (comb (E := toy) (n7 2) ([:: (n7 0, n7 3)] : seq (Com1 toy)) [:: (n7 0, n7 4)]) (@comb toy F7o (n7 2) [:: n7 3] [:: n7 4]) /\
  @comb toy F7o (n7 2) [:: n7 3] [:: n7 4] = [:: n7 4].
Proof.
have h x : commits_G1 crs0 [:: (n7 0, x)] [:: x].
  by split=> // -[|//] _; exists [:: 0; 0], 0, 0; split=> //; rewrite !scale0r !addr0.
split; first exact: (C62_G1_homomorphic _ _ (h _) (h _)).
by apply/eqP; vm_compute.
Qed.

Theorem C62_ppe_equations : forall (E : pairing) (sch : sched) (q q' : PPE E) cx cy (g g' : EquProof E) (crs : CRS E) (k : Fr E), bilinear E -> valid_sched sch ->
  ppe_verify sch q (mkCProof cx cy [:: g]) crs = Ok true -> ppe_verify sch q' (mkCProof cx cy [:: g']) crs = Ok true ->
  ppe_verify sch (ppe_comb k q q') (mkCProof cx cy [:: pf_comb k g g']) crs = Ok true.
Proof. exact: @k_C62_ppe_equations. Qed.
Print Assumptions C62_ppe_equations.

Example C62_ppe_equations_case : ppe_verify fwd (ppe_comb (E := toy) (n7 3) ppe0 ppe_q1) (mkCProof (xcoms ppe_p0) (ycoms ppe_p0) [:: pf_comb (E := toy) (n7 3) (pf_of ppe_p0) ppe_g1]) crs0 = Ok true.
Proof. exact: (C62_ppe_equations _ toy_bilinear fwd_valid ppe_g0_ok ppe_g1_ok). Qed.

Theorem C62_ppe_runs : forall (E : pairing) (sch : sched) (q q' : PPE E) cx cy cx' cy' (g g' : EquProof E) (crs : CRS E) (k : Fr E), bilinear E -> valid_sched sch -> ppe_linear q q' ->
  ppe_verify sch q (mkCProof cx cy [:: g]) crs = Ok true -> ppe_verify sch q' (mkCProof cx' cy' [:: g']) crs = Ok true ->
  ppe_verify sch (ppe_sum k q q') (mkCProof (mkCommit (comb k (coms cx) (coms cx')) [::]) (mkCommit (comb k (coms cy) (coms cy')) [::]) [:: pf_comb k g g']) crs = Ok true.
Proof. exact: @k_C62_ppe_runs. Qed.
Print Assumptions C62_ppe_runs.

Example C62_ppe_runs_case : ppe_verify fwd (ppe_sum (E := toy) (n7 3) ppe_L0 ppe_L1)
  (mkCProof (mkCommit (comb (E := toy) (n7 3) (coms (xcoms ppe_l0)) (coms (xcoms ppe_l1))) [::]) (mkCommit (comb (E := toy) (n7 3) (coms (ycoms ppe_l0)) (coms (ycoms ppe_l1))) [::])
    [:: pf_comb (E := toy) (n7 3) (pf_of ppe_l0) (pf_of ppe_l1)]) crs0 = Ok true.
Proof. by apply: (C62_ppe_runs _ toy_bilinear fwd_valid _ ppe_l0_ok ppe_l1_ok); split=> //; exact: noG. Qed.

Theorem C62_ms1_equations : forall (E : pairing) (sch : sched) (q q' : MSMEG1 E) cx cy (g g' : EquProof E) (crs : CRS E) (k : Fr E), bilinear E -> valid_sched sch ->
  ms1_verify sch q (mkCProof cx cy [:: g]) crs = Ok true -> ms1_verify sch q' (mkCProof cx cy [:: g']) crs = Ok true ->
  ms1_verify sch (ms1_comb k q q') (mkCProof cx cy [:: pf_comb k g g']) crs = Ok true.
Proof. exact: @k_C62_ms1_equations. Qed.
Print Assumptions C62_ms1_equations.

Example C62_ms1_equations_case : ms1_verify fwd (ms1_comb (E := toy) (n7 3) ms10 ms1_q1) (mkCProof (xcoms ms1_p0) (ycoms ms1_p0) [:: pf_comb (E := toy) (n7 3) (pf_of ms1_p0) ms1_g1]) crs0 = Ok true.
Proof. exact: (C62_ms1_equations _ toy_bilinear fwd_valid ms1_g0_ok ms1_g1_ok). Qed.

Theorem C62_ms1_runs : forall (E : pairing) (sch : sched) (q q' : MSMEG1 E) cx cy cx' cy' (g g' : EquProof E) (crs : CRS E) (k : Fr E), bilinear E -> valid_sched sch -> ms1_linear q q' ->
  ms1_verify sch q (mkCProof cx cy [:: g]) crs = Ok true -> ms1_verify sch q' (mkCProof cx' cy' [:: g']) crs = Ok true ->
  ms1_verify sch (ms1_sum k q q') (mkCProof (mkCommit (comb k (coms cx) (coms cx')) [::]) (mkCommit (comb k (coms cy) (coms cy')) [::]) [:: pf_comb k g g']) crs = Ok true.
Proof. exact: @k_C62_ms1_runs. Qed.
Print Assumptions C62_ms1_runs.

Example C62_ms1_runs_case : ms1_verify fwd (ms1_sum (E := toy) (n7 3) ms1_L0 ms1_L1)
  (mkCProof (mkCommit (comb (E := toy) (n7 3) (coms (xcoms ms1_l0)) (coms (xcoms ms1_l1))) [::]) (mkCommit (comb (E := toy) (n7 3) (coms (ycoms ms1_l0)) (coms (ycoms ms1_l1))) [::])
    [:: pf_comb (E := toy) (n7 3) (pf_of ms1_l0) (pf_of ms1_l1)]) crs0 = Ok true.
Proof. by apply: (C62_ms1_runs _ toy_bilinear fwd_valid _ ms1_l0_ok ms1_l1_ok); split=> //; exact: noG. Qed.

Theorem C62_ms2_equations : forall (E : pairing) (sch : sched) (q q' : MSMEG2 E) cx cy (g g' : EquProof E) (crs : CRS E) (k : Fr E), bilinear E -> valid_sched sch ->
  ms2_verify sch q (mkCProof cx cy [:: g]) crs = Ok true -> ms2_verify sch q' (mkCProof cx cy [:: g']) crs = Ok true ->
  ms2_verify sch (ms2_comb k q q') (mkCProof cx cy [:: pf_comb k g g']) crs = Ok true.
Proof. exact: @k_C62_ms2_equations. Qed.
Print Assumptions C62_ms2_equations.

Example C62_ms2_equations_case : ms2_verify fwd (ms2_comb (E := toy) (n7 3) ms20 ms2_q1) (mkCProof (xcoms ms2_p0) (ycoms ms2_p0) [:: pf_comb (E := toy) (n7 3) (pf_of ms2_p0) ms2_g1]) crs0 = Ok true.
Proof. exact: (C62_ms2_equations _ toy_bilinear fwd_valid ms2_g0_ok ms2_g1_ok). Qed.

Theorem C62_ms2_runs : forall (E : pairing) (sch : sched) (q q' : MSMEG2 E) cx cy cx' cy' (g g' : EquProof E) (crs : CRS E) (k : Fr E), bilinear E -> valid_sched sch -> ms2_linear q q' ->
  ms2_verify sch q (mkCProof cx cy [:: g]) crs = Ok true -> ms2_verify sch q' (mkCProof cx' cy' [:: g']) crs = Ok true ->
  ms2_verify sch (ms2_sum k q q') (mkCProof (mkCommit (comb k (coms cx) (coms cx')) [::]) (mkCommit (comb k (coms cy) (coms cy')) [::]) [:: pf_comb k g g']) crs = Ok true.
Proof. exact: @k_C62_ms2_runs. Qed.
Print Assumptions C62_ms2_runs.

Example C62_ms2_runs_case : ms2_verify fwd (ms2_sum (E := toy) (n7 3) ms2_L0 ms2_L1)
  (mkCProof (mkCommit (comb (E := toy) (n7 3) (coms (xcoms ms2_l0)) (coms (xcoms ms2_l1))) [::]) (mkCommit (comb (E := toy) (n7 3) (coms (ycoms ms2_l0)) (coms (ycoms ms2_l1))) [::])
    [:: pf_comb (E := toy) (n7 3) (pf_of ms2_l0) (pf_of ms2_l1)]) crs0 = Ok true.
Proof. by apply: (C62_ms2_runs _ toy_bilinear fwd_valid _ ms2_l0_ok ms2_l1_ok); split=> //; exact: noG. Qed.

Theorem C62_quad_equations : forall (E : pairing) (sch : sched) (q q' : QuadEqu E) cx cy (g g' : EquProof E) (crs : CRS E) (k : Fr E), bilinear E -> valid_sched sch ->
  quad_verify sch q (mkCProof cx cy [:: g]) crs = Ok true -> quad_verify sch q' (mkCProof cx cy [:: g']) crs = Ok true ->
  quad_verify sch (quad_comb k q q') (mkCProof cx cy [:: pf_comb k g g']) crs = Ok true.
Proof. exact: @k_C62_quad_equations. Qed.
Print Assumptions C62_quad_equations.

Example C62_quad_equations_case : quad_verify fwd (quad_comb (E := toy) (n7 3) quad0 quad_q1) (mkCProof (xcoms quad_p0) (ycoms quad_p0) [:: pf_comb (E := toy) (n7 3) (pf_of quad_p0) quad_g1]) crs0 = Ok true.
Proof. exact: (C62_quad_equations _ toy_bilinear fwd_valid quad_g0_ok quad_g1_ok). Qed.

Theorem C62_quad_runs : forall (E : pairing) (sch : sched) (q q' : QuadEqu E) cx cy cx' cy' (g g' : EquProof E) (crs : CRS E) (k : Fr E), bilinear E -> valid_sched sch -> quad_linear q q' ->
  quad_verify sch q (mkCProof cx cy [:: g]) crs = Ok true -> quad_verify sch q' (mkCProof cx' cy' [:: g']) crs = Ok true ->
  quad_verify sch (quad_sum k q q') (mkCProof (mkCommit (comb k (coms cx) (coms cx')) [::]) (mkCommit (comb k (coms cy) (coms cy')) [::]) [:: pf_comb k g g']) crs = Ok true.
Proof. exact: @k_C62_quad_runs. Qed.
Print Assumptions C62_quad_runs.

Example C62_quad_runs_case : quad_verify fwd (quad_sum (E := toy) (n7 3) quad_L0 quad_L1)
  (mkCProof (mkCommit (comb (E := toy) (n7 3) (coms (xcoms quad_l0)) (coms (xcoms quad_l1))) [::]) (mkCommit (comb (E := toy) (n7 3) (coms (ycoms quad_l0)) (coms (ycoms quad_l1))) [::])
    [:: pf_comb (E := toy) (n7 3) (pf_of quad_l0) (pf_of quad_l1)]) crs0 = Ok true.
Proof. by apply: (C62_quad_runs _ toy_bilinear fwd_valid _ quad_l0_ok quad_l1_ok); split=> //; exact: noG. Qed.

