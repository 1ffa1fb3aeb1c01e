(** Properties C15, C16, C18-C20, C45: commitments. *)
From mathcomp Require Import all_ssreflect all_algebra.
From Verif Require Import Base BaseLemmas Group DataStructures Generator Commit Statement Prove Verify Spec SpecApi Concrete.
From Verif Require Import MatLemmas CommitLemmas Holds Complete Main CapLemmas Draws CommitProps ApiLemmas P_Complete.
From Verif Require Import Concrete2.
From Verif Require Import Concrete25.
Set Implicit Arguments.
Unset Strict Implicit.
Unset Printing Implicit Defensive.
Import GRing.Theory.
Local Open Scope ring_scope.

(** C15 (refuted): the committed elements of G1 are computed from the [Commit1]
    value and the public key, for every key. *)
Theorem C15_G1_secret_refuted : forall (E : pairing), exists recover : CRS E -> Commit1 E -> seq (G1 E),
  forall (R : rng E) (s s' : rst R) crs c,
    (forall x, commit_G1 x crs s = Ok (c, s') -> recover crs c = [:: x]) /\
    (forall X, batch_commit_G1 X crs s = Ok (c, s') -> recover crs c = X).
Proof. exact: @G1_recovers. Qed.
Print Assumptions C15_G1_secret_refuted.

Example C15_G1_secret_refuted_case := @C15_G1_secret_refuted toy.

(** C15 (refuted): a [Commit1] value determines the committed scalars. The
    hypothesis on the key holds for generated keys with a non-identity generator. *)
Theorem C15_B1_secret_refuted : forall (E : pairing) (R R' : rng E) (s s' : rst R) (z z' : rst R') (crs : CRS E) X X' c,
  u2 crs + (0, g1_gen crs) != 0 ->
  batch_commit_scalar_to_B1 X crs s = Ok (c, s') -> batch_commit_scalar_to_B1 X' crs z = Ok (c, z') -> X = X'.
Proof. exact: @B1_batch_determined. Qed.
Print Assumptions C15_B1_secret_refuted.

Example C15_B1_secret_refuted_case := @C15_B1_secret_refuted toy ctr ctr 3%N many_B10.2 3%N many_B10.2 crs0 xs0 xs0 many_B10.1 isT many_B10E many_B10E.

Theorem C15_B1_single_secret_refuted : forall (E : pairing) (R R' : rng E) (s s' : rst R) (z z' : rst R') (crs : CRS E) x x' c,
  u2 crs + (0, g1_gen crs) != 0 ->
  commit_scalar_to_B1 x crs s = Ok (c, s') -> commit_scalar_to_B1 x' crs z = Ok (c, z') -> x = x'.
Proof. exact: @B1_determined. Qed.
Print Assumptions C15_B1_single_secret_refuted.

Example C15_B1_single_secret_refuted_case := @C15_B1_single_secret_refuted toy ctr ctr 3%N one_B10.2 3%N one_B10.2 crs0 (n7 3) (n7 3) one_B10.1 isT one_B10E one_B10E.

(** C15 (refuted): the committed elements of G2 are computed from the [Commit2]
    value and the public key, for every key. *)
Theorem C15_G2_secret_refuted : forall (E : pairing), exists recover : CRS E -> Commit2 E -> seq (G2 E),
  forall (R : rng E) (s s' : rst R) crs c,
    (forall x, commit_G2 x crs s = Ok (c, s') -> recover crs c = [:: x]) /\
    (forall X, batch_commit_G2 X crs s = Ok (c, s') -> recover crs c = X).
Proof. exact: @G2_recovers. Qed.
Print Assumptions C15_G2_secret_refuted.

Example C15_G2_secret_refuted_case := @C15_G2_secret_refuted toy.

(** C15 (refuted): a [Commit2] value determines the committed scalars. The
    hypothesis on the key holds for generated keys with a non-identity generator. *)
Theorem C15_B2_secret_refuted : forall (E : pairing) (R R' : rng E) (s s' : rst R) (z z' : rst R') (crs : CRS E) X X' c,
  v2 crs + (0, g2_gen crs) != 0 ->
  batch_commit_scalar_to_B2 X crs s = Ok (c, s') -> batch_commit_scalar_to_B2 X' crs z = Ok (c, z') -> X = X'.
Proof. exact: @B2_batch_determined. Qed.
Print Assumptions C15_B2_secret_refuted.

Example C15_B2_secret_refuted_case := @C15_B2_secret_refuted toy ctr ctr 3%N many_B20.2 3%N many_B20.2 crs0 xs0 xs0 many_B20.1 isT many_B20E many_B20E.

Theorem C15_B2_single_secret_refuted : forall (E : pairing) (R R' : rng E) (s s' : rst R) (z z' : rst R') (crs : CRS E) x x' c,
  v2 crs + (0, g2_gen crs) != 0 ->
  commit_scalar_to_B2 x crs s = Ok (c, s') -> commit_scalar_to_B2 x' crs z = Ok (c, z') -> x = x'.
Proof. exact: @B2_determined. Qed.
Print Assumptions C15_B2_single_secret_refuted.

Example C15_B2_single_secret_refuted_case := @C15_B2_single_secret_refuted toy ctr ctr 3%N one_B20.2 3%N one_B20.2 crs0 (n7 3) (n7 3) one_B20.1 isT one_B20E one_B20E.

(** C15 (refuted), for the value returned by [ppe_commit_and_prove]. *)
Theorem C15_ppe_proof_secret_refuted : forall (E : pairing) sch (R : rng E) (s s' : rst R) (q : PPE E) X Y crs p,
  ppe_commit_and_prove sch q X Y crs s = Ok (p, s') -> recover1 crs (xcoms p) = X /\ recover2 crs (ycoms p) = Y.
Proof. exact: @ppe_cap_recover. Qed.
Print Assumptions C15_ppe_proof_secret_refuted.

Example C15_ppe_proof_secret_refuted_case := @C15_ppe_proof_secret_refuted toy fwd ctr 6%N ppe_runh.2 ppe0 xs0 ys0 crsh ppe_runh.1 ppe_runhE.

(** C15 (refuted), for the value returned by [ms1_commit_and_prove]. *)
Theorem C15_ms1_proof_secret_refuted : forall (E : pairing) sch (R : rng E) (s s' : rst R) (q : MSMEG1 E) X Y crs p,
  ms1_commit_and_prove sch q X Y crs s = Ok (p, s') -> recover1 crs (xcoms p) = X.
Proof. exact: @ms1_cap_recover. Qed.
Print Assumptions C15_ms1_proof_secret_refuted.

Example C15_ms1_proof_secret_refuted_case := @C15_ms1_proof_secret_refuted toy fwd ctr 6%N ms1_runh.2 ms10 xs0 ys0 crsh ms1_runh.1 ms1_runhE.

(** C15 (refuted), for the value returned by [ms2_commit_and_prove]. *)
Theorem C15_ms2_proof_secret_refuted : forall (E : pairing) sch (R : rng E) (s s' : rst R) (q : MSMEG2 E) X Y crs p,
  ms2_commit_and_prove sch q X Y crs s = Ok (p, s') -> recover2 crs (ycoms p) = Y.
Proof. exact: @ms2_cap_recover. Qed.
Print Assumptions C15_ms2_proof_secret_refuted.

Example C15_ms2_proof_secret_refuted_case := @C15_ms2_proof_secret_refuted toy fwd ctr 6%N ms2_runh.2 ms20 xs0 ys0 crsh ms2_runh.1 ms2_runhE.

(** C15 (refuted): the value returned by [ms1_commit_and_prove] determines the committed scalars. *)
Theorem C15_ms1_proof_scalars_refuted : forall (E : pairing), forall sch sch' (R R' : rng E) (s s' : rst R) (z z' : rst R') (q q' : MSMEG1 E) X X' Y Y' crs p,
  v2 crs + (0, g2_gen crs) != 0 ->
  ms1_commit_and_prove sch q X Y crs s = Ok (p, s') -> ms1_commit_and_prove sch' q' X' Y' crs z = Ok (p, z') -> Y = Y'.
Proof. exact: @ms1_cap_scalars. Qed.
Print Assumptions C15_ms1_proof_scalars_refuted.

Example C15_ms1_proof_scalars_refuted_case := @C15_ms1_proof_scalars_refuted toy fwd fwd ctr ctr 6%N ms1_runh.2 6%N ms1_runh.2 ms10 ms10 xs0 xs0 ys0 ys0 crsh ms1_runh.1 isT ms1_runhE ms1_runhE.

(** C15 (refuted): the value returned by [ms2_commit_and_prove] determines the committed scalars. *)
Theorem C15_ms2_proof_scalars_refuted : forall (E : pairing), forall sch sch' (R R' : rng E) (s s' : rst R) (z z' : rst R') (q q' : MSMEG2 E) X X' Y Y' crs p,
  u2 crs + (0, g1_gen crs) != 0 ->
  ms2_commit_and_prove sch q X Y crs s = Ok (p, s') -> ms2_commit_and_prove sch' q' X' Y' crs z = Ok (p, z') -> X = X'.
Proof. exact: @ms2_cap_scalars. Qed.
Print Assumptions C15_ms2_proof_scalars_refuted.

Example C15_ms2_proof_scalars_refuted_case := @C15_ms2_proof_scalars_refuted toy fwd fwd ctr ctr 6%N ms2_runh.2 6%N ms2_runh.2 ms20 ms20 xs0 xs0 ys0 ys0 crsh ms2_runh.1 isT ms2_runhE ms2_runhE.

(** C15 (refuted): the value returned by [quad_commit_and_prove] determines the committed scalars. *)
Theorem C15_quad_proof_scalars_refuted : forall (E : pairing), forall sch sch' (R R' : rng E) (s s' : rst R) (z z' : rst R') (q q' : QuadEqu E) X X' Y Y' crs p,
  u2 crs + (0, g1_gen crs) != 0 -> v2 crs + (0, g2_gen crs) != 0 ->
  quad_commit_and_prove sch q X Y crs s = Ok (p, s') -> quad_commit_and_prove sch' q' X' Y' crs z = Ok (p, z') -> X = X' /\ Y = Y'.
Proof. exact: @quad_cap_scalars. Qed.
Print Assumptions C15_quad_proof_scalars_refuted.

(** The committed values, read off the commitments of the counter RNG under a hiding key. *)
Example C15_case : exists c : Commit1 toy, batch_commit_G1 (R := ctr) xs0 crsh 3%N = Ok (c, 7%N)
  /\ recover1 crsh c = xs0.
Proof.
eexists; split; first by reflexivity.
by apply: (made_recover1 (batch_made_G1 (R := ctr) (s := 3%N) (s' := 7%N) _)).
Qed.
Example C15_proof_scalars_case : exists p s', quad_commit_and_prove fwd quad0 xs0 ys0 crsh (6%N : rst ctr) = Ok (p, s') /\
  forall sch q X Y (R : rng toy) (z z' : rst R), quad_commit_and_prove sch q X Y crsh z = Ok (p, z') -> X = xs0 /\ Y = ys0.
Proof.
have /isokP[[p s'] e] : isok (quad_commit_and_prove fwd quad0 xs0 ys0 crsh (6%N : rst ctr)) by [].
exists p, s'; split=> [//|sch q X Y R z z' h].
exact: (C15_quad_proof_scalars_refuted _ _ h e).
Qed.

Example C15_scalar_case : u2 crsh + (0, g1_gen crsh) != 0 /\ u2 crs0 + (0, g1_gen crs0) != 0 /\
  isok (batch_commit_scalar_to_B1 (R := ctr) xs0 crsh 3%N).
Proof. by []. Qed.

(** C16: a batch commitment is the appended single commitments, drawing from the same RNG. *)
Theorem C16_G1_batch_is_singles : forall (E : pairing) (R : rng E) (x0 : G1 E) X crs (s : rst R), size (crs_u crs) = 2%N ->
  batch_commit_G1 (x0 :: X) crs s
  = let! acc := commit_G1 x0 crs s in one_by_one (fun x s => commit_G1 x crs s) acc X.
Proof. exact: @G1_batch_each. Qed.
Print Assumptions C16_G1_batch_is_singles.

Example C16_G1_case : exists c : commit F7o,
  batch_commit_G1 (E := toy) (R := ctr) [:: n7 3; n7 4; n7 5] crs0 6%N = Ok (c, 12%N) /\
  (let! acc := commit_G1 (E := toy) (R := ctr) (n7 3) crs0 6%N in
   one_by_one (fun x s => commit_G1 (E := toy) (R := ctr) x crs0 s) acc [:: n7 4; n7 5]) = Ok (c, 12%N).
Proof.
by eexists; split; last rewrite -(@C16_G1_batch_is_singles toy ctr (n7 3) [:: n7 4; n7 5] crs0 6%N erefl); reflexivity.
Qed.

(** C16: a batch commitment is the appended single commitments, drawing from the same RNG. *)
Theorem C16_G2_batch_is_singles : forall (E : pairing) (R : rng E) (x0 : G2 E) X crs (s : rst R), size (crs_v crs) = 2%N ->
  batch_commit_G2 (x0 :: X) crs s
  = let! acc := commit_G2 x0 crs s in one_by_one (fun x s => commit_G2 x crs s) acc X.
Proof. exact: @G2_batch_each. Qed.
Print Assumptions C16_G2_batch_is_singles.

Example C16_G2_case : exists c : commit F7o,
  batch_commit_G2 (E := toy) (R := ctr) [:: n7 3; n7 4; n7 5] crs0 6%N = Ok (c, 12%N) /\
  (let! acc := commit_G2 (E := toy) (R := ctr) (n7 3) crs0 6%N in
   one_by_one (fun x s => commit_G2 (E := toy) (R := ctr) x crs0 s) acc [:: n7 4; n7 5]) = Ok (c, 12%N).
Proof.
by eexists; split; last rewrite -(@C16_G2_batch_is_singles toy ctr (n7 3) [:: n7 4; n7 5] crs0 6%N erefl); reflexivity.
Qed.

(** C16: a batch commitment is the appended single commitments, drawing from the same RNG. *)
Theorem C16_B1_batch_is_singles : forall (E : pairing) (R : rng E) (x0 : Fr E) X crs (s : rst R), (1 < size (crs_u crs))%N ->
  batch_commit_scalar_to_B1 (x0 :: X) crs s
  = let! acc := commit_scalar_to_B1 x0 crs s in one_by_one (fun x s => commit_scalar_to_B1 x crs s) acc X.
Proof. exact: @B1_batch_each. Qed.
Print Assumptions C16_B1_batch_is_singles.

Example C16_B1_case : exists c : commit F7o,
  batch_commit_scalar_to_B1 (E := toy) (R := ctr) [:: n7 3; n7 4; n7 5] crs0 6%N = Ok (c, 9%N) /\
  (let! acc := commit_scalar_to_B1 (E := toy) (R := ctr) (n7 3) crs0 6%N in
   one_by_one (fun x s => commit_scalar_to_B1 (E := toy) (R := ctr) x crs0 s) acc [:: n7 4; n7 5]) = Ok (c, 9%N).
Proof.
by eexists; split; last rewrite -(@C16_B1_batch_is_singles toy ctr (n7 3) [:: n7 4; n7 5] crs0 6%N erefl); reflexivity.
Qed.

(** C16: a batch commitment is the appended single commitments, drawing from the same RNG. *)
Theorem C16_B2_batch_is_singles : forall (E : pairing) (R : rng E) (x0 : Fr E) X crs (s : rst R), (1 < size (crs_v crs))%N ->
  batch_commit_scalar_to_B2 (x0 :: X) crs s
  = let! acc := commit_scalar_to_B2 x0 crs s in one_by_one (fun x s => commit_scalar_to_B2 x crs s) acc X.
Proof. exact: @B2_batch_each. Qed.
Print Assumptions C16_B2_batch_is_singles.

Example C16_B2_case : exists c : commit F7o,
  batch_commit_scalar_to_B2 (E := toy) (R := ctr) [:: n7 3; n7 4; n7 5] crs0 6%N = Ok (c, 9%N) /\
  (let! acc := commit_scalar_to_B2 (E := toy) (R := ctr) (n7 3) crs0 6%N in
   one_by_one (fun x s => commit_scalar_to_B2 (E := toy) (R := ctr) x crs0 s) acc [:: n7 4; n7 5]) = Ok (c, 9%N).
Proof.
by eexists; split; last rewrite -(@C16_B2_batch_is_singles toy ctr (n7 3) [:: n7 4; n7 5] crs0 6%N erefl); reflexivity.
Qed.

(** C18 for [commit_G1] and [batch_commit_G1]. *)
Theorem C18_G1_draws : forall (E : pairing) (x : G1 E) crs,
  consumes 2 (fun (R : rng E) s => commit_G1 x crs s).
Proof. exact: @G1_draws. Qed.
Print Assumptions C18_G1_draws.

Theorem C18_G1_batch_draws : forall (E : pairing) (X : seq (G1 E)) crs,
  consumes (2 * size X) (fun (R : rng E) s => batch_commit_G1 X crs s).
Proof. exact: @G1_batch_draws. Qed.
Print Assumptions C18_G1_batch_draws.

(** C18 for [commit_G2] and [batch_commit_G2]. *)
Theorem C18_G2_draws : forall (E : pairing) (x : G2 E) crs,
  consumes 2 (fun (R : rng E) s => commit_G2 x crs s).
Proof. exact: @G2_draws. Qed.
Print Assumptions C18_G2_draws.

Theorem C18_G2_batch_draws : forall (E : pairing) (X : seq (G2 E)) crs,
  consumes (2 * size X) (fun (R : rng E) s => batch_commit_G2 X crs s).
Proof. exact: @G2_batch_draws. Qed.
Print Assumptions C18_G2_batch_draws.

(** C18 for [commit_scalar_to_B1] and [batch_commit_scalar_to_B1]. *)
Theorem C18_B1_draws : forall (E : pairing) (x : Fr E) crs,
  consumes 1 (fun (R : rng E) s => commit_scalar_to_B1 x crs s).
Proof. exact: @B1_draws. Qed.
Print Assumptions C18_B1_draws.

Theorem C18_B1_batch_draws : forall (E : pairing) (X : seq (Fr E)) crs,
  consumes (size X) (fun (R : rng E) s => batch_commit_scalar_to_B1 X crs s).
Proof. exact: @B1_batch_draws. Qed.
Print Assumptions C18_B1_batch_draws.

(** C18 for [commit_scalar_to_B2] and [batch_commit_scalar_to_B2]. *)
Theorem C18_B2_draws : forall (E : pairing) (x : Fr E) crs,
  consumes 1 (fun (R : rng E) s => commit_scalar_to_B2 x crs s).
Proof. exact: @B2_draws. Qed.
Print Assumptions C18_B2_draws.

Theorem C18_B2_batch_draws : forall (E : pairing) (X : seq (Fr E)) crs,
  consumes (size X) (fun (R : rng E) s => batch_commit_scalar_to_B2 X crs s).
Proof. exact: @B2_batch_draws. Qed.
Print Assumptions C18_B2_batch_draws.

(** C18 for [ppe_prove] and [ppe_commit_and_prove]. *)
Theorem C18_ppe_prove_draws : forall (E : pairing) sch, valid_sched sch -> forall (q : PPE E) X Y cx cy crs,
  consumes 4 (fun (R : rng E) s => ppe_prove sch q X Y cx cy crs s).
Proof. exact: @ppe_prove_draws. Qed.
Print Assumptions C18_ppe_prove_draws.

Example C18_ppe_prove_draws_case := @C18_ppe_prove_draws toy fwd fwd_valid ppe0 xs0 ys0 (xcoms ppe_p0) (ycoms ppe_p0) crs0.

Theorem C18_ppe_cap_draws : forall (E : pairing) sch, valid_sched sch -> forall (q : PPE E) X Y crs,
  consumes (2 * size X + (2 * size Y + 4)) (fun (R : rng E) s => ppe_commit_and_prove sch q X Y crs s).
Proof. exact: @ppe_cap_draws. Qed.
Print Assumptions C18_ppe_cap_draws.

Example C18_ppe_cap_draws_case := @C18_ppe_cap_draws toy fwd fwd_valid ppe0 xs0 ys0 crs0.

(** C18 for [ms1_prove] and [ms1_commit_and_prove]. *)
Theorem C18_ms1_prove_draws : forall (E : pairing) sch, valid_sched sch -> forall (q : MSMEG1 E) X Y cx cy crs,
  consumes 2 (fun (R : rng E) s => ms1_prove sch q X Y cx cy crs s).
Proof. exact: @ms1_prove_draws. Qed.
Print Assumptions C18_ms1_prove_draws.

Example C18_ms1_prove_draws_case := @C18_ms1_prove_draws toy fwd fwd_valid ms10 xs0 ys0 (xcoms ms1_p0) (ycoms ms1_p0) crs0.

Theorem C18_ms1_cap_draws : forall (E : pairing) sch, valid_sched sch -> forall (q : MSMEG1 E) X Y crs,
  consumes (2 * size X + (size Y + 2)) (fun (R : rng E) s => ms1_commit_and_prove sch q X Y crs s).
Proof. exact: @ms1_cap_draws. Qed.
Print Assumptions C18_ms1_cap_draws.

Example C18_ms1_cap_draws_case := @C18_ms1_cap_draws toy fwd fwd_valid ms10 xs0 ys0 crs0.

(** C18 for [ms2_prove] and [ms2_commit_and_prove]. *)
Theorem C18_ms2_prove_draws : forall (E : pairing) sch, valid_sched sch -> forall (q : MSMEG2 E) X Y cx cy crs,
  consumes 2 (fun (R : rng E) s => ms2_prove sch q X Y cx cy crs s).
Proof. exact: @ms2_prove_draws. Qed.
Print Assumptions C18_ms2_prove_draws.

Example C18_ms2_prove_draws_case := @C18_ms2_prove_draws toy fwd fwd_valid ms20 xs0 ys0 (xcoms ms2_p0) (ycoms ms2_p0) crs0.

Theorem C18_ms2_cap_draws : forall (E : pairing) sch, valid_sched sch -> forall (q : MSMEG2 E) X Y crs,
  consumes (size X + (2 * size Y + 2)) (fun (R : rng E) s => ms2_commit_and_prove sch q X Y crs s).
Proof. exact: @ms2_cap_draws. Qed.
Print Assumptions C18_ms2_cap_draws.

Example C18_ms2_cap_draws_case := @C18_ms2_cap_draws toy fwd fwd_valid ms20 xs0 ys0 crs0.

(** C18 for [quad_prove] and [quad_commit_and_prove]. *)
Theorem C18_quad_prove_draws : forall (E : pairing) sch, valid_sched sch -> forall (q : QuadEqu E) X Y cx cy crs,
  consumes 1 (fun (R : rng E) s => quad_prove sch q X Y cx cy crs s).
Proof. exact: @quad_prove_draws. Qed.
Print Assumptions C18_quad_prove_draws.

Example C18_quad_prove_draws_case := @C18_quad_prove_draws toy fwd fwd_valid quad0 xs0 ys0 (xcoms quad_p0) (ycoms quad_p0) crs0.

Theorem C18_quad_cap_draws : forall (E : pairing) sch, valid_sched sch -> forall (q : QuadEqu E) X Y crs,
  consumes (size X + (size Y + 1)) (fun (R : rng E) s => quad_commit_and_prove sch q X Y crs s).
Proof. exact: @quad_cap_draws. Qed.
Print Assumptions C18_quad_cap_draws.

Example C18_quad_cap_draws_case := @C18_quad_cap_draws toy fwd fwd_valid quad0 xs0 ys0 crs0.

(** C18 for [generate_crs]: one element of G1, one of G2, four scalars. *)
Theorem C18_generate_draws : forall (E : pairing) (R : rng E) (s : rst R),
  let s1 := (rand_g1 s).2 in let s2 := (rand_g2 s1).2 in
  (generate_crs s).2 = after 4 s2 /\
  forall (R' : rng E) (z : rst R'), let z1 := (rand_g1 z).2 in let z2 := (rand_g2 z1).2 in
    (rand_g1 s).1 = (rand_g1 z).1 -> (rand_g2 s1).1 = (rand_g2 z1).1 -> same_draws 4 s2 z2 ->
    (generate_crs s).1 = (generate_crs z).1.
Proof. exact: @generate_draws. Qed.
Print Assumptions C18_generate_draws.

(** The counter modulo 7 draws what the counter draws seven steps later. *)
Example C18_case : exists c c' : CProof toy,
  ppe_commit_and_prove (R := ctr) fwd ppe0 xs0 ys0 crs0 6%N = Ok (c, 16%N) /\
  ppe_commit_and_prove (R := ctr) fwd ppe0 xs0 ys0 crs0 13%N = Ok (c, 23%N).
Proof.
have [c [s' [h _]]] := @C01_ppe_completeness toy ctr fwd fwd ppe0 xs0 ys0 crs0 6%N
  toy_bilinear fwd_valid fwd_valid isT isT ppe0_wf crs0_two ppe0_holds.
have [e hz] := @C18_ppe_cap_draws toy fwd fwd_valid ppe0 xs0 ys0 crs0 ctr 6%N s' c h.
exists c, c; split; first by rewrite h e.
apply: hz => k hk; apply/eqP.
do 10?[case: k hk => [|k] hk]; by [|vm_compute].
Qed.

(** C19: [append] concatenates and drains, and panics exactly on a commitment
    with a different number of randomness rows, changing nothing then. *)
Theorem C19_append_returns : forall (F : fieldType) (G : lmodType F) (a b a' b' : commit G),
  commit_append_mut a b = (Ok tt, (a', b')) <->
  [/\ size (coms a) = size (crand a), size (coms b) = size (crand b)
    & [/\ coms a' = coms a ++ coms b, crand a' = crand a ++ crand b,
          coms b' = [::] & crand b' = [::]]].
Proof. exact: @append_returns. Qed.
Print Assumptions C19_append_returns.

Theorem C19_append_panics : forall (F : fieldType) (G : lmodType F) (a b : commit G),
  (exists p st, commit_append_mut a b = (Panic p, st)) <->
  size (coms a) <> size (crand a) \/ size (coms b) <> size (crand b).
Proof. exact: @append_panics. Qed.
Print Assumptions C19_append_panics.

Theorem C19_append_panic_unchanged : forall (F : fieldType) (G : lmodType F) (a b : commit G) p st,
  commit_append_mut a b = (Panic p, st) -> st = (a, b).
Proof. exact: @append_panic_unchanged. Qed.
Print Assumptions C19_append_panic_unchanged.

Example C19_append_panic_unchanged_case := @C19_append_panic_unchanged F7 F7o (mkCommit (G := F7o) [:: (n7 1, n7 2)] [:: [:: n7 3]]) (mkCommit (G := F7o) [:: (n7 4, n7 5)] [::]) _ _ erefl.

Theorem C19_append_assoc : forall (F : fieldType) (G : lmodType F) (a b c ab ab' abc abc' bc bc' r r' : commit G),
  commit_append a b = Ok (ab, ab') -> commit_append ab c = Ok (abc, abc') ->
  commit_append b c = Ok (bc, bc') -> commit_append a bc = Ok (r, r') -> r = abc.
Proof. exact: @append_assoc. Qed.
Print Assumptions C19_append_assoc.

Example C19_case : let a := mkCommit (G := F7o) [:: (n7 1, n7 2)] [:: [:: n7 3]] in
  let b := mkCommit (G := F7o) [:: (n7 4, n7 5)] [::] in
  (exists a', commit_append_mut a a = (Ok tt, (a', mkCommit [::] [::])) /\ size (coms a') = 2%N) /\
  commit_append_mut a b = (Panic AssertFailed, (a, b)).
Proof. by split; first (eexists; split; reflexivity). Qed.

(** C20: whatever calls built it, a [Commit1] holds the commitments to the
    values given, with one row of randomness each. *)
Theorem C20_api_made1 : forall (E : pairing) (crs : CRS E) X c, built1 crs X c -> made_val1 crs X c.
Proof. exact: @built1_made. Qed.
Print Assumptions C20_api_made1.

Example C20_api_made1_case := @C20_api_made1 toy crs0 _ _ (Built1_batch_G many_G10E).

Theorem C20_api_append1 : forall (E : pairing) (crs : CRS E) X a Y b, built1 crs X a -> built1 crs Y b ->
  exists a' b', [/\ commit_append a b = Ok (a', b'), built1 crs (X ++ Y) a', built1 crs [::] b'
    & coms b' = [::]].
Proof. exact: @built1_append. Qed.
Print Assumptions C20_api_append1.

Example C20_case1 : exists a b c, [/\ built1 crs0 [:: inl (n7 3 : F7o); inl (n7 5 : F7o)] a,
  built1 crs0 [:: inr (n7 4)] b
  & built1 crs0 [:: inl (n7 3 : F7o); inl (n7 5 : F7o); inr (n7 4)] c /\ exists d, commit_append a b = Ok (c, d)].
Proof.
have [a [s ha]] : exists a s, batch_commit_G1 (E := toy) (R := ctr) xs0 crs0 6%N = Ok (a, s) by eexists; eexists; reflexivity.
have [b [s' hb]] : exists a s, commit_scalar_to_B1 (E := toy) (R := ctr) (n7 4) crs0 6%N = Ok (a, s) by eexists; eexists; reflexivity.
have Ha := Built1_batch_G ha; have Hb := Built1_B hb.
have [c [d [hc hcc _ _]]] := C20_api_append1 Ha Hb.
by exists a, b, c; split=> //; split=> //; exists d.
Qed.

(** C20: whatever calls built it, a [Commit2] holds the commitments to the
    values given, with one row of randomness each. *)
Theorem C20_api_made2 : forall (E : pairing) (crs : CRS E) X c, built2 crs X c -> made_val2 crs X c.
Proof. exact: @built2_made. Qed.
Print Assumptions C20_api_made2.

Example C20_api_made2_case := @C20_api_made2 toy crs0 _ _ (Built2_batch_G many_G20E).

Theorem C20_api_append2 : forall (E : pairing) (crs : CRS E) X a Y b, built2 crs X a -> built2 crs Y b ->
  exists a' b', [/\ commit_append a b = Ok (a', b'), built2 crs (X ++ Y) a', built2 crs [::] b'
    & coms b' = [::]].
Proof. exact: @built2_append. Qed.
Print Assumptions C20_api_append2.

Example C20_case2 : exists a b c, [/\ built2 crs0 [:: inl (n7 3 : F7o); inl (n7 5 : F7o)] a,
  built2 crs0 [:: inr (n7 4)] b
  & built2 crs0 [:: inl (n7 3 : F7o); inl (n7 5 : F7o); inr (n7 4)] c /\ exists d, commit_append a b = Ok (c, d)].
Proof.
have [a [s ha]] : exists a s, batch_commit_G2 (E := toy) (R := ctr) xs0 crs0 6%N = Ok (a, s) by eexists; eexists; reflexivity.
have [b [s' hb]] : exists a s, commit_scalar_to_B2 (E := toy) (R := ctr) (n7 4) crs0 6%N = Ok (a, s) by eexists; eexists; reflexivity.
have Ha := Built2_batch_G ha; have Hb := Built2_B hb.
have [c [d [hc hcc _ _]]] := C20_api_append2 Ha Hb.
by exists a, b, c; split=> //; split=> //; exists d.
Qed.

(** C45 for [commit_G1]. *)
Theorem C45_G1_homomorphic : forall (E : pairing) (R R' R'' : rng E) (s s1 : rst R) (z z1 : rst R') (t : rst R'') crs x x' c c',
  commit_G1 x crs s = Ok (c, s1) -> commit_G1 x' crs z = Ok (c', z1) -> sum_draws 2 s z t ->
  commit_G1 (x + x') crs t
  = Ok (mkCommit (addz (coms c) (coms c')) (addzz (crand c) (crand c')), after 2 t).
Proof. exact: @G1_hom. Qed.
Print Assumptions C45_G1_homomorphic.

Example C45_G1_homomorphic_case := @C45_G1_homomorphic toy ctr ctr dbl 3%N one_G10.2 6%N one_G11.2 3%N crs0 (n7 3) (n7 6) one_G10.1 one_G11.1 one_G10E one_G11E (@dbl_sum _ 3%N).

Theorem C45_G1_batch_homomorphic : forall (E : pairing) (R R' R'' : rng E) (s s1 : rst R) (z z1 : rst R') (t : rst R'') crs X X' c c',
  size X = size X' ->
  batch_commit_G1 X crs s = Ok (c, s1) -> batch_commit_G1 X' crs z = Ok (c', z1) -> sum_draws (2 * size X) s z t ->
  batch_commit_G1 (addz X X') crs t
  = Ok (mkCommit (addz (coms c) (coms c')) (addzz (crand c) (crand c')), after (2 * size X) t).
Proof. exact: @G1_batch_hom. Qed.
Print Assumptions C45_G1_batch_homomorphic.

Example C45_G1_batch_homomorphic_case := @C45_G1_batch_homomorphic toy ctr ctr dbl 3%N many_G10.2 6%N many_G11.2 3%N crs0 xs0 xs1 many_G10.1 many_G11.1 erefl many_G10E many_G11E (@dbl_sum _ 3%N).

(** C45 for [commit_G2]. *)
Theorem C45_G2_homomorphic : forall (E : pairing) (R R' R'' : rng E) (s s1 : rst R) (z z1 : rst R') (t : rst R'') crs x x' c c',
  commit_G2 x crs s = Ok (c, s1) -> commit_G2 x' crs z = Ok (c', z1) -> sum_draws 2 s z t ->
  commit_G2 (x + x') crs t
  = Ok (mkCommit (addz (coms c) (coms c')) (addzz (crand c) (crand c')), after 2 t).
Proof. exact: @G2_hom. Qed.
Print Assumptions C45_G2_homomorphic.

Example C45_G2_homomorphic_case := @C45_G2_homomorphic toy ctr ctr dbl 3%N one_G20.2 6%N one_G21.2 3%N crs0 (n7 3) (n7 6) one_G20.1 one_G21.1 one_G20E one_G21E (@dbl_sum _ 3%N).

Theorem C45_G2_batch_homomorphic : forall (E : pairing) (R R' R'' : rng E) (s s1 : rst R) (z z1 : rst R') (t : rst R'') crs X X' c c',
  size X = size X' ->
  batch_commit_G2 X crs s = Ok (c, s1) -> batch_commit_G2 X' crs z = Ok (c', z1) -> sum_draws (2 * size X) s z t ->
  batch_commit_G2 (addz X X') crs t
  = Ok (mkCommit (addz (coms c) (coms c')) (addzz (crand c) (crand c')), after (2 * size X) t).
Proof. exact: @G2_batch_hom. Qed.
Print Assumptions C45_G2_batch_homomorphic.

Example C45_G2_batch_homomorphic_case := @C45_G2_batch_homomorphic toy ctr ctr dbl 3%N many_G20.2 6%N many_G21.2 3%N crs0 xs0 xs1 many_G20.1 many_G21.1 erefl many_G20E many_G21E (@dbl_sum _ 3%N).

(** C45 for [commit_scalar_to_B1]. *)
Theorem C45_B1_homomorphic : forall (E : pairing) (R R' R'' : rng E) (s s1 : rst R) (z z1 : rst R') (t : rst R'') crs x x' c c',
  commit_scalar_to_B1 x crs s = Ok (c, s1) -> commit_scalar_to_B1 x' crs z = Ok (c', z1) -> sum_draws 1 s z t ->
  commit_scalar_to_B1 (x + x') crs t
  = Ok (mkCommit (addz (coms c) (coms c')) (addzz (crand c) (crand c')), after 1 t).
Proof. exact: @B1_hom. Qed.
Print Assumptions C45_B1_homomorphic.

Example C45_B1_homomorphic_case := @C45_B1_homomorphic toy ctr ctr dbl 3%N one_B10.2 6%N one_B11.2 3%N crs0 (n7 3) (n7 6) one_B10.1 one_B11.1 one_B10E one_B11E (@dbl_sum _ 3%N).

Theorem C45_B1_batch_homomorphic : forall (E : pairing) (R R' R'' : rng E) (s s1 : rst R) (z z1 : rst R') (t : rst R'') crs X X' c c',
  size X = size X' ->
  batch_commit_scalar_to_B1 X crs s = Ok (c, s1) -> batch_commit_scalar_to_B1 X' crs z = Ok (c', z1) -> sum_draws (size X) s z t ->
  batch_commit_scalar_to_B1 (addz X X') crs t
  = Ok (mkCommit (addz (coms c) (coms c')) (addzz (crand c) (crand c')), after (size X) t).
Proof. exact: @B1_batch_hom. Qed.
Print Assumptions C45_B1_batch_homomorphic.

Example C45_B1_batch_homomorphic_case := @C45_B1_batch_homomorphic toy ctr ctr dbl 3%N many_B10.2 6%N many_B11.2 3%N crs0 xs0 xs1 many_B10.1 many_B11.1 erefl many_B10E many_B11E (@dbl_sum _ 3%N).

(** C45 for [commit_scalar_to_B2]. *)
Theorem C45_B2_homomorphic : forall (E : pairing) (R R' R'' : rng E) (s s1 : rst R) (z z1 : rst R') (t : rst R'') crs x x' c c',
  commit_scalar_to_B2 x crs s = Ok (c, s1) -> commit_scalar_to_B2 x' crs z = Ok (c', z1) -> sum_draws 1 s z t ->
  commit_scalar_to_B2 (x + x') crs t
  = Ok (mkCommit (addz (coms c) (coms c')) (addzz (crand c) (crand c')), after 1 t).
Proof. exact: @B2_hom. Qed.
Print Assumptions C45_B2_homomorphic.

Example C45_B2_homomorphic_case := @C45_B2_homomorphic toy ctr ctr dbl 3%N one_B20.2 6%N one_B21.2 3%N crs0 (n7 3) (n7 6) one_B20.1 one_B21.1 one_B20E one_B21E (@dbl_sum _ 3%N).

Theorem C45_B2_batch_homomorphic : forall (E : pairing) (R R' R'' : rng E) (s s1 : rst R) (z z1 : rst R') (t : rst R'') crs X X' c c',
  size X = size X' ->
  batch_commit_scalar_to_B2 X crs s = Ok (c, s1) -> batch_commit_scalar_to_B2 X' crs z = Ok (c', z1) -> sum_draws (size X) s z t ->
  batch_commit_scalar_to_B2 (addz X X') crs t
  = Ok (mkCommit (addz (coms c) (coms c')) (addzz (crand c) (crand c')), after (size X) t).
Proof. exact: @B2_batch_hom. Qed.
Print Assumptions C45_B2_batch_homomorphic.

(** The RNG of zeros leaves the draws of the other summand. *)
Example C45_case : exists c c' d : commit F7o, [/\
  batch_commit_G1 (E := toy) (R := ctr) xs0 crs0 3%N = Ok (c, 7%N),
  batch_commit_G1 (E := toy) (R := zeros) xs1 crs0 tt = Ok (c', tt)
  & batch_commit_G1 (E := toy) (R := ctr) (addz xs0 xs1) crs0 3%N = Ok (d, 7%N) /\
    coms d = addz (coms c) (coms c')].
Proof.
have [c hc] : exists c, batch_commit_G1 (E := toy) (R := ctr) xs0 crs0 3%N = Ok (c, 7%N) by eexists; reflexivity.
have [c' hc'] : exists c, batch_commit_G1 (E := toy) (R := zeros) xs1 crs0 tt = Ok (c, tt) by eexists; reflexivity.
exists c, c'; eexists; split; [exact: hc | exact: hc' | split].
  by apply: (@C45_G1_batch_homomorphic toy ctr zeros ctr 3%N 7%N tt tt 3%N crs0 xs0 xs1 c c' erefl hc hc') => k _; rewrite addr0.
by [].
Qed.
