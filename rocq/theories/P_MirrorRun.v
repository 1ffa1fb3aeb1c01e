(** Property C86: the order of the two groups does not matter to a whole run. *)
From mathcomp Require Import all_ssreflect all_algebra.
From Verif Require Import Base BaseLemmas Group DataStructures Generator Commit Statement Prove Verify Spec SpecMat SpecVerify SpecHide SpecMirror MirrorRun Concrete Concrete2 Concrete4 Concrete7.
Set Implicit Arguments.
Unset Strict Implicit.
Unset Printing Implicit Defensive.
Import GRing.Theory.
Local Open Scope ring_scope.

(** Up to a bijection of the random scalars, [commit_and_prove] on the mirror image makes the same commitments, with the same randomness, on the other sides, and exchanges [pi] and [theta]. *)
Theorem C86_ppe_mirror_run : forall (E : pairing) (sch sch' : sched) (q : PPE E) (X : seq (G1 E)) (Y : seq (G2 E)) (crs : CRS E), valid_sched sch -> valid_sched sch' ->
  (0 < size X)%N -> (0 < size Y)%N -> ppe_wf q (size X) (size Y) -> two_keys crs ->
  exists phi : (2 * size X + (2 * size Y + 4)).-tuple (Fr E) -> (2 * size Y + (2 * size X + 4)).-tuple (Fr E), bijective phi /\
  forall (R : rng E) (R' : rng (mirror E)) (s : rst R) (z : rst R'), draws (2 * size Y + (2 * size X + 4)) z = phi (draws (2 * size X + (2 * size Y + 4)) s) ->
  exists p p', [/\ seen id (ppe_commit_and_prove sch q X Y crs s) = Ok p,
    seen id (ppe_commit_and_prove (E := (mirror E)) sch' (mirror_ppe q) Y X (mirror_crs crs) z) = Ok p',
    (xcoms p', ycoms p') = (ycoms p, xcoms p) &
    [seq (pi f, theta f) | f <- equ_proofs p'] = [seq (theta f, pi f) | f <- equ_proofs p]].
Proof. exact: @k_C86_ppe_mirror_run. Qed.
Print Assumptions C86_ppe_mirror_run.

Example C86_ppe_mirror_run_case := @C86_ppe_mirror_run toy fwd bwd ppe0 xs0 ys0 crs0 fwd_valid bwd_valid isT isT ppe0_wf crs0_two.

(** Up to a bijection of the random scalars, [commit_and_prove] on the mirror image makes the same commitments, with the same randomness, on the other sides, and exchanges [pi] and [theta]. *)
Theorem C86_ms1_mirror_run : forall (E : pairing) (sch sch' : sched) (q : MSMEG1 E) (X : seq (G1 E)) (Y : seq (Fr E)) (crs : CRS E), valid_sched sch -> valid_sched sch' ->
  (0 < size X)%N -> (0 < size Y)%N -> ms1_wf q (size X) (size Y) -> two_keys crs ->
  exists phi : (2 * size X + (size Y + 2)).-tuple (Fr E) -> (size Y + (2 * size X + 2)).-tuple (Fr E), bijective phi /\
  forall (R : rng E) (R' : rng (mirror E)) (s : rst R) (z : rst R'), draws (size Y + (2 * size X + 2)) z = phi (draws (2 * size X + (size Y + 2)) s) ->
  exists p p', [/\ seen id (ms1_commit_and_prove sch q X Y crs s) = Ok p,
    seen id (ms2_commit_and_prove (E := (mirror E)) sch' (mirror_ms1 q) Y X (mirror_crs crs) z) = Ok p',
    (xcoms p', ycoms p') = (ycoms p, xcoms p) &
    [seq (pi f, theta f) | f <- equ_proofs p'] = [seq (theta f, pi f) | f <- equ_proofs p]].
Proof. exact: @k_C86_ms1_mirror_run. Qed.
Print Assumptions C86_ms1_mirror_run.

Example C86_ms1_mirror_run_case := @C86_ms1_mirror_run toy fwd bwd ms10 xs0 ys0 crs0 fwd_valid bwd_valid isT isT ms10_wf crs0_two.

(** Up to a bijection of the random scalars, [commit_and_prove] on the mirror image makes the same commitments, with the same randomness, on the other sides, and exchanges [pi] and [theta]. *)
Theorem C86_ms2_mirror_run : forall (E : pairing) (sch sch' : sched) (q : MSMEG2 E) (X : seq (Fr E)) (Y : seq (G2 E)) (crs : CRS E), valid_sched sch -> valid_sched sch' ->
  (0 < size X)%N -> (0 < size Y)%N -> ms2_wf q (size X) (size Y) -> two_keys crs ->
  exists phi : (size X + (2 * size Y + 2)).-tuple (Fr E) -> (2 * size Y + (size X + 2)).-tuple (Fr E), bijective phi /\
  forall (R : rng E) (R' : rng (mirror E)) (s : rst R) (z : rst R'), draws (2 * size Y + (size X + 2)) z = phi (draws (size X + (2 * size Y + 2)) s) ->
  exists p p', [/\ seen id (ms2_commit_and_prove sch q X Y crs s) = Ok p,
    seen id (ms1_commit_and_prove (E := (mirror E)) sch' (mirror_ms2 q) Y X (mirror_crs crs) z) = Ok p',
    (xcoms p', ycoms p') = (ycoms p, xcoms p) &
    [seq (pi f, theta f) | f <- equ_proofs p'] = [seq (theta f, pi f) | f <- equ_proofs p]].
Proof. exact: @k_C86_ms2_mirror_run. Qed.
Print Assumptions C86_ms2_mirror_run.

Example C86_ms2_mirror_run_case := @C86_ms2_mirror_run toy fwd bwd ms20 xs0 ys0 crs0 fwd_valid bwd_valid isT isT ms20_wf crs0_two.

(** Up to a bijection of the random scalars, [commit_and_prove] on the mirror image makes the same commitments, with the same randomness, on the other sides, and exchanges [pi] and [theta]. *)
Theorem C86_quad_mirror_run : forall (E : pairing) (sch sch' : sched) (q : QuadEqu E) (X : seq (Fr E)) (Y : seq (Fr E)) (crs : CRS E), valid_sched sch -> valid_sched sch' ->
  (0 < size X)%N -> (0 < size Y)%N -> quad_wf q (size X) (size Y) -> two_keys crs ->
  exists phi : (size X + (size Y + 1)).-tuple (Fr E) -> (size Y + (size X + 1)).-tuple (Fr E), bijective phi /\
  forall (R : rng E) (R' : rng (mirror E)) (s : rst R) (z : rst R'), draws (size Y + (size X + 1)) z = phi (draws (size X + (size Y + 1)) s) ->
  exists p p', [/\ seen id (quad_commit_and_prove sch q X Y crs s) = Ok p,
    seen id (quad_commit_and_prove (E := (mirror E)) sch' (mirror_quad q) Y X (mirror_crs crs) z) = Ok p',
    (xcoms p', ycoms p') = (ycoms p, xcoms p) &
    [seq (pi f, theta f) | f <- equ_proofs p'] = [seq (theta f, pi f) | f <- equ_proofs p]].
Proof. exact: @k_C86_quad_mirror_run. Qed.
Print Assumptions C86_quad_mirror_run.

Example C86_quad_mirror_run_case := @C86_quad_mirror_run toy fwd bwd quad0 xs0 ys0 crs0 fwd_valid bwd_valid isT isT quad0_wf crs0_two.
