(** C98: which tapes make [commit_and_prove] publish the same points, over affine and projective points. *)
From mathcomp Require Import all_ssreflect all_algebra.
From Verif Require Import Base BaseLemmas Group DataStructures Generator Commit Statement Prove Verify Spec SpecMat SpecVerify SpecHide Concrete Concrete7 Concrete31.
From Verif Require Import Ark SpecArk SpecArkRun ArkRel ArkLemmas ArkBij ArkRun Concrete13 Concrete28 Concrete32.
Set Implicit Arguments.
Unset Strict Implicit.
Unset Printing Implicit Defensive.
Import GRing.Theory.
Local Open Scope ring_scope.

(** [PPE::commit_and_prove] under a binding key: part of the random scalars of the commitments can be moved along the key, if it does not show in [pi] and [theta]. *)
Theorem C98_ppe_run_ark : forall (E : pairing) (A : ark (Fr E)) (r1 : repr (G1 E) (C1 A)) (r2 : repr (G2 E) (C2 A)) (rt : GT E -> out A -> Prop)
  (sch sch' : sched) (q : PPE E) f (X : seq (G1 E)) (Y : seq (G2 E)) a b (crs : CRS E) d a1 a2 t1 t2 (R R' : ark_rng A) (s s' : ark_rst R) (z z' : ark_rst R') p p', implements r1 r2 rt ->
  canonical r1 -> canonical r2 -> rppe r1 r2 rt q f -> rseq (ra r1) X a -> rseq (ra r2) Y b -> rcrs r1 r2 rt crs d -> valid_sched sch -> valid_sched sch' -> binding_crs_with crs a1 a2 t1 t2 -> proper_crs crs ->
  ark_ppe_commit_and_prove sch f a b d s = Ok (p, s') -> ark_ppe_commit_and_prove sch' f a b d z = Ok (p', z') ->
  let m := size X in let n := size Y in
  (ark_public p' = ark_public p <-> exists (k l : nat -> Fr E) (c : Fr E),
    let o := (2 * m + 2 * n)%N in
    let e := \sum_(i < m) \sum_(j < n) k i * at_ (ppe_gamma q) i j * (ark_drawn s (2 * m + 2 * j) + t2 * ark_drawn s (2 * m + 2 * j).+1) in
    [/\ \sum_(i < m) k i *: (nth 0 (ppe_b q) i + \sum_(j < n) at_ (ppe_gamma q) i j *: nth 0 Y j) = 0,
        \sum_(j < n) l j *: (nth 0 (ppe_a q) j + \sum_(i < m) at_ (ppe_gamma q) i j *: nth 0 X i) = 0,
        ark_moved s z 0 m t1 k, ark_moved s z (2 * m) n t2 l &
        [/\ ark_drawn z o = ark_drawn s o + t1 * (t2 * c - e), ark_drawn z o.+1 = ark_drawn s o.+1 + e - t2 * c,
            ark_drawn z o.+2 = ark_drawn s o.+2 - t1 * c & ark_drawn z o.+3 = ark_drawn s o.+3 + c]]).
Proof. move=> E A r1 r2 rt sch sch' q f X Y a b crs d a1 a2 t1 t2 R R' s s' z z' p p' I; exact: (k_C98_ppe_run_ark I). Qed.
Print Assumptions C98_ppe_run_ark.

Example C98_ppe_run_ark_case : ark_same_run (arun_ppe [:: 1; 2; 3; 4; 5; 1; 7; 8; 9; 10]%N) (arun_ppe [:: 5; 1; 1; 1; 5; 1; 1; 6; 5; 4]%N) && ~~ ark_same_run (arun_ppe [:: 1; 2; 3; 4; 5; 1; 7; 8; 9; 10]%N) (arun_ppe [:: 5; 1; 1; 1; 5; 1; 7; 8; 9; 10]%N).
Proof. by vm_compute. Qed.

(** [MSMEG1::commit_and_prove] under a binding key: only the random scalars of the commitments to [X] can move. *)
Theorem C98_ms1_run_ark : forall (E : pairing) (A : ark (Fr E)) (r1 : repr (G1 E) (C1 A)) (r2 : repr (G2 E) (C2 A)) (rt : GT E -> out A -> Prop)
  (sch sch' : sched) (q : MSMEG1 E) f (X : seq (G1 E)) (Y : seq (Fr E)) a (crs : CRS E) d a1 a2 t1 t2 (R R' : ark_rng A) (s s' : ark_rst R) (z z' : ark_rst R') p p', implements r1 r2 rt ->
  canonical r1 -> canonical r2 -> rms1 r1 q f -> rseq (ra r1) X a -> rcrs r1 r2 rt crs d -> valid_sched sch -> valid_sched sch' -> binding_crs_with crs a1 a2 t1 t2 -> proper_crs crs ->
  ark_ms1_commit_and_prove sch f a Y d s = Ok (p, s') -> ark_ms1_commit_and_prove sch' f a Y d z = Ok (p', z') ->
  let m := size X in let n := size Y in
  (ark_public p' = ark_public p <-> exists k : nat -> Fr E,
    let o := (2 * m + n)%N in
    let e := \sum_(i < m) \sum_(j < n) k i * at_ (ms1_gamma q) i j * ark_drawn s (2 * m + j) in
    [/\ \sum_(i < m) k i * (nth 0 (ms1_b q) i + \sum_(j < n) at_ (ms1_gamma q) i j * nth 0 Y j) = 0,
        ark_moved s z 0 m t1 k, ark_same_from s z (2 * m) n,
        ark_drawn z o = ark_drawn s o - t1 * e & ark_drawn z o.+1 = ark_drawn s o.+1 + e]).
Proof. move=> E A r1 r2 rt sch sch' q f X Y a crs d a1 a2 t1 t2 R R' s s' z z' p p' I; exact: (k_C98_ms1_run_ark I). Qed.
Print Assumptions C98_ms1_run_ark.

Example C98_ms1_run_ark_case : ark_same_run (arun_ms1 [:: 1; 2; 3; 4; 5; 7; 8]%N) (arun_ms1 [:: 5; 1; 1; 1; 5; 1; 6]%N) && ~~ ark_same_run (arun_ms1 [:: 1; 2; 3; 4; 5; 7; 8]%N) (arun_ms1 [:: 5; 1; 1; 1; 5; 7; 8]%N).
Proof. by vm_compute. Qed.

(** [MSMEG2::commit_and_prove] under a binding key: only the random scalars of the commitments to [Y] can move. *)
Theorem C98_ms2_run_ark : forall (E : pairing) (A : ark (Fr E)) (r1 : repr (G1 E) (C1 A)) (r2 : repr (G2 E) (C2 A)) (rt : GT E -> out A -> Prop)
  (sch sch' : sched) (q : MSMEG2 E) f (X : seq (Fr E)) (Y : seq (G2 E)) b (crs : CRS E) d a1 a2 t1 t2 (R R' : ark_rng A) (s s' : ark_rst R) (z z' : ark_rst R') p p', implements r1 r2 rt ->
  canonical r1 -> canonical r2 -> rms2 r2 q f -> rseq (ra r2) Y b -> rcrs r1 r2 rt crs d -> valid_sched sch -> valid_sched sch' -> binding_crs_with crs a1 a2 t1 t2 -> proper_crs crs ->
  ark_ms2_commit_and_prove sch f X b d s = Ok (p, s') -> ark_ms2_commit_and_prove sch' f X b d z = Ok (p', z') ->
  let m := size X in let n := size Y in
  (ark_public p' = ark_public p <-> exists l : nat -> Fr E,
    let o := (m + 2 * n)%N in
    [/\ \sum_(j < n) l j * (nth 0 (ms2_a q) j + \sum_(i < m) at_ (ms2_gamma q) i j * nth 0 X i) = 0,
        ark_same_from s z 0 m, ark_moved s z m n t2 l & ark_same_from s z o 2]).
Proof. move=> E A r1 r2 rt sch sch' q f X Y b crs d a1 a2 t1 t2 R R' s s' z z' p p' I; exact: (k_C98_ms2_run_ark I). Qed.
Print Assumptions C98_ms2_run_ark.

Example C98_ms2_run_ark_case : ark_same_run (arun_ms2 [:: 1; 2; 3; 4; 5; 6; 7]%N) (arun_ms2 [:: 1; 4; 4; 4; 5; 6; 7]%N) && ~~ ark_same_run (arun_ms2 [:: 1; 2; 3; 4; 5; 6; 7]%N) (arun_ms2 [:: 1; 2; 3; 6; 6; 6; 7]%N).
Proof. by vm_compute. Qed.

(** [QuadEqu::commit_and_prove] under any key with [u1] and [v1] not zero: no two tapes give the same proof. *)
Theorem C98_quad_run_ark : forall (E : pairing) (A : ark (Fr E)) (r1 : repr (G1 E) (C1 A)) (r2 : repr (G2 E) (C2 A)) (rt : GT E -> out A -> Prop)
  (sch sch' : sched) (q : QuadEqu E) f (X : seq (Fr E)) (Y : seq (Fr E)) (crs : CRS E) d (R R' : ark_rng A) (s s' : ark_rst R) (z z' : ark_rst R') p p', implements r1 r2 rt ->
  canonical r1 -> canonical r2 -> rquad q f -> rcrs r1 r2 rt crs d -> valid_sched sch -> valid_sched sch' -> u1 crs != 0 -> v1 crs != 0 ->
  ark_quad_commit_and_prove sch f X Y d s = Ok (p, s') -> ark_quad_commit_and_prove sch' f X Y d z = Ok (p', z') ->
  (ark_public p' = ark_public p <-> ark_same_from s z 0 (size X + size Y + 1)).
Proof. move=> E A r1 r2 rt sch sch' q f X Y crs d R R' s s' z z' p p' I; exact: (k_C98_quad_run_ark I). Qed.
Print Assumptions C98_quad_run_ark.

Example C98_quad_run_ark_case : ark_same_run (arun_quad [:: 1; 2; 3; 4]%N) (arun_quad [:: 1; 2; 3; 4]%N) && ~~ ark_same_run (arun_quad [:: 1; 2; 3; 4]%N) (arun_quad [:: 1; 2; 3; 5]%N).
Proof. by vm_compute. Qed.

(** The toy curves meet the hypotheses. *)
Example C98_ark_hypotheses_case : implements (E := toy) (A := tark) trepr trepr (fun x a => x = a) /\ canonical trepr /\ rppe (E := toy) (A := tark) trepr trepr (fun x a => x = a) ppe0 tppe /\
  rseq (ra trepr) xs0 (lift xs0) /\ rcrs (E := toy) (A := tark) trepr trepr (fun x a => x = a) crs0 tcrs /\ binding_crs crs0 /\ proper_crs crs0.
Proof. by split; [exact: tark_ok | split; [exact: trepr_canonical | split; [exact: tppe_rel | split; [exact: lift_rel | split; [exact: tcrs_rel | split; [exact: crs0_bind | exact: crs0_prop]]]]]]. Qed.
