(** C98: which tapes make the commitment functions and [prove] return the same points, over affine and projective points. *)
From mathcomp Require Import all_ssreflect all_algebra.
From Verif Require Import Base BaseLemmas Group DataStructures Generator Commit Statement Prove Verify Spec SpecMat SpecVerify SpecHide Concrete Concrete4 Concrete7 Concrete25 Concrete29.
From Verif Require Import Ark SpecArk ArkRel ArkLemmas SpecArkRun ArkFibre Concrete13 Concrete28 Concrete33.
Set Implicit Arguments.
Unset Strict Implicit.
Unset Printing Implicit Defensive.
Import GRing.Theory.
Local Open Scope ring_scope.

(** [batch_commit_G1] under a binding key. *)
Theorem C98_G1_binding_ark : forall (E : pairing) (A : ark (Fr E)) (r1 : repr (G1 E) (C1 A)) (r2 : repr (G2 E) (C2 A)) (rt : GT E -> out A -> Prop)
  (X : seq (G1 E)) a (crs : CRS E) crs' a1 a2 t1 t2 (R R' : ark_rng A) (s s' : ark_rst R) (z z' : ark_rst R') c d, implements r1 r2 rt ->
  canonical r1 -> rseq (ra r1) X a -> rcrs r1 r2 rt crs crs' ->
  binding_crs_with crs a1 a2 t1 t2 -> proper_crs crs ->
  ark_batch_commit_G1 a crs' s = Ok (c, s') -> ark_batch_commit_G1 a crs' z = Ok (d, z') ->
  (ark_coms d = ark_coms c <-> forall i, (i < size X)%N ->
     ark_drawn z (2 * i) + t1 * ark_drawn z (2 * i).+1 = ark_drawn s (2 * i) + t1 * ark_drawn s (2 * i).+1).
Proof. move=> E A r1 r2 rt X a crs crs' a1 a2 t1 t2 R R' s s' z z' c d I; exact: (k_C98_G1_binding_ark I). Qed.
Print Assumptions C98_G1_binding_ark.

Example C98_G1_binding_ark_case : afibc_G1 tcrs [:: n7 1; n7 2; n7 3; n7 4] [:: n7 4; n7 3; n7 3; n7 4] && ~~ afibc_G1 tcrs [:: n7 1; n7 2; n7 3; n7 4] [:: n7 2; n7 2; n7 3; n7 4].
Proof. by vm_compute. Qed.

(** [batch_commit_G1] under a hiding key. *)
Theorem C98_G1_hiding_ark : forall (E : pairing) (A : ark (Fr E)) (r1 : repr (G1 E) (C1 A)) (r2 : repr (G2 E) (C2 A)) (rt : GT E -> out A -> Prop)
  (X : seq (G1 E)) a (crs : CRS E) crs' (R R' : ark_rng A) (s s' : ark_rst R) (z z' : ark_rst R') c d, implements r1 r2 rt ->
  canonical r1 -> rseq (ra r1) X a -> rcrs r1 r2 rt crs crs' ->
  hiding_crs crs -> proper_crs crs ->
  ark_batch_commit_G1 a crs' s = Ok (c, s') -> ark_batch_commit_G1 a crs' z = Ok (d, z') ->
  (ark_coms d = ark_coms c <-> forall i, (i < 2 * size X)%N -> ark_drawn z i = ark_drawn s i).
Proof. move=> E A r1 r2 rt X a crs crs' R R' s s' z z' c d I; exact: (k_C98_G1_hiding_ark I). Qed.
Print Assumptions C98_G1_hiding_ark.

Example C98_G1_hiding_ark_case : afibc_G1 tcrsh [:: n7 1; n7 2; n7 3; n7 4] [:: n7 1; n7 2; n7 3; n7 4] && ~~ afibc_G1 tcrsh [:: n7 1; n7 2; n7 3; n7 4] [:: n7 4; n7 3; n7 3; n7 4].
Proof. by vm_compute. Qed.

(** [batch_commit_scalar_to_B1] under any key with [u1] not zero. *)
Theorem C98_B1_ark : forall (E : pairing) (A : ark (Fr E)) (r1 : repr (G1 E) (C1 A)) (r2 : repr (G2 E) (C2 A)) (rt : GT E -> out A -> Prop)
  (X : seq (Fr E)) (crs : CRS E) crs' (R R' : ark_rng A) (s s' : ark_rst R) (z z' : ark_rst R') c d, implements r1 r2 rt ->
  canonical r1 -> rcrs r1 r2 rt crs crs' ->
  nth 0 (crs_u crs) 0 != 0 ->
  ark_batch_commit_scalar_to_B1 X crs' s = Ok (c, s') -> ark_batch_commit_scalar_to_B1 X crs' z = Ok (d, z') ->
  (ark_coms d = ark_coms c <-> forall i, (i < size X)%N -> ark_drawn z i = ark_drawn s i).
Proof. move=> E A r1 r2 rt X crs crs' R R' s s' z z' c d I; exact: (k_C98_B1_ark I). Qed.
Print Assumptions C98_B1_ark.

Example C98_B1_ark_case : afibc_B1 tcrs [:: n7 1; n7 2] [:: n7 1; n7 2] && ~~ afibc_B1 tcrs [:: n7 1; n7 2] [:: n7 3; n7 2].
Proof. by vm_compute. Qed.

(** [batch_commit_G2] under a binding key. *)
Theorem C98_G2_binding_ark : forall (E : pairing) (A : ark (Fr E)) (r1 : repr (G1 E) (C1 A)) (r2 : repr (G2 E) (C2 A)) (rt : GT E -> out A -> Prop)
  (X : seq (G2 E)) a (crs : CRS E) crs' a1 a2 t1 t2 (R R' : ark_rng A) (s s' : ark_rst R) (z z' : ark_rst R') c d, implements r1 r2 rt ->
  canonical r2 -> rseq (ra r2) X a -> rcrs r1 r2 rt crs crs' ->
  binding_crs_with crs a1 a2 t1 t2 -> proper_crs crs ->
  ark_batch_commit_G2 a crs' s = Ok (c, s') -> ark_batch_commit_G2 a crs' z = Ok (d, z') ->
  (ark_coms d = ark_coms c <-> forall i, (i < size X)%N ->
     ark_drawn z (2 * i) + t2 * ark_drawn z (2 * i).+1 = ark_drawn s (2 * i) + t2 * ark_drawn s (2 * i).+1).
Proof. move=> E A r1 r2 rt X a crs crs' a1 a2 t1 t2 R R' s s' z z' c d I; exact: (k_C98_G2_binding_ark I). Qed.
Print Assumptions C98_G2_binding_ark.

Example C98_G2_binding_ark_case : afibc_G2 tcrs [:: n7 1; n7 2; n7 3; n7 4] [:: n7 3; n7 3; n7 3; n7 4] && ~~ afibc_G2 tcrs [:: n7 1; n7 2; n7 3; n7 4] [:: n7 2; n7 2; n7 3; n7 4].
Proof. by vm_compute. Qed.

(** [batch_commit_G2] under a hiding key. *)
Theorem C98_G2_hiding_ark : forall (E : pairing) (A : ark (Fr E)) (r1 : repr (G1 E) (C1 A)) (r2 : repr (G2 E) (C2 A)) (rt : GT E -> out A -> Prop)
  (X : seq (G2 E)) a (crs : CRS E) crs' (R R' : ark_rng A) (s s' : ark_rst R) (z z' : ark_rst R') c d, implements r1 r2 rt ->
  canonical r2 -> rseq (ra r2) X a -> rcrs r1 r2 rt crs crs' ->
  hiding_crs crs -> proper_crs crs ->
  ark_batch_commit_G2 a crs' s = Ok (c, s') -> ark_batch_commit_G2 a crs' z = Ok (d, z') ->
  (ark_coms d = ark_coms c <-> forall i, (i < 2 * size X)%N -> ark_drawn z i = ark_drawn s i).
Proof. move=> E A r1 r2 rt X a crs crs' R R' s s' z z' c d I; exact: (k_C98_G2_hiding_ark I). Qed.
Print Assumptions C98_G2_hiding_ark.

Example C98_G2_hiding_ark_case : afibc_G2 tcrsh [:: n7 1; n7 2; n7 3; n7 4] [:: n7 1; n7 2; n7 3; n7 4] && ~~ afibc_G2 tcrsh [:: n7 1; n7 2; n7 3; n7 4] [:: n7 4; n7 3; n7 3; n7 4].
Proof. by vm_compute. Qed.

(** [batch_commit_scalar_to_B2] under any key with [v1] not zero. *)
Theorem C98_B2_ark : forall (E : pairing) (A : ark (Fr E)) (r1 : repr (G1 E) (C1 A)) (r2 : repr (G2 E) (C2 A)) (rt : GT E -> out A -> Prop)
  (X : seq (Fr E)) (crs : CRS E) crs' (R R' : ark_rng A) (s s' : ark_rst R) (z z' : ark_rst R') c d, implements r1 r2 rt ->
  canonical r2 -> rcrs r1 r2 rt crs crs' ->
  nth 0 (crs_v crs) 0 != 0 ->
  ark_batch_commit_scalar_to_B2 X crs' s = Ok (c, s') -> ark_batch_commit_scalar_to_B2 X crs' z = Ok (d, z') ->
  (ark_coms d = ark_coms c <-> forall i, (i < size X)%N -> ark_drawn z i = ark_drawn s i).
Proof. move=> E A r1 r2 rt X crs crs' R R' s s' z z' c d I; exact: (k_C98_B2_ark I). Qed.
Print Assumptions C98_B2_ark.

Example C98_B2_ark_case : afibc_B2 tcrs [:: n7 1; n7 2] [:: n7 1; n7 2] && ~~ afibc_B2 tcrs [:: n7 1; n7 2] [:: n7 3; n7 2].
Proof. by vm_compute. Qed.

(** [PPE::prove] under a binding key: the tapes which give one proof form a line. *)
Theorem C98_ppe_ark : forall (E : pairing) (A : ark (Fr E)) (r1 : repr (G1 E) (C1 A)) (r2 : repr (G2 E) (C2 A)) (rt : GT E -> out A -> Prop)
  (sch sch' : sched) (q : PPE E) q' (X : seq (G1 E)) (Y : seq (G2 E)) (cx : Commit1 E) (cy : Commit2 E) cx' cy' a b (crs : CRS E) crs' a1 a2 t1 t2 (R R' : ark_rng A) (s s' : ark_rst R) (z z' : ark_rst R') f g, implements r1 r2 rt ->
  canonical r1 -> canonical r2 -> rppe r1 r2 rt q q' -> rseq (ra r1) X a -> rseq (ra r2) Y b -> rcommit r1 cx cx' -> rcommit r2 cy cy' -> rcrs r1 r2 rt crs crs' ->
  valid_sched sch -> valid_sched sch' -> binding_crs_with crs a1 a2 t1 t2 -> proper_crs crs ->
  ark_ppe_prove sch q' a b cx' cy' crs' s = Ok (f, s') -> ark_ppe_prove sch' q' a b cx' cy' crs' z = Ok (g, z') ->
  ((ark_pi g, ark_theta g) = (ark_pi f, ark_theta f) <-> exists k, [/\ ark_drawn z 0 = ark_drawn s 0 + t1 * t2 * k, ark_drawn z 1 = ark_drawn s 1 - t2 * k, ark_drawn z 2 = ark_drawn s 2 - t1 * k & ark_drawn z 3 = ark_drawn s 3 + k]).
Proof. move=> E A r1 r2 rt sch sch' q q' X Y cx cy cx' cy' a b crs crs' a1 a2 t1 t2 R R' s s' z z' f g I; exact: (k_C98_ppe_ark I). Qed.
Print Assumptions C98_ppe_ark.

Example C98_ppe_ark_case : [&& afib_ppe [:: n7 1; n7 2; n7 3; n7 4] [:: n7 21; n7 4; n7 6; n7 5] & ~~ afib_ppe [:: n7 1; n7 2; n7 3; n7 4] [:: n7 2; n7 2; n7 3; n7 4]].
Proof. by vm_compute. Qed.

(** [MSMEG1::prove]: different tapes give different proofs, under any key with [v1] not zero. *)
Theorem C98_ms1_ark : forall (E : pairing) (A : ark (Fr E)) (r1 : repr (G1 E) (C1 A)) (r2 : repr (G2 E) (C2 A)) (rt : GT E -> out A -> Prop)
  (sch sch' : sched) (q : MSMEG1 E) q' (X : seq (G1 E)) (Y : seq (Fr E)) (cx : Commit1 E) (cy : Commit2 E) cx' cy' a (crs : CRS E) crs' (R R' : ark_rng A) (s s' : ark_rst R) (z z' : ark_rst R') f g, implements r1 r2 rt ->
  canonical r1 -> canonical r2 -> rms1 r1 q q' -> rseq (ra r1) X a -> rcommit r1 cx cx' -> rcommit r2 cy cy' -> rcrs r1 r2 rt crs crs' ->
  valid_sched sch -> valid_sched sch' -> nth 0 (crs_v crs) 0 != 0 ->
  ark_ms1_prove sch q' a Y cx' cy' crs' s = Ok (f, s') -> ark_ms1_prove sch' q' a Y cx' cy' crs' z = Ok (g, z') ->
  ((ark_pi g, ark_theta g) = (ark_pi f, ark_theta f) <-> ark_drawn z 0 = ark_drawn s 0 /\ ark_drawn z 1 = ark_drawn s 1).
Proof. move=> E A r1 r2 rt sch sch' q q' X Y cx cy cx' cy' a crs crs' R R' s s' z z' f g I; exact: (k_C98_ms1_ark I). Qed.
Print Assumptions C98_ms1_ark.

Example C98_ms1_ark_case : afib_ms1 [:: n7 1; n7 2] [:: n7 1; n7 2] && ~~ afib_ms1 [:: n7 1; n7 2] [:: n7 1; n7 3].
Proof. by vm_compute. Qed.

(** [MSMEG2::prove]: different tapes give different proofs, under any key with [u1] not zero. *)
Theorem C98_ms2_ark : forall (E : pairing) (A : ark (Fr E)) (r1 : repr (G1 E) (C1 A)) (r2 : repr (G2 E) (C2 A)) (rt : GT E -> out A -> Prop)
  (sch sch' : sched) (q : MSMEG2 E) q' (X : seq (Fr E)) (Y : seq (G2 E)) (cx : Commit1 E) (cy : Commit2 E) cx' cy' b (crs : CRS E) crs' (R R' : ark_rng A) (s s' : ark_rst R) (z z' : ark_rst R') f g, implements r1 r2 rt ->
  canonical r1 -> canonical r2 -> rms2 r2 q q' -> rseq (ra r2) Y b -> rcommit r1 cx cx' -> rcommit r2 cy cy' -> rcrs r1 r2 rt crs crs' ->
  valid_sched sch -> valid_sched sch' -> nth 0 (crs_u crs) 0 != 0 ->
  ark_ms2_prove sch q' X b cx' cy' crs' s = Ok (f, s') -> ark_ms2_prove sch' q' X b cx' cy' crs' z = Ok (g, z') ->
  ((ark_pi g, ark_theta g) = (ark_pi f, ark_theta f) <-> ark_drawn z 0 = ark_drawn s 0 /\ ark_drawn z 1 = ark_drawn s 1).
Proof. move=> E A r1 r2 rt sch sch' q q' X Y cx cy cx' cy' b crs crs' R R' s s' z z' f g I; exact: (k_C98_ms2_ark I). Qed.
Print Assumptions C98_ms2_ark.

Example C98_ms2_ark_case : afib_ms2 [:: n7 1; n7 2] [:: n7 1; n7 2] && ~~ afib_ms2 [:: n7 1; n7 2] [:: n7 1; n7 3].
Proof. by vm_compute. Qed.

(** [QuadEqu::prove]: different tapes give different proofs, under any key with [u1] or [v1] not zero. *)
Theorem C98_quad_ark : forall (E : pairing) (A : ark (Fr E)) (r1 : repr (G1 E) (C1 A)) (r2 : repr (G2 E) (C2 A)) (rt : GT E -> out A -> Prop)
  (sch sch' : sched) (q : QuadEqu E) q' (X : seq (Fr E)) (Y : seq (Fr E)) (cx : Commit1 E) (cy : Commit2 E) cx' cy' (crs : CRS E) crs' (R R' : ark_rng A) (s s' : ark_rst R) (z z' : ark_rst R') f g, implements r1 r2 rt ->
  canonical r1 -> canonical r2 -> rquad q q' -> rcommit r1 cx cx' -> rcommit r2 cy cy' -> rcrs r1 r2 rt crs crs' ->
  valid_sched sch -> valid_sched sch' -> nth 0 (crs_u crs) 0 != 0 \/ nth 0 (crs_v crs) 0 != 0 ->
  ark_quad_prove sch q' X Y cx' cy' crs' s = Ok (f, s') -> ark_quad_prove sch' q' X Y cx' cy' crs' z = Ok (g, z') ->
  ((ark_pi g, ark_theta g) = (ark_pi f, ark_theta f) <-> ark_drawn z 0 = ark_drawn s 0).
Proof. move=> E A r1 r2 rt sch sch' q q' X Y cx cy cx' cy' crs crs' R R' s s' z z' f g I; exact: (k_C98_quad_ark I). Qed.
Print Assumptions C98_quad_ark.

Example C98_quad_ark_case : afib_quad [:: n7 1] [:: n7 1] && ~~ afib_quad [:: n7 1] [:: n7 2].
Proof. by vm_compute. Qed.
