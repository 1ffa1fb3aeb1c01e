(** C92: using the same state of the generator twice. *)
From mathcomp Require Import all_ssreflect all_algebra.
From Verif Require Import Base BaseLemmas Group DataStructures MatLemmas Generator Commit Statement Prove Verify Draws Spec SpecMat SpecVerify SpecPanic SpecFormula SpecReuse ReuseProps Concrete Concrete2.
Set Implicit Arguments.
Unset Strict Implicit.
Unset Printing Implicit Defensive.
Import GRing.Theory.
Local Open Scope ring_scope.

(** [batch_commit_G1] run twice from one state: the same randomness, and the differences of the commitments are the images of the differences of the values. *)
Theorem C92_batch_commit_G1 :
  forall (E : pairing) (R : rng E) (X X' : seq (G1 E)) (crs : CRS E) (s : rst R) c c' t t', size X = size X' ->
  batch_commit_G1 X crs s = Ok (c, t) -> batch_commit_G1 X' crs s = Ok (c', t') ->
  [/\ minus (coms c) (coms c') = [seq (0, x) | x <- minus X X'], crand c = crand c' & t = t'].
Proof. exact k_batch_commit_G1. Qed.
Print Assumptions C92_batch_commit_G1.

Example C92_batch_commit_G1_case :
  match batch_commit_G1 (E := toy) [:: n7 3; n7 5] crsh (6%N : rst ctr), batch_commit_G1 (E := toy) [:: n7 3; n7 6] crsh (6%N : rst ctr) with
  | Ok r, Ok r' => (coms r.1 : seq (F7 * F7)) != coms r'.1
  | _, _ => false end.
Proof. by vm_compute. Qed.

(** So whether the values are equal can be seen. *)
Theorem C92_batch_commit_G1_same :
  forall (E : pairing) (R : rng E) (X X' : seq (G1 E)) (crs : CRS E) (s : rst R) c c' t t', size X = size X' ->
  batch_commit_G1 X crs s = Ok (c, t) -> batch_commit_G1 X' crs s = Ok (c', t') -> (coms c = coms c' <-> X = X').
Proof. exact k_batch_commit_G1_same. Qed.
Print Assumptions C92_batch_commit_G1_same.

Example C92_batch_commit_G1_same_case :
  match batch_commit_G1 (E := toy) [:: n7 3; n7 5] crsh (6%N : rst ctr), batch_commit_G1 (E := toy) [:: n7 3; n7 6] crsh (6%N : rst ctr) with
  | Ok r, Ok r' => (coms r.1 : seq (F7 * F7)) != coms r'.1
  | _, _ => false end.
Proof. by vm_compute. Qed.

(** The same for one value. *)
Theorem C92_commit_G1 :
  forall (E : pairing) (R : rng E) (x x' : G1 E) (crs : CRS E) (s : rst R) c c' t t',
  commit_G1 x crs s = Ok (c, t) -> commit_G1 x' crs s = Ok (c', t') ->
  [/\ minus (coms c) (coms c') = [:: (0, x - x')], crand c = crand c' & t = t'].
Proof. exact k_commit_G1. Qed.
Print Assumptions C92_commit_G1.

Example C92_commit_G1_case :
  match commit_G1 (E := toy) (n7 5) crsh (6%N : rst ctr), commit_G1 (E := toy) (n7 6) crsh (6%N : rst ctr) with
  | Ok r, Ok r' => (coms r.1 : seq (F7 * F7)) != coms r'.1
  | _, _ => false end.
Proof. by vm_compute. Qed.

(** [batch_commit_scalar_to_B1] run twice from one state: the same randomness, and the differences of the commitments are the images of the differences of the values. *)
Theorem C92_batch_commit_scalar_to_B1 :
  forall (E : pairing) (R : rng E) (X X' : seq (Fr E)) (crs : CRS E) (s : rst R) c c' t t', size X = size X' ->
  batch_commit_scalar_to_B1 X crs s = Ok (c, t) -> batch_commit_scalar_to_B1 X' crs s = Ok (c', t') ->
  [/\ minus (coms c) (coms c') = [seq x *: one1 crs | x <- minus X X'], crand c = crand c' & t = t'].
Proof. exact k_batch_commit_scalar_to_B1. Qed.
Print Assumptions C92_batch_commit_scalar_to_B1.

Example C92_batch_commit_scalar_to_B1_case :
  match batch_commit_scalar_to_B1 (E := toy) [:: n7 3; n7 5] crsh (6%N : rst ctr), batch_commit_scalar_to_B1 (E := toy) [:: n7 3; n7 6] crsh (6%N : rst ctr) with
  | Ok r, Ok r' => (coms r.1 : seq (F7 * F7)) != coms r'.1
  | _, _ => false end.
Proof. by vm_compute. Qed.

(** So whether the values are equal can be seen. *)
Theorem C92_batch_commit_scalar_to_B1_same :
  forall (E : pairing) (R : rng E) (X X' : seq (Fr E)) (crs : CRS E) (s : rst R) c c' t t', one1 crs != 0 -> size X = size X' ->
  batch_commit_scalar_to_B1 X crs s = Ok (c, t) -> batch_commit_scalar_to_B1 X' crs s = Ok (c', t') -> (coms c = coms c' <-> X = X').
Proof. exact k_batch_commit_scalar_to_B1_same. Qed.
Print Assumptions C92_batch_commit_scalar_to_B1_same.

Example C92_batch_commit_scalar_to_B1_same_case :
  (one1 crsh != 0) && match batch_commit_scalar_to_B1 (E := toy) [:: n7 3; n7 5] crsh (6%N : rst ctr), batch_commit_scalar_to_B1 (E := toy) [:: n7 3; n7 6] crsh (6%N : rst ctr) with
  | Ok r, Ok r' => (coms r.1 : seq (F7 * F7)) != coms r'.1
  | _, _ => false end.
Proof. by vm_compute. Qed.

(** The same for one value. *)
Theorem C92_commit_scalar_to_B1 :
  forall (E : pairing) (R : rng E) (x x' : Fr E) (crs : CRS E) (s : rst R) c c' t t',
  commit_scalar_to_B1 x crs s = Ok (c, t) -> commit_scalar_to_B1 x' crs s = Ok (c', t') ->
  [/\ minus (coms c) (coms c') = [:: (x - x') *: one1 crs], crand c = crand c' & t = t'].
Proof. exact k_commit_scalar_to_B1. Qed.
Print Assumptions C92_commit_scalar_to_B1.

Example C92_commit_scalar_to_B1_case :
  match commit_scalar_to_B1 (E := toy) (n7 5) crsh (6%N : rst ctr), commit_scalar_to_B1 (E := toy) (n7 6) crsh (6%N : rst ctr) with
  | Ok r, Ok r' => (coms r.1 : seq (F7 * F7)) != coms r'.1
  | _, _ => false end.
Proof. by vm_compute. Qed.

(** [batch_commit_G2] run twice from one state: the same randomness, and the differences of the commitments are the images of the differences of the values. *)
Theorem C92_batch_commit_G2 :
  forall (E : pairing) (R : rng E) (X X' : seq (G2 E)) (crs : CRS E) (s : rst R) c c' t t', size X = size X' ->
  batch_commit_G2 X crs s = Ok (c, t) -> batch_commit_G2 X' crs s = Ok (c', t') ->
  [/\ minus (coms c) (coms c') = [seq (0, x) | x <- minus X X'], crand c = crand c' & t = t'].
Proof. exact k_batch_commit_G2. Qed.
Print Assumptions C92_batch_commit_G2.

Example C92_batch_commit_G2_case :
  match batch_commit_G2 (E := toy) [:: n7 3; n7 5] crsh (6%N : rst ctr), batch_commit_G2 (E := toy) [:: n7 3; n7 6] crsh (6%N : rst ctr) with
  | Ok r, Ok r' => (coms r.1 : seq (F7 * F7)) != coms r'.1
  | _, _ => false end.
Proof. by vm_compute. Qed.

(** So whether the values are equal can be seen. *)
Theorem C92_batch_commit_G2_same :
  forall (E : pairing) (R : rng E) (X X' : seq (G2 E)) (crs : CRS E) (s : rst R) c c' t t', size X = size X' ->
  batch_commit_G2 X crs s = Ok (c, t) -> batch_commit_G2 X' crs s = Ok (c', t') -> (coms c = coms c' <-> X = X').
Proof. exact k_batch_commit_G2_same. Qed.
Print Assumptions C92_batch_commit_G2_same.

Example C92_batch_commit_G2_same_case :
  match batch_commit_G2 (E := toy) [:: n7 3; n7 5] crsh (6%N : rst ctr), batch_commit_G2 (E := toy) [:: n7 3; n7 6] crsh (6%N : rst ctr) with
  | Ok r, Ok r' => (coms r.1 : seq (F7 * F7)) != coms r'.1
  | _, _ => false end.
Proof. by vm_compute. Qed.

(** The same for one value. *)
Theorem C92_commit_G2 :
  forall (E : pairing) (R : rng E) (x x' : G2 E) (crs : CRS E) (s : rst R) c c' t t',
  commit_G2 x crs s = Ok (c, t) -> commit_G2 x' crs s = Ok (c', t') ->
  [/\ minus (coms c) (coms c') = [:: (0, x - x')], crand c = crand c' & t = t'].
Proof. exact k_commit_G2. Qed.
Print Assumptions C92_commit_G2.

Example C92_commit_G2_case :
  match commit_G2 (E := toy) (n7 5) crsh (6%N : rst ctr), commit_G2 (E := toy) (n7 6) crsh (6%N : rst ctr) with
  | Ok r, Ok r' => (coms r.1 : seq (F7 * F7)) != coms r'.1
  | _, _ => false end.
Proof. by vm_compute. Qed.

(** [batch_commit_scalar_to_B2] run twice from one state: the same randomness, and the differences of the commitments are the images of the differences of the values. *)
Theorem C92_batch_commit_scalar_to_B2 :
  forall (E : pairing) (R : rng E) (X X' : seq (Fr E)) (crs : CRS E) (s : rst R) c c' t t', size X = size X' ->
  batch_commit_scalar_to_B2 X crs s = Ok (c, t) -> batch_commit_scalar_to_B2 X' crs s = Ok (c', t') ->
  [/\ minus (coms c) (coms c') = [seq x *: one2 crs | x <- minus X X'], crand c = crand c' & t = t'].
Proof. exact k_batch_commit_scalar_to_B2. Qed.
Print Assumptions C92_batch_commit_scalar_to_B2.

Example C92_batch_commit_scalar_to_B2_case :
  match batch_commit_scalar_to_B2 (E := toy) [:: n7 3; n7 5] crsh (6%N : rst ctr), batch_commit_scalar_to_B2 (E := toy) [:: n7 3; n7 6] crsh (6%N : rst ctr) with
  | Ok r, Ok r' => (coms r.1 : seq (F7 * F7)) != coms r'.1
  | _, _ => false end.
Proof. by vm_compute. Qed.

(** So whether the values are equal can be seen. *)
Theorem C92_batch_commit_scalar_to_B2_same :
  forall (E : pairing) (R : rng E) (X X' : seq (Fr E)) (crs : CRS E) (s : rst R) c c' t t', one2 crs != 0 -> size X = size X' ->
  batch_commit_scalar_to_B2 X crs s = Ok (c, t) -> batch_commit_scalar_to_B2 X' crs s = Ok (c', t') -> (coms c = coms c' <-> X = X').
Proof. exact k_batch_commit_scalar_to_B2_same. Qed.
Print Assumptions C92_batch_commit_scalar_to_B2_same.

Example C92_batch_commit_scalar_to_B2_same_case :
  (one2 crsh != 0) && match batch_commit_scalar_to_B2 (E := toy) [:: n7 3; n7 5] crsh (6%N : rst ctr), batch_commit_scalar_to_B2 (E := toy) [:: n7 3; n7 6] crsh (6%N : rst ctr) with
  | Ok r, Ok r' => (coms r.1 : seq (F7 * F7)) != coms r'.1
  | _, _ => false end.
Proof. by vm_compute. Qed.

(** The same for one value. *)
Theorem C92_commit_scalar_to_B2 :
  forall (E : pairing) (R : rng E) (x x' : Fr E) (crs : CRS E) (s : rst R) c c' t t',
  commit_scalar_to_B2 x crs s = Ok (c, t) -> commit_scalar_to_B2 x' crs s = Ok (c', t') ->
  [/\ minus (coms c) (coms c') = [:: (x - x') *: one2 crs], crand c = crand c' & t = t'].
Proof. exact k_commit_scalar_to_B2. Qed.
Print Assumptions C92_commit_scalar_to_B2.

Example C92_commit_scalar_to_B2_case :
  match commit_scalar_to_B2 (E := toy) (n7 5) crsh (6%N : rst ctr), commit_scalar_to_B2 (E := toy) (n7 6) crsh (6%N : rst ctr) with
  | Ok r, Ok r' => (coms r.1 : seq (F7 * F7)) != coms r'.1
  | _, _ => false end.
Proof. by vm_compute. Qed.

(** Two proofs of any pairing-product equations from one state: the published commitments tell the differences of the witnesses. *)
Theorem C92_ppe :
  forall (E : pairing) (R : rng E) (sch sch' : sched) (q q' : PPE E) (X X' : seq (G1 E)) (Y Y' : seq (G2 E)) (crs : CRS E) (s : rst R) p p' t t',
  valid_sched sch -> valid_sched sch' -> size X = size X' -> size Y = size Y' ->
  ppe_commit_and_prove sch q X Y crs s = Ok (p, t) -> ppe_commit_and_prove sch' q' X' Y' crs s = Ok (p', t') ->
  minus (coms (xcoms p)) (coms (xcoms p')) = [seq (0, x) | x <- minus X X'] /\
  minus (coms (ycoms p)) (coms (ycoms p')) = [seq (0, y) | y <- minus Y Y'].
Proof. exact k_ppe. Qed.
Print Assumptions C92_ppe.

Example C92_ppe_case :
  match ppe_commit_and_prove (E := toy) bwd ppe0 xs0 ys0 crsh (6%N : rst ctr),
        ppe_commit_and_prove (E := toy) bwd ppe0 xs1 ys1 crsh (6%N : rst ctr) with
  | Ok r, Ok r' => ((coms (xcoms r.1) : seq (F7 * F7)) != coms (xcoms r'.1)) && ((coms (ycoms r.1) : seq (F7 * F7)) != coms (ycoms r'.1))
  | _, _ => false end.
Proof. by vm_compute. Qed.

(** So anyone can see whether the two witnesses are the same, also under a hiding key. *)
Theorem C92_ppe_same :
  forall (E : pairing) (R : rng E) (sch sch' : sched) (q q' : PPE E) (X X' : seq (G1 E)) (Y Y' : seq (G2 E)) (crs : CRS E) (s : rst R) p p' t t',
  valid_sched sch -> valid_sched sch' -> size X = size X' -> size Y = size Y' ->
  ppe_commit_and_prove sch q X Y crs s = Ok (p, t) -> ppe_commit_and_prove sch' q' X' Y' crs s = Ok (p', t') ->
  (coms (xcoms p) = coms (xcoms p') <-> X = X') /\ (coms (ycoms p) = coms (ycoms p') <-> Y = Y').
Proof. exact k_ppe_same. Qed.
Print Assumptions C92_ppe_same.

Example C92_ppe_same_case :
  match ppe_commit_and_prove (E := toy) bwd ppe0 xs0 ys0 crsh (6%N : rst ctr),
        ppe_commit_and_prove (E := toy) bwd ppe0 xs1 ys1 crsh (6%N : rst ctr) with
  | Ok r, Ok r' => ((coms (xcoms r.1) : seq (F7 * F7)) != coms (xcoms r'.1)) && ((coms (ycoms r.1) : seq (F7 * F7)) != coms (ycoms r'.1))
  | _, _ => false end.
Proof. by vm_compute. Qed.

(** Two proofs of any multi-scalar equations in G1 from one state: the published commitments tell the differences of the witnesses. *)
Theorem C92_ms1 :
  forall (E : pairing) (R : rng E) (sch sch' : sched) (q q' : MSMEG1 E) (X X' : seq (G1 E)) (Y Y' : seq (Fr E)) (crs : CRS E) (s : rst R) p p' t t',
  valid_sched sch -> valid_sched sch' -> size X = size X' -> size Y = size Y' ->
  ms1_commit_and_prove sch q X Y crs s = Ok (p, t) -> ms1_commit_and_prove sch' q' X' Y' crs s = Ok (p', t') ->
  minus (coms (xcoms p)) (coms (xcoms p')) = [seq (0, x) | x <- minus X X'] /\
  minus (coms (ycoms p)) (coms (ycoms p')) = [seq y *: one2 crs | y <- minus Y Y'].
Proof. exact k_ms1. Qed.
Print Assumptions C92_ms1.

Example C92_ms1_case :
  match ms1_commit_and_prove (E := toy) bwd ms10 xs0 ys0 crsh (6%N : rst ctr),
        ms1_commit_and_prove (E := toy) bwd ms10 xs1 ys1 crsh (6%N : rst ctr) with
  | Ok r, Ok r' => ((coms (xcoms r.1) : seq (F7 * F7)) != coms (xcoms r'.1)) && ((coms (ycoms r.1) : seq (F7 * F7)) != coms (ycoms r'.1))
  | _, _ => false end.
Proof. by vm_compute. Qed.

(** So anyone can see whether the two witnesses are the same, also under a hiding key. *)
Theorem C92_ms1_same :
  forall (E : pairing) (R : rng E) (sch sch' : sched) (q q' : MSMEG1 E) (X X' : seq (G1 E)) (Y Y' : seq (Fr E)) (crs : CRS E) (s : rst R) p p' t t',
  valid_sched sch -> valid_sched sch' -> one2 crs != 0 -> size X = size X' -> size Y = size Y' ->
  ms1_commit_and_prove sch q X Y crs s = Ok (p, t) -> ms1_commit_and_prove sch' q' X' Y' crs s = Ok (p', t') ->
  (coms (xcoms p) = coms (xcoms p') <-> X = X') /\ (coms (ycoms p) = coms (ycoms p') <-> Y = Y').
Proof. exact k_ms1_same. Qed.
Print Assumptions C92_ms1_same.

Example C92_ms1_same_case :
  (one2 crsh != 0) && match ms1_commit_and_prove (E := toy) bwd ms10 xs0 ys0 crsh (6%N : rst ctr),
        ms1_commit_and_prove (E := toy) bwd ms10 xs1 ys1 crsh (6%N : rst ctr) with
  | Ok r, Ok r' => ((coms (xcoms r.1) : seq (F7 * F7)) != coms (xcoms r'.1)) && ((coms (ycoms r.1) : seq (F7 * F7)) != coms (ycoms r'.1))
  | _, _ => false end.
Proof. by vm_compute. Qed.

(** Two proofs of any multi-scalar equations in G2 from one state: the published commitments tell the differences of the witnesses. *)
Theorem C92_ms2 :
  forall (E : pairing) (R : rng E) (sch sch' : sched) (q q' : MSMEG2 E) (X X' : seq (Fr E)) (Y Y' : seq (G2 E)) (crs : CRS E) (s : rst R) p p' t t',
  valid_sched sch -> valid_sched sch' -> size X = size X' -> size Y = size Y' ->
  ms2_commit_and_prove sch q X Y crs s = Ok (p, t) -> ms2_commit_and_prove sch' q' X' Y' crs s = Ok (p', t') ->
  minus (coms (xcoms p)) (coms (xcoms p')) = [seq x *: one1 crs | x <- minus X X'] /\
  minus (coms (ycoms p)) (coms (ycoms p')) = [seq (0, y) | y <- minus Y Y'].
Proof. exact k_ms2. Qed.
Print Assumptions C92_ms2.

Example C92_ms2_case :
  match ms2_commit_and_prove (E := toy) bwd ms20 xs0 ys0 crsh (6%N : rst ctr),
        ms2_commit_and_prove (E := toy) bwd ms20 xs1 ys1 crsh (6%N : rst ctr) with
  | Ok r, Ok r' => ((coms (xcoms r.1) : seq (F7 * F7)) != coms (xcoms r'.1)) && ((coms (ycoms r.1) : seq (F7 * F7)) != coms (ycoms r'.1))
  | _, _ => false end.
Proof. by vm_compute. Qed.

(** So anyone can see whether the two witnesses are the same, also under a hiding key. *)
Theorem C92_ms2_same :
  forall (E : pairing) (R : rng E) (sch sch' : sched) (q q' : MSMEG2 E) (X X' : seq (Fr E)) (Y Y' : seq (G2 E)) (crs : CRS E) (s : rst R) p p' t t',
  valid_sched sch -> valid_sched sch' -> one1 crs != 0 -> size X = size X' -> size Y = size Y' ->
  ms2_commit_and_prove sch q X Y crs s = Ok (p, t) -> ms2_commit_and_prove sch' q' X' Y' crs s = Ok (p', t') ->
  (coms (xcoms p) = coms (xcoms p') <-> X = X') /\ (coms (ycoms p) = coms (ycoms p') <-> Y = Y').
Proof. exact k_ms2_same. Qed.
Print Assumptions C92_ms2_same.

Example C92_ms2_same_case :
  (one1 crsh != 0) && match ms2_commit_and_prove (E := toy) bwd ms20 xs0 ys0 crsh (6%N : rst ctr),
        ms2_commit_and_prove (E := toy) bwd ms20 xs1 ys1 crsh (6%N : rst ctr) with
  | Ok r, Ok r' => ((coms (xcoms r.1) : seq (F7 * F7)) != coms (xcoms r'.1)) && ((coms (ycoms r.1) : seq (F7 * F7)) != coms (ycoms r'.1))
  | _, _ => false end.
Proof. by vm_compute. Qed.

(** Two proofs of any quadratic equations from one state: the published commitments tell the differences of the witnesses. *)
Theorem C92_quad :
  forall (E : pairing) (R : rng E) (sch sch' : sched) (q q' : QuadEqu E) (X X' : seq (Fr E)) (Y Y' : seq (Fr E)) (crs : CRS E) (s : rst R) p p' t t',
  valid_sched sch -> valid_sched sch' -> size X = size X' -> size Y = size Y' ->
  quad_commit_and_prove sch q X Y crs s = Ok (p, t) -> quad_commit_and_prove sch' q' X' Y' crs s = Ok (p', t') ->
  minus (coms (xcoms p)) (coms (xcoms p')) = [seq x *: one1 crs | x <- minus X X'] /\
  minus (coms (ycoms p)) (coms (ycoms p')) = [seq y *: one2 crs | y <- minus Y Y'].
Proof. exact k_quad. Qed.
Print Assumptions C92_quad.

Example C92_quad_case :
  match quad_commit_and_prove (E := toy) bwd quad0 xs0 ys0 crsh (6%N : rst ctr),
        quad_commit_and_prove (E := toy) bwd quad0 xs1 ys1 crsh (6%N : rst ctr) with
  | Ok r, Ok r' => ((coms (xcoms r.1) : seq (F7 * F7)) != coms (xcoms r'.1)) && ((coms (ycoms r.1) : seq (F7 * F7)) != coms (ycoms r'.1))
  | _, _ => false end.
Proof. by vm_compute. Qed.

(** So anyone can see whether the two witnesses are the same, also under a hiding key. *)
Theorem C92_quad_same :
  forall (E : pairing) (R : rng E) (sch sch' : sched) (q q' : QuadEqu E) (X X' : seq (Fr E)) (Y Y' : seq (Fr E)) (crs : CRS E) (s : rst R) p p' t t',
  valid_sched sch -> valid_sched sch' -> one1 crs != 0 -> one2 crs != 0 -> size X = size X' -> size Y = size Y' ->
  quad_commit_and_prove sch q X Y crs s = Ok (p, t) -> quad_commit_and_prove sch' q' X' Y' crs s = Ok (p', t') ->
  (coms (xcoms p) = coms (xcoms p') <-> X = X') /\ (coms (ycoms p) = coms (ycoms p') <-> Y = Y').
Proof. exact k_quad_same. Qed.
Print Assumptions C92_quad_same.

Example C92_quad_same_case :
  (one1 crsh != 0) && (one2 crsh != 0) && match quad_commit_and_prove (E := toy) bwd quad0 xs0 ys0 crsh (6%N : rst ctr),
        quad_commit_and_prove (E := toy) bwd quad0 xs1 ys1 crsh (6%N : rst ctr) with
  | Ok r, Ok r' => ((coms (xcoms r.1) : seq (F7 * F7)) != coms (xcoms r'.1)) && ((coms (ycoms r.1) : seq (F7 * F7)) != coms (ycoms r'.1))
  | _, _ => false end.
Proof. by vm_compute. Qed.

