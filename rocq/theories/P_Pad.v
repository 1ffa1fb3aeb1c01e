(** Property C86: an equation about some of the variables can be restated about all of them,
    in any order, with zero coefficients for the others, as statement.rs:24-28 asks for a
    statement of several equations. The two equations hold together, have the same proofs,
    and are verified alike. *)
From mathcomp Require Import all_ssreflect all_algebra.
From Verif Require Import Base Group DataStructures Generator Commit Statement Prove Verify Spec SpecPad PadProps Concrete Concrete2 Concrete17.
Set Implicit Arguments.
Unset Strict Implicit.
Unset Printing Implicit Defensive.
Import GRing.Theory.
Local Open Scope ring_scope.

Theorem C86_ppe_holds : forall (E : pairing) (m n m' n' : nat) (f g : nat -> nat) (q q' : PPE E) (X X' : seq (G1 E)) (Y Y' : seq (G2 E)),
  bilinear E -> renames m m' f -> renames n n' g -> ppe_padded m n f g q q' ->
  size X = m -> size Y = n -> size X' = m' -> size Y' = n' -> placed 0 m f X X' -> placed 0 n g Y Y' ->
  (ppe_holds q' X' Y' <-> ppe_holds q X Y).
Proof. exact: @ppe_holds_pad. Qed.
Print Assumptions C86_ppe_holds.

Example C86_ppe_holds_case :
  ppe_holds ppe17 xs17 ys17 /\ ~ ppe_holds ppe17 (n7 4 :: behead xs17) ys17.
Proof.
split; last by rewrite /ppe_holds !big_ord_recl !big_ord0; apply/eqP.
apply/(C86_ppe_holds toy_bilinear ren17f ren17g ppe17P _ _ _ _ xs17P ys17P) => //; exact: ppe0_holds.
Qed.

Theorem C86_ppe_verify : forall (E : pairing) (sch : sched) (m n m' n' : nat) (f g : nat -> nat) (q q' : PPE E) (p p' : CProof E) (crs : CRS E),
  bilinear E -> valid_sched sch -> (0 < m)%N -> (0 < n)%N -> renames m m' f -> renames n n' g ->
  ppe_wf q m n -> ppe_wf q' m' n' -> ppe_padded m n f g q q' ->
  size (coms (xcoms p)) = m -> size (coms (ycoms p)) = n -> size (coms (xcoms p')) = m' -> size (coms (ycoms p')) = n' ->
  placed_proof m n f g p p' ->
  ppe_verify sch q' p' crs = ppe_verify sch q p crs.
Proof. exact: @ppe_verify_pad. Qed.
Print Assumptions C86_ppe_verify.

Example C86_ppe_verify_case :
  ppe_verify fwd ppe17 (more17 ppe_p0) crs0 = ppe_verify fwd ppe0 ppe_p0 crs0 /\
  (if ppe_verify fwd ppe17 (more17 ppe_p0) crs0 is Ok b then b else false) = true /\
  (if ppe_verify fwd ppe17 (more17 ppe_p2) crs0 is Ok b then b else true) = false.
Proof.
split; last by vm_compute.
apply: (C86_ppe_verify crs0 toy_bilinear fwd_valid _ _ ren17f ren17g ppe0_wf ppe17_wf ppe17P _ _ _ _ (more17P ppe_p0)); by vm_compute.
Qed.

Theorem C86_ppe_prove : forall (E : pairing) (R : rng E) (sch sch' : sched) (m n m' n' : nat) (f g : nat -> nat) (q q' : PPE E)
  (X X' : seq (G1 E)) (Y Y' : seq (G2 E)) (cx cx' : Commit1 E) (cy cy' : Commit2 E) (crs : CRS E) (s : rst R),
  valid_sched sch -> valid_sched sch' -> two_keys crs -> (0 < m)%N -> (0 < n)%N -> renames m m' f -> renames n n' g ->
  ppe_wf q m n -> ppe_wf q' m' n' -> ppe_padded m n f g q q' ->
  size X = m -> size Y = n -> size X' = m' -> size Y' = n' -> placed 0 m f X X' -> placed 0 n g Y Y' ->
  dims m 2 (crand cx) -> dims n 2 (crand cy) -> dims m' 2 (crand cx') -> dims n' 2 (crand cy') ->
  placed [::] m f (crand cx) (crand cx') -> placed [::] n g (crand cy) (crand cy') ->
  ppe_prove sch' q' X' Y' cx' cy' crs s = ppe_prove sch q X Y cx cy crs s.
Proof. exact: @ppe_prove_pad. Qed.
Print Assumptions C86_ppe_prove.

Example C86_ppe_prove_case :
  ppe_prove fwd ppe17 xs17 ys17 (cx17' 2) (cy17' 2) crs0 (6%N : rst ctr)
  = ppe_prove bwd ppe0 xs0 ys0 (cx17 2) (cy17 2) crs0 (6%N : rst ctr) /\
  (if ppe_prove fwd ppe17 xs17 ys17 (cx17' 2) (cy17' 2) crs0 (6%N : rst ctr) is Ok r then ((pi r.1 : seq (F7 * F7)) == [:: (n7 1, n7 6); (n7 3, n7 5)]) && ((theta r.1 : seq (F7 * F7)) == [:: (n7 6, n7 3); (n7 2, n7 2)]) else false) = true.
Proof.
split; last by vm_compute.
have [d1 d2 d3 d4] := dims17 2; have [e1 e2 e3 e4] := dims17 2.
have key := (C86_ppe_prove (E := toy) (R := ctr) (m := 2%N) (n := 1%N) (X := xs0) (X' := xs17) (Y := ys0) (Y' := ys17) (6%N : rst ctr) bwd_valid fwd_valid crs0_two isT isT ren17f ren17g ppe0_wf ppe17_wf ppe17P erefl erefl erefl erefl
          xs17P ys17P d1 e3 d2 e4 (rand17x 2) (rand17y 2)).
exact: key.
Qed.

Theorem C86_ms1_holds : forall (E : pairing) (m n m' n' : nat) (f g : nat -> nat) (q q' : MSMEG1 E) (X X' : seq (G1 E)) (Y Y' : seq (Fr E)),
  renames m m' f -> renames n n' g -> ms1_padded m n f g q q' ->
  size X = m -> size Y = n -> size X' = m' -> size Y' = n' -> placed 0 m f X X' -> placed 0 n g Y Y' ->
  (ms1_holds q' X' Y' <-> ms1_holds q X Y).
Proof. exact: @ms1_holds_pad. Qed.
Print Assumptions C86_ms1_holds.

Example C86_ms1_holds_case :
  ms1_holds ms117 xs17 ys17 /\ ~ ms1_holds ms117 (n7 4 :: behead xs17) ys17.
Proof.
split; last by rewrite /ms1_holds !big_ord_recl !big_ord0; apply/eqP.
apply/(C86_ms1_holds ren17f ren17g ms117P _ _ _ _ xs17P ys17P) => //; exact: ms10_holds.
Qed.

Theorem C86_ms1_verify : forall (E : pairing) (sch : sched) (m n m' n' : nat) (f g : nat -> nat) (q q' : MSMEG1 E) (p p' : CProof E) (crs : CRS E),
  bilinear E -> valid_sched sch -> (0 < m)%N -> (0 < n)%N -> renames m m' f -> renames n n' g ->
  ms1_wf q m n -> ms1_wf q' m' n' -> ms1_padded m n f g q q' ->
  size (coms (xcoms p)) = m -> size (coms (ycoms p)) = n -> size (coms (xcoms p')) = m' -> size (coms (ycoms p')) = n' ->
  placed_proof m n f g p p' ->
  ms1_verify sch q' p' crs = ms1_verify sch q p crs.
Proof. exact: @ms1_verify_pad. Qed.
Print Assumptions C86_ms1_verify.

Example C86_ms1_verify_case :
  ms1_verify fwd ms117 (more17 ms1_p0) crs0 = ms1_verify fwd ms10 ms1_p0 crs0 /\
  (if ms1_verify fwd ms117 (more17 ms1_p0) crs0 is Ok b then b else false) = true /\
  (if ms1_verify fwd ms117 (more17 ms1_p2) crs0 is Ok b then b else true) = false.
Proof.
split; last by vm_compute.
apply: (C86_ms1_verify crs0 toy_bilinear fwd_valid _ _ ren17f ren17g ms10_wf ms117_wf ms117P _ _ _ _ (more17P ms1_p0)); by vm_compute.
Qed.

Theorem C86_ms1_prove : forall (E : pairing) (R : rng E) (sch sch' : sched) (m n m' n' : nat) (f g : nat -> nat) (q q' : MSMEG1 E)
  (X X' : seq (G1 E)) (Y Y' : seq (Fr E)) (cx cx' : Commit1 E) (cy cy' : Commit2 E) (crs : CRS E) (s : rst R),
  valid_sched sch -> valid_sched sch' -> two_keys crs -> (0 < m)%N -> (0 < n)%N -> renames m m' f -> renames n n' g ->
  ms1_wf q m n -> ms1_wf q' m' n' -> ms1_padded m n f g q q' ->
  size X = m -> size Y = n -> size X' = m' -> size Y' = n' -> placed 0 m f X X' -> placed 0 n g Y Y' ->
  dims m 2 (crand cx) -> dims n 1 (crand cy) -> dims m' 2 (crand cx') -> dims n' 1 (crand cy') ->
  placed [::] m f (crand cx) (crand cx') -> placed [::] n g (crand cy) (crand cy') ->
  ms1_prove sch' q' X' Y' cx' cy' crs s = ms1_prove sch q X Y cx cy crs s.
Proof. exact: @ms1_prove_pad. Qed.
Print Assumptions C86_ms1_prove.

Example C86_ms1_prove_case :
  ms1_prove fwd ms117 xs17 ys17 (cx17' 2) (cy17' 1) crs0 (6%N : rst ctr)
  = ms1_prove bwd ms10 xs0 ys0 (cx17 2) (cy17 1) crs0 (6%N : rst ctr) /\
  (if ms1_prove fwd ms117 xs17 ys17 (cx17' 2) (cy17' 1) crs0 (6%N : rst ctr) is Ok r then ((pi r.1 : seq (F7 * F7)) == [:: (n7 2, n7 5); (n7 0, n7 6)]) && ((theta r.1 : seq (F7 * F7)) == [:: (n7 6, n7 3)]) else false) = true.
Proof.
split; last by vm_compute.
have [d1 d2 d3 d4] := dims17 2; have [e1 e2 e3 e4] := dims17 1.
have key := (C86_ms1_prove (E := toy) (R := ctr) (m := 2%N) (n := 1%N) (X := xs0) (X' := xs17) (Y := ys0) (Y' := ys17) (6%N : rst ctr) bwd_valid fwd_valid crs0_two isT isT ren17f ren17g ms10_wf ms117_wf ms117P erefl erefl erefl erefl
          xs17P ys17P d1 e3 d2 e4 (rand17x 2) (rand17y 1)).
exact: key.
Qed.

Theorem C86_ms2_holds : forall (E : pairing) (m n m' n' : nat) (f g : nat -> nat) (q q' : MSMEG2 E) (X X' : seq (Fr E)) (Y Y' : seq (G2 E)),
  renames m m' f -> renames n n' g -> ms2_padded m n f g q q' ->
  size X = m -> size Y = n -> size X' = m' -> size Y' = n' -> placed 0 m f X X' -> placed 0 n g Y Y' ->
  (ms2_holds q' X' Y' <-> ms2_holds q X Y).
Proof. exact: @ms2_holds_pad. Qed.
Print Assumptions C86_ms2_holds.

Example C86_ms2_holds_case :
  ms2_holds ms217 xs17 ys17 /\ ~ ms2_holds ms217 (n7 4 :: behead xs17) ys17.
Proof.
split; last by rewrite /ms2_holds !big_ord_recl !big_ord0; apply/eqP.
apply/(C86_ms2_holds ren17f ren17g ms217P _ _ _ _ xs17P ys17P) => //; exact: ms20_holds.
Qed.

Theorem C86_ms2_verify : forall (E : pairing) (sch : sched) (m n m' n' : nat) (f g : nat -> nat) (q q' : MSMEG2 E) (p p' : CProof E) (crs : CRS E),
  bilinear E -> valid_sched sch -> (0 < m)%N -> (0 < n)%N -> renames m m' f -> renames n n' g ->
  ms2_wf q m n -> ms2_wf q' m' n' -> ms2_padded m n f g q q' ->
  size (coms (xcoms p)) = m -> size (coms (ycoms p)) = n -> size (coms (xcoms p')) = m' -> size (coms (ycoms p')) = n' ->
  placed_proof m n f g p p' ->
  ms2_verify sch q' p' crs = ms2_verify sch q p crs.
Proof. exact: @ms2_verify_pad. Qed.
Print Assumptions C86_ms2_verify.

Example C86_ms2_verify_case :
  ms2_verify fwd ms217 (more17 ms2_p0) crs0 = ms2_verify fwd ms20 ms2_p0 crs0 /\
  (if ms2_verify fwd ms217 (more17 ms2_p0) crs0 is Ok b then b else false) = true /\
  (if ms2_verify fwd ms217 (more17 ms2_p2) crs0 is Ok b then b else true) = false.
Proof.
split; last by vm_compute.
apply: (C86_ms2_verify crs0 toy_bilinear fwd_valid _ _ ren17f ren17g ms20_wf ms217_wf ms217P _ _ _ _ (more17P ms2_p0)); by vm_compute.
Qed.

Theorem C86_ms2_prove : forall (E : pairing) (R : rng E) (sch sch' : sched) (m n m' n' : nat) (f g : nat -> nat) (q q' : MSMEG2 E)
  (X X' : seq (Fr E)) (Y Y' : seq (G2 E)) (cx cx' : Commit1 E) (cy cy' : Commit2 E) (crs : CRS E) (s : rst R),
  valid_sched sch -> valid_sched sch' -> two_keys crs -> (0 < m)%N -> (0 < n)%N -> renames m m' f -> renames n n' g ->
  ms2_wf q m n -> ms2_wf q' m' n' -> ms2_padded m n f g q q' ->
  size X = m -> size Y = n -> size X' = m' -> size Y' = n' -> placed 0 m f X X' -> placed 0 n g Y Y' ->
  dims m 1 (crand cx) -> dims n 2 (crand cy) -> dims m' 1 (crand cx') -> dims n' 2 (crand cy') ->
  placed [::] m f (crand cx) (crand cx') -> placed [::] n g (crand cy) (crand cy') ->
  ms2_prove sch' q' X' Y' cx' cy' crs s = ms2_prove sch q X Y cx cy crs s.
Proof. exact: @ms2_prove_pad. Qed.
Print Assumptions C86_ms2_prove.

Example C86_ms2_prove_case :
  ms2_prove fwd ms217 xs17 ys17 (cx17' 1) (cy17' 2) crs0 (6%N : rst ctr)
  = ms2_prove bwd ms20 xs0 ys0 (cx17 1) (cy17 2) crs0 (6%N : rst ctr) /\
  (if ms2_prove fwd ms217 xs17 ys17 (cx17' 1) (cy17' 2) crs0 (6%N : rst ctr) is Ok r then ((pi r.1 : seq (F7 * F7)) == [:: (n7 4, n7 1)]) && ((theta r.1 : seq (F7 * F7)) == [:: (n7 5, n7 1); (n7 6, n7 3)]) else false) = true.
Proof.
split; last by vm_compute.
have [d1 d2 d3 d4] := dims17 1; have [e1 e2 e3 e4] := dims17 2.
have key := (C86_ms2_prove (E := toy) (R := ctr) (m := 2%N) (n := 1%N) (X := xs0) (X' := xs17) (Y := ys0) (Y' := ys17) (6%N : rst ctr) bwd_valid fwd_valid crs0_two isT isT ren17f ren17g ms20_wf ms217_wf ms217P erefl erefl erefl erefl
          xs17P ys17P d1 e3 d2 e4 (rand17x 1) (rand17y 2)).
exact: key.
Qed.

Theorem C86_quad_holds : forall (E : pairing) (m n m' n' : nat) (f g : nat -> nat) (q q' : QuadEqu E) (X X' : seq (Fr E)) (Y Y' : seq (Fr E)),
  renames m m' f -> renames n n' g -> quad_padded m n f g q q' ->
  size X = m -> size Y = n -> size X' = m' -> size Y' = n' -> placed 0 m f X X' -> placed 0 n g Y Y' ->
  (quad_holds q' X' Y' <-> quad_holds q X Y).
Proof. exact: @quad_holds_pad. Qed.
Print Assumptions C86_quad_holds.

Example C86_quad_holds_case :
  quad_holds quad17 xs17 ys17 /\ ~ quad_holds quad17 (n7 4 :: behead xs17) ys17.
Proof.
split; last by rewrite /quad_holds !big_ord_recl !big_ord0; apply/eqP.
apply/(C86_quad_holds ren17f ren17g quad17P _ _ _ _ xs17P ys17P) => //; exact: quad0_holds.
Qed.

Theorem C86_quad_verify : forall (E : pairing) (sch : sched) (m n m' n' : nat) (f g : nat -> nat) (q q' : QuadEqu E) (p p' : CProof E) (crs : CRS E),
  bilinear E -> valid_sched sch -> (0 < m)%N -> (0 < n)%N -> renames m m' f -> renames n n' g ->
  quad_wf q m n -> quad_wf q' m' n' -> quad_padded m n f g q q' ->
  size (coms (xcoms p)) = m -> size (coms (ycoms p)) = n -> size (coms (xcoms p')) = m' -> size (coms (ycoms p')) = n' ->
  placed_proof m n f g p p' ->
  quad_verify sch q' p' crs = quad_verify sch q p crs.
Proof. exact: @quad_verify_pad. Qed.
Print Assumptions C86_quad_verify.

Example C86_quad_verify_case :
  quad_verify fwd quad17 (more17 quad_p0) crs0 = quad_verify fwd quad0 quad_p0 crs0 /\
  (if quad_verify fwd quad17 (more17 quad_p0) crs0 is Ok b then b else false) = true /\
  (if quad_verify fwd quad17 (more17 quad_p2) crs0 is Ok b then b else true) = false.
Proof.
split; last by vm_compute.
apply: (C86_quad_verify crs0 toy_bilinear fwd_valid _ _ ren17f ren17g quad0_wf quad17_wf quad17P _ _ _ _ (more17P quad_p0)); by vm_compute.
Qed.

Theorem C86_quad_prove : forall (E : pairing) (R : rng E) (sch sch' : sched) (m n m' n' : nat) (f g : nat -> nat) (q q' : QuadEqu E)
  (X X' : seq (Fr E)) (Y Y' : seq (Fr E)) (cx cx' : Commit1 E) (cy cy' : Commit2 E) (crs : CRS E) (s : rst R),
  valid_sched sch -> valid_sched sch' -> two_keys crs -> (0 < m)%N -> (0 < n)%N -> renames m m' f -> renames n n' g ->
  quad_wf q m n -> quad_wf q' m' n' -> quad_padded m n f g q q' ->
  size X = m -> size Y = n -> size X' = m' -> size Y' = n' -> placed 0 m f X X' -> placed 0 n g Y Y' ->
  dims m 1 (crand cx) -> dims n 1 (crand cy) -> dims m' 1 (crand cx') -> dims n' 1 (crand cy') ->
  placed [::] m f (crand cx) (crand cx') -> placed [::] n g (crand cy) (crand cy') ->
  quad_prove sch' q' X' Y' cx' cy' crs s = quad_prove sch q X Y cx cy crs s.
Proof. exact: @quad_prove_pad. Qed.
Print Assumptions C86_quad_prove.

Example C86_quad_prove_case :
  quad_prove fwd quad17 xs17 ys17 (cx17' 1) (cy17' 1) crs0 (6%N : rst ctr)
  = quad_prove bwd quad0 xs0 ys0 (cx17 1) (cy17 1) crs0 (6%N : rst ctr) /\
  (if quad_prove fwd quad17 xs17 ys17 (cx17' 1) (cy17' 1) crs0 (6%N : rst ctr) is Ok r then ((pi r.1 : seq (F7 * F7)) == [:: (n7 2, n7 5)]) && ((theta r.1 : seq (F7 * F7)) == [:: (n7 5, n7 1)]) else false) = true.
Proof.
split; last by vm_compute.
have [d1 d2 d3 d4] := dims17 1; have [e1 e2 e3 e4] := dims17 1.
have key := (C86_quad_prove (E := toy) (R := ctr) (m := 2%N) (n := 1%N) (X := xs0) (X' := xs17) (Y := ys0) (Y' := ys17) (6%N : rst ctr) bwd_valid fwd_valid crs0_two isT isT ren17f ren17g quad0_wf quad17_wf quad17P erefl erefl erefl erefl
          xs17P ys17P d1 e3 d2 e4 (rand17x 1) (rand17y 1)).
exact: key.
Qed.
