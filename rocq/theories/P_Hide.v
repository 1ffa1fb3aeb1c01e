(** Properties C12, C13, C48: under a hiding key commitments and proofs show nothing of the values. *)
From mathcomp Require Import all_ssreflect all_algebra.
From Verif Require Import Base Group DataStructures Generator Commit Statement Prove Verify Spec SpecVerify SpecHide HideProps Concrete Concrete4.
From Verif Require Import Concrete2.
From Verif Require Import Concrete25.
Set Implicit Arguments.
Unset Strict Implicit.
Unset Printing Implicit Defensive.
Import GRing.Theory.
Local Open Scope ring_scope.

(** C12: under a hiding key, a bijection of the random scalars carries the
    commitments of one value into the same commitments of any other value. *)

Theorem C12_G1_one : forall (E : pairing) (crs : CRS E) (x x' : G1 E), cyclic (G1 E) -> cyclic (G2 E) -> hiding_crs crs -> proper_crs crs ->
  same_output 2 (@coms _ _) (@coms _ _) (fun R s => commit_G1 (R := R) x crs s) (fun R s => commit_G1 (R := R) x' crs s).
Proof. move=> E crs x x' hc1 hc2 hh hp; exact: G1_one_hides. Qed.
Print Assumptions C12_G1_one.

Example C12_G1_one_case := @C12_G1_one toy crsh (n7 3) (n7 6) toy_cyclic toy_cyclic crsh_hides crsh_proper.

Theorem C12_G1_batch : forall (E : pairing) (crs : CRS E) (X X' : seq (G1 E)), cyclic (G1 E) -> cyclic (G2 E) -> hiding_crs crs -> proper_crs crs -> size X = size X' ->
  same_output (2 * size X) (@coms _ _) (@coms _ _)
    (fun R s => batch_commit_G1 (R := R) X crs s) (fun R s => batch_commit_G1 (R := R) X' crs s).
Proof. move=> E crs X X' hc1 hc2 hh hp; exact: G1_batch_hides. Qed.
Print Assumptions C12_G1_batch.

Example C12_G1_batch_case := @C12_G1_batch toy crsh xs0 xs1 toy_cyclic toy_cyclic crsh_hides crsh_proper erefl.

Theorem C12_G1_counts : forall (F : finFieldType) (A B C : lmodType F) (e : A -> B -> C), let E := Pairing e in
  forall (crs : CRS E) (X X' : seq (G1 E)) D, cyclic (G1 E) -> cyclic (G2 E) -> hiding_crs crs -> proper_crs crs -> size X = size X' ->
  tapes (2 * size X) (@coms _ _) (fun R s => batch_commit_G1 (R := R) X crs s) D = tapes (2 * size X) (@coms _ _) (fun R s => batch_commit_G1 (R := R) X' crs s) D.
Proof. move=> F A B C e E crs X X' D hc1 hc2 hh hp hs; apply: same_tapes; exact: G1_batch_hides. Qed.
Print Assumptions C12_G1_counts.

Example C12_G1_counts_case := @C12_G1_counts [finFieldType of F7] F7o F7o F7o (fun x y : F7 => x * y) crsh xs0 xs1 (fun r => if r is Ok c then c == [:: (n7 1, n7 2); (n7 3, n7 4)] else false) toy_cyclic toy_cyclic crsh_hides crsh_proper erefl.

Theorem C12_G1_binding : forall (E : pairing) (R : rng E) (s s' : rst R) (crs : CRS E) (x x' : G1 E),
  generate_crs s = (crs, s') -> g1_gen crs != 0 -> g2_gen crs != 0 -> x <> x' ->
  ~ same_output 2 (@coms _ _) (@coms _ _) (fun R s => commit_G1 (R := R) x crs s) (fun R s => commit_G1 (R := R) x' crs s).
Proof. exact: @G1_not_hiding. Qed.
Print Assumptions C12_G1_binding.

Example C12_G1_case : [:: n7 1; n7 3] <> [:: n7 5; n7 0] /\
  same_output 4 (@coms _ _) (@coms _ _)
    (fun R s => batch_commit_G1 (E := toy) (R := R) [:: n7 1; n7 3] crsh s) (fun R s => batch_commit_G1 (E := toy) (R := R) [:: n7 5; n7 0] crsh s) /\
  ~ same_output 2 (@coms _ _) (@coms _ _)
    (fun R s => commit_G1 (E := toy) (R := R) (n7 1) crs0 s) (fun R s => commit_G1 (E := toy) (R := R) (n7 5) crs0 s).
Proof.
split; first by []. split; first by apply: (C12_G1_batch (E := toy) (X := [:: n7 1; n7 3])); by [exact: toy_cyclic|exact: crsh_hid|exact: crsh_prop|].
by apply: (C12_G1_binding (E := toy) (R := ctr) crs0E crs0_g1 crs0_g2).
Qed.

Theorem C12_G2_one : forall (E : pairing) (crs : CRS E) (x x' : G2 E), cyclic (G1 E) -> cyclic (G2 E) -> hiding_crs crs -> proper_crs crs ->
  same_output 2 (@coms _ _) (@coms _ _) (fun R s => commit_G2 (R := R) x crs s) (fun R s => commit_G2 (R := R) x' crs s).
Proof. move=> E crs x x' hc1 hc2 hh hp; exact: G2_one_hides. Qed.
Print Assumptions C12_G2_one.

Example C12_G2_one_case := @C12_G2_one toy crsh (n7 3) (n7 6) toy_cyclic toy_cyclic crsh_hides crsh_proper.

Theorem C12_G2_batch : forall (E : pairing) (crs : CRS E) (X X' : seq (G2 E)), cyclic (G1 E) -> cyclic (G2 E) -> hiding_crs crs -> proper_crs crs -> size X = size X' ->
  same_output (2 * size X) (@coms _ _) (@coms _ _)
    (fun R s => batch_commit_G2 (R := R) X crs s) (fun R s => batch_commit_G2 (R := R) X' crs s).
Proof. move=> E crs X X' hc1 hc2 hh hp; exact: G2_batch_hides. Qed.
Print Assumptions C12_G2_batch.

Example C12_G2_batch_case := @C12_G2_batch toy crsh xs0 xs1 toy_cyclic toy_cyclic crsh_hides crsh_proper erefl.

Theorem C12_G2_counts : forall (F : finFieldType) (A B C : lmodType F) (e : A -> B -> C), let E := Pairing e in
  forall (crs : CRS E) (X X' : seq (G2 E)) D, cyclic (G1 E) -> cyclic (G2 E) -> hiding_crs crs -> proper_crs crs -> size X = size X' ->
  tapes (2 * size X) (@coms _ _) (fun R s => batch_commit_G2 (R := R) X crs s) D = tapes (2 * size X) (@coms _ _) (fun R s => batch_commit_G2 (R := R) X' crs s) D.
Proof. move=> F A B C e E crs X X' D hc1 hc2 hh hp hs; apply: same_tapes; exact: G2_batch_hides. Qed.
Print Assumptions C12_G2_counts.

Example C12_G2_counts_case := @C12_G2_counts [finFieldType of F7] F7o F7o F7o (fun x y : F7 => x * y) crsh xs0 xs1 (fun r => if r is Ok c then c == [:: (n7 1, n7 2); (n7 3, n7 4)] else false) toy_cyclic toy_cyclic crsh_hides crsh_proper erefl.

Theorem C12_G2_binding : forall (E : pairing) (R : rng E) (s s' : rst R) (crs : CRS E) (x x' : G2 E),
  generate_crs s = (crs, s') -> g1_gen crs != 0 -> g2_gen crs != 0 -> x <> x' ->
  ~ same_output 2 (@coms _ _) (@coms _ _) (fun R s => commit_G2 (R := R) x crs s) (fun R s => commit_G2 (R := R) x' crs s).
Proof. exact: @G2_not_hiding. Qed.
Print Assumptions C12_G2_binding.

Example C12_G2_case : [:: n7 1; n7 3] <> [:: n7 5; n7 0] /\
  same_output 4 (@coms _ _) (@coms _ _)
    (fun R s => batch_commit_G2 (E := toy) (R := R) [:: n7 1; n7 3] crsh s) (fun R s => batch_commit_G2 (E := toy) (R := R) [:: n7 5; n7 0] crsh s) /\
  ~ same_output 2 (@coms _ _) (@coms _ _)
    (fun R s => commit_G2 (E := toy) (R := R) (n7 1) crs0 s) (fun R s => commit_G2 (E := toy) (R := R) (n7 5) crs0 s).
Proof.
split; first by []. split; first by apply: (C12_G2_batch (E := toy) (X := [:: n7 1; n7 3])); by [exact: toy_cyclic|exact: crsh_hid|exact: crsh_prop|].
by apply: (C12_G2_binding (E := toy) (R := ctr) crs0E crs0_g1 crs0_g2).
Qed.

Theorem C12_B1_one : forall (E : pairing) (crs : CRS E) (x x' : Fr E), hiding_crs crs ->
  same_output 1 (@coms _ _) (@coms _ _) (fun R s => commit_scalar_to_B1 (R := R) x crs s) (fun R s => commit_scalar_to_B1 (R := R) x' crs s).
Proof. move=> E crs x x' hh; exact: B1_one_hides. Qed.
Print Assumptions C12_B1_one.

Example C12_B1_one_case := @C12_B1_one toy crsh (n7 3) (n7 6) crsh_hides.

Theorem C12_B1_batch : forall (E : pairing) (crs : CRS E) (X X' : seq (Fr E)), hiding_crs crs -> size X = size X' ->
  same_output (size X) (@coms _ _) (@coms _ _)
    (fun R s => batch_commit_scalar_to_B1 (R := R) X crs s) (fun R s => batch_commit_scalar_to_B1 (R := R) X' crs s).
Proof. move=> E crs X X' hh; exact: B1_batch_hides. Qed.
Print Assumptions C12_B1_batch.

Example C12_B1_batch_case := @C12_B1_batch toy crsh xs0 xs1 crsh_hides erefl.

Theorem C12_B1_counts : forall (F : finFieldType) (A B C : lmodType F) (e : A -> B -> C), let E := Pairing e in
  forall (crs : CRS E) (X X' : seq (Fr E)) D, hiding_crs crs -> size X = size X' ->
  tapes (size X) (@coms _ _) (fun R s => batch_commit_scalar_to_B1 (R := R) X crs s) D = tapes (size X) (@coms _ _) (fun R s => batch_commit_scalar_to_B1 (R := R) X' crs s) D.
Proof. move=> F A B C e E crs X X' D hh hs; apply: same_tapes; exact: B1_batch_hides. Qed.
Print Assumptions C12_B1_counts.

Example C12_B1_counts_case := @C12_B1_counts [finFieldType of F7] F7o F7o F7o (fun x y : F7 => x * y) crsh xs0 xs1 (fun r => if r is Ok c then c == [:: (n7 1, n7 2); (n7 3, n7 4)] else false) crsh_hides erefl.

Theorem C12_B1_binding : forall (E : pairing) (R : rng E) (s s' : rst R) (crs : CRS E) (x x' : Fr E),
  generate_crs s = (crs, s') -> g1_gen crs != 0 -> g2_gen crs != 0 -> x <> x' ->
  ~ same_output 1 (@coms _ _) (@coms _ _) (fun R s => commit_scalar_to_B1 (R := R) x crs s) (fun R s => commit_scalar_to_B1 (R := R) x' crs s).
Proof. exact: @B1_not_hiding. Qed.
Print Assumptions C12_B1_binding.

Example C12_B1_case : [:: n7 1; n7 3] <> [:: n7 5; n7 0] /\
  same_output 2 (@coms _ _) (@coms _ _)
    (fun R s => batch_commit_scalar_to_B1 (E := toy) (R := R) [:: n7 1; n7 3] crsh s) (fun R s => batch_commit_scalar_to_B1 (E := toy) (R := R) [:: n7 5; n7 0] crsh s) /\
  ~ same_output 1 (@coms _ _) (@coms _ _)
    (fun R s => commit_scalar_to_B1 (E := toy) (R := R) (n7 1) crs0 s) (fun R s => commit_scalar_to_B1 (E := toy) (R := R) (n7 5) crs0 s).
Proof.
split; first by []. split; first by apply: (C12_B1_batch (E := toy) (X := [:: n7 1; n7 3])); by [exact: crsh_hid|].
by apply: (C12_B1_binding (E := toy) (R := ctr) crs0E crs0_g1 crs0_g2).
Qed.

Theorem C12_B2_one : forall (E : pairing) (crs : CRS E) (x x' : Fr E), hiding_crs crs ->
  same_output 1 (@coms _ _) (@coms _ _) (fun R s => commit_scalar_to_B2 (R := R) x crs s) (fun R s => commit_scalar_to_B2 (R := R) x' crs s).
Proof. move=> E crs x x' hh; exact: B2_one_hides. Qed.
Print Assumptions C12_B2_one.

Example C12_B2_one_case := @C12_B2_one toy crsh (n7 3) (n7 6) crsh_hides.

Theorem C12_B2_batch : forall (E : pairing) (crs : CRS E) (X X' : seq (Fr E)), hiding_crs crs -> size X = size X' ->
  same_output (size X) (@coms _ _) (@coms _ _)
    (fun R s => batch_commit_scalar_to_B2 (R := R) X crs s) (fun R s => batch_commit_scalar_to_B2 (R := R) X' crs s).
Proof. move=> E crs X X' hh; exact: B2_batch_hides. Qed.
Print Assumptions C12_B2_batch.

Example C12_B2_batch_case := @C12_B2_batch toy crsh xs0 xs1 crsh_hides erefl.

Theorem C12_B2_counts : forall (F : finFieldType) (A B C : lmodType F) (e : A -> B -> C), let E := Pairing e in
  forall (crs : CRS E) (X X' : seq (Fr E)) D, hiding_crs crs -> size X = size X' ->
  tapes (size X) (@coms _ _) (fun R s => batch_commit_scalar_to_B2 (R := R) X crs s) D = tapes (size X) (@coms _ _) (fun R s => batch_commit_scalar_to_B2 (R := R) X' crs s) D.
Proof. move=> F A B C e E crs X X' D hh hs; apply: same_tapes; exact: B2_batch_hides. Qed.
Print Assumptions C12_B2_counts.

Example C12_B2_counts_case := @C12_B2_counts [finFieldType of F7] F7o F7o F7o (fun x y : F7 => x * y) crsh xs0 xs1 (fun r => if r is Ok c then c == [:: (n7 1, n7 2); (n7 3, n7 4)] else false) crsh_hides erefl.

Theorem C12_B2_binding : forall (E : pairing) (R : rng E) (s s' : rst R) (crs : CRS E) (x x' : Fr E),
  generate_crs s = (crs, s') -> g1_gen crs != 0 -> g2_gen crs != 0 -> x <> x' ->
  ~ same_output 1 (@coms _ _) (@coms _ _) (fun R s => commit_scalar_to_B2 (R := R) x crs s) (fun R s => commit_scalar_to_B2 (R := R) x' crs s).
Proof. exact: @B2_not_hiding. Qed.
Print Assumptions C12_B2_binding.

Example C12_B2_case : [:: n7 1; n7 3] <> [:: n7 5; n7 0] /\
  same_output 2 (@coms _ _) (@coms _ _)
    (fun R s => batch_commit_scalar_to_B2 (E := toy) (R := R) [:: n7 1; n7 3] crsh s) (fun R s => batch_commit_scalar_to_B2 (E := toy) (R := R) [:: n7 5; n7 0] crsh s) /\
  ~ same_output 1 (@coms _ _) (@coms _ _)
    (fun R s => commit_scalar_to_B2 (E := toy) (R := R) (n7 1) crs0 s) (fun R s => commit_scalar_to_B2 (E := toy) (R := R) (n7 5) crs0 s).
Proof.
split; first by []. split; first by apply: (C12_B2_batch (E := toy) (X := [:: n7 1; n7 3])); by [exact: crsh_hid|].
by apply: (C12_B2_binding (E := toy) (R := ctr) crs0E crs0_g1 crs0_g2).
Qed.

(** C13: witness indistinguishability. *)

Theorem C13_ppe : forall (E : pairing) (sch sch' : sched) (q : PPE E) (X X' : seq (G1 E)) (Y Y' : seq (G2 E)) (crs : CRS E),
  bilinear E -> nondegenerate E -> cyclic (G1 E) -> cyclic (G2 E) -> valid_sched sch -> valid_sched sch' ->
  hiding_crs crs -> proper_crs crs ->
  (0 < size X)%N -> (0 < size Y)%N -> ppe_wf q (size X) (size Y) -> size X' = size X -> size Y' = size Y ->
  ppe_holds q X Y -> ppe_holds q X' Y' ->
  same_output (2 * size X + (2 * size Y + 4))%N public public
    (fun R s => ppe_commit_and_prove (R := R) sch q X Y crs s) (fun R s => ppe_commit_and_prove (R := R) sch' q X' Y' crs s).
Proof. move=> E sch sch' q X X' Y Y' crs hb hn hc1 hc2 vs vs' hh hp; exact: ppe_wi. Qed.
Print Assumptions C13_ppe.

Theorem C13_ppe_counts : forall (F : finFieldType) (A B C : lmodType F) (e : A -> B -> C), let E := Pairing e in
  forall (sch sch' : sched) (q : PPE E) (X X' : seq (G1 E)) (Y Y' : seq (G2 E)) (crs : CRS E) D,
  bilinear E -> nondegenerate E -> cyclic (G1 E) -> cyclic (G2 E) -> valid_sched sch -> valid_sched sch' ->
  hiding_crs crs -> proper_crs crs ->
  (0 < size X)%N -> (0 < size Y)%N -> ppe_wf q (size X) (size Y) -> size X' = size X -> size Y' = size Y ->
  ppe_holds q X Y -> ppe_holds q X' Y' ->
  tapes (2 * size X + (2 * size Y + 4))%N public (fun R s => ppe_commit_and_prove (R := R) sch q X Y crs s) D
  = tapes (2 * size X + (2 * size Y + 4))%N public (fun R s => ppe_commit_and_prove (R := R) sch' q X' Y' crs s) D.
Proof. move=> F A B C e E sch sch' q X X' Y Y' crs D hb hn hc1 hc2 vs vs' hh hp h1 h2 h3 h4 h5 h6 h7; apply: same_tapes; exact: ppe_wi. Qed.
Print Assumptions C13_ppe_counts.

Example C13_ppe_case : xs0 <> xs1 /\ ys0 <> ys1 /\
  same_output (2 * 2 + (2 * 1 + 4))%N public public
    (fun R s => ppe_commit_and_prove (E := toy) (R := R) fwd ppe0 xs0 ys0 crsh s) (fun R s => ppe_commit_and_prove (E := toy) (R := R) bwd ppe0 xs1 ys1 crsh s).
Proof.
split; first by []. split; first by [].
apply: (C13_ppe (E := toy) (X := xs0) (Y := ys0) toy_bilinear toy_nondegenerate toy_cyclic toy_cyclic fwd_valid bwd_valid crsh_hid crsh_prop) => //.
- exact: ppe0_wf.
- exact: ppe0_holds.
- exact: ppe0_holds1.
Qed.

Theorem C13_ms1 : forall (E : pairing) (sch sch' : sched) (q : MSMEG1 E) (X X' : seq (G1 E)) (Y Y' : seq (Fr E)) (crs : CRS E),
  bilinear E -> nondegenerate E -> cyclic (G1 E) -> cyclic (G2 E) -> valid_sched sch -> valid_sched sch' ->
  hiding_crs crs -> proper_crs crs ->
  (0 < size X)%N -> (0 < size Y)%N -> ms1_wf q (size X) (size Y) -> size X' = size X -> size Y' = size Y ->
  ms1_holds q X Y -> ms1_holds q X' Y' ->
  same_output (2 * size X + (size Y + 2))%N public public
    (fun R s => ms1_commit_and_prove (R := R) sch q X Y crs s) (fun R s => ms1_commit_and_prove (R := R) sch' q X' Y' crs s).
Proof. move=> E sch sch' q X X' Y Y' crs hb hn hc1 hc2 vs vs' hh hp; exact: ms1_wi. Qed.
Print Assumptions C13_ms1.

Theorem C13_ms1_counts : forall (F : finFieldType) (A B C : lmodType F) (e : A -> B -> C), let E := Pairing e in
  forall (sch sch' : sched) (q : MSMEG1 E) (X X' : seq (G1 E)) (Y Y' : seq (Fr E)) (crs : CRS E) D,
  bilinear E -> nondegenerate E -> cyclic (G1 E) -> cyclic (G2 E) -> valid_sched sch -> valid_sched sch' ->
  hiding_crs crs -> proper_crs crs ->
  (0 < size X)%N -> (0 < size Y)%N -> ms1_wf q (size X) (size Y) -> size X' = size X -> size Y' = size Y ->
  ms1_holds q X Y -> ms1_holds q X' Y' ->
  tapes (2 * size X + (size Y + 2))%N public (fun R s => ms1_commit_and_prove (R := R) sch q X Y crs s) D
  = tapes (2 * size X + (size Y + 2))%N public (fun R s => ms1_commit_and_prove (R := R) sch' q X' Y' crs s) D.
Proof. move=> F A B C e E sch sch' q X X' Y Y' crs D hb hn hc1 hc2 vs vs' hh hp h1 h2 h3 h4 h5 h6 h7; apply: same_tapes; exact: ms1_wi. Qed.
Print Assumptions C13_ms1_counts.

Example C13_ms1_case : xs0 <> xs1 /\ ys0 <> ys1 /\
  same_output (2 * 2 + (1 + 2))%N public public
    (fun R s => ms1_commit_and_prove (E := toy) (R := R) fwd ms10 xs0 ys0 crsh s) (fun R s => ms1_commit_and_prove (E := toy) (R := R) bwd ms10 xs1 ys1 crsh s).
Proof.
split; first by []. split; first by [].
apply: (C13_ms1 (E := toy) (X := xs0) (Y := ys0) toy_bilinear toy_nondegenerate toy_cyclic toy_cyclic fwd_valid bwd_valid crsh_hid crsh_prop) => //.
- exact: ms10_wf.
- exact: ms10_holds.
- exact: ms10_holds1.
Qed.

Theorem C13_ms2 : forall (E : pairing) (sch sch' : sched) (q : MSMEG2 E) (X X' : seq (Fr E)) (Y Y' : seq (G2 E)) (crs : CRS E),
  bilinear E -> nondegenerate E -> cyclic (G1 E) -> cyclic (G2 E) -> valid_sched sch -> valid_sched sch' ->
  hiding_crs crs -> proper_crs crs ->
  (0 < size X)%N -> (0 < size Y)%N -> ms2_wf q (size X) (size Y) -> size X' = size X -> size Y' = size Y ->
  ms2_holds q X Y -> ms2_holds q X' Y' ->
  same_output (size X + (2 * size Y + 2))%N public public
    (fun R s => ms2_commit_and_prove (R := R) sch q X Y crs s) (fun R s => ms2_commit_and_prove (R := R) sch' q X' Y' crs s).
Proof. move=> E sch sch' q X X' Y Y' crs hb hn hc1 hc2 vs vs' hh hp; exact: ms2_wi. Qed.
Print Assumptions C13_ms2.

Theorem C13_ms2_counts : forall (F : finFieldType) (A B C : lmodType F) (e : A -> B -> C), let E := Pairing e in
  forall (sch sch' : sched) (q : MSMEG2 E) (X X' : seq (Fr E)) (Y Y' : seq (G2 E)) (crs : CRS E) D,
  bilinear E -> nondegenerate E -> cyclic (G1 E) -> cyclic (G2 E) -> valid_sched sch -> valid_sched sch' ->
  hiding_crs crs -> proper_crs crs ->
  (0 < size X)%N -> (0 < size Y)%N -> ms2_wf q (size X) (size Y) -> size X' = size X -> size Y' = size Y ->
  ms2_holds q X Y -> ms2_holds q X' Y' ->
  tapes (size X + (2 * size Y + 2))%N public (fun R s => ms2_commit_and_prove (R := R) sch q X Y crs s) D
  = tapes (size X + (2 * size Y + 2))%N public (fun R s => ms2_commit_and_prove (R := R) sch' q X' Y' crs s) D.
Proof. move=> F A B C e E sch sch' q X X' Y Y' crs D hb hn hc1 hc2 vs vs' hh hp h1 h2 h3 h4 h5 h6 h7; apply: same_tapes; exact: ms2_wi. Qed.
Print Assumptions C13_ms2_counts.

Example C13_ms2_case : xs0 <> xs1 /\ ys0 <> ys1 /\
  same_output (2 + (2 * 1 + 2))%N public public
    (fun R s => ms2_commit_and_prove (E := toy) (R := R) fwd ms20 xs0 ys0 crsh s) (fun R s => ms2_commit_and_prove (E := toy) (R := R) bwd ms20 xs1 ys1 crsh s).
Proof.
split; first by []. split; first by [].
apply: (C13_ms2 (E := toy) (X := xs0) (Y := ys0) toy_bilinear toy_nondegenerate toy_cyclic toy_cyclic fwd_valid bwd_valid crsh_hid crsh_prop) => //.
- exact: ms20_wf.
- exact: ms20_holds.
- exact: ms20_holds1.
Qed.

Theorem C13_quad : forall (E : pairing) (sch sch' : sched) (q : QuadEqu E) (X X' : seq (Fr E)) (Y Y' : seq (Fr E)) (crs : CRS E),
  bilinear E -> nondegenerate E -> cyclic (G1 E) -> cyclic (G2 E) -> valid_sched sch -> valid_sched sch' ->
  hiding_crs crs -> proper_crs crs ->
  (0 < size X)%N -> (0 < size Y)%N -> quad_wf q (size X) (size Y) -> size X' = size X -> size Y' = size Y ->
  quad_holds q X Y -> quad_holds q X' Y' ->
  same_output (size X + (size Y + 1))%N public public
    (fun R s => quad_commit_and_prove (R := R) sch q X Y crs s) (fun R s => quad_commit_and_prove (R := R) sch' q X' Y' crs s).
Proof. move=> E sch sch' q X X' Y Y' crs hb hn hc1 hc2 vs vs' hh hp; exact: quad_wi. Qed.
Print Assumptions C13_quad.

Theorem C13_quad_counts : forall (F : finFieldType) (A B C : lmodType F) (e : A -> B -> C), let E := Pairing e in
  forall (sch sch' : sched) (q : QuadEqu E) (X X' : seq (Fr E)) (Y Y' : seq (Fr E)) (crs : CRS E) D,
  bilinear E -> nondegenerate E -> cyclic (G1 E) -> cyclic (G2 E) -> valid_sched sch -> valid_sched sch' ->
  hiding_crs crs -> proper_crs crs ->
  (0 < size X)%N -> (0 < size Y)%N -> quad_wf q (size X) (size Y) -> size X' = size X -> size Y' = size Y ->
  quad_holds q X Y -> quad_holds q X' Y' ->
  tapes (size X + (size Y + 1))%N public (fun R s => quad_commit_and_prove (R := R) sch q X Y crs s) D
  = tapes (size X + (size Y + 1))%N public (fun R s => quad_commit_and_prove (R := R) sch' q X' Y' crs s) D.
Proof. move=> F A B C e E sch sch' q X X' Y Y' crs D hb hn hc1 hc2 vs vs' hh hp h1 h2 h3 h4 h5 h6 h7; apply: same_tapes; exact: quad_wi. Qed.
Print Assumptions C13_quad_counts.

Example C13_quad_case : xs0 <> xs1 /\ ys0 <> ys1 /\
  same_output (2 + (1 + 1))%N public public
    (fun R s => quad_commit_and_prove (E := toy) (R := R) fwd quad0 xs0 ys0 crsh s) (fun R s => quad_commit_and_prove (E := toy) (R := R) bwd quad0 xs1 ys1 crsh s).
Proof.
split; first by []. split; first by [].
apply: (C13_quad (E := toy) (X := xs0) (Y := ys0) toy_bilinear toy_nondegenerate toy_cyclic toy_cyclic fwd_valid bwd_valid crsh_hid crsh_prop) => //.
- exact: quad0_wf.
- exact: quad0_holds.
- exact: quad0_holds1.
Qed.

(** C48: zero-knowledge. The simulator commits to zeros, proves, and corrects
    the proof with the trapdoors; its output is accepted whether or not the
    equation can be satisfied, and looks like that of any honest prover. *)

Theorem C48_ppe_simulated : forall (E : pairing) (sch sch' : sched) (q : PPE E) (X : seq (G1 E)) (Y : seq (G2 E)) (crs : CRS E) (a1 a2 t1 t2 : Fr E) (k l : Fr E) (P : G1 E) (Q : G2 E),
  bilinear E -> nondegenerate E -> cyclic (G1 E) -> cyclic (G2 E) -> valid_sched sch -> valid_sched sch' ->
  hiding_crs_with crs a1 a2 t1 t2 -> proper_crs crs ->
  ppe_target q = pair_e (k *: g1_gen crs) Q + pair_e P (l *: g2_gen crs) ->
  (0 < size X)%N -> (0 < size Y)%N -> ppe_wf q (size X) (size Y) -> ppe_holds q X Y ->
  same_output (2 * size X + (2 * size Y + 4))%N public (fun p => public (ppe_fix t1 t2 k l P Q p))
    (fun R s => ppe_commit_and_prove (R := R) sch q X Y crs s)
    (fun R s => ppe_commit_and_prove (R := R) sch' q (nseq (size X) 0) (nseq (size Y) 0) crs s).
Proof. move=> E sch sch' q X Y crs a1 a2 t1 t2 k l P Q hb hn hc1 hc2 vs vs' hh hp ht h1 h2 h3 h4; exact: (ppe_zk vs vs' hb hn hc1 hc2 hp hh ht). Qed.
Print Assumptions C48_ppe_simulated.

Example C48_ppe_simulated_case := @C48_ppe_simulated toy fwd bwd ppe0 xs0 ys0 crsh (n7 2) (n7 3) (n7 4) (n7 5) (n7 3) (n7 3) (n7 2) (n7 1) toy_bilinear toy_nondegenerate toy_cyclic toy_cyclic fwd_valid bwd_valid crsh_hiding crsh_proper ppe0_split isT isT ppe0_wf ppe0_holds.

Theorem C48_ppe_counts : forall (F : finFieldType) (A B C : lmodType F) (e : A -> B -> C), let E := Pairing e in
  forall (sch sch' : sched) (q : PPE E) (X : seq (G1 E)) (Y : seq (G2 E)) (crs : CRS E) (a1 a2 t1 t2 : Fr E) (k l : Fr E) (P : G1 E) (Q : G2 E) D,
  bilinear E -> nondegenerate E -> cyclic (G1 E) -> cyclic (G2 E) -> valid_sched sch -> valid_sched sch' ->
  hiding_crs_with crs a1 a2 t1 t2 -> proper_crs crs ->
  ppe_target q = pair_e (k *: g1_gen crs) Q + pair_e P (l *: g2_gen crs) ->
  (0 < size X)%N -> (0 < size Y)%N -> ppe_wf q (size X) (size Y) -> ppe_holds q X Y ->
  tapes (2 * size X + (2 * size Y + 4))%N public (fun R s => ppe_commit_and_prove (R := R) sch q X Y crs s) D
  = tapes (2 * size X + (2 * size Y + 4))%N (fun p => public (ppe_fix t1 t2 k l P Q p)) (fun R s => ppe_commit_and_prove (R := R) sch' q (nseq (size X) 0) (nseq (size Y) 0) crs s) D.
Proof. move=> F A B C e E sch sch' q X Y crs a1 a2 t1 t2 k l P Q D hb hn hc1 hc2 vs vs' hh hp ht h1 h2 h3 h4; apply: same_tapes; exact: (ppe_zk vs vs' hb hn hc1 hc2 hp hh ht). Qed.
Print Assumptions C48_ppe_counts.

Example C48_ppe_counts_case := @C48_ppe_counts [finFieldType of F7] F7o F7o F7o (fun x y : F7 => x * y) fwd bwd ppe0 xs0 ys0 crsh (n7 2) (n7 3) (n7 4) (n7 5) (n7 3) (n7 3) (n7 2) (n7 1) (fun r => if r is Ok c then c.1.1 == [:: (n7 1, n7 2); (n7 3, n7 4)] else false) toy_bilinear toy_nondegenerate toy_cyclic toy_cyclic fwd_valid bwd_valid crsh_hiding crsh_proper ppe0_split isT isT ppe0_wf ppe0_holds.

Theorem C48_ppe_accepted : forall (E : pairing) (R : rng E) (sch sch' : sched) (q : PPE E) (m n : nat) (crs : CRS E) (a1 a2 t1 t2 : Fr E) (k l : Fr E) (P : G1 E) (Q : G2 E) (s : rst R),
  bilinear E -> valid_sched sch -> valid_sched sch' -> hiding_crs_with crs a1 a2 t1 t2 ->
  ppe_target q = pair_e (k *: g1_gen crs) Q + pair_e P (l *: g2_gen crs) ->
  (0 < m)%N -> (0 < n)%N -> ppe_wf q m n ->
  exists p s', ppe_commit_and_prove sch q (nseq m 0) (nseq n 0) crs s = Ok (p, s') /\
    ppe_verify sch' q (ppe_fix t1 t2 k l P Q p) crs = Ok true.
Proof. move=> E R sch sch' q m n crs a1 a2 t1 t2 k l P Q s hb vs vs' hh ht h1 h2 h3; exact: (ppe_sim vs vs' hb s hh ht). Qed.
Print Assumptions C48_ppe_accepted.

Example C48_ppe_case :
  same_output (2 * 2 + (2 * 1 + 4))%N public (fun p => public (ppe_fix (E := toy) (n7 4) (n7 5) (n7 3) (n7 4) (n7 1 : F7o) (n7 0 : F7o) p))
    (fun R s => ppe_commit_and_prove (E := toy) (R := R) fwd ppe0 xs0 ys0 crsh s) (fun R s => ppe_commit_and_prove (E := toy) (R := R) bwd ppe0 (nseq 2 0) (nseq 1 0) crsh s) /\
  (forall X Y, ~ ppe_holds no_ppe X Y) /\
  exists p s', ppe_commit_and_prove (E := toy) (R := ctr) fwd no_ppe (nseq 2 0) (nseq 1 0) crsh 0%N = Ok (p, s') /\
    ppe_verify fwd no_ppe (ppe_fix (E := toy) (n7 4) (n7 5) (n7 1) (n7 2) (n7 2 : F7o) (n7 2 : F7o) p) crsh = Ok true.
Proof.
split.
  apply: (C48_ppe_simulated (E := toy) (X := xs0) (Y := ys0) (k := n7 3) (l := n7 4) (P := n7 1 : F7o) (Q := n7 0 : F7o) toy_bilinear toy_nondegenerate toy_cyclic toy_cyclic fwd_valid bwd_valid crsh_hiding crsh_prop) => //.

  - exact: ppe0_wf.
  - exact: ppe0_holds.
split; first exact: no_ppe_fails.
apply: (C48_ppe_accepted (E := toy) (R := ctr) (k := n7 1) (l := n7 2) (P := n7 2 : F7o) (Q := n7 2 : F7o) _ toy_bilinear fwd_valid fwd_valid crsh_hiding) => //.

by split=> //; split=> // -[|[|]].
Qed.

Theorem C48_ms1_simulated : forall (E : pairing) (sch sch' : sched) (q : MSMEG1 E) (X : seq (G1 E)) (Y : seq (Fr E)) (crs : CRS E) (a1 a2 t1 t2 : Fr E),
  bilinear E -> nondegenerate E -> cyclic (G1 E) -> cyclic (G2 E) -> valid_sched sch -> valid_sched sch' ->
  hiding_crs_with crs a1 a2 t1 t2 -> proper_crs crs ->
  (0 < size X)%N -> (0 < size Y)%N -> ms1_wf q (size X) (size Y) -> ms1_holds q X Y ->
  same_output (2 * size X + (size Y + 2))%N public (fun p => public (ms1_fix t1 t2 q p))
    (fun R s => ms1_commit_and_prove (R := R) sch q X Y crs s)
    (fun R s => ms1_commit_and_prove (R := R) sch' q (nseq (size X) 0) (nseq (size Y) 0) crs s).
Proof. move=> E sch sch' q X Y crs a1 a2 t1 t2 hb hn hc1 hc2 vs vs' hh hp h1 h2 h3 h4; exact: (ms1_zk vs vs' hb hn hc1 hc2 hp hh). Qed.
Print Assumptions C48_ms1_simulated.

Example C48_ms1_simulated_case := @C48_ms1_simulated toy fwd bwd ms10 xs0 ys0 crsh (n7 2) (n7 3) (n7 4) (n7 5) toy_bilinear toy_nondegenerate toy_cyclic toy_cyclic fwd_valid bwd_valid crsh_hiding crsh_proper isT isT ms10_wf ms10_holds.

Theorem C48_ms1_counts : forall (F : finFieldType) (A B C : lmodType F) (e : A -> B -> C), let E := Pairing e in
  forall (sch sch' : sched) (q : MSMEG1 E) (X : seq (G1 E)) (Y : seq (Fr E)) (crs : CRS E) (a1 a2 t1 t2 : Fr E) D,
  bilinear E -> nondegenerate E -> cyclic (G1 E) -> cyclic (G2 E) -> valid_sched sch -> valid_sched sch' ->
  hiding_crs_with crs a1 a2 t1 t2 -> proper_crs crs ->
  (0 < size X)%N -> (0 < size Y)%N -> ms1_wf q (size X) (size Y) -> ms1_holds q X Y ->
  tapes (2 * size X + (size Y + 2))%N public (fun R s => ms1_commit_and_prove (R := R) sch q X Y crs s) D
  = tapes (2 * size X + (size Y + 2))%N (fun p => public (ms1_fix t1 t2 q p)) (fun R s => ms1_commit_and_prove (R := R) sch' q (nseq (size X) 0) (nseq (size Y) 0) crs s) D.
Proof. move=> F A B C e E sch sch' q X Y crs a1 a2 t1 t2 D hb hn hc1 hc2 vs vs' hh hp h1 h2 h3 h4; apply: same_tapes; exact: (ms1_zk vs vs' hb hn hc1 hc2 hp hh). Qed.
Print Assumptions C48_ms1_counts.

Example C48_ms1_counts_case := @C48_ms1_counts [finFieldType of F7] F7o F7o F7o (fun x y : F7 => x * y) fwd bwd ms10 xs0 ys0 crsh (n7 2) (n7 3) (n7 4) (n7 5) (fun r => if r is Ok c then c.1.1 == [:: (n7 1, n7 2); (n7 3, n7 4)] else false) toy_bilinear toy_nondegenerate toy_cyclic toy_cyclic fwd_valid bwd_valid crsh_hiding crsh_proper isT isT ms10_wf ms10_holds.

Theorem C48_ms1_accepted : forall (E : pairing) (R : rng E) (sch sch' : sched) (q : MSMEG1 E) (m n : nat) (crs : CRS E) (a1 a2 t1 t2 : Fr E) (s : rst R),
  bilinear E -> valid_sched sch -> valid_sched sch' -> hiding_crs_with crs a1 a2 t1 t2 ->
  (0 < m)%N -> (0 < n)%N -> ms1_wf q m n ->
  exists p s', ms1_commit_and_prove sch q (nseq m 0) (nseq n 0) crs s = Ok (p, s') /\
    ms1_verify sch' q (ms1_fix t1 t2 q p) crs = Ok true.
Proof. move=> E R sch sch' q m n crs a1 a2 t1 t2 s hb vs vs' hh h1 h2 h3; exact: (ms1_sim vs vs' hb s hh). Qed.
Print Assumptions C48_ms1_accepted.

Example C48_ms1_case :
  same_output (2 * 2 + (1 + 2))%N public (fun p => public (ms1_fix (E := toy) (n7 4) (n7 5) ms10 p))
    (fun R s => ms1_commit_and_prove (E := toy) (R := R) fwd ms10 xs0 ys0 crsh s) (fun R s => ms1_commit_and_prove (E := toy) (R := R) bwd ms10 (nseq 2 0) (nseq 1 0) crsh s) /\
  (forall X Y, ~ ms1_holds no_ms1 X Y) /\
  exists p s', ms1_commit_and_prove (E := toy) (R := ctr) fwd no_ms1 (nseq 2 0) (nseq 1 0) crsh 0%N = Ok (p, s') /\
    ms1_verify fwd no_ms1 (ms1_fix (E := toy) (n7 4) (n7 5) no_ms1 p) crsh = Ok true.
Proof.
split.
  apply: (C48_ms1_simulated (E := toy) (X := xs0) (Y := ys0) toy_bilinear toy_nondegenerate toy_cyclic toy_cyclic fwd_valid bwd_valid crsh_hiding crsh_prop) => //.

  - exact: ms10_wf.
  - exact: ms10_holds.
split; first exact: no_ms1_fails.
apply: (C48_ms1_accepted (E := toy) (R := ctr) _ toy_bilinear fwd_valid fwd_valid crsh_hiding) => //.

by split=> //; split=> // -[|[|]].
Qed.

Theorem C48_ms2_simulated : forall (E : pairing) (sch sch' : sched) (q : MSMEG2 E) (X : seq (Fr E)) (Y : seq (G2 E)) (crs : CRS E) (a1 a2 t1 t2 : Fr E),
  bilinear E -> nondegenerate E -> cyclic (G1 E) -> cyclic (G2 E) -> valid_sched sch -> valid_sched sch' ->
  hiding_crs_with crs a1 a2 t1 t2 -> proper_crs crs ->
  (0 < size X)%N -> (0 < size Y)%N -> ms2_wf q (size X) (size Y) -> ms2_holds q X Y ->
  same_output (size X + (2 * size Y + 2))%N public (fun p => public (ms2_fix t1 t2 q p))
    (fun R s => ms2_commit_and_prove (R := R) sch q X Y crs s)
    (fun R s => ms2_commit_and_prove (R := R) sch' q (nseq (size X) 0) (nseq (size Y) 0) crs s).
Proof. move=> E sch sch' q X Y crs a1 a2 t1 t2 hb hn hc1 hc2 vs vs' hh hp h1 h2 h3 h4; exact: (ms2_zk vs vs' hb hn hc1 hc2 hp hh). Qed.
Print Assumptions C48_ms2_simulated.

Example C48_ms2_simulated_case := @C48_ms2_simulated toy fwd bwd ms20 xs0 ys0 crsh (n7 2) (n7 3) (n7 4) (n7 5) toy_bilinear toy_nondegenerate toy_cyclic toy_cyclic fwd_valid bwd_valid crsh_hiding crsh_proper isT isT ms20_wf ms20_holds.

Theorem C48_ms2_counts : forall (F : finFieldType) (A B C : lmodType F) (e : A -> B -> C), let E := Pairing e in
  forall (sch sch' : sched) (q : MSMEG2 E) (X : seq (Fr E)) (Y : seq (G2 E)) (crs : CRS E) (a1 a2 t1 t2 : Fr E) D,
  bilinear E -> nondegenerate E -> cyclic (G1 E) -> cyclic (G2 E) -> valid_sched sch -> valid_sched sch' ->
  hiding_crs_with crs a1 a2 t1 t2 -> proper_crs crs ->
  (0 < size X)%N -> (0 < size Y)%N -> ms2_wf q (size X) (size Y) -> ms2_holds q X Y ->
  tapes (size X + (2 * size Y + 2))%N public (fun R s => ms2_commit_and_prove (R := R) sch q X Y crs s) D
  = tapes (size X + (2 * size Y + 2))%N (fun p => public (ms2_fix t1 t2 q p)) (fun R s => ms2_commit_and_prove (R := R) sch' q (nseq (size X) 0) (nseq (size Y) 0) crs s) D.
Proof. move=> F A B C e E sch sch' q X Y crs a1 a2 t1 t2 D hb hn hc1 hc2 vs vs' hh hp h1 h2 h3 h4; apply: same_tapes; exact: (ms2_zk vs vs' hb hn hc1 hc2 hp hh). Qed.
Print Assumptions C48_ms2_counts.

Example C48_ms2_counts_case := @C48_ms2_counts [finFieldType of F7] F7o F7o F7o (fun x y : F7 => x * y) fwd bwd ms20 xs0 ys0 crsh (n7 2) (n7 3) (n7 4) (n7 5) (fun r => if r is Ok c then c.1.1 == [:: (n7 1, n7 2); (n7 3, n7 4)] else false) toy_bilinear toy_nondegenerate toy_cyclic toy_cyclic fwd_valid bwd_valid crsh_hiding crsh_proper isT isT ms20_wf ms20_holds.

Theorem C48_ms2_accepted : forall (E : pairing) (R : rng E) (sch sch' : sched) (q : MSMEG2 E) (m n : nat) (crs : CRS E) (a1 a2 t1 t2 : Fr E) (s : rst R),
  bilinear E -> valid_sched sch -> valid_sched sch' -> hiding_crs_with crs a1 a2 t1 t2 ->
  (0 < m)%N -> (0 < n)%N -> ms2_wf q m n ->
  exists p s', ms2_commit_and_prove sch q (nseq m 0) (nseq n 0) crs s = Ok (p, s') /\
    ms2_verify sch' q (ms2_fix t1 t2 q p) crs = Ok true.
Proof. move=> E R sch sch' q m n crs a1 a2 t1 t2 s hb vs vs' hh h1 h2 h3; exact: (ms2_sim vs vs' hb s hh). Qed.
Print Assumptions C48_ms2_accepted.

Example C48_ms2_case :
  same_output (2 + (2 * 1 + 2))%N public (fun p => public (ms2_fix (E := toy) (n7 4) (n7 5) ms20 p))
    (fun R s => ms2_commit_and_prove (E := toy) (R := R) fwd ms20 xs0 ys0 crsh s) (fun R s => ms2_commit_and_prove (E := toy) (R := R) bwd ms20 (nseq 2 0) (nseq 1 0) crsh s) /\
  (forall X Y, ~ ms2_holds no_ms2 X Y) /\
  exists p s', ms2_commit_and_prove (E := toy) (R := ctr) fwd no_ms2 (nseq 2 0) (nseq 1 0) crsh 0%N = Ok (p, s') /\
    ms2_verify fwd no_ms2 (ms2_fix (E := toy) (n7 4) (n7 5) no_ms2 p) crsh = Ok true.
Proof.
split.
  apply: (C48_ms2_simulated (E := toy) (X := xs0) (Y := ys0) toy_bilinear toy_nondegenerate toy_cyclic toy_cyclic fwd_valid bwd_valid crsh_hiding crsh_prop) => //.

  - exact: ms20_wf.
  - exact: ms20_holds.
split; first exact: no_ms2_fails.
apply: (C48_ms2_accepted (E := toy) (R := ctr) _ toy_bilinear fwd_valid fwd_valid crsh_hiding) => //.

by split=> //; split=> // -[|[|]].
Qed.

Theorem C48_quad_simulated : forall (E : pairing) (sch sch' : sched) (q : QuadEqu E) (X : seq (Fr E)) (Y : seq (Fr E)) (crs : CRS E) (a1 a2 t1 t2 : Fr E),
  bilinear E -> nondegenerate E -> cyclic (G1 E) -> cyclic (G2 E) -> valid_sched sch -> valid_sched sch' ->
  hiding_crs_with crs a1 a2 t1 t2 -> proper_crs crs ->
  (0 < size X)%N -> (0 < size Y)%N -> quad_wf q (size X) (size Y) -> quad_holds q X Y ->
  same_output (size X + (size Y + 1))%N public (fun p => public (quad_fix t1 t2 q crs p))
    (fun R s => quad_commit_and_prove (R := R) sch q X Y crs s)
    (fun R s => quad_commit_and_prove (R := R) sch' q (nseq (size X) 0) (nseq (size Y) 0) crs s).
Proof. move=> E sch sch' q X Y crs a1 a2 t1 t2 hb hn hc1 hc2 vs vs' hh hp h1 h2 h3 h4; exact: (quad_zk vs vs' hb hn hp hh). Qed.
Print Assumptions C48_quad_simulated.

Example C48_quad_simulated_case := @C48_quad_simulated toy fwd bwd quad0 xs0 ys0 crsh (n7 2) (n7 3) (n7 4) (n7 5) toy_bilinear toy_nondegenerate toy_cyclic toy_cyclic fwd_valid bwd_valid crsh_hiding crsh_proper isT isT quad0_wf quad0_holds.

Theorem C48_quad_counts : forall (F : finFieldType) (A B C : lmodType F) (e : A -> B -> C), let E := Pairing e in
  forall (sch sch' : sched) (q : QuadEqu E) (X : seq (Fr E)) (Y : seq (Fr E)) (crs : CRS E) (a1 a2 t1 t2 : Fr E) D,
  bilinear E -> nondegenerate E -> cyclic (G1 E) -> cyclic (G2 E) -> valid_sched sch -> valid_sched sch' ->
  hiding_crs_with crs a1 a2 t1 t2 -> proper_crs crs ->
  (0 < size X)%N -> (0 < size Y)%N -> quad_wf q (size X) (size Y) -> quad_holds q X Y ->
  tapes (size X + (size Y + 1))%N public (fun R s => quad_commit_and_prove (R := R) sch q X Y crs s) D
  = tapes (size X + (size Y + 1))%N (fun p => public (quad_fix t1 t2 q crs p)) (fun R s => quad_commit_and_prove (R := R) sch' q (nseq (size X) 0) (nseq (size Y) 0) crs s) D.
Proof. move=> F A B C e E sch sch' q X Y crs a1 a2 t1 t2 D hb hn hc1 hc2 vs vs' hh hp h1 h2 h3 h4; apply: same_tapes; exact: (quad_zk vs vs' hb hn hp hh). Qed.
Print Assumptions C48_quad_counts.

Example C48_quad_counts_case := @C48_quad_counts [finFieldType of F7] F7o F7o F7o (fun x y : F7 => x * y) fwd bwd quad0 xs0 ys0 crsh (n7 2) (n7 3) (n7 4) (n7 5) (fun r => if r is Ok c then c.1.1 == [:: (n7 1, n7 2); (n7 3, n7 4)] else false) toy_bilinear toy_nondegenerate toy_cyclic toy_cyclic fwd_valid bwd_valid crsh_hiding crsh_proper isT isT quad0_wf quad0_holds.

Theorem C48_quad_accepted : forall (E : pairing) (R : rng E) (sch sch' : sched) (q : QuadEqu E) (m n : nat) (crs : CRS E) (a1 a2 t1 t2 : Fr E) (s : rst R),
  bilinear E -> valid_sched sch -> valid_sched sch' -> hiding_crs_with crs a1 a2 t1 t2 ->
  (0 < m)%N -> (0 < n)%N -> quad_wf q m n ->
  exists p s', quad_commit_and_prove sch q (nseq m 0) (nseq n 0) crs s = Ok (p, s') /\
    quad_verify sch' q (quad_fix t1 t2 q crs p) crs = Ok true.
Proof. move=> E R sch sch' q m n crs a1 a2 t1 t2 s hb vs vs' hh h1 h2 h3; exact: (quad_sim vs vs' hb s hh). Qed.
Print Assumptions C48_quad_accepted.

Example C48_quad_case :
  same_output (2 + (1 + 1))%N public (fun p => public (quad_fix (E := toy) (n7 4) (n7 5) quad0 crsh p))
    (fun R s => quad_commit_and_prove (E := toy) (R := R) fwd quad0 xs0 ys0 crsh s) (fun R s => quad_commit_and_prove (E := toy) (R := R) bwd quad0 (nseq 2 0) (nseq 1 0) crsh s) /\
  (forall X Y, ~ quad_holds no_quad X Y) /\
  exists p s', quad_commit_and_prove (E := toy) (R := ctr) fwd no_quad (nseq 2 0) (nseq 1 0) crsh 0%N = Ok (p, s') /\
    quad_verify fwd no_quad (quad_fix (E := toy) (n7 4) (n7 5) no_quad crsh p) crsh = Ok true.
Proof.
split.
  apply: (C48_quad_simulated (E := toy) (X := xs0) (Y := ys0) toy_bilinear toy_nondegenerate toy_cyclic toy_cyclic fwd_valid bwd_valid crsh_hiding crsh_prop) => //.

  - exact: quad0_wf.
  - exact: quad0_holds.
split; first exact: no_quad_fails.
apply: (C48_quad_accepted (E := toy) (R := ctr) _ toy_bilinear fwd_valid fwd_valid crsh_hiding) => //.

by split=> //; split=> // -[|[|]].
Qed.
