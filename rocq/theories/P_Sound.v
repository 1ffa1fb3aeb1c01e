(** Properties C05-C08, C10, C11, C14, C44: soundness of verification and binding. *)
From mathcomp Require Import all_ssreflect all_algebra.
From Verif Require Import Base Group DataStructures Generator Commit Statement Prove Verify Spec Concrete.
From Verif Require Import Main Sound Extract SoundGen P_Complete.
Set Implicit Arguments.
Unset Strict Implicit.
Unset Printing Implicit Defensive.
Import GRing.Theory.
Local Open Scope ring_scope.

(** C05: perfect soundness of PPE verification, by extraction. *)
Theorem C05_ppe_soundness : forall (E : pairing) (R : rng E) (sch : sched) (s s' : rst R) (crs : CRS E),
  bilinear E -> valid_sched sch -> generate_crs s = (crs, s') ->
  exists (ex1 : Com1 E -> G1 E) (ex2 : Com2 E -> G2 E),
  [/\ forall (R' : rng E) x (z z' : rst R') c, commit_G1 x crs z = Ok (c, z') -> map ex1 (coms c) = [:: x],
      forall (R' : rng E) X (z z' : rst R') c, batch_commit_G1 X crs z = Ok (c, z') -> map ex1 (coms c) = X,
      forall (R' : rng E) y (z z' : rst R') c, commit_G2 y crs z = Ok (c, z') -> map ex2 (coms c) = [:: y],
      forall (R' : rng E) Y (z z' : rst R') c, batch_commit_G2 Y crs z = Ok (c, z') -> map ex2 (coms c) = Y
    & forall (q : PPE E) (p : CProof E), ppe_verify sch q p crs = Ok true ->
        ppe_holds q (map ex1 (coms (xcoms p))) (map ex2 (coms (ycoms p)))].
Proof. exact: ppe_sound_gen. Qed.
Print Assumptions C05_ppe_soundness.

(** A proof accepted under a generated key; the extracted values satisfy the equation. *)
Example C05_ppe_case : exists p : CProof toy, ppe_verify fwd ppe0 p crs0 = Ok true /\
  exists X Y, [/\ size X = 2%N, size Y = 1%N & ppe_holds ppe0 X Y].
Proof.
have [p [z [hp hv]]] := @C01_ppe_completeness toy ctr bwd fwd ppe0 xs0 ys0 crs0 6%N
  toy_bilinear bwd_valid fwd_valid isT isT ppe0_wf crs0_two ppe0_holds.
exists p; split=> //.
have [ex1 [ex2 [_ h1 _ h2 h]]] := @C05_ppe_soundness toy ctr fwd 0%N 6%N crs0 toy_bilinear fwd_valid crs0E
  .
have [s1 [s2 [pf [hx hy _ _]]]] := (proj1 (C17_ppe_steps _ _ _ _ _ _ _ _)) hp.
have := h _ _ hv; rewrite (h1 _ _ _ _ _ hx) (h2 _ _ _ _ _ hy) => hh.
by exists xs0, ys0.
Qed.

(** C06: perfect soundness of MSMEG1 verification, by extraction. *)
Theorem C06_ms1_soundness : forall (E : pairing) (R : rng E) (sch : sched) (s s' : rst R) (crs : CRS E),
  bilinear E -> valid_sched sch -> generate_crs s = (crs, s') ->
  nondegenerate E -> cyclic (G2 E) -> g2_gen crs != 0 -> 
  exists (ex1 : Com1 E -> G1 E) (ex2 : Com2 E -> Fr E),
  [/\ forall (R' : rng E) x (z z' : rst R') c, commit_G1 x crs z = Ok (c, z') -> map ex1 (coms c) = [:: x],
      forall (R' : rng E) X (z z' : rst R') c, batch_commit_G1 X crs z = Ok (c, z') -> map ex1 (coms c) = X,
      forall (R' : rng E) y (z z' : rst R') c, commit_scalar_to_B2 y crs z = Ok (c, z') -> map ex2 (coms c) = [:: y],
      forall (R' : rng E) Y (z z' : rst R') c, batch_commit_scalar_to_B2 Y crs z = Ok (c, z') -> map ex2 (coms c) = Y
    & forall (q : MSMEG1 E) (p : CProof E), ms1_verify sch q p crs = Ok true ->
        ms1_holds q (map ex1 (coms (xcoms p))) (map ex2 (coms (ycoms p)))].
Proof. exact: ms1_sound_gen. Qed.
Print Assumptions C06_ms1_soundness.

(** A proof accepted under a generated key; the extracted values satisfy the equation. *)
Example C06_ms1_case : exists p : CProof toy, ms1_verify fwd ms10 p crs0 = Ok true /\
  exists X Y, [/\ size X = 2%N, size Y = 1%N & ms1_holds ms10 X Y].
Proof.
have [p [z [hp hv]]] := @C02_ms1_completeness toy ctr bwd fwd ms10 xs0 ys0 crs0 6%N
  toy_bilinear bwd_valid fwd_valid isT isT ms10_wf crs0_two ms10_holds.
exists p; split=> //.
have [ex1 [ex2 [_ h1 _ h2 h]]] := @C06_ms1_soundness toy ctr fwd 0%N 6%N crs0 toy_bilinear fwd_valid crs0E
  toy_nondegenerate toy_cyclic crs0_g2.
have [s1 [s2 [pf [hx hy _ _]]]] := (proj1 (C17_ms1_steps _ _ _ _ _ _ _ _)) hp.
have := h _ _ hv; rewrite (h1 _ _ _ _ _ hx) (h2 _ _ _ _ _ hy) => hh.
by exists xs0, ys0.
Qed.

(** C07: perfect soundness of MSMEG2 verification, by extraction. *)
Theorem C07_ms2_soundness : forall (E : pairing) (R : rng E) (sch : sched) (s s' : rst R) (crs : CRS E),
  bilinear E -> valid_sched sch -> generate_crs s = (crs, s') ->
  nondegenerate E -> cyclic (G1 E) -> g1_gen crs != 0 -> 
  exists (ex1 : Com1 E -> Fr E) (ex2 : Com2 E -> G2 E),
  [/\ forall (R' : rng E) x (z z' : rst R') c, commit_scalar_to_B1 x crs z = Ok (c, z') -> map ex1 (coms c) = [:: x],
      forall (R' : rng E) X (z z' : rst R') c, batch_commit_scalar_to_B1 X crs z = Ok (c, z') -> map ex1 (coms c) = X,
      forall (R' : rng E) y (z z' : rst R') c, commit_G2 y crs z = Ok (c, z') -> map ex2 (coms c) = [:: y],
      forall (R' : rng E) Y (z z' : rst R') c, batch_commit_G2 Y crs z = Ok (c, z') -> map ex2 (coms c) = Y
    & forall (q : MSMEG2 E) (p : CProof E), ms2_verify sch q p crs = Ok true ->
        ms2_holds q (map ex1 (coms (xcoms p))) (map ex2 (coms (ycoms p)))].
Proof. exact: ms2_sound_gen. Qed.
Print Assumptions C07_ms2_soundness.

(** A proof accepted under a generated key; the extracted values satisfy the equation. *)
Example C07_ms2_case : exists p : CProof toy, ms2_verify fwd ms20 p crs0 = Ok true /\
  exists X Y, [/\ size X = 2%N, size Y = 1%N & ms2_holds ms20 X Y].
Proof.
have [p [z [hp hv]]] := @C03_ms2_completeness toy ctr bwd fwd ms20 xs0 ys0 crs0 6%N
  toy_bilinear bwd_valid fwd_valid isT isT ms20_wf crs0_two ms20_holds.
exists p; split=> //.
have [ex1 [ex2 [_ h1 _ h2 h]]] := @C07_ms2_soundness toy ctr fwd 0%N 6%N crs0 toy_bilinear fwd_valid crs0E
  toy_nondegenerate toy_cyclic crs0_g1.
have [s1 [s2 [pf [hx hy _ _]]]] := (proj1 (C17_ms2_steps _ _ _ _ _ _ _ _)) hp.
have := h _ _ hv; rewrite (h1 _ _ _ _ _ hx) (h2 _ _ _ _ _ hy) => hh.
by exists xs0, ys0.
Qed.

(** C08: perfect soundness of QuadEqu verification, by extraction. *)
Theorem C08_quad_soundness : forall (E : pairing) (R : rng E) (sch : sched) (s s' : rst R) (crs : CRS E),
  bilinear E -> valid_sched sch -> generate_crs s = (crs, s') ->
  nondegenerate E -> cyclic (G1 E) -> cyclic (G2 E) -> g1_gen crs != 0 -> g2_gen crs != 0 -> 
  exists (ex1 : Com1 E -> Fr E) (ex2 : Com2 E -> Fr E),
  [/\ forall (R' : rng E) x (z z' : rst R') c, commit_scalar_to_B1 x crs z = Ok (c, z') -> map ex1 (coms c) = [:: x],
      forall (R' : rng E) X (z z' : rst R') c, batch_commit_scalar_to_B1 X crs z = Ok (c, z') -> map ex1 (coms c) = X,
      forall (R' : rng E) y (z z' : rst R') c, commit_scalar_to_B2 y crs z = Ok (c, z') -> map ex2 (coms c) = [:: y],
      forall (R' : rng E) Y (z z' : rst R') c, batch_commit_scalar_to_B2 Y crs z = Ok (c, z') -> map ex2 (coms c) = Y
    & forall (q : QuadEqu E) (p : CProof E), quad_verify sch q p crs = Ok true ->
        quad_holds q (map ex1 (coms (xcoms p))) (map ex2 (coms (ycoms p)))].
Proof. exact: quad_sound_gen. Qed.
Print Assumptions C08_quad_soundness.

(** A proof accepted under a generated key; the extracted values satisfy the equation. *)
Example C08_quad_case : exists p : CProof toy, quad_verify fwd quad0 p crs0 = Ok true /\
  exists X Y, [/\ size X = 2%N, size Y = 1%N & quad_holds quad0 X Y].
Proof.
have [p [z [hp hv]]] := @C04_quad_completeness toy ctr bwd fwd quad0 xs0 ys0 crs0 6%N
  toy_bilinear bwd_valid fwd_valid isT isT quad0_wf crs0_two quad0_holds.
exists p; split=> //.
have [ex1 [ex2 [_ h1 _ h2 h]]] := @C08_quad_soundness toy ctr fwd 0%N 6%N crs0 toy_bilinear fwd_valid crs0E
  toy_nondegenerate toy_cyclic toy_cyclic crs0_g1 crs0_g2.
have [s1 [s2 [pf [hx hy _ _]]]] := (proj1 (C17_quad_steps _ _ _ _ _ _ _ _)) hp.
have := h _ _ hv; rewrite (h1 _ _ _ _ _ hx) (h2 _ _ _ _ _ hy) => hh.
by exists xs0, ys0.
Qed.

(** C10: commitments by [commit_G1] are perfectly binding under a generated key. *)
Theorem C10_G1_binding : forall (E : pairing) (R R1 R2 : rng E) (s s' : rst R) (crs : CRS E)
  (z1 z1' : rst R1) (z2 z2' : rst R2) x x' c c',
  generate_crs s = (crs, s') -> 
  commit_G1 x crs z1 = Ok (c, z1') -> commit_G1 x' crs z2 = Ok (c', z2') ->
  coms c = coms c' -> x = x'.
Proof. exact: G1_binding1_gen. Qed.
Print Assumptions C10_G1_binding.

(** C10 for [batch_commit_G1]. *)
Theorem C10_G1_batch_binding : forall (E : pairing) (R R1 R2 : rng E) (s s' : rst R) (crs : CRS E)
  (z1 z1' : rst R1) (z2 z2' : rst R2) X X' c c',
  generate_crs s = (crs, s') -> 
  batch_commit_G1 X crs z1 = Ok (c, z1') -> batch_commit_G1 X' crs z2 = Ok (c', z2') ->
  coms c = coms c' -> X = X'.
Proof. exact: G1_binding_gen. Qed.
Print Assumptions C10_G1_batch_binding.

Example C10_G1_case : exists c c' : commit F7o, [/\
  commit_G1 (E := toy) (R := ctr) (3%:R : F7) crs0 6%N = Ok (c, 8%N),
  commit_G1 (E := toy) (R := ctr) (4%:R : F7) crs0 6%N = Ok (c', 8%N) & coms c <> coms c'].
Proof.
eexists; eexists; split; [reflexivity | reflexivity |].
move=> h; have := @C10_G1_binding toy ctr ctr ctr 0%N 6%N crs0 6%N 8%N 6%N 8%N (3%:R : F7) (4%:R : F7) _ _ crs0E
   erefl erefl h.
by move/eqP; vm_compute.
Qed.

(** C10: commitments by [commit_G2] are perfectly binding under a generated key. *)
Theorem C10_G2_binding : forall (E : pairing) (R R1 R2 : rng E) (s s' : rst R) (crs : CRS E)
  (z1 z1' : rst R1) (z2 z2' : rst R2) x x' c c',
  generate_crs s = (crs, s') -> 
  commit_G2 x crs z1 = Ok (c, z1') -> commit_G2 x' crs z2 = Ok (c', z2') ->
  coms c = coms c' -> x = x'.
Proof. exact: G2_binding1_gen. Qed.
Print Assumptions C10_G2_binding.

(** C10 for [batch_commit_G2]. *)
Theorem C10_G2_batch_binding : forall (E : pairing) (R R1 R2 : rng E) (s s' : rst R) (crs : CRS E)
  (z1 z1' : rst R1) (z2 z2' : rst R2) X X' c c',
  generate_crs s = (crs, s') -> 
  batch_commit_G2 X crs z1 = Ok (c, z1') -> batch_commit_G2 X' crs z2 = Ok (c', z2') ->
  coms c = coms c' -> X = X'.
Proof. exact: G2_binding_gen. Qed.
Print Assumptions C10_G2_batch_binding.

Example C10_G2_case : exists c c' : commit F7o, [/\
  commit_G2 (E := toy) (R := ctr) (3%:R : F7) crs0 6%N = Ok (c, 8%N),
  commit_G2 (E := toy) (R := ctr) (4%:R : F7) crs0 6%N = Ok (c', 8%N) & coms c <> coms c'].
Proof.
eexists; eexists; split; [reflexivity | reflexivity |].
move=> h; have := @C10_G2_binding toy ctr ctr ctr 0%N 6%N crs0 6%N 8%N 6%N 8%N (3%:R : F7) (4%:R : F7) _ _ crs0E
   erefl erefl h.
by move/eqP; vm_compute.
Qed.

(** C11: commitments by [commit_scalar_to_B1] are perfectly binding under a generated key. *)
Theorem C11_B1_binding : forall (E : pairing) (R R1 R2 : rng E) (s s' : rst R) (crs : CRS E)
  (z1 z1' : rst R1) (z2 z2' : rst R2) x x' c c',
  generate_crs s = (crs, s') -> g1_gen crs != 0 -> 
  commit_scalar_to_B1 x crs z1 = Ok (c, z1') -> commit_scalar_to_B1 x' crs z2 = Ok (c', z2') ->
  coms c = coms c' -> x = x'.
Proof. exact: B1_binding1_gen. Qed.
Print Assumptions C11_B1_binding.

(** C11 for [batch_commit_scalar_to_B1]. *)
Theorem C11_B1_batch_binding : forall (E : pairing) (R R1 R2 : rng E) (s s' : rst R) (crs : CRS E)
  (z1 z1' : rst R1) (z2 z2' : rst R2) X X' c c',
  generate_crs s = (crs, s') -> g1_gen crs != 0 -> 
  batch_commit_scalar_to_B1 X crs z1 = Ok (c, z1') -> batch_commit_scalar_to_B1 X' crs z2 = Ok (c', z2') ->
  coms c = coms c' -> X = X'.
Proof. exact: B1_binding_gen. Qed.
Print Assumptions C11_B1_batch_binding.

Example C11_B1_case : exists c c' : commit F7o, [/\
  commit_scalar_to_B1 (E := toy) (R := ctr) (3%:R : F7) crs0 6%N = Ok (c, 7%N),
  commit_scalar_to_B1 (E := toy) (R := ctr) (4%:R : F7) crs0 6%N = Ok (c', 7%N) & coms c <> coms c'].
Proof.
eexists; eexists; split; [reflexivity | reflexivity |].
move=> h; have := @C11_B1_binding toy ctr ctr ctr 0%N 6%N crs0 6%N 7%N 6%N 7%N (3%:R : F7) (4%:R : F7) _ _ crs0E
  crs0_g1 erefl erefl h.
by move/eqP; vm_compute.
Qed.

(** C11: commitments by [commit_scalar_to_B2] are perfectly binding under a generated key. *)
Theorem C11_B2_binding : forall (E : pairing) (R R1 R2 : rng E) (s s' : rst R) (crs : CRS E)
  (z1 z1' : rst R1) (z2 z2' : rst R2) x x' c c',
  generate_crs s = (crs, s') -> g2_gen crs != 0 -> 
  commit_scalar_to_B2 x crs z1 = Ok (c, z1') -> commit_scalar_to_B2 x' crs z2 = Ok (c', z2') ->
  coms c = coms c' -> x = x'.
Proof. exact: B2_binding1_gen. Qed.
Print Assumptions C11_B2_binding.

(** C11 for [batch_commit_scalar_to_B2]. *)
Theorem C11_B2_batch_binding : forall (E : pairing) (R R1 R2 : rng E) (s s' : rst R) (crs : CRS E)
  (z1 z1' : rst R1) (z2 z2' : rst R2) X X' c c',
  generate_crs s = (crs, s') -> g2_gen crs != 0 -> 
  batch_commit_scalar_to_B2 X crs z1 = Ok (c, z1') -> batch_commit_scalar_to_B2 X' crs z2 = Ok (c', z2') ->
  coms c = coms c' -> X = X'.
Proof. exact: B2_binding_gen. Qed.
Print Assumptions C11_B2_batch_binding.

Example C11_B2_case : exists c c' : commit F7o, [/\
  commit_scalar_to_B2 (E := toy) (R := ctr) (3%:R : F7) crs0 6%N = Ok (c, 7%N),
  commit_scalar_to_B2 (E := toy) (R := ctr) (4%:R : F7) crs0 6%N = Ok (c', 7%N) & coms c <> coms c'].
Proof.
eexists; eexists; split; [reflexivity | reflexivity |].
move=> h; have := @C11_B2_binding toy ctr ctr ctr 0%N 6%N crs0 6%N 7%N 6%N 7%N (3%:R : F7) (4%:R : F7) _ _ crs0E
  crs0_g2 erefl erefl h.
by move/eqP; vm_compute.
Qed.

(** C14: equations verified against the same commitments hold jointly. [c] and
    [d] are the commitments to group elements, [c'] and [d'] those to scalars;
    the assignment depends on the commitments only. *)
Theorem C14_joint_satisfaction : forall (E : pairing) (R : rng E) (sch : sched) (s s' : rst R) (crs : CRS E),
  bilinear E -> nondegenerate E -> cyclic (G1 E) -> cyclic (G2 E) -> valid_sched sch ->
  generate_crs s = (crs, s') -> g1_gen crs != 0 -> g2_gen crs != 0 ->
  forall (c c' : seq (Com1 E)) (d d' : seq (Com2 E)),
  exists X x Y y,
  [/\ commits_G1 crs c X, commits_B1 crs c' x, commits_G2 crs d Y & commits_B2 crs d' y] /\
  [/\ forall q p, coms (xcoms p) = c -> coms (ycoms p) = d ->
        ppe_verify sch q p crs = Ok true -> ppe_holds q X Y,
      forall q p, coms (xcoms p) = c -> coms (ycoms p) = d' ->
        ms1_verify sch q p crs = Ok true -> ms1_holds q X y,
      forall q p, coms (xcoms p) = c' -> coms (ycoms p) = d ->
        ms2_verify sch q p crs = Ok true -> ms2_holds q x Y
    & forall q p, coms (xcoms p) = c' -> coms (ycoms p) = d' ->
        quad_verify sch q p crs = Ok true -> quad_holds q x y].
Proof. move=> E R sch s s' crs hb hnd c1 c2 vs /generate_binding bk; exact: joint. Qed.
Print Assumptions C14_joint_satisfaction.

(** C14: that assignment is the only one the commitments can be opened to. *)
Theorem C14_unique_assignment : forall (E : pairing) (R : rng E) (s s' : rst R) (crs : CRS E),
  generate_crs s = (crs, s') -> g1_gen crs != 0 -> g2_gen crs != 0 ->
  [/\ forall c X X', commits_G1 crs c X -> commits_G1 crs c X' -> X = X',
      forall c x x', commits_B1 crs c x -> commits_B1 crs c x' -> x = x',
      forall d Y Y', commits_G2 crs d Y -> commits_G2 crs d Y' -> Y = Y'
    & forall d y y', commits_B2 crs d y -> commits_B2 crs d y' -> y = y'].
Proof. exact: unique_assignment. Qed.
Print Assumptions C14_unique_assignment.

Example C14_case : forall c c' : seq (Com1 toy), forall d d' : seq (Com2 toy),
  exists X x Y y, [/\ commits_G1 crs0 c X, commits_B1 crs0 c' x, commits_G2 crs0 d Y & commits_B2 crs0 d' y].
Proof.
move=> c c' d d'.
have [X [x [Y [y [h _]]]]] := @C14_joint_satisfaction toy ctr fwd 0%N 6%N crs0 toy_bilinear
  toy_nondegenerate toy_cyclic toy_cyclic fwd_valid crs0E crs0_g1 crs0_g2 c c' d d'.
by exists X, x, Y, y.
Qed.

(** C44 (refuted): if [generate_crs] draws the identity, proofs made from any
    values at all are accepted by the MSMEG1 verifier. *)
Theorem C44_ms1_refuted : forall (E : pairing) (R R' : rng E) (sch sch' : sched) (s s' : rst R) (z z' : rst R')
  (crs : CRS E) (q : MSMEG1 E) X Y p,
  bilinear E -> valid_sched sch -> valid_sched sch' -> generate_crs s = (crs, s') -> g2_gen crs = 0 ->
  ms1_commit_and_prove sch q X Y crs z = Ok (p, z') -> ms1_verify sch' q p crs = Ok true.
Proof. exact: ms1_zero_gen. Qed.
Print Assumptions C44_ms1_refuted.

(** An RNG, and a statement [0 = 1] accepted under the CRS generated with it. *)
Example C44_ms1_case : let q := mkMSMEG1 (E := toy) [:: 0 : F7] [:: 0 : F7] [:: [:: 0 : F7]] (1 : F7) in
  let crs := (generate_crs (R := zeros) tt).1 in
  (exists p, ms1_verify fwd q p crs = Ok true) /\ forall x y : F7, ~ ms1_holds q [:: x] [:: y].
Proof.
split; last by move=> x y; rewrite /ms1_holds /= !big_ord_recl !big_ord0 /= ?scale0r ?scaler0 ?mul0r ?mulr0 !addr0 => /esym/eqP; vm_compute.
have wf : ms1_wf (mkMSMEG1 (E := toy) [:: 0 : F7] [:: 0 : F7] [:: [:: 0 : F7]] (1 : F7)) 1 1.
  by split=> //; split=> // -[|].
have [p [z e]] := (proj2 (@C17_ms1_total toy ctr fwd _ [:: 0 : F7] [:: 0 : F7] (generate_crs (R := zeros) tt).1 0%N fwd_valid))
  (And4 (conj isT isT) wf erefl erefl).
by exists p; apply: (@C44_ms1_refuted toy zeros ctr fwd fwd tt tt 0%N z _ _ _ _ p toy_bilinear fwd_valid fwd_valid erefl _ e).
Qed.

(** C44 (refuted): if [generate_crs] draws the identity, proofs made from any
    values at all are accepted by the MSMEG2 verifier. *)
Theorem C44_ms2_refuted : forall (E : pairing) (R R' : rng E) (sch sch' : sched) (s s' : rst R) (z z' : rst R')
  (crs : CRS E) (q : MSMEG2 E) X Y p,
  bilinear E -> valid_sched sch -> valid_sched sch' -> generate_crs s = (crs, s') -> g1_gen crs = 0 ->
  ms2_commit_and_prove sch q X Y crs z = Ok (p, z') -> ms2_verify sch' q p crs = Ok true.
Proof. exact: ms2_zero_gen. Qed.
Print Assumptions C44_ms2_refuted.

(** An RNG, and a statement [0 = 1] accepted under the CRS generated with it. *)
Example C44_ms2_case : let q := mkMSMEG2 (E := toy) [:: 0 : F7] [:: 0 : F7] [:: [:: 0 : F7]] (1 : F7) in
  let crs := (generate_crs (R := zeros) tt).1 in
  (exists p, ms2_verify fwd q p crs = Ok true) /\ forall x y : F7, ~ ms2_holds q [:: x] [:: y].
Proof.
split; last by move=> x y; rewrite /ms2_holds /= !big_ord_recl !big_ord0 /= ?scale0r ?scaler0 ?mul0r ?mulr0 !addr0 => /esym/eqP; vm_compute.
have wf : ms2_wf (mkMSMEG2 (E := toy) [:: 0 : F7] [:: 0 : F7] [:: [:: 0 : F7]] (1 : F7)) 1 1.
  by split=> //; split=> // -[|].
have [p [z e]] := (proj2 (@C17_ms2_total toy ctr fwd _ [:: 0 : F7] [:: 0 : F7] (generate_crs (R := zeros) tt).1 0%N fwd_valid))
  (And4 (conj isT isT) wf erefl erefl).
by exists p; apply: (@C44_ms2_refuted toy zeros ctr fwd fwd tt tt 0%N z _ _ _ _ p toy_bilinear fwd_valid fwd_valid erefl _ e).
Qed.

(** C44 (refuted): if [generate_crs] draws the identity, proofs made from any
    values at all are accepted by the QuadEqu verifier. *)
Theorem C44_quad_refuted : forall (E : pairing) (R R' : rng E) (sch sch' : sched) (s s' : rst R) (z z' : rst R')
  (crs : CRS E) (q : QuadEqu E) X Y p,
  bilinear E -> valid_sched sch -> valid_sched sch' -> generate_crs s = (crs, s') -> g1_gen crs = 0 \/ g2_gen crs = 0 ->
  quad_commit_and_prove sch q X Y crs z = Ok (p, z') -> quad_verify sch' q p crs = Ok true.
Proof. exact: quad_zero_gen. Qed.
Print Assumptions C44_quad_refuted.

(** An RNG, and a statement [0 = 1] accepted under the CRS generated with it. *)
Example C44_quad_case : let q := mkQuadEqu (E := toy) [:: 0 : F7] [:: 0 : F7] [:: [:: 0 : F7]] (1 : F7) in
  let crs := (generate_crs (R := zeros) tt).1 in
  (exists p, quad_verify fwd q p crs = Ok true) /\ forall x y : F7, ~ quad_holds q [:: x] [:: y].
Proof.
split; last by move=> x y; rewrite /quad_holds /= !big_ord_recl !big_ord0 /= ?scale0r ?scaler0 ?mul0r ?mulr0 !addr0 => /esym/eqP; vm_compute.
have wf : quad_wf (mkQuadEqu (E := toy) [:: 0 : F7] [:: 0 : F7] [:: [:: 0 : F7]] (1 : F7)) 1 1.
  by split=> //; split=> // -[|].
have [p [z e]] := (proj2 (@C17_quad_total toy ctr fwd _ [:: 0 : F7] [:: 0 : F7] (generate_crs (R := zeros) tt).1 0%N fwd_valid))
  (And4 (conj isT isT) wf erefl erefl).
by exists p; apply: (@C44_quad_refuted toy zeros ctr fwd fwd tt tt 0%N z _ _ _ _ p toy_bilinear fwd_valid fwd_valid erefl _ e); left.
Qed.

