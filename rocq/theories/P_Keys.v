(** Properties C65, C66: arbitrary reference strings. *)
From mathcomp Require Import all_ssreflect all_algebra.
From Verif Require Import Base BaseLemmas Group DataStructures Generator Commit Statement Prove Verify Spec SpecVerify SpecHide SpecKeys Main Exist KeysProps Concrete Concrete2 Concrete4 Concrete8.
Set Implicit Arguments.
Unset Strict Implicit.
Unset Printing Implicit Defensive.
Import GRing.Theory.
Local Open Scope ring_scope.

(** C65: for every reference string with two-element keys, whoever made it, commitments that open to [X] and [Y]
    have an accepted proof exactly when the equation holds or one of the two kinds of commitment is not binding. *)
Theorem C65_ppe : forall (E : pairing) (sch : sched) (q : PPE E) (cx : Commit1 E) (cy : Commit2 E) (crs : CRS E) (X : seq (G1 E)) (Y : seq (G2 E)),
  bilinear E -> nondegenerate E -> cyclic (G1 E) -> cyclic (G2 E) -> cyclic (GT E) -> valid_sched sch -> two_keys crs -> proper_crs crs ->
  commits_G1 crs (coms cx) X -> commits_G2 crs (coms cy) Y -> (0 < size X)%N -> (0 < size Y)%N -> ppe_wf q (size X) (size Y) ->
  (exists pf, ppe_verify sch q (mkCProof cx cy [:: pf]) crs = Ok true) <->
  (binding_for com_G1 crs -> binding_for com_G2 crs -> ppe_holds q X Y).
Proof. exact: @k_C65_ppe. Qed.
Print Assumptions C65_ppe.

(** [crsm] binds on the left and hides on the right; [crsw] hides points and binds scalars. *)
Example C65_ppe_case : (exists (cx : Commit1 toy) (cy : Commit2 toy) pf, commits_G1 crsm (coms cx) xs0 /\ ppe_verify fwd no_ppe (mkCProof cx cy [:: pf]) crsm = Ok true) /\
  (exists (cx : Commit1 toy) (cy : Commit2 toy) pf, commits_G1 crsw (coms cx) xs0 /\ ppe_verify fwd no_ppe (mkCProof cx cy [:: pf]) crsw = Ok true).
Proof.
have wf : ppe_wf no_ppe 2 1 by split=> //; split=> // -[|[|]].
have run (crs : CRS toy) (tk : two_keys crs) : exists (cx : Commit1 toy) (cy : Commit2 toy), commits_G1 crs (coms cx) xs0 /\ commits_G2 crs (coms cy) ys0.
  have [cx [cy [pf [s1 [s2 [[hx _ kx] [hy _ ky] _ _]]]]]] := ppe_run (sch := fwd) fwd_valid (q := ppe0) (X := xs0) (Y := ys0) (6%N : rst ctr) isT isT ppe0_wf tk.
  exists cx, cy; split; split=> // i hi; eexists; [apply: kx; rewrite -hx | apply: ky; rewrite -hy]; exact: hi.
split.
  have [cx [cy [hx hy]]] := run crsm crsm_two.
  have [_ k] := @C65_ppe toy fwd no_ppe cx cy crsm xs0 ys0 toy_bilinear toy_nondegenerate toy_cyclic toy_cyclic toy_cyclic fwd_valid crsm_two crsm_prop hx hy isT isT wf.
  have [|pf h] := k; first by move=> _ /crsm_G2.
  by exists cx, cy, pf.
have [cx [cy [hx hy]]] := run crsw crsw_two.
have [k0 k] := @C65_ppe toy fwd no_ppe cx cy crsw xs0 ys0 toy_bilinear toy_nondegenerate toy_cyclic toy_cyclic toy_cyclic fwd_valid crsw_two crsw_prop hx hy isT isT wf.
have [|pf h] := k; first by move=> /crsw_G1.
by exists cx, cy, pf.
Qed.

Theorem C65_ms1 : forall (E : pairing) (sch : sched) (q : MSMEG1 E) (cx : Commit1 E) (cy : Commit2 E) (crs : CRS E) (X : seq (G1 E)) (Y : seq (Fr E)),
  bilinear E -> nondegenerate E -> cyclic (G1 E) -> cyclic (G2 E) -> valid_sched sch -> two_keys crs -> proper_crs crs ->
  commits_G1 crs (coms cx) X -> commits_B2 crs (coms cy) Y -> (0 < size X)%N -> (0 < size Y)%N -> ms1_wf q (size X) (size Y) ->
  (exists pf, ms1_verify sch q (mkCProof cx cy [:: pf]) crs = Ok true) <->
  (binding_for com_G1 crs -> binding_for com_B2 crs -> ms1_holds q X Y).
Proof. exact: @k_C65_ms1. Qed.
Print Assumptions C65_ms1.

(** [crsm] binds on the left and hides on the right; [crsw] hides points and binds scalars. *)
Example C65_ms1_case : (exists (cx : Commit1 toy) (cy : Commit2 toy) pf, commits_G1 crsm (coms cx) xs0 /\ ms1_verify fwd no_ms1 (mkCProof cx cy [:: pf]) crsm = Ok true) /\
  (exists (cx : Commit1 toy) (cy : Commit2 toy) pf, commits_G1 crsw (coms cx) xs0 /\ ms1_verify fwd no_ms1 (mkCProof cx cy [:: pf]) crsw = Ok true).
Proof.
have wf : ms1_wf no_ms1 2 1 by split=> //; split=> // -[|[|]].
have run (crs : CRS toy) (tk : two_keys crs) : exists (cx : Commit1 toy) (cy : Commit2 toy), commits_G1 crs (coms cx) xs0 /\ commits_B2 crs (coms cy) ys0.
  have [cx [cy [pf [s1 [s2 [[hx _ kx] [hy _ ky] _ _]]]]]] := ms1_run (sch := fwd) fwd_valid (q := ms10) (X := xs0) (Y := ys0) (6%N : rst ctr) isT isT ms10_wf tk.
  exists cx, cy; split; split=> // i hi; eexists; [apply: kx; rewrite -hx | apply: ky; rewrite -hy]; exact: hi.
split.
  have [cx [cy [hx hy]]] := run crsm crsm_two.
  have [_ k] := @C65_ms1 toy fwd no_ms1 cx cy crsm xs0 ys0 toy_bilinear toy_nondegenerate toy_cyclic toy_cyclic fwd_valid crsm_two crsm_prop hx hy isT isT wf.
  have [|pf h] := k; first by move=> _ /crsm_B2.
  by exists cx, cy, pf.
have [cx [cy [hx hy]]] := run crsw crsw_two.
have [k0 k] := @C65_ms1 toy fwd no_ms1 cx cy crsw xs0 ys0 toy_bilinear toy_nondegenerate toy_cyclic toy_cyclic fwd_valid crsw_two crsw_prop hx hy isT isT wf.
have [|pf h] := k; first by move=> /crsw_G1.
by exists cx, cy, pf.
Qed.

Theorem C65_ms2 : forall (E : pairing) (sch : sched) (q : MSMEG2 E) (cx : Commit1 E) (cy : Commit2 E) (crs : CRS E) (X : seq (Fr E)) (Y : seq (G2 E)),
  bilinear E -> nondegenerate E -> cyclic (G1 E) -> cyclic (G2 E) -> valid_sched sch -> two_keys crs -> proper_crs crs ->
  commits_B1 crs (coms cx) X -> commits_G2 crs (coms cy) Y -> (0 < size X)%N -> (0 < size Y)%N -> ms2_wf q (size X) (size Y) ->
  (exists pf, ms2_verify sch q (mkCProof cx cy [:: pf]) crs = Ok true) <->
  (binding_for com_B1 crs -> binding_for com_G2 crs -> ms2_holds q X Y).
Proof. exact: @k_C65_ms2. Qed.
Print Assumptions C65_ms2.

(** [crsm] binds on the left and hides on the right; [crsw] hides points and binds scalars. *)
Example C65_ms2_case : (exists (cx : Commit1 toy) (cy : Commit2 toy) pf, commits_B1 crsm (coms cx) xs0 /\ ms2_verify fwd no_ms2 (mkCProof cx cy [:: pf]) crsm = Ok true) /\
  (exists (cx : Commit1 toy) (cy : Commit2 toy) pf, commits_B1 crsw (coms cx) xs0 /\ ms2_verify fwd no_ms2 (mkCProof cx cy [:: pf]) crsw = Ok true).
Proof.
have wf : ms2_wf no_ms2 2 1 by split=> //; split=> // -[|[|]].
have run (crs : CRS toy) (tk : two_keys crs) : exists (cx : Commit1 toy) (cy : Commit2 toy), commits_B1 crs (coms cx) xs0 /\ commits_G2 crs (coms cy) ys0.
  have [cx [cy [pf [s1 [s2 [[hx _ kx] [hy _ ky] _ _]]]]]] := ms2_run (sch := fwd) fwd_valid (q := ms20) (X := xs0) (Y := ys0) (6%N : rst ctr) isT isT ms20_wf tk.
  exists cx, cy; split; split=> // i hi; eexists; [apply: kx; rewrite -hx | apply: ky; rewrite -hy]; exact: hi.
split.
  have [cx [cy [hx hy]]] := run crsm crsm_two.
  have [_ k] := @C65_ms2 toy fwd no_ms2 cx cy crsm xs0 ys0 toy_bilinear toy_nondegenerate toy_cyclic toy_cyclic fwd_valid crsm_two crsm_prop hx hy isT isT wf.
  have [|pf h] := k; first by move=> _ /crsm_G2.
  by exists cx, cy, pf.
have [cx [cy [hx hy]]] := run crsw crsw_two.
have [k0 k] := @C65_ms2 toy fwd no_ms2 cx cy crsw xs0 ys0 toy_bilinear toy_nondegenerate toy_cyclic toy_cyclic fwd_valid crsw_two crsw_prop hx hy isT isT wf.
have [|pf h] := k; first by move=> _ /crsw_G2.
by exists cx, cy, pf.
Qed.

Theorem C65_quad : forall (E : pairing) (sch : sched) (q : QuadEqu E) (cx : Commit1 E) (cy : Commit2 E) (crs : CRS E) (X : seq (Fr E)) (Y : seq (Fr E)),
  bilinear E -> nondegenerate E -> cyclic (G1 E) -> cyclic (G2 E) -> valid_sched sch -> two_keys crs -> proper_crs crs ->
  commits_B1 crs (coms cx) X -> commits_B2 crs (coms cy) Y -> (0 < size X)%N -> (0 < size Y)%N -> quad_wf q (size X) (size Y) ->
  (exists pf, quad_verify sch q (mkCProof cx cy [:: pf]) crs = Ok true) <->
  (binding_for com_B1 crs -> binding_for com_B2 crs -> quad_holds q X Y).
Proof. exact: @k_C65_quad. Qed.
Print Assumptions C65_quad.

(** [crsm] binds on the left and hides on the right; [crsw] hides points and binds scalars. *)
Example C65_quad_case : (exists (cx : Commit1 toy) (cy : Commit2 toy) pf, commits_B1 crsm (coms cx) xs0 /\ quad_verify fwd no_quad (mkCProof cx cy [:: pf]) crsm = Ok true) /\
  (exists cx cy, (exists pf, quad_verify fwd quad0 (mkCProof cx cy [:: pf]) crsw = Ok true) /\ ~ (exists pf, quad_verify fwd no_quad (mkCProof cx cy [:: pf]) crsw = Ok true)).
Proof.
have wf : quad_wf no_quad 2 1 by split=> //; split=> // -[|[|]].
have run (crs : CRS toy) (tk : two_keys crs) : exists (cx : Commit1 toy) (cy : Commit2 toy), commits_B1 crs (coms cx) xs0 /\ commits_B2 crs (coms cy) ys0.
  have [cx [cy [pf [s1 [s2 [[hx _ kx] [hy _ ky] _ _]]]]]] := quad_run (sch := fwd) fwd_valid (q := quad0) (X := xs0) (Y := ys0) (6%N : rst ctr) isT isT quad0_wf tk.
  exists cx, cy; split; split=> // i hi; eexists; [apply: kx; rewrite -hx | apply: ky; rewrite -hy]; exact: hi.
split.
  have [cx [cy [hx hy]]] := run crsm crsm_two.
  have [_ k] := @C65_quad toy fwd no_quad cx cy crsm xs0 ys0 toy_bilinear toy_nondegenerate toy_cyclic toy_cyclic fwd_valid crsm_two crsm_prop hx hy isT isT wf.
  have [|pf h] := k; first by move=> _ /crsm_B2.
  by exists cx, cy, pf.
have [cx [cy [hx hy]]] := run crsw crsw_two.
have [k0 k] := @C65_quad toy fwd no_quad cx cy crsw xs0 ys0 toy_bilinear toy_nondegenerate toy_cyclic toy_cyclic fwd_valid crsw_two crsw_prop hx hy isT isT wf.
exists cx, cy; split; last by move=> /k0 /(_ crsw_B1 crsw_B2); exact: no_quad_fails.
have [_ k'] := @C65_quad toy fwd quad0 cx cy crsw xs0 ys0 toy_bilinear toy_nondegenerate toy_cyclic toy_cyclic fwd_valid crsw_two crsw_prop hx hy isT isT quad0_wf.
apply: k' => _ _; exact: quad0_holds.
Qed.

(** C66: for every reference string with two-element keys, each kind of commitment is binding or perfectly
    hiding, and not both. *)
Theorem C66_G1 : forall (E : pairing) (crs : CRS E), cyclic (G1 E) -> two_keys crs ->
  (binding_for com_G1 crs \/ hiding_for 2 (@commit_G1 E) (@batch_commit_G1 E) crs) /\
  ((exists x : G1 E, x != 0) -> ~ (binding_for com_G1 crs /\ hiding_for 2 (@commit_G1 E) (@batch_commit_G1 E) crs)).
Proof. exact: @k_C66_G1. Qed.
Print Assumptions C66_G1.

Example C66_G1_case : ~ hiding_for 2 (@commit_G1 toy) (@batch_commit_G1 toy) crsm /\ hiding_for 2 (@commit_G1 toy) (@batch_commit_G1 toy) crsw.
Proof.
have [h1 h2] := C66_G1 (E := toy) toy_cyclic crsm_two; have [k1 k2] := C66_G1 (E := toy) toy_cyclic crsw_two.
split; first by move=> h; apply: h2; [exists (n7 1) | split; [exact: crsm_G1 | exact: h]].
by case: k1 => [/crsw_G1|].
Qed.

Theorem C66_G2 : forall (E : pairing) (crs : CRS E), cyclic (G2 E) -> two_keys crs ->
  (binding_for com_G2 crs \/ hiding_for 2 (@commit_G2 E) (@batch_commit_G2 E) crs) /\
  ((exists x : G2 E, x != 0) -> ~ (binding_for com_G2 crs /\ hiding_for 2 (@commit_G2 E) (@batch_commit_G2 E) crs)).
Proof. exact: @k_C66_G2. Qed.
Print Assumptions C66_G2.

Example C66_G2_case : ~ hiding_for 2 (@commit_G2 toy) (@batch_commit_G2 toy) crs0 /\ hiding_for 2 (@commit_G2 toy) (@batch_commit_G2 toy) crsm.
Proof.
have [h1 h2] := C66_G2 (E := toy) toy_cyclic crs0_two; have [k1 k2] := C66_G2 (E := toy) toy_cyclic crsm_two.
split; first by move=> h; apply: h2; [exists (n7 1) | split; [exact: crs0_G2 | exact: h]].
by case: k1 => [/crsm_G2|].
Qed.

Theorem C66_B1 : forall (E : pairing) (crs : CRS E), cyclic (G1 E) -> two_keys crs ->
  (binding_for com_B1 crs \/ hiding_for 1 (@commit_scalar_to_B1 E) (@batch_commit_scalar_to_B1 E) crs) /\
  ~ (binding_for com_B1 crs /\ hiding_for 1 (@commit_scalar_to_B1 E) (@batch_commit_scalar_to_B1 E) crs).
Proof. exact: @k_C66_B1. Qed.
Print Assumptions C66_B1.

Example C66_B1_case : ~ hiding_for 1 (@commit_scalar_to_B1 toy) (@batch_commit_scalar_to_B1 toy) crsw /\ hiding_for 1 (@commit_scalar_to_B1 toy) (@batch_commit_scalar_to_B1 toy) crsh.
Proof.
have [h1 h2] := C66_B1 (E := toy) toy_cyclic crsw_two; have [k1 k2] := C66_B1 (E := toy) toy_cyclic crsh_two.
split; first by move=> h; apply: h2; split; [exact: crsw_B1 | exact: h].
by case: k1 => [/crsh_B1|].
Qed.

Theorem C66_B2 : forall (E : pairing) (crs : CRS E), cyclic (G2 E) -> two_keys crs ->
  (binding_for com_B2 crs \/ hiding_for 1 (@commit_scalar_to_B2 E) (@batch_commit_scalar_to_B2 E) crs) /\
  ~ (binding_for com_B2 crs /\ hiding_for 1 (@commit_scalar_to_B2 E) (@batch_commit_scalar_to_B2 E) crs).
Proof. exact: @k_C66_B2. Qed.
Print Assumptions C66_B2.

Example C66_B2_case : ~ hiding_for 1 (@commit_scalar_to_B2 toy) (@batch_commit_scalar_to_B2 toy) crsw /\ hiding_for 1 (@commit_scalar_to_B2 toy) (@batch_commit_scalar_to_B2 toy) crsm.
Proof.
have [h1 h2] := C66_B2 (E := toy) toy_cyclic crsw_two; have [k1 k2] := C66_B2 (E := toy) toy_cyclic crsm_two.
split; first by move=> h; apply: h2; split; [exact: crsw_B2 | exact: h].
by case: k1 => [/crsm_B2|].
Qed.

