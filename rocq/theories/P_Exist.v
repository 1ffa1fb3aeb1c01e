(** Properties C59, C61, C63, C64: which proofs verify, and the equations of the documentation. *)
From mathcomp Require Import all_ssreflect all_algebra.
From Verif Require Import Base BaseLemmas Group DataStructures Generator Commit Statement Prove Verify Spec SpecVerify SpecHide SpecRerand Main HideProps Exist ExistProps DocProps Concrete Concrete2 Concrete4 Concrete7.
Set Implicit Arguments.
Unset Strict Implicit.
Unset Printing Implicit Defensive.
Import GRing.Theory.
Local Open Scope ring_scope.

(** C59: under a hiding key the accepted proofs of a true equation are exactly the proofs that [prove] can
    output, each for exactly one choice of its random scalars. *)
Theorem C59_ppe : forall (E : pairing) (sch sch' : sched) (q : PPE E) (X : seq (G1 E)) (Y : seq (G2 E)) (cx : Commit1 E) (cy : Commit2 E) (crs : CRS E) (pf : EquProof E),
  bilinear E -> nondegenerate E -> cyclic (G1 E) -> cyclic (G2 E) -> valid_sched sch -> valid_sched sch' -> hiding_crs crs -> proper_crs crs ->
  made_G1 crs X cx -> made_G2 crs Y cy -> (0 < size X)%N -> (0 < size Y)%N -> ppe_wf q (size X) (size Y) -> ppe_holds q X Y ->
  equ_type pf = PairingProduct -> size (pi pf) = 2%N -> size (theta pf) = 2%N ->
  (ppe_verify sch' q (mkCProof cx cy [:: pf]) crs = Ok true <->
   exists! t : 4.-tuple (Fr E), yields (fun R s => ppe_prove (R := R) sch q X Y cx cy crs s) pf t).
Proof. exact: @k_C59_ppe. Qed.
Print Assumptions C59_ppe.

Example C59_ppe_case : exists cx cy pf, ppe_verify fwd ppe0 (mkCProof cx cy [:: pf]) crsh = Ok true /\
  (exists! t : 4.-tuple (Fr toy), yields (fun R s => ppe_prove (E := toy) (R := R) bwd ppe0 xs0 ys0 cx cy crsh s) pf t).
Proof.
have [cx [cy [pf [s1 [s2 [mx my e _]]]]]] := ppe_run (sch := fwd) fwd_valid (q := ppe0) (X := xs0) (Y := ys0) (6%N : rst ctr) isT isT ppe0_wf crsh_two.
have h : ppe_verify fwd ppe0 (mkCProof cx cy [:: pf]) crsh = Ok true.
  have [b -> hb] := ppe_dec fwd_valid toy_bilinear fwd_valid mx my e; congr Ok; apply/hb; exact: ppe0_holds.
have [h1 h2] : equ_type pf = PairingProduct /\ size (pi pf) = 2%N /\ size (theta pf) = 2%N.
  exact: (ppe_prove_sizes fwd_valid e).
exists cx, cy, pf; split=> //; case: h2 => h2 h3.
exact: (C59_ppe toy_bilinear toy_nondegenerate toy_cyclic toy_cyclic bwd_valid fwd_valid crsh_hid crsh_prop mx my isT isT ppe0_wf ppe0_holds h1 h2 h3).1.
Qed.

Theorem C59_ms1 : forall (E : pairing) (sch sch' : sched) (q : MSMEG1 E) (X : seq (G1 E)) (Y : seq (Fr E)) (cx : Commit1 E) (cy : Commit2 E) (crs : CRS E) (pf : EquProof E),
  bilinear E -> nondegenerate E -> cyclic (G1 E) -> cyclic (G2 E) -> valid_sched sch -> valid_sched sch' -> hiding_crs crs -> proper_crs crs ->
  made_G1 crs X cx -> made_B2 crs Y cy -> (0 < size X)%N -> (0 < size Y)%N -> ms1_wf q (size X) (size Y) -> ms1_holds q X Y ->
  equ_type pf = MultiScalarG1 -> size (pi pf) = 2%N -> size (theta pf) = 1%N ->
  (ms1_verify sch' q (mkCProof cx cy [:: pf]) crs = Ok true <->
   exists! t : 2.-tuple (Fr E), yields (fun R s => ms1_prove (R := R) sch q X Y cx cy crs s) pf t).
Proof. exact: @k_C59_ms1. Qed.
Print Assumptions C59_ms1.

Example C59_ms1_case : exists cx cy pf, ms1_verify fwd ms10 (mkCProof cx cy [:: pf]) crsh = Ok true /\
  (exists! t : 2.-tuple (Fr toy), yields (fun R s => ms1_prove (E := toy) (R := R) bwd ms10 xs0 ys0 cx cy crsh s) pf t).
Proof.
have [cx [cy [pf [s1 [s2 [mx my e _]]]]]] := ms1_run (sch := fwd) fwd_valid (q := ms10) (X := xs0) (Y := ys0) (6%N : rst ctr) isT isT ms10_wf crsh_two.
have h : ms1_verify fwd ms10 (mkCProof cx cy [:: pf]) crsh = Ok true.
  exact: (ms1_ok fwd_valid toy_bilinear fwd_valid mx my e ms10_holds).
have [h1 h2] : equ_type pf = MultiScalarG1 /\ size (pi pf) = 2%N /\ size (theta pf) = 1%N.
  exact: (ms1_prove_sizes fwd_valid e).
exists cx, cy, pf; split=> //; case: h2 => h2 h3.
exact: (C59_ms1 toy_bilinear toy_nondegenerate toy_cyclic toy_cyclic bwd_valid fwd_valid crsh_hid crsh_prop mx my isT isT ms10_wf ms10_holds h1 h2 h3).1.
Qed.

Theorem C59_ms2 : forall (E : pairing) (sch sch' : sched) (q : MSMEG2 E) (X : seq (Fr E)) (Y : seq (G2 E)) (cx : Commit1 E) (cy : Commit2 E) (crs : CRS E) (pf : EquProof E),
  bilinear E -> nondegenerate E -> cyclic (G1 E) -> cyclic (G2 E) -> valid_sched sch -> valid_sched sch' -> hiding_crs crs -> proper_crs crs ->
  made_B1 crs X cx -> made_G2 crs Y cy -> (0 < size X)%N -> (0 < size Y)%N -> ms2_wf q (size X) (size Y) -> ms2_holds q X Y ->
  equ_type pf = MultiScalarG2 -> size (pi pf) = 1%N -> size (theta pf) = 2%N ->
  (ms2_verify sch' q (mkCProof cx cy [:: pf]) crs = Ok true <->
   exists! t : 2.-tuple (Fr E), yields (fun R s => ms2_prove (R := R) sch q X Y cx cy crs s) pf t).
Proof. exact: @k_C59_ms2. Qed.
Print Assumptions C59_ms2.

Example C59_ms2_case : exists cx cy pf, ms2_verify fwd ms20 (mkCProof cx cy [:: pf]) crsh = Ok true /\
  (exists! t : 2.-tuple (Fr toy), yields (fun R s => ms2_prove (E := toy) (R := R) bwd ms20 xs0 ys0 cx cy crsh s) pf t).
Proof.
have [cx [cy [pf [s1 [s2 [mx my e _]]]]]] := ms2_run (sch := fwd) fwd_valid (q := ms20) (X := xs0) (Y := ys0) (6%N : rst ctr) isT isT ms20_wf crsh_two.
have h : ms2_verify fwd ms20 (mkCProof cx cy [:: pf]) crsh = Ok true.
  exact: (ms2_ok fwd_valid toy_bilinear fwd_valid mx my e ms20_holds).
have [h1 h2] : equ_type pf = MultiScalarG2 /\ size (pi pf) = 1%N /\ size (theta pf) = 2%N.
  exact: (ms2_prove_sizes fwd_valid e).
exists cx, cy, pf; split=> //; case: h2 => h2 h3.
exact: (C59_ms2 toy_bilinear toy_nondegenerate toy_cyclic toy_cyclic bwd_valid fwd_valid crsh_hid crsh_prop mx my isT isT ms20_wf ms20_holds h1 h2 h3).1.
Qed.

Theorem C59_quad : forall (E : pairing) (sch sch' : sched) (q : QuadEqu E) (X : seq (Fr E)) (Y : seq (Fr E)) (cx : Commit1 E) (cy : Commit2 E) (crs : CRS E) (pf : EquProof E),
  bilinear E -> nondegenerate E -> cyclic (G1 E) -> cyclic (G2 E) -> valid_sched sch -> valid_sched sch' -> binding_crs crs \/ hiding_crs crs -> proper_crs crs ->
  made_B1 crs X cx -> made_B2 crs Y cy -> (0 < size X)%N -> (0 < size Y)%N -> quad_wf q (size X) (size Y) -> quad_holds q X Y ->
  equ_type pf = Quadratic -> size (pi pf) = 1%N -> size (theta pf) = 1%N ->
  (quad_verify sch' q (mkCProof cx cy [:: pf]) crs = Ok true <->
   exists! t : 1.-tuple (Fr E), yields (fun R s => quad_prove (R := R) sch q X Y cx cy crs s) pf t).
Proof. exact: @k_C59_quad. Qed.
Print Assumptions C59_quad.

Example C59_quad_case : exists cx cy pf, quad_verify fwd quad0 (mkCProof cx cy [:: pf]) crsh = Ok true /\
  (exists! t : 1.-tuple (Fr toy), yields (fun R s => quad_prove (E := toy) (R := R) bwd quad0 xs0 ys0 cx cy crsh s) pf t).
Proof.
have [cx [cy [pf [s1 [s2 [mx my e _]]]]]] := quad_run (sch := fwd) fwd_valid (q := quad0) (X := xs0) (Y := ys0) (6%N : rst ctr) isT isT quad0_wf crsh_two.
have h : quad_verify fwd quad0 (mkCProof cx cy [:: pf]) crsh = Ok true.
  exact: (quad_ok fwd_valid toy_bilinear fwd_valid mx my e quad0_holds).
have [h1 h2] : equ_type pf = Quadratic /\ size (pi pf) = 1%N /\ size (theta pf) = 1%N.
  exact: (quad_prove_sizes fwd_valid e).
exists cx, cy, pf; split=> //; case: h2 => h2 h3.
exact: (C59_quad toy_bilinear toy_nondegenerate toy_cyclic toy_cyclic bwd_valid fwd_valid (or_intror crsh_hid) crsh_prop mx my isT isT quad0_wf quad0_holds h1 h2 h3).1.
Qed.

(** C61: the example equations in the documentation of the four equation types (statement.rs:114-116, 135-137,
    156-158, 176-178), with [^5] read as multiplication by 5. *)
Theorem C61_ppe : forall (E : pairing) (R : rng E) (sch sch' : sched) (U W : G1 E) (V N : G2 E) (t : GT E) (crs : CRS E) (s : rst R),
  bilinear E -> valid_sched sch -> valid_sched sch' -> two_keys crs ->
  let q := mkPPE [:: 0] [:: 0; N] [:: [:: 5%:R]; [:: 0]] t in
  exists p s' b, [/\ ppe_commit_and_prove sch q [:: U; W] [:: V] crs s = Ok (p, s'), ppe_verify sch' q p crs = Ok b
    & b <-> pair_e W N + 5%:R *: pair_e U V = t].
Proof. exact: @k_C61_ppe. Qed.
Print Assumptions C61_ppe.

Example C61_ppe_case : let q := mkPPE (E := toy) [:: 0] [:: 0; n7 3] [:: [:: n7 5]; [:: n7 0]] (n7 2) in
  exists p s', ppe_commit_and_prove fwd q [:: n7 1; n7 2] [:: n7 2] crs0 (6%N : rst ctr) = Ok (p, s') /\ ppe_verify bwd q p crs0 = Ok true.
Proof.
have [p [s' [b [h1 h2 h3]]]] := C61_ppe (E := toy) (n7 1) (n7 2) (n7 2) (n7 3) (n7 2) (6%N : rst ctr) toy_bilinear fwd_valid bwd_valid crs0_two.
exists p, s'; split; first exact: h1.
by move: h2; have -> : b by apply/h3; apply/eqP; vm_compute.
Qed.

Theorem C61_ms1 : forall (E : pairing) (R : rng E) (sch sch' : sched) (U W : G1 E) (v n : Fr E) (t : G1 E) (crs : CRS E) (s : rst R),
  bilinear E -> nondegenerate E -> valid_sched sch -> valid_sched sch' -> two_keys crs -> v2 crs + (0, g2_gen crs) != 0 ->
  let q := mkMSMEG1 [:: 0] [:: 0; n] [:: [:: 5%:R]; [:: 0]] t in
  exists p s' b, [/\ ms1_commit_and_prove sch q [:: U; W] [:: v] crs s = Ok (p, s'), ms1_verify sch' q p crs = Ok b
    & b <-> n *: W + 5%:R *: (v *: U) = t].
Proof. exact: @k_C61_ms1. Qed.
Print Assumptions C61_ms1.

Example C61_ms1_case : let q := mkMSMEG1 (E := toy) [:: 0] [:: 0; n7 3] [:: [:: n7 5]; [:: n7 0]] (n7 2) in
  exists p s', ms1_commit_and_prove fwd q [:: n7 1; n7 2] [:: n7 2] crs0 (6%N : rst ctr) = Ok (p, s') /\ ms1_verify bwd q p crs0 = Ok true.
Proof.
have [p [s' [b [h1 h2 h3]]]] := C61_ms1 (E := toy) (n7 1) (n7 2) (n7 2) (n7 3) (n7 2) (6%N : rst ctr) toy_bilinear toy_nondegenerate fwd_valid bwd_valid crs0_two isT.
exists p, s'; split; first exact: h1.
by move: h2; have -> : b by apply/h3; apply/eqP; vm_compute.
Qed.

Theorem C61_ms2 : forall (E : pairing) (R : rng E) (sch sch' : sched) (u w : Fr E) (V N : G2 E) (t : G2 E) (crs : CRS E) (s : rst R),
  bilinear E -> nondegenerate E -> valid_sched sch -> valid_sched sch' -> two_keys crs -> u2 crs + (0, g1_gen crs) != 0 ->
  let q := mkMSMEG2 [:: 0] [:: 0; N] [:: [:: 5%:R]; [:: 0]] t in
  exists p s' b, [/\ ms2_commit_and_prove sch q [:: u; w] [:: V] crs s = Ok (p, s'), ms2_verify sch' q p crs = Ok b
    & b <-> w *: N + 5%:R *: (u *: V) = t].
Proof. exact: @k_C61_ms2. Qed.
Print Assumptions C61_ms2.

Example C61_ms2_case : let q := mkMSMEG2 (E := toy) [:: 0] [:: 0; n7 3] [:: [:: n7 5]; [:: n7 0]] (n7 2) in
  exists p s', ms2_commit_and_prove fwd q [:: n7 1; n7 2] [:: n7 2] crs0 (6%N : rst ctr) = Ok (p, s') /\ ms2_verify bwd q p crs0 = Ok true.
Proof.
have [p [s' [b [h1 h2 h3]]]] := C61_ms2 (E := toy) (n7 1) (n7 2) (n7 2) (n7 3) (n7 2) (6%N : rst ctr) toy_bilinear toy_nondegenerate fwd_valid bwd_valid crs0_two isT.
exists p, s'; split; first exact: h1.
by move: h2; have -> : b by apply/h3; apply/eqP; vm_compute.
Qed.

Theorem C61_quad : forall (E : pairing) (R : rng E) (sch sch' : sched) (u w v n t : Fr E) (crs : CRS E) (s : rst R),
  bilinear E -> nondegenerate E -> valid_sched sch -> valid_sched sch' -> two_keys crs -> u2 crs + (0, g1_gen crs) != 0 -> v2 crs + (0, g2_gen crs) != 0 ->
  let q := mkQuadEqu [:: 0] [:: 0; n] [:: [:: 5%:R]; [:: 0]] t in
  exists p s' b, [/\ quad_commit_and_prove sch q [:: u; w] [:: v] crs s = Ok (p, s'), quad_verify sch' q p crs = Ok b
    & b <-> w * n + 5%:R * (u * v) = t].
Proof. exact: @k_C61_quad. Qed.
Print Assumptions C61_quad.

Example C61_quad_case : let q := mkQuadEqu (E := toy) [:: 0] [:: 0; n7 3] [:: [:: n7 5]; [:: n7 0]] (n7 2) in
  exists p s', quad_commit_and_prove fwd q [:: n7 1; n7 2] [:: n7 2] crs0 (6%N : rst ctr) = Ok (p, s') /\ quad_verify bwd q p crs0 = Ok true.
Proof.
have [p [s' [b [h1 h2 h3]]]] := C61_quad (E := toy) (n7 1) (n7 2) (n7 2) (n7 3) (n7 2) (6%N : rst ctr) toy_bilinear toy_nondegenerate fwd_valid bwd_valid crs0_two isT isT.
exists p, s'; split; first exact: h1.
by move: h2; have -> : b by apply/h3; apply/eqP; vm_compute.
Qed.

(** Read literally, with a fifth power, the documented quadratic equation is not what is proved. *)
Theorem C61_literal_power_refuted : exists (E : pairing) (R : rng E) (u w v n t : Fr E) (crs : CRS E) (s s' : rst R) p,
  let q := mkQuadEqu [:: 0] [:: 0; n] [:: [:: 5%:R]; [:: 0]] t in
  [/\ quad_commit_and_prove fwd q [:: u; w] [:: v] crs s = Ok (p, s'), quad_verify fwd q p crs = Ok true
    & w * n + (u * v) ^+ 5 <> t].
Proof. exact: k_C61_literal. Qed.
Print Assumptions C61_literal_power_refuted.

(** C63: under a binding key an accepted proof exists exactly for commitments that have a satisfying opening. *)
Theorem C63_ppe : forall (E : pairing) (sch : sched) (q : PPE E) (cx : Commit1 E) (cy : Commit2 E) (crs : CRS E),
  bilinear E -> nondegenerate E -> cyclic (G1 E) -> cyclic (G2 E) -> valid_sched sch -> binding_crs crs -> proper_crs crs ->
  (0 < size (coms cx))%N -> (0 < size (coms cy))%N -> ppe_wf q (size (coms cx)) (size (coms cy)) ->
  (exists pf, ppe_verify sch q (mkCProof cx cy [:: pf]) crs = Ok true) <->
  (exists X Y, [/\ commits_G1 crs (coms cx) X, commits_G2 crs (coms cy) Y & ppe_holds q X Y]).
Proof. exact: @k_C63_ppe. Qed.
Print Assumptions C63_ppe.

Example C63_ppe_case : (exists X Y, [/\ commits_G1 crs0 (coms (xcoms ppe_p0)) X, commits_G2 crs0 (coms (ycoms ppe_p0)) Y & ppe_holds ppe0 X Y]) /\
  ~ (exists pf, ppe_verify fwd no_ppe (mkCProof (xcoms ppe_p0) (ycoms ppe_p0) [:: pf]) crs0 = Ok true).
Proof.
have wf : ppe_wf no_ppe 2 1 by split=> //; split=> // -[|[|]].
split.
  have [k _] := @C63_ppe toy fwd ppe0 (xcoms ppe_p0) (ycoms ppe_p0) crs0 toy_bilinear toy_nondegenerate toy_cyclic toy_cyclic fwd_valid crs0_bind crs0_prop isT isT ppe0_wf.
  by apply: k; exists (pf_of ppe_p0); exact: ppe_g0_ok.
have [k _] := @C63_ppe toy fwd no_ppe (xcoms ppe_p0) (ycoms ppe_p0) crs0 toy_bilinear toy_nondegenerate toy_cyclic toy_cyclic fwd_valid crs0_bind crs0_prop isT isT wf.
move=> /k[X [Y [_ _ h]]].
exact: no_ppe_fails h.
Qed.

Theorem C63_ms1 : forall (E : pairing) (sch : sched) (q : MSMEG1 E) (cx : Commit1 E) (cy : Commit2 E) (crs : CRS E),
  bilinear E -> nondegenerate E -> cyclic (G1 E) -> cyclic (G2 E) -> valid_sched sch -> binding_crs crs -> proper_crs crs ->
  (0 < size (coms cx))%N -> (0 < size (coms cy))%N -> ms1_wf q (size (coms cx)) (size (coms cy)) ->
  (exists pf, ms1_verify sch q (mkCProof cx cy [:: pf]) crs = Ok true) <->
  (exists X Y, [/\ commits_G1 crs (coms cx) X, commits_B2 crs (coms cy) Y & ms1_holds q X Y]).
Proof. exact: @k_C63_ms1. Qed.
Print Assumptions C63_ms1.

Example C63_ms1_case : (exists X Y, [/\ commits_G1 crs0 (coms (xcoms ms1_p0)) X, commits_B2 crs0 (coms (ycoms ms1_p0)) Y & ms1_holds ms10 X Y]) /\
  ~ (exists pf, ms1_verify fwd no_ms1 (mkCProof (xcoms ms1_p0) (ycoms ms1_p0) [:: pf]) crs0 = Ok true).
Proof.
have wf : ms1_wf no_ms1 2 1 by split=> //; split=> // -[|[|]].
split.
  have [k _] := @C63_ms1 toy fwd ms10 (xcoms ms1_p0) (ycoms ms1_p0) crs0 toy_bilinear toy_nondegenerate toy_cyclic toy_cyclic fwd_valid crs0_bind crs0_prop isT isT ms10_wf.
  by apply: k; exists (pf_of ms1_p0); exact: ms1_g0_ok.
have [k _] := @C63_ms1 toy fwd no_ms1 (xcoms ms1_p0) (ycoms ms1_p0) crs0 toy_bilinear toy_nondegenerate toy_cyclic toy_cyclic fwd_valid crs0_bind crs0_prop isT isT wf.
move=> /k[X [Y [_ _ h]]].
exact: no_ms1_fails h.
Qed.

Theorem C63_ms2 : forall (E : pairing) (sch : sched) (q : MSMEG2 E) (cx : Commit1 E) (cy : Commit2 E) (crs : CRS E),
  bilinear E -> nondegenerate E -> cyclic (G1 E) -> cyclic (G2 E) -> valid_sched sch -> binding_crs crs -> proper_crs crs ->
  (0 < size (coms cx))%N -> (0 < size (coms cy))%N -> ms2_wf q (size (coms cx)) (size (coms cy)) ->
  (exists pf, ms2_verify sch q (mkCProof cx cy [:: pf]) crs = Ok true) <->
  (exists X Y, [/\ commits_B1 crs (coms cx) X, commits_G2 crs (coms cy) Y & ms2_holds q X Y]).
Proof. exact: @k_C63_ms2. Qed.
Print Assumptions C63_ms2.

Example C63_ms2_case : (exists X Y, [/\ commits_B1 crs0 (coms (xcoms ms2_p0)) X, commits_G2 crs0 (coms (ycoms ms2_p0)) Y & ms2_holds ms20 X Y]) /\
  ~ (exists pf, ms2_verify fwd no_ms2 (mkCProof (xcoms ms2_p0) (ycoms ms2_p0) [:: pf]) crs0 = Ok true).
Proof.
have wf : ms2_wf no_ms2 2 1 by split=> //; split=> // -[|[|]].
split.
  have [k _] := @C63_ms2 toy fwd ms20 (xcoms ms2_p0) (ycoms ms2_p0) crs0 toy_bilinear toy_nondegenerate toy_cyclic toy_cyclic fwd_valid crs0_bind crs0_prop isT isT ms20_wf.
  by apply: k; exists (pf_of ms2_p0); exact: ms2_g0_ok.
have [k _] := @C63_ms2 toy fwd no_ms2 (xcoms ms2_p0) (ycoms ms2_p0) crs0 toy_bilinear toy_nondegenerate toy_cyclic toy_cyclic fwd_valid crs0_bind crs0_prop isT isT wf.
move=> /k[X [Y [_ _ h]]].
exact: no_ms2_fails h.
Qed.

Theorem C63_quad : forall (E : pairing) (sch : sched) (q : QuadEqu E) (cx : Commit1 E) (cy : Commit2 E) (crs : CRS E),
  bilinear E -> nondegenerate E -> cyclic (G1 E) -> cyclic (G2 E) -> valid_sched sch -> binding_crs crs -> proper_crs crs ->
  (0 < size (coms cx))%N -> (0 < size (coms cy))%N -> quad_wf q (size (coms cx)) (size (coms cy)) ->
  (exists pf, quad_verify sch q (mkCProof cx cy [:: pf]) crs = Ok true) <->
  (exists X Y, [/\ commits_B1 crs (coms cx) X, commits_B2 crs (coms cy) Y & quad_holds q X Y]).
Proof. exact: @k_C63_quad. Qed.
Print Assumptions C63_quad.

Example C63_quad_case : (exists X Y, [/\ commits_B1 crs0 (coms (xcoms quad_p0)) X, commits_B2 crs0 (coms (ycoms quad_p0)) Y & quad_holds quad0 X Y]) /\
  ~ (exists pf, quad_verify fwd no_quad (mkCProof (xcoms quad_p0) (ycoms quad_p0) [:: pf]) crs0 = Ok true).
Proof.
have wf : quad_wf no_quad 2 1 by split=> //; split=> // -[|[|]].
split.
  have [k _] := @C63_quad toy fwd quad0 (xcoms quad_p0) (ycoms quad_p0) crs0 toy_bilinear toy_nondegenerate toy_cyclic toy_cyclic fwd_valid crs0_bind crs0_prop isT isT quad0_wf.
  by apply: k; exists (pf_of quad_p0); exact: quad_g0_ok.
have [k _] := @C63_quad toy fwd no_quad (xcoms quad_p0) (ycoms quad_p0) crs0 toy_bilinear toy_nondegenerate toy_cyclic toy_cyclic fwd_valid crs0_bind crs0_prop isT isT wf.
move=> /k[X [Y [_ _ h]]].
exact: no_quad_fails h.
Qed.

(** C64: under a hiding key every equation of the right shape, satisfiable or not, has an accepted proof, for
    any commitments at all (quadratic equations: for any commitments to scalars). *)
Theorem C64_ppe : forall (E : pairing) (sch : sched) (q : PPE E) (cx : Commit1 E) (cy : Commit2 E) (crs : CRS E),
  bilinear E -> nondegenerate E -> cyclic (GT E) -> valid_sched sch -> hiding_crs crs -> proper_crs crs ->
  size (ppe_a q) = size (coms cy) -> size (ppe_b q) = size (coms cx) -> gamma_fits (size (coms cx)) (size (coms cy)) (ppe_gamma q) ->
  exists pf, ppe_verify sch q (mkCProof cx cy [:: pf]) crs = Ok true.
Proof. exact: @k_C64_ppe. Qed.
Print Assumptions C64_ppe.

Example C64_ppe_case : (forall X Y, ~ ppe_holds no_ppe X Y) /\
  (exists pf, ppe_verify fwd no_ppe (mkCProof (xcoms ppe_h0) (ycoms ppe_h0) [:: pf]) crsh = Ok true).
Proof.
split; first exact: no_ppe_fails.
by apply: (C64_ppe toy_bilinear toy_nondegenerate toy_cyclic fwd_valid crsh_hid crsh_prop) => //; right; split=> // -[|[|]].
Qed.

Theorem C64_ms1 : forall (E : pairing) (sch : sched) (q : MSMEG1 E) (cx : Commit1 E) (cy : Commit2 E) (crs : CRS E),
  bilinear E -> nondegenerate E -> cyclic (GT E) -> valid_sched sch -> hiding_crs crs -> proper_crs crs ->
  size (ms1_a q) = size (coms cy) -> size (ms1_b q) = size (coms cx) -> gamma_fits (size (coms cx)) (size (coms cy)) (ms1_gamma q) ->
  exists pf, ms1_verify sch q (mkCProof cx cy [:: pf]) crs = Ok true.
Proof. exact: @k_C64_ms1. Qed.
Print Assumptions C64_ms1.

Example C64_ms1_case : (forall X Y, ~ ms1_holds no_ms1 X Y) /\
  (exists pf, ms1_verify fwd no_ms1 (mkCProof (xcoms ms1_h0) (ycoms ms1_h0) [:: pf]) crsh = Ok true).
Proof.
split; first exact: no_ms1_fails.
by apply: (C64_ms1 toy_bilinear toy_nondegenerate toy_cyclic fwd_valid crsh_hid crsh_prop) => //; right; split=> // -[|[|]].
Qed.

Theorem C64_ms2 : forall (E : pairing) (sch : sched) (q : MSMEG2 E) (cx : Commit1 E) (cy : Commit2 E) (crs : CRS E),
  bilinear E -> nondegenerate E -> cyclic (GT E) -> valid_sched sch -> hiding_crs crs -> proper_crs crs ->
  size (ms2_a q) = size (coms cy) -> size (ms2_b q) = size (coms cx) -> gamma_fits (size (coms cx)) (size (coms cy)) (ms2_gamma q) ->
  exists pf, ms2_verify sch q (mkCProof cx cy [:: pf]) crs = Ok true.
Proof. exact: @k_C64_ms2. Qed.
Print Assumptions C64_ms2.

Example C64_ms2_case : (forall X Y, ~ ms2_holds no_ms2 X Y) /\
  (exists pf, ms2_verify fwd no_ms2 (mkCProof (xcoms ms2_h0) (ycoms ms2_h0) [:: pf]) crsh = Ok true).
Proof.
split; first exact: no_ms2_fails.
by apply: (C64_ms2 toy_bilinear toy_nondegenerate toy_cyclic fwd_valid crsh_hid crsh_prop) => //; right; split=> // -[|[|]].
Qed.

Theorem C64_quad : forall (E : pairing) (sch : sched) (q : QuadEqu E) (cx : Commit1 E) (cy : Commit2 E) (crs : CRS E) x y,
  bilinear E -> valid_sched sch -> hiding_crs crs -> commits_B1 crs (coms cx) x -> commits_B2 crs (coms cy) y ->
  size (quad_a q) = size (coms cy) -> size (quad_b q) = size (coms cx) -> gamma_fits (size (coms cx)) (size (coms cy)) (quad_gamma q) ->
  exists pf, quad_verify sch q (mkCProof cx cy [:: pf]) crs = Ok true.
Proof. exact: @k_C64_quad. Qed.
Print Assumptions C64_quad.

Example C64_quad_case : (forall X Y, ~ quad_holds no_quad X Y) /\
  (exists pf, quad_verify fwd no_quad (mkCProof (xcoms quad_h0) (ycoms quad_h0) [:: pf]) crsh = Ok true).
Proof.
split; first exact: no_quad_fails.
have [cx [cy [pf [s1 [s2 [mx my _ e]]]]]] := quad_run (sch := fwd) fwd_valid (q := quad0) (X := xs0) (Y := ys0) (6%N : rst ctr) isT isT quad0_wf crsh_two.
have -> : quad_h0 = mkCProof cx cy [:: pf] by rewrite /quad_h0 e.
have wf := quad0_wf; case: mx => hx _ kx; case: my => hy _ ky.
refine (@C64_quad toy fwd no_quad cx cy crsh xs0 ys0 toy_bilinear fwd_valid crsh_hid _ _ _ _ _).
- by split=> // i hi; exists (nth [::] (crand cx) i); apply: kx; rewrite -hx.
- by split=> // i hi; exists (nth [::] (crand cy) i); apply: ky; rewrite -hy.
- by rewrite /= hy.
- by rewrite /= hx.
by rewrite /= hx hy; right; split=> // -[|[|]].
Qed.

