(** Property C96: exactly which proofs [prove] can return under a binding key. *)
From mathcomp Require Import all_ssreflect all_algebra.
From Verif Require Import Base BaseLemmas Group DataStructures Generator Commit Statement Prove Verify Spec SpecMat SpecVerify SpecHide SpecRerand SpecTamper Main Exist ExistProps MallProps OutputProps Concrete Concrete2 Concrete4 Concrete7.
Set Implicit Arguments.
Unset Strict Implicit.
Unset Printing Implicit Defensive.
Import GRing.Theory.
Local Open Scope ring_scope.

Example crs0_binding_key_case : binding_crs_with crs0 (n7 2) (n7 3) (n7 4) (n7 5).
Proof. by split; apply/eqP; vm_compute. Qed.
Example crs0_binding_some_case : binding_crs crs0.
Proof. by exists (n7 2), (n7 3), (n7 4), (n7 5); exact: crs0_binding_key_case. Qed.

Local Notation ppe_moved f := (mkEquProof (E := toy) [:: nth 0 (pi f) 0 - v1 crs0; nth 0 (pi f) 1] [:: nth 0 (theta f) 0 + u1 crs0; nth 0 (theta f) 1] PairingProduct [::]).

(** Given one output, the others are reached by moving each entry of [pi] along [v1] and each entry of [theta] along [u1],
    with one linear relation between the four coefficients. *)
Theorem C96_ppe_outputs : forall (E : pairing) (R : rng E) (sch : sched) (q : PPE E) X Y (cx : Commit1 E) (cy : Commit2 E) (crs : CRS E) (s s' : rst R) (f g : EquProof E) (a1 a2 t1 t2 : Fr E),
  valid_sched sch -> binding_crs_with crs a1 a2 t1 t2 -> ppe_prove sch q X Y cx cy crs s = Ok (f, s') ->
  size (pi g) = 2%N -> size (theta g) = 2%N ->
  ((exists t : 4.-tuple (Fr E), yields (fun R s => ppe_prove (R := R) sch q X Y cx cy crs s) g t) <->
   exists al0 al1 be0 be1, [/\ nth 0 (pi g) 0 = nth 0 (pi f) 0 - al0 *: v1 crs, nth 0 (pi g) 1 = nth 0 (pi f) 1 - al1 *: v1 crs,
     nth 0 (theta g) 0 = nth 0 (theta f) 0 + be0 *: u1 crs, nth 0 (theta g) 1 = nth 0 (theta f) 1 + be1 *: u1 crs
     & al0 + t1 * al1 = be0 + t2 * be1]).
Proof. exact: @k_C96_ppe_outputs. Qed.
Print Assumptions C96_ppe_outputs.

(** One such move of an output is an output. *)
Example C96_ppe_outputs_case : exists cx cy f (s s' : rst ctr), ppe_prove (E := toy) (R := ctr) fwd ppe0 xs0 ys0 cx cy crs0 s = Ok (f, s') /\
  exists t : 4.-tuple (Fr toy), yields (fun R s => ppe_prove (E := toy) (R := R) fwd ppe0 xs0 ys0 cx cy crs0 s) (ppe_moved f) t.
Proof.
have [cx [cy [f [s1 [s2 [mx my e _]]]]]] := ppe_run (sch := fwd) fwd_valid (q := ppe0) (X := xs0) (Y := ys0) (6%N : rst ctr) isT isT ppe0_wf crs0_two.
exists cx, cy, f; do 2 eexists; split; first exact: e.
apply: (C96_ppe_outputs fwd_valid crs0_binding_key_case e (g := ppe_moved f) erefl erefl).2.
by exists 1, 0, 1, 0; rewrite /= !scale1r !scale0r !mulr0 !addr0 !subr0.
Qed.

(** Among the accepted proofs, the outputs are those which differ from one output only along [v1] and [u1]. *)
Theorem C96_ppe_accepted : forall (E : pairing) (R : rng E) (sch sch' : sched) (q : PPE E) X Y (cx : Commit1 E) (cy : Commit2 E) (crs : CRS E) (s s' : rst R) (f g : EquProof E),
  bilinear E -> nondegenerate E -> cyclic (G2 E) -> valid_sched sch -> valid_sched sch' -> binding_crs crs -> proper_crs crs ->
  made_G1 crs X cx -> made_G2 crs Y cy -> ppe_holds q X Y -> ppe_prove sch q X Y cx cy crs s = Ok (f, s') ->
  equ_type g = PairingProduct -> size (pi g) = 2%N -> size (theta g) = 2%N ->
  ((exists t : 4.-tuple (Fr E), yields (fun R s => ppe_prove (R := R) sch q X Y cx cy crs s) g t) <->
   ppe_verify sch' q (mkCProof cx cy [:: g]) crs = Ok true /\
   (forall i, exists al, nth 0 (pi g) i = nth 0 (pi f) i + al *: v1 crs) /\
   (forall j, exists be, nth 0 (theta g) j = nth 0 (theta f) j + be *: u1 crs)).
Proof. exact: @k_C96_ppe_accepted. Qed.
Print Assumptions C96_ppe_accepted.

(** The moved proof is another accepted proof. *)
Example C96_ppe_accepted_case : exists cx cy f, ppe_verify bwd ppe0 (mkCProof cx cy [:: f]) crs0 = Ok true /\
  ppe_verify bwd ppe0 (mkCProof cx cy [:: ppe_moved f]) crs0 = Ok true.
Proof.
have [cx [cy [f [s1 [s2 [mx my e _]]]]]] := ppe_run (sch := fwd) fwd_valid (q := ppe0) (X := xs0) (Y := ys0) (6%N : rst ctr) isT isT ppe0_wf crs0_two.
have [h1 [h2 h3]] := ppe_prove_sizes fwd_valid e.
have o1 : exists t : 4.-tuple (Fr toy), yields (fun R s => ppe_prove (E := toy) (R := R) fwd ppe0 xs0 ys0 cx cy crs0 s) f t.
  apply: (C96_ppe_outputs fwd_valid crs0_binding_key_case e h2 h3).2; by exists 0, 0, 0, 0; rewrite !scale0r !mulr0 !addr0 !subr0.
have o2 : exists t : 4.-tuple (Fr toy), yields (fun R s => ppe_prove (E := toy) (R := R) fwd ppe0 xs0 ys0 cx cy crs0 s) (ppe_moved f) t.
  apply: (C96_ppe_outputs fwd_valid crs0_binding_key_case e (g := ppe_moved f) erefl erefl).2; by exists 1, 0, 1, 0; rewrite /= !scale1r !scale0r !mulr0 !addr0 !subr0.
have [a1 _] := (C96_ppe_accepted toy_bilinear toy_nondegenerate toy_cyclic fwd_valid bwd_valid crs0_binding_some_case (conj crs0_g1 crs0_g2) mx my ppe0_holds e h1 h2 h3).1 o1.
have [a2 _] := (C96_ppe_accepted toy_bilinear toy_nondegenerate toy_cyclic fwd_valid bwd_valid crs0_binding_some_case (conj crs0_g1 crs0_g2) mx my ppe0_holds e (g := ppe_moved f) erefl erefl erefl).1 o2.
by exists cx, cy, f.
Qed.

Local Notation ms1_moved f := (mkEquProof (E := toy) [:: nth 0 (pi f) 0 - v1 crs0; nth 0 (pi f) 1] [:: nth 0 (theta f) 0 + u1 crs0] MultiScalarG1 [::]).

(** For MSMEG1 the two entries of [pi] move freely along [v1], and [theta] follows. *)
Theorem C96_ms1_outputs : forall (E : pairing) (R : rng E) (sch : sched) (q : MSMEG1 E) X Y (cx : Commit1 E) (cy : Commit2 E) (crs : CRS E) (s s' : rst R) (f g : EquProof E) (a1 a2 t1 t2 : Fr E),
  valid_sched sch -> binding_crs_with crs a1 a2 t1 t2 -> ms1_prove sch q X Y cx cy crs s = Ok (f, s') ->
  size (pi g) = 2%N -> size (theta g) = 1%N ->
  ((exists t : 2.-tuple (Fr E), yields (fun R s => ms1_prove (R := R) sch q X Y cx cy crs s) g t) <->
   exists al0 al1, [/\ nth 0 (pi g) 0 = nth 0 (pi f) 0 - al0 *: v1 crs, nth 0 (pi g) 1 = nth 0 (pi f) 1 - al1 *: v1 crs
     & nth 0 (theta g) 0 = nth 0 (theta f) 0 + (al0 + t1 * al1) *: u1 crs]).
Proof. exact: @k_C96_ms1_outputs. Qed.
Print Assumptions C96_ms1_outputs.

(** One such move of an output is an output. *)
Example C96_ms1_outputs_case : exists cx cy f (s s' : rst ctr), ms1_prove (E := toy) (R := ctr) fwd ms10 xs0 ys0 cx cy crs0 s = Ok (f, s') /\
  exists t : 2.-tuple (Fr toy), yields (fun R s => ms1_prove (E := toy) (R := R) fwd ms10 xs0 ys0 cx cy crs0 s) (ms1_moved f) t.
Proof.
have [cx [cy [f [s1 [s2 [mx my e _]]]]]] := ms1_run (sch := fwd) fwd_valid (q := ms10) (X := xs0) (Y := ys0) (6%N : rst ctr) isT isT ms10_wf crs0_two.
exists cx, cy, f; do 2 eexists; split; first exact: e.
apply: (C96_ms1_outputs fwd_valid crs0_binding_key_case e (g := ms1_moved f) erefl erefl).2.
by exists 1, 0; rewrite (_ : 1 + _ * 0 = 1) ?mulr0 ?addr0 // !scale1r !scale0r ?subr0 ?addr0.
Qed.

(** For MSMEG1, those whose [pi] differs only along [v1]. *)
Theorem C96_ms1_accepted : forall (E : pairing) (R : rng E) (sch sch' : sched) (q : MSMEG1 E) X Y (cx : Commit1 E) (cy : Commit2 E) (crs : CRS E) (s s' : rst R) (f g : EquProof E),
  bilinear E -> nondegenerate E -> cyclic (G2 E) -> valid_sched sch -> valid_sched sch' -> binding_crs crs -> proper_crs crs ->
  made_G1 crs X cx -> made_B2 crs Y cy -> ms1_holds q X Y -> ms1_prove sch q X Y cx cy crs s = Ok (f, s') ->
  equ_type g = MultiScalarG1 -> size (pi g) = 2%N -> size (theta g) = 1%N ->
  ((exists t : 2.-tuple (Fr E), yields (fun R s => ms1_prove (R := R) sch q X Y cx cy crs s) g t) <->
   ms1_verify sch' q (mkCProof cx cy [:: g]) crs = Ok true /\
   (forall i, exists al, nth 0 (pi g) i = nth 0 (pi f) i + al *: v1 crs)).
Proof. exact: @k_C96_ms1_accepted. Qed.
Print Assumptions C96_ms1_accepted.

(** The moved proof is another accepted proof. *)
Example C96_ms1_accepted_case : exists cx cy f, ms1_verify bwd ms10 (mkCProof cx cy [:: f]) crs0 = Ok true /\
  ms1_verify bwd ms10 (mkCProof cx cy [:: ms1_moved f]) crs0 = Ok true.
Proof.
have [cx [cy [f [s1 [s2 [mx my e _]]]]]] := ms1_run (sch := fwd) fwd_valid (q := ms10) (X := xs0) (Y := ys0) (6%N : rst ctr) isT isT ms10_wf crs0_two.
have [h1 [h2 h3]] := ms1_prove_sizes fwd_valid e.
have o1 : exists t : 2.-tuple (Fr toy), yields (fun R s => ms1_prove (E := toy) (R := R) fwd ms10 xs0 ys0 cx cy crs0 s) f t.
  apply: (C96_ms1_outputs fwd_valid crs0_binding_key_case e h2 h3).2; by exists 0, 0; rewrite !mulr0 !addr0 !scale0r !addr0 !subr0.
have o2 : exists t : 2.-tuple (Fr toy), yields (fun R s => ms1_prove (E := toy) (R := R) fwd ms10 xs0 ys0 cx cy crs0 s) (ms1_moved f) t.
  apply: (C96_ms1_outputs fwd_valid crs0_binding_key_case e (g := ms1_moved f) erefl erefl).2; by exists 1, 0; rewrite (_ : 1 + _ * 0 = 1) ?mulr0 ?addr0 // !scale1r !scale0r ?subr0 ?addr0.
have [a1 _] := (C96_ms1_accepted toy_bilinear toy_nondegenerate toy_cyclic fwd_valid bwd_valid crs0_binding_some_case (conj crs0_g1 crs0_g2) mx my ms10_holds e h1 h2 h3).1 o1.
have [a2 _] := (C96_ms1_accepted toy_bilinear toy_nondegenerate toy_cyclic fwd_valid bwd_valid crs0_binding_some_case (conj crs0_g1 crs0_g2) mx my ms10_holds e (g := ms1_moved f) erefl erefl erefl).1 o2.
by exists cx, cy, f.
Qed.

Local Notation ms2_moved f := (mkEquProof (E := toy) [:: nth 0 (pi f) 0 - v1 crs0] [:: nth 0 (theta f) 0 + u1 crs0; nth 0 (theta f) 1] MultiScalarG2 [::]).

(** For MSMEG2 the two entries of [theta] move freely along [u1], and [pi] follows. *)
Theorem C96_ms2_outputs : forall (E : pairing) (R : rng E) (sch : sched) (q : MSMEG2 E) X Y (cx : Commit1 E) (cy : Commit2 E) (crs : CRS E) (s s' : rst R) (f g : EquProof E) (a1 a2 t1 t2 : Fr E),
  valid_sched sch -> binding_crs_with crs a1 a2 t1 t2 -> ms2_prove sch q X Y cx cy crs s = Ok (f, s') ->
  size (pi g) = 1%N -> size (theta g) = 2%N ->
  ((exists t : 2.-tuple (Fr E), yields (fun R s => ms2_prove (R := R) sch q X Y cx cy crs s) g t) <->
   exists be0 be1, [/\ nth 0 (pi g) 0 = nth 0 (pi f) 0 - (be0 + t2 * be1) *: v1 crs,
     nth 0 (theta g) 0 = nth 0 (theta f) 0 + be0 *: u1 crs & nth 0 (theta g) 1 = nth 0 (theta f) 1 + be1 *: u1 crs]).
Proof. exact: @k_C96_ms2_outputs. Qed.
Print Assumptions C96_ms2_outputs.

(** One such move of an output is an output. *)
Example C96_ms2_outputs_case : exists cx cy f (s s' : rst ctr), ms2_prove (E := toy) (R := ctr) fwd ms20 xs0 ys0 cx cy crs0 s = Ok (f, s') /\
  exists t : 2.-tuple (Fr toy), yields (fun R s => ms2_prove (E := toy) (R := R) fwd ms20 xs0 ys0 cx cy crs0 s) (ms2_moved f) t.
Proof.
have [cx [cy [f [s1 [s2 [mx my e _]]]]]] := ms2_run (sch := fwd) fwd_valid (q := ms20) (X := xs0) (Y := ys0) (6%N : rst ctr) isT isT ms20_wf crs0_two.
exists cx, cy, f; do 2 eexists; split; first exact: e.
apply: (C96_ms2_outputs fwd_valid crs0_binding_key_case e (g := ms2_moved f) erefl erefl).2.
by exists 1, 0; rewrite (_ : 1 + _ * 0 = 1) ?mulr0 ?addr0 // !scale1r !scale0r ?subr0 ?addr0.
Qed.

(** For MSMEG2, those whose [theta] differs only along [u1]. *)
Theorem C96_ms2_accepted : forall (E : pairing) (R : rng E) (sch sch' : sched) (q : MSMEG2 E) X Y (cx : Commit1 E) (cy : Commit2 E) (crs : CRS E) (s s' : rst R) (f g : EquProof E),
  bilinear E -> nondegenerate E -> cyclic (G2 E) -> valid_sched sch -> valid_sched sch' -> binding_crs crs -> proper_crs crs ->
  made_B1 crs X cx -> made_G2 crs Y cy -> ms2_holds q X Y -> ms2_prove sch q X Y cx cy crs s = Ok (f, s') ->
  equ_type g = MultiScalarG2 -> size (pi g) = 1%N -> size (theta g) = 2%N ->
  ((exists t : 2.-tuple (Fr E), yields (fun R s => ms2_prove (R := R) sch q X Y cx cy crs s) g t) <->
   ms2_verify sch' q (mkCProof cx cy [:: g]) crs = Ok true /\
   (forall j, exists be, nth 0 (theta g) j = nth 0 (theta f) j + be *: u1 crs)).
Proof. exact: @k_C96_ms2_accepted. Qed.
Print Assumptions C96_ms2_accepted.

(** The moved proof is another accepted proof. *)
Example C96_ms2_accepted_case : exists cx cy f, ms2_verify bwd ms20 (mkCProof cx cy [:: f]) crs0 = Ok true /\
  ms2_verify bwd ms20 (mkCProof cx cy [:: ms2_moved f]) crs0 = Ok true.
Proof.
have [cx [cy [f [s1 [s2 [mx my e _]]]]]] := ms2_run (sch := fwd) fwd_valid (q := ms20) (X := xs0) (Y := ys0) (6%N : rst ctr) isT isT ms20_wf crs0_two.
have [h1 [h2 h3]] := ms2_prove_sizes fwd_valid e.
have o1 : exists t : 2.-tuple (Fr toy), yields (fun R s => ms2_prove (E := toy) (R := R) fwd ms20 xs0 ys0 cx cy crs0 s) f t.
  apply: (C96_ms2_outputs fwd_valid crs0_binding_key_case e h2 h3).2; by exists 0, 0; rewrite !mulr0 !addr0 !scale0r !addr0 !subr0.
have o2 : exists t : 2.-tuple (Fr toy), yields (fun R s => ms2_prove (E := toy) (R := R) fwd ms20 xs0 ys0 cx cy crs0 s) (ms2_moved f) t.
  apply: (C96_ms2_outputs fwd_valid crs0_binding_key_case e (g := ms2_moved f) erefl erefl).2; by exists 1, 0; rewrite (_ : 1 + _ * 0 = 1) ?mulr0 ?addr0 // !scale1r !scale0r ?subr0 ?addr0.
have [a1 _] := (C96_ms2_accepted toy_bilinear toy_nondegenerate toy_cyclic fwd_valid bwd_valid crs0_binding_some_case (conj crs0_g1 crs0_g2) mx my ms20_holds e h1 h2 h3).1 o1.
have [a2 _] := (C96_ms2_accepted toy_bilinear toy_nondegenerate toy_cyclic fwd_valid bwd_valid crs0_binding_some_case (conj crs0_g1 crs0_g2) mx my ms20_holds e (g := ms2_moved f) erefl erefl erefl).1 o2.
by exists cx, cy, f.
Qed.

Local Notation quad_moved f := (mkEquProof (E := toy) [:: nth 0 (pi f) 0 - v1 crs0] [:: nth 0 (theta f) 0 + u1 crs0] Quadratic [::]).

(** For quadratic equations, under any key, [pi] moves along [v1] and [theta] along [u1] by one common scalar. *)
Theorem C96_quad_outputs : forall (E : pairing) (R : rng E) (sch : sched) (q : QuadEqu E) X Y (cx : Commit1 E) (cy : Commit2 E) (crs : CRS E) (s s' : rst R) (f g : EquProof E),
  valid_sched sch -> quad_prove sch q X Y cx cy crs s = Ok (f, s') ->
  size (pi g) = 1%N -> size (theta g) = 1%N ->
  ((exists t : 1.-tuple (Fr E), yields (fun R s => quad_prove (R := R) sch q X Y cx cy crs s) g t) <->
   exists al, nth 0 (pi g) 0 = nth 0 (pi f) 0 - al *: v1 crs /\ nth 0 (theta g) 0 = nth 0 (theta f) 0 + al *: u1 crs).
Proof. exact: @k_C96_quad_outputs. Qed.
Print Assumptions C96_quad_outputs.

(** One such move of an output is an output. *)
Example C96_quad_outputs_case : exists cx cy f (s s' : rst ctr), quad_prove (E := toy) (R := ctr) fwd quad0 xs0 ys0 cx cy crs0 s = Ok (f, s') /\
  exists t : 1.-tuple (Fr toy), yields (fun R s => quad_prove (E := toy) (R := R) fwd quad0 xs0 ys0 cx cy crs0 s) (quad_moved f) t.
Proof.
have [cx [cy [f [s1 [s2 [mx my e _]]]]]] := quad_run (sch := fwd) fwd_valid (q := quad0) (X := xs0) (Y := ys0) (6%N : rst ctr) isT isT quad0_wf crs0_two.
exists cx, cy, f; do 2 eexists; split; first exact: e.
apply: (C96_quad_outputs fwd_valid e (g := quad_moved f) erefl erefl).2.
by exists 1; rewrite /= !scale1r.
Qed.
