(** C98: which random tapes make [prove] return the same proof. *)
From mathcomp Require Import all_ssreflect all_algebra.
From Verif Require Import Base BaseLemmas Group DataStructures Generator Commit Statement Prove Verify Spec SpecVerify SpecHide FibreProps Concrete Concrete2 Concrete4 Concrete7 Concrete29.
Set Implicit Arguments.
Unset Strict Implicit.
Unset Printing Implicit Defensive.
Import GRing.Theory.
Local Open Scope ring_scope.

(** [PPE::prove] under a binding key: the tapes which give one proof form a line. *)
Theorem C98_ppe : forall (E : pairing) (R R' : rng E) (sch sch' : sched) (q : PPE E) (X : seq (G1 E)) (Y : seq (G2 E)) (cx : Commit1 E) (cy : Commit2 E) (crs : CRS E) a1 a2 t1 t2 (s s' : rst R) (z z' : rst R') f g,
  valid_sched sch -> valid_sched sch' -> binding_crs_with crs a1 a2 t1 t2 -> proper_crs crs ->
  ppe_prove sch q X Y cx cy crs s = Ok (f, s') -> ppe_prove sch' q X Y cx cy crs z = Ok (g, z') ->
  ((pi g, theta g) = (pi f, theta f) <-> exists k, [/\ drawn z 0 = drawn s 0 + t1 * t2 * k, drawn z 1 = drawn s 1 - t2 * k, drawn z 2 = drawn s 2 - t1 * k & drawn z 3 = drawn s 3 + k]).
Proof. exact: @k_C98_ppe. Qed.
Print Assumptions C98_ppe.

(** A second tape on the line of the first, and one off it. *)
Example C98_ppe_case : [&& fib_ppe [:: n7 1; n7 2; n7 3; n7 4] [:: n7 21; n7 4; n7 6; n7 5] & ~~ fib_ppe [:: n7 1; n7 2; n7 3; n7 4] [:: n7 2; n7 2; n7 3; n7 4]].
Proof. by vm_compute. Qed.

(** Over a finite field: the number of tapes which give a proof that [prove] returned. *)
Theorem C98_ppe_counts : forall (F : finFieldType) (A B C : lmodType F) (e : A -> B -> C), let E := Pairing e in
  forall (R : rng E) (sch : sched) (q : PPE E) (X : seq (G1 E)) (Y : seq (G2 E)) (cx : Commit1 E) (cy : Commit2 E) (crs : CRS E) (s s' : rst R) f,
  valid_sched sch -> binding_crs crs -> proper_crs crs -> ppe_prove sch q X Y cx cy crs s = Ok (f, s') ->
  tapes 4 (fun g => (pi g, theta g)) (fun R s => ppe_prove (R := R) sch q X Y cx cy crs s)
    (fun r => if r is Ok v then v == (pi f, theta f) else false) = #|F|.
Proof. exact: @k_C98_ppe_counts. Qed.
Print Assumptions C98_ppe_counts.

Example C98_ppe_counts_case := fun s s' f => @C98_ppe_counts [finFieldType of F7] F7o F7o F7o (fun x y : F7 => x * y) ctr fwd ppe0 xs0 ys0 fib_cx_ppe fib_cy_ppe crs0 s s' f fwd_valid crs0_bind crs0_prop.
Example C98_ppe_returns_case : fib_ok_ppe. Proof. by vm_compute. Qed.

(** [MSMEG1::prove]: different tapes give different proofs, under any key with [v1] not zero. *)
Theorem C98_ms1 : forall (E : pairing) (R R' : rng E) (sch sch' : sched) (q : MSMEG1 E) (X : seq (G1 E)) (Y : seq (Fr E)) (cx : Commit1 E) (cy : Commit2 E) (crs : CRS E) (s s' : rst R) (z z' : rst R') f g,
  valid_sched sch -> valid_sched sch' -> nth 0 (crs_v crs) 0 != 0 ->
  ms1_prove sch q X Y cx cy crs s = Ok (f, s') -> ms1_prove sch' q X Y cx cy crs z = Ok (g, z') ->
  ((pi g, theta g) = (pi f, theta f) <-> drawn z 0 = drawn s 0 /\ drawn z 1 = drawn s 1).
Proof. exact: @k_C98_ms1. Qed.
Print Assumptions C98_ms1.

(** Two tapes and their proofs. *)
Example C98_ms1_case : fib_ms1 [:: n7 1; n7 2] [:: n7 1; n7 2] && ~~ fib_ms1 [:: n7 1; n7 2] [:: n7 1; n7 3].
Proof. by vm_compute. Qed.

(** Over a finite field: the number of tapes which give a proof that [prove] returned. *)
Theorem C98_ms1_counts : forall (F : finFieldType) (A B C : lmodType F) (e : A -> B -> C), let E := Pairing e in
  forall (R : rng E) (sch : sched) (q : MSMEG1 E) (X : seq (G1 E)) (Y : seq (Fr E)) (cx : Commit1 E) (cy : Commit2 E) (crs : CRS E) (s s' : rst R) f,
  valid_sched sch -> nth 0 (crs_v crs) 0 != 0 -> ms1_prove sch q X Y cx cy crs s = Ok (f, s') ->
  tapes 2 (fun g => (pi g, theta g)) (fun R s => ms1_prove (R := R) sch q X Y cx cy crs s)
    (fun r => if r is Ok v then v == (pi f, theta f) else false) = 1%N.
Proof. exact: @k_C98_ms1_counts. Qed.
Print Assumptions C98_ms1_counts.

Example C98_ms1_counts_case := fun s s' f => @C98_ms1_counts [finFieldType of F7] F7o F7o F7o (fun x y : F7 => x * y) ctr fwd ms10 xs0 ys0 fib_cx_ms1 fib_cy_ms1 crs0 s s' f fwd_valid isT.
Example C98_ms1_returns_case : fib_ok_ms1. Proof. by vm_compute. Qed.

(** [MSMEG2::prove]: different tapes give different proofs, under any key with [u1] not zero. *)
Theorem C98_ms2 : forall (E : pairing) (R R' : rng E) (sch sch' : sched) (q : MSMEG2 E) (X : seq (Fr E)) (Y : seq (G2 E)) (cx : Commit1 E) (cy : Commit2 E) (crs : CRS E) (s s' : rst R) (z z' : rst R') f g,
  valid_sched sch -> valid_sched sch' -> nth 0 (crs_u crs) 0 != 0 ->
  ms2_prove sch q X Y cx cy crs s = Ok (f, s') -> ms2_prove sch' q X Y cx cy crs z = Ok (g, z') ->
  ((pi g, theta g) = (pi f, theta f) <-> drawn z 0 = drawn s 0 /\ drawn z 1 = drawn s 1).
Proof. exact: @k_C98_ms2. Qed.
Print Assumptions C98_ms2.

(** Two tapes and their proofs. *)
Example C98_ms2_case : fib_ms2 [:: n7 1; n7 2] [:: n7 1; n7 2] && ~~ fib_ms2 [:: n7 1; n7 2] [:: n7 1; n7 3].
Proof. by vm_compute. Qed.

(** Over a finite field: the number of tapes which give a proof that [prove] returned. *)
Theorem C98_ms2_counts : forall (F : finFieldType) (A B C : lmodType F) (e : A -> B -> C), let E := Pairing e in
  forall (R : rng E) (sch : sched) (q : MSMEG2 E) (X : seq (Fr E)) (Y : seq (G2 E)) (cx : Commit1 E) (cy : Commit2 E) (crs : CRS E) (s s' : rst R) f,
  valid_sched sch -> nth 0 (crs_u crs) 0 != 0 -> ms2_prove sch q X Y cx cy crs s = Ok (f, s') ->
  tapes 2 (fun g => (pi g, theta g)) (fun R s => ms2_prove (R := R) sch q X Y cx cy crs s)
    (fun r => if r is Ok v then v == (pi f, theta f) else false) = 1%N.
Proof. exact: @k_C98_ms2_counts. Qed.
Print Assumptions C98_ms2_counts.

Example C98_ms2_counts_case := fun s s' f => @C98_ms2_counts [finFieldType of F7] F7o F7o F7o (fun x y : F7 => x * y) ctr fwd ms20 xs0 ys0 fib_cx_ms2 fib_cy_ms2 crs0 s s' f fwd_valid isT.
Example C98_ms2_returns_case : fib_ok_ms2. Proof. by vm_compute. Qed.

(** [QuadEqu::prove]: different tapes give different proofs, under any key with [u1] or [v1] not zero. *)
Theorem C98_quad : forall (E : pairing) (R R' : rng E) (sch sch' : sched) (q : QuadEqu E) (X : seq (Fr E)) (Y : seq (Fr E)) (cx : Commit1 E) (cy : Commit2 E) (crs : CRS E) (s s' : rst R) (z z' : rst R') f g,
  valid_sched sch -> valid_sched sch' -> nth 0 (crs_u crs) 0 != 0 \/ nth 0 (crs_v crs) 0 != 0 ->
  quad_prove sch q X Y cx cy crs s = Ok (f, s') -> quad_prove sch' q X Y cx cy crs z = Ok (g, z') ->
  ((pi g, theta g) = (pi f, theta f) <-> drawn z 0 = drawn s 0).
Proof. exact: @k_C98_quad. Qed.
Print Assumptions C98_quad.

(** Two tapes and their proofs. *)
Example C98_quad_case : fib_quad [:: n7 1] [:: n7 1] && ~~ fib_quad [:: n7 1] [:: n7 2].
Proof. by vm_compute. Qed.

(** Over a finite field: the number of tapes which give a proof that [prove] returned. *)
Theorem C98_quad_counts : forall (F : finFieldType) (A B C : lmodType F) (e : A -> B -> C), let E := Pairing e in
  forall (R : rng E) (sch : sched) (q : QuadEqu E) (X : seq (Fr E)) (Y : seq (Fr E)) (cx : Commit1 E) (cy : Commit2 E) (crs : CRS E) (s s' : rst R) f,
  valid_sched sch -> nth 0 (crs_u crs) 0 != 0 \/ nth 0 (crs_v crs) 0 != 0 -> quad_prove sch q X Y cx cy crs s = Ok (f, s') ->
  tapes 1 (fun g => (pi g, theta g)) (fun R s => quad_prove (R := R) sch q X Y cx cy crs s)
    (fun r => if r is Ok v then v == (pi f, theta f) else false) = 1%N.
Proof. exact: @k_C98_quad_counts. Qed.
Print Assumptions C98_quad_counts.

Example C98_quad_counts_case := fun s s' f => @C98_quad_counts [finFieldType of F7] F7o F7o F7o (fun x y : F7 => x * y) ctr fwd quad0 xs0 ys0 fib_cx_quad fib_cy_quad crs0 s s' f fwd_valid (or_introl isT).
Example C98_quad_returns_case : fib_ok_quad. Proof. by vm_compute. Qed.

