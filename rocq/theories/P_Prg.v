(** Property C89: a generator that is not truly random. *)
From mathcomp Require Import all_ssreflect all_algebra.
From Verif Require Import Base BaseLemmas Group DataStructures Generator Commit Statement Prove Verify Spec SpecVerify SpecHide SpecSxdh SpecMulti SpecAdaptive SpecPrg.
From Verif Require Import Sxdh PrgLemmas PrgProps Concrete Concrete2 Concrete4 Concrete5 Concrete6 Concrete16 Concrete19.
From Verif Require Import Concrete27.
Set Implicit Arguments.
Unset Strict Implicit.
Unset Printing Implicit Defensive.
Import Order.Theory GRing.Theory Num.Theory.
Local Open Scope ring_scope.

(** C89: what the functions compute, a panic included, depends on the generator only through the next scalars it gives... *)
Theorem C89_commit_G1 : forall (E : pairing) (x : G1 E) (crs : CRS E),
  determined (2) id (fun R s => commit_G1 (R := R) x crs s).
Proof. exact: @k_C89_commit_G1. Qed.
Print Assumptions C89_commit_G1.

Theorem C89_commit_G2 : forall (E : pairing) (x : G2 E) (crs : CRS E),
  determined (2) id (fun R s => commit_G2 (R := R) x crs s).
Proof. exact: @k_C89_commit_G2. Qed.
Print Assumptions C89_commit_G2.

Theorem C89_commit_scalar_to_B1 : forall (E : pairing) (x : Fr E) (crs : CRS E),
  determined (1) id (fun R s => commit_scalar_to_B1 (R := R) x crs s).
Proof. exact: @k_C89_commit_scalar_to_B1. Qed.
Print Assumptions C89_commit_scalar_to_B1.

Theorem C89_commit_scalar_to_B2 : forall (E : pairing) (x : Fr E) (crs : CRS E),
  determined (1) id (fun R s => commit_scalar_to_B2 (R := R) x crs s).
Proof. exact: @k_C89_commit_scalar_to_B2. Qed.
Print Assumptions C89_commit_scalar_to_B2.

Theorem C89_batch_commit_G1 : forall (E : pairing) (x : seq (G1 E)) (crs : CRS E),
  determined (2 * size x) id (fun R s => batch_commit_G1 (R := R) x crs s).
Proof. exact: @k_C89_batch_commit_G1. Qed.
Print Assumptions C89_batch_commit_G1.

(** The counter at [3] and a tape that starts with 3, 4, 5, 6 give the same commitments, though they are different generators. *)
Example C89_G1_case : same_draws (R := ctr) (R' := @tape_rng toy) 4 3%N [:: n7 3; n7 4; n7 5; n7 6; n7 0] /\
  seen id (batch_commit_G1 (E := toy) (R := ctr) xs0 crs0 3%N) = seen id (batch_commit_G1 (E := toy) (R := tape_rng) xs0 crs0 [:: n7 3; n7 4; n7 5; n7 6; n7 0]).
Proof.
have h : same_draws (R := ctr) (R' := @tape_rng toy) 4 3%N [:: n7 3; n7 4; n7 5; n7 6; n7 0] by case=> [|[|[|[|]]]].
by split=> //; exact: (C89_batch_commit_G1 (E := toy) h).
Qed.

Theorem C89_batch_commit_G2 : forall (E : pairing) (x : seq (G2 E)) (crs : CRS E),
  determined (2 * size x) id (fun R s => batch_commit_G2 (R := R) x crs s).
Proof. exact: @k_C89_batch_commit_G2. Qed.
Print Assumptions C89_batch_commit_G2.

Theorem C89_batch_commit_scalar_to_B1 : forall (E : pairing) (x : seq (Fr E)) (crs : CRS E),
  determined (size x) id (fun R s => batch_commit_scalar_to_B1 (R := R) x crs s).
Proof. exact: @k_C89_batch_commit_scalar_to_B1. Qed.
Print Assumptions C89_batch_commit_scalar_to_B1.

Theorem C89_batch_commit_scalar_to_B2 : forall (E : pairing) (x : seq (Fr E)) (crs : CRS E),
  determined (size x) id (fun R s => batch_commit_scalar_to_B2 (R := R) x crs s).
Proof. exact: @k_C89_batch_commit_scalar_to_B2. Qed.
Print Assumptions C89_batch_commit_scalar_to_B2.

Theorem C89_ppe_prove : forall (E : pairing) (sch : sched), valid_sched sch ->
  forall (q : PPE E) (X : seq (G1 E)) (Y : seq (G2 E)) (cx : Commit1 E) (cy : Commit2 E) (crs : CRS E),
  determined 4 id (fun R s => ppe_prove (R := R) sch q X Y cx cy crs s).
Proof. exact: @k_C89_ppe_prove. Qed.
Print Assumptions C89_ppe_prove.

(** Panics too: the equation below has a matrix with two rows, and one x-variable is missing. *)
Example C89_ppe_prove_case : forall cx cy, seen id (ppe_commit_and_prove (E := toy) (R := ctr) fwd ppe0 xs0 ys0 crs0 3%N) = seen id (ppe_commit_and_prove (E := toy) (R := ctr) fwd ppe0 xs0 ys0 crs0 10%N)
  /\ seen id (ppe_prove (E := toy) (R := ctr) fwd ppe0 [:: n7 3] ys0 cx cy crs0 3%N) = seen id (ppe_prove (E := toy) (R := ctr) fwd ppe0 [:: n7 3] ys0 cx cy crs0 10%N).
Proof.
have h n : same_draws (R := ctr) (R' := ctr) n 3%N 10%N.
  move=> i _; have dr k : drawn (R := ctr) k i = n7 (i + k) by rewrite ctr_drawn.
  by rewrite !dr !natrD (_ : n7 10 = n7 3) //; apply/eqP.
move=> cx cy; split; last exact: (C89_ppe_prove (E := toy) fwd_valid ppe0 [:: n7 3] ys0 cx cy crs0 (h 4%N)).
exact: (@k_C89_ppe_cap toy fwd fwd_valid ppe0 xs0 ys0 crs0 ctr ctr _ _ (h _)).
Qed.

Theorem C89_ppe_cap : forall (E : pairing) (sch : sched), valid_sched sch ->
  forall (q : PPE E) (X : seq (G1 E)) (Y : seq (G2 E)) (crs : CRS E),
  determined (2 * size X + (2 * size Y + 4)) id (fun R s => ppe_commit_and_prove (R := R) sch q X Y crs s).
Proof. exact: @k_C89_ppe_cap. Qed.
Print Assumptions C89_ppe_cap.

Example C89_ppe_cap_case := @C89_ppe_cap toy fwd fwd_valid ppe0 xs0 ys0 crs0.

Theorem C89_ms1_prove : forall (E : pairing) (sch : sched), valid_sched sch ->
  forall (q : MSMEG1 E) (X : seq (G1 E)) (Y : seq (Fr E)) (cx : Commit1 E) (cy : Commit2 E) (crs : CRS E),
  determined 2 id (fun R s => ms1_prove (R := R) sch q X Y cx cy crs s).
Proof. exact: @k_C89_ms1_prove. Qed.
Print Assumptions C89_ms1_prove.

Example C89_ms1_prove_case := @C89_ms1_prove toy fwd fwd_valid ms10 xs0 ys0 (xcoms ms1_p0) (ycoms ms1_p0) crs0.

Theorem C89_ms1_cap : forall (E : pairing) (sch : sched), valid_sched sch ->
  forall (q : MSMEG1 E) (X : seq (G1 E)) (Y : seq (Fr E)) (crs : CRS E),
  determined (2 * size X + (size Y + 2)) id (fun R s => ms1_commit_and_prove (R := R) sch q X Y crs s).
Proof. exact: @k_C89_ms1_cap. Qed.
Print Assumptions C89_ms1_cap.

Example C89_ms1_cap_case := @C89_ms1_cap toy fwd fwd_valid ms10 xs0 ys0 crs0.

Theorem C89_ms2_prove : forall (E : pairing) (sch : sched), valid_sched sch ->
  forall (q : MSMEG2 E) (X : seq (Fr E)) (Y : seq (G2 E)) (cx : Commit1 E) (cy : Commit2 E) (crs : CRS E),
  determined 2 id (fun R s => ms2_prove (R := R) sch q X Y cx cy crs s).
Proof. exact: @k_C89_ms2_prove. Qed.
Print Assumptions C89_ms2_prove.

Example C89_ms2_prove_case := @C89_ms2_prove toy fwd fwd_valid ms20 xs0 ys0 (xcoms ms2_p0) (ycoms ms2_p0) crs0.

Theorem C89_ms2_cap : forall (E : pairing) (sch : sched), valid_sched sch ->
  forall (q : MSMEG2 E) (X : seq (Fr E)) (Y : seq (G2 E)) (crs : CRS E),
  determined (size X + (2 * size Y + 2)) id (fun R s => ms2_commit_and_prove (R := R) sch q X Y crs s).
Proof. exact: @k_C89_ms2_cap. Qed.
Print Assumptions C89_ms2_cap.

Example C89_ms2_cap_case := @C89_ms2_cap toy fwd fwd_valid ms20 xs0 ys0 crs0.

Theorem C89_quad_prove : forall (E : pairing) (sch : sched), valid_sched sch ->
  forall (q : QuadEqu E) (X : seq (Fr E)) (Y : seq (Fr E)) (cx : Commit1 E) (cy : Commit2 E) (crs : CRS E),
  determined 1 id (fun R s => quad_prove (R := R) sch q X Y cx cy crs s).
Proof. exact: @k_C89_quad_prove. Qed.
Print Assumptions C89_quad_prove.

Example C89_quad_prove_case := @C89_quad_prove toy fwd fwd_valid quad0 xs0 ys0 (xcoms quad_p0) (ycoms quad_p0) crs0.

Theorem C89_quad_cap : forall (E : pairing) (sch : sched), valid_sched sch ->
  forall (q : QuadEqu E) (X : seq (Fr E)) (Y : seq (Fr E)) (crs : CRS E),
  determined (size X + (size Y + 1)) id (fun R s => quad_commit_and_prove (R := R) sch q X Y crs s).
Proof. exact: @k_C89_quad_cap. Qed.
Print Assumptions C89_quad_cap.

Example C89_quad_cap_case := @C89_quad_cap toy fwd fwd_valid quad0 xs0 ys0 crs0.

Theorem C89_system : forall (E : pairing) (sch : sched), valid_sched sch ->
  forall (qs : seq (eqn E)) (v : assign E) (crs : CRS E),
  determined (system_draws qs v) id (fun R s => prove_system (R := R) sch qs v crs s).
Proof. exact: @k_C89_system. Qed.
Print Assumptions C89_system.

Example C89_system_case := @C89_system toy fwd fwd_valid sys0 v0 crs0.

(** ... also when they are made one after the other, each about an equation chosen after seeing the earlier ones. *)
Theorem C89_session : forall (E : pairing) (sch : sched) (k M N : nat) (qs : seq answer -> seq (eqn E)) (v : seq answer -> assign E) (crs : CRS E),
  valid_sched sch -> (k * M <= N)%N -> (forall h, (system_draws (qs h) (v h) <= M)%N) -> determined N id (prover sch k qs v crs).
Proof. exact: @k_C89_session. Qed.
Print Assumptions C89_session.

Example C89_session_case : forall crs, determined (E := toy) 44 id (prover fwd 2 ask reply crs).
Proof. by move=> crs; exact: (@C89_session toy fwd 2 22 44 ask reply crs fwd_valid isT ask_small). Qed.

(** The game with the generator and the game with uniform choices of SpecSxdh.v differ by the advantage of a test of the generator, which runs the game on what it is given. *)
Theorem C89_game : forall (F : finFieldType) (A B C : lmodType F) (e : A -> B -> C), let E := Pairing e in
  forall (R : rng E) (K O1 O2 W : finType) (seed : K -> rst R) (s1 : O1 -> A) (s2 : O2 -> B) (T V : Type)
  (D : W -> CRS E -> pred (res V)) (view : T -> V) (N : nat) (f : W -> CRS E -> forall R : rng E, rst R -> res (T * rst R)),
  (forall w crs, determined N view (f w crs)) ->
  `|seeded seed D view f - game s1 s2 real_crs (proof_test (N := N) D view f)| = prg_adv seed s1 s2 (prg_test D view f (N := N)).
Proof. exact: @k_C89_game. Qed.
Print Assumptions C89_game.

(** The generator counts from 0 or from 3. *)
Example C89_game_case : forall D : bool -> CRS toy -> pred _, let s := fun b : bool => (if b then n7 3 else n7 2) : F7o in
  let f := fun (w : bool) crs R s => ms1_commit_and_prove (E := toy) (R := R) fwd ms10 (if w then xs0 else xs1) (if w then ys0 else ys1) crs s in
  `|seeded (F := F7f) (e := toy_e) (R := ctr) start D public f - game (F := F7f) (e := toy_e) s s real_crs (proof_test (N := 7) D public f)|
  = prg_adv (F := F7f) (e := toy_e) (R := ctr) start s s (prg_test D public f (N := 7)).
Proof.
move=> D s f; apply: (@C89_game F7f F7o F7o F7o toy_e ctr _ _ _ _ start s s _ _ D public 7 f) => w crs.
case: w; apply: determined_view; [exact (@C89_ms1_cap toy fwd fwd_valid ms10 xs0 ys0 crs)|exact (@C89_ms1_cap toy fwd fwd_valid ms10 xs1 ys1 crs)].
Qed.

(** A generator that only draws zeros gives commitments away: the two games differ by 1. *)
Example C89_leak_case : let D := fun (_ : unit) (crs : CRS toy) (r : res (Commit1 toy)) => if r is Ok c then (nth 0 (coms c) 0).2 == (n7 3 : F7o) else false in
  let f := fun x (_ : unit) crs R s => commit_G1 (E := toy) (R := R) x crs s in
  seeded (F := F7f) (e := toy_e) (R := zeros) (fun x : unit => x) D id (f (n7 3)) - seeded (F := F7f) (e := toy_e) (R := zeros) (fun x : unit => x) D id (f (n7 4)) = 1.
Proof.
move=> D f; rewrite /seeded [X in X - _]Pr_all; last by case.
  by rewrite Pr_none ?subr0 // => -[].
by rewrite card_prod card_unit.
Qed.

(** A test of the reference string alone uses the points and four scalars. *)
Theorem C89_crs : forall (F : finFieldType) (A B C : lmodType F) (e : A -> B -> C), let E := Pairing e in
  forall (R : rng E) (K O1 O2 W : finType) (seed : K -> rst R) (s1 : O1 -> A) (s2 : O2 -> B) (D : W -> pred (CRS E)),
  `|Pr (fun x : W * K => D x.1 (generate_crs (seed x.2)).1) - game s1 s2 real_crs D|
  = prg_adv seed s1 s2 (fun w (o : A * B * 4.-tuple F) => D w (real_crs o.1.1 o.1.2 (tnth o.2 (inord 0)) (tnth o.2 (inord 1)) (tnth o.2 (inord 2)) (tnth o.2 (inord 3)))).
Proof. exact: @k_C89_crs. Qed.
Print Assumptions C89_crs.

(** Witnesses of pairing product equations: a test that sees the reference string and a proof, both made with the generator, gives tests of the generator and of DDH. *)
Theorem C89_ppe_wi : forall (F : finFieldType) (A B C : lmodType F) (e : A -> B -> C), let E := Pairing e in
  forall (R : rng E) (K O1 O2 W : finType) (seed : K -> rst R) (s1 : O1 -> A) (s2 : O2 -> B) (D : W -> CRS E -> pred _)
  (sch sch' : sched) (m n : nat) (q : W -> CRS E -> PPE E) (X X' : W -> CRS E -> seq A) (Y Y' : W -> CRS E -> seq B),
  bilinear E -> nondegenerate E -> cyclic (G1 E) -> cyclic (G2 E) -> valid_sched sch -> valid_sched sch' -> (0 < m)%N -> (0 < n)%N ->
  (forall w crs, [/\ size (X w crs) = m, size (Y w crs) = n, size (X' w crs) = m & size (Y' w crs) = n]) ->
  (forall w crs, proper_crs crs -> [/\ ppe_wf (q w crs) m n, ppe_holds (q w crs) (X w crs) (Y w crs) & ppe_holds (q w crs) (X' w crs) (Y' w crs)]) ->
  let N := (2 * m + (2 * n + 4))%N in
  let f1 := (fun w crs R s => ppe_commit_and_prove (R := R) sch (q w crs) (X w crs) (Y w crs) crs s) in
  let f2 := (fun w crs R s => ppe_commit_and_prove (R := R) sch' (q w crs) (X' w crs) (Y' w crs) crs s) in
  let B1 := proof_test (N := N) D public f1 in let B2 := proof_test (N := N) D public f2 in
  is_true (`|seeded seed D public f1 - seeded seed D public f2| <=
  prg_adv seed s1 s2 (prg_test D public f1 (N := N)) + prg_adv seed s1 s2 (prg_test D public f2 (N := N))
  + ((ddh_adv s1 (ddh1 s2 B1) + ddh_adv s1 (ddh2 s2 B1) + ddh_adv s2 (ddh3 s1 B1) + ddh_adv s2 (ddh4 s1 B1))
  + (ddh_adv s1 (ddh1 s2 B2) + ddh_adv s1 (ddh2 s2 B2) + ddh_adv s2 (ddh3 s1 B2) + ddh_adv s2 (ddh4 s1 B2)) + bad_point s1 s2)).
Proof. exact: @k_C89_ppe_wi. Qed.
Print Assumptions C89_ppe_wi.

Example C89_ppe_wi_case : forall D : bool -> CRS toy -> pred _, let s := fun b : bool => (if b then n7 3 else n7 2) : F7o in
  let f1 := fun w crs R s => ppe_commit_and_prove (E := toy) (R := R) fwd ppe0 (if w then xs0 else xs1) (if w then ys0 else ys1) crs s in
  let f2 := fun w crs R s => ppe_commit_and_prove (E := toy) (R := R) bwd ppe0 xs1 ys1 crs s in
  let B1 := proof_test (F := F7f) (e := toy_e) (N := (2 * 2 + (2 * 1 + 4))%N) D public f1 in let B2 := proof_test (F := F7f) (e := toy_e) (N := (2 * 2 + (2 * 1 + 4))%N) D public f2 in
  is_true (`|seeded (F := F7f) (e := toy_e) (R := ctr) start D public f1 - seeded (F := F7f) (e := toy_e) (R := ctr) start D public f2| <=
  prg_adv (F := F7f) (e := toy_e) (R := ctr) start s s (prg_test D public f1 (N := (2 * 2 + (2 * 1 + 4))%N)) + prg_adv (F := F7f) (e := toy_e) (R := ctr) start s s (prg_test D public f2 (N := (2 * 2 + (2 * 1 + 4))%N))
  + ((ddh_adv s (ddh1 s B1) + ddh_adv s (ddh2 s B1) + ddh_adv s (ddh3 s B1) + ddh_adv s (ddh4 s B1))
  + (ddh_adv s (ddh1 s B2) + ddh_adv s (ddh2 s B2) + ddh_adv s (ddh3 s B2) + ddh_adv s (ddh4 s B2)) + bad_point (F := F7f) s s)).
Proof.
move=> D s; apply: (C89_ppe_wi (F := F7f) (e := toy_e) (R := ctr) (X := fun w _ => if w then xs0 else xs1) (Y := fun w _ => if w then ys0 else ys1) (X' := fun _ _ => xs1) (Y' := fun _ _ => ys1) (q := fun _ _ => ppe0) (m := 2) (n := 1) start s s D toy_bilinear toy_nondegenerate toy_cyclic toy_cyclic fwd_valid bwd_valid isT isT).
- by case.
- by case=> _ _; split; by [exact: ppe0_wf|exact: ppe0_holds|exact: ppe0_holds1].
Qed.

(** Witnesses of multi-scalar multiplications in G1: a test that sees the reference string and a proof, both made with the generator, gives tests of the generator and of DDH. *)
Theorem C89_ms1_wi : forall (F : finFieldType) (A B C : lmodType F) (e : A -> B -> C), let E := Pairing e in
  forall (R : rng E) (K O1 O2 W : finType) (seed : K -> rst R) (s1 : O1 -> A) (s2 : O2 -> B) (D : W -> CRS E -> pred _)
  (sch sch' : sched) (m n : nat) (q : W -> CRS E -> MSMEG1 E) (X X' : W -> CRS E -> seq A) (Y Y' : W -> CRS E -> seq F),
  bilinear E -> nondegenerate E -> cyclic (G1 E) -> cyclic (G2 E) -> valid_sched sch -> valid_sched sch' -> (0 < m)%N -> (0 < n)%N ->
  (forall w crs, [/\ size (X w crs) = m, size (Y w crs) = n, size (X' w crs) = m & size (Y' w crs) = n]) ->
  (forall w crs, proper_crs crs -> [/\ ms1_wf (q w crs) m n, ms1_holds (q w crs) (X w crs) (Y w crs) & ms1_holds (q w crs) (X' w crs) (Y' w crs)]) ->
  let N := (2 * m + (n + 2))%N in
  let f1 := (fun w crs R s => ms1_commit_and_prove (R := R) sch (q w crs) (X w crs) (Y w crs) crs s) in
  let f2 := (fun w crs R s => ms1_commit_and_prove (R := R) sch' (q w crs) (X' w crs) (Y' w crs) crs s) in
  let B1 := proof_test (N := N) D public f1 in let B2 := proof_test (N := N) D public f2 in
  is_true (`|seeded seed D public f1 - seeded seed D public f2| <=
  prg_adv seed s1 s2 (prg_test D public f1 (N := N)) + prg_adv seed s1 s2 (prg_test D public f2 (N := N))
  + ((ddh_adv s1 (ddh1 s2 B1) + ddh_adv s1 (ddh2 s2 B1) + ddh_adv s2 (ddh3 s1 B1) + ddh_adv s2 (ddh4 s1 B1))
  + (ddh_adv s1 (ddh1 s2 B2) + ddh_adv s1 (ddh2 s2 B2) + ddh_adv s2 (ddh3 s1 B2) + ddh_adv s2 (ddh4 s1 B2)) + bad_point s1 s2)).
Proof. exact: @k_C89_ms1_wi. Qed.
Print Assumptions C89_ms1_wi.

Example C89_ms1_wi_case : forall D : bool -> CRS toy -> pred _, let s := fun b : bool => (if b then n7 3 else n7 2) : F7o in
  let f1 := fun w crs R s => ms1_commit_and_prove (E := toy) (R := R) fwd ms10 (if w then xs0 else xs1) (if w then ys0 else ys1) crs s in
  let f2 := fun w crs R s => ms1_commit_and_prove (E := toy) (R := R) bwd ms10 xs1 ys1 crs s in
  let B1 := proof_test (F := F7f) (e := toy_e) (N := (2 * 2 + (1 + 2))%N) D public f1 in let B2 := proof_test (F := F7f) (e := toy_e) (N := (2 * 2 + (1 + 2))%N) D public f2 in
  is_true (`|seeded (F := F7f) (e := toy_e) (R := ctr) start D public f1 - seeded (F := F7f) (e := toy_e) (R := ctr) start D public f2| <=
  prg_adv (F := F7f) (e := toy_e) (R := ctr) start s s (prg_test D public f1 (N := (2 * 2 + (1 + 2))%N)) + prg_adv (F := F7f) (e := toy_e) (R := ctr) start s s (prg_test D public f2 (N := (2 * 2 + (1 + 2))%N))
  + ((ddh_adv s (ddh1 s B1) + ddh_adv s (ddh2 s B1) + ddh_adv s (ddh3 s B1) + ddh_adv s (ddh4 s B1))
  + (ddh_adv s (ddh1 s B2) + ddh_adv s (ddh2 s B2) + ddh_adv s (ddh3 s B2) + ddh_adv s (ddh4 s B2)) + bad_point (F := F7f) s s)).
Proof.
move=> D s; apply: (C89_ms1_wi (F := F7f) (e := toy_e) (R := ctr) (X := fun w _ => if w then xs0 else xs1) (Y := fun w _ => if w then ys0 else ys1) (X' := fun _ _ => xs1) (Y' := fun _ _ => ys1) (q := fun _ _ => ms10) (m := 2) (n := 1) start s s D toy_bilinear toy_nondegenerate toy_cyclic toy_cyclic fwd_valid bwd_valid isT isT).
- by case.
- by case=> _ _; split; by [exact: ms10_wf|exact: ms10_holds|exact: ms10_holds1].
Qed.

(** Witnesses of multi-scalar multiplications in G2: a test that sees the reference string and a proof, both made with the generator, gives tests of the generator and of DDH. *)
Theorem C89_ms2_wi : forall (F : finFieldType) (A B C : lmodType F) (e : A -> B -> C), let E := Pairing e in
  forall (R : rng E) (K O1 O2 W : finType) (seed : K -> rst R) (s1 : O1 -> A) (s2 : O2 -> B) (D : W -> CRS E -> pred _)
  (sch sch' : sched) (m n : nat) (q : W -> CRS E -> MSMEG2 E) (X X' : W -> CRS E -> seq F) (Y Y' : W -> CRS E -> seq B),
  bilinear E -> nondegenerate E -> cyclic (G1 E) -> cyclic (G2 E) -> valid_sched sch -> valid_sched sch' -> (0 < m)%N -> (0 < n)%N ->
  (forall w crs, [/\ size (X w crs) = m, size (Y w crs) = n, size (X' w crs) = m & size (Y' w crs) = n]) ->
  (forall w crs, proper_crs crs -> [/\ ms2_wf (q w crs) m n, ms2_holds (q w crs) (X w crs) (Y w crs) & ms2_holds (q w crs) (X' w crs) (Y' w crs)]) ->
  let N := (m + (2 * n + 2))%N in
  let f1 := (fun w crs R s => ms2_commit_and_prove (R := R) sch (q w crs) (X w crs) (Y w crs) crs s) in
  let f2 := (fun w crs R s => ms2_commit_and_prove (R := R) sch' (q w crs) (X' w crs) (Y' w crs) crs s) in
  let B1 := proof_test (N := N) D public f1 in let B2 := proof_test (N := N) D public f2 in
  is_true (`|seeded seed D public f1 - seeded seed D public f2| <=
  prg_adv seed s1 s2 (prg_test D public f1 (N := N)) + prg_adv seed s1 s2 (prg_test D public f2 (N := N))
  + ((ddh_adv s1 (ddh1 s2 B1) + ddh_adv s1 (ddh2 s2 B1) + ddh_adv s2 (ddh3 s1 B1) + ddh_adv s2 (ddh4 s1 B1))
  + (ddh_adv s1 (ddh1 s2 B2) + ddh_adv s1 (ddh2 s2 B2) + ddh_adv s2 (ddh3 s1 B2) + ddh_adv s2 (ddh4 s1 B2)) + bad_point s1 s2)).
Proof. exact: @k_C89_ms2_wi. Qed.
Print Assumptions C89_ms2_wi.

Example C89_ms2_wi_case : forall D : bool -> CRS toy -> pred _, let s := fun b : bool => (if b then n7 3 else n7 2) : F7o in
  let f1 := fun w crs R s => ms2_commit_and_prove (E := toy) (R := R) fwd ms20 (if w then xs0 else xs1) (if w then ys0 else ys1) crs s in
  let f2 := fun w crs R s => ms2_commit_and_prove (E := toy) (R := R) bwd ms20 xs1 ys1 crs s in
  let B1 := proof_test (F := F7f) (e := toy_e) (N := (2 + (2 * 1 + 2))%N) D public f1 in let B2 := proof_test (F := F7f) (e := toy_e) (N := (2 + (2 * 1 + 2))%N) D public f2 in
  is_true (`|seeded (F := F7f) (e := toy_e) (R := ctr) start D public f1 - seeded (F := F7f) (e := toy_e) (R := ctr) start D public f2| <=
  prg_adv (F := F7f) (e := toy_e) (R := ctr) start s s (prg_test D public f1 (N := (2 + (2 * 1 + 2))%N)) + prg_adv (F := F7f) (e := toy_e) (R := ctr) start s s (prg_test D public f2 (N := (2 + (2 * 1 + 2))%N))
  + ((ddh_adv s (ddh1 s B1) + ddh_adv s (ddh2 s B1) + ddh_adv s (ddh3 s B1) + ddh_adv s (ddh4 s B1))
  + (ddh_adv s (ddh1 s B2) + ddh_adv s (ddh2 s B2) + ddh_adv s (ddh3 s B2) + ddh_adv s (ddh4 s B2)) + bad_point (F := F7f) s s)).
Proof.
move=> D s; apply: (C89_ms2_wi (F := F7f) (e := toy_e) (R := ctr) (X := fun w _ => if w then xs0 else xs1) (Y := fun w _ => if w then ys0 else ys1) (X' := fun _ _ => xs1) (Y' := fun _ _ => ys1) (q := fun _ _ => ms20) (m := 2) (n := 1) start s s D toy_bilinear toy_nondegenerate toy_cyclic toy_cyclic fwd_valid bwd_valid isT isT).
- by case.
- by case=> _ _; split; by [exact: ms20_wf|exact: ms20_holds|exact: ms20_holds1].
Qed.

(** Witnesses of quadratic equations: a test that sees the reference string and a proof, both made with the generator, gives tests of the generator and of DDH. *)
Theorem C89_quad_wi : forall (F : finFieldType) (A B C : lmodType F) (e : A -> B -> C), let E := Pairing e in
  forall (R : rng E) (K O1 O2 W : finType) (seed : K -> rst R) (s1 : O1 -> A) (s2 : O2 -> B) (D : W -> CRS E -> pred _)
  (sch sch' : sched) (m n : nat) (q : W -> CRS E -> QuadEqu E) (X X' : W -> CRS E -> seq F) (Y Y' : W -> CRS E -> seq F),
  bilinear E -> nondegenerate E -> cyclic (G1 E) -> cyclic (G2 E) -> valid_sched sch -> valid_sched sch' -> (0 < m)%N -> (0 < n)%N ->
  (forall w crs, [/\ size (X w crs) = m, size (Y w crs) = n, size (X' w crs) = m & size (Y' w crs) = n]) ->
  (forall w crs, proper_crs crs -> [/\ quad_wf (q w crs) m n, quad_holds (q w crs) (X w crs) (Y w crs) & quad_holds (q w crs) (X' w crs) (Y' w crs)]) ->
  let N := (m + (n + 1))%N in
  let f1 := (fun w crs R s => quad_commit_and_prove (R := R) sch (q w crs) (X w crs) (Y w crs) crs s) in
  let f2 := (fun w crs R s => quad_commit_and_prove (R := R) sch' (q w crs) (X' w crs) (Y' w crs) crs s) in
  let B1 := proof_test (N := N) D public f1 in let B2 := proof_test (N := N) D public f2 in
  is_true (`|seeded seed D public f1 - seeded seed D public f2| <=
  prg_adv seed s1 s2 (prg_test D public f1 (N := N)) + prg_adv seed s1 s2 (prg_test D public f2 (N := N))
  + ((ddh_adv s1 (ddh1 s2 B1) + ddh_adv s1 (ddh2 s2 B1) + ddh_adv s2 (ddh3 s1 B1) + ddh_adv s2 (ddh4 s1 B1))
  + (ddh_adv s1 (ddh1 s2 B2) + ddh_adv s1 (ddh2 s2 B2) + ddh_adv s2 (ddh3 s1 B2) + ddh_adv s2 (ddh4 s1 B2)) + bad_point s1 s2)).
Proof. exact: @k_C89_quad_wi. Qed.
Print Assumptions C89_quad_wi.

Example C89_quad_wi_case : forall D : bool -> CRS toy -> pred _, let s := fun b : bool => (if b then n7 3 else n7 2) : F7o in
  let f1 := fun w crs R s => quad_commit_and_prove (E := toy) (R := R) fwd quad0 (if w then xs0 else xs1) (if w then ys0 else ys1) crs s in
  let f2 := fun w crs R s => quad_commit_and_prove (E := toy) (R := R) bwd quad0 xs1 ys1 crs s in
  let B1 := proof_test (F := F7f) (e := toy_e) (N := (2 + (1 + 1))%N) D public f1 in let B2 := proof_test (F := F7f) (e := toy_e) (N := (2 + (1 + 1))%N) D public f2 in
  is_true (`|seeded (F := F7f) (e := toy_e) (R := ctr) start D public f1 - seeded (F := F7f) (e := toy_e) (R := ctr) start D public f2| <=
  prg_adv (F := F7f) (e := toy_e) (R := ctr) start s s (prg_test D public f1 (N := (2 + (1 + 1))%N)) + prg_adv (F := F7f) (e := toy_e) (R := ctr) start s s (prg_test D public f2 (N := (2 + (1 + 1))%N))
  + ((ddh_adv s (ddh1 s B1) + ddh_adv s (ddh2 s B1) + ddh_adv s (ddh3 s B1) + ddh_adv s (ddh4 s B1))
  + (ddh_adv s (ddh1 s B2) + ddh_adv s (ddh2 s B2) + ddh_adv s (ddh3 s B2) + ddh_adv s (ddh4 s B2)) + bad_point (F := F7f) s s)).
Proof.
move=> D s; apply: (C89_quad_wi (F := F7f) (e := toy_e) (R := ctr) (X := fun w _ => if w then xs0 else xs1) (Y := fun w _ => if w then ys0 else ys1) (X' := fun _ _ => xs1) (Y' := fun _ _ => ys1) (q := fun _ _ => quad0) (m := 2) (n := 1) start s s D toy_bilinear toy_nondegenerate toy_cyclic toy_cyclic fwd_valid bwd_valid isT isT).
- by case.
- by case=> _ _; split; by [exact: quad0_wf|exact: quad0_holds|exact: quad0_holds1].
Qed.

(** Simulation of pairing product equations: the proof made with the generator against a simulated one made with true randomness. *)
Theorem C89_ppe_zk : forall (F : finFieldType) (A B C : lmodType F) (e : A -> B -> C), let E := Pairing e in
  forall (R : rng E) (K O1 O2 W : finType) (seed : K -> rst R) (s1 : O1 -> A) (s2 : O2 -> B) (D : W -> CRS E -> pred _)
  (sch sch' : sched) (m n : nat) (q : W -> CRS E -> PPE E) (X : W -> CRS E -> seq A) (Y : W -> CRS E -> seq B) (k l : W -> CRS E -> F) (P : W -> CRS E -> A) (Q : W -> CRS E -> B),
  bilinear E -> nondegenerate E -> cyclic (G1 E) -> cyclic (G2 E) -> valid_sched sch -> valid_sched sch' -> (0 < m)%N -> (0 < n)%N ->
  (forall w crs, size (X w crs) = m /\ size (Y w crs) = n) ->
  (forall w crs, proper_crs crs -> ppe_wf (q w crs) m n /\ ppe_holds (q w crs) (X w crs) (Y w crs)) ->
  (forall w crs, proper_crs crs -> ppe_target (q w crs) = e (k w crs *: g1_gen crs) (Q w crs) + e (P w crs) (l w crs *: g2_gen crs)) ->
  let N := (2 * m + (2 * n + 4))%N in
  let f1 := (fun w crs R s => ppe_commit_and_prove (R := R) sch (q w crs) (X w crs) (Y w crs) crs s) in
  let B1 := proof_test (N := N) D public f1 in
  is_true (`|seeded seed D public f1 -
    sim_game N D s1 s2 (fun t1 t2 w crs p => public (ppe_fix (E := E) t1 t2 (k w crs) (l w crs) (P w crs) (Q w crs) p))
      (fun w crs R s => ppe_commit_and_prove (R := R) sch' (q w crs) (nseq m 0) (nseq n 0) crs s)| <=
  prg_adv seed s1 s2 (prg_test D public f1 (N := N))
  + ((ddh_adv s1 (ddh1 s2 B1) + ddh_adv s1 (ddh2 s2 B1) + ddh_adv s2 (ddh3 s1 B1) + ddh_adv s2 (ddh4 s1 B1)) + bad_point s1 s2)).
Proof. exact: @k_C89_ppe_zk. Qed.
Print Assumptions C89_ppe_zk.

Example C89_ppe_zk_case : forall D : bool -> CRS toy -> pred _, let s := fun b : bool => (if b then n7 3 else n7 2) : F7o in
  let f1 := fun w crs R s => ppe_commit_and_prove (E := toy) (R := R) fwd ppe0 (if w then xs0 else xs1) (if w then ys0 else ys1) crs s in
  let B1 := proof_test (F := F7f) (e := toy_e) (N := (2 * 2 + (2 * 1 + 4))%N) D public f1 in
  is_true (`|seeded (F := F7f) (e := toy_e) (R := ctr) start D public f1 -
    sim_game (F := F7f) (e := toy_e) (2 * 2 + (2 * 1 + 4))%N D s s (fun t1 t2 w crs p => public (ppe_fix (E := toy) t1 t2 0 (ppe_target ppe0 / g2_gen crs : F7) (1 : F7o) (0 : F7o) p))
      (fun w crs R s => ppe_commit_and_prove (E := toy) (R := R) bwd ppe0 (nseq 2 0) (nseq 1 0) crs s)| <=
  prg_adv (F := F7f) (e := toy_e) (R := ctr) start s s (prg_test D public f1 (N := (2 * 2 + (2 * 1 + 4))%N))
  + ((ddh_adv s (ddh1 s B1) + ddh_adv s (ddh2 s B1) + ddh_adv s (ddh3 s B1) + ddh_adv s (ddh4 s B1)) + bad_point (F := F7f) s s)).
Proof.
move=> D s; apply: (C89_ppe_zk (F := F7f) (e := toy_e) (R := ctr) (X := fun w _ => if w then xs0 else xs1) (Y := fun w _ => if w then ys0 else ys1) (q := fun _ _ => ppe0) (m := 2) (n := 1) (k := fun _ _ => 0) (l := fun _ (crs : CRS toy) => ppe_target ppe0 / (g2_gen crs : F7) : F7) (P := fun _ _ => 1 : F7o) (Q := fun _ _ => 0 : F7o) start s s D toy_bilinear toy_nondegenerate toy_cyclic toy_cyclic fwd_valid bwd_valid isT isT).
- by case.
- by case=> _ _; split; by [exact: ppe0_wf|exact: ppe0_holds|exact: ppe0_holds1].
- by move=> _ crs [_ h2]; rewrite /toy_e /GRing.scale /= !mulr0 add0r mul1r divfK.
Qed.

(** Simulation of multi-scalar multiplications in G1: the proof made with the generator against a simulated one made with true randomness. *)
Theorem C89_ms1_zk : forall (F : finFieldType) (A B C : lmodType F) (e : A -> B -> C), let E := Pairing e in
  forall (R : rng E) (K O1 O2 W : finType) (seed : K -> rst R) (s1 : O1 -> A) (s2 : O2 -> B) (D : W -> CRS E -> pred _)
  (sch sch' : sched) (m n : nat) (q : W -> CRS E -> MSMEG1 E) (X : W -> CRS E -> seq A) (Y : W -> CRS E -> seq F),
  bilinear E -> nondegenerate E -> cyclic (G1 E) -> cyclic (G2 E) -> valid_sched sch -> valid_sched sch' -> (0 < m)%N -> (0 < n)%N ->
  (forall w crs, size (X w crs) = m /\ size (Y w crs) = n) ->
  (forall w crs, proper_crs crs -> ms1_wf (q w crs) m n /\ ms1_holds (q w crs) (X w crs) (Y w crs)) ->
  let N := (2 * m + (n + 2))%N in
  let f1 := (fun w crs R s => ms1_commit_and_prove (R := R) sch (q w crs) (X w crs) (Y w crs) crs s) in
  let B1 := proof_test (N := N) D public f1 in
  is_true (`|seeded seed D public f1 -
    sim_game N D s1 s2 (fun t1 t2 w crs p => public (ms1_fix (E := E) t1 t2 (q w crs) p))
      (fun w crs R s => ms1_commit_and_prove (R := R) sch' (q w crs) (nseq m 0) (nseq n 0) crs s)| <=
  prg_adv seed s1 s2 (prg_test D public f1 (N := N))
  + ((ddh_adv s1 (ddh1 s2 B1) + ddh_adv s1 (ddh2 s2 B1) + ddh_adv s2 (ddh3 s1 B1) + ddh_adv s2 (ddh4 s1 B1)) + bad_point s1 s2)).
Proof. exact: @k_C89_ms1_zk. Qed.
Print Assumptions C89_ms1_zk.

Example C89_ms1_zk_case : forall D : bool -> CRS toy -> pred _, let s := fun b : bool => (if b then n7 3 else n7 2) : F7o in
  let f1 := fun w crs R s => ms1_commit_and_prove (E := toy) (R := R) fwd ms10 (if w then xs0 else xs1) (if w then ys0 else ys1) crs s in
  let B1 := proof_test (F := F7f) (e := toy_e) (N := (2 * 2 + (1 + 2))%N) D public f1 in
  is_true (`|seeded (F := F7f) (e := toy_e) (R := ctr) start D public f1 -
    sim_game (F := F7f) (e := toy_e) (2 * 2 + (1 + 2))%N D s s (fun t1 t2 w crs p => public (ms1_fix (E := toy) t1 t2 ms10 p))
      (fun w crs R s => ms1_commit_and_prove (E := toy) (R := R) bwd ms10 (nseq 2 0) (nseq 1 0) crs s)| <=
  prg_adv (F := F7f) (e := toy_e) (R := ctr) start s s (prg_test D public f1 (N := (2 * 2 + (1 + 2))%N))
  + ((ddh_adv s (ddh1 s B1) + ddh_adv s (ddh2 s B1) + ddh_adv s (ddh3 s B1) + ddh_adv s (ddh4 s B1)) + bad_point (F := F7f) s s)).
Proof.
move=> D s; apply: (C89_ms1_zk (F := F7f) (e := toy_e) (R := ctr) (X := fun w _ => if w then xs0 else xs1) (Y := fun w _ => if w then ys0 else ys1) (q := fun _ _ => ms10) (m := 2) (n := 1) start s s D toy_bilinear toy_nondegenerate toy_cyclic toy_cyclic fwd_valid bwd_valid isT isT).
- by case.
- by case=> _ _; split; by [exact: ms10_wf|exact: ms10_holds|exact: ms10_holds1].
Qed.

(** Simulation of multi-scalar multiplications in G2: the proof made with the generator against a simulated one made with true randomness. *)
Theorem C89_ms2_zk : forall (F : finFieldType) (A B C : lmodType F) (e : A -> B -> C), let E := Pairing e in
  forall (R : rng E) (K O1 O2 W : finType) (seed : K -> rst R) (s1 : O1 -> A) (s2 : O2 -> B) (D : W -> CRS E -> pred _)
  (sch sch' : sched) (m n : nat) (q : W -> CRS E -> MSMEG2 E) (X : W -> CRS E -> seq F) (Y : W -> CRS E -> seq B),
  bilinear E -> nondegenerate E -> cyclic (G1 E) -> cyclic (G2 E) -> valid_sched sch -> valid_sched sch' -> (0 < m)%N -> (0 < n)%N ->
  (forall w crs, size (X w crs) = m /\ size (Y w crs) = n) ->
  (forall w crs, proper_crs crs -> ms2_wf (q w crs) m n /\ ms2_holds (q w crs) (X w crs) (Y w crs)) ->
  let N := (m + (2 * n + 2))%N in
  let f1 := (fun w crs R s => ms2_commit_and_prove (R := R) sch (q w crs) (X w crs) (Y w crs) crs s) in
  let B1 := proof_test (N := N) D public f1 in
  is_true (`|seeded seed D public f1 -
    sim_game N D s1 s2 (fun t1 t2 w crs p => public (ms2_fix (E := E) t1 t2 (q w crs) p))
      (fun w crs R s => ms2_commit_and_prove (R := R) sch' (q w crs) (nseq m 0) (nseq n 0) crs s)| <=
  prg_adv seed s1 s2 (prg_test D public f1 (N := N))
  + ((ddh_adv s1 (ddh1 s2 B1) + ddh_adv s1 (ddh2 s2 B1) + ddh_adv s2 (ddh3 s1 B1) + ddh_adv s2 (ddh4 s1 B1)) + bad_point s1 s2)).
Proof. exact: @k_C89_ms2_zk. Qed.
Print Assumptions C89_ms2_zk.

Example C89_ms2_zk_case : forall D : bool -> CRS toy -> pred _, let s := fun b : bool => (if b then n7 3 else n7 2) : F7o in
  let f1 := fun w crs R s => ms2_commit_and_prove (E := toy) (R := R) fwd ms20 (if w then xs0 else xs1) (if w then ys0 else ys1) crs s in
  let B1 := proof_test (F := F7f) (e := toy_e) (N := (2 + (2 * 1 + 2))%N) D public f1 in
  is_true (`|seeded (F := F7f) (e := toy_e) (R := ctr) start D public f1 -
    sim_game (F := F7f) (e := toy_e) (2 + (2 * 1 + 2))%N D s s (fun t1 t2 w crs p => public (ms2_fix (E := toy) t1 t2 ms20 p))
      (fun w crs R s => ms2_commit_and_prove (E := toy) (R := R) bwd ms20 (nseq 2 0) (nseq 1 0) crs s)| <=
  prg_adv (F := F7f) (e := toy_e) (R := ctr) start s s (prg_test D public f1 (N := (2 + (2 * 1 + 2))%N))
  + ((ddh_adv s (ddh1 s B1) + ddh_adv s (ddh2 s B1) + ddh_adv s (ddh3 s B1) + ddh_adv s (ddh4 s B1)) + bad_point (F := F7f) s s)).
Proof.
move=> D s; apply: (C89_ms2_zk (F := F7f) (e := toy_e) (R := ctr) (X := fun w _ => if w then xs0 else xs1) (Y := fun w _ => if w then ys0 else ys1) (q := fun _ _ => ms20) (m := 2) (n := 1) start s s D toy_bilinear toy_nondegenerate toy_cyclic toy_cyclic fwd_valid bwd_valid isT isT).
- by case.
- by case=> _ _; split; by [exact: ms20_wf|exact: ms20_holds|exact: ms20_holds1].
Qed.

(** Simulation of quadratic equations: the proof made with the generator against a simulated one made with true randomness. *)
Theorem C89_quad_zk : forall (F : finFieldType) (A B C : lmodType F) (e : A -> B -> C), let E := Pairing e in
  forall (R : rng E) (K O1 O2 W : finType) (seed : K -> rst R) (s1 : O1 -> A) (s2 : O2 -> B) (D : W -> CRS E -> pred _)
  (sch sch' : sched) (m n : nat) (q : W -> CRS E -> QuadEqu E) (X : W -> CRS E -> seq F) (Y : W -> CRS E -> seq F),
  bilinear E -> nondegenerate E -> cyclic (G1 E) -> cyclic (G2 E) -> valid_sched sch -> valid_sched sch' -> (0 < m)%N -> (0 < n)%N ->
  (forall w crs, size (X w crs) = m /\ size (Y w crs) = n) ->
  (forall w crs, proper_crs crs -> quad_wf (q w crs) m n /\ quad_holds (q w crs) (X w crs) (Y w crs)) ->
  let N := (m + (n + 1))%N in
  let f1 := (fun w crs R s => quad_commit_and_prove (R := R) sch (q w crs) (X w crs) (Y w crs) crs s) in
  let B1 := proof_test (N := N) D public f1 in
  is_true (`|seeded seed D public f1 -
    sim_game N D s1 s2 (fun t1 t2 w crs p => public (quad_fix (E := E) t1 t2 (q w crs) crs p))
      (fun w crs R s => quad_commit_and_prove (R := R) sch' (q w crs) (nseq m 0) (nseq n 0) crs s)| <=
  prg_adv seed s1 s2 (prg_test D public f1 (N := N))
  + ((ddh_adv s1 (ddh1 s2 B1) + ddh_adv s1 (ddh2 s2 B1) + ddh_adv s2 (ddh3 s1 B1) + ddh_adv s2 (ddh4 s1 B1)) + bad_point s1 s2)).
Proof. exact: @k_C89_quad_zk. Qed.
Print Assumptions C89_quad_zk.

Example C89_quad_zk_case : forall D : bool -> CRS toy -> pred _, let s := fun b : bool => (if b then n7 3 else n7 2) : F7o in
  let f1 := fun w crs R s => quad_commit_and_prove (E := toy) (R := R) fwd quad0 (if w then xs0 else xs1) (if w then ys0 else ys1) crs s in
  let B1 := proof_test (F := F7f) (e := toy_e) (N := (2 + (1 + 1))%N) D public f1 in
  is_true (`|seeded (F := F7f) (e := toy_e) (R := ctr) start D public f1 -
    sim_game (F := F7f) (e := toy_e) (2 + (1 + 1))%N D s s (fun t1 t2 w crs p => public (quad_fix (E := toy) t1 t2 quad0 crs p))
      (fun w crs R s => quad_commit_and_prove (E := toy) (R := R) bwd quad0 (nseq 2 0) (nseq 1 0) crs s)| <=
  prg_adv (F := F7f) (e := toy_e) (R := ctr) start s s (prg_test D public f1 (N := (2 + (1 + 1))%N))
  + ((ddh_adv s (ddh1 s B1) + ddh_adv s (ddh2 s B1) + ddh_adv s (ddh3 s B1) + ddh_adv s (ddh4 s B1)) + bad_point (F := F7f) s s)).
Proof.
move=> D s; apply: (C89_quad_zk (F := F7f) (e := toy_e) (R := ctr) (X := fun w _ => if w then xs0 else xs1) (Y := fun w _ => if w then ys0 else ys1) (q := fun _ _ => quad0) (m := 2) (n := 1) start s s D toy_bilinear toy_nondegenerate toy_cyclic toy_cyclic fwd_valid bwd_valid isT isT).
- by case.
- by case=> _ _; split; by [exact: quad0_wf|exact: quad0_holds|exact: quad0_holds1].
Qed.

(** The same for systems of equations... *)
Theorem C89_system_wi : forall (F : finFieldType) (A B C : lmodType F) (e : A -> B -> C), let E := Pairing e in
  forall (R : rng E) (K O1 O2 W : finType) (seed : K -> rst R) (s1 : O1 -> A) (s2 : O2 -> B) (D : W -> CRS E -> pred _)
  (sch sch' : sched) (N : nat) (qs : W -> CRS E -> seq (eqn E)) (v v' : W -> CRS E -> assign E),
  bilinear E -> nondegenerate E -> cyclic (G1 E) -> cyclic (G2 E) -> valid_sched sch -> valid_sched sch' -> 
  (forall w crs, system_draws (qs w crs) (v w crs) = N /\ system_draws (qs w crs) (v' w crs) = N) ->
  (forall w crs, proper_crs crs -> [/\ same_sizes (v w crs) (v' w crs), every (fun q => eqn_wf q (v w crs)) (qs w crs),
     every (fun q => eqn_holds q (v w crs)) (qs w crs) & every (fun q => eqn_holds q (v' w crs)) (qs w crs)]) ->
  let f1 := (fun w crs R s => prove_system (R := R) sch (qs w crs) (v w crs) crs s) in
  let f2 := (fun w crs R s => prove_system (R := R) sch' (qs w crs) (v' w crs) crs s) in
  let B1 := proof_test (N := N) D public_system f1 in let B2 := proof_test (N := N) D public_system f2 in
  is_true (`|seeded seed D public_system f1 - seeded seed D public_system f2| <=
  prg_adv seed s1 s2 (prg_test D public_system f1 (N := N)) + prg_adv seed s1 s2 (prg_test D public_system f2 (N := N))
  + ((ddh_adv s1 (ddh1 s2 B1) + ddh_adv s1 (ddh2 s2 B1) + ddh_adv s2 (ddh3 s1 B1) + ddh_adv s2 (ddh4 s1 B1))
  + (ddh_adv s1 (ddh1 s2 B2) + ddh_adv s1 (ddh2 s2 B2) + ddh_adv s2 (ddh3 s1 B2) + ddh_adv s2 (ddh4 s1 B2)) + bad_point s1 s2)).
Proof. exact: @k_C89_system_wi. Qed.
Print Assumptions C89_system_wi.

Example C89_system_wi_case : forall D : bool -> CRS toy -> pred _, let s := fun b : bool => (if b then n7 3 else n7 2) : F7o in
  let f1 := fun w crs R s => prove_system (E := toy) (R := R) fwd sys0 (if w then v0 else v4) crs s in
  let f2 := fun w crs R s => prove_system (E := toy) (R := R) bwd sys0 v4 crs s in
  let B1 := proof_test (F := F7f) (e := toy_e) (N := 22) D public_system f1 in let B2 := proof_test (F := F7f) (e := toy_e) (N := 22) D public_system f2 in
  is_true (`|seeded (F := F7f) (e := toy_e) (R := ctr) start D public_system f1 - seeded (F := F7f) (e := toy_e) (R := ctr) start D public_system f2| <=
  prg_adv (F := F7f) (e := toy_e) (R := ctr) start s s (prg_test D public_system f1 (N := 22)) + prg_adv (F := F7f) (e := toy_e) (R := ctr) start s s (prg_test D public_system f2 (N := 22))
  + ((ddh_adv s (ddh1 s B1) + ddh_adv s (ddh2 s B1) + ddh_adv s (ddh3 s B1) + ddh_adv s (ddh4 s B1))
  + (ddh_adv s (ddh1 s B2) + ddh_adv s (ddh2 s B2) + ddh_adv s (ddh3 s B2) + ddh_adv s (ddh4 s B2)) + bad_point (F := F7f) s s)).
Proof.
move=> D s; apply: (C89_system_wi (F := F7f) (e := toy_e) (R := ctr) (v := fun w _ => if w then v0 else v4) (v' := fun _ _ => v4) (qs := fun _ _ => sys0) (N := 22) start s s D toy_bilinear toy_nondegenerate toy_cyclic toy_cyclic fwd_valid bwd_valid).
- by case.
- by case=> crs hp; split; by [|exact: sys0_wf|exact: sys0_v0|exact: sys0_v4].
Qed.

Theorem C89_system_zk : forall (F : finFieldType) (A B C : lmodType F) (e : A -> B -> C), let E := Pairing e in
  forall (R : rng E) (K O1 O2 W : finType) (seed : K -> rst R) (s1 : O1 -> A) (s2 : O2 -> B) (D : W -> CRS E -> pred _)
  (sch sch' : sched) (N : nat) (qs : W -> CRS E -> seq (eqn E * gt_form E)) (v : W -> CRS E -> assign E),
  bilinear E -> nondegenerate E -> cyclic (G1 E) -> cyclic (G2 E) -> valid_sched sch -> valid_sched sch' -> 
  (forall w crs, system_draws [seq q.1 | q <- qs w crs] (v w crs) = N) ->
  (forall w crs, proper_crs crs -> [/\ every (fun q => eqn_wf q.1 (v w crs)) (qs w crs),
     every (fun q => eqn_holds q.1 (v w crs)) (qs w crs) & every (fun q => eqn_form crs q.1 q.2) (qs w crs)]) ->
  let f1 := (fun w crs R s => prove_system (R := R) sch [seq q.1 | q <- qs w crs] (v w crs) crs s) in
  let B1 := proof_test (N := N) D public_system f1 in
  is_true (`|seeded seed D public_system f1 -
    sim_game N D s1 s2 (fun t1 t2 w crs p => public_system (fix_system (E := E) t1 t2 crs (qs w crs) p))
      (fun w crs R s => prove_system (R := R) sch' [seq q.1 | q <- qs w crs] (zero_assign (v w crs)) crs s)| <=
  prg_adv seed s1 s2 (prg_test D public_system f1 (N := N))
  + ((ddh_adv s1 (ddh1 s2 B1) + ddh_adv s1 (ddh2 s2 B1) + ddh_adv s2 (ddh3 s1 B1) + ddh_adv s2 (ddh4 s1 B1)) + bad_point s1 s2)).
Proof. exact: @k_C89_system_zk. Qed.
Print Assumptions C89_system_zk.

Example C89_system_zk_case D:= @C89_system_zk F7f F7o F7o F7o toy_e ctr [finType of bool] [finType of bool] [finType of bool] [finType of bool] start two_points two_points D fwd bwd 22 (fun _ crs => sys0f crs) (fun _ _ => v0) toy_bilinear toy_nondegenerate toy_cyclic toy_cyclic fwd_valid bwd_valid (fun _ _ => erefl) sysf_fam.

(** ... and for sessions in which one state of the generator makes the reference string and then all proofs. *)
Theorem C89_session_wi : forall (F : finFieldType) (A B C : lmodType F) (e : A -> B -> C), let E := Pairing e in
  forall (R : rng E) (K O1 O2 W : finType) (seed : K -> rst R) (s1 : O1 -> A) (s2 : O2 -> B) (D : W -> CRS E -> pred (res (seq answer)))
  (sch sch' : sched) (k M N : nat) (qs : W -> CRS E -> seq answer -> seq (eqn E)) (v v' : W -> CRS E -> seq answer -> assign E),
  bilinear E -> nondegenerate E -> cyclic (G1 E) -> cyclic (G2 E) -> valid_sched sch -> valid_sched sch' -> (k * M <= N)%N ->
  (forall w crs h, (system_draws (qs w crs h) (v w crs h) <= M)%N /\ (system_draws (qs w crs h) (v' w crs h) <= M)%N) ->
  (forall w crs h, proper_crs crs -> [/\ same_sizes (v w crs h) (v' w crs h), every (fun q => eqn_wf q (v w crs h)) (qs w crs h),
     every (fun q => eqn_holds q (v w crs h)) (qs w crs h) & every (fun q => eqn_holds q (v' w crs h)) (qs w crs h)]) ->
  let f1 := fun w crs => prover sch k (qs w crs) (v w crs) crs in
  let f2 := fun w crs => prover sch' k (qs w crs) (v' w crs) crs in
  let B1 := proof_test (N := N) D id f1 in let B2 := proof_test (N := N) D id f2 in
  is_true (`|seeded seed D id f1 - seeded seed D id f2| <=
  prg_adv seed s1 s2 (prg_test D id f1 (N := N)) + prg_adv seed s1 s2 (prg_test D id f2 (N := N))
  + ((ddh_adv s1 (ddh1 s2 B1) + ddh_adv s1 (ddh2 s2 B1) + ddh_adv s2 (ddh3 s1 B1) + ddh_adv s2 (ddh4 s1 B1))
  + (ddh_adv s1 (ddh1 s2 B2) + ddh_adv s1 (ddh2 s2 B2) + ddh_adv s2 (ddh3 s1 B2) + ddh_adv s2 (ddh4 s1 B2)) + bad_point s1 s2)).
Proof. exact: @k_C89_session_wi. Qed.
Print Assumptions C89_session_wi.

Example C89_session_wi_case : forall D : bool -> CRS toy -> pred (res (seq answer)), let s := fun b : bool => (if b then n7 3 else n7 2) : F7o in
  let f1 := fun w crs => prover (E := toy) fwd 2 ask (if w then reply else reply') crs in
  let f2 := fun w crs => prover (E := toy) bwd 2 ask reply' crs in
  let B1 := proof_test (F := F7f) (e := toy_e) (N := 50) D id f1 in let B2 := proof_test (F := F7f) (e := toy_e) (N := 50) D id f2 in
  is_true (`|seeded (F := F7f) (e := toy_e) (R := ctr) start D id f1 - seeded (F := F7f) (e := toy_e) (R := ctr) start D id f2| <=
  prg_adv (F := F7f) (e := toy_e) (R := ctr) start s s (prg_test D id f1 (N := 50)) + prg_adv (F := F7f) (e := toy_e) (R := ctr) start s s (prg_test D id f2 (N := 50))
  + ((ddh_adv s (ddh1 s B1) + ddh_adv s (ddh2 s B1) + ddh_adv s (ddh3 s B1) + ddh_adv s (ddh4 s B1))
  + (ddh_adv s (ddh1 s B2) + ddh_adv s (ddh2 s B2) + ddh_adv s (ddh3 s B2) + ddh_adv s (ddh4 s B2)) + bad_point (F := F7f) s s)).
Proof.
move=> D s; apply: (C89_session_wi (F := F7f) (e := toy_e) (R := ctr) (v := fun w _ => if w then reply else reply') (v' := fun _ _ => reply')
  (qs := fun _ _ => ask) (k := 2) (M := 22) (N := 50) start s s D toy_bilinear toy_nondegenerate toy_cyclic toy_cyclic fwd_valid bwd_valid isT).
- by case=> crs h; rewrite /ask /reply /reply'; case: (again h).
- move=> w crs h _; have [h1 h2 h3 h4] := ask_ok h; case: w; first by split.
  split=> //; move: h2; rewrite /ask /reply /reply'; case: (again h) => _; first exact: sys0_wf.
  by have := @sys0_wf v0 erefl erefl erefl erefl; rewrite /sys0 /every; tauto.
Qed.

Theorem C89_session_zk : forall (F : finFieldType) (A B C : lmodType F) (e : A -> B -> C), let E := Pairing e in
  forall (R : rng E) (K O1 O2 W : finType) (seed : K -> rst R) (s1 : O1 -> A) (s2 : O2 -> B) (D : W -> CRS E -> pred (res (seq answer)))
  (sch sch' : sched) (k M N : nat) (qs : W -> CRS E -> seq answer -> seq (eqn E * gt_form E)) (v : W -> CRS E -> seq answer -> assign E),
  bilinear E -> nondegenerate E -> cyclic (G1 E) -> cyclic (G2 E) -> valid_sched sch -> valid_sched sch' -> (k * M <= N)%N ->
  (forall w crs h, (system_draws [seq q.1 | q <- qs w crs h] (v w crs h) <= M)%N) ->
  (forall w crs h, proper_crs crs -> [/\ every (fun q => eqn_wf q.1 (v w crs h)) (qs w crs h),
     every (fun q => eqn_holds q.1 (v w crs h)) (qs w crs h) & every (fun q => eqn_form crs q.1 q.2) (qs w crs h)]) ->
  let f1 := fun w crs => prover sch k (fun h => [seq q.1 | q <- qs w crs h]) (v w crs) crs in
  let B1 := proof_test (N := N) D id f1 in
  is_true (`|seeded seed D id f1 - sim_session N D s1 s2 (fun t1 t2 w crs => simulator (E := E) t1 t2 sch' k (qs w crs) (v w crs) crs)| <=
  prg_adv seed s1 s2 (prg_test D id f1 (N := N))
  + ((ddh_adv s1 (ddh1 s2 B1) + ddh_adv s1 (ddh2 s2 B1) + ddh_adv s2 (ddh3 s1 B1) + ddh_adv s2 (ddh4 s1 B1)) + bad_point s1 s2)).
Proof. exact: @k_C89_session_zk. Qed.
Print Assumptions C89_session_zk.

Example C89_session_zk_case : forall D : bool -> CRS toy -> pred (res (seq answer)), let s := fun b : bool => (if b then n7 3 else n7 2) : F7o in
  let f1 := fun (w : bool) crs => prover (E := toy) fwd 2 (fun h => [seq q.1 | q <- askf crs h]) reply crs in
  let B1 := proof_test (F := F7f) (e := toy_e) (N := 50) D id f1 in
  is_true (`|seeded (F := F7f) (e := toy_e) (R := ctr) start D id f1 - sim_session (F := F7f) (e := toy_e) 50 D s s (fun t1 t2 w crs => simulator (E := toy) t1 t2 bwd 2 (askf crs) reply crs)| <=
  prg_adv (F := F7f) (e := toy_e) (R := ctr) start s s (prg_test D id f1 (N := 50))
  + ((ddh_adv s (ddh1 s B1) + ddh_adv s (ddh2 s B1) + ddh_adv s (ddh3 s B1) + ddh_adv s (ddh4 s B1)) + bad_point (F := F7f) s s)).
Proof.
have e crs h : [seq q.1 | q <- askf crs h] = ask h by rewrite /askf -map_comp; apply: map_id.
move=> D s; apply: (C89_session_zk (F := F7f) (e := toy_e) (R := ctr) (v := fun _ _ => reply) (qs := fun _ => askf) (k := 2) (M := 22) (N := 50)
  start s s D toy_bilinear toy_nondegenerate toy_cyclic toy_cyclic fwd_valid bwd_valid isT) => [w crs h|w crs h hp].
  rewrite e; exact: ask_small.
have [_ h2 h3 _] := ask_ok h; have h4 := form0P hp; split.
- by move: h2; rewrite /askf /ask; case: (again h); rewrite /sys0 /every /=; tauto.
- by move: h3; rewrite /askf /ask; case: (again h); rewrite /sys0 /every /=; tauto.
- by move: h4; rewrite /sys0f /askf /ask; case: (again h); rewrite /sys0 /every /=; tauto.
Qed.

(** False equations. Pairing product equations need nothing of the generator. *)
Theorem C89_ppe_forgery : forall (F : finFieldType) (A B C : lmodType F) (e : A -> B -> C), let E := Pairing e in
  forall (R : rng E) (K W : finType) (seed : K -> rst R) (sch : sched) (lie : pred (PPE E)) (adv : W -> CRS E -> PPE E * CProof E),
  bilinear E -> valid_sched sch -> (forall q X Y, lie q -> ~ ppe_holds (E := E) q X Y) -> seeded_forgery seed (ppe_verify sch) lie adv = 0.
Proof. exact: @k_C89_ppe_forgery. Qed.
Print Assumptions C89_ppe_forgery.

Example C89_ppe_forgery_case : let lie := fun q : PPE toy => [&& ppe_a q == [:: 0], ppe_b q == [:: 0], ppe_gamma q == [:: [:: 0]] & ppe_target q != 0] in
  let q := mkPPE (E := toy) [:: 0 : F7] [:: 0 : F7] [:: [:: 0 : F7]] (1 : F7) in
  lie q /\ forall adv : unit -> CRS toy -> CProof toy,
  seeded_forgery (F := F7f) (e := toy_e) (R := zeros) (fun x : unit => x) (ppe_verify fwd) lie (fun w crs => (q, adv w crs)) = 0.
Proof.
move=> lie q; split; first by vm_compute.
move=> adv; apply: (C89_ppe_forgery (F := F7f) (e := toy_e) (R := zeros) _ _ toy_bilinear fwd_valid) => -[a b g t] X Y /and4P [/eqP /= -> /eqP -> /eqP -> nt].
rewrite /ppe_holds /= => h; case/negP: nt; apply/eqP; rewrite -h.
rewrite [X in X + _ + _]big1 ?[X in _ + X + _]big1 ?[X in _ + X]big1 ?addr0 //.
+ by move=> i _; rewrite big1 // => j _; rewrite /entry; case: (nat_of_ord i) => [|i'] /=; case: (nat_of_ord j) => [|j'] /=; rewrite ?nth_nil ?scale0r.
+ by move=> i _; case: (nat_of_ord i) => [|i'] /=; rewrite ?nth_nil /toy_e ?mul0r ?mulr0.
+ by move=> i _; case: (nat_of_ord i) => [|i'] /=; rewrite ?nth_nil /toy_e ?mul0r ?mulr0.
Qed.

(** The others need the generator to avoid the identity as often as true randomness does. *)
Theorem C89_ms1_forgery : forall (F : finFieldType) (A B C : lmodType F) (e : A -> B -> C), let E := Pairing e in
  forall (R : rng E) (K O1 O2 W : finType) (seed : K -> rst R) (s1 : O1 -> A) (s2 : O2 -> B) (sch : sched) (lie : pred (MSMEG1 E)) (adv : W -> CRS E -> MSMEG1 E * CProof E),
  bilinear E -> nondegenerate E -> cyclic B -> valid_sched sch -> (forall q X Y, lie q -> ~ ms1_holds (E := E) q X Y) ->
  is_true (seeded_forgery seed (ms1_verify sch) lie adv <= prg_adv seed s1 s2 (fun (_ : unit) (o : A * B * 0.-tuple F) => o.1.2 == 0) + Pr (fun o => s2 o == 0)).
Proof. exact: @k_C89_ms1_forgery. Qed.
Print Assumptions C89_ms1_forgery.

Example C89_ms1_forgery_case : let lie := fun q : MSMEG1 toy => [&& ms1_a q == [:: 0], ms1_b q == [:: 0], ms1_gamma q == [:: [:: 0]] & ms1_target q != 0] in
  let q := mkMSMEG1 (E := toy) [:: 0 : F7] [:: 0 : F7] [:: [:: 0 : F7]] (1 : F7) in
  lie q /\ forall adv : unit -> CRS toy -> CProof toy,
  seeded_forgery (F := F7f) (e := toy_e) (R := ctr) start (ms1_verify fwd) lie (fun w crs => (q, adv w crs)) <= 0.
Proof.
move=> lie q; split; first by vm_compute.
move=> adv; pose s := fun b : bool => (if b then n7 3 else n7 2) : F7o.
have -> : (0 : rat) = prg_adv (F := F7f) (e := toy_e) (R := ctr) start s s (fun (_ : unit) (o : F7o * F7o * 0.-tuple F7f) => o.1.2 == 0) + Pr (fun o => s o == 0).
  rewrite /prg_adv /prg_real /prg_ideal !Pr_none ?subrr ?normr0 ?addr0 //; by [move=> [[] []]|move=> [[] [[[] []] t]]|move=> []].
apply: (C89_ms1_forgery (F := F7f) (e := toy_e) (R := ctr) start s s _ toy_bilinear toy_nondegenerate toy_cyclic fwd_valid) => -[a b g t] X Y /and4P [/eqP /= -> /eqP -> /eqP -> nt].
rewrite /ms1_holds /= => h; case/negP: nt; apply/eqP; rewrite -h.
rewrite [X in X + _ + _]big1 ?[X in _ + X + _]big1 ?[X in _ + X]big1 ?addr0 //.
+ by move=> i _; rewrite big1 // => j _; rewrite /entry; case: (nat_of_ord i) => [|i'] /=; case: (nat_of_ord j) => [|j'] /=; rewrite ?nth_nil ?mul0r ?scale0r.
+ by move=> i _; case: (nat_of_ord i) => [|i'] /=; rewrite ?nth_nil ?scaler0 ?scale0r.
+ by move=> i _; case: (nat_of_ord i) => [|i'] /=; rewrite ?nth_nil ?scaler0 ?scale0r.
Qed.


Theorem C89_ms2_forgery : forall (F : finFieldType) (A B C : lmodType F) (e : A -> B -> C), let E := Pairing e in
  forall (R : rng E) (K O1 O2 W : finType) (seed : K -> rst R) (s1 : O1 -> A) (s2 : O2 -> B) (sch : sched) (lie : pred (MSMEG2 E)) (adv : W -> CRS E -> MSMEG2 E * CProof E),
  bilinear E -> nondegenerate E -> cyclic A -> valid_sched sch -> (forall q X Y, lie q -> ~ ms2_holds (E := E) q X Y) ->
  is_true (seeded_forgery seed (ms2_verify sch) lie adv <= prg_adv seed s1 s2 (fun (_ : unit) (o : A * B * 0.-tuple F) => o.1.1 == 0) + Pr (fun o => s1 o == 0)).
Proof. exact: @k_C89_ms2_forgery. Qed.
Print Assumptions C89_ms2_forgery.

Example C89_ms2_forgery_case : let lie := fun q : MSMEG2 toy => [&& ms2_a q == [:: 0], ms2_b q == [:: 0], ms2_gamma q == [:: [:: 0]] & ms2_target q != 0] in
  let q := mkMSMEG2 (E := toy) [:: 0 : F7] [:: 0 : F7] [:: [:: 0 : F7]] (1 : F7) in
  lie q /\ forall adv : unit -> CRS toy -> CProof toy,
  seeded_forgery (F := F7f) (e := toy_e) (R := ctr) start (ms2_verify fwd) lie (fun w crs => (q, adv w crs)) <= 0.
Proof.
move=> lie q; split; first by vm_compute.
move=> adv; pose s := fun b : bool => (if b then n7 3 else n7 2) : F7o.
have -> : (0 : rat) = prg_adv (F := F7f) (e := toy_e) (R := ctr) start s s (fun (_ : unit) (o : F7o * F7o * 0.-tuple F7f) => o.1.1 == 0) + Pr (fun o => s o == 0).
  rewrite /prg_adv /prg_real /prg_ideal !Pr_none ?subrr ?normr0 ?addr0 //; by [move=> [[] []]|move=> [[] [[[] []] t]]|move=> []].
apply: (C89_ms2_forgery (F := F7f) (e := toy_e) (R := ctr) start s s _ toy_bilinear toy_nondegenerate toy_cyclic fwd_valid) => -[a b g t] X Y /and4P [/eqP /= -> /eqP -> /eqP -> nt].
rewrite /ms2_holds /= => h; case/negP: nt; apply/eqP; rewrite -h.
rewrite [X in X + _ + _]big1 ?[X in _ + X + _]big1 ?[X in _ + X]big1 ?addr0 //.
+ by move=> i _; rewrite big1 // => j _; rewrite /entry; case: (nat_of_ord i) => [|i'] /=; case: (nat_of_ord j) => [|j'] /=; rewrite ?nth_nil ?mul0r ?scale0r.
+ by move=> i _; case: (nat_of_ord i) => [|i'] /=; rewrite ?nth_nil ?scaler0 ?scale0r.
+ by move=> i _; case: (nat_of_ord i) => [|i'] /=; rewrite ?nth_nil ?scaler0 ?scale0r.
Qed.


Theorem C89_quad_forgery : forall (F : finFieldType) (A B C : lmodType F) (e : A -> B -> C), let E := Pairing e in
  forall (R : rng E) (K O1 O2 W : finType) (seed : K -> rst R) (s1 : O1 -> A) (s2 : O2 -> B) (sch : sched) (lie : pred (QuadEqu E)) (adv : W -> CRS E -> QuadEqu E * CProof E),
  bilinear E -> nondegenerate E -> cyclic A -> cyclic B -> valid_sched sch -> (forall q X Y, lie q -> ~ quad_holds (E := E) q X Y) ->
  is_true (seeded_forgery seed (quad_verify sch) lie adv <= prg_adv seed s1 s2 (fun (_ : unit) (o : A * B * 0.-tuple F) => (o.1.1 == 0) || (o.1.2 == 0)) + bad_point s1 s2).
Proof. exact: @k_C89_quad_forgery. Qed.
Print Assumptions C89_quad_forgery.

(** The counter never draws the identity when it starts at 0 or 3, and the base points of the example are never the
    identity: no false equation is ever accepted. *)
Example C89_quad_forgery_case : let lie := fun q : QuadEqu toy => [&& quad_a q == [:: 0], quad_b q == [:: 0], quad_gamma q == [:: [:: 0]] & quad_target q != 0] in
  let q := mkQuadEqu (E := toy) [:: 0 : F7] [:: 0 : F7] [:: [:: 0 : F7]] (1 : F7) in
  lie q /\ forall adv : unit -> CRS toy -> CProof toy,
  seeded_forgery (F := F7f) (e := toy_e) (R := ctr) start (quad_verify fwd) lie (fun w crs => (q, adv w crs)) <= 0.
Proof.
move=> lie q; split; first by vm_compute.
move=> adv; pose s := fun b : bool => (if b then n7 3 else n7 2) : F7o.
have -> : (0 : rat) = prg_adv (F := F7f) (e := toy_e) (R := ctr) start s s (fun (_ : unit) (o : F7o * F7o * 0.-tuple F7f) => (o.1.1 == 0) || (o.1.2 == 0)) + bad_point (F := F7f) s s.
  rewrite /bad_point /prg_adv /prg_real /prg_ideal !Pr_none ?subrr ?normr0 ?addr0 //; by [move=> [[] []]|move=> [[] [[[] []] t]]|move=> [[] []]].
apply: (C89_quad_forgery (F := F7f) (e := toy_e) (R := ctr) start s s _ toy_bilinear toy_nondegenerate toy_cyclic toy_cyclic fwd_valid) => -[a b g t] X Y /and4P [/eqP /= -> /eqP -> /eqP -> nt].
rewrite /quad_holds /= => h; case/negP: nt; apply/eqP; rewrite -h.
rewrite [X in X + _ + _]big1 ?[X in _ + X + _]big1 ?[X in _ + X]big1 ?addr0 //.
+ by move=> i _; rewrite big1 // => j _; rewrite /entry; case: (nat_of_ord i) => [|i'] /=; case: (nat_of_ord j) => [|j'] /=; rewrite ?nth_nil ?mul0r.
+ by move=> i _; case: (nat_of_ord i) => [|i'] /=; rewrite ?nth_nil ?mul0r ?mulr0.
+ by move=> i _; case: (nat_of_ord i) => [|i'] /=; rewrite ?nth_nil ?mul0r ?mulr0.
Qed.

