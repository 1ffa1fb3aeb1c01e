(** Property C85: many proofs about one reference string, requested by an adversary who sees the
    answers so far. *)
From mathcomp Require Import all_ssreflect all_algebra.
From Verif Require Import Base BaseLemmas Group DataStructures Generator Commit Statement Prove Spec SpecVerify SpecHide SpecSxdh SpecMulti SpecAdaptive.
From Verif Require Import Sxdh Adaptive Concrete Concrete2 Concrete4 Concrete5 Concrete6 Concrete16.
Set Implicit Arguments.
Unset Strict Implicit.
Unset Printing Implicit Defensive.
Import Order.Theory GRing.Theory Num.Theory.
Local Open Scope ring_scope.

(** C85: proving a system draws exactly as many scalars as its sizes say, and depends on no others. *)
Theorem C85_system_draws : forall (E : pairing) (sch : sched) (qs : seq (eqn E)) (v : assign E) (crs : CRS E),
  valid_sched sch -> consumes (system_draws qs v) (fun R s => prove_system sch (R := R) qs v crs s).
Proof. exact: @system_draws_ok. Qed.
Print Assumptions C85_system_draws.

Example C85_system_draws_case : consumes 22 (fun R s => prove_system (E := toy) fwd (R := R) sys0 v0 crs0 s).
Proof. exact: (@C85_system_draws toy fwd sys0 v0 crs0 fwd_valid). Qed.


(** C85: under a hiding key, the answers in a session do not depend on the witnesses. *)
Theorem C85_perfect_wi : forall (F : finFieldType) (A B C : lmodType F) (e : A -> B -> C), let E := Pairing e in
  forall (sch sch' : sched) (crs : CRS E) (k M N : nat) (qs : seq answer -> seq (eqn E)) (v v' : seq answer -> assign E) D,
  bilinear E -> nondegenerate E -> cyclic (G1 E) -> cyclic (G2 E) -> valid_sched sch -> valid_sched sch' ->
  hiding_crs crs -> proper_crs crs -> (k * M <= N)%N -> (forall h, (system_draws (qs h) (v h) <= M)%N) ->
  (forall h, [/\ same_sizes (v h) (v' h), every (fun q => eqn_wf q (v h)) (qs h),
     every (fun q => eqn_holds q (v h)) (qs h) & every (fun q => eqn_holds q (v' h)) (qs h)]) ->
  tapes N id (prover sch k qs v crs) D = tapes N id (prover sch' k qs v' crs) D.
Proof. move=> F A B C e E sch sch' crs k M N qs v v' D hb hn hc1 hc2 vs vs' hh hp hN hM hq; exact: (adaptive_wi hb hn hc1 hc2 vs vs' hp hN hh hM hq). Qed.
Print Assumptions C85_perfect_wi.

(** C85: and can be simulated from the trapdoors, with all variables zero. *)
Theorem C85_perfect_zk : forall (F : finFieldType) (A B C : lmodType F) (e : A -> B -> C), let E := Pairing e in
  forall (sch sch' : sched) (crs : CRS E) (k M N : nat) (qs : seq answer -> seq (eqn E * gt_form E)) (v : seq answer -> assign E) a1 a2 t1 t2 D,
  bilinear E -> nondegenerate E -> cyclic (G1 E) -> cyclic (G2 E) -> valid_sched sch -> valid_sched sch' ->
  hiding_crs_with crs a1 a2 t1 t2 -> proper_crs crs -> (k * M <= N)%N -> (forall h, (system_draws [seq q.1 | q <- qs h] (v h) <= M)%N) ->
  (forall h, [/\ every (fun q => eqn_wf q.1 (v h)) (qs h),
     every (fun q => eqn_holds q.1 (v h)) (qs h) & every (fun q => eqn_form crs q.1 q.2) (qs h)]) ->
  tapes N id (prover sch k (fun h => [seq q.1 | q <- qs h]) v crs) D = tapes N id (simulator t1 t2 sch' k qs v crs) D.
Proof. move=> F A B C e E sch sch' crs k M N qs v a1 a2 t1 t2 D hb hn hc1 hc2 vs vs' hh hp hN hM hq; exact: (adaptive_zk hb hn hc1 hc2 vs vs' hp hN hh hM hq). Qed.
Print Assumptions C85_perfect_zk.

(** C85: under a reference string of [generate_crs], up to the advantage in telling its keys from hiding ones,
    whatever the number of requests. *)
Theorem C85_comp_wi : forall (F : finFieldType) (A B C : lmodType F) (e : A -> B -> C), let E := Pairing e in
  forall (O1 O2 W : finType) (s1 : O1 -> A) (s2 : O2 -> B) (D : W -> CRS E -> pred (res (seq answer))) (sch sch' : sched) (k M N : nat)
  (qs : W -> CRS E -> seq answer -> seq (eqn E)) (v v' : W -> CRS E -> seq answer -> assign E),
  bilinear E -> nondegenerate E -> cyclic (G1 E) -> cyclic (G2 E) -> valid_sched sch -> valid_sched sch' -> (k * M <= N)%N ->
  (forall w crs h, proper_crs crs -> (system_draws (qs w crs h) (v w crs h) <= M)%N) ->
  (forall w crs h, proper_crs crs -> [/\ same_sizes (v w crs h) (v' w crs h), every (fun q => eqn_wf q (v w crs h)) (qs w crs h),
     every (fun q => eqn_holds q (v w crs h)) (qs w crs h) & every (fun q => eqn_holds q (v' w crs h)) (qs w crs h)]) ->
  let B1 := proof_test (N := N) D id (fun w crs => prover sch k (qs w crs) (v w crs) crs) in
  let B2 := proof_test (N := N) D id (fun w crs => prover sch' k (qs w crs) (v' w crs) crs) in
  is_true (`|game s1 s2 real_crs B1 - game s1 s2 real_crs B2| <= key_adv s1 s2 B1 + key_adv s1 s2 B2 + bad_point s1 s2).
Proof. exact: @adaptive_comp_wi. Qed.
Print Assumptions C85_comp_wi.

(** C85: or against DDH. *)
Theorem C85_comp_wi_ddh : forall (F : finFieldType) (A B C : lmodType F) (e : A -> B -> C), let E := Pairing e in
  forall (O1 O2 W : finType) (s1 : O1 -> A) (s2 : O2 -> B) (D : W -> CRS E -> pred (res (seq answer))) (sch sch' : sched) (k M N : nat)
  (qs : W -> CRS E -> seq answer -> seq (eqn E)) (v v' : W -> CRS E -> seq answer -> assign E),
  bilinear E -> nondegenerate E -> cyclic (G1 E) -> cyclic (G2 E) -> valid_sched sch -> valid_sched sch' -> (k * M <= N)%N ->
  (forall w crs h, proper_crs crs -> (system_draws (qs w crs h) (v w crs h) <= M)%N) ->
  (forall w crs h, proper_crs crs -> [/\ same_sizes (v w crs h) (v' w crs h), every (fun q => eqn_wf q (v w crs h)) (qs w crs h),
     every (fun q => eqn_holds q (v w crs h)) (qs w crs h) & every (fun q => eqn_holds q (v' w crs h)) (qs w crs h)]) ->
  let B1 := proof_test (N := N) D id (fun w crs => prover sch k (qs w crs) (v w crs) crs) in
  let B2 := proof_test (N := N) D id (fun w crs => prover sch' k (qs w crs) (v' w crs) crs) in
  is_true (`|game s1 s2 real_crs B1 - game s1 s2 real_crs B2| <=
    (ddh_adv s1 (ddh1 s2 B1) + ddh_adv s1 (ddh2 s2 B1) + ddh_adv s2 (ddh3 s1 B1) + ddh_adv s2 (ddh4 s1 B1))
    + (ddh_adv s1 (ddh1 s2 B2) + ddh_adv s1 (ddh2 s2 B2) + ddh_adv s2 (ddh3 s1 B2) + ddh_adv s2 (ddh4 s1 B2)) + bad_point s1 s2).
Proof. exact: @adaptive_comp_wi_ddh. Qed.
Print Assumptions C85_comp_wi_ddh.

Example C85_comp_wi_ddh_case : forall D : bool -> CRS toy -> pred (res (seq answer)), let s := fun b : bool => (if b then n7 3 else n7 2) : F7o in
  let B1 := proof_test (N := 50) D id (fun w crs => prover (E := toy) fwd 2 ask (if w then reply else reply') crs) in
  let B2 := proof_test (N := 50) D id (fun w crs => prover (E := toy) bwd 2 ask reply' crs) in
  is_true (`|game (F := F7f) (e := toy_e) s s real_crs B1 - game s s real_crs B2| <=
    (ddh_adv s (ddh1 s B1) + ddh_adv s (ddh2 s B1) + ddh_adv s (ddh3 s B1) + ddh_adv s (ddh4 s B1))
    + (ddh_adv s (ddh1 s B2) + ddh_adv s (ddh2 s B2) + ddh_adv s (ddh3 s B2) + ddh_adv s (ddh4 s B2)) + bad_point (F := F7f) s s).
Proof.
move=> D s B1 B2; apply: (C85_comp_wi_ddh (F := F7f) (e := toy_e) (v := fun w _ => if w then reply else reply') (v' := fun _ _ => reply')
  (qs := fun _ _ => ask) (k := 2) (M := 22) (N := 50) s s D toy_bilinear toy_nondegenerate toy_cyclic toy_cyclic fwd_valid bwd_valid isT).
- by case=> crs h _; rewrite /ask /reply /reply'; case: (again h).
- move=> w crs h _; have [h1 h2 h3 h4] := ask_ok h; case: w; first by split.
  split=> //; move: h2; rewrite /ask /reply /reply'; case: (again h) => _; first exact: sys0_wf.
  by have := @sys0_wf v0 erefl erefl erefl erefl; rewrite /sys0 /every; tauto.
Qed.


(** C85: zero-knowledge, likewise. *)
Theorem C85_comp_zk : forall (F : finFieldType) (A B C : lmodType F) (e : A -> B -> C), let E := Pairing e in
  forall (O1 O2 W : finType) (s1 : O1 -> A) (s2 : O2 -> B) (D : W -> CRS E -> pred (res (seq answer))) (sch sch' : sched) (k M N : nat)
  (qs : W -> CRS E -> seq answer -> seq (eqn E * gt_form E)) (v : W -> CRS E -> seq answer -> assign E),
  bilinear E -> nondegenerate E -> cyclic (G1 E) -> cyclic (G2 E) -> valid_sched sch -> valid_sched sch' -> (k * M <= N)%N ->
  (forall w crs h, proper_crs crs -> (system_draws [seq q.1 | q <- qs w crs h] (v w crs h) <= M)%N) ->
  (forall w crs h, proper_crs crs -> [/\ every (fun q => eqn_wf q.1 (v w crs h)) (qs w crs h),
     every (fun q => eqn_holds q.1 (v w crs h)) (qs w crs h) & every (fun q => eqn_form crs q.1 q.2) (qs w crs h)]) ->
  let B1 := proof_test (N := N) D id (fun w crs => prover sch k (fun h => [seq q.1 | q <- qs w crs h]) (v w crs) crs) in
  is_true (`|game s1 s2 real_crs B1 - sim_session N D s1 s2 (fun t1 t2 w crs => simulator (E := E) t1 t2 sch' k (qs w crs) (v w crs) crs)|
    <= key_adv s1 s2 B1 + bad_point s1 s2).
Proof. exact: @adaptive_comp_zk. Qed.
Print Assumptions C85_comp_zk.

Example C85_comp_zk_case : forall D : bool -> CRS toy -> pred (res (seq answer)), let s := fun b : bool => (if b then n7 3 else n7 2) : F7o in
  let f1 := fun (w : bool) crs => prover (E := toy) fwd 2 (fun h => [seq q.1 | q <- askf crs h]) reply crs in
  let B1 := proof_test (F := F7f) (e := toy_e) (N := 50) D id f1 in
  is_true (`|game (F := F7f) (e := toy_e) s s real_crs B1 - sim_session (F := F7f) (e := toy_e) 50 D s s (fun t1 t2 w crs => simulator (E := toy) t1 t2 bwd 2 (askf crs) reply crs)| <=
  key_adv s s B1 + bad_point (F := F7f) s s).
Proof.
have e crs h : [seq q.1 | q <- askf crs h] = ask h by rewrite /askf -map_comp; apply: map_id.
move=> D s; apply: (C85_comp_zk (F := F7f) (e := toy_e) (v := fun _ _ => reply) (qs := fun _ => askf) (k := 2) (M := 22) (N := 50)
  s s D toy_bilinear toy_nondegenerate toy_cyclic toy_cyclic fwd_valid bwd_valid isT) => [w crs h _|w crs h hp].
  rewrite e; exact: ask_small.
have [_ h2 h3 _] := ask_ok h; have h4 := form0P hp; split.
- by move: h2; rewrite /askf /ask; case: (again h); rewrite /sys0 /every /=; tauto.
- by move: h3; rewrite /askf /ask; case: (again h); rewrite /sys0 /every /=; tauto.
- by move: h4; rewrite /sys0f /askf /ask; case: (again h); rewrite /sys0 /every /=; tauto.
Qed.


Theorem C85_comp_zk_ddh : forall (F : finFieldType) (A B C : lmodType F) (e : A -> B -> C), let E := Pairing e in
  forall (O1 O2 W : finType) (s1 : O1 -> A) (s2 : O2 -> B) (D : W -> CRS E -> pred (res (seq answer))) (sch sch' : sched) (k M N : nat)
  (qs : W -> CRS E -> seq answer -> seq (eqn E * gt_form E)) (v : W -> CRS E -> seq answer -> assign E),
  bilinear E -> nondegenerate E -> cyclic (G1 E) -> cyclic (G2 E) -> valid_sched sch -> valid_sched sch' -> (k * M <= N)%N ->
  (forall w crs h, proper_crs crs -> (system_draws [seq q.1 | q <- qs w crs h] (v w crs h) <= M)%N) ->
  (forall w crs h, proper_crs crs -> [/\ every (fun q => eqn_wf q.1 (v w crs h)) (qs w crs h),
     every (fun q => eqn_holds q.1 (v w crs h)) (qs w crs h) & every (fun q => eqn_form crs q.1 q.2) (qs w crs h)]) ->
  let B1 := proof_test (N := N) D id (fun w crs => prover sch k (fun h => [seq q.1 | q <- qs w crs h]) (v w crs) crs) in
  is_true (`|game s1 s2 real_crs B1 - sim_session N D s1 s2 (fun t1 t2 w crs => simulator (E := E) t1 t2 sch' k (qs w crs) (v w crs) crs)|
    <= (ddh_adv s1 (ddh1 s2 B1) + ddh_adv s1 (ddh2 s2 B1) + ddh_adv s2 (ddh3 s1 B1) + ddh_adv s2 (ddh4 s1 B1)) + bad_point s1 s2).
Proof. exact: @adaptive_comp_zk_ddh. Qed.
Print Assumptions C85_comp_zk_ddh.

Example C85_comp_zk_ddh_case : forall D : bool -> CRS toy -> pred (res (seq answer)), let s := fun b : bool => (if b then n7 3 else n7 2) : F7o in
  let f1 := fun (w : bool) crs => prover (E := toy) fwd 2 (fun h => [seq q.1 | q <- askf crs h]) reply crs in
  let B1 := proof_test (F := F7f) (e := toy_e) (N := 50) D id f1 in
  is_true (`|game (F := F7f) (e := toy_e) s s real_crs B1 - sim_session (F := F7f) (e := toy_e) 50 D s s (fun t1 t2 w crs => simulator (E := toy) t1 t2 bwd 2 (askf crs) reply crs)| <=
  (ddh_adv s (ddh1 s B1) + ddh_adv s (ddh2 s B1) + ddh_adv s (ddh3 s B1) + ddh_adv s (ddh4 s B1)) + bad_point (F := F7f) s s).
Proof.
have e crs h : [seq q.1 | q <- askf crs h] = ask h by rewrite /askf -map_comp; apply: map_id.
move=> D s; apply: (C85_comp_zk_ddh (F := F7f) (e := toy_e) (v := fun _ _ => reply) (qs := fun _ => askf) (k := 2) (M := 22) (N := 50)
  s s D toy_bilinear toy_nondegenerate toy_cyclic toy_cyclic fwd_valid bwd_valid isT) => [w crs h _|w crs h hp].
  rewrite e; exact: ask_small.
have [_ h2 h3 _] := ask_ok h; have h4 := form0P hp; split.
- by move: h2; rewrite /askf /ask; case: (again h); rewrite /sys0 /every /=; tauto.
- by move: h3; rewrite /askf /ask; case: (again h); rewrite /sys0 /every /=; tauto.
- by move: h4; rewrite /sys0f /askf /ask; case: (again h); rewrite /sys0 /every /=; tauto.
Qed.


Example C85_wi_case : forall D, tapes (F := F7f) (e := toy_e) 44 id (prover fwd 2 ask reply crsh) D
  = tapes (F := F7f) (e := toy_e) 44 id (prover bwd 2 ask reply' crsh) D.
Proof.
move=> D; exact: (@C85_perfect_wi F7f F7o F7o F7o toy_e fwd bwd crsh 2 22 44 ask reply reply' D toy_bilinear toy_nondegenerate
  toy_cyclic toy_cyclic fwd_valid bwd_valid crsh_hid crsh_prop isT ask_small ask_ok).
Qed.
Example C85_comp_case : forall D : bool -> CRS toy -> pred (res (seq answer)), let s := fun b : bool => (if b then n7 3 else n7 2) : F7o in
  let B1 := proof_test (N := 50) D id (fun w crs => prover (E := toy) fwd 2 ask (if w then reply else reply') crs) in
  let B2 := proof_test (N := 50) D id (fun w crs => prover (E := toy) bwd 2 ask reply' crs) in
  is_true (`|game (F := F7f) (e := toy_e) s s real_crs B1 - game s s real_crs B2| <= key_adv s s B1 + key_adv s s B2).
Proof.
move=> D s B1 B2; have -> : key_adv s s B1 + key_adv s s B2 = key_adv s s B1 + key_adv s s B2 + bad_point (F := F7f) s s.
  by rewrite /bad_point Pr_none ?addr0 // => -[[] []].
apply: (C85_comp_wi (F := F7f) (e := toy_e) (v := fun w _ => if w then reply else reply') (v' := fun _ _ => reply')
  (qs := fun _ _ => ask) (k := 2) (M := 22) (N := 50) s s D toy_bilinear toy_nondegenerate toy_cyclic toy_cyclic fwd_valid bwd_valid isT).
- by case=> crs h _; rewrite /ask /reply /reply'; case: (again h).
- move=> w crs h _; have [h1 h2 h3 h4] := ask_ok h; case: w; first by split.
  split=> //; move: h2; rewrite /ask /reply /reply'; case: (again h) => _; first exact: sys0_wf.
  by have := @sys0_wf v0 erefl erefl erefl erefl; rewrite /sys0 /every; tauto.
Qed.
Example C85_zk_case : forall D, tapes (F := F7f) (e := toy_e) 44 id (prover fwd 2 (fun h => [seq q.1 | q <- askf crsh h]) reply crsh) D
  = tapes (F := F7f) (e := toy_e) 44 id (simulator (E := toy) (n7 4) (n7 5) bwd 2 (askf crsh) reply crsh) D.
Proof.
have e h : [seq q.1 | q <- askf crsh h] = ask h by rewrite /askf -map_comp; apply: map_id.
move=> D; apply: (@C85_perfect_zk F7f F7o F7o F7o toy_e fwd bwd crsh 2 22 44 (askf crsh) reply _ _ _ _ D toy_bilinear toy_nondegenerate
  toy_cyclic toy_cyclic fwd_valid bwd_valid crsh_hiding crsh_prop isT) => h.
  rewrite e; exact: ask_small.
have [_ h2 h3 _] := ask_ok h; have h4 := form0P crsh_prop; split.
- by move: h2; rewrite /askf /ask; case: (again h); rewrite /sys0 /every /=; tauto.
- by move: h3; rewrite /askf /ask; case: (again h); rewrite /sys0 /every /=; tauto.
- by move: h4; rewrite /sys0f /askf /ask; case: (again h); rewrite /sys0 /every /=; tauto.
Qed.
