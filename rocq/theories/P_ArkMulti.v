(** Properties C87 and C88: systems and sessions over affine and projective points. *)
From mathcomp Require Import all_ssreflect all_algebra.
From Verif Require Import Base BaseLemmas Group DataStructures Generator Commit Statement Prove Verify Spec SpecVerify SpecHide SpecSxdh SpecMulti SpecAdaptive.
From Verif Require Import Ark SpecArk ArkRel SpecArkGame SpecArkZk SpecArkMulti ArkMulti.
From Verif Require Import Concrete Concrete2 Concrete4 Concrete5 Concrete6 Concrete13 Concrete15 Concrete18.
Set Implicit Arguments.
Unset Strict Implicit.
Unset Printing Implicit Defensive.
Import Order.Theory GRing.Theory Num.Theory.
Local Open Scope ring_scope.

(** C87: committing to the variables of a system and proving its equations over points gives representations
    of what it gives over the groups, panics included. *)
Theorem C87_prove_system : forall (E : pairing) (A : ark (Fr E)) (r1 : repr (G1 E) (C1 A)) (r2 : repr (G2 E) (C2 A)) (rt : GT E -> out A -> Prop)
  (R : rng E) (R' : ark_rng A) (rs : rst R -> ark_rst R' -> Prop) sch (qs : seq (eqn E)) (fs : seq (ark_eqn A)) (v : assign E) (w : ark_assign A) c d s t,
  implements r1 r2 rt -> scalars_alike rs -> rseq (reqn r1 r2 rt) qs fs -> rassign r1 r2 v w -> rcrs r1 r2 rt c d -> rs s t ->
  rres (rpair (rpair (rcoms4 r1 r2) (rseq (requproof r1 r2))) rs) (prove_system sch qs v c s) (ark_prove_system sch fs w d t).
Proof. move=> E A r1 r2 rt R R' rs sch qs fs v w c d s t I D; exact: (rprove_system I D). Qed.
Print Assumptions C87_prove_system.

(** C87: and verification gives the same outcome. *)
Theorem C87_verify_system : forall (E : pairing) (A : ark (Fr E)) (r1 : repr (G1 E) (C1 A)) (r2 : repr (G2 E) (C2 A)) (rt : GT E -> out A -> Prop)
  sch (qs : seq (eqn E)) (fs : seq (ark_eqn A)) (x : coms4 E) (y : ark_coms4 A) ps ps' c d,
  implements r1 r2 rt -> rseq (reqn r1 r2 rt) qs fs -> rcoms4 r1 r2 x y -> rseq (requproof r1 r2) ps ps' -> rcrs r1 r2 rt c d ->
  ark_verify_system sch fs y ps' d = verify_system sch qs x ps c.
Proof. move=> E A r1 r2 rt sch qs fs x y ps ps' c d I; exact: (rverify_system I). Qed.
Print Assumptions C87_verify_system.

Example C87_prove_system_case : exists c pfs t',
  [/\ ark_prove_system (R := tctr) bwd tsys (tassign v0) tcrs 6%N = Ok ((c, pfs), t'), size pfs = 5%N
    & rres (rpair (rpair (rcoms4 (E := toy) (A := tark) trepr trepr) (rseq (requproof (E := toy) (A := tark) trepr trepr))) eq)
        (prove_system (R := ctr) bwd sys0 v0 crs0 6%N) (Ok ((c, pfs), t'))].
Proof.
have h := C87_prove_system bwd tark_ok (ok_rand_fr tctr_alike) tsys_rel (tassign_rel v0) tcrs_rel (erefl 6%N).
have : (if ark_prove_system (R := tctr) bwd tsys (tassign v0) tcrs 6%N is Ok ((_, pfs), _) then size pfs else 0)%N == 5%N by vm_compute.
move: h; case hp : (ark_prove_system _ _ _ _ _) => [[[c pfs] t']|x] // h /eqP e.
by exists c, pfs, t'; split.
Qed.

(** C87: completeness of systems over points. *)
Theorem C87_system_complete : forall (E : pairing) (A : ark (Fr E)) (r1 : repr (G1 E) (C1 A)) (r2 : repr (G2 E) (C2 A)) (rt : GT E -> out A -> Prop)
  (R' : ark_rng A) sch sch' (qs : seq (eqn E)) (fs : seq (ark_eqn A)) (v : assign E) (w : ark_assign A) crs d (t : ark_rst R'), implements r1 r2 rt ->
  bilinear E -> valid_sched sch -> valid_sched sch' -> two_keys crs -> rseq (reqn r1 r2 rt) qs fs -> rassign r1 r2 v w -> rcrs r1 r2 rt crs d ->
  every (fun q => eqn_wf q v) qs -> every (fun q => eqn_holds q v) qs ->
  exists c pfs t', ark_prove_system sch fs w d t = Ok ((c, pfs), t') /\ ark_verify_system sch' fs c pfs d = Ok true.
Proof. move=> E A r1 r2 rt R' sch sch' qs fs v w crs d t I; exact: (system_ark_complete I). Qed.
Print Assumptions C87_system_complete.

Example C87_system_complete_case : exists c pfs t',
  ark_prove_system (R := tctr) fwd tsys (tassign v0) tcrs 6%N = Ok ((c, pfs), t') /\ ark_verify_system bwd tsys c pfs tcrs = Ok true.
Proof.
exact: (@C87_system_complete toy tark trepr trepr _ tctr fwd bwd sys0 tsys v0 (tassign v0) crs0 tcrs 6%N tark_ok toy_bilinear fwd_valid bwd_valid
  crs0_two tsys_rel (tassign_rel v0) tcrs_rel (sys0_wf (v := v0) erefl erefl erefl erefl) sys0_v0).
Qed.

(** C87: honest proofs of systems are accepted exactly when the system holds. *)
Theorem C87_system_decides : forall (E : pairing) (A : ark (Fr E)) (r1 : repr (G1 E) (C1 A)) (r2 : repr (G2 E) (C2 A)) (rt : GT E -> out A -> Prop)
  (R' : ark_rng A) sch sch' (qs : seq (eqn E)) (fs : seq (ark_eqn A)) (v : assign E) (w : ark_assign A) crs d (t : ark_rst R'), implements r1 r2 rt ->
  bilinear E -> nondegenerate E -> valid_sched sch -> valid_sched sch' -> two_keys crs ->
  u2 crs + (0, g1_gen crs) != 0 -> v2 crs + (0, g2_gen crs) != 0 -> rseq (reqn r1 r2 rt) qs fs -> rassign r1 r2 v w -> rcrs r1 r2 rt crs d ->
  every (fun q => eqn_wf q v) qs ->
  exists c pfs t' b, [/\ ark_prove_system sch fs w d t = Ok ((c, pfs), t'), ark_verify_system sch' fs c pfs d = Ok b
    & b <-> every (fun q => eqn_holds q v) qs].
Proof. move=> E A r1 r2 rt R' sch sch' qs fs v w crs d t I; exact: (system_ark_decides I). Qed.
Print Assumptions C87_system_decides.

Example C87_system_decides_case : exists c pfs t',
  ark_prove_system (R := tctr) fwd tsys (tassign v3) tcrs 6%N = Ok ((c, pfs), t') /\ ark_verify_system bwd tsys c pfs tcrs = Ok false.
Proof.
have n1 : u2 crs0 + (0, g1_gen crs0) != 0 by [].
have n2 : v2 crs0 + (0, g2_gen crs0) != 0 by [].
have [c [pfs [t' [b [h1 h2 h3]]]]] := @C87_system_decides toy tark trepr trepr _ tctr fwd bwd sys0 tsys v3 (tassign v3) crs0 tcrs 6%N tark_ok
  toy_bilinear toy_nondegenerate fwd_valid bwd_valid crs0_two n1 n2 tsys_rel (tassign_rel v3) tcrs_rel (sys0_wf (v := v3) erefl erefl erefl erefl).
exists c, pfs, t'; split=> //; rewrite h2; case: b h3 {h2} => // h3.
by have [_ [/ms10_fails]] := proj1 h3 isT.
Qed.

(** C87: under the output of [generate_crs] over points, the equations of an accepted system hold jointly for
    the assignment that the represented commitments determine, if every point in them represents an element. *)
Theorem C87_system_sound : forall (E : pairing) (A : ark (Fr E)) (r1 : repr (G1 E) (C1 A)) (r2 : repr (G2 E) (C2 A)) (rt : GT E -> out A -> Prop)
  (R' : ark_rng A) sch (t t' : ark_rst R') d P1 P2, implements r1 r2 rt ->
  bilinear E -> nondegenerate E -> cyclic (G1 E) -> cyclic (G2 E) -> valid_sched sch -> ark_generate_crs t = (d, t') ->
  rp r1 P1 (ark_rand_g1 t).1 -> rp r2 P2 (ark_rand_g2 (ark_rand_g1 t).2).1 -> P1 != 0 -> P2 != 0 ->
  exists crs : CRS E, rcrs r1 r2 rt crs d /\
  forall (c : coms4 E) (c' : ark_coms4 A), rcoms4 r1 r2 c c' -> exists v : assign E,
  [/\ commits_G1 crs (coms (cX c)) (aX v), commits_B1 crs (coms (cx c)) (ax v),
      commits_G2 crs (coms (cY c)) (aY v) & commits_B2 crs (coms (cy c)) (ay v)] /\
  forall qs fs ps ps', rseq (reqn r1 r2 rt) qs fs -> rseq (requproof r1 r2) ps ps' -> ark_verify_system sch fs c' ps' d = Ok true ->
    size ps' = size fs /\ every (fun q => eqn_holds q v) qs.
Proof. move=> E A r1 r2 rt R' sch t t' d P1 P2 I; exact: (system_ark_sound I). Qed.
Print Assumptions C87_system_sound.

Example C87_system_sound_case : exists c c' pfs t' v,
  [/\ ark_prove_system (R := tctr) fwd tsys (tassign v0) tcrs 6%N = Ok ((c', pfs), t'), rcoms4 (E := toy) (A := tark) trepr trepr c c',
      ark_verify_system bwd tsys c' pfs tcrs = Ok true & every (fun q => eqn_holds q v) sys0].
Proof.
have [c' [pfs [t' [h1 h2]]]] := C87_system_complete_case.
have h := C87_prove_system fwd tark_ok (ok_rand_fr tctr_alike) tsys_rel (tassign_rel v0) tcrs_rel (erefl 6%N).
have [crs [_ H]] := @C87_system_sound toy tark trepr trepr _ tctr bwd 0%N 6%N tcrs (n7 1) (n7 2) tark_ok toy_bilinear toy_nondegenerate
  toy_cyclic toy_cyclic bwd_valid tcrsE (ok_rand_g1 tctr_alike (erefl 0%N)).1 (ok_rand_g2 tctr_alike (erefl 1%N)).1 isT isT.
move: h; rewrite h1; case: (prove_system _ _ _ _ _) => [[[c ps] s']|x] //= -[[/= hc hp] _].
have [v [_ Hv]] := H c c' hc; have [_ hh] := Hv _ _ _ _ tsys_rel hp h2.
by exists c, c', pfs, t', v; split.
Qed.

(** C87: witness indistinguishability of systems over points, for canonical representations. *)
Theorem C87_system_wi : forall (E : pairing) (A : ark (Fr E)) (r1 : repr (G1 E) (C1 A)) (r2 : repr (G2 E) (C2 A)) (rt : GT E -> out A -> Prop)
  sch sch' (qs : seq (eqn E)) (fs : seq (ark_eqn A)) (v v' : assign E) (w w' : ark_assign A) crs d, implements r1 r2 rt ->
  bilinear E -> nondegenerate E -> cyclic (G1 E) -> cyclic (G2 E) -> valid_sched sch -> valid_sched sch' ->
  canonical r1 -> canonical r2 -> rseq (reqn r1 r2 rt) qs fs -> rassign r1 r2 v w -> rassign r1 r2 v' w' -> rcrs r1 r2 rt crs d ->
  hiding_crs crs -> proper_crs crs -> same_sizes v v' -> every (fun q => eqn_wf q v) qs ->
  every (fun q => eqn_holds q v) qs -> every (fun q => eqn_holds q v') qs ->
  let N := system_draws qs v in
  exists phi : N.-tuple (Fr E) -> N.-tuple (Fr E), bijective phi /\
  forall (R R' : ark_rng A) (s : ark_rst R) (z : ark_rst R') (u : N.-tuple (Fr E)),
    ark_draws N s = u -> ark_draws N z = phi u ->
    seen (@ark_public_system _ A) (ark_prove_system sch fs w d s) = seen (@ark_public_system _ A) (ark_prove_system sch' fs w' d z).
Proof. move=> E A r1 r2 rt sch sch' qs fs v v' w w' crs d I; exact: (system_ark_wi I). Qed.
Print Assumptions C87_system_wi.

Example C87_system_wi_case : exists phi : 22.-tuple F7 -> 22.-tuple F7, bijective phi /\
  forall (R R' : ark_rng tark) (s : ark_rst R) (z : ark_rst R') (u : 22.-tuple F7),
    ark_draws 22 s = u -> ark_draws 22 z = phi u ->
    seen (@ark_public_system _ tark) (ark_prove_system fwd tsys (tassign v0) tcrsh s) = seen (@ark_public_system _ tark) (ark_prove_system bwd tsys (tassign v4) tcrsh z).
Proof.
exact: (@C87_system_wi toy tark trepr trepr _ fwd bwd sys0 tsys v0 v4 (tassign v0) (tassign v4) crsh tcrsh tark_ok toy_bilinear toy_nondegenerate
  toy_cyclic toy_cyclic fwd_valid bwd_valid trepr_canonical trepr_canonical tsys_rel (tassign_rel v0) (tassign_rel v4) tcrsh_rel crsh_hid crsh_prop
  (And4 erefl erefl erefl erefl) (sys0_wf (v := v0) erefl erefl erefl erefl) sys0_v0 sys0_v4).
Qed.

(** C88: an adversary who sees affine points chooses the equations and the witnesses of each request after the
    answers so far; under the output of [generate_crs] the answers do not depend on the witnesses, up to DDH on
    affine points and the probability that a base point is the identity. *)
Theorem C88_comp_wi : forall (F : finFieldType) (G H T : lmodType F) (e : G -> H -> T) (A : ark F) (r1 : repr G (C1 A)) (r2 : repr H (C2 A)) (rt : T -> out A -> Prop)
  (f1 : G -> aff (C1 A)) (f2 : H -> aff (C2 A)) (ft : T -> out A), let E := Pairing e in
  forall (O1 O2 W : finType) (z1 : O1 -> G) (z2 : O2 -> H) (s1 : O1 -> prj (C1 A)) (s2 : O2 -> prj (C2 A))
  (D : W -> ark_CRS A -> pred (res (seq (ark_answer A)))) (sch sch' : sched) (k M N : nat)
  (qs : W -> ark_CRS A -> seq (ark_answer A) -> seq (eqn E)) (fs : W -> ark_CRS A -> seq (ark_answer A) -> seq (ark_eqn A))
  (v v' : W -> ark_CRS A -> seq (ark_answer A) -> assign E) (a a' : W -> ark_CRS A -> seq (ark_answer A) -> ark_assign A),
  faithful e r1 r2 rt f1 f2 ft -> (forall o, rp r1 (z1 o) (s1 o)) -> (forall o, rp r2 (z2 o) (s2 o)) ->
  bilinear E -> nondegenerate E -> cyclic (G1 E) -> cyclic (G2 E) -> valid_sched sch -> valid_sched sch' -> (k * M <= N)%N ->
  (forall w d h, [/\ rseq (reqn (E := E) r1 r2 rt) (qs w d h) (fs w d h), rassign (E := E) r1 r2 (v w d h) (a w d h) & rassign (E := E) r1 r2 (v' w d h) (a' w d h)]) ->
  (forall w crs d h, rcrs (E := E) r1 r2 rt crs d -> proper_crs crs -> (system_draws (qs w d h) (v w d h) <= M)%N) ->
  (forall w crs d h, rcrs (E := E) r1 r2 rt crs d -> proper_crs crs -> [/\ same_sizes (v w d h) (v' w d h), every (fun q => eqn_wf q (v w d h)) (qs w d h),
     every (fun q => eqn_holds q (v w d h)) (qs w d h) & every (fun q => eqn_holds q (v' w d h)) (qs w d h)]) ->
  let B1 := ark_session_test (N := N) D (fun w d => ark_prover sch k (fs w d) (a w d) d) in
  let B2 := ark_session_test (N := N) D (fun w d => ark_prover sch' k (fs w d) (a' w d) d) in
  is_true (`|ark_game s1 s2 B1 - ark_game s1 s2 B2| <=
    (ark_ddh_adv s1 (ark_ddh1 s2 B1) + ark_ddh_adv s1 (ark_ddh2 s2 B1) + ark_ddh_adv s2 (ark_ddh3 s1 B1) + ark_ddh_adv s2 (ark_ddh4 s1 B1))
  + (ark_ddh_adv s1 (ark_ddh1 s2 B2) + ark_ddh_adv s1 (ark_ddh2 s2 B2) + ark_ddh_adv s2 (ark_ddh3 s1 B2) + ark_ddh_adv s2 (ark_ddh4 s1 B2))
  + ark_bad_point s1 s2).
Proof. move=> F G H T e A r1 r2 rt f1 f2 ft E O1 O2 W z1 z2 s1 s2 D sch sch' k M N qs fs v v' a a' I h1 h2 hb hn hc1 hc2 vs vs' hN; exact: (session_ark_comp_wi I D h1 h2 hb hn hc1 hc2 vs vs' hN). Qed.
Print Assumptions C88_comp_wi.

Example C88_comp_wi_case : forall D : bool -> ark_CRS tark -> pred (res (seq (ark_answer tark))),
  let B1 := ark_session_test (F := F7f) (A := tark) (N := 50) D (fun w d => ark_prover fwd 2 task (fun h => tassign (treply w h)) d) in
  let B2 := ark_session_test (F := F7f) (A := tark) (N := 50) D (fun w d => ark_prover bwd 2 task (fun h => tassign (treply false h)) d) in
  is_true (`|ark_game (F := F7f) (A := tark) ts ts B1 - ark_game (F := F7f) (A := tark) ts ts B2| <=
    (ark_ddh_adv (F := F7f) (C := tcurve) ts (ark_ddh1 (F := F7f) (A := tark) ts B1) + ark_ddh_adv (F := F7f) (C := tcurve) ts (ark_ddh2 (F := F7f) (A := tark) ts B1) + ark_ddh_adv (F := F7f) (C := tcurve) ts (ark_ddh3 (F := F7f) (A := tark) ts B1) + ark_ddh_adv (F := F7f) (C := tcurve) ts (ark_ddh4 (F := F7f) (A := tark) ts B1))
  + (ark_ddh_adv (F := F7f) (C := tcurve) ts (ark_ddh1 (F := F7f) (A := tark) ts B2) + ark_ddh_adv (F := F7f) (C := tcurve) ts (ark_ddh2 (F := F7f) (A := tark) ts B2) + ark_ddh_adv (F := F7f) (C := tcurve) ts (ark_ddh3 (F := F7f) (A := tark) ts B2) + ark_ddh_adv (F := F7f) (C := tcurve) ts (ark_ddh4 (F := F7f) (A := tark) ts B2))
  + ark_bad_point (F := F7f) (A := tark) ts ts).
Proof.
move=> D; apply: (C88_comp_wi (F := F7f) (e := toy_e) (A := tark) (qs := fun _ _ => task0) (fs := fun _ _ => task) (v := fun w _ => treply w) (v' := fun _ _ => treply false)
  (a := fun w _ h => tassign (treply w h)) (a' := fun _ _ h => tassign (treply false h)) (k := 2) (M := 22) (N := 50) D tark_faithful ts_rel ts_rel
  toy_bilinear toy_nondegenerate toy_cyclic toy_cyclic fwd_valid bwd_valid isT).
- move=> w d h; split; [exact: task_rel | exact: tassign_rel | exact: tassign_rel].
- move=> w crs d h _ _; exact: task_small.
- move=> w crs d h _ _; exact: task_ok.
Qed.

(** C88: and they can be simulated without the witnesses, on a reference string with trapdoors. *)
Theorem C88_comp_zk : forall (F : finFieldType) (G H T : lmodType F) (e : G -> H -> T) (A : ark F) (r1 : repr G (C1 A)) (r2 : repr H (C2 A)) (rt : T -> out A -> Prop)
  (f1 : G -> aff (C1 A)) (f2 : H -> aff (C2 A)) (ft : T -> out A), let E := Pairing e in
  forall (O1 O2 W : finType) (z1 : O1 -> G) (z2 : O2 -> H) (s1 : O1 -> prj (C1 A)) (s2 : O2 -> prj (C2 A))
  (D : W -> ark_CRS A -> pred (res (seq (ark_answer A)))) (sch sch' : sched) (k M N : nat)
  (qs : W -> ark_CRS A -> seq (ark_answer A) -> seq (eqn E * gt_form E)) (fs : W -> ark_CRS A -> seq (ark_answer A) -> seq (ark_eqn A * ark_gt_form A))
  (v : W -> ark_CRS A -> seq (ark_answer A) -> assign E) (a : W -> ark_CRS A -> seq (ark_answer A) -> ark_assign A),
  faithful e r1 r2 rt f1 f2 ft -> (forall o, rp r1 (z1 o) (s1 o)) -> (forall o, rp r2 (z2 o) (s2 o)) ->
  bilinear E -> nondegenerate E -> cyclic (G1 E) -> cyclic (G2 E) -> valid_sched sch -> valid_sched sch' -> (k * M <= N)%N ->
  (forall w d h, rseq (rpair (reqn (E := E) r1 r2 rt) (rform (E := E) r1 r2)) (qs w d h) (fs w d h) /\ rassign (E := E) r1 r2 (v w d h) (a w d h)) ->
  (forall w crs d h, rcrs (E := E) r1 r2 rt crs d -> proper_crs crs -> (system_draws [seq q.1 | q <- qs w d h] (v w d h) <= M)%N) ->
  (forall w crs d h, rcrs (E := E) r1 r2 rt crs d -> proper_crs crs -> [/\ every (fun q => eqn_wf q.1 (v w d h)) (qs w d h),
     every (fun q => eqn_holds q.1 (v w d h)) (qs w d h) & every (fun q => eqn_form crs q.1 q.2) (qs w d h)]) ->
  let B1 := ark_session_test (N := N) D (fun w d => ark_prover sch k (fun h => [seq q.1 | q <- fs w d h]) (a w d) d) in
  is_true (`|ark_game s1 s2 B1 - ark_sim_session N D s1 s2 (fun t1 t2 w d => ark_simulator t1 t2 sch' k (fs w d) (a w d) d)| <=
    (ark_ddh_adv s1 (ark_ddh1 s2 B1) + ark_ddh_adv s1 (ark_ddh2 s2 B1) + ark_ddh_adv s2 (ark_ddh3 s1 B1) + ark_ddh_adv s2 (ark_ddh4 s1 B1))
  + ark_bad_point s1 s2).
Proof. move=> F G H T e A r1 r2 rt f1 f2 ft E O1 O2 W z1 z2 s1 s2 D sch sch' k M N qs fs v a I h1 h2 hb hn hc1 hc2 vs vs' hN; exact: (session_ark_comp_zk I D h1 h2 hb hn hc1 hc2 vs vs' hN). Qed.
Print Assumptions C88_comp_zk.

Example C88_comp_zk_case : forall D : bool -> ark_CRS tark -> pred (res (seq (ark_answer tark))),
  let B1 := ark_session_test (F := F7f) (A := tark) (N := 50) D (fun w d => ark_prover fwd 2 (fun h => [seq q.1 | q <- taskf d h]) (fun h => tassign (treply w h)) d) in
  is_true (`|ark_game (F := F7f) (A := tark) ts ts B1
      - ark_sim_session (F := F7f) (A := tark) 50 D ts ts (fun t1 t2 w d => ark_simulator (F := F7f) (A := tark) t1 t2 bwd 2 (taskf d) (fun h => tassign (treply w h)) d)| <=
    (ark_ddh_adv (F := F7f) (C := tcurve) ts (ark_ddh1 (F := F7f) (A := tark) ts B1) + ark_ddh_adv (F := F7f) (C := tcurve) ts (ark_ddh2 (F := F7f) (A := tark) ts B1) + ark_ddh_adv (F := F7f) (C := tcurve) ts (ark_ddh3 (F := F7f) (A := tark) ts B1) + ark_ddh_adv (F := F7f) (C := tcurve) ts (ark_ddh4 (F := F7f) (A := tark) ts B1))
  + ark_bad_point (F := F7f) (A := tark) ts ts).
Proof.
move=> D; apply: (C88_comp_zk (F := F7f) (e := toy_e) (A := tark) (qs := fun _ d => taskf0 d) (fs := fun _ d => taskf d) (v := fun w _ => treply w)
  (a := fun w _ h => tassign (treply w h)) (k := 2) (M := 22) (N := 50) D tark_faithful ts_rel ts_rel
  toy_bilinear toy_nondegenerate toy_cyclic toy_cyclic fwd_valid bwd_valid isT).
- move=> w d h; split; [exact: taskf_rel | exact: tassign_rel].
- move=> w crs d h _ _; have -> : [seq q.1 | q <- taskf0 d h] = task0 h by rewrite /taskf0 -map_comp; apply: map_id.
  exact: task_small.
- move=> w crs d h hK hp; have [_ h1 h2 _] := task_ok w w h; split; last exact: taskf_form hK hp.
  - exact: every_map h1.
  - exact: every_map h2.
Qed.
