(** Property C84: computational zero-knowledge over affine and projective points. *)
From mathcomp Require Import all_ssreflect all_algebra.
From Verif Require Import Base Group DataStructures Generator Commit Statement Prove Verify Spec SpecVerify SpecHide SpecSxdh.
From Verif Require Import Concrete Concrete4 Concrete5 Ark SpecArk ArkRel Concrete13 SpecArkGame Concrete15 SpecArkZk ArkZk.
Set Implicit Arguments.
Unset Strict Implicit.
Unset Printing Implicit Defensive.
Import Order.Theory GRing.Theory Num.Theory.
Local Open Scope ring_scope.

Theorem C84_ppe : forall (F : finFieldType) (G H T : lmodType F) (e : G -> H -> T) (A : ark F), let E := Pairing e in
  forall (r1 : repr (G1 E) (C1 A)) (r2 : repr (G2 E) (C2 A)) (rt : GT E -> out A -> Prop) f1 f2 ft
  (O1 O2 W : finType) (z1 : O1 -> G) (z2 : O2 -> H) (s1 : O1 -> prj (C1 A)) (s2 : O2 -> prj (C2 A))
  (D : W -> ark_CRS A -> pred _) (sch sch' : sched) (m n : nat)
  (q : W -> ark_CRS A -> PPE E) (f : W -> ark_CRS A -> ark_PPE A) (X : W -> ark_CRS A -> seq G) (Y : W -> ark_CRS A -> seq H) (a : W -> ark_CRS A -> seq (aff (C1 A))) (b : W -> ark_CRS A -> seq (aff (C2 A)))
  (k l : W -> ark_CRS A -> F) (P : W -> ark_CRS A -> G) (Q : W -> ark_CRS A -> H) (x : W -> ark_CRS A -> aff (C1 A)) (y : W -> ark_CRS A -> aff (C2 A)),
  faithful e r1 r2 rt f1 f2 ft ->
  bilinear E -> nondegenerate E -> cyclic (G1 E) -> cyclic (G2 E) -> valid_sched sch -> valid_sched sch' -> (0 < m)%N -> (0 < n)%N ->
  (forall o, rp r1 (z1 o) (s1 o)) -> (forall o, rp r2 (z2 o) (s2 o)) ->
  (forall w d, rppe r1 r2 rt (q w d) (f w d) /\ rseq (ra r1) (X w d) (a w d) /\ rseq (ra r2) (Y w d) (b w d)) ->
  (forall w d, size (X w d) = m /\ size (Y w d) = n) ->
  (forall w crs d, rcrs r1 r2 rt crs d -> proper_crs crs -> ppe_wf (q w d) m n /\ ppe_holds (q w d) (X w d) (Y w d)) ->
  (forall w d, ra r1 (P w d) (x w d) /\ ra r2 (Q w d) (y w d)) ->
  (forall w crs d, rcrs r1 r2 rt crs d -> proper_crs crs ->
    ppe_target (q w d) = e (k w d *: g1_gen crs) (Q w d) + e (P w d) (l w d *: g2_gen crs)) ->
  let B1 := ark_proof_test (N := (2 * m + (2 * n + 4))%N) D (fun w d R s => ark_ppe_commit_and_prove (R := R) sch (f w d) (a w d) (b w d) d s) in
  is_true (`|ark_game s1 s2 B1 - ark_sim_game (2 * m + (2 * n + 4))%N D s1 s2 (fun t1 t2 w d => ark_ppe_fix t1 t2 (k w d) (l w d) (x w d) (y w d))
      (fun w d R s => ark_ppe_commit_and_prove (R := R) sch' (f w d) (nseq m (aff_zero (C1 A))) (nseq n (aff_zero (C2 A))) d s)| <=
    (ark_ddh_adv s1 (ark_ddh1 s2 B1) + ark_ddh_adv s1 (ark_ddh2 s2 B1) + ark_ddh_adv s2 (ark_ddh3 s1 B1) + ark_ddh_adv s2 (ark_ddh4 s1 B1))
  + ark_bad_point s1 s2).
Proof. move=> F G H T e A E r1 r2 rt f1 f2 ft O1 O2 W z1 z2 s1 s2 D sch sch' m n q f X Y a b k l P Q x y I; exact: (ppe_ark_comp_zk I). Qed.
Print Assumptions C84_ppe.

Example C84_ppe_case : forall D : bool -> ark_CRS tark -> pred _,
  let B1 := ark_proof_test (F := F7f) (A := tark) (N := (2 * 2 + (2 * 1 + 4))%N) D (fun w d R s => ark_ppe_commit_and_prove (R := R) fwd tppe (if w then (lift xs0) else (lift xs1)) (if w then (lift ys0) else (lift ys1)) d s) in
  is_true (`|ark_game (F := F7f) (A := tark) ts ts B1 - ark_sim_game (F := F7f) (A := tark) (2 * 2 + (2 * 1 + 4))%N D ts ts (fun t1 t2 w d => ark_ppe_fix (F := F7f) (A := tark) t1 t2 0 (ppe_target ppe0 / (ark_g2_gen d).1) (in_group (n7 1)) (in_group (n7 0)))
      (fun w d R s => ark_ppe_commit_and_prove (R := R) bwd tppe (nseq 2 (aff_zero (C1 tark))) (nseq 1 (aff_zero (C2 tark))) d s)| <=
    (ark_ddh_adv (F := F7f) (C := tcurve) ts (ark_ddh1 (F := F7f) (A := tark) ts B1) + ark_ddh_adv (F := F7f) (C := tcurve) ts (ark_ddh2 (F := F7f) (A := tark) ts B1) + ark_ddh_adv (F := F7f) (C := tcurve) ts (ark_ddh3 (F := F7f) (A := tark) ts B1) + ark_ddh_adv (F := F7f) (C := tcurve) ts (ark_ddh4 (F := F7f) (A := tark) ts B1))
  + ark_bad_point (F := F7f) (A := tark) ts ts).
Proof.
move=> D; apply: (C84_ppe (q := fun _ _ => ppe0) (f := fun _ _ => tppe) (X := fun w _ => if w then xs0 else xs1) (Y := fun w _ => if w then ys0 else ys1)
  (a := fun w _ => if w then (lift xs0) else (lift xs1)) (b := fun w _ => if w then (lift ys0) else (lift ys1)) (m := 2) (n := 1)
  (k := fun _ _ => 0) (l := fun _ d => ppe_target ppe0 / (ark_g2_gen d).1) (P := fun _ _ => n7 1) (Q := fun _ _ => n7 0) (x := fun _ _ => in_group (n7 1)) (y := fun _ _ => in_group (n7 0))
  D tark_faithful toy_bilinear toy_nondegenerate toy_cyclic toy_cyclic fwd_valid bwd_valid isT isT ts_rel ts_rel).
- by case=> d; (split; [exact: tppe_rel | split; exact: lift_rel]).
- by case.
- by case=> crs d _ _; split; by [exact: ppe0_wf | exact: ppe0_holds | exact: ppe0_holds1].
- by [].
- by move=> _ crs d [_ _ _ /(ff_2 tark_faithful) -> _] [_ h2]; rewrite /toy_e /GRing.scale /= !mulr0 add0r mul1r divfK.
Qed.

Theorem C84_ms1 : forall (F : finFieldType) (G H T : lmodType F) (e : G -> H -> T) (A : ark F), let E := Pairing e in
  forall (r1 : repr (G1 E) (C1 A)) (r2 : repr (G2 E) (C2 A)) (rt : GT E -> out A -> Prop) f1 f2 ft
  (O1 O2 W : finType) (z1 : O1 -> G) (z2 : O2 -> H) (s1 : O1 -> prj (C1 A)) (s2 : O2 -> prj (C2 A))
  (D : W -> ark_CRS A -> pred _) (sch sch' : sched) (m n : nat)
  (q : W -> ark_CRS A -> MSMEG1 E) (f : W -> ark_CRS A -> ark_MSMEG1 A) (X : W -> ark_CRS A -> seq G) (Y : W -> ark_CRS A -> seq F) (a : W -> ark_CRS A -> seq (aff (C1 A))),
  faithful e r1 r2 rt f1 f2 ft ->
  bilinear E -> nondegenerate E -> cyclic (G1 E) -> cyclic (G2 E) -> valid_sched sch -> valid_sched sch' -> (0 < m)%N -> (0 < n)%N ->
  (forall o, rp r1 (z1 o) (s1 o)) -> (forall o, rp r2 (z2 o) (s2 o)) ->
  (forall w d, rms1 r1 (q w d) (f w d) /\ rseq (ra r1) (X w d) (a w d)) ->
  (forall w d, size (X w d) = m /\ size (Y w d) = n) ->
  (forall w crs d, rcrs r1 r2 rt crs d -> proper_crs crs -> ms1_wf (q w d) m n /\ ms1_holds (q w d) (X w d) (Y w d)) ->
  let B1 := ark_proof_test (N := (2 * m + (n + 2))%N) D (fun w d R s => ark_ms1_commit_and_prove (R := R) sch (f w d) (a w d) (Y w d) d s) in
  is_true (`|ark_game s1 s2 B1 - ark_sim_game (2 * m + (n + 2))%N D s1 s2 (fun t1 t2 w d => ark_ms1_fix t1 t2 (f w d))
      (fun w d R s => ark_ms1_commit_and_prove (R := R) sch' (f w d) (nseq m (aff_zero (C1 A))) (nseq n 0) d s)| <=
    (ark_ddh_adv s1 (ark_ddh1 s2 B1) + ark_ddh_adv s1 (ark_ddh2 s2 B1) + ark_ddh_adv s2 (ark_ddh3 s1 B1) + ark_ddh_adv s2 (ark_ddh4 s1 B1))
  + ark_bad_point s1 s2).
Proof. move=> F G H T e A E r1 r2 rt f1 f2 ft O1 O2 W z1 z2 s1 s2 D sch sch' m n q f X Y a I; exact: (ms1_ark_comp_zk I). Qed.
Print Assumptions C84_ms1.

Example C84_ms1_case : forall D : bool -> ark_CRS tark -> pred _,
  let B1 := ark_proof_test (F := F7f) (A := tark) (N := (2 * 2 + (1 + 2))%N) D (fun w d R s => ark_ms1_commit_and_prove (R := R) fwd tms1 (if w then (lift xs0) else (lift xs1)) (if w then ys0 else ys1) d s) in
  is_true (`|ark_game (F := F7f) (A := tark) ts ts B1 - ark_sim_game (F := F7f) (A := tark) (2 * 2 + (1 + 2))%N D ts ts (fun t1 t2 w d => ark_ms1_fix (F := F7f) (A := tark) t1 t2 tms1)
      (fun w d R s => ark_ms1_commit_and_prove (R := R) bwd tms1 (nseq 2 (aff_zero (C1 tark))) (nseq 1 0) d s)| <=
    (ark_ddh_adv (F := F7f) (C := tcurve) ts (ark_ddh1 (F := F7f) (A := tark) ts B1) + ark_ddh_adv (F := F7f) (C := tcurve) ts (ark_ddh2 (F := F7f) (A := tark) ts B1) + ark_ddh_adv (F := F7f) (C := tcurve) ts (ark_ddh3 (F := F7f) (A := tark) ts B1) + ark_ddh_adv (F := F7f) (C := tcurve) ts (ark_ddh4 (F := F7f) (A := tark) ts B1))
  + ark_bad_point (F := F7f) (A := tark) ts ts).
Proof.
move=> D; apply: (C84_ms1 (q := fun _ _ => ms10) (f := fun _ _ => tms1) (X := fun w _ => if w then xs0 else xs1) (Y := fun w _ => if w then ys0 else ys1)
  (a := fun w _ => if w then (lift xs0) else (lift xs1))  (m := 2) (n := 1)
  
  D tark_faithful toy_bilinear toy_nondegenerate toy_cyclic toy_cyclic fwd_valid bwd_valid isT isT ts_rel ts_rel).
- by case=> d; (split; [exact: tms1_rel | exact: lift_rel]).
- by case.
- by case=> crs d _ _; split; by [exact: ms10_wf | exact: ms10_holds | exact: ms10_holds1].
Qed.

Theorem C84_ms2 : forall (F : finFieldType) (G H T : lmodType F) (e : G -> H -> T) (A : ark F), let E := Pairing e in
  forall (r1 : repr (G1 E) (C1 A)) (r2 : repr (G2 E) (C2 A)) (rt : GT E -> out A -> Prop) f1 f2 ft
  (O1 O2 W : finType) (z1 : O1 -> G) (z2 : O2 -> H) (s1 : O1 -> prj (C1 A)) (s2 : O2 -> prj (C2 A))
  (D : W -> ark_CRS A -> pred _) (sch sch' : sched) (m n : nat)
  (q : W -> ark_CRS A -> MSMEG2 E) (f : W -> ark_CRS A -> ark_MSMEG2 A) (X : W -> ark_CRS A -> seq F) (Y : W -> ark_CRS A -> seq H) (b : W -> ark_CRS A -> seq (aff (C2 A))),
  faithful e r1 r2 rt f1 f2 ft ->
  bilinear E -> nondegenerate E -> cyclic (G1 E) -> cyclic (G2 E) -> valid_sched sch -> valid_sched sch' -> (0 < m)%N -> (0 < n)%N ->
  (forall o, rp r1 (z1 o) (s1 o)) -> (forall o, rp r2 (z2 o) (s2 o)) ->
  (forall w d, rms2 r2 (q w d) (f w d) /\ rseq (ra r2) (Y w d) (b w d)) ->
  (forall w d, size (X w d) = m /\ size (Y w d) = n) ->
  (forall w crs d, rcrs r1 r2 rt crs d -> proper_crs crs -> ms2_wf (q w d) m n /\ ms2_holds (q w d) (X w d) (Y w d)) ->
  let B1 := ark_proof_test (N := (m + (2 * n + 2))%N) D (fun w d R s => ark_ms2_commit_and_prove (R := R) sch (f w d) (X w d) (b w d) d s) in
  is_true (`|ark_game s1 s2 B1 - ark_sim_game (m + (2 * n + 2))%N D s1 s2 (fun t1 t2 w d => ark_ms2_fix t1 t2 (f w d))
      (fun w d R s => ark_ms2_commit_and_prove (R := R) sch' (f w d) (nseq m 0) (nseq n (aff_zero (C2 A))) d s)| <=
    (ark_ddh_adv s1 (ark_ddh1 s2 B1) + ark_ddh_adv s1 (ark_ddh2 s2 B1) + ark_ddh_adv s2 (ark_ddh3 s1 B1) + ark_ddh_adv s2 (ark_ddh4 s1 B1))
  + ark_bad_point s1 s2).
Proof. move=> F G H T e A E r1 r2 rt f1 f2 ft O1 O2 W z1 z2 s1 s2 D sch sch' m n q f X Y b I; exact: (ms2_ark_comp_zk I). Qed.
Print Assumptions C84_ms2.

Example C84_ms2_case : forall D : bool -> ark_CRS tark -> pred _,
  let B1 := ark_proof_test (F := F7f) (A := tark) (N := (2 + (2 * 1 + 2))%N) D (fun w d R s => ark_ms2_commit_and_prove (R := R) fwd tms2 (if w then xs0 else xs1) (if w then (lift ys0) else (lift ys1)) d s) in
  is_true (`|ark_game (F := F7f) (A := tark) ts ts B1 - ark_sim_game (F := F7f) (A := tark) (2 + (2 * 1 + 2))%N D ts ts (fun t1 t2 w d => ark_ms2_fix (F := F7f) (A := tark) t1 t2 tms2)
      (fun w d R s => ark_ms2_commit_and_prove (R := R) bwd tms2 (nseq 2 0) (nseq 1 (aff_zero (C2 tark))) d s)| <=
    (ark_ddh_adv (F := F7f) (C := tcurve) ts (ark_ddh1 (F := F7f) (A := tark) ts B1) + ark_ddh_adv (F := F7f) (C := tcurve) ts (ark_ddh2 (F := F7f) (A := tark) ts B1) + ark_ddh_adv (F := F7f) (C := tcurve) ts (ark_ddh3 (F := F7f) (A := tark) ts B1) + ark_ddh_adv (F := F7f) (C := tcurve) ts (ark_ddh4 (F := F7f) (A := tark) ts B1))
  + ark_bad_point (F := F7f) (A := tark) ts ts).
Proof.
move=> D; apply: (C84_ms2 (q := fun _ _ => ms20) (f := fun _ _ => tms2) (X := fun w _ => if w then xs0 else xs1) (Y := fun w _ => if w then ys0 else ys1)
   (b := fun w _ => if w then (lift ys0) else (lift ys1)) (m := 2) (n := 1)
  
  D tark_faithful toy_bilinear toy_nondegenerate toy_cyclic toy_cyclic fwd_valid bwd_valid isT isT ts_rel ts_rel).
- by case=> d; (split; [exact: tms2_rel | exact: lift_rel]).
- by case.
- by case=> crs d _ _; split; by [exact: ms20_wf | exact: ms20_holds | exact: ms20_holds1].
Qed.

Theorem C84_quad : forall (F : finFieldType) (G H T : lmodType F) (e : G -> H -> T) (A : ark F), let E := Pairing e in
  forall (r1 : repr (G1 E) (C1 A)) (r2 : repr (G2 E) (C2 A)) (rt : GT E -> out A -> Prop) f1 f2 ft
  (O1 O2 W : finType) (z1 : O1 -> G) (z2 : O2 -> H) (s1 : O1 -> prj (C1 A)) (s2 : O2 -> prj (C2 A))
  (D : W -> ark_CRS A -> pred _) (sch sch' : sched) (m n : nat)
  (q : W -> ark_CRS A -> QuadEqu E) (f : W -> ark_CRS A -> ark_QuadEqu F) (X : W -> ark_CRS A -> seq F) (Y : W -> ark_CRS A -> seq F),
  faithful e r1 r2 rt f1 f2 ft ->
  bilinear E -> nondegenerate E -> cyclic (G1 E) -> cyclic (G2 E) -> valid_sched sch -> valid_sched sch' -> (0 < m)%N -> (0 < n)%N ->
  (forall o, rp r1 (z1 o) (s1 o)) -> (forall o, rp r2 (z2 o) (s2 o)) ->
  (forall w d, rquad (q w d) (f w d)) ->
  (forall w d, size (X w d) = m /\ size (Y w d) = n) ->
  (forall w crs d, rcrs r1 r2 rt crs d -> proper_crs crs -> quad_wf (q w d) m n /\ quad_holds (q w d) (X w d) (Y w d)) ->
  let B1 := ark_proof_test (N := (m + (n + 1))%N) D (fun w d R s => ark_quad_commit_and_prove (R := R) sch (f w d) (X w d) (Y w d) d s) in
  is_true (`|ark_game s1 s2 B1 - ark_sim_game (m + (n + 1))%N D s1 s2 (fun t1 t2 w d => ark_quad_fix t1 t2 (f w d) d)
      (fun w d R s => ark_quad_commit_and_prove (R := R) sch' (f w d) (nseq m 0) (nseq n 0) d s)| <=
    (ark_ddh_adv s1 (ark_ddh1 s2 B1) + ark_ddh_adv s1 (ark_ddh2 s2 B1) + ark_ddh_adv s2 (ark_ddh3 s1 B1) + ark_ddh_adv s2 (ark_ddh4 s1 B1))
  + ark_bad_point s1 s2).
Proof. move=> F G H T e A E r1 r2 rt f1 f2 ft O1 O2 W z1 z2 s1 s2 D sch sch' m n q f X Y I; exact: (quad_ark_comp_zk I). Qed.
Print Assumptions C84_quad.

Example C84_quad_case : forall D : bool -> ark_CRS tark -> pred _,
  let B1 := ark_proof_test (F := F7f) (A := tark) (N := (2 + (1 + 1))%N) D (fun w d R s => ark_quad_commit_and_prove (R := R) fwd tquad (if w then xs0 else xs1) (if w then ys0 else ys1) d s) in
  is_true (`|ark_game (F := F7f) (A := tark) ts ts B1 - ark_sim_game (F := F7f) (A := tark) (2 + (1 + 1))%N D ts ts (fun t1 t2 w d => ark_quad_fix (F := F7f) (A := tark) t1 t2 tquad d)
      (fun w d R s => ark_quad_commit_and_prove (R := R) bwd tquad (nseq 2 0) (nseq 1 0) d s)| <=
    (ark_ddh_adv (F := F7f) (C := tcurve) ts (ark_ddh1 (F := F7f) (A := tark) ts B1) + ark_ddh_adv (F := F7f) (C := tcurve) ts (ark_ddh2 (F := F7f) (A := tark) ts B1) + ark_ddh_adv (F := F7f) (C := tcurve) ts (ark_ddh3 (F := F7f) (A := tark) ts B1) + ark_ddh_adv (F := F7f) (C := tcurve) ts (ark_ddh4 (F := F7f) (A := tark) ts B1))
  + ark_bad_point (F := F7f) (A := tark) ts ts).
Proof.
move=> D; apply: (C84_quad (q := fun _ _ => quad0) (f := fun _ _ => tquad) (X := fun w _ => if w then xs0 else xs1) (Y := fun w _ => if w then ys0 else ys1)
    (m := 2) (n := 1)
  
  D tark_faithful toy_bilinear toy_nondegenerate toy_cyclic toy_cyclic fwd_valid bwd_valid isT isT ts_rel ts_rel).
- by case=> d; (exact: tquad_rel).
- by case.
- by case=> crs d _ _; split; by [exact: quad0_wf | exact: quad0_holds | exact: quad0_holds1].
Qed.
