(** Property C83: computational witness indistinguishability over affine and projective points. *)
From mathcomp Require Import all_ssreflect all_algebra.
From Verif Require Import Base Group DataStructures Generator Commit Statement Prove Verify Spec SpecVerify SpecHide SpecSxdh.
From Verif Require Import Concrete Concrete4 Concrete5 Ark SpecArk ArkRel Concrete13 SpecArkGame ArkGame Concrete15.
Set Implicit Arguments.
Unset Strict Implicit.
Unset Printing Implicit Defensive.
Import Order.Theory GRing.Theory Num.Theory.
Local Open Scope ring_scope.

Theorem C83_ppe : forall (F : finFieldType) (G H T : lmodType F) (e : G -> H -> T) (A : ark F), let E := Pairing e in
  forall (r1 : repr (G1 E) (C1 A)) (r2 : repr (G2 E) (C2 A)) (rt : GT E -> out A -> Prop) f1 f2 ft
  (O1 O2 W : finType) (z1 : O1 -> G) (z2 : O2 -> H) (s1 : O1 -> prj (C1 A)) (s2 : O2 -> prj (C2 A))
  (D : W -> ark_CRS A -> pred _) (sch sch' : sched) (m n : nat)
  (q : W -> ark_CRS A -> PPE E) (f : W -> ark_CRS A -> ark_PPE A) (X X' : W -> ark_CRS A -> seq G) (Y Y' : W -> ark_CRS A -> seq H) (a a' : W -> ark_CRS A -> seq (aff (C1 A))) (b b' : W -> ark_CRS A -> seq (aff (C2 A))),
  faithful e r1 r2 rt f1 f2 ft ->
  bilinear E -> nondegenerate E -> cyclic (G1 E) -> cyclic (G2 E) -> valid_sched sch -> valid_sched sch' -> (0 < m)%N -> (0 < n)%N ->
  (forall o, rp r1 (z1 o) (s1 o)) -> (forall o, rp r2 (z2 o) (s2 o)) ->
  (forall w d, rppe r1 r2 rt (q w d) (f w d) /\ rseq (ra r1) (X w d) (a w d) /\ rseq (ra r1) (X' w d) (a' w d) /\ rseq (ra r2) (Y w d) (b w d) /\ rseq (ra r2) (Y' w d) (b' w d)) ->
  (forall w d, [/\ size (X w d) = m, size (Y w d) = n, size (X' w d) = m & size (Y' w d) = n]) ->
  (forall w crs d, rcrs r1 r2 rt crs d -> proper_crs crs ->
    [/\ ppe_wf (q w d) m n, ppe_holds (q w d) (X w d) (Y w d) & ppe_holds (q w d) (X' w d) (Y' w d)]) ->
  let B1 := ark_proof_test (N := (2 * m + (2 * n + 4))%N) D (fun w d R s => ark_ppe_commit_and_prove (R := R) sch (f w d) (a w d) (b w d) d s) in
  let B2 := ark_proof_test (N := (2 * m + (2 * n + 4))%N) D (fun w d R s => ark_ppe_commit_and_prove (R := R) sch' (f w d) (a' w d) (b' w d) d s) in
  is_true (`|ark_game s1 s2 B1 - ark_game s1 s2 B2| <=
    (ark_ddh_adv s1 (ark_ddh1 s2 B1) + ark_ddh_adv s1 (ark_ddh2 s2 B1) + ark_ddh_adv s2 (ark_ddh3 s1 B1) + ark_ddh_adv s2 (ark_ddh4 s1 B1))
  + (ark_ddh_adv s1 (ark_ddh1 s2 B2) + ark_ddh_adv s1 (ark_ddh2 s2 B2) + ark_ddh_adv s2 (ark_ddh3 s1 B2) + ark_ddh_adv s2 (ark_ddh4 s1 B2))
  + ark_bad_point s1 s2).
Proof. move=> F G H T e A E r1 r2 rt f1 f2 ft O1 O2 W z1 z2 s1 s2 D sch sch' m n q f X X' Y Y' a a' b b' I; exact: (ppe_ark_comp_wi I). Qed.
Print Assumptions C83_ppe.

Example C83_ppe_case : forall D : bool -> ark_CRS tark -> pred _,
  let B1 := ark_proof_test (F := F7f) (A := tark) (N := (2 * 2 + (2 * 1 + 4))%N) D (fun w d R s => ark_ppe_commit_and_prove (R := R) fwd tppe (if w then (lift xs0) else (lift xs1)) (if w then (lift ys0) else (lift ys1)) d s) in
  let B2 := ark_proof_test (F := F7f) (A := tark) (N := (2 * 2 + (2 * 1 + 4))%N) D (fun w d R s => ark_ppe_commit_and_prove (R := R) bwd tppe (lift xs1) (lift ys1) d s) in
  is_true (`|ark_game (F := F7f) (A := tark) ts ts B1 - ark_game (F := F7f) (A := tark) ts ts B2| <=
    (ark_ddh_adv (F := F7f) (C := tcurve) ts (ark_ddh1 (F := F7f) (A := tark) ts B1) + ark_ddh_adv (F := F7f) (C := tcurve) ts (ark_ddh2 (F := F7f) (A := tark) ts B1) + ark_ddh_adv (F := F7f) (C := tcurve) ts (ark_ddh3 (F := F7f) (A := tark) ts B1) + ark_ddh_adv (F := F7f) (C := tcurve) ts (ark_ddh4 (F := F7f) (A := tark) ts B1))
  + (ark_ddh_adv (F := F7f) (C := tcurve) ts (ark_ddh1 (F := F7f) (A := tark) ts B2) + ark_ddh_adv (F := F7f) (C := tcurve) ts (ark_ddh2 (F := F7f) (A := tark) ts B2) + ark_ddh_adv (F := F7f) (C := tcurve) ts (ark_ddh3 (F := F7f) (A := tark) ts B2) + ark_ddh_adv (F := F7f) (C := tcurve) ts (ark_ddh4 (F := F7f) (A := tark) ts B2))
  + ark_bad_point (F := F7f) (A := tark) ts ts).
Proof.
move=> D; apply: (C83_ppe (q := fun _ _ => ppe0) (f := fun _ _ => tppe) (X := fun w _ => if w then xs0 else xs1) (X' := fun _ _ => xs1) (Y := fun w _ => if w then ys0 else ys1) (Y' := fun _ _ => ys1)
  (a := fun w _ => if w then (lift xs0) else (lift xs1)) (a' := fun _ _ => (lift xs1)) (b := fun w _ => if w then (lift ys0) else (lift ys1)) (b' := fun _ _ => (lift ys1)) (m := 2) (n := 1)
  D tark_faithful toy_bilinear toy_nondegenerate toy_cyclic toy_cyclic fwd_valid bwd_valid isT isT ts_rel ts_rel).
- by case=> d; (split; [exact: tppe_rel | split; [exact: lift_rel | split; [exact: lift_rel | split; exact: lift_rel]]]).
- by case.
- by case=> crs d _ _; split; by [exact: ppe0_wf | exact: ppe0_holds | exact: ppe0_holds1].
Qed.

Theorem C83_ms1 : forall (F : finFieldType) (G H T : lmodType F) (e : G -> H -> T) (A : ark F), let E := Pairing e in
  forall (r1 : repr (G1 E) (C1 A)) (r2 : repr (G2 E) (C2 A)) (rt : GT E -> out A -> Prop) f1 f2 ft
  (O1 O2 W : finType) (z1 : O1 -> G) (z2 : O2 -> H) (s1 : O1 -> prj (C1 A)) (s2 : O2 -> prj (C2 A))
  (D : W -> ark_CRS A -> pred _) (sch sch' : sched) (m n : nat)
  (q : W -> ark_CRS A -> MSMEG1 E) (f : W -> ark_CRS A -> ark_MSMEG1 A) (X X' : W -> ark_CRS A -> seq G) (Y Y' : W -> ark_CRS A -> seq F) (a a' : W -> ark_CRS A -> seq (aff (C1 A))),
  faithful e r1 r2 rt f1 f2 ft ->
  bilinear E -> nondegenerate E -> cyclic (G1 E) -> cyclic (G2 E) -> valid_sched sch -> valid_sched sch' -> (0 < m)%N -> (0 < n)%N ->
  (forall o, rp r1 (z1 o) (s1 o)) -> (forall o, rp r2 (z2 o) (s2 o)) ->
  (forall w d, rms1 r1 (q w d) (f w d) /\ rseq (ra r1) (X w d) (a w d) /\ rseq (ra r1) (X' w d) (a' w d)) ->
  (forall w d, [/\ size (X w d) = m, size (Y w d) = n, size (X' w d) = m & size (Y' w d) = n]) ->
  (forall w crs d, rcrs r1 r2 rt crs d -> proper_crs crs ->
    [/\ ms1_wf (q w d) m n, ms1_holds (q w d) (X w d) (Y w d) & ms1_holds (q w d) (X' w d) (Y' w d)]) ->
  let B1 := ark_proof_test (N := (2 * m + (n + 2))%N) D (fun w d R s => ark_ms1_commit_and_prove (R := R) sch (f w d) (a w d) (Y w d) d s) in
  let B2 := ark_proof_test (N := (2 * m + (n + 2))%N) D (fun w d R s => ark_ms1_commit_and_prove (R := R) sch' (f w d) (a' w d) (Y' w d) d s) in
  is_true (`|ark_game s1 s2 B1 - ark_game s1 s2 B2| <=
    (ark_ddh_adv s1 (ark_ddh1 s2 B1) + ark_ddh_adv s1 (ark_ddh2 s2 B1) + ark_ddh_adv s2 (ark_ddh3 s1 B1) + ark_ddh_adv s2 (ark_ddh4 s1 B1))
  + (ark_ddh_adv s1 (ark_ddh1 s2 B2) + ark_ddh_adv s1 (ark_ddh2 s2 B2) + ark_ddh_adv s2 (ark_ddh3 s1 B2) + ark_ddh_adv s2 (ark_ddh4 s1 B2))
  + ark_bad_point s1 s2).
Proof. move=> F G H T e A E r1 r2 rt f1 f2 ft O1 O2 W z1 z2 s1 s2 D sch sch' m n q f X X' Y Y' a a' I; exact: (ms1_ark_comp_wi I). Qed.
Print Assumptions C83_ms1.

Example C83_ms1_case : forall D : bool -> ark_CRS tark -> pred _,
  let B1 := ark_proof_test (F := F7f) (A := tark) (N := (2 * 2 + (1 + 2))%N) D (fun w d R s => ark_ms1_commit_and_prove (R := R) fwd tms1 (if w then (lift xs0) else (lift xs1)) (if w then ys0 else ys1) d s) in
  let B2 := ark_proof_test (F := F7f) (A := tark) (N := (2 * 2 + (1 + 2))%N) D (fun w d R s => ark_ms1_commit_and_prove (R := R) bwd tms1 (lift xs1) ys1 d s) in
  is_true (`|ark_game (F := F7f) (A := tark) ts ts B1 - ark_game (F := F7f) (A := tark) ts ts B2| <=
    (ark_ddh_adv (F := F7f) (C := tcurve) ts (ark_ddh1 (F := F7f) (A := tark) ts B1) + ark_ddh_adv (F := F7f) (C := tcurve) ts (ark_ddh2 (F := F7f) (A := tark) ts B1) + ark_ddh_adv (F := F7f) (C := tcurve) ts (ark_ddh3 (F := F7f) (A := tark) ts B1) + ark_ddh_adv (F := F7f) (C := tcurve) ts (ark_ddh4 (F := F7f) (A := tark) ts B1))
  + (ark_ddh_adv (F := F7f) (C := tcurve) ts (ark_ddh1 (F := F7f) (A := tark) ts B2) + ark_ddh_adv (F := F7f) (C := tcurve) ts (ark_ddh2 (F := F7f) (A := tark) ts B2) + ark_ddh_adv (F := F7f) (C := tcurve) ts (ark_ddh3 (F := F7f) (A := tark) ts B2) + ark_ddh_adv (F := F7f) (C := tcurve) ts (ark_ddh4 (F := F7f) (A := tark) ts B2))
  + ark_bad_point (F := F7f) (A := tark) ts ts).
Proof.
move=> D; apply: (C83_ms1 (q := fun _ _ => ms10) (f := fun _ _ => tms1) (X := fun w _ => if w then xs0 else xs1) (X' := fun _ _ => xs1) (Y := fun w _ => if w then ys0 else ys1) (Y' := fun _ _ => ys1)
  (a := fun w _ => if w then (lift xs0) else (lift xs1)) (a' := fun _ _ => (lift xs1))  (m := 2) (n := 1)
  D tark_faithful toy_bilinear toy_nondegenerate toy_cyclic toy_cyclic fwd_valid bwd_valid isT isT ts_rel ts_rel).
- by case=> d; (split; [exact: tms1_rel | split; exact: lift_rel]).
- by case.
- by case=> crs d _ _; split; by [exact: ms10_wf | exact: ms10_holds | exact: ms10_holds1].
Qed.

Theorem C83_ms2 : forall (F : finFieldType) (G H T : lmodType F) (e : G -> H -> T) (A : ark F), let E := Pairing e in
  forall (r1 : repr (G1 E) (C1 A)) (r2 : repr (G2 E) (C2 A)) (rt : GT E -> out A -> Prop) f1 f2 ft
  (O1 O2 W : finType) (z1 : O1 -> G) (z2 : O2 -> H) (s1 : O1 -> prj (C1 A)) (s2 : O2 -> prj (C2 A))
  (D : W -> ark_CRS A -> pred _) (sch sch' : sched) (m n : nat)
  (q : W -> ark_CRS A -> MSMEG2 E) (f : W -> ark_CRS A -> ark_MSMEG2 A) (X X' : W -> ark_CRS A -> seq F) (Y Y' : W -> ark_CRS A -> seq H) (b b' : W -> ark_CRS A -> seq (aff (C2 A))),
  faithful e r1 r2 rt f1 f2 ft ->
  bilinear E -> nondegenerate E -> cyclic (G1 E) -> cyclic (G2 E) -> valid_sched sch -> valid_sched sch' -> (0 < m)%N -> (0 < n)%N ->
  (forall o, rp r1 (z1 o) (s1 o)) -> (forall o, rp r2 (z2 o) (s2 o)) ->
  (forall w d, rms2 r2 (q w d) (f w d) /\ rseq (ra r2) (Y w d) (b w d) /\ rseq (ra r2) (Y' w d) (b' w d)) ->
  (forall w d, [/\ size (X w d) = m, size (Y w d) = n, size (X' w d) = m & size (Y' w d) = n]) ->
  (forall w crs d, rcrs r1 r2 rt crs d -> proper_crs crs ->
    [/\ ms2_wf (q w d) m n, ms2_holds (q w d) (X w d) (Y w d) & ms2_holds (q w d) (X' w d) (Y' w d)]) ->
  let B1 := ark_proof_test (N := (m + (2 * n + 2))%N) D (fun w d R s => ark_ms2_commit_and_prove (R := R) sch (f w d) (X w d) (b w d) d s) in
  let B2 := ark_proof_test (N := (m + (2 * n + 2))%N) D (fun w d R s => ark_ms2_commit_and_prove (R := R) sch' (f w d) (X' w d) (b' w d) d s) in
  is_true (`|ark_game s1 s2 B1 - ark_game s1 s2 B2| <=
    (ark_ddh_adv s1 (ark_ddh1 s2 B1) + ark_ddh_adv s1 (ark_ddh2 s2 B1) + ark_ddh_adv s2 (ark_ddh3 s1 B1) + ark_ddh_adv s2 (ark_ddh4 s1 B1))
  + (ark_ddh_adv s1 (ark_ddh1 s2 B2) + ark_ddh_adv s1 (ark_ddh2 s2 B2) + ark_ddh_adv s2 (ark_ddh3 s1 B2) + ark_ddh_adv s2 (ark_ddh4 s1 B2))
  + ark_bad_point s1 s2).
Proof. move=> F G H T e A E r1 r2 rt f1 f2 ft O1 O2 W z1 z2 s1 s2 D sch sch' m n q f X X' Y Y' b b' I; exact: (ms2_ark_comp_wi I). Qed.
Print Assumptions C83_ms2.

Example C83_ms2_case : forall D : bool -> ark_CRS tark -> pred _,
  let B1 := ark_proof_test (F := F7f) (A := tark) (N := (2 + (2 * 1 + 2))%N) D (fun w d R s => ark_ms2_commit_and_prove (R := R) fwd tms2 (if w then xs0 else xs1) (if w then (lift ys0) else (lift ys1)) d s) in
  let B2 := ark_proof_test (F := F7f) (A := tark) (N := (2 + (2 * 1 + 2))%N) D (fun w d R s => ark_ms2_commit_and_prove (R := R) bwd tms2 xs1 (lift ys1) d s) in
  is_true (`|ark_game (F := F7f) (A := tark) ts ts B1 - ark_game (F := F7f) (A := tark) ts ts B2| <=
    (ark_ddh_adv (F := F7f) (C := tcurve) ts (ark_ddh1 (F := F7f) (A := tark) ts B1) + ark_ddh_adv (F := F7f) (C := tcurve) ts (ark_ddh2 (F := F7f) (A := tark) ts B1) + ark_ddh_adv (F := F7f) (C := tcurve) ts (ark_ddh3 (F := F7f) (A := tark) ts B1) + ark_ddh_adv (F := F7f) (C := tcurve) ts (ark_ddh4 (F := F7f) (A := tark) ts B1))
  + (ark_ddh_adv (F := F7f) (C := tcurve) ts (ark_ddh1 (F := F7f) (A := tark) ts B2) + ark_ddh_adv (F := F7f) (C := tcurve) ts (ark_ddh2 (F := F7f) (A := tark) ts B2) + ark_ddh_adv (F := F7f) (C := tcurve) ts (ark_ddh3 (F := F7f) (A := tark) ts B2) + ark_ddh_adv (F := F7f) (C := tcurve) ts (ark_ddh4 (F := F7f) (A := tark) ts B2))
  + ark_bad_point (F := F7f) (A := tark) ts ts).
Proof.
move=> D; apply: (C83_ms2 (q := fun _ _ => ms20) (f := fun _ _ => tms2) (X := fun w _ => if w then xs0 else xs1) (X' := fun _ _ => xs1) (Y := fun w _ => if w then ys0 else ys1) (Y' := fun _ _ => ys1)
   (b := fun w _ => if w then (lift ys0) else (lift ys1)) (b' := fun _ _ => (lift ys1)) (m := 2) (n := 1)
  D tark_faithful toy_bilinear toy_nondegenerate toy_cyclic toy_cyclic fwd_valid bwd_valid isT isT ts_rel ts_rel).
- by case=> d; (split; [exact: tms2_rel | split; exact: lift_rel]).
- by case.
- by case=> crs d _ _; split; by [exact: ms20_wf | exact: ms20_holds | exact: ms20_holds1].
Qed.

Theorem C83_quad : forall (F : finFieldType) (G H T : lmodType F) (e : G -> H -> T) (A : ark F), let E := Pairing e in
  forall (r1 : repr (G1 E) (C1 A)) (r2 : repr (G2 E) (C2 A)) (rt : GT E -> out A -> Prop) f1 f2 ft
  (O1 O2 W : finType) (z1 : O1 -> G) (z2 : O2 -> H) (s1 : O1 -> prj (C1 A)) (s2 : O2 -> prj (C2 A))
  (D : W -> ark_CRS A -> pred _) (sch sch' : sched) (m n : nat)
  (q : W -> ark_CRS A -> QuadEqu E) (f : W -> ark_CRS A -> ark_QuadEqu F) (X X' : W -> ark_CRS A -> seq F) (Y Y' : W -> ark_CRS A -> seq F),
  faithful e r1 r2 rt f1 f2 ft ->
  bilinear E -> nondegenerate E -> cyclic (G1 E) -> cyclic (G2 E) -> valid_sched sch -> valid_sched sch' -> (0 < m)%N -> (0 < n)%N ->
  (forall o, rp r1 (z1 o) (s1 o)) -> (forall o, rp r2 (z2 o) (s2 o)) ->
  (forall w d, rquad (q w d) (f w d)) ->
  (forall w d, [/\ size (X w d) = m, size (Y w d) = n, size (X' w d) = m & size (Y' w d) = n]) ->
  (forall w crs d, rcrs r1 r2 rt crs d -> proper_crs crs ->
    [/\ quad_wf (q w d) m n, quad_holds (q w d) (X w d) (Y w d) & quad_holds (q w d) (X' w d) (Y' w d)]) ->
  let B1 := ark_proof_test (N := (m + (n + 1))%N) D (fun w d R s => ark_quad_commit_and_prove (R := R) sch (f w d) (X w d) (Y w d) d s) in
  let B2 := ark_proof_test (N := (m + (n + 1))%N) D (fun w d R s => ark_quad_commit_and_prove (R := R) sch' (f w d) (X' w d) (Y' w d) d s) in
  is_true (`|ark_game s1 s2 B1 - ark_game s1 s2 B2| <=
    (ark_ddh_adv s1 (ark_ddh1 s2 B1) + ark_ddh_adv s1 (ark_ddh2 s2 B1) + ark_ddh_adv s2 (ark_ddh3 s1 B1) + ark_ddh_adv s2 (ark_ddh4 s1 B1))
  + (ark_ddh_adv s1 (ark_ddh1 s2 B2) + ark_ddh_adv s1 (ark_ddh2 s2 B2) + ark_ddh_adv s2 (ark_ddh3 s1 B2) + ark_ddh_adv s2 (ark_ddh4 s1 B2))
  + ark_bad_point s1 s2).
Proof. move=> F G H T e A E r1 r2 rt f1 f2 ft O1 O2 W z1 z2 s1 s2 D sch sch' m n q f X X' Y Y' I; exact: (quad_ark_comp_wi I). Qed.
Print Assumptions C83_quad.

Example C83_quad_case : forall D : bool -> ark_CRS tark -> pred _,
  let B1 := ark_proof_test (F := F7f) (A := tark) (N := (2 + (1 + 1))%N) D (fun w d R s => ark_quad_commit_and_prove (R := R) fwd tquad (if w then xs0 else xs1) (if w then ys0 else ys1) d s) in
  let B2 := ark_proof_test (F := F7f) (A := tark) (N := (2 + (1 + 1))%N) D (fun w d R s => ark_quad_commit_and_prove (R := R) bwd tquad xs1 ys1 d s) in
  is_true (`|ark_game (F := F7f) (A := tark) ts ts B1 - ark_game (F := F7f) (A := tark) ts ts B2| <=
    (ark_ddh_adv (F := F7f) (C := tcurve) ts (ark_ddh1 (F := F7f) (A := tark) ts B1) + ark_ddh_adv (F := F7f) (C := tcurve) ts (ark_ddh2 (F := F7f) (A := tark) ts B1) + ark_ddh_adv (F := F7f) (C := tcurve) ts (ark_ddh3 (F := F7f) (A := tark) ts B1) + ark_ddh_adv (F := F7f) (C := tcurve) ts (ark_ddh4 (F := F7f) (A := tark) ts B1))
  + (ark_ddh_adv (F := F7f) (C := tcurve) ts (ark_ddh1 (F := F7f) (A := tark) ts B2) + ark_ddh_adv (F := F7f) (C := tcurve) ts (ark_ddh2 (F := F7f) (A := tark) ts B2) + ark_ddh_adv (F := F7f) (C := tcurve) ts (ark_ddh3 (F := F7f) (A := tark) ts B2) + ark_ddh_adv (F := F7f) (C := tcurve) ts (ark_ddh4 (F := F7f) (A := tark) ts B2))
  + ark_bad_point (F := F7f) (A := tark) ts ts).
Proof.
move=> D; apply: (C83_quad (q := fun _ _ => quad0) (f := fun _ _ => tquad) (X := fun w _ => if w then xs0 else xs1) (X' := fun _ _ => xs1) (Y := fun w _ => if w then ys0 else ys1) (Y' := fun _ _ => ys1)
    (m := 2) (n := 1)
  D tark_faithful toy_bilinear toy_nondegenerate toy_cyclic toy_cyclic fwd_valid bwd_valid isT isT ts_rel ts_rel).
- by case=> d; (exact: tquad_rel).
- by case.
- by case=> crs d _ _; split; by [exact: quad0_wf | exact: quad0_holds | exact: quad0_holds1].
Qed.
