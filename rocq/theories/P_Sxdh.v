(** Properties C49, C50, C53: key indistinguishability under SXDH, and its consequences for proofs made under real keys. *)
From mathcomp Require Import all_ssreflect all_algebra.
From Verif Require Import Base Group DataStructures Generator Commit Statement Prove Spec SpecVerify SpecHide SpecSxdh Main Sxdh Concrete Concrete4 Concrete5.
From Verif Require Import Concrete27.
Set Implicit Arguments.
Unset Strict Implicit.
Unset Printing Implicit Defensive.
Import Order.Theory GRing.Theory Num.Theory.
Local Open Scope ring_scope.

(** C49: a test that tells the keys of [generate_crs] from hiding keys gives
    distinguishers for DDH. *)

Theorem C49_bound : forall (F : finFieldType) (A B C : lmodType F) (e : A -> B -> C) (O1 O2 : finType) (s1 : O1 -> A) (s2 : O2 -> B)
  (W : finType) (D : W -> pred (CRS (Pairing e))),
  `|game s1 s2 real_crs D - game s1 s2 sim_crs D| <=
  ddh_adv s1 (ddh1 s2 D) + ddh_adv s1 (ddh2 s2 D) + ddh_adv s2 (ddh3 s1 D) + ddh_adv s2 (ddh4 s1 D).
Proof. exact: @key_adv_ddh. Qed.
Print Assumptions C49_bound.

Theorem C49_quarter : forall (F : finFieldType) (A B C : lmodType F) (e : A -> B -> C) (O1 O2 : finType) (s1 : O1 -> A) (s2 : O2 -> B)
  (W : finType) (D : W -> pred (CRS (Pairing e))) (eps : rat),
  eps <= `|game s1 s2 real_crs D - game s1 s2 sim_crs D| ->
  [\/ eps / 4%:R <= ddh_adv s1 (ddh1 s2 D), eps / 4%:R <= ddh_adv s1 (ddh2 s2 D),
      eps / 4%:R <= ddh_adv s2 (ddh3 s1 D) | eps / 4%:R <= ddh_adv s2 (ddh4 s1 D)].
Proof. exact: @key_adv_eps. Qed.
Print Assumptions C49_quarter.

Theorem C49_games : forall (F : finFieldType) (A B C : lmodType F) (e : A -> B -> C) (p1 : A) (p2 : B) (a1 a2 t1 t2 : F),
  [/\ binding_crs_with (E := Pairing e) (real_crs p1 p2 a1 a2 t1 t2) a1 a2 t1 t2,
      hiding_crs_with (E := Pairing e) (sim_crs p1 p2 a1 a2 t1 t2) a1 a2 t1 t2 &
      g1_gen (@real_crs F A B C e p1 p2 a1 a2 t1 t2) = p1 /\ g2_gen (@real_crs F A B C e p1 p2 a1 a2 t1 t2) = p2].
Proof. exact: @games_keys. Qed.
Print Assumptions C49_games.

Theorem C49_real : forall (F : finFieldType) (A B C : lmodType F) (e : A -> B -> C), let E := Pairing e in
  forall (R : rng E) (s : rst R), exists p1 p2 a1 a2 t1 t2, (generate_crs s).1 = real_crs p1 p2 a1 a2 t1 t2.
Proof. exact: @real_any. Qed.
Print Assumptions C49_real.

(** In the small group of the examples, where discrete logarithms are easy, a
    test tells the keys apart with certainty. *)
Example C49_case : let D := fun (_ : unit) (crs : CRS toy) => (u2 crs).2 == (u1 crs).2 * (u2 crs).1 in
  let s := fun _ : unit => n7 1 : F7o in
  `|game (F := F7f) (e := toy_e) s s real_crs D - game s s sim_crs D| = 1 /\
  [\/ 4%:R^-1 <= ddh_adv s (ddh1 s D), 4%:R^-1 <= ddh_adv s (ddh2 s D), 4%:R^-1 <= ddh_adv s (ddh3 s D) | 4%:R^-1 <= ddh_adv s (ddh4 s D)].
Proof.
move=> D s; have h : `|game (F := F7f) (e := toy_e) s s real_crs D - game s s sim_crs D| = 1.
  have -> : game (F := F7f) (e := toy_e) s s real_crs D = 1.
    apply: Pr_all; last by rewrite !card_prod !card_unit card_F7.
    by move=> [w [[o1 o2] [[[a1 a2] t1] t2]]]; rewrite real_crsE /D /s /= /GRing.scale /= !mulr1 [t1 * a1]mulrC.
  have -> : game (F := F7f) (e := toy_e) s s sim_crs D = 0.
    apply: Pr_none => -[w [[o1 o2] [[[a1 a2] t1] t2]]]; rewrite sim_crsE /D /s /= /GRing.scale /= !mulr1 [t1 * a1]mulrC.
    by rewrite -subr_eq0 addrAC subrr add0r oppr_eq0.
  by rewrite subr0 normr1.
split=> //; have := C49_quarter (F := F7f) (e := toy_e) (s1 := s) (s2 := s) (D := D) (eps := 1); rewrite h div1r; exact.
Qed.

(** C50: under the keys of [generate_crs], proofs made from two witnesses are
    told apart only by distinguishing keys. *)
Theorem C50_ppe : forall (F : finFieldType) (A B C : lmodType F) (e : A -> B -> C), let E := Pairing e in
  forall (O1 O2 W : finType) (s1 : O1 -> A) (s2 : O2 -> B) (D : W -> CRS E -> pred _) (sch sch' : sched) (m n : nat)
  (q : W -> CRS E -> PPE E) (X X' : W -> CRS E -> seq A) (Y Y' : W -> CRS E -> seq B),
  bilinear E -> nondegenerate E -> cyclic (G1 E) -> cyclic (G2 E) -> valid_sched sch -> valid_sched sch' -> (0 < m)%N -> (0 < n)%N ->
  (forall w crs, [/\ size (X w crs) = m, size (Y w crs) = n, size (X' w crs) = m & size (Y' w crs) = n]) ->
  (forall w crs, proper_crs crs -> [/\ ppe_wf (q w crs) m n, ppe_holds (q w crs) (X w crs) (Y w crs) & ppe_holds (q w crs) (X' w crs) (Y' w crs)]) ->
  let B1 := proof_test (N := (2 * m + (2 * n + 4))%N) D public (fun w crs R s => ppe_commit_and_prove (R := R) sch (q w crs) (X w crs) (Y w crs) crs s) in
  let B2 := proof_test (N := (2 * m + (2 * n + 4))%N) D public (fun w crs R s => ppe_commit_and_prove (R := R) sch' (q w crs) (X' w crs) (Y' w crs) crs s) in
  is_true (`|game s1 s2 real_crs B1 - game s1 s2 real_crs B2| <= key_adv s1 s2 B1 + key_adv s1 s2 B2 + bad_point s1 s2).
Proof. exact: @ppe_comp_wi. Qed.
Print Assumptions C50_ppe.

Theorem C50_ppe_ddh : forall (F : finFieldType) (A B C : lmodType F) (e : A -> B -> C), let E := Pairing e in
  forall (O1 O2 W : finType) (s1 : O1 -> A) (s2 : O2 -> B) (D : W -> CRS E -> pred _) (sch sch' : sched) (m n : nat)
  (q : W -> CRS E -> PPE E) (X X' : W -> CRS E -> seq A) (Y Y' : W -> CRS E -> seq B),
  bilinear E -> nondegenerate E -> cyclic (G1 E) -> cyclic (G2 E) -> valid_sched sch -> valid_sched sch' -> (0 < m)%N -> (0 < n)%N ->
  (forall w crs, [/\ size (X w crs) = m, size (Y w crs) = n, size (X' w crs) = m & size (Y' w crs) = n]) ->
  (forall w crs, proper_crs crs -> [/\ ppe_wf (q w crs) m n, ppe_holds (q w crs) (X w crs) (Y w crs) & ppe_holds (q w crs) (X' w crs) (Y' w crs)]) ->
  let B1 := proof_test (N := (2 * m + (2 * n + 4))%N) D public (fun w crs R s => ppe_commit_and_prove (R := R) sch (q w crs) (X w crs) (Y w crs) crs s) in
  let B2 := proof_test (N := (2 * m + (2 * n + 4))%N) D public (fun w crs R s => ppe_commit_and_prove (R := R) sch' (q w crs) (X' w crs) (Y' w crs) crs s) in
  is_true (`|game s1 s2 real_crs B1 - game s1 s2 real_crs B2| <= 
  (ddh_adv s1 (ddh1 s2 B1) + ddh_adv s1 (ddh2 s2 B1) + ddh_adv s2 (ddh3 s1 B1) + ddh_adv s2 (ddh4 s1 B1))
  + (ddh_adv s1 (ddh1 s2 B2) + ddh_adv s1 (ddh2 s2 B2) + ddh_adv s2 (ddh3 s1 B2) + ddh_adv s2 (ddh4 s1 B2))
  + bad_point s1 s2).
Proof. exact: @ppe_comp_wi_ddh. Qed.
Print Assumptions C50_ppe_ddh.

Example C50_ppe_ddh_case D:= @C50_ppe_ddh F7f F7o F7o F7o toy_e [finType of bool] [finType of bool] [finType of bool] two_points two_points D fwd bwd 2 1 (fun _ _ => ppe0) (pick xs0 xs1) (pick xs1 xs1) (pick ys0 ys1) (pick ys1 ys1) toy_bilinear toy_nondegenerate toy_cyclic toy_cyclic fwd_valid bwd_valid isT isT fam_sizes ppe_fam.

(** C53: under the keys of [generate_crs], proofs are told from simulated
    proofs only by distinguishing keys. *)
Theorem C53_ppe : forall (F : finFieldType) (A B C : lmodType F) (e : A -> B -> C), let E := Pairing e in
  forall (O1 O2 W : finType) (s1 : O1 -> A) (s2 : O2 -> B) (D : W -> CRS E -> pred _) (sch sch' : sched) (m n : nat)
  (q : W -> CRS E -> PPE E) (X : W -> CRS E -> seq A) (Y : W -> CRS E -> seq B) (k l : W -> CRS E -> F) (P : W -> CRS E -> A) (Q : W -> CRS E -> B),
  bilinear E -> nondegenerate E -> cyclic (G1 E) -> cyclic (G2 E) -> valid_sched sch -> valid_sched sch' -> (0 < m)%N -> (0 < n)%N ->
  (forall w crs, size (X w crs) = m /\ size (Y w crs) = n) ->
  (forall w crs, proper_crs crs -> ppe_wf (q w crs) m n /\ ppe_holds (q w crs) (X w crs) (Y w crs)) ->
  (forall w crs, proper_crs crs -> ppe_target (q w crs) = e (k w crs *: g1_gen crs) (Q w crs) + e (P w crs) (l w crs *: g2_gen crs)) ->
  let B1 := proof_test (N := (2 * m + (2 * n + 4))%N) D public (fun w crs R s => ppe_commit_and_prove (R := R) sch (q w crs) (X w crs) (Y w crs) crs s) in
  is_true (`|game s1 s2 real_crs B1 -
    sim_game (2 * m + (2 * n + 4))%N D s1 s2 (fun t1 t2 w crs p => public (ppe_fix (E := E) t1 t2 (k w crs) (l w crs) (P w crs) (Q w crs) p))
      (fun w crs R s => ppe_commit_and_prove (R := R) sch' (q w crs) (nseq m 0) (nseq n 0) crs s)| <= key_adv s1 s2 B1 + bad_point s1 s2).
Proof. exact: @ppe_comp_zk. Qed.
Print Assumptions C53_ppe.

Theorem C53_ppe_ddh : forall (F : finFieldType) (A B C : lmodType F) (e : A -> B -> C), let E := Pairing e in
  forall (O1 O2 W : finType) (s1 : O1 -> A) (s2 : O2 -> B) (D : W -> CRS E -> pred _) (sch sch' : sched) (m n : nat)
  (q : W -> CRS E -> PPE E) (X : W -> CRS E -> seq A) (Y : W -> CRS E -> seq B) (k l : W -> CRS E -> F) (P : W -> CRS E -> A) (Q : W -> CRS E -> B),
  bilinear E -> nondegenerate E -> cyclic (G1 E) -> cyclic (G2 E) -> valid_sched sch -> valid_sched sch' -> (0 < m)%N -> (0 < n)%N ->
  (forall w crs, size (X w crs) = m /\ size (Y w crs) = n) ->
  (forall w crs, proper_crs crs -> ppe_wf (q w crs) m n /\ ppe_holds (q w crs) (X w crs) (Y w crs)) ->
  (forall w crs, proper_crs crs -> ppe_target (q w crs) = e (k w crs *: g1_gen crs) (Q w crs) + e (P w crs) (l w crs *: g2_gen crs)) ->
  let B1 := proof_test (N := (2 * m + (2 * n + 4))%N) D public (fun w crs R s => ppe_commit_and_prove (R := R) sch (q w crs) (X w crs) (Y w crs) crs s) in
  is_true (`|game s1 s2 real_crs B1 -
    sim_game (2 * m + (2 * n + 4))%N D s1 s2 (fun t1 t2 w crs p => public (ppe_fix (E := E) t1 t2 (k w crs) (l w crs) (P w crs) (Q w crs) p))
      (fun w crs R s => ppe_commit_and_prove (R := R) sch' (q w crs) (nseq m 0) (nseq n 0) crs s)| <= 
  (ddh_adv s1 (ddh1 s2 B1) + ddh_adv s1 (ddh2 s2 B1) + ddh_adv s2 (ddh3 s1 B1) + ddh_adv s2 (ddh4 s1 B1)) + bad_point s1 s2).
Proof. exact: @ppe_comp_zk_ddh. Qed.
Print Assumptions C53_ppe_ddh.

Example C50_ppe_case : forall D : bool -> CRS toy -> pred _, let s := fun b : bool => (if b then n7 3 else n7 2) : F7o in
  let B1 := proof_test (N := (2 * 2 + (2 * 1 + 4))%N) D public (fun w crs R s => ppe_commit_and_prove (E := toy) (R := R) fwd ppe0 (if w then xs0 else xs1) (if w then ys0 else ys1) crs s) in
  let B2 := proof_test (N := (2 * 2 + (2 * 1 + 4))%N) D public (fun w crs R s => ppe_commit_and_prove (E := toy) (R := R) bwd ppe0 xs1 ys1 crs s) in
  is_true (`|game (F := F7f) (e := toy_e) s s real_crs B1 - game s s real_crs B2| <= key_adv s s B1 + key_adv s s B2).
Proof.
move=> D s B1 B2; have -> : key_adv s s B1 + key_adv s s B2 = key_adv s s B1 + key_adv s s B2 + bad_point (F := F7f) s s.
  by rewrite /bad_point Pr_none ?addr0 // => -[[] []].
apply: (C50_ppe (F := F7f) (e := toy_e) (X := fun w _ => if w then xs0 else xs1) (Y := fun w _ => if w then ys0 else ys1) (X' := fun _ _ => xs1) (Y' := fun _ _ => ys1) (q := fun _ _ => ppe0) (m := 2) (n := 1) s s D toy_bilinear toy_nondegenerate toy_cyclic toy_cyclic fwd_valid bwd_valid) => //.
- by case.
- by case=> _ _; split; by [exact: ppe0_wf|exact: ppe0_holds|exact: ppe0_holds1].
Qed.

Example C53_ppe_case : forall D : bool -> CRS toy -> pred _, let s := fun b : bool => (if b then n7 3 else n7 2) : F7o in
  let B1 := proof_test (N := (2 * 2 + (2 * 1 + 4))%N) D public (fun w crs R s => ppe_commit_and_prove (E := toy) (R := R) fwd ppe0 (if w then xs0 else xs1) (if w then ys0 else ys1) crs s) in
  is_true (`|game (F := F7f) (e := toy_e) s s real_crs B1 -
    sim_game (F := F7f) (e := toy_e) (2 * 2 + (2 * 1 + 4))%N D s s (fun t1 t2 w crs p => public (ppe_fix (E := toy) t1 t2 0 (ppe_target ppe0 / g2_gen crs : F7) (1 : F7o) (0 : F7o) p))
      (fun w crs R s => ppe_commit_and_prove (E := toy) (R := R) bwd ppe0 (nseq 2 0) (nseq 1 0) crs s)| <= key_adv s s B1).
Proof.
move=> D s B1; have -> : key_adv s s B1 = key_adv s s B1 + bad_point (F := F7f) s s.
  by rewrite /bad_point Pr_none ?addr0 // => -[[] []].
apply: (C53_ppe (F := F7f) (e := toy_e) (X := fun w _ => if w then xs0 else xs1) (Y := fun w _ => if w then ys0 else ys1) (q := fun _ _ => ppe0) (m := 2) (n := 1) (k := fun _ _ => 0) (l := fun _ (crs : CRS toy) => ppe_target ppe0 / (g2_gen crs : F7) : F7) (P := fun _ _ => 1 : F7o) (Q := fun _ _ => 0 : F7o) s s D toy_bilinear toy_nondegenerate toy_cyclic toy_cyclic fwd_valid bwd_valid) => //.
- by case.
- by case=> _ _; split; by [exact: ppe0_wf|exact: ppe0_holds|exact: ppe0_holds1].
- by move=> _ crs [_ h2]; rewrite /toy_e /GRing.scale /= !mulr0 add0r mul1r divfK.
Qed.

Theorem C50_ms1 : forall (F : finFieldType) (A B C : lmodType F) (e : A -> B -> C), let E := Pairing e in
  forall (O1 O2 W : finType) (s1 : O1 -> A) (s2 : O2 -> B) (D : W -> CRS E -> pred _) (sch sch' : sched) (m n : nat)
  (q : W -> CRS E -> MSMEG1 E) (X X' : W -> CRS E -> seq A) (Y Y' : W -> CRS E -> seq F),
  bilinear E -> nondegenerate E -> cyclic (G1 E) -> cyclic (G2 E) -> valid_sched sch -> valid_sched sch' -> (0 < m)%N -> (0 < n)%N ->
  (forall w crs, [/\ size (X w crs) = m, size (Y w crs) = n, size (X' w crs) = m & size (Y' w crs) = n]) ->
  (forall w crs, proper_crs crs -> [/\ ms1_wf (q w crs) m n, ms1_holds (q w crs) (X w crs) (Y w crs) & ms1_holds (q w crs) (X' w crs) (Y' w crs)]) ->
  let B1 := proof_test (N := (2 * m + (n + 2))%N) D public (fun w crs R s => ms1_commit_and_prove (R := R) sch (q w crs) (X w crs) (Y w crs) crs s) in
  let B2 := proof_test (N := (2 * m + (n + 2))%N) D public (fun w crs R s => ms1_commit_and_prove (R := R) sch' (q w crs) (X' w crs) (Y' w crs) crs s) in
  is_true (`|game s1 s2 real_crs B1 - game s1 s2 real_crs B2| <= key_adv s1 s2 B1 + key_adv s1 s2 B2 + bad_point s1 s2).
Proof. exact: @ms1_comp_wi. Qed.
Print Assumptions C50_ms1.

Theorem C50_ms1_ddh : forall (F : finFieldType) (A B C : lmodType F) (e : A -> B -> C), let E := Pairing e in
  forall (O1 O2 W : finType) (s1 : O1 -> A) (s2 : O2 -> B) (D : W -> CRS E -> pred _) (sch sch' : sched) (m n : nat)
  (q : W -> CRS E -> MSMEG1 E) (X X' : W -> CRS E -> seq A) (Y Y' : W -> CRS E -> seq F),
  bilinear E -> nondegenerate E -> cyclic (G1 E) -> cyclic (G2 E) -> valid_sched sch -> valid_sched sch' -> (0 < m)%N -> (0 < n)%N ->
  (forall w crs, [/\ size (X w crs) = m, size (Y w crs) = n, size (X' w crs) = m & size (Y' w crs) = n]) ->
  (forall w crs, proper_crs crs -> [/\ ms1_wf (q w crs) m n, ms1_holds (q w crs) (X w crs) (Y w crs) & ms1_holds (q w crs) (X' w crs) (Y' w crs)]) ->
  let B1 := proof_test (N := (2 * m + (n + 2))%N) D public (fun w crs R s => ms1_commit_and_prove (R := R) sch (q w crs) (X w crs) (Y w crs) crs s) in
  let B2 := proof_test (N := (2 * m + (n + 2))%N) D public (fun w crs R s => ms1_commit_and_prove (R := R) sch' (q w crs) (X' w crs) (Y' w crs) crs s) in
  is_true (`|game s1 s2 real_crs B1 - game s1 s2 real_crs B2| <= 
  (ddh_adv s1 (ddh1 s2 B1) + ddh_adv s1 (ddh2 s2 B1) + ddh_adv s2 (ddh3 s1 B1) + ddh_adv s2 (ddh4 s1 B1))
  + (ddh_adv s1 (ddh1 s2 B2) + ddh_adv s1 (ddh2 s2 B2) + ddh_adv s2 (ddh3 s1 B2) + ddh_adv s2 (ddh4 s1 B2))
  + bad_point s1 s2).
Proof. exact: @ms1_comp_wi_ddh. Qed.
Print Assumptions C50_ms1_ddh.

Example C50_ms1_ddh_case D:= @C50_ms1_ddh F7f F7o F7o F7o toy_e [finType of bool] [finType of bool] [finType of bool] two_points two_points D fwd bwd 2 1 (fun _ _ => ms10) (pick xs0 xs1) (pick xs1 xs1) (pick ys0 ys1) (pick ys1 ys1) toy_bilinear toy_nondegenerate toy_cyclic toy_cyclic fwd_valid bwd_valid isT isT fam_sizes ms1_fam.

Theorem C53_ms1 : forall (F : finFieldType) (A B C : lmodType F) (e : A -> B -> C), let E := Pairing e in
  forall (O1 O2 W : finType) (s1 : O1 -> A) (s2 : O2 -> B) (D : W -> CRS E -> pred _) (sch sch' : sched) (m n : nat)
  (q : W -> CRS E -> MSMEG1 E) (X : W -> CRS E -> seq A) (Y : W -> CRS E -> seq F),
  bilinear E -> nondegenerate E -> cyclic (G1 E) -> cyclic (G2 E) -> valid_sched sch -> valid_sched sch' -> (0 < m)%N -> (0 < n)%N ->
  (forall w crs, size (X w crs) = m /\ size (Y w crs) = n) ->
  (forall w crs, proper_crs crs -> ms1_wf (q w crs) m n /\ ms1_holds (q w crs) (X w crs) (Y w crs)) ->
  let B1 := proof_test (N := (2 * m + (n + 2))%N) D public (fun w crs R s => ms1_commit_and_prove (R := R) sch (q w crs) (X w crs) (Y w crs) crs s) in
  is_true (`|game s1 s2 real_crs B1 -
    sim_game (2 * m + (n + 2))%N D s1 s2 (fun t1 t2 w crs p => public (ms1_fix (E := E) t1 t2 (q w crs) p))
      (fun w crs R s => ms1_commit_and_prove (R := R) sch' (q w crs) (nseq m 0) (nseq n 0) crs s)| <= key_adv s1 s2 B1 + bad_point s1 s2).
Proof. exact: @ms1_comp_zk. Qed.
Print Assumptions C53_ms1.

Theorem C53_ms1_ddh : forall (F : finFieldType) (A B C : lmodType F) (e : A -> B -> C), let E := Pairing e in
  forall (O1 O2 W : finType) (s1 : O1 -> A) (s2 : O2 -> B) (D : W -> CRS E -> pred _) (sch sch' : sched) (m n : nat)
  (q : W -> CRS E -> MSMEG1 E) (X : W -> CRS E -> seq A) (Y : W -> CRS E -> seq F),
  bilinear E -> nondegenerate E -> cyclic (G1 E) -> cyclic (G2 E) -> valid_sched sch -> valid_sched sch' -> (0 < m)%N -> (0 < n)%N ->
  (forall w crs, size (X w crs) = m /\ size (Y w crs) = n) ->
  (forall w crs, proper_crs crs -> ms1_wf (q w crs) m n /\ ms1_holds (q w crs) (X w crs) (Y w crs)) ->
  let B1 := proof_test (N := (2 * m + (n + 2))%N) D public (fun w crs R s => ms1_commit_and_prove (R := R) sch (q w crs) (X w crs) (Y w crs) crs s) in
  is_true (`|game s1 s2 real_crs B1 -
    sim_game (2 * m + (n + 2))%N D s1 s2 (fun t1 t2 w crs p => public (ms1_fix (E := E) t1 t2 (q w crs) p))
      (fun w crs R s => ms1_commit_and_prove (R := R) sch' (q w crs) (nseq m 0) (nseq n 0) crs s)| <= 
  (ddh_adv s1 (ddh1 s2 B1) + ddh_adv s1 (ddh2 s2 B1) + ddh_adv s2 (ddh3 s1 B1) + ddh_adv s2 (ddh4 s1 B1)) + bad_point s1 s2).
Proof. exact: @ms1_comp_zk_ddh. Qed.
Print Assumptions C53_ms1_ddh.

Example C50_ms1_case : forall D : bool -> CRS toy -> pred _, let s := fun b : bool => (if b then n7 3 else n7 2) : F7o in
  let B1 := proof_test (N := (2 * 2 + (1 + 2))%N) D public (fun w crs R s => ms1_commit_and_prove (E := toy) (R := R) fwd ms10 (if w then xs0 else xs1) (if w then ys0 else ys1) crs s) in
  let B2 := proof_test (N := (2 * 2 + (1 + 2))%N) D public (fun w crs R s => ms1_commit_and_prove (E := toy) (R := R) bwd ms10 xs1 ys1 crs s) in
  is_true (`|game (F := F7f) (e := toy_e) s s real_crs B1 - game s s real_crs B2| <= key_adv s s B1 + key_adv s s B2).
Proof.
move=> D s B1 B2; have -> : key_adv s s B1 + key_adv s s B2 = key_adv s s B1 + key_adv s s B2 + bad_point (F := F7f) s s.
  by rewrite /bad_point Pr_none ?addr0 // => -[[] []].
apply: (C50_ms1 (F := F7f) (e := toy_e) (X := fun w _ => if w then xs0 else xs1) (Y := fun w _ => if w then ys0 else ys1) (X' := fun _ _ => xs1) (Y' := fun _ _ => ys1) (q := fun _ _ => ms10) (m := 2) (n := 1) s s D toy_bilinear toy_nondegenerate toy_cyclic toy_cyclic fwd_valid bwd_valid) => //.
- by case.
- by case=> _ _; split; by [exact: ms10_wf|exact: ms10_holds|exact: ms10_holds1].
Qed.

Example C53_ms1_case : forall D : bool -> CRS toy -> pred _, let s := fun b : bool => (if b then n7 3 else n7 2) : F7o in
  let B1 := proof_test (N := (2 * 2 + (1 + 2))%N) D public (fun w crs R s => ms1_commit_and_prove (E := toy) (R := R) fwd ms10 (if w then xs0 else xs1) (if w then ys0 else ys1) crs s) in
  is_true (`|game (F := F7f) (e := toy_e) s s real_crs B1 -
    sim_game (F := F7f) (e := toy_e) (2 * 2 + (1 + 2))%N D s s (fun t1 t2 w crs p => public (ms1_fix (E := toy) t1 t2 ms10 p))
      (fun w crs R s => ms1_commit_and_prove (E := toy) (R := R) bwd ms10 (nseq 2 0) (nseq 1 0) crs s)| <= key_adv s s B1).
Proof.
move=> D s B1; have -> : key_adv s s B1 = key_adv s s B1 + bad_point (F := F7f) s s.
  by rewrite /bad_point Pr_none ?addr0 // => -[[] []].
apply: (C53_ms1 (F := F7f) (e := toy_e) (X := fun w _ => if w then xs0 else xs1) (Y := fun w _ => if w then ys0 else ys1) (q := fun _ _ => ms10) (m := 2) (n := 1) s s D toy_bilinear toy_nondegenerate toy_cyclic toy_cyclic fwd_valid bwd_valid) => //.
- by case.
- by case=> _ _; split; by [exact: ms10_wf|exact: ms10_holds|exact: ms10_holds1].
Qed.

Theorem C50_ms2 : forall (F : finFieldType) (A B C : lmodType F) (e : A -> B -> C), let E := Pairing e in
  forall (O1 O2 W : finType) (s1 : O1 -> A) (s2 : O2 -> B) (D : W -> CRS E -> pred _) (sch sch' : sched) (m n : nat)
  (q : W -> CRS E -> MSMEG2 E) (X X' : W -> CRS E -> seq F) (Y Y' : W -> CRS E -> seq B),
  bilinear E -> nondegenerate E -> cyclic (G1 E) -> cyclic (G2 E) -> valid_sched sch -> valid_sched sch' -> (0 < m)%N -> (0 < n)%N ->
  (forall w crs, [/\ size (X w crs) = m, size (Y w crs) = n, size (X' w crs) = m & size (Y' w crs) = n]) ->
  (forall w crs, proper_crs crs -> [/\ ms2_wf (q w crs) m n, ms2_holds (q w crs) (X w crs) (Y w crs) & ms2_holds (q w crs) (X' w crs) (Y' w crs)]) ->
  let B1 := proof_test (N := (m + (2 * n + 2))%N) D public (fun w crs R s => ms2_commit_and_prove (R := R) sch (q w crs) (X w crs) (Y w crs) crs s) in
  let B2 := proof_test (N := (m + (2 * n + 2))%N) D public (fun w crs R s => ms2_commit_and_prove (R := R) sch' (q w crs) (X' w crs) (Y' w crs) crs s) in
  is_true (`|game s1 s2 real_crs B1 - game s1 s2 real_crs B2| <= key_adv s1 s2 B1 + key_adv s1 s2 B2 + bad_point s1 s2).
Proof. exact: @ms2_comp_wi. Qed.
Print Assumptions C50_ms2.

Theorem C50_ms2_ddh : forall (F : finFieldType) (A B C : lmodType F) (e : A -> B -> C), let E := Pairing e in
  forall (O1 O2 W : finType) (s1 : O1 -> A) (s2 : O2 -> B) (D : W -> CRS E -> pred _) (sch sch' : sched) (m n : nat)
  (q : W -> CRS E -> MSMEG2 E) (X X' : W -> CRS E -> seq F) (Y Y' : W -> CRS E -> seq B),
  bilinear E -> nondegenerate E -> cyclic (G1 E) -> cyclic (G2 E) -> valid_sched sch -> valid_sched sch' -> (0 < m)%N -> (0 < n)%N ->
  (forall w crs, [/\ size (X w crs) = m, size (Y w crs) = n, size (X' w crs) = m & size (Y' w crs) = n]) ->
  (forall w crs, proper_crs crs -> [/\ ms2_wf (q w crs) m n, ms2_holds (q w crs) (X w crs) (Y w crs) & ms2_holds (q w crs) (X' w crs) (Y' w crs)]) ->
  let B1 := proof_test (N := (m + (2 * n + 2))%N) D public (fun w crs R s => ms2_commit_and_prove (R := R) sch (q w crs) (X w crs) (Y w crs) crs s) in
  let B2 := proof_test (N := (m + (2 * n + 2))%N) D public (fun w crs R s => ms2_commit_and_prove (R := R) sch' (q w crs) (X' w crs) (Y' w crs) crs s) in
  is_true (`|game s1 s2 real_crs B1 - game s1 s2 real_crs B2| <= 
  (ddh_adv s1 (ddh1 s2 B1) + ddh_adv s1 (ddh2 s2 B1) + ddh_adv s2 (ddh3 s1 B1) + ddh_adv s2 (ddh4 s1 B1))
  + (ddh_adv s1 (ddh1 s2 B2) + ddh_adv s1 (ddh2 s2 B2) + ddh_adv s2 (ddh3 s1 B2) + ddh_adv s2 (ddh4 s1 B2))
  + bad_point s1 s2).
Proof. exact: @ms2_comp_wi_ddh. Qed.
Print Assumptions C50_ms2_ddh.

Example C50_ms2_ddh_case D:= @C50_ms2_ddh F7f F7o F7o F7o toy_e [finType of bool] [finType of bool] [finType of bool] two_points two_points D fwd bwd 2 1 (fun _ _ => ms20) (pick xs0 xs1) (pick xs1 xs1) (pick ys0 ys1) (pick ys1 ys1) toy_bilinear toy_nondegenerate toy_cyclic toy_cyclic fwd_valid bwd_valid isT isT fam_sizes ms2_fam.

Theorem C53_ms2 : forall (F : finFieldType) (A B C : lmodType F) (e : A -> B -> C), let E := Pairing e in
  forall (O1 O2 W : finType) (s1 : O1 -> A) (s2 : O2 -> B) (D : W -> CRS E -> pred _) (sch sch' : sched) (m n : nat)
  (q : W -> CRS E -> MSMEG2 E) (X : W -> CRS E -> seq F) (Y : W -> CRS E -> seq B),
  bilinear E -> nondegenerate E -> cyclic (G1 E) -> cyclic (G2 E) -> valid_sched sch -> valid_sched sch' -> (0 < m)%N -> (0 < n)%N ->
  (forall w crs, size (X w crs) = m /\ size (Y w crs) = n) ->
  (forall w crs, proper_crs crs -> ms2_wf (q w crs) m n /\ ms2_holds (q w crs) (X w crs) (Y w crs)) ->
  let B1 := proof_test (N := (m + (2 * n + 2))%N) D public (fun w crs R s => ms2_commit_and_prove (R := R) sch (q w crs) (X w crs) (Y w crs) crs s) in
  is_true (`|game s1 s2 real_crs B1 -
    sim_game (m + (2 * n + 2))%N D s1 s2 (fun t1 t2 w crs p => public (ms2_fix (E := E) t1 t2 (q w crs) p))
      (fun w crs R s => ms2_commit_and_prove (R := R) sch' (q w crs) (nseq m 0) (nseq n 0) crs s)| <= key_adv s1 s2 B1 + bad_point s1 s2).
Proof. exact: @ms2_comp_zk. Qed.
Print Assumptions C53_ms2.

Theorem C53_ms2_ddh : forall (F : finFieldType) (A B C : lmodType F) (e : A -> B -> C), let E := Pairing e in
  forall (O1 O2 W : finType) (s1 : O1 -> A) (s2 : O2 -> B) (D : W -> CRS E -> pred _) (sch sch' : sched) (m n : nat)
  (q : W -> CRS E -> MSMEG2 E) (X : W -> CRS E -> seq F) (Y : W -> CRS E -> seq B),
  bilinear E -> nondegenerate E -> cyclic (G1 E) -> cyclic (G2 E) -> valid_sched sch -> valid_sched sch' -> (0 < m)%N -> (0 < n)%N ->
  (forall w crs, size (X w crs) = m /\ size (Y w crs) = n) ->
  (forall w crs, proper_crs crs -> ms2_wf (q w crs) m n /\ ms2_holds (q w crs) (X w crs) (Y w crs)) ->
  let B1 := proof_test (N := (m + (2 * n + 2))%N) D public (fun w crs R s => ms2_commit_and_prove (R := R) sch (q w crs) (X w crs) (Y w crs) crs s) in
  is_true (`|game s1 s2 real_crs B1 -
    sim_game (m + (2 * n + 2))%N D s1 s2 (fun t1 t2 w crs p => public (ms2_fix (E := E) t1 t2 (q w crs) p))
      (fun w crs R s => ms2_commit_and_prove (R := R) sch' (q w crs) (nseq m 0) (nseq n 0) crs s)| <= 
  (ddh_adv s1 (ddh1 s2 B1) + ddh_adv s1 (ddh2 s2 B1) + ddh_adv s2 (ddh3 s1 B1) + ddh_adv s2 (ddh4 s1 B1)) + bad_point s1 s2).
Proof. exact: @ms2_comp_zk_ddh. Qed.
Print Assumptions C53_ms2_ddh.

Example C50_ms2_case : forall D : bool -> CRS toy -> pred _, let s := fun b : bool => (if b then n7 3 else n7 2) : F7o in
  let B1 := proof_test (N := (2 + (2 * 1 + 2))%N) D public (fun w crs R s => ms2_commit_and_prove (E := toy) (R := R) fwd ms20 (if w then xs0 else xs1) (if w then ys0 else ys1) crs s) in
  let B2 := proof_test (N := (2 + (2 * 1 + 2))%N) D public (fun w crs R s => ms2_commit_and_prove (E := toy) (R := R) bwd ms20 xs1 ys1 crs s) in
  is_true (`|game (F := F7f) (e := toy_e) s s real_crs B1 - game s s real_crs B2| <= key_adv s s B1 + key_adv s s B2).
Proof.
move=> D s B1 B2; have -> : key_adv s s B1 + key_adv s s B2 = key_adv s s B1 + key_adv s s B2 + bad_point (F := F7f) s s.
  by rewrite /bad_point Pr_none ?addr0 // => -[[] []].
apply: (C50_ms2 (F := F7f) (e := toy_e) (X := fun w _ => if w then xs0 else xs1) (Y := fun w _ => if w then ys0 else ys1) (X' := fun _ _ => xs1) (Y' := fun _ _ => ys1) (q := fun _ _ => ms20) (m := 2) (n := 1) s s D toy_bilinear toy_nondegenerate toy_cyclic toy_cyclic fwd_valid bwd_valid) => //.
- by case.
- by case=> _ _; split; by [exact: ms20_wf|exact: ms20_holds|exact: ms20_holds1].
Qed.

Example C53_ms2_case : forall D : bool -> CRS toy -> pred _, let s := fun b : bool => (if b then n7 3 else n7 2) : F7o in
  let B1 := proof_test (N := (2 + (2 * 1 + 2))%N) D public (fun w crs R s => ms2_commit_and_prove (E := toy) (R := R) fwd ms20 (if w then xs0 else xs1) (if w then ys0 else ys1) crs s) in
  is_true (`|game (F := F7f) (e := toy_e) s s real_crs B1 -
    sim_game (F := F7f) (e := toy_e) (2 + (2 * 1 + 2))%N D s s (fun t1 t2 w crs p => public (ms2_fix (E := toy) t1 t2 ms20 p))
      (fun w crs R s => ms2_commit_and_prove (E := toy) (R := R) bwd ms20 (nseq 2 0) (nseq 1 0) crs s)| <= key_adv s s B1).
Proof.
move=> D s B1; have -> : key_adv s s B1 = key_adv s s B1 + bad_point (F := F7f) s s.
  by rewrite /bad_point Pr_none ?addr0 // => -[[] []].
apply: (C53_ms2 (F := F7f) (e := toy_e) (X := fun w _ => if w then xs0 else xs1) (Y := fun w _ => if w then ys0 else ys1) (q := fun _ _ => ms20) (m := 2) (n := 1) s s D toy_bilinear toy_nondegenerate toy_cyclic toy_cyclic fwd_valid bwd_valid) => //.
- by case.
- by case=> _ _; split; by [exact: ms20_wf|exact: ms20_holds|exact: ms20_holds1].
Qed.

Theorem C50_quad : forall (F : finFieldType) (A B C : lmodType F) (e : A -> B -> C), let E := Pairing e in
  forall (O1 O2 W : finType) (s1 : O1 -> A) (s2 : O2 -> B) (D : W -> CRS E -> pred _) (sch sch' : sched) (m n : nat)
  (q : W -> CRS E -> QuadEqu E) (X X' : W -> CRS E -> seq F) (Y Y' : W -> CRS E -> seq F),
  bilinear E -> nondegenerate E -> cyclic (G1 E) -> cyclic (G2 E) -> valid_sched sch -> valid_sched sch' -> (0 < m)%N -> (0 < n)%N ->
  (forall w crs, [/\ size (X w crs) = m, size (Y w crs) = n, size (X' w crs) = m & size (Y' w crs) = n]) ->
  (forall w crs, proper_crs crs -> [/\ quad_wf (q w crs) m n, quad_holds (q w crs) (X w crs) (Y w crs) & quad_holds (q w crs) (X' w crs) (Y' w crs)]) ->
  let B1 := proof_test (N := (m + (n + 1))%N) D public (fun w crs R s => quad_commit_and_prove (R := R) sch (q w crs) (X w crs) (Y w crs) crs s) in
  let B2 := proof_test (N := (m + (n + 1))%N) D public (fun w crs R s => quad_commit_and_prove (R := R) sch' (q w crs) (X' w crs) (Y' w crs) crs s) in
  is_true (`|game s1 s2 real_crs B1 - game s1 s2 real_crs B2| <= key_adv s1 s2 B1 + key_adv s1 s2 B2 + bad_point s1 s2).
Proof. exact: @quad_comp_wi. Qed.
Print Assumptions C50_quad.

Theorem C50_quad_ddh : forall (F : finFieldType) (A B C : lmodType F) (e : A -> B -> C), let E := Pairing e in
  forall (O1 O2 W : finType) (s1 : O1 -> A) (s2 : O2 -> B) (D : W -> CRS E -> pred _) (sch sch' : sched) (m n : nat)
  (q : W -> CRS E -> QuadEqu E) (X X' : W -> CRS E -> seq F) (Y Y' : W -> CRS E -> seq F),
  bilinear E -> nondegenerate E -> cyclic (G1 E) -> cyclic (G2 E) -> valid_sched sch -> valid_sched sch' -> (0 < m)%N -> (0 < n)%N ->
  (forall w crs, [/\ size (X w crs) = m, size (Y w crs) = n, size (X' w crs) = m & size (Y' w crs) = n]) ->
  (forall w crs, proper_crs crs -> [/\ quad_wf (q w crs) m n, quad_holds (q w crs) (X w crs) (Y w crs) & quad_holds (q w crs) (X' w crs) (Y' w crs)]) ->
  let B1 := proof_test (N := (m + (n + 1))%N) D public (fun w crs R s => quad_commit_and_prove (R := R) sch (q w crs) (X w crs) (Y w crs) crs s) in
  let B2 := proof_test (N := (m + (n + 1))%N) D public (fun w crs R s => quad_commit_and_prove (R := R) sch' (q w crs) (X' w crs) (Y' w crs) crs s) in
  is_true (`|game s1 s2 real_crs B1 - game s1 s2 real_crs B2| <= 
  (ddh_adv s1 (ddh1 s2 B1) + ddh_adv s1 (ddh2 s2 B1) + ddh_adv s2 (ddh3 s1 B1) + ddh_adv s2 (ddh4 s1 B1))
  + (ddh_adv s1 (ddh1 s2 B2) + ddh_adv s1 (ddh2 s2 B2) + ddh_adv s2 (ddh3 s1 B2) + ddh_adv s2 (ddh4 s1 B2))
  + bad_point s1 s2).
Proof. exact: @quad_comp_wi_ddh. Qed.
Print Assumptions C50_quad_ddh.

Example C50_quad_ddh_case D:= @C50_quad_ddh F7f F7o F7o F7o toy_e [finType of bool] [finType of bool] [finType of bool] two_points two_points D fwd bwd 2 1 (fun _ _ => quad0) (pick xs0 xs1) (pick xs1 xs1) (pick ys0 ys1) (pick ys1 ys1) toy_bilinear toy_nondegenerate toy_cyclic toy_cyclic fwd_valid bwd_valid isT isT fam_sizes quad_fam.

Theorem C53_quad : forall (F : finFieldType) (A B C : lmodType F) (e : A -> B -> C), let E := Pairing e in
  forall (O1 O2 W : finType) (s1 : O1 -> A) (s2 : O2 -> B) (D : W -> CRS E -> pred _) (sch sch' : sched) (m n : nat)
  (q : W -> CRS E -> QuadEqu E) (X : W -> CRS E -> seq F) (Y : W -> CRS E -> seq F),
  bilinear E -> nondegenerate E -> cyclic (G1 E) -> cyclic (G2 E) -> valid_sched sch -> valid_sched sch' -> (0 < m)%N -> (0 < n)%N ->
  (forall w crs, size (X w crs) = m /\ size (Y w crs) = n) ->
  (forall w crs, proper_crs crs -> quad_wf (q w crs) m n /\ quad_holds (q w crs) (X w crs) (Y w crs)) ->
  let B1 := proof_test (N := (m + (n + 1))%N) D public (fun w crs R s => quad_commit_and_prove (R := R) sch (q w crs) (X w crs) (Y w crs) crs s) in
  is_true (`|game s1 s2 real_crs B1 -
    sim_game (m + (n + 1))%N D s1 s2 (fun t1 t2 w crs p => public (quad_fix (E := E) t1 t2 (q w crs) crs p))
      (fun w crs R s => quad_commit_and_prove (R := R) sch' (q w crs) (nseq m 0) (nseq n 0) crs s)| <= key_adv s1 s2 B1 + bad_point s1 s2).
Proof. exact: @quad_comp_zk. Qed.
Print Assumptions C53_quad.

Theorem C53_quad_ddh : forall (F : finFieldType) (A B C : lmodType F) (e : A -> B -> C), let E := Pairing e in
  forall (O1 O2 W : finType) (s1 : O1 -> A) (s2 : O2 -> B) (D : W -> CRS E -> pred _) (sch sch' : sched) (m n : nat)
  (q : W -> CRS E -> QuadEqu E) (X : W -> CRS E -> seq F) (Y : W -> CRS E -> seq F),
  bilinear E -> nondegenerate E -> cyclic (G1 E) -> cyclic (G2 E) -> valid_sched sch -> valid_sched sch' -> (0 < m)%N -> (0 < n)%N ->
  (forall w crs, size (X w crs) = m /\ size (Y w crs) = n) ->
  (forall w crs, proper_crs crs -> quad_wf (q w crs) m n /\ quad_holds (q w crs) (X w crs) (Y w crs)) ->
  let B1 := proof_test (N := (m + (n + 1))%N) D public (fun w crs R s => quad_commit_and_prove (R := R) sch (q w crs) (X w crs) (Y w crs) crs s) in
  is_true (`|game s1 s2 real_crs B1 -
    sim_game (m + (n + 1))%N D s1 s2 (fun t1 t2 w crs p => public (quad_fix (E := E) t1 t2 (q w crs) crs p))
      (fun w crs R s => quad_commit_and_prove (R := R) sch' (q w crs) (nseq m 0) (nseq n 0) crs s)| <= 
  (ddh_adv s1 (ddh1 s2 B1) + ddh_adv s1 (ddh2 s2 B1) + ddh_adv s2 (ddh3 s1 B1) + ddh_adv s2 (ddh4 s1 B1)) + bad_point s1 s2).
Proof. exact: @quad_comp_zk_ddh. Qed.
Print Assumptions C53_quad_ddh.

Example C50_quad_case : forall D : bool -> CRS toy -> pred _, let s := fun b : bool => (if b then n7 3 else n7 2) : F7o in
  let B1 := proof_test (N := (2 + (1 + 1))%N) D public (fun w crs R s => quad_commit_and_prove (E := toy) (R := R) fwd quad0 (if w then xs0 else xs1) (if w then ys0 else ys1) crs s) in
  let B2 := proof_test (N := (2 + (1 + 1))%N) D public (fun w crs R s => quad_commit_and_prove (E := toy) (R := R) bwd quad0 xs1 ys1 crs s) in
  is_true (`|game (F := F7f) (e := toy_e) s s real_crs B1 - game s s real_crs B2| <= key_adv s s B1 + key_adv s s B2).
Proof.
move=> D s B1 B2; have -> : key_adv s s B1 + key_adv s s B2 = key_adv s s B1 + key_adv s s B2 + bad_point (F := F7f) s s.
  by rewrite /bad_point Pr_none ?addr0 // => -[[] []].
apply: (C50_quad (F := F7f) (e := toy_e) (X := fun w _ => if w then xs0 else xs1) (Y := fun w _ => if w then ys0 else ys1) (X' := fun _ _ => xs1) (Y' := fun _ _ => ys1) (q := fun _ _ => quad0) (m := 2) (n := 1) s s D toy_bilinear toy_nondegenerate toy_cyclic toy_cyclic fwd_valid bwd_valid) => //.
- by case.
- by case=> _ _; split; by [exact: quad0_wf|exact: quad0_holds|exact: quad0_holds1].
Qed.

Example C53_quad_case : forall D : bool -> CRS toy -> pred _, let s := fun b : bool => (if b then n7 3 else n7 2) : F7o in
  let B1 := proof_test (N := (2 + (1 + 1))%N) D public (fun w crs R s => quad_commit_and_prove (E := toy) (R := R) fwd quad0 (if w then xs0 else xs1) (if w then ys0 else ys1) crs s) in
  is_true (`|game (F := F7f) (e := toy_e) s s real_crs B1 -
    sim_game (F := F7f) (e := toy_e) (2 + (1 + 1))%N D s s (fun t1 t2 w crs p => public (quad_fix (E := toy) t1 t2 quad0 crs p))
      (fun w crs R s => quad_commit_and_prove (E := toy) (R := R) bwd quad0 (nseq 2 0) (nseq 1 0) crs s)| <= key_adv s s B1).
Proof.
move=> D s B1; have -> : key_adv s s B1 = key_adv s s B1 + bad_point (F := F7f) s s.
  by rewrite /bad_point Pr_none ?addr0 // => -[[] []].
apply: (C53_quad (F := F7f) (e := toy_e) (X := fun w _ => if w then xs0 else xs1) (Y := fun w _ => if w then ys0 else ys1) (q := fun _ _ => quad0) (m := 2) (n := 1) s s D toy_bilinear toy_nondegenerate toy_cyclic toy_cyclic fwd_valid bwd_valid) => //.
- by case.
- by case=> _ _; split; by [exact: quad0_wf|exact: quad0_holds|exact: quad0_holds1].
Qed.
