(** Families of statements used in examples. Not a model of any code in /repo. *)
From mathcomp Require Import all_ssreflect all_algebra.
From Verif Require Import Base BaseLemmas Group DataStructures Generator Commit Statement Prove Verify Spec SpecApi SpecMulti Concrete Concrete2 Concrete4 Concrete6 Concrete25.
Set Implicit Arguments.
Unset Strict Implicit.
Unset Printing Implicit Defensive.
Import GRing.Theory.
Local Open Scope ring_scope.

Lemma b1_G : built1 crs0 [seq inl x | x <- (xs0 : seq (G1 toy))] many_G10.1. Proof. exact: (Built1_batch_G many_G10E). Qed.
Lemma b1_B : built1 crs0 [seq inr x | x <- (xs0 : seq (Fr toy))] many_B10.1. Proof. exact: (Built1_batch_B many_B10E). Qed.
Definition many_ys_G := value (com0, 0%N) (batch_commit_G2 (E := toy) (R := ctr) ys0 crs0 3%N).
Lemma many_ys_GE : batch_commit_G2 (E := toy) (R := ctr) ys0 crs0 3%N = Ok (many_ys_G.1, many_ys_G.2). Proof. exact: got. Qed.
Definition many_ys_B := value (com0, 0%N) (batch_commit_scalar_to_B2 (E := toy) (R := ctr) ys0 crs0 3%N).
Lemma many_ys_BE : batch_commit_scalar_to_B2 (E := toy) (R := ctr) ys0 crs0 3%N = Ok (many_ys_B.1, many_ys_B.2). Proof. exact: got. Qed.
Lemma b2_G : built2 crs0 [seq inl x | x <- (ys0 : seq (G2 toy))] many_ys_G.1. Proof. exact: (Built2_batch_G many_ys_GE). Qed.
Lemma b2_B : built2 crs0 [seq inr x | x <- (ys0 : seq (Fr toy))] many_ys_B.1. Proof. exact: (Built2_batch_B many_ys_BE). Qed.

Definition pick (T : Type) (a b : T) (w : bool) (_ : CRS toy) : T := if w then a else b.
Lemma fam_sizes (w : bool) (crs : CRS toy) : [/\ size (pick xs0 xs1 w crs) = 2%N, size (pick ys0 ys1 w crs) = 1%N, size (pick xs1 xs1 w crs) = 2%N & size (pick ys1 ys1 w crs) = 1%N].
Proof. by case: w. Qed.
Lemma ppe_fam (w : bool) (crs : CRS toy) : proper_crs crs -> [/\ ppe_wf ppe0 2 1, ppe_holds ppe0 (pick xs0 xs1 w crs) (pick ys0 ys1 w crs) & ppe_holds ppe0 (pick xs1 xs1 w crs) (pick ys1 ys1 w crs)].
Proof. by move=> _; case: w; split; by [exact: ppe0_wf|exact: ppe0_holds|exact: ppe0_holds1]. Qed.
Lemma ms1_fam (w : bool) (crs : CRS toy) : proper_crs crs -> [/\ ms1_wf ms10 2 1, ms1_holds ms10 (pick xs0 xs1 w crs) (pick ys0 ys1 w crs) & ms1_holds ms10 (pick xs1 xs1 w crs) (pick ys1 ys1 w crs)].
Proof. by move=> _; case: w; split; by [exact: ms10_wf|exact: ms10_holds|exact: ms10_holds1]. Qed.
Lemma ms2_fam (w : bool) (crs : CRS toy) : proper_crs crs -> [/\ ms2_wf ms20 2 1, ms2_holds ms20 (pick xs0 xs1 w crs) (pick ys0 ys1 w crs) & ms2_holds ms20 (pick xs1 xs1 w crs) (pick ys1 ys1 w crs)].
Proof. by move=> _; case: w; split; by [exact: ms20_wf|exact: ms20_holds|exact: ms20_holds1]. Qed.
Lemma quad_fam (w : bool) (crs : CRS toy) : proper_crs crs -> [/\ quad_wf quad0 2 1, quad_holds quad0 (pick xs0 xs1 w crs) (pick ys0 ys1 w crs) & quad_holds quad0 (pick xs1 xs1 w crs) (pick ys1 ys1 w crs)].
Proof. by move=> _; case: w; split; by [exact: quad0_wf|exact: quad0_holds|exact: quad0_holds1]. Qed.
Lemma v0_wf : every (fun q => eqn_wf q v0) sys0. Proof. exact: sys0_wf. Qed.
Lemma v4_wf : every (fun q => eqn_wf q v4) sys0. Proof. exact: sys0_wf. Qed.
Lemma v04_sizes : same_sizes v0 v4. Proof. by []. Qed.
Lemma sys0f_wf crs : every (fun q => eqn_wf q.1 v0) (sys0f crs).
Proof. by have := v0_wf; rewrite /every /sys0f /=; tauto. Qed.
Lemma sys0f_holds crs : every (fun q => eqn_holds q.1 v0) (sys0f crs).
Proof. by have := sys0_v0; rewrite /every /sys0f /=; tauto. Qed.
Definition v04 (w : bool) (_ : CRS toy) : assign toy := if w then v0 else v4.
Lemma sys_fam (w : bool) (crs : CRS toy) : proper_crs crs ->
  [/\ same_sizes (v04 w crs) v4, every (fun q => eqn_wf q (v04 w crs)) sys0, every (fun q => eqn_holds q (v04 w crs)) sys0 & every (fun q => eqn_holds q v4) sys0].
Proof. by move=> _; case: w; split=> //; by [exact: v0_wf|exact: v4_wf|exact: sys0_v0|exact: sys0_v4]. Qed.
Lemma sys_fam_draws (w : bool) (crs : CRS toy) : proper_crs crs -> system_draws sys0 (v04 w crs) = 22%N.
Proof. by case: w. Qed.
Lemma sysf_fam (w : bool) (crs : CRS toy) : proper_crs crs ->
  [/\ every (fun q => eqn_wf q.1 v0) (sys0f crs), every (fun q => eqn_holds q.1 v0) (sys0f crs) & every (fun q => eqn_form crs q.1 q.2) (sys0f crs)].
Proof. by move=> h; split; [exact: sys0f_wf|exact: sys0f_holds|exact: form0P]. Qed.
Lemma sysf_fam_draws (w : bool) (crs : CRS toy) : proper_crs crs -> system_draws [seq q.1 | q <- sys0f crs] v0 = 22%N.
Proof. by []. Qed.
Definition coms0 : coms4 toy := mkComs4 (E := toy) many_G10.1 many_B10.1 many_ys_G.1 many_ys_B.1.

(** Two secret points, neither the identity. *)
Definition two_points (b : bool) : F7o := if b then n7 3 else n7 2.
