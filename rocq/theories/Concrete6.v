(** Concrete cases for systems of equations. *)
From mathcomp Require Import all_ssreflect all_algebra.
From Verif Require Import Base Group DataStructures Generator Commit Statement Spec SpecMulti Concrete.
Set Implicit Arguments.
Unset Strict Implicit.
Unset Printing Implicit Defensive.
Import GRing.Theory.
Local Open Scope ring_scope.

(** A system with one equation of each type. *)
Definition sys0 : seq (eqn toy) := [:: EqPPE ppe0; EqMS1 ms10; EqMS2 ms20; EqQuad quad0; EqPPE ppe0].
Definition v0 : assign toy := mkAssign (E := toy) xs0 xs0 ys0 ys0.
Definition v4 : assign toy := mkAssign (E := toy) xs1 xs1 ys1 ys1.
Definition v3 : assign toy := mkAssign (E := toy) xs0 xs0 ys0 ys2.
Lemma sys0_wf v : size (aX v) = 2%N -> size (ax v) = 2%N -> size (aY v) = 1%N -> size (ay v) = 1%N -> every (fun q => eqn_wf q v) sys0.
Proof.
move=> h1 h2 h3 h4; rewrite /sys0 /every /eqn_wf h1 h2 h3 h4.
by split; [split=> //; exact: ppe0_wf | split; [split=> //; exact: ms10_wf | split; [split=> //; exact: ms20_wf | split; [split=> //; exact: quad0_wf | split=> //; split=> //; exact: ppe0_wf]]]].
Qed.
Lemma sys0_v0 : every (fun q => eqn_holds q v0) sys0.
Proof.
by split; [exact: ppe0_holds | split; [exact: ms10_holds | split; [exact: ms20_holds | split; [exact: quad0_holds | split=> //; exact: ppe0_holds]]]].
Qed.
Lemma sys0_v4 : every (fun q => eqn_holds q v4) sys0.
Proof.
by split; [exact: ppe0_holds1 | split; [exact: ms10_holds1 | split; [exact: ms20_holds1 | split; [exact: quad0_holds1 | split=> //; exact: ppe0_holds1]]]].
Qed.

(** The target of [ppe0] as [e(1, l g2)]. *)
Definition form0 (crs : CRS toy) : gt_form toy := mkForm (E := toy) 0 (ppe_target ppe0 / (g2_gen crs : F7) : F7) (1 : F7o) (0 : F7o).
Definition sys0f (crs : CRS toy) : seq (eqn toy * gt_form toy) := [seq (q, form0 crs) | q <- sys0].
Lemma form0P (crs : CRS toy) : proper_crs crs -> every (fun q => eqn_form crs q.1 q.2) (sys0f crs).
Proof.
move=> [_ h2]; have h : eqn_form crs (EqPPE ppe0) (form0 crs).
  by rewrite /eqn_form /form0 /= /GRing.scale /= !mulr0 add0r mul1r divfK.
by do !split.
Qed.
