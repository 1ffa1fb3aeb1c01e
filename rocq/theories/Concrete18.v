(** The systems of [Concrete6.v] and the session of [Concrete16.v] over the points of [Concrete13.v]. *)
From mathcomp Require Import all_ssreflect all_algebra.
From Verif Require Import Base Group DataStructures Generator Commit Statement Prove Spec SpecVerify SpecHide SpecSxdh SpecMulti SpecAdaptive.
From Verif Require Import Concrete Concrete2 Concrete4 Concrete5 Concrete6 Ark SpecArk ArkRel Concrete13 SpecArkGame Concrete15 SpecArkMulti.
Set Implicit Arguments.
Unset Strict Implicit.
Unset Printing Implicit Defensive.
Import GRing.Theory.
Local Open Scope ring_scope.

Definition tsys : seq (ark_eqn tark) := [:: ArkPPE tppe; ArkMS1 tms1; ArkMS2 tms2; ArkQuad (A := tark) tquad; ArkPPE tppe].
Definition tassign (v : assign toy) : ark_assign tark := @ark_mkAssign F7 tark (lift (aX v)) (ax v) (lift (aY v)) (ay v).
Lemma tassign_rel v : rassign (E := toy) (A := tark) trepr trepr v (tassign v).
Proof. by split=> //; exact: lift_rel. Qed.
Lemma tquad_rel' : reqn (E := toy) (A := tark) trepr trepr (fun x a => x = a) (EqQuad quad0) (ArkQuad (A := tark) tquad).
Proof. exact: tquad_rel. Qed.
Lemma tsys_rel : rseq (reqn (E := toy) (A := tark) trepr trepr (fun x a => x = a)) sys0 tsys.
Proof.
split; first exact: tppe_rel.
split; first exact: tms1_rel.
split; first exact: tms2_rel.
split; first exact: tquad_rel.
by split; first exact: tppe_rel.
Qed.

(** The second request depends on the first coordinate of the first commitment in the first answer. *)
Definition tagain (h : seq (ark_answer tark)) : bool :=
  if h is a :: _ then (head ark_com_zero a.1.1.1.1).1.1 == (0 : F7) else true.
Definition task (h : seq (ark_answer tark)) : seq (ark_eqn tark) := if tagain h then tsys else [:: ArkQuad (A := tark) tquad].
Definition task0 (h : seq (ark_answer tark)) : seq (eqn toy) := if tagain h then sys0 else [:: EqQuad quad0].
Definition treply (w : bool) (h : seq (ark_answer tark)) : assign toy := if w == tagain h then v0 else v4.
Lemma task_rel h : rseq (reqn (E := toy) (A := tark) trepr trepr (fun x a => x = a)) (task0 h) (task h).
Proof. by rewrite /task0 /task; case: (tagain h); [exact: tsys_rel | split; [exact: tquad_rel|]]. Qed.
Lemma task_small w h : (system_draws (task0 h) (treply w h) <= 22)%N.
Proof. by rewrite /task0 /treply; case: w; case: (tagain h). Qed.
Lemma task_ok w w' h : [/\ same_sizes (treply w h) (treply w' h), every (fun q => eqn_wf q (treply w h)) (task0 h),
  every (fun q => eqn_holds q (treply w h)) (task0 h) & every (fun q => eqn_holds q (treply w' h)) (task0 h)].
Proof.
have all0 u : every (fun q => eqn_holds q (treply u h)) (task0 h).
  have a := sys0_v0; have b := sys0_v4; rewrite /treply /task0; case: (tagain h); case: u => //=.
  - by move: b; rewrite /sys0 /every; tauto.
  - by move: a; rewrite /sys0 /every; tauto.
have wf0 u : every (fun q => eqn_wf q (treply u h)) (task0 h).
  have w0 := @sys0_wf v0 erefl erefl erefl erefl; have w4 := @sys0_wf v4 erefl erefl erefl erefl.
  rewrite /treply /task0; case: (tagain h); case: u => //=.
  - by move: w4; rewrite /sys0 /every; tauto.
  - by move: w0; rewrite /sys0 /every; tauto.
by split; [rewrite /treply; case: (w == _); case: (w' == _) | exact: wf0 | exact: all0 | exact: all0].
Qed.

(** The target of the pairing product equation, given through the second generator. *)
Definition tform (d : ark_CRS tark) : ark_gt_form tark :=
  @ark_mkForm F7 tark 0 (ppe_target ppe0 / ((ark_g2_gen d).1 : F7)) (in_group (n7 1)) (in_group (n7 0)).
Definition tform0 (d : ark_CRS tark) : gt_form toy :=
  mkForm (E := toy) 0 (ppe_target ppe0 / ((ark_g2_gen d).1 : F7) : F7) (n7 1 : F7o) (n7 0 : F7o).
Definition taskf (d : ark_CRS tark) (h : seq (ark_answer tark)) := [seq (q, tform d) | q <- task h].
Definition taskf0 (d : ark_CRS tark) (h : seq (ark_answer tark)) := [seq (q, tform0 d) | q <- task0 h].
Lemma taskf_rel d h : rseq (rpair (reqn (E := toy) (A := tark) trepr trepr (fun x a => x = a)) (rform (E := toy) (A := tark) trepr trepr)) (taskf0 d h) (taskf d h).
Proof. by apply: rmap (task_rel h) => x y hx; split. Qed.
Lemma every_map S T (f : S -> T) (P : T -> Prop) s : every (fun x => P (f x)) s -> every P [seq f x | x <- s].
Proof. by elim: s => //= x s IH [h /IH]. Qed.
Lemma every_imp T (P Q : T -> Prop) s : (forall x, P x -> Q x) -> every P s -> every Q s.
Proof. by move=> h; elim: s => //= x s IH [/h ? /IH]. Qed.
Lemma taskf_form crs d h : rcrs (E := toy) (A := tark) trepr trepr (fun x a => x = a) crs d -> proper_crs crs ->
  every (fun q => eqn_form crs q.1 q.2) (taskf0 d h).
Proof.
move=> [_ _ _ hg _] [_ h2]; apply: every_map.
have key : eqn_form crs (EqPPE ppe0) (tform0 d).
  move: hg; rewrite /eqn_form /tform0 /= /GRing.scale /= => ->.
  by rewrite !mulr0 add0r mul1r divfK.
by rewrite /task0; case: (tagain h); do !split.
Qed.
