(** A two-round session on the toy pairing. *)
From mathcomp Require Import all_ssreflect all_algebra.
From Verif Require Import Base BaseLemmas Group DataStructures Generator Commit Statement Prove Spec SpecVerify SpecHide SpecSxdh SpecMulti SpecAdaptive.
From Verif Require Import Concrete Concrete2 Concrete4 Concrete5 Concrete6.
Set Implicit Arguments.
Unset Strict Implicit.
Unset Printing Implicit Defensive.
Import GRing.Theory.
Local Open Scope ring_scope.

(** Two requests: the first is a system of five equations; the second depends on the first commitment in the
    first answer, and so do its witnesses. *)
Definition again (h : seq (@answer toy)) : bool := if h is a :: _ then (head 0 a.1.1.1.1).1 == (0 : F7o) else true.
Definition ask (h : seq (@answer toy)) : seq (eqn toy) := if again h then sys0 else [:: EqQuad quad0].
Definition reply (h : seq (@answer toy)) : assign toy := if again h then v0 else v4.
Definition reply' (h : seq (@answer toy)) : assign toy := if again h then v4 else v0.
Lemma ask_small h : (system_draws (ask h) (reply h) <= 22)%N.
Proof. by rewrite /ask /reply; case: (again h). Qed.
Lemma ask_ok h : [/\ same_sizes (reply h) (reply' h), every (fun q => eqn_wf q (reply h)) (ask h),
  every (fun q => eqn_holds q (reply h)) (ask h) & every (fun q => eqn_holds q (reply' h)) (ask h)].
Proof.
have w v := @sys0_wf v; have a := sys0_v0; have b := sys0_v4.
rewrite /ask /reply /reply'; case: (again h); split=> //.
- exact: w.
- by have := w v4 erefl erefl erefl erefl; rewrite /sys0 /every; tauto.
- by move: b; rewrite /sys0 /every; tauto.
- by move: a; rewrite /sys0 /every; tauto.
Qed.
Definition askf (crs : CRS toy) (h : seq (@answer toy)) : seq (eqn toy * gt_form toy) := [seq (q, form0 crs) | q <- ask h].
