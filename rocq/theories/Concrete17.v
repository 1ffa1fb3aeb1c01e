(** The toy equations restated about a longer list of variables: the two variables of the
    left group become the third and the first of three, that of the right group becomes the
    second of two. *)
From mathcomp Require Import all_ssreflect all_algebra.
From Verif Require Import Base Group DataStructures Generator Commit Statement Prove Verify Spec SpecPad Concrete Concrete2.
Set Implicit Arguments.
Unset Strict Implicit.
Unset Printing Implicit Defensive.
Import GRing.Theory.
Local Open Scope ring_scope.

Definition f17 (i : nat) : nat := if i is 0%N then 2%N else 0%N.
Definition g17 (j : nat) : nat := 1%N.
Definition xs17 : seq F7 := [:: n7 5; n7 6; n7 3].
Definition ys17 : seq F7 := [:: n7 2; n7 4].
Definition gamma17 : matrix F7 := [:: [:: n7 0; n7 6]; [:: n7 0; n7 0]; [:: n7 0; n7 2]].
(** A proof with a commitment more on each side. *)
Definition more17 (p : CProof toy) : CProof toy :=
  mkCProof (mkCommit [:: nth 0 (coms (xcoms p)) 1; ((n7 1, n7 2) : Com1 toy); nth 0 (coms (xcoms p)) 0] [::])
           (mkCommit [:: ((n7 3, n7 4) : Com2 toy); nth 0 (coms (ycoms p)) 0] [::]) (equ_proofs p).
(** Commitments whose randomness has a row more. *)
Definition cx17 (k : nat) : Commit1 toy := mkCommit [::] [:: nseq k (n7 2); nseq k (n7 3)].
Definition cx17' (k : nat) : Commit1 toy := mkCommit [::] [:: nseq k (n7 3); nseq k (n7 5); nseq k (n7 2)].
Definition cy17 (k : nat) : Commit2 toy := mkCommit [::] [:: nseq k (n7 6)].
Definition cy17' (k : nat) : Commit2 toy := mkCommit [::] [:: nseq k (n7 1); nseq k (n7 6)].

Lemma ren17f : renames 2 3 f17.
Proof. by split=> [[|[|?]]|[|[|?]] [|[|?]]]. Qed.
Lemma ren17g : renames 1 2 g17.
Proof. by split=> [[|?]|[|?] [|?]]. Qed.
Lemma unused17f k : unused 2 f17 k -> (k == 1)%N || (2 < k)%N.
Proof. by case: k => [|[|[|k]]] // h; [case: (h 1%N) | case: (h 0%N)]. Qed.
Lemma unused17g k : unused 1 g17 k -> (k == 0)%N || (1 < k)%N.
Proof. by case: k => [|[|k]] // h; case: (h 0%N). Qed.
Lemma pad17 (a0 a1 : F7o) : padded 2 f17 ([:: a0; a1] : seq F7o) [:: a1; 0; a0].
Proof.
split=> [[|[|?]]|k /unused17f] //; by case: k => [|[|[|k]]] // _; rewrite nth_default.
Qed.
Lemma pad17' (a : F7o) : padded 1 g17 ([:: a] : seq F7o) [:: 0; a].
Proof. split=> [[|?]|k /unused17g] //; by case: k => [|[|k]] // _; rewrite nth_default. Qed.
Lemma gam17 : padded_gamma (E := toy) 2 1 f17 g17 gamma0 gamma17.
Proof.
split=> [[|[|?]] [|?]|i j []] //.
  move/unused17f; case: i => [|[|[|i]]] // _; last by rewrite /entry nth_default // nth_default.
  by case: j => [|[|j]] //; rewrite /entry /= nth_default.
move/unused17g; case: j => [|[|j]] // _; case: i => [|[|[|i]]] //;
  by rewrite /entry ?[nth _ (_ :: _) _]/= ?nth_default // ?nth_default.
Qed.
Lemma xs17P : placed (0 : F7o) 2 f17 xs0 xs17.
Proof. by case=> [|[|?]]. Qed.
Lemma ys17P : placed (0 : F7o) 1 g17 ys0 ys17.
Proof. by case=> [|?]. Qed.
Lemma more17P p : placed_proof 2 1 f17 g17 p (more17 p).
Proof. by split=> // [[|[|?]]|[|?]]. Qed.
Lemma rand17x k : placed [::] 2 f17 (crand (cx17 k)) (crand (cx17' k)).
Proof. by case=> [|[|?]]. Qed.
Lemma rand17y k : placed [::] 1 g17 (crand (cy17 k)) (crand (cy17' k)).
Proof. by case=> [|?]. Qed.
Lemma dims17 k : [/\ dims 2 k (crand (cx17 k)), dims 3 k (crand (cx17' k)), dims 1 k (crand (cy17 k)) & dims 2 k (crand (cy17' k))].
Proof.
by split; split=> //; (do 3?[case=> [_|]; first by rewrite /= size_nseq]) => // ?; rewrite !ltnS ltn0.
Qed.
Lemma gdims17 : dims 3 2 gamma17.
Proof. by split=> //; (do 3?[case=> [_|]; first by []]) => // ?; rewrite !ltnS ltn0. Qed.

Definition ppe17 : PPE toy := mkPPE (E := toy) [:: n7 0; n7 1] [:: n7 3; n7 0; n7 2] gamma17 (n7 1).
Lemma ppe17P : ppe_padded 2 1 f17 g17 ppe0 ppe17.
Proof. by split; [exact: pad17' | exact: pad17 | exact: gam17 |]. Qed.
Lemma ppe17_wf : ppe_wf ppe17 3 2.
Proof. by split=> //; exact: gdims17. Qed.

Definition ms117 : MSMEG1 toy := mkMSMEG1 (E := toy) [:: n7 0; n7 1] [:: n7 3; n7 0; n7 2] gamma17 (n7 1).
Lemma ms117P : ms1_padded 2 1 f17 g17 ms10 ms117.
Proof. by split; [exact: pad17' | exact: pad17 | exact: gam17 |]. Qed.
Lemma ms117_wf : ms1_wf ms117 3 2.
Proof. by split=> //; exact: gdims17. Qed.

Definition ms217 : MSMEG2 toy := mkMSMEG2 (E := toy) [:: n7 0; n7 1] [:: n7 3; n7 0; n7 2] gamma17 (n7 1).
Lemma ms217P : ms2_padded 2 1 f17 g17 ms20 ms217.
Proof. by split; [exact: pad17' | exact: pad17 | exact: gam17 |]. Qed.
Lemma ms217_wf : ms2_wf ms217 3 2.
Proof. by split=> //; exact: gdims17. Qed.

Definition quad17 : QuadEqu toy := mkQuadEqu (E := toy) [:: n7 0; n7 1] [:: n7 3; n7 0; n7 2] gamma17 (n7 1).
Lemma quad17P : quad_padded 2 1 f17 g17 quad0 quad17.
Proof. by split; [exact: pad17' | exact: pad17 | exact: gam17 |]. Qed.
Lemma quad17_wf : quad_wf quad17 3 2.
Proof. by split=> //; exact: gdims17. Qed.
