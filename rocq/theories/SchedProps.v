(** The order of the parallel tasks does not change the outcome of [prove],
    [commit_and_prove] and [verify], panics included. *)
From mathcomp Require Import all_ssreflect all_algebra.
From Verif Require Import Base BaseLemmas Group DataStructures MatLemmas Commit Statement Prove Verify.
Set Implicit Arguments.
Unset Strict Implicit.
Unset Printing Implicit Defensive.
Import GRing.Theory.
Local Open Scope ring_scope.

Lemma eq_bind (A B : Type) (m m' : res A) (k k' : A -> res B) :
  m = m' -> (forall a, k a = k' a) -> bind m k = bind m' k'.
Proof. by move=> -> h; case: m' => //= a. Qed.

Section S.
Context {E : pairing}.
Variables sch sch' : sched.
Hypotheses (vs : valid_sched sch) (vs' : valid_sched sch').

Lemma clm_sched (G : lmodType (Fr E)) k (A : matrix (com G)) L par :
  cmat_left_mul (sch k) A L par = cmat_left_mul (sch' k) A L par.
Proof.
rewrite /cmat_left_mul (left_mul_par_seq _ _ _ (sch k) _ _ _ (vs k)).
by rewrite (left_mul_par_seq _ _ _ (sch k) _ _ _ (vs' k)).
Qed.
Lemma frm_sched k (A L : matrix (Fr E)) par :
  fmat_right_mul (sch k) A L par = fmat_right_mul (sch' k) A L par.
Proof.
rewrite !fmat_right_mulE (right_mul_par_seq _ _ _ (sch k) _ _ _ (vs k)).
by rewrite (right_mul_par_seq _ _ _ (sch k) _ _ _ (vs' k)).
Qed.

Ltac step := match goal with
  | |- bind ?m ?k = bind ?m' ?k' =>
      refine (@eq_bind _ _ m m' k k' _ _);
      [lazymatch m with cmat_left_mul _ _ _ _ => exact (clm_sched _ _ _ _) | fmat_right_mul _ _ _ _ => exact (frm_sched _ _ _ _) | _ => reflexivity end | intro; cbv beta zeta]
  | |- (let '(_, _) := rand_fr ?s in _) = _ => destruct (rand_fr s)
  | |- Ok _ = _ => reflexivity
  end.

Lemma ppe_prove_sched (R : rng E) q X Y cx cy crs (s : rst R) :
  ppe_prove sch q X Y cx cy crs s = ppe_prove sch' q X Y cx cy crs s.
Proof. rewrite /ppe_prove; repeat step. Qed.
Lemma ppe_cap_sched (R : rng E) q X Y crs (s : rst R) :
  ppe_commit_and_prove sch q X Y crs s = ppe_commit_and_prove sch' q X Y crs s.
Proof.
rewrite /ppe_commit_and_prove; refine (@eq_bind _ _ _ _ _ _ erefl _) => -[cx s1].
refine (@eq_bind _ _ _ _ _ _ erefl _) => -[cy s2].
exact: (@eq_bind _ _ _ _ _ _ (ppe_prove_sched _ _ _ _ _ _ _) (fun=> erefl)).
Qed.
Lemma ppe_verify_sched q (p : CProof E) crs : ppe_verify sch q p crs = ppe_verify sch' q p crs.
Proof. rewrite /ppe_verify; repeat step. Qed.
Lemma ms1_prove_sched (R : rng E) q X Y cx cy crs (s : rst R) :
  ms1_prove sch q X Y cx cy crs s = ms1_prove sch' q X Y cx cy crs s.
Proof. rewrite /ms1_prove; repeat step. Qed.
Lemma ms1_cap_sched (R : rng E) q X Y crs (s : rst R) :
  ms1_commit_and_prove sch q X Y crs s = ms1_commit_and_prove sch' q X Y crs s.
Proof.
rewrite /ms1_commit_and_prove; refine (@eq_bind _ _ _ _ _ _ erefl _) => -[cx s1].
refine (@eq_bind _ _ _ _ _ _ erefl _) => -[cy s2].
exact: (@eq_bind _ _ _ _ _ _ (ms1_prove_sched _ _ _ _ _ _ _) (fun=> erefl)).
Qed.
Lemma ms1_verify_sched q (p : CProof E) crs : ms1_verify sch q p crs = ms1_verify sch' q p crs.
Proof. rewrite /ms1_verify; repeat step. Qed.
Lemma ms2_prove_sched (R : rng E) q X Y cx cy crs (s : rst R) :
  ms2_prove sch q X Y cx cy crs s = ms2_prove sch' q X Y cx cy crs s.
Proof. rewrite /ms2_prove; repeat step. Qed.
Lemma ms2_cap_sched (R : rng E) q X Y crs (s : rst R) :
  ms2_commit_and_prove sch q X Y crs s = ms2_commit_and_prove sch' q X Y crs s.
Proof.
rewrite /ms2_commit_and_prove; refine (@eq_bind _ _ _ _ _ _ erefl _) => -[cx s1].
refine (@eq_bind _ _ _ _ _ _ erefl _) => -[cy s2].
exact: (@eq_bind _ _ _ _ _ _ (ms2_prove_sched _ _ _ _ _ _ _) (fun=> erefl)).
Qed.
Lemma ms2_verify_sched q (p : CProof E) crs : ms2_verify sch q p crs = ms2_verify sch' q p crs.
Proof. rewrite /ms2_verify; repeat step. Qed.
Lemma quad_prove_sched (R : rng E) q X Y cx cy crs (s : rst R) :
  quad_prove sch q X Y cx cy crs s = quad_prove sch' q X Y cx cy crs s.
Proof. rewrite /quad_prove; repeat step. Qed.
Lemma quad_cap_sched (R : rng E) q X Y crs (s : rst R) :
  quad_commit_and_prove sch q X Y crs s = quad_commit_and_prove sch' q X Y crs s.
Proof.
rewrite /quad_commit_and_prove; refine (@eq_bind _ _ _ _ _ _ erefl _) => -[cx s1].
refine (@eq_bind _ _ _ _ _ _ erefl _) => -[cy s2].
exact: (@eq_bind _ _ _ _ _ _ (quad_prove_sched _ _ _ _ _ _ _) (fun=> erefl)).
Qed.
Lemma quad_verify_sched q (p : CProof E) crs : quad_verify sch q p crs = quad_verify sch' q p crs.
Proof. rewrite /quad_verify; repeat step. Qed.
End S.
