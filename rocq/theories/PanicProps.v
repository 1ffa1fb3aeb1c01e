(** Exact outcomes of the commitment functions, the verifier and the prover. *)
From mathcomp Require Import all_ssreflect all_algebra.
From Verif Require Import Base BaseLemmas Group DataStructures MatLemmas ProveLemmas Commit CommitLemmas Statement Prove Verify Spec SpecPanic PanicLemmas PanicSteps.
Set Implicit Arguments.
Unset Strict Implicit.
Unset Printing Implicit Defensive.
Import GRing.Theory.

Section Commits.
Context {E : pairing} {R : rng E}.
Implicit Types (s : rst R) (crs : CRS E).

Lemma let2E A B C (p : A * B) (f : A -> B -> C) : (let (a, b) := p in f a b) = f p.1 p.2.
Proof. by case: p. Qed.

(** The commitment functions: outcome and shape of the result. *)
Lemma step_commit_G1 x crs s : step (commit_G1 x crs s) (commit_checks (size (crs_u crs))) (fun _ => True).
Proof. by split=> //; rewrite /commit_G1 !let2E /key_at; case: (crs_u crs) => [|u0 [|u1 u]]. Qed.

Lemma step_commit_G2 x crs s : step (commit_G2 x crs s) (commit_checks (size (crs_v crs))) (fun _ => True).
Proof. by split=> //; rewrite /commit_G2 !let2E /key_at; case: (crs_v crs) => [|u0 [|u1 u]]. Qed.

Lemma step_commit_B1 x crs s : step (commit_scalar_to_B1 x crs s) (commit_checks (size (crs_u crs))) (fun _ => True).
Proof.
split=> //; rewrite /commit_scalar_to_B1 !let2E /key_at /com1_scalar_linear_map.
by case: (crs_u crs) => [|u0 [|u1 u]].
Qed.

Lemma step_commit_B2 x crs s : step (commit_scalar_to_B2 x crs s) (commit_checks (size (crs_v crs))) (fun _ => True).
Proof.
split=> //; rewrite /commit_scalar_to_B2 !let2E /key_at /com2_scalar_linear_map.
by case: (crs_v crs) => [|u0 [|u1 u]].
Qed.

Lemma step_batch_G1 X crs s : step (batch_commit_G1 X crs s) (batch_checks (size (crs_u crs)) (size X))
  (fun c => size (coms c.1) = size X /\ rect (size X) 2 (crand c.1)).
Proof.
rewrite batch_commit_G1E.
have hg := step_gcommit (crs_u crs) (lin := com1_batch_linear_map X) (size_map _ _) (rect_mkmat (size X) 2 (fun i j => drawn s (2 * i + j))).
rewrite -[batch_checks _ _]cats0; apply: step_seq.
  exact: hg.
by move=> _ cv hcv; split=> // a [<-] /=; split=> //; exact: rect_mkmat.
Qed.

Lemma step_batch_G2 X crs s : step (batch_commit_G2 X crs s) (batch_checks (size (crs_v crs)) (size X))
  (fun c => size (coms c.1) = size X /\ rect (size X) 2 (crand c.1)).
Proof.
rewrite batch_commit_G2E.
have hg := step_gcommit (crs_v crs) (lin := com2_batch_linear_map X) (size_map _ _) (rect_mkmat (size X) 2 (fun i j => drawn s (2 * i + j))).
rewrite -[batch_checks _ _]cats0; apply: step_seq.
  exact: hg.
by move=> _ cv hcv; split=> // a [<-] /=; split=> //; exact: rect_mkmat.
Qed.

Lemma step_batch_B1 X crs s : step (batch_commit_scalar_to_B1 X crs s) (batch_scalar_checks (size (crs_u crs)) (size X))
  (fun c => size (coms c.1) = size X /\ rect (size X) 1 (crand c.1)).
Proof.
rewrite /batch_commit_scalar_to_B1 draw_rows1E; cbv zeta iota beta.
set rr := mkmat _ _ _; have hr : rect (size X) 1 rr by exact: rect_mkmat.
rewrite -/([:: reads _] ++ [:: reads (0 < size X)]) /batch_scalar_checks -cat1s.
apply: step_seq.
  by apply: step_as (step_bslm1 X crs) _; rewrite /nilp.
case/andP=> /= hu _ l hl; apply: step_pass (step_flatten rr) _ _.
  by rewrite /flatten_checks; case: ifP => //= _; rewrite (wide_rect hr).
move=> rv hrv.
have {}hrv : size rv = size X.
  rewrite hrv (rect_size hr); case: eqP => [e|//]; by rewrite (width_rect hr) e.
apply: step_pass.
- apply: (@step_mapM _ _ _ rv (0 < size (crs_u crs)) (fun _ => True)) => a.
  rewrite -[[:: _]]cats0; apply: step_seq (step_key_at (crs_u crs) 0) _ => _ x _.
  by split.
- rewrite /= andbT; case/orP: hu => [/eqP h0|h1]; last by rewrite (ltnW h1) orbT.
  by rewrite /nilp hrv h0.
move=> ruv hruv; rewrite -[[:: reads _]]cats0; apply: step_seq.
  apply: step_as (step_cadd _ _) _; rewrite /add_checks !size_vec_to_col_vec !width_col hl hruv hrv /= eqxx.
  case: posnP => h0 //; rewrite /nilp hl hruv hrv eqn0Ngt h0 /=.
  by rewrite !wide_col.
case/andP=> /= h0 _ M hM; rewrite size_vec_to_col_vec width_col /nilp hl eqn0Ngt h0 /= in hM.
apply: step_pass (step_flatten M) _ _.
  by rewrite /flatten_checks; case: ifP => //= _; rewrite (wide_rect hM).
move=> cv hcv; split=> // a [<-] /=; split=> //.
rewrite hcv (rect_size hM) (width_rect hM) //; by case: eqP.
Qed.

Lemma step_batch_B2 X crs s : step (batch_commit_scalar_to_B2 X crs s) (batch_scalar_checks (size (crs_v crs)) (size X))
  (fun c => size (coms c.1) = size X /\ rect (size X) 1 (crand c.1)).
Proof.
rewrite /batch_commit_scalar_to_B2 draw_rows1E; cbv zeta iota beta.
set rr := mkmat _ _ _; have hr : rect (size X) 1 rr by exact: rect_mkmat.
rewrite -/([:: reads _] ++ [:: reads (0 < size X)]) /batch_scalar_checks -cat1s.
apply: step_seq.
  by apply: step_as (step_bslm2 X crs) _; rewrite /nilp.
case/andP=> /= hu _ l hl; apply: step_pass (step_flatten rr) _ _.
  by rewrite /flatten_checks; case: ifP => //= _; rewrite (wide_rect hr).
move=> rv hrv.
have {}hrv : size rv = size X.
  rewrite hrv (rect_size hr); case: eqP => [e|//]; by rewrite (width_rect hr) e.
apply: step_pass.
- apply: (@step_mapM _ _ _ rv (0 < size (crs_v crs)) (fun _ => True)) => a.
  rewrite -[[:: _]]cats0; apply: step_seq (step_key_at (crs_v crs) 0) _ => _ x _.
  by split.
- rewrite /= andbT; case/orP: hu => [/eqP h0|h1]; last by rewrite (ltnW h1) orbT.
  by rewrite /nilp hrv h0.
move=> ruv hruv; rewrite -[[:: reads _]]cats0; apply: step_seq.
  apply: step_as (step_cadd _ _) _; rewrite /add_checks !size_vec_to_col_vec !width_col hl hruv hrv /= eqxx.
  case: posnP => h0 //; rewrite /nilp hl hruv hrv eqn0Ngt h0 /=.
  by rewrite !wide_col.
case/andP=> /= h0 _ M hM; rewrite size_vec_to_col_vec width_col /nilp hl eqn0Ngt h0 /= in hM.
apply: step_pass (step_flatten M) _ _.
  by rewrite /flatten_checks; case: ifP => //= _; rewrite (wide_rect hM).
move=> cv hcv; split=> // a [<-] /=; split=> //.
rewrite hcv (rect_size hM) (width_rect hM) //; by case: eqP.
Qed.
End Commits.
Section Verifier.
Context {E : pairing}.
Implicit Types (crs : CRS E) (pf : EquProof E).

Lemma step_type a b : step (assert_type a b) [:: asserts (equtype_eq a b)] (fun _ => True).
Proof. by split=> //; rewrite /assert_type /=; case: (equtype_eq a b). Qed.

(** The product with the matrix of the equation and its flattening. *)
Lemma step_gamma ord (y : seq (Com2 E)) (G : matrix (Fr E)) (x : seq (Com1 E)) B (k : ComT E -> res B) cs :
  (forall r c, perm_eq (ord r c) (tasks r c)) ->
  (forall t, outcome (k t) = first_failed cs) ->
  outcome (let! sy := cmat_left_mul ord (vec_to_col_vec y) G true in
           let! w := col_vec_to_vec sy in
           let! t := comT_pairing_sum x w in k t)
  = first_failed (gamma_checks G (size x) (size y) ++ cs).
Proof.
move=> vo hk; rewrite /gamma_checks; set skip := void G || (size y == 0).
have hs : nilp y || void G = skip by rewrite orbC.
rewrite -[[:: _; _; _] ++ cs]/([:: asserts (skip || (width G == size y)); reads (skip || wide (size y) G)] ++
  [:: asserts (size x == if skip then 0 else size G)] ++ cs).
have st := step_col y G true vo; rewrite hs in st.
apply: step_bind st _ => _ M hM; apply: step_ok (step_flatten M) _ _.
  rewrite /flatten_checks; case: ifP => //= _; move: hM; case: {hs} skip => [->|hM] //.
  by rewrite (wide_rect hM).
move=> w hw; have {}hw : size w = if skip then 0 else size G.
  rewrite hw; move: hM; case: {hs} skip => [->|hM] //; rewrite (rect_size hM).
  by case: eqP => // e; rewrite (width_rect hM) e.
by apply: step_bind; [rewrite -hw; exact: step_pairing_sum | move=> _ t _; exact: hk].
Qed.

Lemma ppe_verify_outcome sch (q : PPE E) (p : CProof E) crs : valid_sched sch ->
  outcome (ppe_verify sch q p crs)
  = if equ_proofs p is [:: pf]
    then first_failed (ppe_verify_checks q (size (coms (xcoms p))) (size (coms (ycoms p))) pf crs)
    else Some AssertFailed.
Proof.
case: p => cx cy [|pf [|pf' pfs]] vs //.
rewrite /ppe_verify /ppe_verify_checks [assert_eq _ _]/= [idx _ 0]/= !bind_Ok; cbv beta zeta.
rewrite [equ_proofs _]/= [xcoms _]/= [ycoms _]/=.
apply: step_bind (step_type _ _) _ => _ _ _.
rewrite -[size (ppe_a q)](size_map (@com1_linear_map E)); apply: step_bind (step_pairing_sum _ _) _ => _ t1 _.
rewrite -[size (ppe_b q)](size_map (@com2_linear_map E)); apply: step_bind (step_pairing_sum _ _) _ => _ t2 _.
apply: step_gamma; [exact: vs | move=> t3].
apply: step_bind (step_pairing_sum _ _) _ => _ t5 _.
by rewrite -[[:: asserts _]]cats0; apply: step_bind (step_pairing_sum _ _) _.
Qed.

Lemma ms1_verify_outcome sch (q : MSMEG1 E) (p : CProof E) crs : valid_sched sch ->
  outcome (ms1_verify sch q p crs)
  = if equ_proofs p is [:: pf]
    then first_failed (ms1_verify_checks q (size (coms (xcoms p))) (size (coms (ycoms p))) pf crs)
    else Some AssertFailed.
Proof.
case: p => cx cy [|pf [|pf' pfs]] vs //.
rewrite /ms1_verify /ms1_verify_checks [assert_eq _ _]/= [idx _ 0]/= !bind_Ok; cbv beta zeta.
rewrite [equ_proofs _]/= [xcoms _]/= [ycoms _]/=.
apply: step_bind (step_type _ _) _ => _ _ _.
rewrite -[size (ms1_a q)](size_map (@com1_linear_map E)); apply: step_bind (step_pairing_sum _ _) _ => _ t1 _.
apply: step_bind (step_bslm2 _ _) _ => _ lb hlb.
rewrite -[size (ms1_b q)]hlb; apply: step_bind (step_pairing_sum _ _) _ => _ t2 _.
apply: step_gamma; [exact: vs | move=> t3].
apply: step_bind (step_lmms1 _ _) _ => /andP[hv _] t4 _.
apply: step_bind (step_pairing_sum _ _) _ => _ t5 _.
apply: step_bind (step_idx (theta pf) 0 0%R) _ => _ th0 _.
by apply: step_ok (step_idx (crs_v crs) 0 0%R) _ _; [rewrite /= (ltnW hv) |].
Qed.

Lemma ms2_verify_outcome sch (q : MSMEG2 E) (p : CProof E) crs : valid_sched sch ->
  outcome (ms2_verify sch q p crs)
  = if equ_proofs p is [:: pf]
    then first_failed (ms2_verify_checks q (size (coms (xcoms p))) (size (coms (ycoms p))) pf crs)
    else Some AssertFailed.
Proof.
case: p => cx cy [|pf [|pf' pfs]] vs //.
rewrite /ms2_verify /ms2_verify_checks [assert_eq _ _]/= [idx _ 0]/= !bind_Ok; cbv beta zeta.
rewrite [equ_proofs _]/= [xcoms _]/= [ycoms _]/=.
apply: step_bind (step_type _ _) _ => _ _ _.
apply: step_bind (step_bslm1 _ _) _ => _ la hla.
rewrite -[size (ms2_a q)]hla; apply: step_bind (step_pairing_sum _ _) _ => _ t1 _.
rewrite -[size (ms2_b q)](size_map (@com2_linear_map E)); apply: step_bind (step_pairing_sum _ _) _ => _ t2 _.
apply: step_gamma; [exact: vs | move=> t3].
apply: step_bind (step_lmms2 _ _) _ => /andP[hu _] t4 _.
apply: step_ok (step_idx (crs_u crs) 0 0%R) _ _; [by rewrite /= (ltnW hu) | move=> u0 _].
apply: step_bind (step_idx (pi pf) 0 0%R) _ => _ p0 _.
by rewrite -[[:: asserts _]]cats0; apply: step_bind (step_pairing_sum _ _) _.
Qed.

Lemma quad_verify_outcome sch (q : QuadEqu E) (p : CProof E) crs : valid_sched sch ->
  outcome (quad_verify sch q p crs)
  = if equ_proofs p is [:: pf]
    then first_failed (quad_verify_checks q (size (coms (xcoms p))) (size (coms (ycoms p))) pf crs)
    else Some AssertFailed.
Proof.
case: p => cx cy [|pf [|pf' pfs]] vs //.
rewrite /quad_verify /quad_verify_checks [assert_eq _ _]/= [idx _ 0]/= !bind_Ok; cbv beta zeta.
rewrite [equ_proofs _]/= [xcoms _]/= [ycoms _]/=.
apply: step_bind (step_type _ _) _ => _ _ _.
apply: step_bind (step_bslm1 _ _) _ => _ la hla.
rewrite -[size (quad_a q)]hla; apply: step_bind (step_pairing_sum _ _) _ => _ t1 _.
apply: step_bind (step_bslm2 _ _) _ => _ lb hlb.
rewrite -[size (quad_b q)]hlb; apply: step_bind (step_pairing_sum _ _) _ => _ t2 _.
apply: step_gamma; [exact: vs | move=> t3].
apply: step_bind (step_lmquad _ _) _ => /and3P[hu hv _] t4 _.
apply: step_ok (step_idx (crs_u crs) 0 0%R) _ _; [by rewrite /= (ltnW hu) | move=> u0 _].
apply: step_bind (step_idx (pi pf) 0 0%R) _ => _ p0 _.
apply: step_bind (step_idx (theta pf) 0 0%R) _ => _ th0 _.
by apply: step_ok (step_idx (crs_v crs) 0 0%R) _ _; [rewrite /= (ltnW hv) |].
Qed.

End Verifier.
