(** Outcome and final state of the functions that draw. *)
From mathcomp Require Import all_ssreflect all_algebra.
From Verif Require Import Base BaseLemmas Group DataStructures MatLemmas ProveLemmas Commit CommitLemmas Statement Prove RngState Spec SpecPanic SpecRng PanicLemmas PanicSteps PanicProps PanicProve0 MultiLemmas.
Set Implicit Arguments.
Unset Strict Implicit.
Unset Printing Implicit Defensive.
Import GRing.Theory.

Section St.
Context {E : pairing} {R : rng E}.
Implicit Types (s : rst R) (crs : CRS E).

Lemma passesE cs : passes cs = all fst cs.
Proof. by elim: cs => //= -[[] p] cs IH. Qed.

(** ** Erasure *)
Lemma era_Ok A (a : A) s : on_return (pure (R := R) (Ok a) s) = Ok (a, s).
Proof. by []. Qed.

Lemma era_pure A B (r : res A) (k : A -> st R B) (g : A -> res (B * rst R)) s :
  (forall a, on_return (k a s) = g a) -> on_return (sbind (pure r) k s) = bind r g.
Proof. by move=> h; case: r => [a|p] //; exact: h. Qed.

Lemma era_bind A B (m : st R A) (k : A -> st R B) (f : res (A * rst R)) (g : A -> rst R -> res (B * rst R)) s :
  on_return (m s) = f -> (forall a s', on_return (k a s') = g a s') ->
  on_return (sbind m k s) = (let! p := f in let (a, s') := p in g a s').
Proof. by move=> <- h; rewrite /sbind; case: (m s) => [[a|p] s'] //=; exact: h. Qed.

Lemma era_draw B (k : Fr E -> st R B) (g : Fr E -> rst R -> res (B * rst R)) s :
  (forall x s', on_return (k x s') = g x s') -> on_return (sbind draw k s) = (let (x, s') := rand_fr s in g x s').
Proof. by move=> h; rewrite /sbind /draw; case: (rand_fr s) => x s'; exact: h. Qed.

Lemma era_rows A B (m : st R A) (k : A -> st R B) p (g : A -> rst R -> res (B * rst R)) s :
  m s = (Ok p.1, p.2) -> (forall x s', on_return (k x s') = g x s') ->
  on_return (sbind m k s) = (let (x, s') := p in g x s').
Proof. by case: p => a s' h hk; rewrite /sbind h; exact: hk. Qed.

Lemma st_draw_rows2E m s : st_draw_rows2 m s = (Ok (draw_rows2 m s).1, (draw_rows2 m s).2).
Proof.
elim: m s => //= m IH s; rewrite /sbind /draw; case: (rand_fr s) => r1 s1; case: (rand_fr s1) => r2 s2.
by rewrite IH; case: (draw_rows2 m s2).
Qed.

Lemma st_draw_rows1E m s : st_draw_rows1 m s = (Ok (draw_rows1 m s).1, (draw_rows1 m s).2).
Proof.
elim: m s => //= m IH s; rewrite /sbind /draw; case: (rand_fr s) => r1 s1.
by rewrite IH; case: (draw_rows1 m s1).
Qed.

Ltac era :=
  cbv zeta;
  repeat first
    [ apply: era_pure => ? | apply: era_draw => ? ?
    | apply: era_rows (st_draw_rows2E _ _) _ => ? ?
    | apply: era_rows (st_draw_rows1E _ _) _ => ? ?
    | exact: era_Ok ].

Lemma commit_G1_era (x : G1 E) crs s : on_return (st_commit_G1 x crs s) = commit_G1 x crs s.
Proof. by rewrite /st_commit_G1 /commit_G1; era. Qed.

Lemma batch_commit_G1_era (X : seq (G1 E)) crs s : on_return (st_batch_commit_G1 X crs s) = batch_commit_G1 X crs s.
Proof. by rewrite /st_batch_commit_G1 /batch_commit_G1; era. Qed.

Lemma commit_scalar_to_B1_era (x : Fr E) crs s : on_return (st_commit_scalar_to_B1 x crs s) = commit_scalar_to_B1 x crs s.
Proof. by rewrite /st_commit_scalar_to_B1 /commit_scalar_to_B1; era. Qed.

Lemma batch_commit_scalar_to_B1_era (X : seq (Fr E)) crs s : on_return (st_batch_commit_scalar_to_B1 X crs s) = batch_commit_scalar_to_B1 X crs s.
Proof. by rewrite /st_batch_commit_scalar_to_B1 /batch_commit_scalar_to_B1; era. Qed.

Lemma commit_G2_era (x : G2 E) crs s : on_return (st_commit_G2 x crs s) = commit_G2 x crs s.
Proof. by rewrite /st_commit_G2 /commit_G2; era. Qed.

Lemma batch_commit_G2_era (X : seq (G2 E)) crs s : on_return (st_batch_commit_G2 X crs s) = batch_commit_G2 X crs s.
Proof. by rewrite /st_batch_commit_G2 /batch_commit_G2; era. Qed.

Lemma commit_scalar_to_B2_era (x : Fr E) crs s : on_return (st_commit_scalar_to_B2 x crs s) = commit_scalar_to_B2 x crs s.
Proof. by rewrite /st_commit_scalar_to_B2 /commit_scalar_to_B2; era. Qed.

Lemma batch_commit_scalar_to_B2_era (X : seq (Fr E)) crs s : on_return (st_batch_commit_scalar_to_B2 X crs s) = batch_commit_scalar_to_B2 X crs s.
Proof. by rewrite /st_batch_commit_scalar_to_B2 /batch_commit_scalar_to_B2; era. Qed.

Lemma ppe_prove_era sch (q : PPE E) (X : seq (G1 E)) (Y : seq (G2 E)) (cx : Commit1 E) (cy : Commit2 E) crs s :
  on_return (st_ppe_prove sch q X Y cx cy crs s) = ppe_prove sch q X Y cx cy crs s.
Proof. by rewrite /st_ppe_prove /ppe_prove; era. Qed.

Lemma ppe_cap_era sch (q : PPE E) (X : seq (G1 E)) (Y : seq (G2 E)) crs s :
  on_return (st_ppe_commit_and_prove sch q X Y crs s) = ppe_commit_and_prove sch q X Y crs s.
Proof.
rewrite /st_ppe_commit_and_prove /ppe_commit_and_prove.
apply: era_bind (batch_commit_G1_era X crs s) _ => cx s1.
apply: era_bind (batch_commit_G2_era Y crs s1) _ => cy s2.
by apply: era_bind (ppe_prove_era sch q X Y cx cy crs s2) _ => pf s3.
Qed.

Lemma ms1_prove_era sch (q : MSMEG1 E) (X : seq (G1 E)) (Y : seq (Fr E)) (cx : Commit1 E) (cy : Commit2 E) crs s :
  on_return (st_ms1_prove sch q X Y cx cy crs s) = ms1_prove sch q X Y cx cy crs s.
Proof. by rewrite /st_ms1_prove /ms1_prove; era. Qed.

Lemma ms1_cap_era sch (q : MSMEG1 E) (X : seq (G1 E)) (Y : seq (Fr E)) crs s :
  on_return (st_ms1_commit_and_prove sch q X Y crs s) = ms1_commit_and_prove sch q X Y crs s.
Proof.
rewrite /st_ms1_commit_and_prove /ms1_commit_and_prove.
apply: era_bind (batch_commit_G1_era X crs s) _ => cx s1.
apply: era_bind (batch_commit_scalar_to_B2_era Y crs s1) _ => cy s2.
by apply: era_bind (ms1_prove_era sch q X Y cx cy crs s2) _ => pf s3.
Qed.

Lemma ms2_prove_era sch (q : MSMEG2 E) (X : seq (Fr E)) (Y : seq (G2 E)) (cx : Commit1 E) (cy : Commit2 E) crs s :
  on_return (st_ms2_prove sch q X Y cx cy crs s) = ms2_prove sch q X Y cx cy crs s.
Proof. by rewrite /st_ms2_prove /ms2_prove; era. Qed.

Lemma ms2_cap_era sch (q : MSMEG2 E) (X : seq (Fr E)) (Y : seq (G2 E)) crs s :
  on_return (st_ms2_commit_and_prove sch q X Y crs s) = ms2_commit_and_prove sch q X Y crs s.
Proof.
rewrite /st_ms2_commit_and_prove /ms2_commit_and_prove.
apply: era_bind (batch_commit_scalar_to_B1_era X crs s) _ => cx s1.
apply: era_bind (batch_commit_G2_era Y crs s1) _ => cy s2.
by apply: era_bind (ms2_prove_era sch q X Y cx cy crs s2) _ => pf s3.
Qed.

Lemma quad_prove_era sch (q : QuadEqu E) (X : seq (Fr E)) (Y : seq (Fr E)) (cx : Commit1 E) (cy : Commit2 E) crs s :
  on_return (st_quad_prove sch q X Y cx cy crs s) = quad_prove sch q X Y cx cy crs s.
Proof. by rewrite /st_quad_prove /quad_prove; era. Qed.

Lemma quad_cap_era sch (q : QuadEqu E) (X : seq (Fr E)) (Y : seq (Fr E)) crs s :
  on_return (st_quad_commit_and_prove sch q X Y crs s) = quad_commit_and_prove sch q X Y crs s.
Proof.
rewrite /st_quad_commit_and_prove /quad_commit_and_prove.
apply: era_bind (batch_commit_scalar_to_B1_era X crs s) _ => cx s1.
apply: era_bind (batch_commit_scalar_to_B2_era Y crs s1) _ => cy s2.
by apply: era_bind (quad_prove_era sch q X Y cx cy crs s2) _ => pf s3.
Qed.

(** ** Final state *)
Lemma quiet_pure A B (r : res A) (k : A -> st R B) s :
  (forall a, (k a s).2 = s) -> (sbind (pure r) k s).2 = s.
Proof. by case: r => [a|p] h //; exact: h. Qed.

Lemma quiet_Ok A (r : res A) s : (pure r s).2 = s.
Proof. by []. Qed.

Lemma end_draw B (k : Fr E -> st R B) s : (sbind draw k s).2 = (k (drawn s 0) (after 1 s)).2.
Proof. by rewrite /sbind /draw /drawn /=; case: (rand_fr s). Qed.

Lemma end_draw_after B (k : Fr E -> st R B) n s : (sbind draw k (after n s)).2 = (k (drawn s n) (after n.+1 s)).2.
Proof. by rewrite end_draw. Qed.

Lemma end_rows2 B m (k : matrix (Fr E) -> st R B) s :
  (sbind (st_draw_rows2 m) k s).2 = (k (draw_rows2 m s).1 (after (2 * m) s)).2.
Proof. by rewrite /sbind st_draw_rows2E draw_rows2E. Qed.

Lemma end_rows1 B m (k : matrix (Fr E) -> st R B) s :
  (sbind (st_draw_rows1 m) k s).2 = (k (draw_rows1 m s).1 (after m s)).2.
Proof. by rewrite /sbind st_draw_rows1E draw_rows1E. Qed.

Ltac quiet := repeat first [ apply: quiet_pure => ? | exact: quiet_Ok ].

Lemma end_step A B (r : res A) (k : A -> st R B) c1 cs P s s' :
  step r c1 P -> (all fst c1 -> forall a, P a -> (k a s).2 = if all fst cs then s' else s) ->
  (sbind (pure r) k s).2 = if all fst (c1 ++ cs) then s' else s.
Proof.
case; case: r => [a|p] /= h hP hk; rewrite all_cat.
  by rewrite (first_failed_None (esym h)); apply: hk; [exact: first_failed_None | exact: hP].
by rewrite -passesE /passes -h.
Qed.

Lemma end_ok A B (r : res A) (k : A -> st R B) c1 P (s s' : rst R) (b : bool) :
  step r c1 P -> all fst c1 -> (forall a, P a -> (k a s).2 = if b then s' else s) ->
  (sbind (pure r) k s).2 = if b then s' else s.
Proof.
case; case: r => [a|p] /= h hP h1 hk; first by apply: hk; exact: hP.
by move: h1; rewrite -passesE /passes -h.
Qed.

Lemma commit_G1_end (x : G1 E) crs s : (st_commit_G1 x crs s).2 = after 2 s.
Proof. by rewrite /st_commit_G1; cbv zeta; rewrite end_draw end_draw_after; quiet. Qed.

Lemma batch_commit_G1_end (X : seq (G1 E)) crs s : (st_batch_commit_G1 X crs s).2 = after (2 * size X) s.
Proof. by rewrite /st_batch_commit_G1; cbv zeta; rewrite end_rows2; quiet. Qed.

Lemma commit_scalar_to_B1_end (x : Fr E) crs s : (st_commit_scalar_to_B1 x crs s).2 = after 1 s.
Proof. by rewrite /st_commit_scalar_to_B1; cbv zeta; rewrite end_draw; quiet. Qed.

Lemma batch_commit_scalar_to_B1_end (X : seq (Fr E)) crs s : (st_batch_commit_scalar_to_B1 X crs s).2 = after (1 * size X) s.
Proof. by rewrite /st_batch_commit_scalar_to_B1; cbv zeta; rewrite end_rows1 ?mul1n; quiet. Qed.

Lemma commit_G2_end (x : G2 E) crs s : (st_commit_G2 x crs s).2 = after 2 s.
Proof. by rewrite /st_commit_G2; cbv zeta; rewrite end_draw end_draw_after; quiet. Qed.

Lemma batch_commit_G2_end (X : seq (G2 E)) crs s : (st_batch_commit_G2 X crs s).2 = after (2 * size X) s.
Proof. by rewrite /st_batch_commit_G2; cbv zeta; rewrite end_rows2; quiet. Qed.

Lemma commit_scalar_to_B2_end (x : Fr E) crs s : (st_commit_scalar_to_B2 x crs s).2 = after 1 s.
Proof. by rewrite /st_commit_scalar_to_B2; cbv zeta; rewrite end_draw; quiet. Qed.

Lemma batch_commit_scalar_to_B2_end (X : seq (Fr E)) crs s : (st_batch_commit_scalar_to_B2 X crs s).2 = after (1 * size X) s.
Proof. by rewrite /st_batch_commit_scalar_to_B2; cbv zeta; rewrite end_rows1 ?mul1n; quiet. Qed.

Lemma ppe_prove_end sch (q : PPE E) (X : seq (G1 E)) (Y : seq (G2 E)) (cx : Commit1 E) (cy : Commit2 E) crs s :
  (st_ppe_prove sch q X Y cx cy crs s).2
  = after (prove_draws 4 (opening_checks (ppe_gamma q) (size X) (size Y) 2 2 (crand cx) (crand cy))) s.
Proof.
rewrite /prove_draws passesE /opening_checks (fun_if (fun n => after n s)) [after 0 s]/=.
rewrite /st_ppe_prove; cbv zeta.
apply: end_step (step_assert _ _) _ => /andP[/eqP hm _] _ _.
apply: end_step (step_assert _ _) _ => /andP[/eqP hg _] _ _.
apply: end_step (step_row0 _) _ => /andP[hm0 _] xr0 [_ hx0]; rewrite /= in hm0.
rewrite -[width (crand cx)]hx0; apply: end_step (step_assert _ _) _ => /andP[/eqP hxk _] _ _.
apply: end_step (step_assert _ _) _ => /andP[/eqP hn _] _ _.
apply: end_ok (step_row0 _) _ _; [by rewrite /= hg hm0 | move=> g0 [_ hg0]].
rewrite -[width (ppe_gamma q)]hg0; apply: end_step (step_assert _ _) _ => /andP[/eqP hgn _] _ _.
apply: end_step (step_row0 _) _ => /andP[hn0 _] yr0 [_ hy0]; rewrite /= in hn0.
rewrite -[width (crand cy)]hy0; apply: end_step (step_assert _ _) _ => /andP[/eqP hyk _] _ _.
rewrite hxk in hx0; rewrite hyk in hy0.
apply: end_step (ftrans_chk hm0 (esym hx0)) _ => _ xt _.
rewrite -[[:: reads _]]cats0; apply: end_step (ftrans_chk hn0 (esym hy0)) _ => _ yt _.
rewrite end_draw end_draw_after end_draw_after end_draw_after.
by quiet.
Qed.

Lemma ppe_cap_end sch (q : PPE E) (X : seq (G1 E)) (Y : seq (G2 E)) crs s :
  (st_ppe_commit_and_prove sch q X Y crs s).2
  = after (cap_draws 2 2 4 (size X) (size Y) (ppe_gamma q)
             (batch_checks (size (crs_u crs)) (size X)) (batch_checks (size (crs_v crs)) (size Y))) s.
Proof.
rewrite /st_ppe_commit_and_prove /cap_draws.
have := batch_commit_G1_end X crs s; have := step_batch_G1 X crs s; rewrite -batch_commit_G1_era /sbind /passes => -[].
case: (st_batch_commit_G1 X crs s) => [[cx|p] s1] /= hf1 hP ->; last by rewrite -hf1 addn0.
have [_ hx] := hP _ erefl; rewrite /= in hx; rewrite -hf1 -after_add; set s1' := after _ s.
have := batch_commit_G2_end Y crs s1'; have := step_batch_G2 Y crs s1'; rewrite -batch_commit_G2_era => -[].
case: (st_batch_commit_G2 Y crs s1') => [[cy|p] s2] /= hf2 hQ ->; last by rewrite -hf2 /= addn0.
have [_ hy] := hQ _ erefl; rewrite /= in hy; rewrite -hf2 -after_add /=; set s2' := after _ s1'.
have /and3P[_ m0 _] := first_failed_None (cs := batch_checks (size (crs_u crs)) (size X)) (esym hf1).
have /and3P[_ n0 _] := first_failed_None (cs := batch_checks (size (crs_v crs)) (size Y)) (esym hf2).
rewrite /= in m0 n0.
have := ppe_prove_end sch q X Y cx cy crs s2'.
rewrite /prove_draws passesE /= (rect_size hx) (rect_size hy) (width_rect hx) // (width_rect hy) //.
rewrite (narrow_rect hx) // (narrow_rect hy) // !eqxx m0 n0 /= !andbT.
by case: (st_ppe_prove _ _ _ _ _ _ _ _) => [[pf|p] s3] /= ->.
Qed.

Lemma ms1_prove_end sch (q : MSMEG1 E) (X : seq (G1 E)) (Y : seq (Fr E)) (cx : Commit1 E) (cy : Commit2 E) crs s :
  (st_ms1_prove sch q X Y cx cy crs s).2
  = after (prove_draws 2 (opening_checks (ms1_gamma q) (size X) (size Y) 2 1 (crand cx) (crand cy))) s.
Proof.
rewrite /prove_draws passesE /opening_checks (fun_if (fun n => after n s)) [after 0 s]/=.
rewrite /st_ms1_prove; cbv zeta.
apply: end_step (step_assert _ _) _ => /andP[/eqP hm _] _ _.
apply: end_step (step_assert _ _) _ => /andP[/eqP hg _] _ _.
apply: end_step (step_row0 _) _ => /andP[hm0 _] xr0 [_ hx0]; rewrite /= in hm0.
rewrite -[width (crand cx)]hx0; apply: end_step (step_assert _ _) _ => /andP[/eqP hxk _] _ _.
apply: end_step (step_assert _ _) _ => /andP[/eqP hn _] _ _.
apply: end_ok (step_row0 _) _ _; [by rewrite /= hg hm0 | move=> g0 [_ hg0]].
rewrite -[width (ms1_gamma q)]hg0; apply: end_step (step_assert _ _) _ => /andP[/eqP hgn _] _ _.
apply: end_step (step_row0 _) _ => /andP[hn0 _] yr0 [_ hy0]; rewrite /= in hn0.
rewrite -[width (crand cy)]hy0; apply: end_step (step_assert _ _) _ => /andP[/eqP hyk _] _ _.
rewrite hxk in hx0; rewrite hyk in hy0.
apply: end_step (ftrans_chk hm0 (esym hx0)) _ => _ xt _.
rewrite -[[:: reads _]]cats0; apply: end_step (ftrans_chk hn0 (esym hy0)) _ => _ yt _.
rewrite end_draw end_draw_after.
by quiet.
Qed.

Lemma ms1_cap_end sch (q : MSMEG1 E) (X : seq (G1 E)) (Y : seq (Fr E)) crs s :
  (st_ms1_commit_and_prove sch q X Y crs s).2
  = after (cap_draws 2 1 2 (size X) (size Y) (ms1_gamma q)
             (batch_checks (size (crs_u crs)) (size X)) (batch_scalar_checks (size (crs_v crs)) (size Y))) s.
Proof.
rewrite /st_ms1_commit_and_prove /cap_draws.
have := batch_commit_G1_end X crs s; have := step_batch_G1 X crs s; rewrite -batch_commit_G1_era /sbind /passes => -[].
case: (st_batch_commit_G1 X crs s) => [[cx|p] s1] /= hf1 hP ->; last by rewrite -hf1 addn0.
have [_ hx] := hP _ erefl; rewrite /= in hx; rewrite -hf1 -after_add; set s1' := after _ s.
have := batch_commit_scalar_to_B2_end Y crs s1'; have := step_batch_B2 Y crs s1'; rewrite -batch_commit_scalar_to_B2_era => -[].
case: (st_batch_commit_scalar_to_B2 Y crs s1') => [[cy|p] s2] /= hf2 hQ ->; last by rewrite -hf2 /= addn0.
have [_ hy] := hQ _ erefl; rewrite /= in hy; rewrite -hf2 -after_add /=; set s2' := after _ s1'.
have /and3P[_ m0 _] := first_failed_None (cs := batch_checks (size (crs_u crs)) (size X)) (esym hf1).
have /and3P[_ n0 _] := first_failed_None (cs := batch_scalar_checks (size (crs_v crs)) (size Y)) (esym hf2).
rewrite /= in m0 n0.
have := ms1_prove_end sch q X Y cx cy crs s2'.
rewrite /prove_draws passesE /= (rect_size hx) (rect_size hy) (width_rect hx) // (width_rect hy) //.
rewrite (narrow_rect hx) // (narrow_rect hy) // !eqxx m0 n0 /= !andbT.
by case: (st_ms1_prove _ _ _ _ _ _ _ _) => [[pf|p] s3] /= ->.
Qed.

Lemma ms2_prove_end sch (q : MSMEG2 E) (X : seq (Fr E)) (Y : seq (G2 E)) (cx : Commit1 E) (cy : Commit2 E) crs s :
  (st_ms2_prove sch q X Y cx cy crs s).2
  = after (prove_draws 2 (opening_checks (ms2_gamma q) (size X) (size Y) 1 2 (crand cx) (crand cy))) s.
Proof.
rewrite /prove_draws passesE /opening_checks (fun_if (fun n => after n s)) [after 0 s]/=.
rewrite /st_ms2_prove; cbv zeta.
apply: end_step (step_assert _ _) _ => /andP[/eqP hm _] _ _.
apply: end_step (step_assert _ _) _ => /andP[/eqP hg _] _ _.
apply: end_step (step_row0 _) _ => /andP[hm0 _] xr0 [_ hx0]; rewrite /= in hm0.
rewrite -[width (crand cx)]hx0; apply: end_step (step_assert _ _) _ => /andP[/eqP hxk _] _ _.
apply: end_step (step_assert _ _) _ => /andP[/eqP hn _] _ _.
apply: end_ok (step_row0 _) _ _; [by rewrite /= hg hm0 | move=> g0 [_ hg0]].
rewrite -[width (ms2_gamma q)]hg0; apply: end_step (step_assert _ _) _ => /andP[/eqP hgn _] _ _.
apply: end_step (step_row0 _) _ => /andP[hn0 _] yr0 [_ hy0]; rewrite /= in hn0.
rewrite -[width (crand cy)]hy0; apply: end_step (step_assert _ _) _ => /andP[/eqP hyk _] _ _.
rewrite hxk in hx0; rewrite hyk in hy0.
apply: end_step (ftrans_chk hm0 (esym hx0)) _ => _ xt _.
rewrite -[[:: reads _]]cats0; apply: end_step (ftrans_chk hn0 (esym hy0)) _ => _ yt _.
rewrite end_draw end_draw_after.
by quiet.
Qed.

Lemma ms2_cap_end sch (q : MSMEG2 E) (X : seq (Fr E)) (Y : seq (G2 E)) crs s :
  (st_ms2_commit_and_prove sch q X Y crs s).2
  = after (cap_draws 1 2 2 (size X) (size Y) (ms2_gamma q)
             (batch_scalar_checks (size (crs_u crs)) (size X)) (batch_checks (size (crs_v crs)) (size Y))) s.
Proof.
rewrite /st_ms2_commit_and_prove /cap_draws.
have := batch_commit_scalar_to_B1_end X crs s; have := step_batch_B1 X crs s; rewrite -batch_commit_scalar_to_B1_era /sbind /passes => -[].
case: (st_batch_commit_scalar_to_B1 X crs s) => [[cx|p] s1] /= hf1 hP ->; last by rewrite -hf1 addn0.
have [_ hx] := hP _ erefl; rewrite /= in hx; rewrite -hf1 -after_add; set s1' := after _ s.
have := batch_commit_G2_end Y crs s1'; have := step_batch_G2 Y crs s1'; rewrite -batch_commit_G2_era => -[].
case: (st_batch_commit_G2 Y crs s1') => [[cy|p] s2] /= hf2 hQ ->; last by rewrite -hf2 /= addn0.
have [_ hy] := hQ _ erefl; rewrite /= in hy; rewrite -hf2 -after_add /=; set s2' := after _ s1'.
have /and3P[_ m0 _] := first_failed_None (cs := batch_scalar_checks (size (crs_u crs)) (size X)) (esym hf1).
have /and3P[_ n0 _] := first_failed_None (cs := batch_checks (size (crs_v crs)) (size Y)) (esym hf2).
rewrite /= in m0 n0.
have := ms2_prove_end sch q X Y cx cy crs s2'.
rewrite /prove_draws passesE /= (rect_size hx) (rect_size hy) (width_rect hx) // (width_rect hy) //.
rewrite (narrow_rect hx) // (narrow_rect hy) // !eqxx m0 n0 /= !andbT.
by case: (st_ms2_prove _ _ _ _ _ _ _ _) => [[pf|p] s3] /= ->.
Qed.

Lemma quad_prove_end sch (q : QuadEqu E) (X : seq (Fr E)) (Y : seq (Fr E)) (cx : Commit1 E) (cy : Commit2 E) crs s :
  (st_quad_prove sch q X Y cx cy crs s).2
  = after (prove_draws 1 (opening_checks (quad_gamma q) (size X) (size Y) 1 1 (crand cx) (crand cy))) s.
Proof.
rewrite /prove_draws passesE /opening_checks (fun_if (fun n => after n s)) [after 0 s]/=.
rewrite /st_quad_prove; cbv zeta.
apply: end_step (step_assert _ _) _ => /andP[/eqP hm _] _ _.
apply: end_step (step_assert _ _) _ => /andP[/eqP hg _] _ _.
apply: end_step (step_row0 _) _ => /andP[hm0 _] xr0 [_ hx0]; rewrite /= in hm0.
rewrite -[width (crand cx)]hx0; apply: end_step (step_assert _ _) _ => /andP[/eqP hxk _] _ _.
apply: end_step (step_assert _ _) _ => /andP[/eqP hn _] _ _.
apply: end_ok (step_row0 _) _ _; [by rewrite /= hg hm0 | move=> g0 [_ hg0]].
rewrite -[width (quad_gamma q)]hg0; apply: end_step (step_assert _ _) _ => /andP[/eqP hgn _] _ _.
apply: end_step (step_row0 _) _ => /andP[hn0 _] yr0 [_ hy0]; rewrite /= in hn0.
rewrite -[width (crand cy)]hy0; apply: end_step (step_assert _ _) _ => /andP[/eqP hyk _] _ _.
rewrite hxk in hx0; rewrite hyk in hy0.
apply: end_step (ftrans_chk hm0 (esym hx0)) _ => _ xt _.
rewrite -[[:: reads _]]cats0; apply: end_step (ftrans_chk hn0 (esym hy0)) _ => _ yt _.
rewrite end_draw .
by quiet.
Qed.

Lemma quad_cap_end sch (q : QuadEqu E) (X : seq (Fr E)) (Y : seq (Fr E)) crs s :
  (st_quad_commit_and_prove sch q X Y crs s).2
  = after (cap_draws 1 1 1 (size X) (size Y) (quad_gamma q)
             (batch_scalar_checks (size (crs_u crs)) (size X)) (batch_scalar_checks (size (crs_v crs)) (size Y))) s.
Proof.
rewrite /st_quad_commit_and_prove /cap_draws.
have := batch_commit_scalar_to_B1_end X crs s; have := step_batch_B1 X crs s; rewrite -batch_commit_scalar_to_B1_era /sbind /passes => -[].
case: (st_batch_commit_scalar_to_B1 X crs s) => [[cx|p] s1] /= hf1 hP ->; last by rewrite -hf1 addn0.
have [_ hx] := hP _ erefl; rewrite /= in hx; rewrite -hf1 -after_add; set s1' := after _ s.
have := batch_commit_scalar_to_B2_end Y crs s1'; have := step_batch_B2 Y crs s1'; rewrite -batch_commit_scalar_to_B2_era => -[].
case: (st_batch_commit_scalar_to_B2 Y crs s1') => [[cy|p] s2] /= hf2 hQ ->; last by rewrite -hf2 /= addn0.
have [_ hy] := hQ _ erefl; rewrite /= in hy; rewrite -hf2 -after_add /=; set s2' := after _ s1'.
have /and3P[_ m0 _] := first_failed_None (cs := batch_scalar_checks (size (crs_u crs)) (size X)) (esym hf1).
have /and3P[_ n0 _] := first_failed_None (cs := batch_scalar_checks (size (crs_v crs)) (size Y)) (esym hf2).
rewrite /= in m0 n0.
have := quad_prove_end sch q X Y cx cy crs s2'.
rewrite /prove_draws passesE /= (rect_size hx) (rect_size hy) (width_rect hx) // (width_rect hy) //.
rewrite (narrow_rect hx) // (narrow_rect hy) // !eqxx m0 n0 /= !andbT.
by case: (st_quad_prove _ _ _ _ _ _ _ _) => [[pf|p] s3] /= ->.
Qed.

End St.
