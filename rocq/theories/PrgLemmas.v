(** Outcomes depend on the outputs of the generator only; games with a generator in place of uniform tapes. *)
From mathcomp Require Import all_ssreflect all_algebra.
From Verif Require Import Base BaseLemmas Group DataStructures MatLemmas CoreAlg ComLemmas.
From Verif Require Import Generator Commit Statement Prove Verify Spec SpecVerify SpecHide SpecSxdh SpecMulti SpecAdaptive SpecPanic SpecPrg.
From Verif Require Import ProveLemmas CommitLemmas Draws HideTape HideProps Sxdh MultiLemmas MultiProps Adaptive PanicLemmas PanicProps PanicProve.
Set Implicit Arguments.
Unset Strict Implicit.
Unset Printing Implicit Defensive.
Import Order.Theory GRing.Theory Num.Theory.
Local Open Scope ring_scope.

Section Determined.
Context {E : pairing}.
Local Notation prog T := (forall R : rng E, rst R -> res (T * rst R)).

Lemma determined_panics T n (f : prog T) : consumes n f ->
  (forall (R R' : rng E) (s : rst R) (z : rst R'), outcome (f R s) = outcome (f R' z)) -> determined n id f.
Proof.
move=> hc ho R R' s z hd; have := ho R R' s z; case e1 : (f R s) => [[a s1]|p] /=.
  by have [_ h] := hc _ _ _ _ e1; rewrite (h _ _ hd).
by case: (f R' z) => [//|p'] /= [->].
Qed.

Lemma determined_le T V (view : T -> V) n m (f : prog T) : (n <= m)%N -> determined n view f -> determined m view f.
Proof. by move=> h hf R R' s z hd; apply: hf; exact: same_draws_le hd. Qed.
Lemma determined_view T V (view : T -> V) n (f : prog T) : determined n id f -> determined n view f.
Proof.
move=> h R R' s z hd; have := h R R' s z hd.
by case: (f R s) => [[a s1]|p]; case: (f R' z) => [[a' s1']|p'] //= -[->].
Qed.

Lemma determined_bind T U V (view : U -> V) n m (f : prog T) (g : T -> prog U) :
  consumes n f -> determined n id f -> (forall a, determined m view (g a)) ->
  determined (n + m) view (fun R s => let! (a, s) := f R s in g a R s).
Proof.
move=> hc hf hg R R' s z hd.
have := hf R R' s z (same_draws_le (leq_addr m n) hd).
case e1 : (f R s) => [[a s1]|p]; last by case: (f R' z) => [[? ?]|p'] //= [->].
case e2 : (f R' z) => [[a' s2]|p'] //= [ea]; rewrite -{a'}ea in e2 *.
have [-> _] := hc _ _ _ _ e1; have [-> _] := hc _ _ _ _ e2.
by apply: hg; exact: same_draws_after.
Qed.
Lemma determined_ret T U n (f : prog T) (h : T -> U) : determined n id f ->
  determined n id (fun R s => let! (a, s) := f R s in Ok (h a, s)).
Proof.
move=> hf R R' s z hd; have := hf R R' s z hd.
by case: (f R s) => [[a s1]|p]; case: (f R' z) => [[a' s1']|p'] //= -[->].
Qed.
Lemma determined_pure T (a : T) : determined (E := E) 0 id (fun R s => Ok (a, s)).
Proof. by []. Qed.

Implicit Types (crs : CRS E).
Lemma G1_det x crs : determined 2 id (fun R s => commit_G1 (R := R) x crs s).
Proof.
apply: (determined_panics (@G1_draws E x crs)) => R R' s z.
exact: etrans (step_commit_G1 x crs s).1 (esym (step_commit_G1 x crs z).1).
Qed.
Lemma G1_batch_det X crs : determined (2 * size X) id (fun R s => batch_commit_G1 (R := R) X crs s).
Proof.
apply: (determined_panics (@G1_batch_draws E X crs)) => R R' s z.
exact: etrans (step_batch_G1 X crs s).1 (esym (step_batch_G1 X crs z).1).
Qed.
Lemma G2_det x crs : determined 2 id (fun R s => commit_G2 (R := R) x crs s).
Proof.
apply: (determined_panics (@G2_draws E x crs)) => R R' s z.
exact: etrans (step_commit_G2 x crs s).1 (esym (step_commit_G2 x crs z).1).
Qed.
Lemma G2_batch_det X crs : determined (2 * size X) id (fun R s => batch_commit_G2 (R := R) X crs s).
Proof.
apply: (determined_panics (@G2_batch_draws E X crs)) => R R' s z.
exact: etrans (step_batch_G2 X crs s).1 (esym (step_batch_G2 X crs z).1).
Qed.
Lemma B1_det x crs : determined 1 id (fun R s => commit_scalar_to_B1 (R := R) x crs s).
Proof.
apply: (determined_panics (@B1_draws E x crs)) => R R' s z.
exact: etrans (step_commit_B1 x crs s).1 (esym (step_commit_B1 x crs z).1).
Qed.
Lemma B1_batch_det X crs : determined (size X) id (fun R s => batch_commit_scalar_to_B1 (R := R) X crs s).
Proof.
apply: (determined_panics (@B1_batch_draws E X crs)) => R R' s z.
exact: etrans (step_batch_B1 X crs s).1 (esym (step_batch_B1 X crs z).1).
Qed.
Lemma B2_det x crs : determined 1 id (fun R s => commit_scalar_to_B2 (R := R) x crs s).
Proof.
apply: (determined_panics (@B2_draws E x crs)) => R R' s z.
exact: etrans (step_commit_B2 x crs s).1 (esym (step_commit_B2 x crs z).1).
Qed.
Lemma B2_batch_det X crs : determined (size X) id (fun R s => batch_commit_scalar_to_B2 (R := R) X crs s).
Proof.
apply: (determined_panics (@B2_batch_draws E X crs)) => R R' s z.
exact: etrans (step_batch_B2 X crs s).1 (esym (step_batch_B2 X crs z).1).
Qed.

Variable sch : sched.
Hypothesis vs : valid_sched sch.
Lemma ppe_prove_det (q : PPE E) X Y cx cy crs : determined 4 id (fun R s => ppe_prove (R := R) sch q X Y cx cy crs s).
Proof.
apply: determined_panics => [|R R' s z]; first exact: ppe_prove_draws.
by rewrite !ppe_prove_outcome.
Qed.
Lemma ppe_cap_det (q : PPE E) X Y crs : determined (2 * size X + (2 * size Y + 4)) id (fun R s => ppe_commit_and_prove (R := R) sch q X Y crs s).
Proof.
apply: determined_panics => [|R R' s z]; first exact: ppe_cap_draws.
by rewrite !ppe_cap_outcome.
Qed.
Lemma ms1_prove_det (q : MSMEG1 E) X Y cx cy crs : determined 2 id (fun R s => ms1_prove (R := R) sch q X Y cx cy crs s).
Proof.
apply: determined_panics => [|R R' s z]; first exact: ms1_prove_draws.
by rewrite !ms1_prove_outcome.
Qed.
Lemma ms1_cap_det (q : MSMEG1 E) X Y crs : determined (2 * size X + (size Y + 2)) id (fun R s => ms1_commit_and_prove (R := R) sch q X Y crs s).
Proof.
apply: determined_panics => [|R R' s z]; first exact: ms1_cap_draws.
by rewrite !ms1_cap_outcome.
Qed.
Lemma ms2_prove_det (q : MSMEG2 E) X Y cx cy crs : determined 2 id (fun R s => ms2_prove (R := R) sch q X Y cx cy crs s).
Proof.
apply: determined_panics => [|R R' s z]; first exact: ms2_prove_draws.
by rewrite !ms2_prove_outcome.
Qed.
Lemma ms2_cap_det (q : MSMEG2 E) X Y crs : determined (size X + (2 * size Y + 2)) id (fun R s => ms2_commit_and_prove (R := R) sch q X Y crs s).
Proof.
apply: determined_panics => [|R R' s z]; first exact: ms2_cap_draws.
by rewrite !ms2_cap_outcome.
Qed.
Lemma quad_prove_det (q : QuadEqu E) X Y cx cy crs : determined 1 id (fun R s => quad_prove (R := R) sch q X Y cx cy crs s).
Proof.
apply: determined_panics => [|R R' s z]; first exact: quad_prove_draws.
by rewrite !quad_prove_outcome.
Qed.
Lemma quad_cap_det (q : QuadEqu E) X Y crs : determined (size X + (size Y + 1)) id (fun R s => quad_commit_and_prove (R := R) sch q X Y crs s).
Proof.
apply: determined_panics => [|R R' s z]; first exact: quad_cap_draws.
by rewrite !quad_cap_outcome.
Qed.

Lemma if_det V T n (f : seq V -> prog T) (a : T) (X : seq V) :
  determined n id (f X) -> determined n id (fun R s => if X is [::] then Ok (a, s) else f X R s).
Proof. by case: X => [|x X]. Qed.
Lemma commit_all_det (v : assign E) crs :
  determined (2 * size (aX v) + (size (ax v) + (2 * size (aY v) + size (ay v)))) id (fun R s => commit_all (R := R) v crs s).
Proof.
apply: determined_bind => [||a].
- by apply: (consumes_if (f := fun X R s => batch_commit_G1 (R := R) X crs s)) => [->|] //; exact: G1_batch_draws.
- by apply: (if_det (f := fun X R s => batch_commit_G1 (R := R) X crs s)); exact: G1_batch_det.
apply: determined_bind => [||b].
- by apply: (consumes_if (f := fun X R s => batch_commit_scalar_to_B1 (R := R) X crs s)) => [->|] //; exact: B1_batch_draws.
- by apply: (if_det (f := fun X R s => batch_commit_scalar_to_B1 (R := R) X crs s)); exact: B1_batch_det.
apply: determined_bind => [||c].
- by apply: (consumes_if (f := fun X R s => batch_commit_G2 (R := R) X crs s)) => [->|] //; exact: G2_batch_draws.
- by apply: (if_det (f := fun X R s => batch_commit_G2 (R := R) X crs s)); exact: G2_batch_det.
apply: (determined_ret (fun d => mkComs4 a b c d)).
by apply: (if_det (f := fun X R s => batch_commit_scalar_to_B2 (R := R) X crs s)); exact: B2_batch_det.
Qed.
Lemma eqn_prove_det q (v : assign E) c crs : determined (eqn_draws q) id (fun R s => eqn_prove sch (R := R) q v c crs s).
Proof. case: q => q; [exact: ppe_prove_det | exact: ms1_prove_det | exact: ms2_prove_det | exact: quad_prove_det]. Qed.
Lemma prove_all_det qs (v : assign E) c crs :
  determined (sumn [seq eqn_draws q | q <- qs]) id (fun R s => prove_all sch (R := R) qs v c crs s).
Proof.
elim: qs => [|q qs IH]; first exact: determined_pure.
apply: determined_bind => [||pf]; [exact: eqn_prove_draws | exact: eqn_prove_det |].
exact: (determined_ret (cons pf)).
Qed.
Lemma system_det qs (v : assign E) crs : determined (system_draws qs v) id (fun R s => prove_system sch (R := R) qs v crs s).
Proof.
have -> : system_draws qs v = (2 * size (aX v) + (size (ax v) + (2 * size (aY v) + size (ay v))) + sumn [seq eqn_draws q | q <- qs])%N.
  by rewrite /system_draws !addnA.
apply: determined_bind => [||c]; [exact: commit_all_draws | exact: commit_all_det |].
apply: (determined_ret (pair c)); exact: prove_all_det.
Qed.
End Determined.

Section Session.
Context {E : pairing} {T V : Type}.
Lemma session_det (f : seq V -> forall R : rng E, rst R -> res (T * rst R)) (view : seq V -> T -> V) (m : seq V -> nat) (M : nat) :
  (forall h, consumes (m h) (f h)) -> (forall h, determined (m h) id (f h)) -> (forall h, (m h <= M)%N) ->
  forall k N, (k * M <= N)%N -> forall h, determined N id (session f view k h).
Proof.
move=> hc hf hm; elim=> [|k IH] N hN h; first by [].
have h1 : (m h <= N)%N by apply: leq_trans (hm h) (leq_trans _ hN); rewrite mulSn leq_addr.
rewrite -(subnKC h1); apply: (determined_bind (g := fun p R s => session f view k (rcons h (view h p)) s)) => // p.
apply: IH; rewrite leq_subRL //; apply: leq_trans hN; by rewrite mulSn leq_add2r.
Qed.
End Session.

Lemma prover_det (E : pairing) (sch : sched) (k M N : nat) (qs : seq answer -> seq (eqn E)) (v : seq answer -> assign E) (crs : CRS E) :
  valid_sched sch -> (k * M <= N)%N -> (forall h, (system_draws (qs h) (v h) <= M)%N) -> determined N id (prover sch k qs v crs).
Proof.
move=> vs hN hM; apply: (@session_det E _ _ _ _ (fun h => system_draws (qs h) (v h)) M) => // h.
  exact: system_draws_ok.
exact: system_det.
Qed.

Section Games.
Context {F : finFieldType} {A B C : lmodType F} {e : A -> B -> C}.
Local Notation E := (Pairing e).
Context {R : rng E} {K : finType} (seed : K -> rst R).
Context {O1 O2 W : finType} (s1 : O1 -> A) (s2 : O2 -> B).

Lemma queue_after n p1 p2 (t : seq F) : after (R := @queue F A B C e) n (p1, p2, t) = (p1, p2, drop n t).
Proof. by elim: n t => [|n IH] t; [rewrite drop0 | rewrite /after iterS -/(after n _) IH /= -drop1 drop_drop]. Qed.
Lemma queue_drawn n p1 p2 (t : seq F) : drawn ((p1, p2, t) : rst (@queue F A B C e)) n = nth 0 t n.
Proof. by rewrite /drawn queue_after /= -nth0 nth_drop addn0. Qed.

Lemma gen_queue p1 p2 (t : seq F) : (3 < size t)%N -> generate_crs (R := @queue F A B C e) ([:: p1], [:: p2], t)
  = (real_crs p1 p2 (nth 0 t 0) (nth 0 t 1) (nth 0 t 2) (nth 0 t 3), ([::], [::], drop 4 t)).
Proof. by case: t => [|a [|b [|c [|d t]]]] // _; rewrite /real_crs /generate_crs /= drop0. Qed.

Section Game.
Context {T V : Type} (D : W -> CRS E -> pred (res V)) (view : T -> V) (N : nat).
Context (f : W -> CRS E -> forall R : rng E, rst R -> res (T * rst R)).
Hypothesis hf : forall w crs, determined N view (f w crs).

Lemma seeded_point w (s : rst R) (t : seq F) : let z1 := (rand_g1 s).2 in let z2 := (rand_g2 z1).2 in
  size t = (4 + N)%N -> (forall i, (i < 4 + N)%N -> nth 0 t i = drawn z2 i) ->
  (let (crs, s') := generate_crs s in D w crs (seen view (f w crs s')))
  = (let (crs, s') := generate_crs (R := queue) ([:: (rand_g1 s).1], [:: (rand_g2 z1).1], t) in D w crs (seen view (f w crs s'))).
Proof.
move=> z1 z2 st tn; have [e1 h2] := generate_draws s.
have := h2 queue ([:: (rand_g1 s).1], [:: (rand_g2 z1).1], t) erefl erefl.
rewrite !gen_queue ?st //; case: (generate_crs s) e1 => [crs s'] /= -> -> => [|i hi]; last first.
  by rewrite queue_drawn tn // (leq_trans hi) // leq_addr.
congr (D _ _ _); apply: hf => i hi; rewrite queue_drawn nth_drop tn ?ltn_add2l //.
rewrite addnC; exact: (drawn_after 4 z2 i).
Qed.
Lemma seeded_real : seeded seed D view f = prg_real seed (@prg_test _ _ _ _ e W T V D view f N).
Proof.
apply: eq_Pr => -[w k]; apply: seeded_point => [|i hi]; first by rewrite size_tuple.
by rewrite (nth_mktuple _ 0 (Ordinal hi)).
Qed.

Let h (x : W * (O1 * O2 * (4 + N).-tuple F)) : (W * N.-tuple F) * (O1 * O2 * (F * F * F * F)) :=
  let t := x.2.2 in ((x.1, [tuple nth 0 t (4 + i) | i < N]), (x.2.1, (nth 0 t 0, nth 0 t 1, nth 0 t 2, nth 0 t 3))).
Let h_bij : bijective h.
Proof.
exists (fun y : (W * N.-tuple F) * (O1 * O2 * (F * F * F * F)) => let: ((w, t), (o, (a, b, c, d))) := y in
    (w, (o, [tuple of [:: a, b, c, d & t]] : (4 + N).-tuple F))).
  move=> [w [o t]]; rewrite /h /=; congr (_, (_, _)); apply: val_inj; apply: (@eq_from_nth _ 0) => [|i].
    by rewrite size_tuple [RHS]size_tuple.
  rewrite [X in (_ < X)%N -> _]size_tuple => hi; case: i hi => [|[|[|[|i]]]] //= hi.
  by rewrite (nth_mktuple _ 0 (Ordinal (hi : (i < N)%N))).
move=> [[w t] [o [[[a b] c] d]]]; rewrite /h /=; congr (_, _, _).
by apply: eq_from_tnth => i; rewrite tnth_mktuple (tnth_nth 0).
Qed.

Lemma prg_ideal_game : prg_ideal s1 s2 (@prg_test _ _ _ _ e W T V D view f N) = game s1 s2 real_crs (proof_test (N := N) D view f).
Proof.
apply: (Pr_bij h_bij) => -[w [[o1 o2] t]]; rewrite /prg_test gen_queue ?size_tuple //.
congr (D _ _ _); apply: hf => i hi.
by rewrite queue_drawn tape_drawn nth_drop (nth_mktuple _ 0 (Ordinal hi)).
Qed.

Lemma seeded_game : `|seeded seed D view f - game s1 s2 real_crs (proof_test (N := N) D view f)|
  = prg_adv seed s1 s2 (@prg_test _ _ _ _ e W T V D view f N).
Proof. by rewrite seeded_real -prg_ideal_game. Qed.
End Game.

Lemma seeded_step T T' V (D : W -> CRS E -> pred (res V)) (view : T -> V) (view' : T' -> V) N
  (f : W -> CRS E -> forall R : rng E, rst R -> res (T * rst R)) (g : W -> CRS E -> forall R : rng E, rst R -> res (T' * rst R)) (b : rat) :
  (forall w crs, determined N view (f w crs)) -> (forall w crs, determined N view' (g w crs)) ->
  `|game s1 s2 real_crs (proof_test (N := N) D view f) - game s1 s2 real_crs (proof_test (N := N) D view' g)| <= b ->
  `|seeded seed D view f - seeded seed D view' g| <=
    prg_adv seed s1 s2 (@prg_test _ _ _ _ e W T V D view f N) + prg_adv seed s1 s2 (@prg_test _ _ _ _ e W T' V D view' g N) + b.
Proof.
move=> hf hg hb; rewrite -(seeded_game D hf) -(seeded_game D hg).
apply: le_trans (ler_dist_add (game s1 s2 real_crs (proof_test (N := N) D view f)) _ _) _; rewrite -addrA ler_add2l.
apply: le_trans (ler_dist_add (game s1 s2 real_crs (proof_test (N := N) D view' g)) _ _) _.
by rewrite addrC distrC; apply: ler_add.
Qed.
Lemma seeded_sim T V (D : W -> CRS E -> pred (res V)) (view : T -> V) N
  (f : W -> CRS E -> forall R : rng E, rst R -> res (T * rst R)) (r b : rat) :
  (forall w crs, determined N view (f w crs)) ->
  `|game s1 s2 real_crs (proof_test (N := N) D view f) - r| <= b ->
  `|seeded seed D view f - r| <= prg_adv seed s1 s2 (@prg_test _ _ _ _ e W T V D view f N) + b.
Proof.
move=> hf hb; rewrite -(seeded_game D hf).
by apply: le_trans (ler_dist_add (game s1 s2 real_crs (proof_test (N := N) D view f)) _ _) _; rewrite ler_add2l.
Qed.
End Games.
