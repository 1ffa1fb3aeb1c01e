(** How many scalars the commitment functions and provers draw. *)
From mathcomp Require Import all_ssreflect all_algebra.
From Verif Require Import Base BaseLemmas Group DataStructures MatLemmas CoreAlg ComLemmas.
From Verif Require Import Generator Commit Statement Prove Spec ProveLemmas CommitLemmas.
Set Implicit Arguments.
Unset Strict Implicit.
Unset Printing Implicit Defensive.
Import GRing.Theory.
Local Open Scope ring_scope.

Section Draws.
Context {E : pairing}.
Implicit Types (crs : CRS E).

Lemma same_draws_le n m (R R' : rng E) (s : rst R) (z : rst R') :
  (m <= n)%N -> same_draws n s z -> same_draws m s z.
Proof. by move=> hm h k hk; apply: h; exact: leq_trans hk hm. Qed.

Lemma same_draws_after n m (R R' : rng E) (s : rst R) (z : rst R') :
  same_draws (n + m) s z -> same_draws m (after n s) (after n z).
Proof. by move=> h k hk; rewrite !drawn_after; apply: h; rewrite addnC ltn_add2l. Qed.

Lemma consumes_bind A B n m (f : forall R : rng E, rst R -> res (A * rst R))
  (g : A -> forall R : rng E, rst R -> res (B * rst R)) :
  consumes n f -> (forall a, consumes m (g a)) ->
  consumes (n + m) (fun R s => let! (a, s) := f R s in g a R s).
Proof.
move=> hf hg R s s' c /bind_ok[[a s1] ha hc].
have [e1 h1] := hf _ _ _ _ ha; have [e2 h2] := hg _ _ _ _ _ hc.
split=> [|R' z hz]; first by rewrite e2 e1 -afterD addnC.
rewrite (h1 _ _ (same_draws_le (leq_addr m n) hz)) bind_Ok; cbv beta iota.
rewrite addnC afterD; apply: h2; rewrite e1; exact: same_draws_after.
Qed.

Lemma consumes_ret A B n (f : forall R : rng E, rst R -> res (A * rst R)) (h : A -> B) :
  consumes n f -> consumes n (fun R s => let! (a, s) := f R s in Ok (h a, s)).
Proof.
move=> hf R s s' c /bind_ok[[a s1] ha [<- <-]].
by have [e1 h1] := hf _ _ _ _ ha; split=> // R' z hz; rewrite h1.
Qed.

(** Drawn entries below [n]. *)
Lemma consumes_closed A n (f : forall R : rng E, rst R -> res (A * rst R)) (b : bool)
  (v : (nat -> Fr E) -> A) :
  (forall R s, isok (f R s) = b) ->
  (b -> forall R s, f R s = Ok (v (drawn s), after n s)) ->
  (forall d d', (forall k, (k < n)%N -> d k = d' k) -> v d = v d') ->
  consumes n f.
Proof.
move=> hb hf hv R s s' c e; have hT : b by rewrite -(hb R s) e.
move: e; rewrite hf // => -[<- <-]; split=> // R' z hz; rewrite hf //.
by rewrite (hv _ _ hz).
Qed.
End Draws.

Section Commits.
Context {E : pairing}.
Implicit Types (crs : CRS E).

Lemma lt_row2 m i j : (i < m)%N -> (j < 2)%N -> (2 * i + j < 2 * m)%N.
Proof.
move=> hi hj; apply: (@leq_trans (2 * i.+1)); last by rewrite leq_pmul2l.
by rewrite mulnS addnC ltn_add2r.
Qed.

Lemma G1_draws x crs : consumes 2 (fun R s => commit_G1 (R := R) x crs s).
Proof.
apply: (consumes_closed (b := (1 < size (crs_u crs))%N) (v := fun d =>
  mkCommit [:: com1_linear_map x + d 0%N *: nth 0 (crs_u crs) 0 + d 1%N *: nth 0 (crs_u crs) 1]
           [:: [:: d 0%N; d 1%N]])).
- by move=> R s; rewrite isok_commit_G1.
- by move=> h R s; rewrite commit_G1_Ok.
- by move=> d d' h; rewrite !h.
Qed.
Lemma G1_batch_draws X crs : consumes (2 * size X) (fun R s => batch_commit_G1 (R := R) X crs s).
Proof.
apply: (consumes_closed (b := (0 < size X)%N && (size (crs_u crs) == 2%N)) (v := fun d =>
  mkCommit (mkseq (gs_c 2 (nth 0 (com1_batch_linear_map X)) (nth 0 (crs_u crs))
                     (fun i j => d (2 * i + j)%N)) (size X))
           (mkmat (size X) 2 (fun i j => d (2 * i + j)%N)))).
- by move=> R s; rewrite isok_batch_commit_G1.
- by case/andP=> hX /eqP hk R s; rewrite batch_commit_G1_Ok.
move=> d d' h; congr mkCommit.
  apply: eq_in_mkseq => i hi; rewrite /gs_c; congr (_ + _); apply: eq_big_nat => j /andP[_ hj].
  by rewrite h // lt_row2.
by apply: eq_mkmat => i j hi hj; rewrite h // lt_row2.
Qed.
Lemma G2_draws x crs : consumes 2 (fun R s => commit_G2 (R := R) x crs s).
Proof.
apply: (consumes_closed (b := (1 < size (crs_v crs))%N) (v := fun d =>
  mkCommit [:: com2_linear_map x + d 0%N *: nth 0 (crs_v crs) 0 + d 1%N *: nth 0 (crs_v crs) 1]
           [:: [:: d 0%N; d 1%N]])).
- by move=> R s; rewrite isok_commit_G2.
- by move=> h R s; rewrite commit_G2_Ok.
- by move=> d d' h; rewrite !h.
Qed.
Lemma G2_batch_draws X crs : consumes (2 * size X) (fun R s => batch_commit_G2 (R := R) X crs s).
Proof.
apply: (consumes_closed (b := (0 < size X)%N && (size (crs_v crs) == 2%N)) (v := fun d =>
  mkCommit (mkseq (gs_c 2 (nth 0 (com2_batch_linear_map X)) (nth 0 (crs_v crs))
                     (fun i j => d (2 * i + j)%N)) (size X))
           (mkmat (size X) 2 (fun i j => d (2 * i + j)%N)))).
- by move=> R s; rewrite isok_batch_commit_G2.
- by case/andP=> hX /eqP hk R s; rewrite batch_commit_G2_Ok.
move=> d d' h; congr mkCommit.
  apply: eq_in_mkseq => i hi; rewrite /gs_c; congr (_ + _); apply: eq_big_nat => j /andP[_ hj].
  by rewrite h // lt_row2.
by apply: eq_mkmat => i j hi hj; rewrite h // lt_row2.
Qed.
Lemma B1_draws x crs : consumes 1 (fun R s => commit_scalar_to_B1 (R := R) x crs s).
Proof.
apply: (consumes_closed (b := (1 < size (crs_u crs))%N) (v := fun d =>
  mkCommit [:: s1map crs x + d 0%N *: nth 0 (crs_u crs) 0] [:: [:: d 0%N]])).
- by move=> R s; rewrite isok_commit_B1.
- by move=> h R s; rewrite commit_B1_Ok.
- by move=> d d' h; rewrite !h.
Qed.
Lemma B1_batch_draws X crs : consumes (size X) (fun R s => batch_commit_scalar_to_B1 (R := R) X crs s).
Proof.
apply: (consumes_closed (b := (0 < size X)%N && (1 < size (crs_u crs))%N) (v := fun d =>
  mkCommit (mkseq (gs_c 1 (nth 0 [seq s1map crs x | x <- X]) (nth 0 (crs_u crs))
                     (fun i j => d i)) (size X))
           (mkmat (size X) 1 (fun i j => d i)))).
- by move=> R s; rewrite isok_batch_commit_B1.
- by case/andP=> hX hk R s; rewrite batch_commit_B1_Ok.
move=> d d' h; congr mkCommit.
  apply: eq_in_mkseq => i hi; rewrite /gs_c; congr (_ + _); apply: eq_big_nat => j /andP[_ hj].
  by rewrite h.
by apply: eq_mkmat => i j hi hj; rewrite h.
Qed.
Lemma B2_draws x crs : consumes 1 (fun R s => commit_scalar_to_B2 (R := R) x crs s).
Proof.
apply: (consumes_closed (b := (1 < size (crs_v crs))%N) (v := fun d =>
  mkCommit [:: s2map crs x + d 0%N *: nth 0 (crs_v crs) 0] [:: [:: d 0%N]])).
- by move=> R s; rewrite isok_commit_B2.
- by move=> h R s; rewrite commit_B2_Ok.
- by move=> d d' h; rewrite !h.
Qed.
Lemma B2_batch_draws X crs : consumes (size X) (fun R s => batch_commit_scalar_to_B2 (R := R) X crs s).
Proof.
apply: (consumes_closed (b := (0 < size X)%N && (1 < size (crs_v crs))%N) (v := fun d =>
  mkCommit (mkseq (gs_c 1 (nth 0 [seq s2map crs x | x <- X]) (nth 0 (crs_v crs))
                     (fun i j => d i)) (size X))
           (mkmat (size X) 1 (fun i j => d i)))).
- by move=> R s; rewrite isok_batch_commit_B2.
- by case/andP=> hX hk R s; rewrite batch_commit_B2_Ok.
move=> d d' h; congr mkCommit.
  apply: eq_in_mkseq => i hi; rewrite /gs_c; congr (_ + _); apply: eq_big_nat => j /andP[_ hj].
  by rewrite h.
by apply: eq_mkmat => i j hi hj; rewrite h.
Qed.
End Commits.

Section Proves.
Context {E : pairing}.
Variable sch : sched.
Hypothesis vs : valid_sched sch.
Implicit Types (crs : CRS E) (cx : Commit1 E) (cy : Commit2 E).

(** What [ppe_prove] returns, as a function of the scalars drawn. *)
Definition ppe_pf (q : PPE E) X Y cx cy crs (d : nat -> Fr E) : EquProof E :=
  mkEquProof
    (mkseq (gs_pi (size X) (size Y) 2 (nth 0 (com2_batch_linear_map (ppe_b q))) (nth 0 (com2_batch_linear_map Y)) (nth 0 (crs_v crs))
       (ent 0 (ppe_gamma q)) (ent 0 (crand cx)) (ent 0 (crand cy)) (ent 0 (mkmat 2 2 (fun i j => d (2 * i + j)%N)))) 2)
    (mkseq (gs_th (size X) (size Y) 2 (nth 0 (com1_batch_linear_map (ppe_a q))) (nth 0 (com1_batch_linear_map X)) (nth 0 (crs_u crs))
       (ent 0 (ppe_gamma q)) (ent 0 (crand cy)) (ent 0 (mkmat 2 2 (fun i j => d (2 * i + j)%N)))) 2) PairingProduct (mkmat 2 2 (fun i j => d (2 * i + j)%N)).

Definition ppe_pshape (q : PPE E) (m n : nat) cx cy crs : bool :=
  prove_shape m n 2 2 (crand cx) (crand cy) (ppe_gamma q) (size (ppe_a q)) (size (ppe_b q))
  && (size (crs_u crs) == 2%N) && (size (crs_v crs) == 2%N).

Lemma ppe_prove_Ok (R : rng E) (q : PPE E) X Y cx cy crs (s : rst R) :
  ppe_pshape q (size X) (size Y) cx cy crs ->
  ppe_prove sch q X Y cx cy crs s = Ok (ppe_pf q X Y cx cy crs (drawn s), after 4 s).
Proof.
move=> h; case/andP: (h) => /andP[hs /eqP hu] /eqP hv.
rewrite ppe_proveE ?hu ?hv // (gprove_Ok vs) ?size_com1_lin ?size_com2_lin ?size_map ?rect_mkmat //.
by rewrite gshapeE ?size_com1_lin ?size_com2_lin ?size_map ?hu ?hv hs.
Qed.

Lemma ppe_prove_draws (q : PPE E) X Y cx cy crs :
  consumes 4 (fun R s => ppe_prove (R := R) sch q X Y cx cy crs s).
Proof.
apply: (consumes_closed (b := ppe_pshape q (size X) (size Y) cx cy crs) (v := ppe_pf q X Y cx cy crs)).
- by move=> R s; rewrite (isok_ppe_prove vs).
- by move=> h R s; exact: ppe_prove_Ok.
move=> d d' h; rewrite /ppe_pf; suff -> : mkmat 2 2 (fun i j => d (2 * i + j)%N) = mkmat 2 2 (fun i j => d' (2 * i + j)%N) by [].
by apply: eq_mkmat => i j hi hj; rewrite h // (lt_row2 hi hj).
Qed.

Lemma ppe_cap_draws (q : PPE E) X Y crs :
  consumes (2 * size X + (2 * size Y + 4)) (fun R s => ppe_commit_and_prove (R := R) sch q X Y crs s).
Proof.
apply: (consumes_bind (@G1_batch_draws E X crs)) => cx.
apply: (consumes_bind (@G2_batch_draws E Y crs)) => cy.
have := consumes_ret (h := fun pf => mkCProof cx cy [:: pf]) (@ppe_prove_draws q X Y cx cy crs).
by apply.
Qed.

(** What [ms1_prove] returns, as a function of the scalars drawn. *)
Definition ms1_pf (q : MSMEG1 E) X Y cx cy crs (d : nat -> Fr E) : EquProof E :=
  mkEquProof
    (mkseq (gs_pi (size X) (size Y) 1 (nth 0 [seq s2map crs y | y <- ms1_b q]) (nth 0 [seq s2map crs y | y <- Y]) (nth 0 [:: nth 0 (crs_v crs) 0])
       (ent 0 (ms1_gamma q)) (ent 0 (crand cx)) (ent 0 (crand cy)) (ent 0 (mkmat 1 2 (fun i j => d j)))) 2)
    (mkseq (gs_th (size X) (size Y) 2 (nth 0 (com1_batch_linear_map (ms1_a q))) (nth 0 (com1_batch_linear_map X)) (nth 0 (crs_u crs))
       (ent 0 (ms1_gamma q)) (ent 0 (crand cy)) (ent 0 (mkmat 1 2 (fun i j => d j)))) 1) MultiScalarG1 (mkmat 1 2 (fun i j => d j)).

Definition ms1_pshape (q : MSMEG1 E) (m n : nat) cx cy crs : bool :=
  prove_shape m n 2 1 (crand cx) (crand cy) (ms1_gamma q) (size (ms1_a q)) (size (ms1_b q))
  && (size (crs_u crs) == 2%N) && (1 < size (crs_v crs))%N.

Lemma ms1_prove_Ok (R : rng E) (q : MSMEG1 E) X Y cx cy crs (s : rst R) :
  ms1_pshape q (size X) (size Y) cx cy crs ->
  ms1_prove sch q X Y cx cy crs s = Ok (ms1_pf q X Y cx cy crs (drawn s), after 2 s).
Proof.
move=> h; case/andP: (h) => /andP[hs /eqP hu] hv.
rewrite ms1_proveE ?hu ?hv // (gprove_Ok vs) ?size_com1_lin ?size_com2_lin ?size_map ?rect_mkmat //.
by rewrite gshapeE ?size_com1_lin ?size_com2_lin ?size_map ?hu ?hv hs.
Qed.

Lemma ms1_prove_draws (q : MSMEG1 E) X Y cx cy crs :
  consumes 2 (fun R s => ms1_prove (R := R) sch q X Y cx cy crs s).
Proof.
apply: (consumes_closed (b := ms1_pshape q (size X) (size Y) cx cy crs) (v := ms1_pf q X Y cx cy crs)).
- by move=> R s; rewrite (isok_ms1_prove vs).
- by move=> h R s; exact: ms1_prove_Ok.
move=> d d' h; rewrite /ms1_pf; suff -> : mkmat 1 2 (fun i j => d j) = mkmat 1 2 (fun i j => d' j) by [].
by apply: eq_mkmat => i j hi hj; rewrite h //.
Qed.

Lemma ms1_cap_draws (q : MSMEG1 E) X Y crs :
  consumes (2 * size X + (size Y + 2)) (fun R s => ms1_commit_and_prove (R := R) sch q X Y crs s).
Proof.
apply: (consumes_bind (@G1_batch_draws E X crs)) => cx.
apply: (consumes_bind (@B2_batch_draws E Y crs)) => cy.
have := consumes_ret (h := fun pf => mkCProof cx cy [:: pf]) (@ms1_prove_draws q X Y cx cy crs).
by apply.
Qed.

(** What [ms2_prove] returns, as a function of the scalars drawn. *)
Definition ms2_pf (q : MSMEG2 E) X Y cx cy crs (d : nat -> Fr E) : EquProof E :=
  mkEquProof
    (mkseq (gs_pi (size X) (size Y) 2 (nth 0 (com2_batch_linear_map (ms2_b q))) (nth 0 (com2_batch_linear_map Y)) (nth 0 (crs_v crs))
       (ent 0 (ms2_gamma q)) (ent 0 (crand cx)) (ent 0 (crand cy)) (ent 0 (mkmat 2 1 (fun i j => d i)))) 1)
    (mkseq (gs_th (size X) (size Y) 1 (nth 0 [seq s1map crs y | y <- ms2_a q]) (nth 0 [seq s1map crs y | y <- X]) (nth 0 [:: nth 0 (crs_u crs) 0])
       (ent 0 (ms2_gamma q)) (ent 0 (crand cy)) (ent 0 (mkmat 2 1 (fun i j => d i)))) 2) MultiScalarG2 (mkmat 2 1 (fun i j => d i)).

Definition ms2_pshape (q : MSMEG2 E) (m n : nat) cx cy crs : bool :=
  prove_shape m n 1 2 (crand cx) (crand cy) (ms2_gamma q) (size (ms2_a q)) (size (ms2_b q))
  && (1 < size (crs_u crs))%N && (size (crs_v crs) == 2%N).

Lemma ms2_prove_Ok (R : rng E) (q : MSMEG2 E) X Y cx cy crs (s : rst R) :
  ms2_pshape q (size X) (size Y) cx cy crs ->
  ms2_prove sch q X Y cx cy crs s = Ok (ms2_pf q X Y cx cy crs (drawn s), after 2 s).
Proof.
move=> h; case/andP: (h) => /andP[hs hu] /eqP hv.
rewrite ms2_proveE ?hu ?hv // (gprove_Ok vs) ?size_com1_lin ?size_com2_lin ?size_map ?rect_mkmat //.
by rewrite gshapeE ?size_com1_lin ?size_com2_lin ?size_map ?hu ?hv hs.
Qed.

Lemma ms2_prove_draws (q : MSMEG2 E) X Y cx cy crs :
  consumes 2 (fun R s => ms2_prove (R := R) sch q X Y cx cy crs s).
Proof.
apply: (consumes_closed (b := ms2_pshape q (size X) (size Y) cx cy crs) (v := ms2_pf q X Y cx cy crs)).
- by move=> R s; rewrite (isok_ms2_prove vs).
- by move=> h R s; exact: ms2_prove_Ok.
move=> d d' h; rewrite /ms2_pf; suff -> : mkmat 2 1 (fun i j => d i) = mkmat 2 1 (fun i j => d' i) by [].
by apply: eq_mkmat => i j hi hj; rewrite h //.
Qed.

Lemma ms2_cap_draws (q : MSMEG2 E) X Y crs :
  consumes (size X + (2 * size Y + 2)) (fun R s => ms2_commit_and_prove (R := R) sch q X Y crs s).
Proof.
apply: (consumes_bind (@B1_batch_draws E X crs)) => cx.
apply: (consumes_bind (@G2_batch_draws E Y crs)) => cy.
have := consumes_ret (h := fun pf => mkCProof cx cy [:: pf]) (@ms2_prove_draws q X Y cx cy crs).
by apply.
Qed.

(** What [quad_prove] returns, as a function of the scalars drawn. *)
Definition quad_pf (q : QuadEqu E) X Y cx cy crs (d : nat -> Fr E) : EquProof E :=
  mkEquProof
    (mkseq (gs_pi (size X) (size Y) 1 (nth 0 [seq s2map crs y | y <- quad_b q]) (nth 0 [seq s2map crs y | y <- Y]) (nth 0 [:: nth 0 (crs_v crs) 0])
       (ent 0 (quad_gamma q)) (ent 0 (crand cx)) (ent 0 (crand cy)) (ent 0 (mkmat 1 1 (fun i j => d 0%N)))) 1)
    (mkseq (gs_th (size X) (size Y) 1 (nth 0 [seq s1map crs y | y <- quad_a q]) (nth 0 [seq s1map crs y | y <- X]) (nth 0 [:: nth 0 (crs_u crs) 0])
       (ent 0 (quad_gamma q)) (ent 0 (crand cy)) (ent 0 (mkmat 1 1 (fun i j => d 0%N)))) 1) Quadratic (mkmat 1 1 (fun i j => d 0%N)).

Definition quad_pshape (q : QuadEqu E) (m n : nat) cx cy crs : bool :=
  prove_shape m n 1 1 (crand cx) (crand cy) (quad_gamma q) (size (quad_a q)) (size (quad_b q))
  && (1 < size (crs_u crs))%N && (1 < size (crs_v crs))%N.

Lemma quad_prove_Ok (R : rng E) (q : QuadEqu E) X Y cx cy crs (s : rst R) :
  quad_pshape q (size X) (size Y) cx cy crs ->
  quad_prove sch q X Y cx cy crs s = Ok (quad_pf q X Y cx cy crs (drawn s), after 1 s).
Proof.
move=> h; case/andP: (h) => /andP[hs hu] hv.
rewrite quad_proveE ?hu ?hv // (gprove_Ok vs) ?size_com1_lin ?size_com2_lin ?size_map ?rect_mkmat //.
by rewrite gshapeE ?size_com1_lin ?size_com2_lin ?size_map ?hu ?hv hs.
Qed.

Lemma quad_prove_draws (q : QuadEqu E) X Y cx cy crs :
  consumes 1 (fun R s => quad_prove (R := R) sch q X Y cx cy crs s).
Proof.
apply: (consumes_closed (b := quad_pshape q (size X) (size Y) cx cy crs) (v := quad_pf q X Y cx cy crs)).
- by move=> R s; rewrite (isok_quad_prove vs).
- by move=> h R s; exact: quad_prove_Ok.
move=> d d' h; rewrite /quad_pf; suff -> : mkmat 1 1 (fun i j => d 0%N) = mkmat 1 1 (fun i j => d' 0%N) by [].
by apply: eq_mkmat => i j hi hj; rewrite h //.
Qed.

Lemma quad_cap_draws (q : QuadEqu E) X Y crs :
  consumes (size X + (size Y + 1)) (fun R s => quad_commit_and_prove (R := R) sch q X Y crs s).
Proof.
apply: (consumes_bind (@B1_batch_draws E X crs)) => cx.
apply: (consumes_bind (@B2_batch_draws E Y crs)) => cy.
have := consumes_ret (h := fun pf => mkCProof cx cy [:: pf]) (@quad_prove_draws q X Y cx cy crs).
by apply.
Qed.

End Proves.

Section Gen.
Context {E : pairing}.
Lemma generate_draws (R : rng E) (s : rst R) :
  let s1 := (rand_g1 s).2 in let s2 := (rand_g2 s1).2 in
  (generate_crs s).2 = after 4 s2 /\
  forall (R' : rng E) (z : rst R'), let z1 := (rand_g1 z).2 in let z2 := (rand_g2 z1).2 in
    (rand_g1 s).1 = (rand_g1 z).1 -> (rand_g2 s1).1 = (rand_g2 z1).1 -> same_draws 4 s2 z2 ->
    (generate_crs s).1 = (generate_crs z).1.
Proof.
have gE (Q : rng E) (t : rst Q) : generate_crs t =
  (let p1 := (rand_g1 t).1 in let t1 := (rand_g1 t).2 in
   let p2 := (rand_g2 t1).1 in let t2 := (rand_g2 t1).2 in
   (mkCRS [:: (p1, drawn t2 0 *: p1); (drawn t2 2 *: p1, drawn t2 2 *: (drawn t2 0 *: p1) - 0)]
          [:: (p2, drawn t2 1 *: p2); (drawn t2 3 *: p2, drawn t2 3 *: (drawn t2 1 *: p2) - 0)]
          p1 p2 (pair_e p1 p2), after 4 t2)).
  rewrite /generate_crs /=; case: (rand_g1 t) => p1 t1; case: (rand_g2 t1) => [p2 t2]; cbv beta iota.
  by rewrite rand_frE; cbv beta iota; do 3!(rewrite rand_fr_after; cbv beta iota).
move=> s1 s2; split=> [|R' z z1 z2 h1 h2 h3]; first by rewrite gE.
by rewrite !gE /= -/s1 -/s2 -/z1 -/z2 h1 h2 !h3.
Qed.
End Gen.
