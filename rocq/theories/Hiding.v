(** Hiding keys: spans, independence, and what commit_and_prove publishes as a function of the tape. *)
From mathcomp Require Import all_ssreflect all_algebra.
From Verif Require Import Base BaseLemmas Group DataStructures MatLemmas CoreAlg ComLemmas.
From Verif Require Import Generator Commit Statement Prove Verify Spec SpecMat SpecVerify SpecHide ProveLemmas CommitLemmas Holds Complete Draws GenProps HideCore HideTape.
Set Implicit Arguments.
Unset Strict Implicit.
Unset Printing Implicit Defensive.
Import GRing.Theory.
Local Open Scope ring_scope.

Section Keys.
Context {E : pairing}.
Variable crs : CRS E.
Hypotheses (hb : bilinear E) (hn : nondegenerate E) (hc1 : cyclic (G1 E)) (hc2 : cyclic (G2 E)).
Hypotheses (hh : hiding_crs crs) (hp : proper_crs crs).
Notation f := (comT_pairing : Com1 E -> Com2 E -> ComT E).
Let fb := comT_pairing_bilin hb.
Let eb := pair_bilin hb.

Lemma spanned_any (T : lmodType (Fr E)) k (w : nat -> T) q (x : nat -> T) :
  (forall c, exists a, c = lin k w a) -> spanned k w q x.
Proof.
move=> h; elim: q => [|q [c hq]]; first by exists (fun _ _ => 0).
have [a ha] := h (x q); exists (fun k0 => if k0 == q then a else c k0) => k0.
by rewrite ltnS leq_eqVlt; case: eqP => [->|_] //=; exact: hq.
Qed.
Lemma spanned0 (T : lmodType (Fr E)) k (w : nat -> T) q : spanned k w q (fun=> 0).
Proof. by exists (fun _ _ => 0) => k0 _; rewrite /lin big1 // => i _; rewrite scale0r. Qed.
Lemma eq_spanned (T : lmodType (Fr E)) k (w : nat -> T) q x y :
  (forall i, (i < q)%N -> x i = y i) -> spanned k w q x -> spanned k w q y.
Proof. by move=> h [c hc]; exists c => i hi; rewrite -h // hc. Qed.

Lemma span_u q (x : nat -> Com1 E) : spanned 2 (nth 0 (crs_u crs)) q x.
Proof.
apply: spanned_any => c; have [h _] := hiding_crs_span hh hp hc1 hc2; have [r1 [r2 ->]] := h c.
by exists (fun i => if i is 0%N then r1 else r2); rewrite /lin big2.
Qed.
Lemma span_v q (x : nat -> Com2 E) : spanned 2 (nth 0 (crs_v crs)) q x.
Proof.
apply: spanned_any => c; have [_ h] := hiding_crs_span hh hp hc1 hc2; have [r1 [r2 ->]] := h c.
by exists (fun i => if i is 0%N then r1 else r2); rewrite /lin big2.
Qed.
Lemma s1E a1 a2 t1 t2 x : hiding_crs_with crs a1 a2 t1 t2 -> s1map crs x = (x * t1) *: u1 crs.
Proof.
by move=> [eu _ _]; rewrite /s1map eu -scalerA; congr (_ *: _); congr pair; rewrite /= ?addr0 // subrK.
Qed.
Lemma s2E a1 a2 t1 t2 x : hiding_crs_with crs a1 a2 t1 t2 -> s2map crs x = (x * t2) *: v1 crs.
Proof.
by move=> [_ ev _]; rewrite /s2map ev -scalerA; congr (_ *: _); congr pair; rewrite /= ?addr0 // subrK.
Qed.
Lemma span_s1 q s : spanned 1 (nth 0 (crs_u crs)) q (nth 0 [seq s1map crs x | x <- s]).
Proof.
case: (hh) => a1 [a2 [t1 [t2 h]]]; exists (fun k _ => nth 0 s k * t1) => k _.
by rewrite nth_s1 (s1E _ h) /lin big_nat1.
Qed.
Lemma span_s2 q s : spanned 1 (nth 0 (crs_v crs)) q (nth 0 [seq s2map crs x | x <- s]).
Proof.
case: (hh) => a1 [a2 [t1 [t2 h]]]; exists (fun k _ => nth 0 s k * t2) => k _.
by rewrite nth_s2 (s2E _ h) /lin big_nat1.
Qed.

Lemma pair_inj0 (P : G1 E) (y : G2 E) : P != 0 -> pair_e P y = 0 -> y = 0.
Proof. by move=> hP /hn[e|//]; move: hP; rewrite e eqxx. Qed.

(** Independence. *)
Lemma key_solve (P : G1 E) a t (x y : G2 E) : P != 0 ->
  pair_e P x + pair_e (t *: P) y = 0 -> pair_e (a *: P) x + pair_e (t *: (a *: P) - P) y = 0 -> x = 0 /\ y = 0.
Proof.
move=> hP; rewrite (bilZl eb) -(bilZr eb) -(bilDr eb) => /(pair_inj0 hP) h1.
rewrite h2E !(bilZl eb) -!(bilZr eb) -(bilDr eb) => /(pair_inj0 hP).
have -> : x = - (t *: y) by apply/eqP; rewrite -addr_eq0 h1.
rewrite scalerN scalerBl scale1r scalerA mulrC addrA addNr sub0r => /eqP; rewrite oppr_eq0 => /eqP ->.
by rewrite scaler0 oppr0.
Qed.
Lemma indep2 (w w' : Com2 E) : f (u1 crs) w + f (u2 crs) w' = 0 -> w = 0 /\ w' = 0.
Proof.
case: hh => a1 [a2 [t1 [t2 [-> _ _]]]]; case: hp => h1 _; rewrite /=.
case: w w' => [x1 x2] [y1 y2] [e1 e2 e3 e4].
by have [-> ->] := key_solve h1 e1 e3; have [-> ->] := key_solve h1 e2 e4.
Qed.
Lemma lin2_0 (c : nat -> Fr E) : lin 2 (nth 0 (crs_v crs)) c = 0 -> c 0%N = 0 /\ c 1%N = 0.
Proof.
rewrite /lin big2 => h; have [_] := hiding_crs_inj hh hp (c 0%N) (c 1%N) 0 0.
by apply; rewrite !scale0r addr0.
Qed.
Lemma indep22 (p : nat -> nat -> Fr E) :
  \sum_(0 <= i < 2) f (nth 0 (crs_u crs) i) (lin 2 (nth 0 (crs_v crs)) (p i)) = 0 ->
  forall i l, (i < 2)%N -> (l < 2)%N -> p i l = 0.
Proof.
rewrite big2 => /indep2[/lin2_0[a b] /lin2_0[c d]].
by move=> [|[|i]] [|[|l]].
Qed.
Lemma indep_le kx ky (p : nat -> nat -> Fr E) : (kx <= 2)%N -> (ky <= 2)%N ->
  \sum_(0 <= i < kx) f (nth 0 (crs_u crs) i) (lin ky (nth 0 (crs_v crs)) (p i)) = 0 ->
  forall i l, (i < kx)%N -> (l < ky)%N -> p i l = 0.
Proof.
move=> hx hy h; pose p' i l := if (i < kx)%N && (l < ky)%N then p i l else 0.
have e i : (i < kx)%N -> lin 2 (nth 0 (crs_v crs)) (p' i) = lin ky (nth 0 (crs_v crs)) (p i).
  move=> hi; rewrite /lin (@big_cat_nat _ _ _ ky) //= [X in _ + X]big_nat_cond [X in _ + X]big1 ?addr0.
    by apply: eq_big_nat => l /andP[_ hl]; rewrite /p' hi hl.
  by move=> l /andP[/andP[hl _] _]; rewrite /p' (ltnNge l) hl andbF scale0r.
have : \sum_(0 <= i < 2) f (nth 0 (crs_u crs) i) (lin 2 (nth 0 (crs_v crs)) (p' i)) = 0.
  rewrite (@big_cat_nat _ _ _ kx) //= [X in _ + X]big_nat_cond [X in _ + X]big1 ?addr0.
    by rewrite -[RHS]h; apply: eq_big_nat => i /andP[_ hi]; rewrite e.
  move=> i /andP[/andP[hi _] _]; rewrite /lin big1 ?(bil0r fb) // => l _.
  by rewrite /p' (ltnNge i) hi scale0r.
move/indep22 => h' i l hi hl; have := h' i l (leq_trans hi hx) (leq_trans hl hy).
by rewrite /p' hi hl.
Qed.
End Keys.

Section Closed.
Context {E : pairing}.

Definition pubof (ty : EquType) (g : seq (Com1 E) * seq (Com2 E) * (seq (Com2 E) * seq (Com1 E))) :=
  (g.1.1, g.1.2, [:: (g.2.1, g.2.2, ty)]).

Lemma eq_pi_fun (V : lmodType (Fr E)) m n ky (B Y v v' : nat -> V) (G R R' S S' T T' : nat -> nat -> Fr E) i :
  (forall l, (l < ky)%N -> v l = v' l) ->
  (forall k, (k < m)%N -> R k i = R' k i) -> (forall j l, (j < n)%N -> (l < ky)%N -> S j l = S' j l) ->
  (forall l, (l < ky)%N -> T l i = T' l i) ->
  gs_pi m n ky B Y v G R S T i = gs_pi m n ky B Y v' G R' S' T' i.
Proof.
move=> hv hR hS hT; rewrite /gs_pi.
have e j : \sum_(0 <= k < m) R k i * G k j = \sum_(0 <= k < m) R' k i * G k j.
  by apply: eq_big_nat => k /andP[_ hk]; rewrite hR.
congr (_ + _ + _).
- by apply: eq_big_nat => k /andP[_ hk]; rewrite hR.
- by apply: eq_bigr => j _; rewrite e.
apply: eq_big_nat => l /andP[_ hl]; rewrite hv // hT //; congr ((_ - _) *: _).
by apply: eq_big_nat => j /andP[_ hj]; rewrite e hS.
Qed.
Lemma eq_th_fun (U : lmodType (Fr E)) m n kx (A X u u' : nat -> U) (G S S' T T' : nat -> nat -> Fr E) l :
  (forall i, (i < kx)%N -> u i = u' i) ->
  (forall j, (j < n)%N -> S j l = S' j l) -> (forall i, (i < kx)%N -> T l i = T' l i) ->
  gs_th m n kx A X u G S T l = gs_th m n kx A X u' G S' T' l.
Proof.
move=> hu hS hT; rewrite /gs_th; congr (_ + _ + _).
- by apply: eq_big_nat => j /andP[_ hj]; rewrite hS.
- apply: eq_bigr => k _; congr (_ *: _); by apply: eq_big_nat => j /andP[_ hj]; rewrite hS.
by apply: eq_big_nat => i /andP[_ hi]; rewrite hu // hT.
Qed.
Lemma eq_c_fun (U : lmodType (Fr E)) kx (X u : nat -> U) (R R' : nat -> nat -> Fr E) k :
  (forall i, (i < kx)%N -> R k i = R' k i) -> gs_c kx X u R k = gs_c kx X u R' k.
Proof. by move=> h; rewrite /gs_c; congr (_ + _); apply: eq_big_nat => i /andP[_ hi]; rewrite h. Qed.

Variable sch : sched.
Hypothesis vs : valid_sched sch.

Lemma ppe_cap_gpub (R : rng E) (q : PPE E) X Y crs (s : rst R) dp dt :
  (0 < size X)%N -> (0 < size Y)%N -> ppe_wf q (size X) (size Y) -> two_keys crs ->
  seen (fun p => public (correct dp dt p)) (ppe_commit_and_prove sch q X Y crs s)
  = Ok (pubof PairingProduct (gpub (size X) (size Y) 2 2 (nth 0 (com1_batch_linear_map (ppe_a q))) (nth 0 (crs_u crs)) (nth 0 (com2_batch_linear_map (ppe_b q))) (nth 0 (crs_v crs)) (ent 0 (ppe_gamma q)) (nth 0 (com1_batch_linear_map X)) (nth 0 (com2_batch_linear_map Y)) (nth 0 dp) (nth 0 dt) (drawn s))).
Proof.
move=> hX hY [ha hb' /dims_rect hG] [hu hv]; rewrite /ppe_commit_and_prove batch_commit_G1_Ok ?hu // bind_Ok; cbv beta iota.
rewrite batch_commit_G2_Ok ?hv // bind_Ok; cbv beta iota.
rewrite (ppe_prove_Ok vs); last first.
  by rewrite /ppe_pshape hu hv /= andbT andbT /prove_shape hX hY !rect_mkmat hG ha hb' !eqxx.
rewrite bind_Ok; cbv beta iota zeta delta [seen public correct correct_pf xcoms ycoms equ_proofs coms map pi theta equ_type ppe_pf pubof gpub fst snd crand].
rewrite !size_mkseq.
congr (Ok (_, _, [:: (_, _, _)])).

- by apply: eq_in_mkseq => k hk; rewrite -[RHS]/(gs_c _ _ _ _ k); apply: eq_c_fun => l _; rewrite /Sd drawn_after addnC .
- apply: eq_in_mkseq => i hi; rewrite nth_mkseq //; congr (_ + _); apply: eq_pi_fun.
  + by move=> [|[|l]].
  + by move=> j hj; rewrite ent_mkmat // /Rd .
  + move=> j l hj hl; rewrite ent_mkmat // /Sd drawn_after addnC  //.
  + move=> l hl; rewrite ent_mkmat // /Td !drawn_after addnC; congr (drawn s _); rewrite ?mul1n; congr (_ + _)%N.
    by rewrite addnC; congr (_ + _)%N; move: hi hl; case: i => [|[|i]] //; case: l => [|[|l]].
- apply: eq_in_mkseq => l hl; rewrite nth_mkseq //; congr (_ + _); apply: eq_th_fun.
  + by move=> [|[|i]].
  + move=> j hj; rewrite ent_mkmat // /Sd drawn_after addnC  //.
  + move=> i hi; rewrite ent_mkmat // /Td !drawn_after addnC; congr (drawn s _); rewrite ?mul1n; congr (_ + _)%N.
    by rewrite addnC; congr (_ + _)%N; move: hi hl; case: i => [|[|i]] //; case: l => [|[|l]].
Qed.

Lemma ms1_cap_gpub (R : rng E) (q : MSMEG1 E) X Y crs (s : rst R) dp dt :
  (0 < size X)%N -> (0 < size Y)%N -> ms1_wf q (size X) (size Y) -> two_keys crs ->
  seen (fun p => public (correct dp dt p)) (ms1_commit_and_prove sch q X Y crs s)
  = Ok (pubof MultiScalarG1 (gpub (size X) (size Y) 2 1 (nth 0 (com1_batch_linear_map (ms1_a q))) (nth 0 (crs_u crs)) (nth 0 [seq s2map crs y | y <- ms1_b q]) (nth 0 (crs_v crs)) (ent 0 (ms1_gamma q)) (nth 0 (com1_batch_linear_map X)) (nth 0 [seq s2map crs y | y <- Y]) (nth 0 dp) (nth 0 dt) (drawn s))).
Proof.
move=> hX hY [ha hb' /dims_rect hG] [hu hv]; rewrite /ms1_commit_and_prove batch_commit_G1_Ok ?hu // bind_Ok; cbv beta iota.
rewrite batch_commit_B2_Ok ?hv // bind_Ok; cbv beta iota.
rewrite (ms1_prove_Ok vs); last first.
  by rewrite /ms1_pshape hu hv /= andbT andbT /prove_shape hX hY !rect_mkmat hG ha hb' !eqxx.
rewrite bind_Ok; cbv beta iota zeta delta [seen public correct correct_pf xcoms ycoms equ_proofs coms map pi theta equ_type ms1_pf pubof gpub fst snd crand].
rewrite !size_mkseq.
congr (Ok (_, _, [:: (_, _, _)])).

- by apply: eq_in_mkseq => k hk; rewrite -[RHS]/(gs_c _ _ _ _ k); apply: eq_c_fun => -[|//] _; rewrite /Sd drawn_after mul1n addn0 addnC .
- apply: eq_in_mkseq => i hi; rewrite nth_mkseq //; congr (_ + _); apply: eq_pi_fun.
  + by move=> [|[|l]].
  + by move=> j hj; rewrite ent_mkmat // /Rd .
  + move=> j l hj hl; rewrite ent_mkmat // /Sd drawn_after; move: hl; case: l => // _; rewrite mul1n addn0 addnC  //.
  + move=> l hl; rewrite ent_mkmat // /Td !drawn_after addnC; congr (drawn s _); rewrite ?mul1n; congr (_ + _)%N.
    by rewrite addnC; congr (_ + _)%N; move: hi hl; case: i => [|[|i]] //; case: l => [|[|l]].
- apply: eq_in_mkseq => l hl; rewrite nth_mkseq //; congr (_ + _); apply: eq_th_fun.
  + by move=> [|[|i]].
  + move=> j hj; rewrite ent_mkmat // /Sd drawn_after; move: hl; case: l => // _; rewrite mul1n addn0 addnC  //.
  + move=> i hi; rewrite ent_mkmat // /Td !drawn_after addnC; congr (drawn s _); rewrite ?mul1n; congr (_ + _)%N.
    by rewrite addnC; congr (_ + _)%N; move: hi hl; case: i => [|[|i]] //; case: l => [|[|l]].
Qed.

Lemma ms2_cap_gpub (R : rng E) (q : MSMEG2 E) X Y crs (s : rst R) dp dt :
  (0 < size X)%N -> (0 < size Y)%N -> ms2_wf q (size X) (size Y) -> two_keys crs ->
  seen (fun p => public (correct dp dt p)) (ms2_commit_and_prove sch q X Y crs s)
  = Ok (pubof MultiScalarG2 (gpub (size X) (size Y) 1 2 (nth 0 [seq s1map crs y | y <- ms2_a q]) (nth 0 (crs_u crs)) (nth 0 (com2_batch_linear_map (ms2_b q))) (nth 0 (crs_v crs)) (ent 0 (ms2_gamma q)) (nth 0 [seq s1map crs y | y <- X]) (nth 0 (com2_batch_linear_map Y)) (nth 0 dp) (nth 0 dt) (drawn s))).
Proof.
move=> hX hY [ha hb' /dims_rect hG] [hu hv]; rewrite /ms2_commit_and_prove batch_commit_B1_Ok ?hu // bind_Ok; cbv beta iota.
rewrite batch_commit_G2_Ok ?hv // bind_Ok; cbv beta iota.
rewrite (ms2_prove_Ok vs); last first.
  by rewrite /ms2_pshape hu hv /= andbT andbT /prove_shape hX hY !rect_mkmat hG ha hb' !eqxx.
rewrite bind_Ok; cbv beta iota zeta delta [seen public correct correct_pf xcoms ycoms equ_proofs coms map pi theta equ_type ms2_pf pubof gpub fst snd crand].
rewrite !size_mkseq.
congr (Ok (_, _, [:: (_, _, _)])).
- by apply: eq_in_mkseq => k hk; apply: eq_c_fun => -[|//] _; rewrite /Rd mul1n addn0.
- by apply: eq_in_mkseq => k hk; rewrite -[RHS]/(gs_c _ _ _ _ k); apply: eq_c_fun => l _; rewrite /Sd drawn_after addnC mul1n.
- apply: eq_in_mkseq => i hi; rewrite nth_mkseq //; congr (_ + _); apply: eq_pi_fun.
  + by move=> [|[|l]].
  + by move=> j hj; rewrite ent_mkmat // /Rd; move: hi; case: i => // _; rewrite mul1n addn0.
  + move=> j l hj hl; rewrite ent_mkmat // /Sd drawn_after addnC ?mul1n //.
  + move=> l hl; rewrite ent_mkmat // /Td !drawn_after addnC; congr (drawn s _); rewrite ?mul1n; congr (_ + _)%N.
    by rewrite addnC; congr (_ + _)%N; move: hi hl; case: i => [|[|i]] //; case: l => [|[|l]].
- apply: eq_in_mkseq => l hl; rewrite nth_mkseq //; congr (_ + _); apply: eq_th_fun.
  + by move=> [|[|i]].
  + move=> j hj; rewrite ent_mkmat // /Sd drawn_after addnC ?mul1n //.
  + move=> i hi; rewrite ent_mkmat // /Td !drawn_after addnC; congr (drawn s _); rewrite ?mul1n; congr (_ + _)%N.
    by rewrite addnC; congr (_ + _)%N; move: hi hl; case: i => [|[|i]] //; case: l => [|[|l]].
Qed.

Lemma quad_cap_gpub (R : rng E) (q : QuadEqu E) X Y crs (s : rst R) dp dt :
  (0 < size X)%N -> (0 < size Y)%N -> quad_wf q (size X) (size Y) -> two_keys crs ->
  seen (fun p => public (correct dp dt p)) (quad_commit_and_prove sch q X Y crs s)
  = Ok (pubof Quadratic (gpub (size X) (size Y) 1 1 (nth 0 [seq s1map crs y | y <- quad_a q]) (nth 0 (crs_u crs)) (nth 0 [seq s2map crs y | y <- quad_b q]) (nth 0 (crs_v crs)) (ent 0 (quad_gamma q)) (nth 0 [seq s1map crs y | y <- X]) (nth 0 [seq s2map crs y | y <- Y]) (nth 0 dp) (nth 0 dt) (drawn s))).
Proof.
move=> hX hY [ha hb' /dims_rect hG] [hu hv]; rewrite /quad_commit_and_prove batch_commit_B1_Ok ?hu // bind_Ok; cbv beta iota.
rewrite batch_commit_B2_Ok ?hv // bind_Ok; cbv beta iota.
rewrite (quad_prove_Ok vs); last first.
  by rewrite /quad_pshape hu hv /= andbT andbT /prove_shape hX hY !rect_mkmat hG ha hb' !eqxx.
rewrite bind_Ok; cbv beta iota zeta delta [seen public correct correct_pf xcoms ycoms equ_proofs coms map pi theta equ_type quad_pf pubof gpub fst snd crand].
rewrite !size_mkseq.
congr (Ok (_, _, [:: (_, _, _)])).
- by apply: eq_in_mkseq => k hk; apply: eq_c_fun => -[|//] _; rewrite /Rd mul1n addn0.
- by apply: eq_in_mkseq => k hk; rewrite -[RHS]/(gs_c _ _ _ _ k); apply: eq_c_fun => -[|//] _; rewrite /Sd drawn_after mul1n addn0 addnC mul1n.
- apply: eq_in_mkseq => i hi; rewrite nth_mkseq //; congr (_ + _); apply: eq_pi_fun.
  + by move=> [|[|l]].
  + by move=> j hj; rewrite ent_mkmat // /Rd; move: hi; case: i => // _; rewrite mul1n addn0.
  + move=> j l hj hl; rewrite ent_mkmat // /Sd drawn_after; move: hl; case: l => // _; rewrite mul1n addn0 addnC ?mul1n //.
  + move=> l hl; rewrite ent_mkmat // /Td !drawn_after addnC; congr (drawn s _); rewrite ?mul1n; congr (_ + _)%N.
    by rewrite addnC; congr (_ + _)%N; move: hi hl; case: i => [|[|i]] //; case: l => [|[|l]].
- apply: eq_in_mkseq => l hl; rewrite nth_mkseq //; congr (_ + _); apply: eq_th_fun.
  + by move=> [|[|i]].
  + move=> j hj; rewrite ent_mkmat // /Sd drawn_after; move: hl; case: l => // _; rewrite mul1n addn0 addnC ?mul1n //.
  + move=> i hi; rewrite ent_mkmat // /Td !drawn_after addnC; congr (drawn s _); rewrite ?mul1n; congr (_ + _)%N.
    by rewrite addnC; congr (_ + _)%N; move: hi hl; case: i => [|[|i]] //; case: l => [|[|l]].
Qed.
End Closed.
