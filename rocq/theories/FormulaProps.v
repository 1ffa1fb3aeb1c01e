(** Proofs of the closed forms of SpecFormula.v: commitments, verification and proofs. *)
From mathcomp Require Import all_ssreflect all_algebra.
From Verif Require Import Base BaseLemmas Group DataStructures MatLemmas ComLemmas CoreAlg Commit CommitLemmas Statement Prove ProveLemmas Verify VerifyLemmas Draws Spec SpecMat SpecVerify SpecPanic SpecFormula PanicLemmas PanicSteps PanicProps PanicProve FormulaLemmas.
Set Implicit Arguments.
Unset Strict Implicit.
Unset Printing Implicit Defensive.
Import GRing.Theory.
Local Open Scope ring_scope.

Lemma checked_ok A cs (v a : A) : checked cs v = Ok a -> a = v.
Proof. by rewrite /checked; case: (first_failed cs) => // -[->]. Qed.

Section Totals.
Context {E : pairing} {R : rng E}.
Implicit Types (crs : CRS E) (s : rst R).

Lemma commit_G1_total (x : G1 E) crs s :
  commit_G1 x crs s
  = checked (commit_checks (size (crs_u crs))) (commit_value 2 (crs_u crs) [:: i1 x] (fun i l => drawn s (2 * i + l)%N), after 2 s).
Proof.
apply: checked_all; first exact: (proj1 (step_commit_G1 x crs s)).
by case/andP=> /= h _; rewrite commit_G1_Ok // /commit_value /table /mkseq /= !big_ord_recl big_ord0 addr0 ?addrA.
Qed.

Lemma batch_commit_G1_total (X : seq (G1 E)) crs s :
  batch_commit_G1 X crs s
  = checked (batch_checks (size (crs_u crs)) (size X))
      (commit_value 2 (crs_u crs) [seq i1 x | x <- X] (fun i l => drawn s (2 * i + l)%N), after (2 * size X)%N s).
Proof.
apply: checked_all; first exact: (proj1 (step_batch_G1 X crs s)).
case/and3P=> /= h1 h0 _; rewrite eqn0Ngt h0 in h1; rewrite batch_commit_G1_Ok ?(eqP h1) //; congr (Ok (mkCommit _ _, _)).
- by rewrite size_map; apply: eq_mkseq => i; rewrite /gs_c big_mkord.
by rewrite size_map.
Qed.

Lemma commit_scalar_to_B1_total (x : Fr E) crs s :
  commit_scalar_to_B1 x crs s
  = checked (commit_checks (size (crs_u crs))) (commit_value 1 (crs_u crs) [:: k1 crs x] (fun i l => drawn s i), after 1 s).
Proof.
apply: checked_all; first exact: (proj1 (step_commit_B1 x crs s)).
by case/andP=> /= h _; rewrite commit_B1_Ok // /commit_value /table /mkseq /= !big_ord_recl big_ord0 addr0 ?addrA.
Qed.

Lemma batch_commit_scalar_to_B1_total (X : seq (Fr E)) crs s :
  batch_commit_scalar_to_B1 X crs s
  = checked (batch_scalar_checks (size (crs_u crs)) (size X))
      (commit_value 1 (crs_u crs) [seq k1 crs x | x <- X] (fun i l => drawn s i), after (size X) s).
Proof.
apply: checked_all; first exact: (proj1 (step_batch_B1 X crs s)).
case/and3P=> /= h1 h0 _; rewrite eqn0Ngt h0 in h1; rewrite batch_commit_B1_Ok ?(eqP h1) //; congr (Ok (mkCommit _ _, _)).
- by rewrite size_map; apply: eq_mkseq => i; rewrite /gs_c big_mkord.
by rewrite size_map.
Qed.

Lemma commit_G2_total (x : G2 E) crs s :
  commit_G2 x crs s
  = checked (commit_checks (size (crs_v crs))) (commit_value 2 (crs_v crs) [:: i2 x] (fun i l => drawn s (2 * i + l)%N), after 2 s).
Proof.
apply: checked_all; first exact: (proj1 (step_commit_G2 x crs s)).
by case/andP=> /= h _; rewrite commit_G2_Ok // /commit_value /table /mkseq /= !big_ord_recl big_ord0 addr0 ?addrA.
Qed.

Lemma batch_commit_G2_total (X : seq (G2 E)) crs s :
  batch_commit_G2 X crs s
  = checked (batch_checks (size (crs_v crs)) (size X))
      (commit_value 2 (crs_v crs) [seq i2 x | x <- X] (fun i l => drawn s (2 * i + l)%N), after (2 * size X)%N s).
Proof.
apply: checked_all; first exact: (proj1 (step_batch_G2 X crs s)).
case/and3P=> /= h1 h0 _; rewrite eqn0Ngt h0 in h1; rewrite batch_commit_G2_Ok ?(eqP h1) //; congr (Ok (mkCommit _ _, _)).
- by rewrite size_map; apply: eq_mkseq => i; rewrite /gs_c big_mkord.
by rewrite size_map.
Qed.

Lemma commit_scalar_to_B2_total (x : Fr E) crs s :
  commit_scalar_to_B2 x crs s
  = checked (commit_checks (size (crs_v crs))) (commit_value 1 (crs_v crs) [:: k2 crs x] (fun i l => drawn s i), after 1 s).
Proof.
apply: checked_all; first exact: (proj1 (step_commit_B2 x crs s)).
by case/andP=> /= h _; rewrite commit_B2_Ok // /commit_value /table /mkseq /= !big_ord_recl big_ord0 addr0 ?addrA.
Qed.

Lemma batch_commit_scalar_to_B2_total (X : seq (Fr E)) crs s :
  batch_commit_scalar_to_B2 X crs s
  = checked (batch_scalar_checks (size (crs_v crs)) (size X))
      (commit_value 1 (crs_v crs) [seq k2 crs x | x <- X] (fun i l => drawn s i), after (size X) s).
Proof.
apply: checked_all; first exact: (proj1 (step_batch_B2 X crs s)).
case/and3P=> /= h1 h0 _; rewrite eqn0Ngt h0 in h1; rewrite batch_commit_B2_Ok ?(eqP h1) //; congr (Ok (mkCommit _ _, _)).
- by rewrite size_map; apply: eq_mkseq => i; rewrite /gs_c big_mkord.
by rewrite size_map.
Qed.

Lemma ppe_verify_total sch (q : PPE E) (p : CProof E) crs : valid_sched sch ->
  ppe_verify sch q p crs
  = if equ_proofs p is [:: pf]
    then checked (ppe_verify_checks q (size (coms (xcoms p))) (size (coms (ycoms p))) pf crs)
           (verify_value [seq i1 x | x <- ppe_a q] [seq i2 y | y <- ppe_b q] (ppe_gamma q) p (((0, 0), (0, ppe_target q)) : ComT E) crs pf (size (crs_u crs)) (size (crs_v crs)))
    else Panic AssertFailed.
Proof.
move=> vs; have := ppe_verify_outcome q p crs vs; case: p => cx cy [|pf [|pf' pfs]] //.
rewrite [equ_proofs _]/=; cbv iota beta => ho; apply: checked_isok ho _; rewrite (isok_ppe_verify vs) => h.
rewrite (ppe_verify_Ok vs h) /ppe_veq /veq /verify_value /gs_eq !big_mkord /s1map /s2map ?scale1r; congr (Ok (_ + _ + _ == _)).
by apply: eq_bigr => i _; rewrite big_mkord.
Qed.

Lemma ppe_prove_total sch (q : PPE E) (X : seq (G1 E)) (Y : seq (G2 E)) (cx : Commit1 E) (cy : Commit2 E) crs s : valid_sched sch ->
  ppe_prove sch q X Y cx cy crs s
  = checked (ppe_prove_checks q (size X) (size Y) (crand cx) (crand cy) crs)
      (prove_value (size X) (size Y) 2 2 [seq i1 x | x <- ppe_a q] [seq i1 x | x <- X]
         [seq i2 y | y <- ppe_b q] [seq i2 y | y <- Y] (ppe_gamma q) (crand cx) (crand cy)
         (table 2 2 (fun i j => drawn s (2 * i + j)%N)) crs PairingProduct, after 4 s).
Proof.
move=> vs; apply: checked_isok; first exact: ppe_prove_outcome.
rewrite (isok_ppe_prove vs) => h; rewrite (ppe_prove_Ok vs s h) /ppe_pf /prove_value; congr (Ok (mkEquProof _ _ _ _, _)).
- apply: eq_mkseq => k; rewrite /gs_pi !big_mkord; congr (_ + _ + _).
  + by apply: eq_bigr => j _; rewrite big_mkord.
  + apply: eq_bigr => l _; congr (_ *: _).
    congr (_ - _); rewrite big_mkord; by apply: eq_bigr => j _; rewrite big_mkord.
apply: eq_mkseq => l; rewrite /gs_th !big_mkord; congr (_ + _ + _).
- by apply: eq_bigr => j _; rewrite big_mkord.

Qed.

Lemma ms1_verify_total sch (q : MSMEG1 E) (p : CProof E) crs : valid_sched sch ->
  ms1_verify sch q p crs
  = if equ_proofs p is [:: pf]
    then checked (ms1_verify_checks q (size (coms (xcoms p))) (size (coms (ycoms p))) pf crs)
           (verify_value [seq i1 x | x <- ms1_a q] [seq k2 crs y | y <- ms1_b q] (ms1_gamma q) p (pairT (i1 (ms1_target q)) (one2 crs)) crs pf (size (crs_u crs)) 1)
    else Panic AssertFailed.
Proof.
move=> vs; have := ms1_verify_outcome q p crs vs; case: p => cx cy [|pf [|pf' pfs]] //.
rewrite [equ_proofs _]/=; cbv iota beta => ho; apply: checked_isok ho _; rewrite (isok_ms1_verify vs) => h.
rewrite (ms1_verify_Ok vs h) /ms1_veq /veq /verify_value /gs_eq !big_mkord /s1map /s2map ?scale1r; congr (Ok (_ + _ + _ == _)).
by apply: eq_bigr => i _; rewrite big_mkord.
Qed.

Lemma ms1_prove_total sch (q : MSMEG1 E) (X : seq (G1 E)) (Y : seq (Fr E)) (cx : Commit1 E) (cy : Commit2 E) crs s : valid_sched sch ->
  ms1_prove sch q X Y cx cy crs s
  = checked (ms1_prove_checks q (size X) (size Y) (crand cx) (crand cy) crs)
      (prove_value (size X) (size Y) 2 1 [seq i1 x | x <- ms1_a q] [seq i1 x | x <- X]
         [seq k2 crs y | y <- ms1_b q] [seq k2 crs y | y <- Y] (ms1_gamma q) (crand cx) (crand cy)
         (table 1 2 (fun i j => drawn s j)) crs MultiScalarG1, after 2 s).
Proof.
move=> vs; apply: checked_isok; first exact: ms1_prove_outcome.
rewrite (isok_ms1_prove vs) => h; rewrite (ms1_prove_Ok vs s h) /ms1_pf /prove_value; congr (Ok (mkEquProof _ _ _ _, _)).
- apply: eq_mkseq => k; rewrite /gs_pi !big_mkord; congr (_ + _ + _).
  + by apply: eq_bigr => j _; rewrite big_mkord.
  + rewrite !big_ord_recl !big_ord0 /=; congr (_ *: _ + _).
    congr (_ - _); rewrite big_mkord; by apply: eq_bigr => j _; rewrite big_mkord.
apply: eq_mkseq => l; rewrite /gs_th !big_mkord; congr (_ + _ + _).
- by apply: eq_bigr => j _; rewrite big_mkord.

Qed.

Lemma ms2_verify_total sch (q : MSMEG2 E) (p : CProof E) crs : valid_sched sch ->
  ms2_verify sch q p crs
  = if equ_proofs p is [:: pf]
    then checked (ms2_verify_checks q (size (coms (xcoms p))) (size (coms (ycoms p))) pf crs)
           (verify_value [seq k1 crs x | x <- ms2_a q] [seq i2 y | y <- ms2_b q] (ms2_gamma q) p (pairT (one1 crs) (i2 (ms2_target q))) crs pf 1 (size (crs_v crs)))
    else Panic AssertFailed.
Proof.
move=> vs; have := ms2_verify_outcome q p crs vs; case: p => cx cy [|pf [|pf' pfs]] //.
rewrite [equ_proofs _]/=; cbv iota beta => ho; apply: checked_isok ho _; rewrite (isok_ms2_verify vs) => h.
rewrite (ms2_verify_Ok vs h) /ms2_veq /veq /verify_value /gs_eq !big_mkord /s1map /s2map ?scale1r; congr (Ok (_ + _ + _ == _)).
by apply: eq_bigr => i _; rewrite big_mkord.
Qed.

Lemma ms2_prove_total sch (q : MSMEG2 E) (X : seq (Fr E)) (Y : seq (G2 E)) (cx : Commit1 E) (cy : Commit2 E) crs s : valid_sched sch ->
  ms2_prove sch q X Y cx cy crs s
  = checked (ms2_prove_checks q (size X) (size Y) (crand cx) (crand cy) crs)
      (prove_value (size X) (size Y) 1 2 [seq k1 crs x | x <- ms2_a q] [seq k1 crs x | x <- X]
         [seq i2 y | y <- ms2_b q] [seq i2 y | y <- Y] (ms2_gamma q) (crand cx) (crand cy)
         (table 2 1 (fun i j => drawn s i)) crs MultiScalarG2, after 2 s).
Proof.
move=> vs; apply: checked_isok; first exact: ms2_prove_outcome.
rewrite (isok_ms2_prove vs) => h; rewrite (ms2_prove_Ok vs s h) /ms2_pf /prove_value; congr (Ok (mkEquProof _ _ _ _, _)).
- apply: eq_mkseq => k; rewrite /gs_pi !big_mkord; congr (_ + _ + _).
  + by apply: eq_bigr => j _; rewrite big_mkord.
  + apply: eq_bigr => l _; congr (_ *: _).
    congr (_ - _); rewrite big_mkord; by apply: eq_bigr => j _; rewrite big_mkord.
apply: eq_mkseq => l; rewrite /gs_th !big_mkord; congr (_ + _ + _).
- by apply: eq_bigr => j _; rewrite big_mkord.
by rewrite !big_ord_recl !big_ord0.
Qed.

Lemma quad_verify_total sch (q : QuadEqu E) (p : CProof E) crs : valid_sched sch ->
  quad_verify sch q p crs
  = if equ_proofs p is [:: pf]
    then checked (quad_verify_checks q (size (coms (xcoms p))) (size (coms (ycoms p))) pf crs)
           (verify_value [seq k1 crs x | x <- quad_a q] [seq k2 crs y | y <- quad_b q] (quad_gamma q) p (pairT (one1 crs) (k2 crs (quad_target q))) crs pf 1 1)
    else Panic AssertFailed.
Proof.
move=> vs; have := quad_verify_outcome q p crs vs; case: p => cx cy [|pf [|pf' pfs]] //.
rewrite [equ_proofs _]/=; cbv iota beta => ho; apply: checked_isok ho _; rewrite (isok_quad_verify vs) => h.
rewrite (quad_verify_Ok vs h) /quad_veq /veq /verify_value /gs_eq !big_mkord /s1map /s2map ?scale1r; congr (Ok (_ + _ + _ == _)).
by apply: eq_bigr => i _; rewrite big_mkord.
Qed.

Lemma quad_prove_total sch (q : QuadEqu E) (X : seq (Fr E)) (Y : seq (Fr E)) (cx : Commit1 E) (cy : Commit2 E) crs s : valid_sched sch ->
  quad_prove sch q X Y cx cy crs s
  = checked (quad_prove_checks q (size X) (size Y) (crand cx) (crand cy) crs)
      (prove_value (size X) (size Y) 1 1 [seq k1 crs x | x <- quad_a q] [seq k1 crs x | x <- X]
         [seq k2 crs y | y <- quad_b q] [seq k2 crs y | y <- Y] (quad_gamma q) (crand cx) (crand cy)
         (table 1 1 (fun i j => drawn s 0)) crs Quadratic, after 1 s).
Proof.
move=> vs; apply: checked_isok; first exact: quad_prove_outcome.
rewrite (isok_quad_prove vs) => h; rewrite (quad_prove_Ok vs s h) /quad_pf /prove_value; congr (Ok (mkEquProof _ _ _ _, _)).
- apply: eq_mkseq => k; rewrite /gs_pi !big_mkord; congr (_ + _ + _).
  + by apply: eq_bigr => j _; rewrite big_mkord.
  + rewrite !big_ord_recl !big_ord0 /=; congr (_ *: _ + _).
    congr (_ - _); rewrite big_mkord; by apply: eq_bigr => j _; rewrite big_mkord.
apply: eq_mkseq => l; rewrite /gs_th !big_mkord; congr (_ + _ + _).
- by apply: eq_bigr => j _; rewrite big_mkord.
by rewrite !big_ord_recl !big_ord0.
Qed.

Lemma ppe_cap_total sch (q : PPE E) (X : seq (G1 E)) (Y : seq (G2 E)) crs s : valid_sched sch ->
  ppe_commit_and_prove sch q X Y crs s
  = let X' := [seq i1 x | x <- X] in let Y' := [seq i2 y | y <- Y] in
    let sy := after (2 * size X)%N s in let sp := after (2 * size Y)%N sy in
    let cx := commit_value 2 (crs_u crs) X' (fun i l => drawn s (2 * i + l)%N) in
    let cy := commit_value 2 (crs_v crs) Y' (fun i l => drawn sy (2 * i + l)%N) in
    let pf := prove_value (size X) (size Y) 2 2 [seq i1 x | x <- ppe_a q] X' [seq i2 y | y <- ppe_b q] Y'
                (ppe_gamma q) (crand cx) (crand cy) (table 2 2 (fun i j => drawn sp (2 * i + j)%N)) crs PairingProduct in
    checked (ppe_cap_checks q (size X) (size Y) crs) (mkCProof cx cy [:: pf], after 4 sp).
Proof.
move=> vs; cbv zeta; apply: checked_isok; first exact: ppe_cap_outcome.
case e : (ppe_commit_and_prove _ _ _ _ _ _) => [r|//] _; congr Ok; move: e.
rewrite /ppe_commit_and_prove batch_commit_G1_total => /bind_ok[[cx s1] e]; have [-> ->] := checked_ok e; cbv beta iota; clear e.
rewrite batch_commit_G2_total => /bind_ok[[cy s2] e]; have [-> ->] := checked_ok e; cbv beta iota; clear e.
by rewrite ppe_prove_total // => /bind_ok[[pf s3] e]; have [-> ->] := checked_ok e; case=> <-.
Qed.

Lemma ms1_cap_total sch (q : MSMEG1 E) (X : seq (G1 E)) (Y : seq (Fr E)) crs s : valid_sched sch ->
  ms1_commit_and_prove sch q X Y crs s
  = let X' := [seq i1 x | x <- X] in let Y' := [seq k2 crs y | y <- Y] in
    let sy := after (2 * size X)%N s in let sp := after (size Y) sy in
    let cx := commit_value 2 (crs_u crs) X' (fun i l => drawn s (2 * i + l)%N) in
    let cy := commit_value 1 (crs_v crs) Y' (fun i l => drawn sy i) in
    let pf := prove_value (size X) (size Y) 2 1 [seq i1 x | x <- ms1_a q] X' [seq k2 crs y | y <- ms1_b q] Y'
                (ms1_gamma q) (crand cx) (crand cy) (table 1 2 (fun i j => drawn sp j)) crs MultiScalarG1 in
    checked (ms1_cap_checks q (size X) (size Y) crs) (mkCProof cx cy [:: pf], after 2 sp).
Proof.
move=> vs; cbv zeta; apply: checked_isok; first exact: ms1_cap_outcome.
case e : (ms1_commit_and_prove _ _ _ _ _ _) => [r|//] _; congr Ok; move: e.
rewrite /ms1_commit_and_prove batch_commit_G1_total => /bind_ok[[cx s1] e]; have [-> ->] := checked_ok e; cbv beta iota; clear e.
rewrite batch_commit_scalar_to_B2_total => /bind_ok[[cy s2] e]; have [-> ->] := checked_ok e; cbv beta iota; clear e.
by rewrite ms1_prove_total // => /bind_ok[[pf s3] e]; have [-> ->] := checked_ok e; case=> <-.
Qed.

Lemma ms2_cap_total sch (q : MSMEG2 E) (X : seq (Fr E)) (Y : seq (G2 E)) crs s : valid_sched sch ->
  ms2_commit_and_prove sch q X Y crs s
  = let X' := [seq k1 crs x | x <- X] in let Y' := [seq i2 y | y <- Y] in
    let sy := after (size X) s in let sp := after (2 * size Y)%N sy in
    let cx := commit_value 1 (crs_u crs) X' (fun i l => drawn s i) in
    let cy := commit_value 2 (crs_v crs) Y' (fun i l => drawn sy (2 * i + l)%N) in
    let pf := prove_value (size X) (size Y) 1 2 [seq k1 crs x | x <- ms2_a q] X' [seq i2 y | y <- ms2_b q] Y'
                (ms2_gamma q) (crand cx) (crand cy) (table 2 1 (fun i j => drawn sp i)) crs MultiScalarG2 in
    checked (ms2_cap_checks q (size X) (size Y) crs) (mkCProof cx cy [:: pf], after 2 sp).
Proof.
move=> vs; cbv zeta; apply: checked_isok; first exact: ms2_cap_outcome.
case e : (ms2_commit_and_prove _ _ _ _ _ _) => [r|//] _; congr Ok; move: e.
rewrite /ms2_commit_and_prove batch_commit_scalar_to_B1_total => /bind_ok[[cx s1] e]; have [-> ->] := checked_ok e; cbv beta iota; clear e.
rewrite batch_commit_G2_total => /bind_ok[[cy s2] e]; have [-> ->] := checked_ok e; cbv beta iota; clear e.
by rewrite ms2_prove_total // => /bind_ok[[pf s3] e]; have [-> ->] := checked_ok e; case=> <-.
Qed.

Lemma quad_cap_total sch (q : QuadEqu E) (X : seq (Fr E)) (Y : seq (Fr E)) crs s : valid_sched sch ->
  quad_commit_and_prove sch q X Y crs s
  = let X' := [seq k1 crs x | x <- X] in let Y' := [seq k2 crs y | y <- Y] in
    let sy := after (size X) s in let sp := after (size Y) sy in
    let cx := commit_value 1 (crs_u crs) X' (fun i l => drawn s i) in
    let cy := commit_value 1 (crs_v crs) Y' (fun i l => drawn sy i) in
    let pf := prove_value (size X) (size Y) 1 1 [seq k1 crs x | x <- quad_a q] X' [seq k2 crs y | y <- quad_b q] Y'
                (quad_gamma q) (crand cx) (crand cy) (table 1 1 (fun i j => drawn sp 0)) crs Quadratic in
    checked (quad_cap_checks q (size X) (size Y) crs) (mkCProof cx cy [:: pf], after 1 sp).
Proof.
move=> vs; cbv zeta; apply: checked_isok; first exact: quad_cap_outcome.
case e : (quad_commit_and_prove _ _ _ _ _ _) => [r|//] _; congr Ok; move: e.
rewrite /quad_commit_and_prove batch_commit_scalar_to_B1_total => /bind_ok[[cx s1] e]; have [-> ->] := checked_ok e; cbv beta iota; clear e.
rewrite batch_commit_scalar_to_B2_total => /bind_ok[[cy s2] e]; have [-> ->] := checked_ok e; cbv beta iota; clear e.
by rewrite quad_prove_total // => /bind_ok[[pf s3] e]; have [-> ->] := checked_ok e; case=> <-.
Qed.

End Totals.
