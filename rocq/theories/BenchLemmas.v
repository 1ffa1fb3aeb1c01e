(** Proofs about the benchmarks. *)
From mathcomp Require Import all_ssreflect all_algebra.
From Verif Require Import Base BaseLemmas Group DataStructures Generator Commit Statement Prove Verify.
From Verif Require Import MatLemmas Spec SpecMat SpecVerify SpecPanic SpecFormula FormulaLemmas FormulaProps CommitLemmas SuiteLemmas2 Bench.
From Verif Require CapLemmas.
Set Implicit Arguments.
Unset Strict Implicit.
Unset Printing Implicit Defensive.
Import GRing.Theory.
Local Open Scope ring_scope.

Lemma mkseqS T (f : nat -> T) n : mkseq f n.+1 = f 0%N :: mkseq (fun i => f i.+1) n.
Proof. by rewrite /mkseq /= (iotaDl 1 0) -map_comp. Qed.

Section Loops.
Context {E : pairing} {R : rng E}.
Implicit Type s : rst R.

Lemma afterD a b s : after a (after b s) = after (b + a) s.
Proof. by rewrite /after addnC iterD. Qed.
Lemma drawnD a b s : drawn (after b s) a = drawn s (b + a).
Proof. by rewrite /drawn afterD. Qed.

Lemma pushesE T (f : rst R -> T * rst R) (v : rst R -> T) c n s :
  (forall s, f s = (v s, after c s)) ->
  pushes f n s = (mkseq (fun i => v (after (c * i) s)) n, after (c * n) s).
Proof.
move=> hf; elim: n s => [|n IH] s /=; first by rewrite muln0.
rewrite hf IH afterD mulnS mkseqS; congr (_ :: _, _); first by rewrite muln0.
by apply: eq_mkseq => i /=; rewrite afterD -mulnS.
Qed.

Lemma iterateE T (f : nat -> rst R -> res (T * rst R)) (v : nat -> rst R -> T) c i k s :
  (forall i s, f i s = Ok (v i s, after c s)) ->
  iterate f i k s = Ok (mkseq (fun j => v (i + j)%N (after (c * j) s)) k, after (c * k) s).
Proof.
move=> hf; elim: k i s => [|k IH] i s /=; first by rewrite muln0.
rewrite hf bind_Ok IH bind_Ok afterD mulnS mkseqS; congr (Ok (_ :: _, _)); first by rewrite muln0 addn0.
by apply: eq_mkseq => j /=; rewrite afterD -mulnS addnS addSn.
Qed.
End Loops.

Lemma repeatE T (f : nat -> res T) x k : (forall i, f i = Ok x) -> repeat f k = Ok (nseq k x).
Proof.
move=> hf; rewrite /repeat; suff h i : iterate (fun i _ => let! x := f i in Ok (x, tt)) i k tt = Ok (nseq k x, tt).
  by rewrite h.
by elim: k i => //= k IH i; rewrite hf /= IH.
Qed.

Section Tables.
Context {T : Type}.
Implicit Types f : nat -> nat -> T.
Lemma size_table m n f : size (table m n f) = m.
Proof. exact: size_mkseq. Qed.
Lemma width_table m n f : (0 < m)%N -> width (table m n f) = n.
Proof. by case: m => // m _; rewrite /table mkseqS /= size_mkseq. Qed.
Lemma void_table m n f : void (table m n f) = (m == 0%N) || (n == 0%N).
Proof. by rewrite /void size_table; case: m => // m; rewrite width_table. Qed.
Lemma wide_table m n f : wide n (table m n f).
Proof. by apply/(all_nthP [::]) => i; rewrite size_table => hi; rewrite nth_mkseq // size_mkseq. Qed.
Lemma narrow_table m n f : narrow n (table m n f).
Proof. by apply/(all_nthP [::]) => i; rewrite size_table => hi; rewrite nth_mkseq // size_mkseq. Qed.
Lemma eq_table m n f g : (forall i j, (i < m)%N -> (j < n)%N -> f i j = g i j) -> table m n f = table m n g.
Proof. exact: eq_mkmat. Qed.
End Tables.
Lemma at_table (V : zmodType) m n (f : nat -> nat -> V) i j :
  (i < m)%N -> (j < n)%N -> at_ (table m n f) i j = f i j.
Proof. by move=> hi hj; rewrite /at_ /mrow !nth_mkseq. Qed.

Section Benches.
Context {E : pairing} {R : rng E}.
Variable rand_gt : rst R -> GT E * rst R.
Variables (schs : nat -> sched) (sch : sched).
Hypotheses (hs : forall i, valid_sched (schs i)) (h : valid_sched sch).
Variable k : nat.
Implicit Type s : rst R.

Lemma rand_twoE s : rand_two s = (mkseq (drawn s) 2, after 2 s).
Proof. by rewrite /rand_two /mkseq /drawn /after /=; case: (rand_fr s) => x s1 /=; case: (rand_fr s1). Qed.
Lemma rand_oneE s : rand_one s = (mkseq (drawn s) 1, after 1 s).
Proof. by rewrite /rand_one /mkseq /drawn /after /=; case: (rand_fr s). Qed.
Lemma rand_multE (G : lmodType (Fr E)) (g : G) s : rand_mult g s = (drawn s 0 *: g, after 1 s).
Proof. by rewrite /rand_mult /drawn /after /=; case: (rand_fr s). Qed.
Lemma rand_multsE (g : G1 E) s : rand_mults g s = ([:: (drawn s 0 *: g, drawn s 1 *: g)], after 2 s).
Proof. by rewrite /rand_mults !rand_multE drawnD afterD. Qed.
Lemma rand_mult2E (G : lmodType (Fr E)) (g : G) s : rand_mult2 g s = ((drawn s 0 *: g, drawn s 1 *: g), after 2 s).
Proof. by rewrite /rand_mult2 !rand_multE drawnD afterD. Qed.
Lemma rand_frE s : rand_fr s = (drawn s 0, after 1 s).
Proof. by rewrite /drawn /after /=; case: (rand_fr s). Qed.

Lemma pushes_fr n s : pushes (@rand_fr _ R) n s = (mkseq (drawn s) n, after n s).
Proof.
rewrite (pushesE n s rand_frE) mul1n; congr (_, _); apply: eq_mkseq => i /=.
by rewrite mul1n drawnD addn0.
Qed.
Lemma pushes_two n s : pushes rand_two n s = (table n 2 (fun i j => drawn s (2 * i + j)), after (2 * n) s).
Proof.
rewrite (pushesE n s rand_twoE); congr (_, _); apply: eq_mkseq => i /=.
by apply: eq_mkseq => j; rewrite drawnD.
Qed.
Lemma pushes_rows m n s : pushes (pushes (@rand_fr _ R) n) m s = (table m n (fun i j => drawn s (n * i + j)), after (n * m) s).
Proof.
rewrite (pushesE m s (pushes_fr n)); congr (_, _); apply: eq_mkseq => i /=.
by apply: eq_mkseq => j; rewrite drawnD.
Qed.
Lemma pushes_mult (G : lmodType (Fr E)) (g : G) n s :
  pushes (rand_mult g) n s = (mkseq (fun i => drawn s i *: g) n, after n s).
Proof.
rewrite (pushesE n s (rand_multE g)) mul1n; congr (_, _); apply: eq_mkseq => i /=.
by rewrite mul1n drawnD addn0.
Qed.
Lemma pushes_mult2 (G : lmodType (Fr E)) (g : G) n s :
  pushes (rand_mult2 g) n s = (mkseq (fun i => (drawn s (2 * i) *: g, drawn s (2 * i + 1) *: g)) n, after (2 * n) s).
Proof.
rewrite (pushesE n s (rand_mult2E g)); congr (_, _); apply: eq_mkseq => i /=.
by rewrite !drawnD addn0.
Qed.

Lemma field_mul par m n s : (0 < m)%N -> (0 < n)%N ->
  field_matrix_mul schs k par m n s
  = Ok (nseq k (table m n (fun i j => \sum_(l < 2) drawn s (2 * i + l) * drawn s (2 * m + n * l + j)))).
Proof.
move=> hm hn; rewrite /field_matrix_mul pushes_two pushes_rows; apply: repeatE => t.
rewrite fright_total; last exact: hs.
rewrite /checked /right_mul_checks /fright_value !void_table !width_table // !size_table !wide_table //=.
rewrite !eqxx (gtn_eqF hm) (gtn_eqF hn) /=; congr Ok; apply: eq_table => i j hi hj.
apply: eq_bigr => l _; rewrite !at_table ?drawnD ?addnA //.
Qed.

(** One benchmark of commitments, for any values [X] and state [s]. *)
Lemma iter_batch_commit_G1 X crs s : (0 < size X)%N -> size (crs_u crs) = 2%N ->
  iterate (fun _ s => batch_commit_G1 X crs s) 0 k s
  = Ok (mkseq (fun i => commit_value 2 (crs_u crs) [seq i1 x | x <- X] (fun a l => drawn s (2 * size X * i + (2 * a + l)))) k,
        after (2 * size X * k) s).
Proof.
move=> hX hk; rewrite (iterateE (v := fun _ s => commit_value 2 (crs_u crs) [seq i1 x | x <- X] (fun a l => drawn s (2 * a + l)))
  (c := 2 * size X)); last first.
  move=> i s'; rewrite batch_commit_G1_total /checked /batch_checks hk hX /= ?orbT //; by rewrite (gtn_eqF hX).
congr (Ok (_, _)); apply: eq_mkseq => i; congr (mkCommit _ _).
  by apply: eq_mkseq => a; congr (_ + _); apply: eq_bigr => l _; rewrite drawnD.
by apply: eq_table => a l _ _; rewrite drawnD.
Qed.

(** One benchmark of commitments, for any values [X] and state [s]. *)
Lemma iter_batch_commit_G2 X crs s : (0 < size X)%N -> size (crs_v crs) = 2%N ->
  iterate (fun _ s => batch_commit_G2 X crs s) 0 k s
  = Ok (mkseq (fun i => commit_value 2 (crs_v crs) [seq i2 y | y <- X] (fun a l => drawn s (2 * size X * i + (2 * a + l)))) k,
        after (2 * size X * k) s).
Proof.
move=> hX hk; rewrite (iterateE (v := fun _ s => commit_value 2 (crs_v crs) [seq i2 y | y <- X] (fun a l => drawn s (2 * a + l)))
  (c := 2 * size X)); last first.
  move=> i s'; rewrite batch_commit_G2_total /checked /batch_checks hk hX /= ?orbT //; by rewrite (gtn_eqF hX).
congr (Ok (_, _)); apply: eq_mkseq => i; congr (mkCommit _ _).
  by apply: eq_mkseq => a; congr (_ + _); apply: eq_bigr => l _; rewrite drawnD.
by apply: eq_table => a l _ _; rewrite drawnD.
Qed.

(** One benchmark of commitments, for any values [X] and state [s]. *)
Lemma iter_batch_commit_scalar_to_B1 X crs s : (0 < size X)%N -> size (crs_u crs) = 2%N ->
  iterate (fun _ s => batch_commit_scalar_to_B1 X crs s) 0 k s
  = Ok (mkseq (fun i => commit_value 1 (crs_u crs) [seq k1 crs x | x <- X] (fun a l => drawn s (size X * i + a))) k,
        after (size X * k) s).
Proof.
move=> hX hk; rewrite (iterateE (v := fun _ s => commit_value 1 (crs_u crs) [seq k1 crs x | x <- X] (fun a l => drawn s (a)))
  (c := size X)); last first.
  move=> i s'; rewrite batch_commit_scalar_to_B1_total /checked /batch_scalar_checks hk hX /= ?orbT //; by rewrite (gtn_eqF hX).
congr (Ok (_, _)); apply: eq_mkseq => i; congr (mkCommit _ _).
  by apply: eq_mkseq => a; congr (_ + _); apply: eq_bigr => l _; rewrite drawnD.
by apply: eq_table => a l _ _; rewrite drawnD.
Qed.

(** One benchmark of commitments, for any values [X] and state [s]. *)
Lemma iter_batch_commit_scalar_to_B2 X crs s : (0 < size X)%N -> size (crs_v crs) = 2%N ->
  iterate (fun _ s => batch_commit_scalar_to_B2 X crs s) 0 k s
  = Ok (mkseq (fun i => commit_value 1 (crs_v crs) [seq k2 crs y | y <- X] (fun a l => drawn s (size X * i + a))) k,
        after (size X * k) s).
Proof.
move=> hX hk; rewrite (iterateE (v := fun _ s => commit_value 1 (crs_v crs) [seq k2 crs y | y <- X] (fun a l => drawn s (a)))
  (c := size X)); last first.
  move=> i s'; rewrite batch_commit_scalar_to_B2_total /checked /batch_scalar_checks hk hX /= ?orbT //; by rewrite (gtn_eqF hX).
congr (Ok (_, _)); apply: eq_mkseq => i; congr (mkCommit _ _).
  by apply: eq_mkseq => a; congr (_ + _); apply: eq_bigr => l _; rewrite drawnD.
by apply: eq_table => a l _ _; rewrite drawnD.
Qed.

Lemma small_field par s :
  small_field_matrix_mul schs k par s
  = Ok (nseq k (table 2 1 (fun i j => \sum_(l < 2) drawn s (2 * i + l) * drawn s (4 + l)))).
Proof.
have e : small_field_matrix_mul schs k par s = field_matrix_mul schs k par 2 1 s.
  rewrite /field_matrix_mul /small_field_matrix_mul pushes_two pushes_rows !rand_twoE !rand_oneE; exact: erefl.
rewrite e.
rewrite field_mul //; congr Ok; congr nseq; apply: eq_table => i j _; rewrite ltnS leqn0 => /eqP ->.
by apply: eq_bigr => l _; rewrite mul1n addn0.
Qed.

Lemma small_B1 par s : let P := (rand_g1 s).1 in let d := drawn (rand_g1 s).2 in
  small_B1_matrix_mul schs k par s
  = Ok (nseq k (table 2 1 (fun i j => \sum_(l < 2) d (4 + (2 * i + l))%N *: ((d (2 * l)%N *: P, d (2 * l + 1)%N *: P) : Com1 E)))).
Proof.
rewrite /small_B1_matrix_mul; case: (rand_g1 s) => P s1 /=; rewrite !rand_multsE !rand_twoE !afterD !drawnD.
apply: repeatE => t; rewrite cleft_total; last exact: hs.
rewrite /checked /left_mul_checks /left_value /=; congr Ok; apply: eq_table => i j hi; rewrite ltnS leqn0 => /eqP ->.
apply: eq_bigr => -[l hl] _ /=; congr (_ *: _); last by case: l hl => [|[|]].
by rewrite /at_ /mrow; case: i hi => [|[|]] //=; case: l hl => [|[|]] //= _ _; rewrite !drawnD.
Qed.

Lemma pushes_mult2_at (G : lmodType (Fr E)) (g : G) n b s :
  pushes (rand_mult2 g) n (after b s) = (mkseq (fun i => (drawn s (b + 2 * i) *: g, drawn s (b + (2 * i + 1)) *: g)) n, after (b + 2 * n) s).
Proof. by rewrite pushes_mult2 afterD; congr (_, _); apply: eq_mkseq => i; rewrite !drawnD. Qed.
Lemma pushes_rows_at m n b s :
  pushes (pushes (@rand_fr _ R) n) m (after b s) = (table m n (fun i j => drawn s (b + (n * i + j))), after (b + n * m) s).
Proof. by rewrite pushes_rows afterD; congr (_, _); apply: eq_mkseq => i; apply: eq_mkseq => j; rewrite !drawnD. Qed.
Lemma unzip1_mk T (f g : nat -> T) n : unzip1 (mkseq (fun i => (f i, g i)) n) = mkseq f n.
Proof. by rewrite /unzip1 /mkseq -map_comp. Qed.
Lemma unzip2_mk T (f g : nat -> T) n : unzip2 (mkseq (fun i => (f i, g i)) n) = mkseq g n.
Proof. by rewrite /unzip2 /mkseq -map_comp. Qed.

Lemma reach_table m n p (f : nat -> nat -> Fr E) : (p <= n)%N -> reach p (table m n f) = m.
Proof.
move=> hp; rewrite /reach -[in RHS](size_table m n f); apply/eqP; rewrite -all_count.
by apply/(all_nthP [::]) => i; rewrite size_table => hi; rewrite nth_mkseq // size_mkseq.
Qed.

Lemma iter_prove q X Y (cx : Commit1 E) (cy : Commit2 E) crs s :
  first_failed (ppe_prove_checks q (size X) (size Y) (crand cx) (crand cy) crs) = None ->
  iterate (fun i s => ppe_prove (schs i) q X Y cx cy crs s) 0 k s
  = Ok (mkseq (fun i => prove_value (size X) (size Y) 2 2 [seq i1 x | x <- ppe_a q] [seq i1 x | x <- X]
         [seq i2 y | y <- ppe_b q] [seq i2 y | y <- Y] (ppe_gamma q) (crand cx) (crand cy)
         (table 2 2 (fun a b => drawn s (4 * i + (2 * a + b)))) crs PairingProduct) k, after (4 * k) s).
Proof.
move=> hc; rewrite (iterateE (c := 4) (v := fun _ s => prove_value (size X) (size Y) 2 2 [seq i1 x | x <- ppe_a q] [seq i1 x | x <- X]
         [seq i2 y | y <- ppe_b q] [seq i2 y | y <- Y] (ppe_gamma q) (crand cx) (crand cy)
         (table 2 2 (fun a b => drawn s (2 * a + b))) crs PairingProduct)); last first.
  by move=> i s'; rewrite ppe_prove_total; [rewrite /checked hc | exact: hs].
congr (Ok (_, _)); apply: eq_mkseq => i; rewrite (eq_table (g := fun a b => drawn s (4 * i + (2 * a + b)))) // => a b _ _.
by rewrite drawnD.
Qed.

Lemma bench_large_proof m n s :
  let crs := (generate_crs s).1 in let s0 := (generate_crs s).2 in let d := drawn s0 in
  let X := mkseq (fun i => d (2 * i)%N *: g1_gen crs) m in
  let A := mkseq (fun i => d (2 * i + 1)%N *: g1_gen crs) m in
  let Y := mkseq (fun j => d (2 * m + 2 * j)%N *: g2_gen crs) n in
  let B := mkseq (fun j => d (2 * m + (2 * j + 1))%N *: g2_gen crs) n in
  let rx := table m 2 (fun i l => d (2 * m + 2 * n + (2 * i + l))%N) in
  let ry := table n 2 (fun i l => d (2 * m + 2 * n + 2 * m + (2 * i + l))%N) in
  let G := table m n (fun i j => d (2 * m + 2 * n + 2 * m + 2 * n + (n * i + j))%N) in
  let s1 := after (2 * m + 2 * n + 2 * m + 2 * n + n * m) s0 in
  let t := (rand_gt s1).1 in let s2 := (rand_gt s1).2 in
  ppe_proofs rand_gt schs k m n s
  = if (m == 0%N) || (n == 0%N) then Panic IndexOutOfBounds
    else if k == 0%N then Ok ([::], s2)
    else if m != n then Panic AssertFailed
    else Ok (mkseq (fun i => prove_value m n 2 2 [seq i1 x | x <- A] [seq i1 x | x <- X] [seq i2 y | y <- B] [seq i2 y | y <- Y]
                     G rx ry (table 2 2 (fun a b => drawn s2 (4 * i + (2 * a + b)))) crs PairingProduct) k, after (4 * k) s2).
Proof.
cbv zeta; rewrite /ppe_proofs; case hc: (generate_crs s) => [crs s0]; have [hu hv] := gen_sizes hc; rewrite [(_, _).1]/= [(_, _).2]/=.
rewrite pushes_mult2; cbv beta iota zeta; rewrite pushes_mult2_at; cbv beta iota zeta; rewrite !unzip1_mk !unzip2_mk.
rewrite batch_commit_G1_total /checked /batch_checks !size_mkseq hu.
have [->|hm] := posnP m; first by [].
rewrite [first_failed _]/= bind_Ok; cbv beta iota; rewrite batch_commit_G2_total /checked /batch_checks !size_mkseq hv.
have [->|hn] := posnP n; first by [].
rewrite [first_failed _]/= bind_Ok; cbv beta iota; rewrite (afterD (2 * m)) (afterD (2 * n)) pushes_rows_at; cbv beta iota.
case: (rand_gt _) => t s2; rewrite [(_, _).2]/= [false || _]/=.
set cx := commit_value _ _ _ _; set cy := commit_value _ _ _ _; set q := mkPPE _ _ _ _; set X := mkseq _ m; set Y := mkseq _ n.
have ex : crand cx = table m 2 (fun i l => drawn s0 (2 * m + 2 * n + (2 * i + l))).
  by rewrite /cx /= size_map size_mkseq; apply: eq_table => a b _ _; rewrite drawnD.
have ey : crand cy = table n 2 (fun i l => drawn s0 (2 * m + 2 * n + 2 * m + (2 * i + l))).
  by rewrite /cy /= size_map size_mkseq; apply: eq_table => a b _ _; rewrite drawnD.
have hf : first_failed (ppe_prove_checks q (size X) (size Y) (crand cx) (crand cy) crs) = if m == n then None else Some AssertFailed.
  rewrite ex ey /ppe_prove_checks /q [ppe_a _]/= [ppe_b _]/= [ppe_gamma _]/= !size_table !width_table // !size_mkseq.
  rewrite !narrow_table !wide_table !reach_table // hu hv /nilp !size_mkseq !eqxx hm hn (gtn_eqF hm) (gtn_eqF hn) /=.
  by rewrite (eq_sym n m); case: eqP => [->|]; rewrite ?leqnn ?eqxx ?hu ?hv.
case: (posnP k) => [k0|]; first by rewrite k0.
case: eqP hf => [mn|ne] hf; last first.
  case: (k) => // k' _; rewrite /= ppe_prove_total; last exact: hs.
  by rewrite /checked hf.
by move=> _; rewrite iter_prove // ex ey /X /Y !size_mkseq.
Qed.

Lemma small_proof s :
  let crs := (generate_crs s).1 in let s0 := (generate_crs s).2 in let d := drawn s0 in
  let s2 := (rand_gt (after 12 s0)).2 in
  bench_small_PPE_proof rand_gt schs k s
  = Ok (mkseq (fun i => prove_value 2 1 2 2 [:: i1 (d 9%N *: g1_gen crs)] [:: i1 (d 0%N *: g1_gen crs); i1 (d 1%N *: g1_gen crs)]
                [:: i2 (d 10%N *: g2_gen crs); i2 (d 11%N *: g2_gen crs)] [:: i2 (d 2%N *: g2_gen crs)] [:: [:: 1]; [:: 0]]
                (table 2 2 (fun i l => d (3 + (2 * i + l))%N)) (table 1 2 (fun i l => d (7 + l)%N))
                (table 2 2 (fun a b => drawn s2 (4 * i + (2 * a + b)))) crs PairingProduct) k, after (4 * k) s2).
Proof.
cbv zeta; rewrite /bench_small_PPE_proof; case hc: (generate_crs s) => [crs s0]; have [hu hv] := gen_sizes hc; rewrite [(_, _).1]/= [(_, _).2]/=.
rewrite !rand_multE; cbv beta iota zeta; rewrite batch_commit_G1_total /checked /batch_checks hu [first_failed _]/= bind_Ok; cbv beta iota.
rewrite batch_commit_G2_total /checked /batch_checks hv [first_failed _]/= bind_Ok; cbv beta iota; rewrite !rand_multE; cbv beta iota.
rewrite !afterD !drawnD [size _]/= [size _]/=.
case: (rand_gt _) => t s2; rewrite [(_, _).2]/=.
set cx := commit_value _ _ _ _; set cy := commit_value _ _ _ _.
have ex : crand cx = table 2 2 (fun i l => drawn s0 (3 + (2 * i + l))).
  by apply: eq_table => a b _ _; rewrite drawnD.
have ey : crand cy = table 1 2 (fun i l => drawn s0 (7 + l)).
  by apply: eq_table => -[|a] b hab _; rewrite drawnD.
rewrite iter_prove; last (rewrite ex ey).
  by rewrite ex ey.
by rewrite /= /nilp hu hv.
Qed.

Hypothesis hb : bilinear E.

Lemma iter_verify q X Y crs s V :
  (0 < size X)%N -> (0 < size Y)%N -> ppe_wf q (size X) (size Y) -> two_keys crs -> (ppe_holds q X Y <-> V = ppe_target q) ->
  (let! (p, _) := ppe_commit_and_prove sch q X Y crs s in repeat (fun i => ppe_verify (schs i) q p crs) k)
  = Ok (nseq k (V == ppe_target q)).
Proof.
move=> hm hn wf hk hV.
have [p [s' [_ [e _ _]]]] := CapLemmas.ppe_cap_dec h (hs 0%N) hb s hm hn wf hk.
rewrite e bind_Ok; cbv beta iota; apply: repeatE => i.
have [p' [s'' [b [e' ev hh]]]] := CapLemmas.ppe_cap_dec h (hs i) hb s hm hn wf hk.
move: e'; rewrite e => -[ep _]; move: ev; rewrite -ep => ->; congr Ok.
by apply/idP/eqP => [/hh/hV|/hV/hh].
Qed.

Lemma pair_scaled a b (x : G1 E) (y : G2 E) : pair_e (a *: x) (b *: y) = (a * b) *: pair_e x y.
Proof. by case: hb => _ _ h1 h2; rewrite h1 h2 scalerA. Qed.

Lemma small_verify s :
  let crs := (generate_crs s).1 in let s0 := (generate_crs s).2 in let d := drawn s0 in
  bench_small_PPE_verify rand_gt schs sch k s
  = Ok (nseq k ((d 3%N * d 2%N + d 0%N * d 4%N + d 1%N * d 5%N + d 0%N * d 2%N) *: pair_e (g1_gen crs) (g2_gen crs) == (rand_gt (after 6 s0)).1)).
Proof.
cbv zeta; rewrite /bench_small_PPE_verify; case hc: (generate_crs s) => [crs s0]; have hk := gen_sizes hc; rewrite [(_, _).1]/= [(_, _).2]/=.
rewrite !rand_multE; cbv beta iota zeta; rewrite !afterD !drawnD; cbn [addn addn_rec Nat.add].
case: (rand_gt _) => t s2; rewrite [(_, _).1]/=.
apply: iter_verify => //; first by split=> //; split=> // -[|[|i]].
rewrite /ppe_holds /= !big_ord_recl !big_ord0 /entry /= !pair_scaled !addr0 scale1r scale0r addr0 -!scalerDl.
by rewrite addrA.
Qed.

Lemma large_verify m n s :
  let crs := (generate_crs s).1 in let s0 := (generate_crs s).2 in let d := drawn s0 in
  let x i := d (2 * i)%N in let a j := d (2 * j + 1)%N in
  let y j := d (2 * m + 2 * j)%N in let b i := d (2 * m + (2 * i + 1))%N in
  let g i j := d (2 * m + 2 * n + (n * i + j))%N in
  ppe_verifies rand_gt schs sch k m n s
  = if (m == 0%N) || (n == 0%N) then Panic IndexOutOfBounds
    else if m != n then Panic AssertFailed
    else Ok (nseq k ((\sum_(j < n) a j * y j + \sum_(i < m) x i * b i + \sum_(i < m) \sum_(j < n) g i j * (x i * y j))
                       *: pair_e (g1_gen crs) (g2_gen crs) == (rand_gt (after (2 * m + 2 * n + n * m) s0)).1)).
Proof.
cbv zeta; rewrite /ppe_verifies; case hc: (generate_crs s) => [crs s0]; have hk := gen_sizes hc; have [hu hv] := hk; rewrite [(_, _).1]/= [(_, _).2]/=.
rewrite pushes_mult2; cbv beta iota zeta; rewrite pushes_mult2_at; cbv beta iota zeta; rewrite !unzip1_mk !unzip2_mk.
rewrite pushes_rows_at; cbv beta iota; case: (rand_gt _) => t s2; rewrite [(_, _).1]/=.
case: ifP => [h0|/norP[hm hn]].
  rewrite ppe_cap_total // /checked /ppe_cap_checks /batch_checks !size_mkseq hu hv.
  by case: (m) h0 => //= m' /eqP ->.
case: ifP => [/negPf mn|/negbFE/eqP mn].
  rewrite ppe_cap_total //; cbv zeta; rewrite /checked; set c := ppe_cap_checks _ _ _ _; suff -> : first_failed c = Some AssertFailed by [].
  rewrite /c /ppe_cap_checks /batch_checks !size_mkseq hu hv /nilp [ppe_a _]/= [ppe_b _]/= [ppe_gamma _]/= !size_mkseq !width_table ?lt0n //.
  by rewrite /= !orbT hm hn !eqxx mn (negPf hn) /=.
subst m; apply: iter_verify; rewrite ?size_mkseq ?lt0n //.
  split; rewrite ?size_mkseq //; split; rewrite ?size_table // => i hi.
  by rewrite nth_mkseq // size_mkseq.
rewrite /ppe_holds /= !size_mkseq.
set L := (X in X = t <-> _); set M := (X in _ <-> X = t); suff -> : L = M by [].
rewrite /L /M !scalerDl !scaler_suml; congr (_ + _ + _).
- by apply: eq_bigr => j _; rewrite !nth_mkseq // pair_scaled.
- by apply: eq_bigr => j _; rewrite !nth_mkseq // pair_scaled.
apply: eq_bigr => i _; rewrite scaler_suml; apply: eq_bigr => j _.
by rewrite /entry !nth_mkseq // pair_scaled scalerA.
Qed.
End Benches.

(** ** Benchmarks of commitments *)
Section Commits.
Context {E : pairing} {R : rng E}.
Variable k : nat.
Implicit Type s : rst R.

Lemma small_batch_commit_G1 s : let crs := (generate_crs s).1 in let s0 := (generate_crs s).2 in let s1 := s0 in
  bench_small_batch_commit_G1 k s = Ok (mkseq (fun i => commit_value 2 (crs_u crs) [seq i1 x | x <- [:: g1_gen crs; 2%:R *: g1_gen crs]] (fun a l => drawn s1 (2 * 2 * i + (2 * a + l)))) k,
     after (2 * 2 * k) s1).
Proof.
cbv zeta; rewrite /bench_small_batch_commit_G1; case hc: (generate_crs s) => [crs s0]; have [hu hv] := gen_sizes hc; rewrite [(_, _).1]/= [(_, _).2]/=.
by rewrite iter_batch_commit_G1.
Qed.
Lemma large_batch_commit_G1 m s : (0 < m)%N -> let crs := (generate_crs s).1 in let s0 := (generate_crs s).2 in let s1 := after m s0 in
  commits_G1 k m s = Ok (mkseq (fun i => commit_value 2 (crs_u crs) [seq i1 x | x <- mkseq (fun i => drawn s0 i *: g1_gen crs) m] (fun a l => drawn s1 (2 * m * i + (2 * a + l)))) k,
     after (2 * m * k) s1).
Proof.
move=> hm; cbv zeta; rewrite /commits_G1; case hc: (generate_crs s) => [crs s0]; have [hu hv] := gen_sizes hc; rewrite [(_, _).1]/= [(_, _).2]/=.
by rewrite pushes_mult; cbv beta iota; rewrite iter_batch_commit_G1 ?size_mkseq.
Qed.

Lemma small_batch_commit_G2 s : let crs := (generate_crs s).1 in let s0 := (generate_crs s).2 in let s1 := s0 in
  bench_small_batch_commit_G2 k s = Ok (mkseq (fun i => commit_value 2 (crs_v crs) [seq i2 y | y <- [:: g2_gen crs; 2%:R *: g2_gen crs]] (fun a l => drawn s1 (2 * 2 * i + (2 * a + l)))) k,
     after (2 * 2 * k) s1).
Proof.
cbv zeta; rewrite /bench_small_batch_commit_G2; case hc: (generate_crs s) => [crs s0]; have [hu hv] := gen_sizes hc; rewrite [(_, _).1]/= [(_, _).2]/=.
by rewrite iter_batch_commit_G2.
Qed.
Lemma large_batch_commit_G2 m s : (0 < m)%N -> let crs := (generate_crs s).1 in let s0 := (generate_crs s).2 in let s1 := after m s0 in
  commits_G2 k m s = Ok (mkseq (fun i => commit_value 2 (crs_v crs) [seq i2 y | y <- mkseq (fun i => drawn s0 i *: g2_gen crs) m] (fun a l => drawn s1 (2 * m * i + (2 * a + l)))) k,
     after (2 * m * k) s1).
Proof.
move=> hm; cbv zeta; rewrite /commits_G2; case hc: (generate_crs s) => [crs s0]; have [hu hv] := gen_sizes hc; rewrite [(_, _).1]/= [(_, _).2]/=.
by rewrite pushes_mult; cbv beta iota; rewrite iter_batch_commit_G2 ?size_mkseq.
Qed.

Lemma small_batch_commit_scalar_to_B1 s : let crs := (generate_crs s).1 in let s0 := (generate_crs s).2 in let s1 := (after 2 s0) in
  bench_small_batch_commit_scalar_to_B1 k s = Ok (mkseq (fun i => commit_value 1 (crs_u crs) [seq k1 crs x | x <- [:: drawn s0 0; drawn s0 1]] (fun a l => drawn s1 (2 * i + a))) k,
     after (2 * k) s1).
Proof.
cbv zeta; rewrite /bench_small_batch_commit_scalar_to_B1; case hc: (generate_crs s) => [crs s0]; have [hu hv] := gen_sizes hc; rewrite [(_, _).1]/= [(_, _).2]/=.
rewrite rand_twoE; by rewrite iter_batch_commit_scalar_to_B1.
Qed.
Lemma large_batch_commit_scalar_to_B1 m s : (0 < m)%N -> let crs := (generate_crs s).1 in let s0 := (generate_crs s).2 in let s1 := after m s0 in
  commits_B1 k m s = Ok (mkseq (fun i => commit_value 1 (crs_u crs) [seq k1 crs x | x <- mkseq (drawn s0) m] (fun a l => drawn s1 (m * i + a))) k,
     after (m * k) s1).
Proof.
move=> hm; cbv zeta; rewrite /commits_B1; case hc: (generate_crs s) => [crs s0]; have [hu hv] := gen_sizes hc; rewrite [(_, _).1]/= [(_, _).2]/=.
by rewrite pushes_fr; cbv beta iota; rewrite iter_batch_commit_scalar_to_B1 ?size_mkseq.
Qed.

Lemma small_batch_commit_scalar_to_B2 s : let crs := (generate_crs s).1 in let s0 := (generate_crs s).2 in let s1 := (after 2 s0) in
  bench_small_batch_commit_scalar_to_B2 k s = Ok (mkseq (fun i => commit_value 1 (crs_v crs) [seq k2 crs y | y <- [:: drawn s0 0; drawn s0 1]] (fun a l => drawn s1 (2 * i + a))) k,
     after (2 * k) s1).
Proof.
cbv zeta; rewrite /bench_small_batch_commit_scalar_to_B2; case hc: (generate_crs s) => [crs s0]; have [hu hv] := gen_sizes hc; rewrite [(_, _).1]/= [(_, _).2]/=.
rewrite rand_twoE; by rewrite iter_batch_commit_scalar_to_B2.
Qed.
Lemma large_batch_commit_scalar_to_B2 m s : (0 < m)%N -> let crs := (generate_crs s).1 in let s0 := (generate_crs s).2 in let s1 := after m s0 in
  commits_B2 k m s = Ok (mkseq (fun i => commit_value 1 (crs_v crs) [seq k2 crs y | y <- mkseq (drawn s0) m] (fun a l => drawn s1 (m * i + a))) k,
     after (m * k) s1).
Proof.
move=> hm; cbv zeta; rewrite /commits_B2; case hc: (generate_crs s) => [crs s0]; have [hu hv] := gen_sizes hc; rewrite [(_, _).1]/= [(_, _).2]/=.
by rewrite pushes_fr; cbv beta iota; rewrite iter_batch_commit_scalar_to_B2 ?size_mkseq.
Qed.

Lemma group_arith s :
  let P := (rand_g1 s).1 in let s1 := (rand_g1 s).2 in let Q := (rand_g1 s1).1 in let s2 := (rand_g1 s1).2 in
  let P' := (rand_g1 s2).1 in let Q' := (rand_g1 (rand_g1 s2).2).1 in
  [/\ bench_B1_scalar_mul k s = Ok (nseq k (drawn s2 0 *: P, drawn s2 0 *: Q)),
      bench_B1_add k s = Ok (nseq k (P + P', Q + Q')),
      bench_G1_scalar_mul k s = Ok (nseq k (drawn s1 0 *: P)),
      bench_G1_affine_add k s = Ok (nseq k (P + Q))
    & bench_G1_into_affine k s = Ok (nseq k P)].
Proof.
cbv zeta; rewrite /bench_B1_scalar_mul /bench_B1_add /bench_G1_scalar_mul /bench_G1_affine_add /bench_G1_into_affine.
case: (rand_g1 s) => P s1 /=; case: (rand_g1 s1) => Q s2 /=; case: (rand_g1 s2) => P' s3 /=; case: (rand_g1 s3) => Q' s4 /=.
by rewrite !rand_frE; split; apply: repeatE.
Qed.
End Commits.

Lemma large_proof_ok (E : pairing) (R : rng E) (rand_gt : rst R -> GT E * rst R) (schs : nat -> sched) (k : nat) (s : rst R) :
  (forall i, valid_sched (schs i)) -> exists ps s', bench_large_PPE_proof rand_gt schs k s = Ok (ps, s') /\ size ps = k.
Proof.
move=> hs; rewrite /bench_large_PPE_proof; move: 334%N (isT : (0 < 334)%N) => m hm; rewrite (bench_large_proof rand_gt hs) (gtn_eqF hm) eqxx /=.
case: (posnP k) => [->|_]; do 2 eexists; split; try exact: erefl; exact: size_mkseq.
Qed.
Lemma large_verify_ok (E : pairing) (R : rng E) (rand_gt : rst R -> GT E * rst R) (schs : nat -> sched) (sch : sched) (k : nat) (s : rst R) :
  (forall i, valid_sched (schs i)) -> valid_sched sch -> bilinear E -> exists b, bench_large_PPE_verify rand_gt schs sch k s = Ok (nseq k b).
Proof.
move=> hs h hb; rewrite /bench_large_PPE_verify; move: 334%N (isT : (0 < 334)%N) => m hm.
by rewrite (large_verify rand_gt hs h k hb) (gtn_eqF hm) eqxx /=; eexists.
Qed.
