(** C98: two runs of [commit_and_prove] that publish the same proof. *)
From mathcomp Require Import all_ssreflect all_algebra.
From Verif Require Import Base BaseLemmas Group DataStructures Generator Commit Statement Prove Verify Spec SpecMat SpecVerify SpecHide SpecPanic SpecFormula ProveLemmas FormulaProps BenchLemmas HideCore HideTape Hiding HideProps GenProps FibreProps FibreCom SpecRun RunCore RunProps.
Set Implicit Arguments.
Unset Strict Implicit.
Unset Printing Implicit Defensive.
Import GRing.Theory.
Local Open Scope ring_scope.

Section Runs.
Context {E : pairing}.

Lemma k_C98_ppe_run (R R' : rng E) (sch sch' : sched) (q : PPE E) (X : seq (G1 E)) (Y : seq (G2 E)) (crs : CRS E) a1 a2 t1 t2 (s s' : rst R) (z z' : rst R') p p' :
  valid_sched sch -> valid_sched sch' -> binding_crs_with crs a1 a2 t1 t2 -> proper_crs crs ->
  ppe_commit_and_prove sch q X Y crs s = Ok (p, s') -> ppe_commit_and_prove sch' q X Y crs z = Ok (p', z') ->
  let m := size X in let n := size Y in
  (public p' = public p <-> exists (k l : nat -> Fr E) (c : Fr E),
    let o := (2 * m + 2 * n)%N in
    let e := \sum_(i < m) \sum_(j < n) k i * at_ (ppe_gamma q) i j * (drawn s (2 * m + 2 * j) + t2 * drawn s (2 * m + 2 * j).+1) in
    [/\ \sum_(i < m) k i *: (nth 0 (ppe_b q) i + \sum_(j < n) at_ (ppe_gamma q) i j *: nth 0 Y j) = 0,
        \sum_(j < n) l j *: (nth 0 (ppe_a q) j + \sum_(i < m) at_ (ppe_gamma q) i j *: nth 0 X i) = 0,
        moved s z 0 m t1 k, moved s z (2 * m) n t2 l &
        [/\ drawn z o = drawn s o + t1 * (t2 * c - e), drawn z o.+1 = drawn s o.+1 + e - t2 * c,
            drawn z o.+2 = drawn s o.+2 - t1 * c & drawn z o.+3 = drawn s o.+3 + c]]).
Proof.
move=> vs vs' hk hp; rewrite (ppe_cap_total _ _ _ _ _ vs) (ppe_cap_total _ _ _ _ _ vs') => hf hg m n; rewrite (checked_ok hf) (checked_ok hg) {hf hg} /m /n {m n}.
apply: (iff_trans (@run_same E crs _ _ i1l i2l (size X) (size Y) 2 2 (tt_ t1) (tt_ t2) (hu2 hk) (hv2 hk) (free_i1 hk hp) (free_i2 hk hp)
  (ppe_a q) X (ppe_b q) Y (ppe_gamma q) (fun i l => drawn s (2 * i + l)%N) (fun i l => drawn (after (2 * size X) s) (2 * i + l)%N) (fun i j => drawn (after (2 * size Y) (after (2 * size X) s)) (2 * i + j)%N) (fun i l => drawn z (2 * i + l)%N) (fun i l => drawn (after (2 * size X) z) (2 * i + l)%N) (fun i j => drawn (after (2 * size Y) (after (2 * size X) z)) (2 * i + j)%N) PairingProduct erefl erefl)).
apply: (iff_trans (@solve_ppe E (size X) (size Y) (at_ (ppe_gamma q)) _ _ _ _ t1 t2 (fun i l => drawn s (2 * i + l)%N) (fun i l => drawn (after (2 * size X) s) (2 * i + l)%N) (fun i j => drawn (after (2 * size Y) (after (2 * size X) s)) (2 * i + j)%N) (fun i l => drawn z (2 * i + l)%N) (fun i l => drawn (after (2 * size X) z) (2 * i + l)%N) (fun i j => drawn (after (2 * size Y) (after (2 * size X) z)) (2 * i + j)%N))).
have R0 (R1 : rng E) (s1 : rst R1) i l : drawn s1 (2 * i + l) = drawn s1 (0 + 2 * i + l) by rewrite add0n.
have S0 (R1 : rng E) (s1 : rst R1) j l : drawn (after (2 * size X) s1) (2 * j + l) = drawn s1 (2 * size X + 2 * j + l) by rewrite drawnD addnA.
have T0 (R1 : rng E) (s1 : rst R1) i j : drawn (after (2 * size Y) (after (2 * size X) s1)) (2 * i + j) = drawn s1 (2 * size X + 2 * size Y + (2 * i + j)).
  by rewrite !drawnD addnA.
split=> -[k [l [c [h1 h2 h3 h4 h5]]]]; exists k, l, c; split=> //.
- by move=> i hi; have [e0 e1] := h3 i hi; split; [move: e0 | move: e1]; rewrite ?addn0 ?addn1.
- by move=> i hi; have [e0 e1] := h4 i hi; move: e0 e1; rewrite !S0 ?addn0 ?addn1.
- move: h5; rewrite !T0 /= ?addn0 ?addn1 ?addn2 ?addn3.
  suff -> : form (size X) (size Y) (at_ (ppe_gamma q)) k (fun j => drawn (after (2 * size X) s) (2 * j + 0) + t2 * drawn (after (2 * size X) s) (2 * j + 1)) = \sum_(i < size X) \sum_(j < size Y) k i * at_ (ppe_gamma q) i j * (drawn s (2 * size X + 2 * j) + t2 * drawn s (2 * size X + 2 * j).+1) by [].
  by apply: eq_bigr => i _; apply: eq_bigr => j _; rewrite !S0 addn0 addn1.
- by move=> i hi; have [e0 e1] := h3 i hi; split; [move: e0 | move: e1]; rewrite ?addn0 ?addn1.
- by move=> i hi; have [e0 e1] := h4 i hi; move: e0 e1; rewrite !S0 ?addn0 ?addn1.
move: h5; rewrite !T0 /= ?addn0 ?addn1 ?addn2 ?addn3.
suff -> : form (size X) (size Y) (at_ (ppe_gamma q)) k (fun j => drawn (after (2 * size X) s) (2 * j + 0) + t2 * drawn (after (2 * size X) s) (2 * j + 1)) = \sum_(i < size X) \sum_(j < size Y) k i * at_ (ppe_gamma q) i j * (drawn s (2 * size X + 2 * j) + t2 * drawn s (2 * size X + 2 * j).+1) by [].
by apply: eq_bigr => i _; apply: eq_bigr => j _; rewrite !S0 addn0 addn1.
Qed.

Lemma k_C98_ms1_run (R R' : rng E) (sch sch' : sched) (q : MSMEG1 E) (X : seq (G1 E)) (Y : seq (Fr E)) (crs : CRS E) a1 a2 t1 t2 (s s' : rst R) (z z' : rst R') p p' :
  valid_sched sch -> valid_sched sch' -> binding_crs_with crs a1 a2 t1 t2 -> proper_crs crs ->
  ms1_commit_and_prove sch q X Y crs s = Ok (p, s') -> ms1_commit_and_prove sch' q X Y crs z = Ok (p', z') ->
  let m := size X in let n := size Y in
  (public p' = public p <-> exists k : nat -> Fr E,
    let o := (2 * m + n)%N in
    let e := \sum_(i < m) \sum_(j < n) k i * at_ (ms1_gamma q) i j * drawn s (2 * m + j) in
    [/\ \sum_(i < m) k i * (nth 0 (ms1_b q) i + \sum_(j < n) at_ (ms1_gamma q) i j * nth 0 Y j) = 0,
        moved s z 0 m t1 k, same_from s z (2 * m) n,
        drawn z o = drawn s o - t1 * e & drawn z o.+1 = drawn s o.+1 + e]).
Proof.
move=> vs vs' hk hp; rewrite (ms1_cap_total _ _ _ _ _ vs) (ms1_cap_total _ _ _ _ _ vs') => hf hg m n; rewrite (checked_ok hf) (checked_ok hg) {hf hg} /m /n {m n}.
apply: (iff_trans (@run_same E crs _ _ i1l (k2l crs) (size X) (size Y) 2 1 (tt_ t1) (tt_ t2) (hu2 hk) (@hv1 E crs t2) (free_i1 hk hp) (free_k2 hk hp)
  (ms1_a q) X (ms1_b q) Y (ms1_gamma q) (fun i l => drawn s (2 * i + l)%N) (fun i l => drawn (after (2 * size X) s) i) (fun i j => drawn (after (size Y) (after (2 * size X) s)) j) (fun i l => drawn z (2 * i + l)%N) (fun i l => drawn (after (2 * size X) z) i) (fun i j => drawn (after (size Y) (after (2 * size X) z)) j) MultiScalarG1 erefl erefl)).
apply: (iff_trans (@solve_ms1 E (size X) (size Y) (at_ (ms1_gamma q)) _ _ _ _ t1 t2 (fun i l => drawn s (2 * i + l)%N) (fun i l => drawn (after (2 * size X) s) i) (fun i j => drawn (after (size Y) (after (2 * size X) s)) j) (fun i l => drawn z (2 * i + l)%N) (fun i l => drawn (after (2 * size X) z) i) (fun i j => drawn (after (size Y) (after (2 * size X) z)) j))).
have T0 (R1 : rng E) (s1 : rst R1) j : drawn (after (size Y) (after (2 * size X) s1)) j = drawn s1 (2 * size X + size Y + j).
  by rewrite !drawnD addnA.
split=> -[k [h1 h3 h4 h5 h6]]; exists k; split=> //.
- by move=> i hi; have [e0 e1] := h3 i hi; split; [move: e0 | move: e1]; rewrite ?addn0 ?addn1.
- by move=> i hi; have := h4 i hi; rewrite !drawnD.
- move: h5; rewrite !T0 addn0 => ->; congr (_ - _ * _); apply: eq_bigr => i _; apply: eq_bigr => j _; by rewrite drawnD.
- move: h6; rewrite !T0 addn1 => ->; congr (_ + _); apply: eq_bigr => i _; apply: eq_bigr => j _; by rewrite drawnD.
- by move=> i hi; have [e0 e1] := h3 i hi; split; [move: e0 | move: e1]; rewrite ?addn0 ?addn1.
- by move=> i hi; have := h4 i hi; rewrite !drawnD.
- rewrite !T0 addn0 h5; congr (_ - _ * _); apply: eq_bigr => i _; apply: eq_bigr => j _; by rewrite drawnD.
- rewrite !T0 addn1 h6; congr (_ + _); apply: eq_bigr => i _; apply: eq_bigr => j _; by rewrite drawnD.
Qed.

Lemma k_C98_ms2_run (R R' : rng E) (sch sch' : sched) (q : MSMEG2 E) (X : seq (Fr E)) (Y : seq (G2 E)) (crs : CRS E) a1 a2 t1 t2 (s s' : rst R) (z z' : rst R') p p' :
  valid_sched sch -> valid_sched sch' -> binding_crs_with crs a1 a2 t1 t2 -> proper_crs crs ->
  ms2_commit_and_prove sch q X Y crs s = Ok (p, s') -> ms2_commit_and_prove sch' q X Y crs z = Ok (p', z') ->
  let m := size X in let n := size Y in
  (public p' = public p <-> exists l : nat -> Fr E,
    let o := (m + 2 * n)%N in
    [/\ \sum_(j < n) l j * (nth 0 (ms2_a q) j + \sum_(i < m) at_ (ms2_gamma q) i j * nth 0 X i) = 0,
        same_from s z 0 m, moved s z m n t2 l & same_from s z o 2]).
Proof.
move=> vs vs' hk hp; rewrite (ms2_cap_total _ _ _ _ _ vs) (ms2_cap_total _ _ _ _ _ vs') => hf hg m n; rewrite (checked_ok hf) (checked_ok hg) {hf hg} /m /n {m n}.
apply: (iff_trans (@run_same E crs _ _ (k1l crs) i2l (size X) (size Y) 1 2 (tt_ t1) (tt_ t2) (@hu1 E crs t1) (hv2 hk) (free_k1 hk hp) (free_i2 hk hp)
  (ms2_a q) X (ms2_b q) Y (ms2_gamma q) (fun i l => drawn s i) (fun i l => drawn (after (size X) s) (2 * i + l)%N) (fun i j => drawn (after (2 * size Y) (after (size X) s)) i) (fun i l => drawn z i) (fun i l => drawn (after (size X) z) (2 * i + l)%N) (fun i j => drawn (after (2 * size Y) (after (size X) z)) i) MultiScalarG2 erefl erefl)).
apply: (iff_trans (@solve_ms2 E (size X) (size Y) (at_ (ms2_gamma q)) _ _ _ _ t1 t2 (fun i l => drawn s i) (fun i l => drawn (after (size X) s) (2 * i + l)%N) (fun i j => drawn (after (2 * size Y) (after (size X) s)) i) (fun i l => drawn z i) (fun i l => drawn (after (size X) z) (2 * i + l)%N) (fun i j => drawn (after (2 * size Y) (after (size X) z)) i))).
have S0 (R1 : rng E) (s1 : rst R1) j l : drawn (after (size X) s1) (2 * j + l) = drawn s1 (size X + 2 * j + l) by rewrite drawnD addnA.
have T0 (R1 : rng E) (s1 : rst R1) j : drawn (after (2 * size Y) (after (size X) s1)) j = drawn s1 (size X + 2 * size Y + j).
  by rewrite !drawnD addnA.
split=> [[l [h1 h3 h4 h5 h6]]|[l [h1 h3 h4 h5]]]; exists l; split=> //.
- by move=> i hi; have [e0 e1] := h4 i hi; move: e0 e1; rewrite !S0 ?addn0 ?addn1.
- by move: h5 h6; rewrite !T0 => h5 h6 [|[|//]] _.
- by move=> i hi; have [e0 e1] := h4 i hi; move: e0 e1; rewrite !S0 ?addn0 ?addn1.
- by rewrite !T0 (h5 0%N).
- by rewrite !T0 (h5 1%N).
Qed.

Lemma k_C98_quad_run (R R' : rng E) (sch sch' : sched) (q : QuadEqu E) (X : seq (Fr E)) (Y : seq (Fr E)) (crs : CRS E) (s s' : rst R) (z z' : rst R') p p' :
  valid_sched sch -> valid_sched sch' -> u1 crs != 0 -> v1 crs != 0 ->
  quad_commit_and_prove sch q X Y crs s = Ok (p, s') -> quad_commit_and_prove sch' q X Y crs z = Ok (p', z') ->
  (public p' = public p <-> same_from s z 0 (size X + size Y + 1)).
Proof.
move=> vs vs' nu nv; rewrite (quad_cap_total _ _ _ _ _ vs) (quad_cap_total _ _ _ _ _ vs') => hf hg; rewrite (checked_ok hf) (checked_ok hg) {hf hg}.
split=> [h|h].
  have /mkseq_same hx := congr1 (fun x => x.1.1) h; have /mkseq_same hy := congr1 (fun x => x.1.2) h.
  have hth := congr1 (fun x => nth 0 (head [::] [seq y.1.2 | y <- x.2]) 0) h.
  have hr i : (i < size X)%N -> drawn z i = drawn s i.
    by move=> hi; have := hx i; rewrite size_map => /(_ hi) /addrI; rewrite !big_ord_recl !big_ord0 !addr0 => /(scal_inj _ _ nu).
  have hs j : (j < size Y)%N -> drawn (after (size X) z) j = drawn (after (size X) s) j.
    by move=> hj; have := hy j; rewrite size_map => /(_ hj) /addrI; rewrite !big_ord_recl !big_ord0 !addr0 => /(scal_inj _ _ nv).
  have eR : table (size X) 1 (fun i _ => drawn z i) = table (size X) 1 (fun i _ => drawn s i) by apply: eq_table => i j hi _; exact: hr.
  have eS : table (size Y) 1 (fun i _ => drawn (after (size X) z) i) = table (size Y) 1 (fun i _ => drawn (after (size X) s) i) by apply: eq_table => i j hi _; exact: hs.
  move: hth; rewrite /= !size_map eS => /addrI; rewrite !big_ord_recl !big_ord0 !addr0 /= => /(scal_inj _ _ nu) hT.
  move=> i; rewrite add0n addn1 ltnS leq_eqVlt => /orP [/eqP ->|]; first by move: hT; rewrite /= !drawnD addn0.
  case: (ltnP i (size X)) => [hi _|hi hl]; first exact: hr.
  have hj : (i - size X < size Y)%N by rewrite ltn_subLR.
  by have := hs _ hj; rewrite !drawnD subnKC.
have hr i : (i < size X)%N -> drawn z i = drawn s i by move=> hi; apply: (h i); rewrite -addnA ltn_addr.
have hs j : (j < size Y)%N -> drawn (after (size X) z) j = drawn (after (size X) s) j.
  by move=> hj; rewrite !drawnD; apply: (h (size X + j)%N); rewrite addn1 ltnS leq_add2l ltnW.
have hT : drawn (after (size Y) (after (size X) z)) 0 = drawn (after (size Y) (after (size X) s)) 0.
  by rewrite !drawnD !addnA !addn0; apply: (h (size X + size Y)%N); rewrite addn1.
have cE (G : lmodType (Fr E)) (key lin : seq (com G)) (r r' : nat -> Fr E) : (forall i, (i < size lin)%N -> r' i = r i) ->
  commit_value 1 key lin (fun i _ => r' i) = commit_value 1 key lin (fun i _ => r i).
  move=> e; rewrite /commit_value; congr mkCommit; last by apply: eq_table => i j hi _; exact: e.
  by apply/mkseq_same => i hi; rewrite !big_ord_recl !big_ord0 e.
by rewrite hT !(cE _ _ _ (drawn s) (drawn z)) ?(cE _ _ _ (drawn (after (size X) s)) (drawn (after (size X) z))) ?size_map.
Qed.
End Runs.
