(** Proofs of the statements in P_MirrorRun.v. *)
From mathcomp Require Import all_ssreflect all_algebra.
From Verif Require Import Base BaseLemmas Group DataStructures MatLemmas CoreAlg ComLemmas Generator Commit Statement Prove Verify Spec SpecMat SpecVerify SpecHide SpecPanic SpecFormula ProveLemmas VerifyLemmas CapLemmas FormulaProps Complete Main ComProps PadProps SpecMirror MirrorProps BenchLemmas.
Set Implicit Arguments.
Unset Strict Implicit.
Unset Printing Implicit Defensive.
Import GRing.Theory.
Local Open Scope ring_scope.

Section Swap.
Variable F : fieldType.
Implicit Types (t : nat -> F) (g : nat -> nat -> F).

Definition cr m n kx ky g t k l : F :=
  \sum_(j < n) (\sum_(i < m) t (kx * i + k)%N * g i j) * t (kx * m + (ky * j + l))%N.

Definition swap m n kx ky g t p : F :=
  if (p < ky * n)%N then t (kx * m + p)%N
  else if (p < ky * n + kx * m)%N then t (p - ky * n)%N
  else let r := (p - (ky * n + kx * m))%N in
       cr m n kx ky g t (r %/ ky)%N (r %% ky)%N - t (kx * m + (ky * n + (kx * (r %% ky) + r %/ ky)))%N.

Lemma slot a k i m : (i < m)%N -> (k < a)%N -> (a * i + k < a * m)%N.
Proof. by move=> hi hk; apply: (@leq_trans (a * i.+1)%N); rewrite ?leq_mul2l ?hi ?orbT // mulnS addnC ltn_add2r. Qed.

Lemma swap1 m n kx ky g t p : (p < ky * n)%N -> swap m n kx ky g t p = t (kx * m + p)%N.
Proof. by rewrite /swap => ->. Qed.
Lemma swap2 m n kx ky g t p : (p < kx * m)%N -> swap m n kx ky g t (ky * n + p)%N = t p.
Proof. by move=> h; rewrite /swap ltnNge leq_addr /= ltn_add2l h addnC addnK. Qed.
Lemma swap3 m n kx ky g t k l : (l < ky)%N ->
  swap m n kx ky g t (ky * n + (kx * m + (ky * k + l)))%N = cr m n kx ky g t k l - t (kx * m + (ky * n + (kx * l + k)))%N.
Proof.
move=> hl; rewrite /swap ltnNge leq_addr /= addnA ltnNge leq_addr /= [in X in (X - _)%N]addnC addnK.
by rewrite mulnC divnMDl ?(leq_ltn_trans (leq0n l)) // divn_small // addn0 modnMDl modn_small.
Qed.

Lemma cr_swap m n kx ky g g' t k l : (k < kx)%N -> (l < ky)%N -> (forall i j, (i < m)%N -> (j < n)%N -> g' j i = g i j) ->
  cr n m ky kx g' (swap m n kx ky g t) l k = cr m n kx ky g t k l.
Proof.
move=> hk hl hg; rewrite /cr.
under eq_bigr => i _.
  rewrite swap2 ?slot // mulr_suml.
  under eq_bigr => j _ do rewrite swap1 ?slot // hg //.
  over.
rewrite exchange_big /=; apply: eq_bigr => j _; rewrite mulr_suml; apply: eq_bigr => i _.
by rewrite mulrAC mulrC mulrA [t _ * g i j]mulrC mulrAC mulrC mulrA mulrAC -mulrA mulrC.
Qed.
End Swap.

Section Tuples.
Variable F : fieldType.
Implicit Types (t : nat -> F) (g : nat -> nat -> F).

Lemma cr_ext m n kx ky g t t2 k l N : N = (kx * m + (ky * n + kx * ky))%N -> (forall p, (p < N)%N -> t p = t2 p) -> (k < kx)%N -> (l < ky)%N ->
  cr m n kx ky g t k l = cr m n kx ky g t2 k l.
Proof.
move=> eN h hk hl; apply: eq_bigr => j _; congr (_ * _).
  by apply: eq_bigr => i _; rewrite h // eN; apply: leq_trans (slot _ _) (leq_addr _ _).
by rewrite h // eN ltn_add2l; apply: leq_trans (slot _ _) (leq_addr _ _).
Qed.

(* the three ranges of positions *)
Lemma places m n kx ky p (P : nat -> Prop) :
  (forall r, (r < ky * n)%N -> P r) -> (forall r, (r < kx * m)%N -> P (ky * n + r)%N) ->
  (forall k l, (k < kx)%N -> (l < ky)%N -> P (ky * n + (kx * m + (ky * k + l)))%N) ->
  (p < ky * n + (kx * m + kx * ky))%N -> P p.
Proof.
move=> h1 h2 h3 hp; case: (ltnP p (ky * n)) => [/h1 //|a].
rewrite -(subnKC a) ltn_add2l in hp *; move: (p - ky * n)%N hp => r; case: (ltnP r (kx * m)) => [/h2 //|b].
rewrite -(subnKC b) ltn_add2l; move: (r - kx * m)%N => d hd; have hy : (0 < ky)%N by case: (ky) hd; rewrite ?muln0.
by rewrite (divn_eq d ky) [(d %/ ky * ky)%N]mulnC; apply: h3; rewrite ?ltn_divLR ?ltn_mod.
Qed.

Lemma swap_ext m n kx ky g t t2 N : N = (kx * m + (ky * n + kx * ky))%N -> (forall p, (p < N)%N -> t p = t2 p) ->
  forall p, (p < ky * n + (kx * m + kx * ky))%N -> swap m n kx ky g t p = swap m n kx ky g t2 p.
Proof.
move=> eN h p; apply: (@places m n kx ky p (fun p => swap m n kx ky g t p = swap m n kx ky g t2 p)) => [r hr|r hr|k l hk hl].
- by rewrite !swap1 // h // eN ltn_add2l; apply: leq_trans (leq_addr _ _).
- by rewrite !swap2 // h // eN; apply: leq_trans (leq_addr _ _).
- rewrite !swap3 // (cr_ext _ eN h) // h // eN !ltn_add2l; exact: slot.
Qed.

Lemma swapK m n kx ky g g' t : (forall i j, (i < m)%N -> (j < n)%N -> g' j i = g i j) ->
  forall p, (p < kx * m + (ky * n + kx * ky))%N -> swap n m ky kx g' (swap m n kx ky g t) p = t p.
Proof.
move=> hg p; rewrite [(kx * ky)%N]mulnC; apply: (@places n m ky kx p (fun p => swap n m ky kx g' (swap m n kx ky g t) p = t p)) => [r hr|r hr|k l hk hl].
- by rewrite swap1 // swap2.
- by rewrite swap2 // swap1.
- by rewrite swap3 // swap3 // (cr_swap _ hl hk hg) opprB addrC subrK.
Qed.

Definition tswap m n kx ky g N N' (t : N.-tuple F) : N'.-tuple F := [tuple swap m n kx ky g (nth 0 t) p | p < N'].

Lemma tswap_nth m n kx ky g N N' (t : N.-tuple F) p : (p < N')%N -> nth 0 (tswap m n kx ky g N' t) p = swap m n kx ky g (nth 0 t) p.
Proof. by move=> h; have := nth_mktuple (fun p : 'I_N' => swap m n kx ky g (nth 0 t) p) 0 (Ordinal h). Qed.

Lemma tswapK m n kx ky g g' N N' (t : N.-tuple F) : (forall i j, (i < m)%N -> (j < n)%N -> g' j i = g i j) ->
  N = (kx * m + (ky * n + kx * ky))%N -> N' = (ky * n + (kx * m + kx * ky))%N ->
  tswap n m ky kx g' N (tswap m n kx ky g N' t) = t.
Proof.
move=> hg eN eN'; apply: val_inj; apply: (@eq_from_nth _ 0) => [|p]; rewrite !size_tuple // => hp; rewrite tswap_nth //.
rewrite (@swap_ext n m ky kx g' _ (swap m n kx ky g (nth 0 t)) N').
- by apply: swapK => //; rewrite -eN.
- by rewrite eN' [(ky * kx)%N]mulnC.
- by move=> r hr; rewrite tswap_nth.
- by rewrite [(ky * kx)%N]mulnC -eN.
Qed.

Lemma tswap_bij m n kx ky g g' N N' : (forall i j, (i < m)%N -> (j < n)%N -> g' j i = g i j) ->
  N = (kx * m + (ky * n + kx * ky))%N -> N' = (ky * n + (kx * m + kx * ky))%N -> bijective (@tswap m n kx ky g N N').
Proof.
move=> hg eN eN'; exists (@tswap n m ky kx g' N' N) => t; first exact: tswapK.
by apply: tswapK => [i j hi hj||]; [rewrite hg | rewrite [(ky * kx)%N]mulnC | rewrite [(ky * kx)%N]mulnC].
Qed.
End Tuples.

Section Run.
Variable E : pairing.
Let M := mirror E.
Implicit Types (crs : CRS E).

Lemma commit_ext (G : lmodType (Fr E)) k (key lin : seq (com G)) r r' :
  (forall i l, (i < size lin)%N -> (l < k)%N -> r i l = r' i l) -> commit_value k key lin r = commit_value k key lin r'.
Proof.
move=> h; rewrite /commit_value; congr mkCommit.
  by apply: mkext => i hi; congr (_ + _); apply: eq_bigr => l _; rewrite h.
by apply: mkext => i hi; apply: mkext => l hl; rewrite h.
Qed.

Lemma run_mirror m n kx ky A (X : seq (Com1 E)) B (Y : seq (Com2 E)) G crs ty ty' (t t' : nat -> Fr E) rx ry T rx' ry' T' :
  size X = m -> size Y = n ->
  (forall p, (p < ky * n + (kx * m + kx * ky))%N -> t' p = swap m n kx ky (at_ G) t p) ->
  (forall i k, (i < m)%N -> (k < kx)%N -> rx i k = t (kx * i + k)%N) ->
  (forall j l, (j < n)%N -> (l < ky)%N -> ry j l = t (kx * m + (ky * j + l))%N) ->
  (forall k l, (k < kx)%N -> (l < ky)%N -> at_ T l k = t (kx * m + (ky * n + (kx * l + k)))%N) ->
  (forall j l, (j < n)%N -> (l < ky)%N -> ry' j l = t' (ky * j + l)%N) ->
  (forall i k, (i < m)%N -> (k < kx)%N -> rx' i k = t' (ky * n + (kx * i + k))%N) ->
  (forall k l, (k < kx)%N -> (l < ky)%N -> at_ T' k l = t' (ky * n + (kx * m + (ky * k + l)))%N) ->
  let cx := commit_value kx (crs_u crs) X rx in let cy := commit_value ky (crs_v crs) Y ry in
  let cx' := commit_value (E := M) kx (crs_u crs) X rx' in let cy' := commit_value (E := M) ky (crs_v crs) Y ry' in
  let f := prove_value m n kx ky A X B Y G (crand cx) (crand cy) T crs ty in
  let g := prove_value (E := M) n m ky kx B Y A X (turned m n G) (crand cy') (crand cx') T' (mirror_crs crs) ty' in
  [/\ cx' = cx, cy' = cy, pi g = theta f & theta g = pi f].
Proof.
move=> sX sY ht hrx hry hT hry' hrx' hT' cx cy cx' cy' f g.
have ex : cx' = cx.
  apply: commit_ext => i k; rewrite sX => hi hk; rewrite hrx' // ht ?swap2 ?slot ?hrx //.
  by rewrite ltn_add2l; apply: leq_trans (slot hi hk) (leq_addr _ _).
have ey : cy' = cy.
  apply: commit_ext => j l; rewrite sY => hj hl; rewrite hry' // ht ?swap1 ?slot ?hry //.
  by apply: leq_trans (slot hj hl) (leq_addr _ _).
rewrite /f /g ex ey.
have [|-> ->] := @pv_mirror E m n kx ky A X B Y G (crand cx) (crand cy) T T' crs ty ty'; last by [].
move=> k l hk hl; rewrite hT' // ht; last first.
  by rewrite !ltn_add2l [(kx * ky)%N]mulnC; exact: slot.
rewrite swap3 // hT //; congr (_ - _); apply: eq_bigr => j _; congr (_ * _).
  by apply: eq_bigr => i _; rewrite /cx /= at_table ?sX // hrx.
by rewrite /cy /= at_table ?sY // hry.
Qed.

Lemma k_C86_ppe_mirror_run sch sch' (q : PPE E) (X : seq (G1 E)) (Y : seq (G2 E)) crs : valid_sched sch -> valid_sched sch' ->
  (0 < size X)%N -> (0 < size Y)%N -> ppe_wf q (size X) (size Y) -> two_keys crs ->
  exists phi : (2 * size X + (2 * size Y + 4)).-tuple (Fr E) -> (2 * size Y + (2 * size X + 4)).-tuple (Fr E), bijective phi /\
  forall (R : rng E) (R' : rng M) (s : rst R) (z : rst R'), draws (2 * size Y + (2 * size X + 4)) z = phi (draws (2 * size X + (2 * size Y + 4)) s) ->
  exists p p', [/\ seen id (ppe_commit_and_prove sch q X Y crs s) = Ok p,
    seen id (ppe_commit_and_prove (E := M) sch' (mirror_ppe q) Y X (mirror_crs crs) z) = Ok p',
    (xcoms p', ycoms p') = (ycoms p, xcoms p) &
    [seq (pi f, theta f) | f <- equ_proofs p'] = [seq (theta f, pi f) | f <- equ_proofs p]].
Proof.
move=> vs vs' hx hy wf; case: (wf) => ea eb eg [hu hv]; pose G := ppe_gamma q.
exists (@tswap (Fr E) (size X) (size Y) 2 2 (at_ G) (2 * size X + (2 * size Y + 4))%N (2 * size Y + (2 * size X + 4))%N); split.
  by apply: (@tswap_bij _ _ _ _ _ _ (at_ (turned (size X) (size Y) G))) => [i j hi hj||]; [rewrite at_turned | rewrite ?mul1n | rewrite ?mul1n].
move=> R R' s z hz.
have i1' : isok (ppe_commit_and_prove sch q X Y crs s).
  by apply/isokP; have [|p [s' ->]] := (CapLemmas.ppe_cap_total vs q X Y crs s).2; [split; rewrite ?hu ?hv | exists (p, s')].
have i2' : isok (ppe_commit_and_prove (E := M) sch' (mirror_ppe q) Y X (mirror_crs crs) z).
  apply/isokP; have [|p [s' ->]] := (CapLemmas.ppe_cap_total (E := M) vs' (mirror_ppe q) Y X (mirror_crs crs) z).2; last by exists (p, s').
  by split; rewrite /= ?hu ?hv //; split; rewrite /= ?ea ?eb //; exact: dims_turned.
have e1 := FormulaProps.ppe_cap_total q X Y crs s vs; cbv zeta in e1; rewrite e1 in i1'; rewrite (checked_val i1') in e1.
have e2 := FormulaProps.ppe_cap_total (E := M) (mirror_ppe q) Y X (mirror_crs crs) z vs'; cbv zeta in e2; rewrite e2 in i2'; rewrite (checked_val i2') in e2.
have ht : forall p, (p < 2 * size Y + (2 * size X + 2 * 2))%N -> drawn z p = swap (size X) (size Y) 2 2 (at_ G) (drawn s) p.
  move=> p hp; have hp2 : (p < ((2 * size Y)%N + ((2 * size X)%N + 4))%N)%N by move: hp; rewrite ?mul1n.
  rewrite -(draw_nth z hp2) hz tswap_nth //.
  apply: (@swap_ext (Fr E) (size X) (size Y) 2 2 (at_ G) _ _ ((2 * size X)%N + ((2 * size Y)%N + 4))%N) => [|r hr|]; [by rewrite ?mul1n | exact: (draw_nth s hr) | exact: hp].
have [|||||||||hcx hcy hpi hth] := @run_mirror (size X) (size Y) 2 2 [seq i1 x | x <- ppe_a q] [seq i1 x | x <- X] [seq i2 y | y <- ppe_b q] [seq i2 y | y <- Y] G crs PairingProduct PairingProduct
  (drawn s) (drawn z) (fun i l => drawn s (2 * i + l)%N) (fun i l => drawn (after (2 * size X)%N s) (2 * i + l)%N) (table 2 2 (fun i j => drawn (after (2 * size Y)%N (after (2 * size X)%N s)) (2 * i + j)%N)) (fun i l => drawn (after (2 * size Y)%N z) (2 * i + l)%N) (fun i l => drawn z (2 * i + l)%N) (table 2 2 (fun i j => drawn (after (2 * size X)%N (after (2 * size Y)%N z)) (2 * i + j)%N)).
- by rewrite size_map.
- by rewrite size_map.
- exact: ht.
- by move=> i k hi hk; rewrite ?BenchLemmas.at_table // ?drawnD ?mul1n ?muln0 ?add0n ?addn0 ?addnA //.
- by move=> j l hj hl; rewrite ?BenchLemmas.at_table // ?drawnD ?mul1n ?muln0 ?add0n ?addn0 ?addnA //.
- by move=> k l hk hl; rewrite ?BenchLemmas.at_table // ?drawnD ?mul1n ?muln0 ?add0n ?addn0 ?addnA //.
- by move=> j l hj hl; rewrite ?BenchLemmas.at_table // ?drawnD ?mul1n ?muln0 ?add0n ?addn0 ?addnA //.
- by move=> i k hi hk; rewrite ?BenchLemmas.at_table // ?drawnD ?mul1n ?muln0 ?add0n ?addn0 ?addnA //.
- by move=> k l hk hl; rewrite ?BenchLemmas.at_table // ?drawnD ?mul1n ?muln0 ?add0n ?addn0 ?addnA //.
have eG : ppe_gamma (mirror_ppe q) = turned (size X) (size Y) G by rewrite /= ea eb.
rewrite eG in e2; rewrite e1 e2 /seen; do 2 eexists; split; [by [] | by [] | |].
  by congr (_, _); [exact: hcy | exact: hcx].
by congr [:: (_, _)]; [exact: hpi | exact: hth].
Qed.

Lemma k_C86_ms1_mirror_run sch sch' (q : MSMEG1 E) (X : seq (G1 E)) (Y : seq (Fr E)) crs : valid_sched sch -> valid_sched sch' ->
  (0 < size X)%N -> (0 < size Y)%N -> ms1_wf q (size X) (size Y) -> two_keys crs ->
  exists phi : (2 * size X + (size Y + 2)).-tuple (Fr E) -> (size Y + (2 * size X + 2)).-tuple (Fr E), bijective phi /\
  forall (R : rng E) (R' : rng M) (s : rst R) (z : rst R'), draws (size Y + (2 * size X + 2)) z = phi (draws (2 * size X + (size Y + 2)) s) ->
  exists p p', [/\ seen id (ms1_commit_and_prove sch q X Y crs s) = Ok p,
    seen id (ms2_commit_and_prove (E := M) sch' (mirror_ms1 q) Y X (mirror_crs crs) z) = Ok p',
    (xcoms p', ycoms p') = (ycoms p, xcoms p) &
    [seq (pi f, theta f) | f <- equ_proofs p'] = [seq (theta f, pi f) | f <- equ_proofs p]].
Proof.
move=> vs vs' hx hy wf; case: (wf) => ea eb eg [hu hv]; pose G := ms1_gamma q.
exists (@tswap (Fr E) (size X) (size Y) 2 1 (at_ G) (2 * size X + (size Y + 2))%N (size Y + (2 * size X + 2))%N); split.
  by apply: (@tswap_bij _ _ _ _ _ _ (at_ (turned (size X) (size Y) G))) => [i j hi hj||]; [rewrite at_turned | rewrite ?mul1n | rewrite ?mul1n].
move=> R R' s z hz.
have i1' : isok (ms1_commit_and_prove sch q X Y crs s).
  by apply/isokP; have [|p [s' ->]] := (CapLemmas.ms1_cap_total vs q X Y crs s).2; [split; rewrite ?hu ?hv | exists (p, s')].
have i2' : isok (ms2_commit_and_prove (E := M) sch' (mirror_ms1 q) Y X (mirror_crs crs) z).
  apply/isokP; have [|p [s' ->]] := (CapLemmas.ms2_cap_total (E := M) vs' (mirror_ms1 q) Y X (mirror_crs crs) z).2; last by exists (p, s').
  by split; rewrite /= ?hu ?hv //; split; rewrite /= ?ea ?eb //; exact: dims_turned.
have e1 := FormulaProps.ms1_cap_total q X Y crs s vs; cbv zeta in e1; rewrite e1 in i1'; rewrite (checked_val i1') in e1.
have e2 := FormulaProps.ms2_cap_total (E := M) (mirror_ms1 q) Y X (mirror_crs crs) z vs'; cbv zeta in e2; rewrite e2 in i2'; rewrite (checked_val i2') in e2.
have ht : forall p, (p < 1 * size Y + (2 * size X + 2 * 1))%N -> drawn z p = swap (size X) (size Y) 2 1 (at_ G) (drawn s) p.
  move=> p hp; have hp2 : (p < ((size Y) + ((2 * size X)%N + 2))%N)%N by move: hp; rewrite ?mul1n.
  rewrite -(draw_nth z hp2) hz tswap_nth //.
  apply: (@swap_ext (Fr E) (size X) (size Y) 2 1 (at_ G) _ _ ((2 * size X)%N + ((size Y) + 2))%N) => [|r hr|]; [by rewrite ?mul1n | exact: (draw_nth s hr) | exact: hp].
have [|||||||||hcx hcy hpi hth] := @run_mirror (size X) (size Y) 2 1 [seq i1 x | x <- ms1_a q] [seq i1 x | x <- X] [seq k2 crs y | y <- ms1_b q] [seq k2 crs y | y <- Y] G crs MultiScalarG1 MultiScalarG2
  (drawn s) (drawn z) (fun i l => drawn s (2 * i + l)%N) (fun i l => drawn (after (2 * size X)%N s) i) (table 1 2 (fun i j => drawn (after (size Y) (after (2 * size X)%N s)) j)) (fun i l => drawn (after (size Y) z) (2 * i + l)%N) (fun i l => drawn z i) (table 2 1 (fun i j => drawn (after (2 * size X)%N (after (size Y) z)) i)).
- by rewrite size_map.
- by rewrite size_map.
- exact: ht.
- by move=> i k hi hk; rewrite ?BenchLemmas.at_table // ?drawnD ?mul1n ?muln0 ?add0n ?addn0 ?addnA //.
- by move=> j [|//] hj hl; rewrite ?BenchLemmas.at_table // ?drawnD ?mul1n ?muln0 ?add0n ?addn0 ?addnA //.
- by move=> k [|//] hk hl; rewrite ?BenchLemmas.at_table // ?drawnD ?mul1n ?muln0 ?add0n ?addn0 ?addnA //.
- by move=> j [|//] hj hl; rewrite ?BenchLemmas.at_table // ?drawnD ?mul1n ?muln0 ?add0n ?addn0 ?addnA //.
- by move=> i k hi hk; rewrite ?BenchLemmas.at_table // ?drawnD ?mul1n ?muln0 ?add0n ?addn0 ?addnA //.
- by move=> k [|//] hk hl; rewrite ?BenchLemmas.at_table // ?drawnD ?mul1n ?muln0 ?add0n ?addn0 ?addnA //.
have eG : ms2_gamma (mirror_ms1 q) = turned (size X) (size Y) G by rewrite /= ea eb.
rewrite eG in e2; rewrite e1 e2 /seen; do 2 eexists; split; [by [] | by [] | |].
  by congr (_, _); [exact: hcy | exact: hcx].
by congr [:: (_, _)]; [exact: hpi | exact: hth].
Qed.

Lemma k_C86_ms2_mirror_run sch sch' (q : MSMEG2 E) (X : seq (Fr E)) (Y : seq (G2 E)) crs : valid_sched sch -> valid_sched sch' ->
  (0 < size X)%N -> (0 < size Y)%N -> ms2_wf q (size X) (size Y) -> two_keys crs ->
  exists phi : (size X + (2 * size Y + 2)).-tuple (Fr E) -> (2 * size Y + (size X + 2)).-tuple (Fr E), bijective phi /\
  forall (R : rng E) (R' : rng M) (s : rst R) (z : rst R'), draws (2 * size Y + (size X + 2)) z = phi (draws (size X + (2 * size Y + 2)) s) ->
  exists p p', [/\ seen id (ms2_commit_and_prove sch q X Y crs s) = Ok p,
    seen id (ms1_commit_and_prove (E := M) sch' (mirror_ms2 q) Y X (mirror_crs crs) z) = Ok p',
    (xcoms p', ycoms p') = (ycoms p, xcoms p) &
    [seq (pi f, theta f) | f <- equ_proofs p'] = [seq (theta f, pi f) | f <- equ_proofs p]].
Proof.
move=> vs vs' hx hy wf; case: (wf) => ea eb eg [hu hv]; pose G := ms2_gamma q.
exists (@tswap (Fr E) (size X) (size Y) 1 2 (at_ G) (size X + (2 * size Y + 2))%N (2 * size Y + (size X + 2))%N); split.
  by apply: (@tswap_bij _ _ _ _ _ _ (at_ (turned (size X) (size Y) G))) => [i j hi hj||]; [rewrite at_turned | rewrite ?mul1n | rewrite ?mul1n].
move=> R R' s z hz.
have i1' : isok (ms2_commit_and_prove sch q X Y crs s).
  by apply/isokP; have [|p [s' ->]] := (CapLemmas.ms2_cap_total vs q X Y crs s).2; [split; rewrite ?hu ?hv | exists (p, s')].
have i2' : isok (ms1_commit_and_prove (E := M) sch' (mirror_ms2 q) Y X (mirror_crs crs) z).
  apply/isokP; have [|p [s' ->]] := (CapLemmas.ms1_cap_total (E := M) vs' (mirror_ms2 q) Y X (mirror_crs crs) z).2; last by exists (p, s').
  by split; rewrite /= ?hu ?hv //; split; rewrite /= ?ea ?eb //; exact: dims_turned.
have e1 := FormulaProps.ms2_cap_total q X Y crs s vs; cbv zeta in e1; rewrite e1 in i1'; rewrite (checked_val i1') in e1.
have e2 := FormulaProps.ms1_cap_total (E := M) (mirror_ms2 q) Y X (mirror_crs crs) z vs'; cbv zeta in e2; rewrite e2 in i2'; rewrite (checked_val i2') in e2.
have ht : forall p, (p < 2 * size Y + (1 * size X + 1 * 2))%N -> drawn z p = swap (size X) (size Y) 1 2 (at_ G) (drawn s) p.
  move=> p hp; have hp2 : (p < ((2 * size Y)%N + ((size X) + 2))%N)%N by move: hp; rewrite ?mul1n.
  rewrite -(draw_nth z hp2) hz tswap_nth //.
  apply: (@swap_ext (Fr E) (size X) (size Y) 1 2 (at_ G) _ _ ((size X) + ((2 * size Y)%N + 2))%N) => [|r hr|]; [by rewrite ?mul1n | exact: (draw_nth s hr) | exact: hp].
have [|||||||||hcx hcy hpi hth] := @run_mirror (size X) (size Y) 1 2 [seq k1 crs x | x <- ms2_a q] [seq k1 crs x | x <- X] [seq i2 y | y <- ms2_b q] [seq i2 y | y <- Y] G crs MultiScalarG2 MultiScalarG1
  (drawn s) (drawn z) (fun i l => drawn s i) (fun i l => drawn (after (size X) s) (2 * i + l)%N) (table 2 1 (fun i j => drawn (after (2 * size Y)%N (after (size X) s)) i)) (fun i l => drawn (after (2 * size Y)%N z) i) (fun i l => drawn z (2 * i + l)%N) (table 1 2 (fun i j => drawn (after (size X) (after (2 * size Y)%N z)) j)).
- by rewrite size_map.
- by rewrite size_map.
- exact: ht.
- by move=> i [|//] hi hk; rewrite ?BenchLemmas.at_table // ?drawnD ?mul1n ?muln0 ?add0n ?addn0 ?addnA //.
- by move=> j l hj hl; rewrite ?BenchLemmas.at_table // ?drawnD ?mul1n ?muln0 ?add0n ?addn0 ?addnA //.
- by move=> [|//] l hk hl; rewrite ?BenchLemmas.at_table // ?drawnD ?mul1n ?muln0 ?add0n ?addn0 ?addnA //.
- by move=> j l hj hl; rewrite ?BenchLemmas.at_table // ?drawnD ?mul1n ?muln0 ?add0n ?addn0 ?addnA //.
- by move=> i [|//] hi hk; rewrite ?BenchLemmas.at_table // ?drawnD ?mul1n ?muln0 ?add0n ?addn0 ?addnA //.
- by move=> [|//] l hk hl; rewrite ?BenchLemmas.at_table // ?drawnD ?mul1n ?muln0 ?add0n ?addn0 ?addnA //.
have eG : ms1_gamma (mirror_ms2 q) = turned (size X) (size Y) G by rewrite /= ea eb.
rewrite eG in e2; rewrite e1 e2 /seen; do 2 eexists; split; [by [] | by [] | |].
  by congr (_, _); [exact: hcy | exact: hcx].
by congr [:: (_, _)]; [exact: hpi | exact: hth].
Qed.

Lemma k_C86_quad_mirror_run sch sch' (q : QuadEqu E) (X : seq (Fr E)) (Y : seq (Fr E)) crs : valid_sched sch -> valid_sched sch' ->
  (0 < size X)%N -> (0 < size Y)%N -> quad_wf q (size X) (size Y) -> two_keys crs ->
  exists phi : (size X + (size Y + 1)).-tuple (Fr E) -> (size Y + (size X + 1)).-tuple (Fr E), bijective phi /\
  forall (R : rng E) (R' : rng M) (s : rst R) (z : rst R'), draws (size Y + (size X + 1)) z = phi (draws (size X + (size Y + 1)) s) ->
  exists p p', [/\ seen id (quad_commit_and_prove sch q X Y crs s) = Ok p,
    seen id (quad_commit_and_prove (E := M) sch' (mirror_quad q) Y X (mirror_crs crs) z) = Ok p',
    (xcoms p', ycoms p') = (ycoms p, xcoms p) &
    [seq (pi f, theta f) | f <- equ_proofs p'] = [seq (theta f, pi f) | f <- equ_proofs p]].
Proof.
move=> vs vs' hx hy wf; case: (wf) => ea eb eg [hu hv]; pose G := quad_gamma q.
exists (@tswap (Fr E) (size X) (size Y) 1 1 (at_ G) (size X + (size Y + 1))%N (size Y + (size X + 1))%N); split.
  by apply: (@tswap_bij _ _ _ _ _ _ (at_ (turned (size X) (size Y) G))) => [i j hi hj||]; [rewrite at_turned | rewrite ?mul1n | rewrite ?mul1n].
move=> R R' s z hz.
have i1' : isok (quad_commit_and_prove sch q X Y crs s).
  by apply/isokP; have [|p [s' ->]] := (CapLemmas.quad_cap_total vs q X Y crs s).2; [split; rewrite ?hu ?hv | exists (p, s')].
have i2' : isok (quad_commit_and_prove (E := M) sch' (mirror_quad q) Y X (mirror_crs crs) z).
  apply/isokP; have [|p [s' ->]] := (CapLemmas.quad_cap_total (E := M) vs' (mirror_quad q) Y X (mirror_crs crs) z).2; last by exists (p, s').
  by split; rewrite /= ?hu ?hv //; split; rewrite /= ?ea ?eb //; exact: dims_turned.
have e1 := FormulaProps.quad_cap_total q X Y crs s vs; cbv zeta in e1; rewrite e1 in i1'; rewrite (checked_val i1') in e1.
have e2 := FormulaProps.quad_cap_total (E := M) (mirror_quad q) Y X (mirror_crs crs) z vs'; cbv zeta in e2; rewrite e2 in i2'; rewrite (checked_val i2') in e2.
have ht : forall p, (p < 1 * size Y + (1 * size X + 1 * 1))%N -> drawn z p = swap (size X) (size Y) 1 1 (at_ G) (drawn s) p.
  move=> p hp; have hp2 : (p < ((size Y) + ((size X) + 1))%N)%N by move: hp; rewrite ?mul1n.
  rewrite -(draw_nth z hp2) hz tswap_nth //.
  apply: (@swap_ext (Fr E) (size X) (size Y) 1 1 (at_ G) _ _ ((size X) + ((size Y) + 1))%N) => [|r hr|]; [by rewrite ?mul1n | exact: (draw_nth s hr) | exact: hp].
have [|||||||||hcx hcy hpi hth] := @run_mirror (size X) (size Y) 1 1 [seq k1 crs x | x <- quad_a q] [seq k1 crs x | x <- X] [seq k2 crs y | y <- quad_b q] [seq k2 crs y | y <- Y] G crs Quadratic Quadratic
  (drawn s) (drawn z) (fun i l => drawn s i) (fun i l => drawn (after (size X) s) i) (table 1 1 (fun i j => drawn (after (size Y) (after (size X) s)) 0)) (fun i l => drawn (after (size Y) z) i) (fun i l => drawn z i) (table 1 1 (fun i j => drawn (after (size X) (after (size Y) z)) 0)).
- by rewrite size_map.
- by rewrite size_map.
- exact: ht.
- by move=> i [|//] hi hk; rewrite ?BenchLemmas.at_table // ?drawnD ?mul1n ?muln0 ?add0n ?addn0 ?addnA //.
- by move=> j [|//] hj hl; rewrite ?BenchLemmas.at_table // ?drawnD ?mul1n ?muln0 ?add0n ?addn0 ?addnA //.
- by move=> [|//] [|//] hk hl; rewrite ?BenchLemmas.at_table // ?drawnD ?mul1n ?muln0 ?add0n ?addn0 ?addnA //.
- by move=> j [|//] hj hl; rewrite ?BenchLemmas.at_table // ?drawnD ?mul1n ?muln0 ?add0n ?addn0 ?addnA //.
- by move=> i [|//] hi hk; rewrite ?BenchLemmas.at_table // ?drawnD ?mul1n ?muln0 ?add0n ?addn0 ?addnA //.
- by move=> [|//] [|//] hk hl; rewrite ?BenchLemmas.at_table // ?drawnD ?mul1n ?muln0 ?add0n ?addn0 ?addnA //.
have eG : quad_gamma (mirror_quad q) = turned (size X) (size Y) G by rewrite /= ea eb.
rewrite eG in e2; rewrite e1 e2 /seen; do 2 eexists; split; [by [] | by [] | |].
  by congr (_, _); [exact: hcy | exact: hcx].
by congr [:: (_, _)]; [exact: hpi | exact: hth].
Qed.

End Run.
