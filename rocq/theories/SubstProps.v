(** Proofs of the statements in P_Subst.v. *)
From mathcomp Require Import all_ssreflect all_algebra.
From Verif Require Import Base BaseLemmas Group DataStructures MatLemmas CoreAlg ComLemmas Generator Commit Statement Prove Verify Spec SpecMat SpecVerify SpecHide SpecPanic SpecFormula ProveLemmas VerifyLemmas FormulaProps Complete Main ComProps PadProps SpecMirror MirrorProps SpecSubst.
Set Implicit Arguments.
Unset Strict Implicit.
Unset Printing Implicit Defensive.
Import GRing.Theory.
Local Open Scope ring_scope.

Section Sums.
Variables (F : fieldType).

Lemma mv (V : lmodType F) n n' (r : nat -> F) (ka : nat -> nat -> F) (y : nat -> V) :
  \sum_(j < n) r j *: (\sum_(k < n') ka j k *: y k) = \sum_(k < n') (\sum_(j < n) r j * ka j k) *: y k.
Proof.
under eq_bigr => j _ do rewrite scaler_sumr.
rewrite exchange_big; apply: eq_bigr => k _; rewrite scaler_suml; apply: eq_bigr => j _; exact: scalerA.
Qed.
Lemma mvs n n' (r : nat -> F) (ka : nat -> nat -> F) (y : nat -> F) :
  \sum_(j < n) r j * (\sum_(k < n') ka j k * y k) = \sum_(k < n') (\sum_(j < n) r j * ka j k) * y k.
Proof. exact: (@mv [lmodType F of F^o] n n' r ka y). Qed.
End Sums.

Section Subst.
Variable E : pairing.
Implicit Types (crs : CRS E) (la ka : nat -> nat -> Fr E).

(* both sides of an equation of commitments *)
Lemma pv_subst m n m' n' kx ky A A' X X' B B' Y Y' G G' R R' S S' (T : matrix (Fr E)) crs t la ka :
  (forall i, (i < m)%N -> nth 0 X i = \sum_(h < m') la i h *: nth 0 X' h) ->
  (forall j, (j < n)%N -> nth 0 Y j = \sum_(k < n') ka j k *: nth 0 Y' k) ->
  (forall k, (k < n')%N -> nth 0 A' k = \sum_(j < n) ka j k *: nth 0 A j) ->
  (forall h, (h < m')%N -> nth 0 B' h = \sum_(i < m) la i h *: nth 0 B i) ->
  (forall h k, (h < m')%N -> (k < n')%N -> at_ G' h k = \sum_(i < m) \sum_(j < n) la i h * at_ G i j * ka j k) ->
  (forall i l, (i < m)%N -> (l < kx)%N -> at_ R i l = \sum_(h < m') la i h * at_ R' h l) ->
  (forall j l, (j < n)%N -> (l < ky)%N -> at_ S j l = \sum_(k < n') ka j k * at_ S' k l) ->
  prove_value (E := E) m n kx ky A X B Y G R S T crs t = prove_value m' n' kx ky A' X' B' Y' G' R' S' T crs t.
Proof.
move=> hX hY hA hB hG hR hS; rewrite /prove_value; congr mkEquProof; apply: mkext => l hl.
  have e k : (k < n')%N -> \sum_(h < m') at_ R' h l * at_ G' h k = \sum_(j < n) (\sum_(i < m) at_ R i l * at_ G i j) * ka j k.
    move=> hk; under eq_bigr => h _ do rewrite hG // exchange_big mulr_sumr.
    rewrite exchange_big; apply: eq_bigr => j _ /=.
    under eq_bigr => h _ do rewrite mulr_sumr.
    rewrite exchange_big mulr_suml; apply: eq_bigr => i _ /=; rewrite hR // !mulr_suml; apply: eq_bigr => h _.
    by rewrite !mulrA [at_ R' h l * _]mulrC.
  congr (_ + _ + _).
  - under [RHS]eq_bigr => h _ do rewrite hB //.
    rewrite (mv m' m (fun h => at_ R' h l) (fun h i => la i h)); apply: eq_bigr => i _; rewrite hR //; congr (_ *: _); apply: eq_bigr => h _; exact: mulrC.
  - under eq_bigr => j _ do rewrite hY //.
    by rewrite (mv n n' (fun j => \sum_(i < m) at_ R i l * at_ G i j) ka); apply: eq_bigr => k _; rewrite e.
  - apply: eq_bigr => l' _; congr ((_ - _) *: _); under eq_bigr => j _ do rewrite hS //.
    by rewrite (mvs n n' (fun j => \sum_(i < m) at_ R i l * at_ G i j) ka (fun k => at_ S' k l')); apply: eq_bigr => k _; rewrite e.
congr (_ + _ + _).
- under [RHS]eq_bigr => k _ do rewrite hA //.
  rewrite (mv n' n (fun k => at_ S' k l) (fun k j => ka j k)); apply: eq_bigr => j _; rewrite hS //; congr (_ *: _); apply: eq_bigr => k _; exact: mulrC.
- under eq_bigr => i _ do rewrite hX //.
  rewrite (mv m m' (fun i => \sum_(j < n) at_ S j l * at_ G i j) la (fun h => nth 0 X' h)); apply: eq_bigr => h _; congr (_ *: _).
  under [RHS]eq_bigr => k _ do rewrite hG // mulr_sumr.
  rewrite exchange_big; apply: eq_bigr => i _ /=.
  under [RHS]eq_bigr => k _ do rewrite mulr_sumr.
  rewrite exchange_big mulr_suml; apply: eq_bigr => j _ /=; rewrite hS // !mulr_suml; apply: eq_bigr => k _.
  by rewrite [LHS]mulrC [RHS]mulrC -!mulrA; congr (_ * _); rewrite [RHS]mulrC -mulrA.
Qed.

Section Bilinear.
Hypothesis hb : bilinear E.
Let fb : bilin (@pairT E : Com1 E -> Com2 E -> ComT E) := comT_pairing_bilin hb.

Lemma moveL m m' (la : nat -> nat -> Fr E) (c' : nat -> Com1 E) (d : nat -> Com2 E) :
  \sum_(i < m) pairT (\sum_(h < m') la i h *: c' h) (d i) = \sum_(h < m') pairT (c' h) (\sum_(i < m) la i h *: d i).
Proof.
under eq_bigr => i _ do rewrite (bil_suml fb).
under [RHS]eq_bigr => h _ do rewrite (bil_sumr fb).
by rewrite exchange_big; apply: eq_bigr => h _; apply: eq_bigr => i _; rewrite (bilZl fb) (bilZr fb).
Qed.

Lemma vv_subst m n m' n' A A' B B' G G' p p' t crs pf kx ky la ka :
  size (coms (xcoms p)) = m -> size (coms (ycoms p)) = n -> size (coms (xcoms p')) = m' -> size (coms (ycoms p')) = n' ->
  (forall i, (i < m)%N -> nth 0 (coms (xcoms p)) i = \sum_(h < m') la i h *: nth 0 (coms (xcoms p')) h) ->
  (forall j, (j < n)%N -> nth 0 (coms (ycoms p)) j = \sum_(k < n') ka j k *: nth 0 (coms (ycoms p')) k) ->
  (forall k, (k < n')%N -> nth 0 A' k = \sum_(j < n) ka j k *: nth 0 A j) ->
  (forall h, (h < m')%N -> nth 0 B' h = \sum_(i < m) la i h *: nth 0 B i) ->
  (forall h k, (h < m')%N -> (k < n')%N -> at_ G' h k = \sum_(i < m) \sum_(j < n) la i h * at_ G i j * ka j k) ->
  verify_value (E := E) A B G p t crs pf kx ky = verify_value A' B' G' p' t crs pf kx ky.
Proof.
move=> s1 s2 s3 s4 hc hd hA hB hG; rewrite /verify_value s1 s2 s3 s4; congr (_ + _ + _ == _).
- under eq_bigr => j _ do rewrite hd //.
  under [RHS]eq_bigr => k _ do rewrite hA //.
  by rewrite (moveL n' n (fun k j => ka j k) (fun j => nth 0 A j)).
- under eq_bigr => i _ do rewrite hc //.
  under [RHS]eq_bigr => h _ do rewrite hB //.
  by rewrite (moveL m m' la (fun h => nth 0 (coms (xcoms p')) h)).
- under eq_bigr => i _ do rewrite hc //.
  rewrite (moveL m m' la (fun h => nth 0 (coms (xcoms p')) h) (fun i => \sum_(j < n) at_ G i j *: nth 0 (coms (ycoms p)) j)).
  apply: eq_bigr => h _; congr pairT; rewrite (mv m n (fun i => la i h) (at_ G) (fun j => nth 0 (coms (ycoms p)) j)).
  under eq_bigr => j _ do rewrite hd //.
  rewrite (mv n n' (fun j => \sum_(i < m) la i h * at_ G i j) ka (fun k => nth 0 (coms (ycoms p')) k)); apply: eq_bigr => k _; congr (_ *: _).
  by rewrite hG // exchange_big; apply: eq_bigr => j _; rewrite mulr_suml.
Qed.
(* images *)
Lemma i1_sum n (f : nat -> Fr E) (a : nat -> G1 E) : i1 (\sum_(j < n) f j *: a j) = \sum_(j < n) f j *: i1 (a j) :> Com1 E.
Proof. by elim: n => [|n ih]; rewrite ?big_ord0 // !big_ord_recr /= -ih; congr pair; rewrite /= scaler0 addr0. Qed.
Lemma i2_sum n (f : nat -> Fr E) (a : nat -> G2 E) : i2 (\sum_(j < n) f j *: a j) = \sum_(j < n) f j *: i2 (a j) :> Com2 E.
Proof. by elim: n => [|n ih]; rewrite ?big_ord0 // !big_ord_recr /= -ih; congr pair; rewrite /= scaler0 addr0. Qed.
Lemma k1_sum crs n (f a : nat -> Fr E) : k1 crs (\sum_(j < n) f j * a j) = \sum_(j < n) f j *: k1 crs (a j).
Proof. by rewrite /k1 scaler_suml; apply: eq_bigr => j _; rewrite scalerA. Qed.
Lemma k2_sum crs n (f a : nat -> Fr E) : k2 crs (\sum_(j < n) f j * a j) = \sum_(j < n) f j *: k2 crs (a j).
Proof. by rewrite /k2 scaler_suml; apply: eq_bigr => j _; rewrite scalerA. Qed.

Lemma dims_subst m n m' n' L K (G : matrix (Fr E)) : dims m' n' (subst_gamma m n m' n' L K G).
Proof. by split; rewrite ?size_mkseq // => i hi; rewrite nth_mkseq // size_mkseq. Qed.
Lemma at_subst m n m' n' L K (G : matrix (Fr E)) h k : (h < m')%N -> (k < n')%N ->
  at_ (subst_gamma m n m' n' L K G) h k = \sum_(i < m) \sum_(j < n) at_ L i h * at_ G i j * at_ K j k.
Proof. by move=> hh hk; rewrite /at_ /mrow /subst_gamma nth_mkseq // nth_mkseq. Qed.
Lemma dims_comb (V : lmodType (Fr E)) k m L (c : commit V) : dims m k (crand (comb_com k m L c)).
Proof. by split; rewrite ?size_mkseq // => i hi; rewrite nth_mkseq // size_mkseq. Qed.
Lemma at_comb (V : lmodType (Fr E)) k m m' L (c : commit V) i l : size (crand c) = m' -> (i < m)%N -> (l < k)%N ->
  at_ (crand (comb_com k m L c)) i l = \sum_(h < m') at_ L i h * at_ (crand c) h l.
Proof. by move=> <- hi hl; rewrite /at_ /mrow /= nth_mkseq // nth_mkseq. Qed.

Lemma k_C62_ppe_subst_verify sch sch' (q : PPE E) m n L K p crs : valid_sched sch -> valid_sched sch' ->
  (0 < m)%N -> (0 < n)%N -> (0 < size (coms (xcoms p)))%N -> (0 < size (coms (ycoms p)))%N -> ppe_wf q m n ->
  ppe_verify sch q (comb_proof 2 2 m n L K p) crs = ppe_verify sch' (subst_ppe (size (coms (xcoms p))) (size (coms (ycoms p))) L K q) p crs.
Proof.
move=> vs vs' hm hn hm' hn' [ea eb eg]; rewrite (ppe_verify_total _ _ _ vs) (ppe_verify_total _ _ _ vs'); case: p hm' hn' => cx cy [|pf [|//]] //=.
set m' := size (coms cx); set n' := size (coms cy) => hm' hn'; set q' := subst_ppe _ _ _ _ _.
have sa : size (ppe_a q') = n' by rewrite size_mkseq.
have sb : size (ppe_b q') = m' by rewrite size_mkseq.
have eg' : dims m' n' (ppe_gamma q') by exact: dims_subst.
have s1 : size (comb m L (coms cx)) = m by rewrite size_mkseq.
have s2 : size (comb n K (coms cy)) = n by rewrite size_mkseq.
have -> : ppe_verify_checks q (size (comb m L (coms cx))) (size (comb n K (coms cy))) pf crs = ppe_verify_checks q' m' n' pf crs.
  by rewrite s1 s2 /ppe_verify_checks !PadProps.gamma_ok // /nilp ?sa ?sb ?eb ?ea !eqxx ?(gtn_eqF hm) ?(gtn_eqF hn) ?(gtn_eqF hm') ?(gtn_eqF hn').
congr checked; apply: (@vv_subst m n m' n' _ _ _ _ _ _ (comb_proof 2 2 m n L K (mkCProof cx cy [:: pf])) (mkCProof cx cy [:: pf]) _ _ _ _ _ (at_ L) (at_ K)) => //.
- by move=> i hi; rewrite [LHS]nth_mkseq.
- by move=> i hi; rewrite [LHS]nth_mkseq.
- move=> k hk; rewrite (nth_map 0) ?sa // nth_mkseq // (i1_sum _ (fun j => entry K j k) (fun j => nth 0 (ppe_a q) j)) ea; apply: eq_bigr => j _; by rewrite (nth_map 0) ?ea.
- move=> h hh; rewrite (nth_map 0) ?sb // nth_mkseq // (i2_sum _ (fun i => entry L i h) (fun i => nth 0 (ppe_b q) i)) eb; apply: eq_bigr => j _; by rewrite (nth_map 0) ?eb.
- by move=> h k hh hk; rewrite at_subst // eb ea.
Qed.

Lemma k_C62_ms1_subst_verify sch sch' (q : MSMEG1 E) m n L K p crs : valid_sched sch -> valid_sched sch' ->
  (0 < m)%N -> (0 < n)%N -> (0 < size (coms (xcoms p)))%N -> (0 < size (coms (ycoms p)))%N -> ms1_wf q m n ->
  ms1_verify sch q (comb_proof 2 1 m n L K p) crs = ms1_verify sch' (subst_ms1 (size (coms (xcoms p))) (size (coms (ycoms p))) L K q) p crs.
Proof.
move=> vs vs' hm hn hm' hn' [ea eb eg]; rewrite (ms1_verify_total _ _ _ vs) (ms1_verify_total _ _ _ vs'); case: p hm' hn' => cx cy [|pf [|//]] //=.
set m' := size (coms cx); set n' := size (coms cy) => hm' hn'; set q' := subst_ms1 _ _ _ _ _.
have sa : size (ms1_a q') = n' by rewrite size_mkseq.
have sb : size (ms1_b q') = m' by rewrite size_mkseq.
have eg' : dims m' n' (ms1_gamma q') by exact: dims_subst.
have s1 : size (comb m L (coms cx)) = m by rewrite size_mkseq.
have s2 : size (comb n K (coms cy)) = n by rewrite size_mkseq.
have -> : ms1_verify_checks q (size (comb m L (coms cx))) (size (comb n K (coms cy))) pf crs = ms1_verify_checks q' m' n' pf crs.
  by rewrite s1 s2 /ms1_verify_checks !PadProps.gamma_ok // /nilp ?sa ?sb ?eb ?ea !eqxx ?(gtn_eqF hm) ?(gtn_eqF hn) ?(gtn_eqF hm') ?(gtn_eqF hn').
congr checked; apply: (@vv_subst m n m' n' _ _ _ _ _ _ (comb_proof 2 1 m n L K (mkCProof cx cy [:: pf])) (mkCProof cx cy [:: pf]) _ _ _ _ _ (at_ L) (at_ K)) => //.
- by move=> i hi; rewrite [LHS]nth_mkseq.
- by move=> i hi; rewrite [LHS]nth_mkseq.
- move=> k hk; rewrite (nth_map 0) ?sa // nth_mkseq // (i1_sum _ (fun j => entry K j k) (fun j => nth 0 (ms1_a q) j)) ea; apply: eq_bigr => j _; by rewrite (nth_map 0) ?ea.
- move=> h hh; rewrite (nth_map 0) ?sb // nth_mkseq // (k2_sum crs _ (fun i => entry L i h) (fun i => nth 0 (ms1_b q) i)) eb; apply: eq_bigr => j _; by rewrite (nth_map 0) ?eb.
- by move=> h k hh hk; rewrite at_subst // eb ea.
Qed.

Lemma k_C62_ms2_subst_verify sch sch' (q : MSMEG2 E) m n L K p crs : valid_sched sch -> valid_sched sch' ->
  (0 < m)%N -> (0 < n)%N -> (0 < size (coms (xcoms p)))%N -> (0 < size (coms (ycoms p)))%N -> ms2_wf q m n ->
  ms2_verify sch q (comb_proof 1 2 m n L K p) crs = ms2_verify sch' (subst_ms2 (size (coms (xcoms p))) (size (coms (ycoms p))) L K q) p crs.
Proof.
move=> vs vs' hm hn hm' hn' [ea eb eg]; rewrite (ms2_verify_total _ _ _ vs) (ms2_verify_total _ _ _ vs'); case: p hm' hn' => cx cy [|pf [|//]] //=.
set m' := size (coms cx); set n' := size (coms cy) => hm' hn'; set q' := subst_ms2 _ _ _ _ _.
have sa : size (ms2_a q') = n' by rewrite size_mkseq.
have sb : size (ms2_b q') = m' by rewrite size_mkseq.
have eg' : dims m' n' (ms2_gamma q') by exact: dims_subst.
have s1 : size (comb m L (coms cx)) = m by rewrite size_mkseq.
have s2 : size (comb n K (coms cy)) = n by rewrite size_mkseq.
have -> : ms2_verify_checks q (size (comb m L (coms cx))) (size (comb n K (coms cy))) pf crs = ms2_verify_checks q' m' n' pf crs.
  by rewrite s1 s2 /ms2_verify_checks !PadProps.gamma_ok // /nilp ?sa ?sb ?eb ?ea !eqxx ?(gtn_eqF hm) ?(gtn_eqF hn) ?(gtn_eqF hm') ?(gtn_eqF hn').
congr checked; apply: (@vv_subst m n m' n' _ _ _ _ _ _ (comb_proof 1 2 m n L K (mkCProof cx cy [:: pf])) (mkCProof cx cy [:: pf]) _ _ _ _ _ (at_ L) (at_ K)) => //.
- by move=> i hi; rewrite [LHS]nth_mkseq.
- by move=> i hi; rewrite [LHS]nth_mkseq.
- move=> k hk; rewrite (nth_map 0) ?sa // nth_mkseq // (k1_sum crs _ (fun j => entry K j k) (fun j => nth 0 (ms2_a q) j)) ea; apply: eq_bigr => j _; by rewrite (nth_map 0) ?ea.
- move=> h hh; rewrite (nth_map 0) ?sb // nth_mkseq // (i2_sum _ (fun i => entry L i h) (fun i => nth 0 (ms2_b q) i)) eb; apply: eq_bigr => j _; by rewrite (nth_map 0) ?eb.
- by move=> h k hh hk; rewrite at_subst // eb ea.
Qed.

Lemma k_C62_quad_subst_verify sch sch' (q : QuadEqu E) m n L K p crs : valid_sched sch -> valid_sched sch' ->
  (0 < m)%N -> (0 < n)%N -> (0 < size (coms (xcoms p)))%N -> (0 < size (coms (ycoms p)))%N -> quad_wf q m n ->
  quad_verify sch q (comb_proof 1 1 m n L K p) crs = quad_verify sch' (subst_quad (size (coms (xcoms p))) (size (coms (ycoms p))) L K q) p crs.
Proof.
move=> vs vs' hm hn hm' hn' [ea eb eg]; rewrite (quad_verify_total _ _ _ vs) (quad_verify_total _ _ _ vs'); case: p hm' hn' => cx cy [|pf [|//]] //=.
set m' := size (coms cx); set n' := size (coms cy) => hm' hn'; set q' := subst_quad _ _ _ _ _.
have sa : size (quad_a q') = n' by rewrite size_mkseq.
have sb : size (quad_b q') = m' by rewrite size_mkseq.
have eg' : dims m' n' (quad_gamma q') by exact: dims_subst.
have s1 : size (comb m L (coms cx)) = m by rewrite size_mkseq.
have s2 : size (comb n K (coms cy)) = n by rewrite size_mkseq.
have -> : quad_verify_checks q (size (comb m L (coms cx))) (size (comb n K (coms cy))) pf crs = quad_verify_checks q' m' n' pf crs.
  by rewrite s1 s2 /quad_verify_checks !PadProps.gamma_ok // /nilp ?sa ?sb ?eb ?ea !eqxx ?(gtn_eqF hm) ?(gtn_eqF hn) ?(gtn_eqF hm') ?(gtn_eqF hn').
congr checked; apply: (@vv_subst m n m' n' _ _ _ _ _ _ (comb_proof 1 1 m n L K (mkCProof cx cy [:: pf])) (mkCProof cx cy [:: pf]) _ _ _ _ _ (at_ L) (at_ K)) => //.
- by move=> i hi; rewrite [LHS]nth_mkseq.
- by move=> i hi; rewrite [LHS]nth_mkseq.
- move=> k hk; rewrite (nth_map 0) ?sa // nth_mkseq // (k1_sum crs _ (fun j => entry K j k) (fun j => nth 0 (quad_a q) j)) ea; apply: eq_bigr => j _; by rewrite (nth_map 0) ?ea.
- move=> h hh; rewrite (nth_map 0) ?sb // nth_mkseq // (k2_sum crs _ (fun i => entry L i h) (fun i => nth 0 (quad_b q) i)) eb; apply: eq_bigr => j _; by rewrite (nth_map 0) ?eb.
- by move=> h k hh hk; rewrite at_subst // eb ea.
Qed.
End Bilinear.

Lemma k_C62_ppe_subst_prove (R : rng E) sch sch' (q : PPE E) m n L K (X : seq (G1 E)) (Y : seq (G2 E)) cx cy crs (s : rst R) : valid_sched sch -> valid_sched sch' -> two_keys crs ->
  (0 < m)%N -> (0 < n)%N -> (0 < size X)%N -> (0 < size Y)%N -> ppe_wf q m n -> dims (size X) 2 (crand cx) -> dims (size Y) 2 (crand cy) ->
  ppe_prove sch q (comb m L X) (comb n K Y) (comb_com 2 m L cx) (comb_com 2 n K cy) crs s = ppe_prove sch' (subst_ppe (size X) (size Y) L K q) X Y cx cy crs s.
Proof.
move=> vs vs' [hu hv] hm hn hx hy [ea eb eg] dx dy; set q' := subst_ppe _ _ _ _ _.
have sa : size (ppe_a q') = size Y by rewrite size_mkseq.
have sb : size (ppe_b q') = size X by rewrite size_mkseq.
have eg' : dims (size X) (size Y) (ppe_gamma q') by exact: dims_subst.
have s1 : size (comb m L X) = m by rewrite size_mkseq.
have s2 : size (comb n K Y) = n by rewrite size_mkseq.
have i1' : isok (ppe_prove sch q (comb m L X) (comb n K Y) (comb_com 2 m L cx) (comb_com 2 n K cy) crs s).
  by rewrite (isok_ppe_prove vs) hu hv ?eqxx ?andbT s1 s2; apply: Main.prove_shapeI => //; apply/Complete.dims_rect; exact: dims_comb.
have i2' : isok (ppe_prove sch' q' X Y cx cy crs s).
  by rewrite (isok_ppe_prove vs') hu hv ?eqxx ?andbT; apply: Main.prove_shapeI => //; exact/Complete.dims_rect.
rewrite (FormulaProps.ppe_prove_total _ _ _ _ _ _ _ vs) in i1' *; rewrite (FormulaProps.ppe_prove_total _ _ _ _ _ _ _ vs') in i2' *.
rewrite (checked_val i1') (checked_val i2') s1 s2; congr (Ok (_, _)); apply: (@pv_subst _ _ _ _ _ _ _ _ _ _ _ _ _ _ _ _ _ _ _ _ _ _ _ (at_ L) (at_ K)).
- move=> i hi; rewrite (nth_map 0) ?s1 // nth_mkseq // (i1_sum _ (fun h => entry L i h) (fun h => nth 0 X h)); apply: eq_bigr => j _; by rewrite (nth_map 0).
- move=> i hi; rewrite (nth_map 0) ?s2 // nth_mkseq // (i2_sum _ (fun h => entry K i h) (fun h => nth 0 Y h)); apply: eq_bigr => j _; by rewrite (nth_map 0).
- move=> k hk; rewrite (nth_map 0) ?sa // nth_mkseq // (i1_sum _ (fun j => entry K j k) (fun j => nth 0 (ppe_a q) j)) ea; apply: eq_bigr => j _; by rewrite (nth_map 0) ?ea.
- move=> h hh; rewrite (nth_map 0) ?sb // nth_mkseq // (i2_sum _ (fun i => entry L i h) (fun i => nth 0 (ppe_b q) i)) eb; apply: eq_bigr => j _; by rewrite (nth_map 0) ?eb.
- by move=> h k hh hk; rewrite at_subst // eb ea.
- by move=> i l hi hl; apply: at_comb => //; exact: dx.1.
- by move=> i l hi hl; apply: at_comb => //; exact: dy.1.
Qed.

Lemma k_C62_ms1_subst_prove (R : rng E) sch sch' (q : MSMEG1 E) m n L K (X : seq (G1 E)) (Y : seq (Fr E)) cx cy crs (s : rst R) : valid_sched sch -> valid_sched sch' -> two_keys crs ->
  (0 < m)%N -> (0 < n)%N -> (0 < size X)%N -> (0 < size Y)%N -> ms1_wf q m n -> dims (size X) 2 (crand cx) -> dims (size Y) 1 (crand cy) ->
  ms1_prove sch q (comb m L X) (combs n K Y) (comb_com 2 m L cx) (comb_com 1 n K cy) crs s = ms1_prove sch' (subst_ms1 (size X) (size Y) L K q) X Y cx cy crs s.
Proof.
move=> vs vs' [hu hv] hm hn hx hy [ea eb eg] dx dy; set q' := subst_ms1 _ _ _ _ _.
have sa : size (ms1_a q') = size Y by rewrite size_mkseq.
have sb : size (ms1_b q') = size X by rewrite size_mkseq.
have eg' : dims (size X) (size Y) (ms1_gamma q') by exact: dims_subst.
have s1 : size (comb m L X) = m by rewrite size_mkseq.
have s2 : size (combs n K Y) = n by rewrite size_mkseq.
have i1' : isok (ms1_prove sch q (comb m L X) (combs n K Y) (comb_com 2 m L cx) (comb_com 1 n K cy) crs s).
  by rewrite (isok_ms1_prove vs) hu hv ?eqxx ?andbT s1 s2; apply: Main.prove_shapeI => //; apply/Complete.dims_rect; exact: dims_comb.
have i2' : isok (ms1_prove sch' q' X Y cx cy crs s).
  by rewrite (isok_ms1_prove vs') hu hv ?eqxx ?andbT; apply: Main.prove_shapeI => //; exact/Complete.dims_rect.
rewrite (FormulaProps.ms1_prove_total _ _ _ _ _ _ _ vs) in i1' *; rewrite (FormulaProps.ms1_prove_total _ _ _ _ _ _ _ vs') in i2' *.
rewrite (checked_val i1') (checked_val i2') s1 s2; congr (Ok (_, _)); apply: (@pv_subst _ _ _ _ _ _ _ _ _ _ _ _ _ _ _ _ _ _ _ _ _ _ _ (at_ L) (at_ K)).
- move=> i hi; rewrite (nth_map 0) ?s1 // nth_mkseq // (i1_sum _ (fun h => entry L i h) (fun h => nth 0 X h)); apply: eq_bigr => j _; by rewrite (nth_map 0).
- move=> i hi; rewrite (nth_map 0) ?s2 // nth_mkseq // (k2_sum crs _ (fun h => entry K i h) (fun h => nth 0 Y h)); apply: eq_bigr => j _; by rewrite (nth_map 0).
- move=> k hk; rewrite (nth_map 0) ?sa // nth_mkseq // (i1_sum _ (fun j => entry K j k) (fun j => nth 0 (ms1_a q) j)) ea; apply: eq_bigr => j _; by rewrite (nth_map 0) ?ea.
- move=> h hh; rewrite (nth_map 0) ?sb // nth_mkseq // (k2_sum crs _ (fun i => entry L i h) (fun i => nth 0 (ms1_b q) i)) eb; apply: eq_bigr => j _; by rewrite (nth_map 0) ?eb.
- by move=> h k hh hk; rewrite at_subst // eb ea.
- by move=> i l hi hl; apply: at_comb => //; exact: dx.1.
- by move=> i l hi hl; apply: at_comb => //; exact: dy.1.
Qed.

Lemma k_C62_ms2_subst_prove (R : rng E) sch sch' (q : MSMEG2 E) m n L K (X : seq (Fr E)) (Y : seq (G2 E)) cx cy crs (s : rst R) : valid_sched sch -> valid_sched sch' -> two_keys crs ->
  (0 < m)%N -> (0 < n)%N -> (0 < size X)%N -> (0 < size Y)%N -> ms2_wf q m n -> dims (size X) 1 (crand cx) -> dims (size Y) 2 (crand cy) ->
  ms2_prove sch q (combs m L X) (comb n K Y) (comb_com 1 m L cx) (comb_com 2 n K cy) crs s = ms2_prove sch' (subst_ms2 (size X) (size Y) L K q) X Y cx cy crs s.
Proof.
move=> vs vs' [hu hv] hm hn hx hy [ea eb eg] dx dy; set q' := subst_ms2 _ _ _ _ _.
have sa : size (ms2_a q') = size Y by rewrite size_mkseq.
have sb : size (ms2_b q') = size X by rewrite size_mkseq.
have eg' : dims (size X) (size Y) (ms2_gamma q') by exact: dims_subst.
have s1 : size (combs m L X) = m by rewrite size_mkseq.
have s2 : size (comb n K Y) = n by rewrite size_mkseq.
have i1' : isok (ms2_prove sch q (combs m L X) (comb n K Y) (comb_com 1 m L cx) (comb_com 2 n K cy) crs s).
  by rewrite (isok_ms2_prove vs) hu hv ?eqxx ?andbT s1 s2; apply: Main.prove_shapeI => //; apply/Complete.dims_rect; exact: dims_comb.
have i2' : isok (ms2_prove sch' q' X Y cx cy crs s).
  by rewrite (isok_ms2_prove vs') hu hv ?eqxx ?andbT; apply: Main.prove_shapeI => //; exact/Complete.dims_rect.
rewrite (FormulaProps.ms2_prove_total _ _ _ _ _ _ _ vs) in i1' *; rewrite (FormulaProps.ms2_prove_total _ _ _ _ _ _ _ vs') in i2' *.
rewrite (checked_val i1') (checked_val i2') s1 s2; congr (Ok (_, _)); apply: (@pv_subst _ _ _ _ _ _ _ _ _ _ _ _ _ _ _ _ _ _ _ _ _ _ _ (at_ L) (at_ K)).
- move=> i hi; rewrite (nth_map 0) ?s1 // nth_mkseq // (k1_sum crs _ (fun h => entry L i h) (fun h => nth 0 X h)); apply: eq_bigr => j _; by rewrite (nth_map 0).
- move=> i hi; rewrite (nth_map 0) ?s2 // nth_mkseq // (i2_sum _ (fun h => entry K i h) (fun h => nth 0 Y h)); apply: eq_bigr => j _; by rewrite (nth_map 0).
- move=> k hk; rewrite (nth_map 0) ?sa // nth_mkseq // (k1_sum crs _ (fun j => entry K j k) (fun j => nth 0 (ms2_a q) j)) ea; apply: eq_bigr => j _; by rewrite (nth_map 0) ?ea.
- move=> h hh; rewrite (nth_map 0) ?sb // nth_mkseq // (i2_sum _ (fun i => entry L i h) (fun i => nth 0 (ms2_b q) i)) eb; apply: eq_bigr => j _; by rewrite (nth_map 0) ?eb.
- by move=> h k hh hk; rewrite at_subst // eb ea.
- by move=> i l hi hl; apply: at_comb => //; exact: dx.1.
- by move=> i l hi hl; apply: at_comb => //; exact: dy.1.
Qed.

Lemma k_C62_quad_subst_prove (R : rng E) sch sch' (q : QuadEqu E) m n L K (X : seq (Fr E)) (Y : seq (Fr E)) cx cy crs (s : rst R) : valid_sched sch -> valid_sched sch' -> two_keys crs ->
  (0 < m)%N -> (0 < n)%N -> (0 < size X)%N -> (0 < size Y)%N -> quad_wf q m n -> dims (size X) 1 (crand cx) -> dims (size Y) 1 (crand cy) ->
  quad_prove sch q (combs m L X) (combs n K Y) (comb_com 1 m L cx) (comb_com 1 n K cy) crs s = quad_prove sch' (subst_quad (size X) (size Y) L K q) X Y cx cy crs s.
Proof.
move=> vs vs' [hu hv] hm hn hx hy [ea eb eg] dx dy; set q' := subst_quad _ _ _ _ _.
have sa : size (quad_a q') = size Y by rewrite size_mkseq.
have sb : size (quad_b q') = size X by rewrite size_mkseq.
have eg' : dims (size X) (size Y) (quad_gamma q') by exact: dims_subst.
have s1 : size (combs m L X) = m by rewrite size_mkseq.
have s2 : size (combs n K Y) = n by rewrite size_mkseq.
have i1' : isok (quad_prove sch q (combs m L X) (combs n K Y) (comb_com 1 m L cx) (comb_com 1 n K cy) crs s).
  by rewrite (isok_quad_prove vs) hu hv ?eqxx ?andbT s1 s2; apply: Main.prove_shapeI => //; apply/Complete.dims_rect; exact: dims_comb.
have i2' : isok (quad_prove sch' q' X Y cx cy crs s).
  by rewrite (isok_quad_prove vs') hu hv ?eqxx ?andbT; apply: Main.prove_shapeI => //; exact/Complete.dims_rect.
rewrite (FormulaProps.quad_prove_total _ _ _ _ _ _ _ vs) in i1' *; rewrite (FormulaProps.quad_prove_total _ _ _ _ _ _ _ vs') in i2' *.
rewrite (checked_val i1') (checked_val i2') s1 s2; congr (Ok (_, _)); apply: (@pv_subst _ _ _ _ _ _ _ _ _ _ _ _ _ _ _ _ _ _ _ _ _ _ _ (at_ L) (at_ K)).
- move=> i hi; rewrite (nth_map 0) ?s1 // nth_mkseq // (k1_sum crs _ (fun h => entry L i h) (fun h => nth 0 X h)); apply: eq_bigr => j _; by rewrite (nth_map 0).
- move=> i hi; rewrite (nth_map 0) ?s2 // nth_mkseq // (k2_sum crs _ (fun h => entry K i h) (fun h => nth 0 Y h)); apply: eq_bigr => j _; by rewrite (nth_map 0).
- move=> k hk; rewrite (nth_map 0) ?sa // nth_mkseq // (k1_sum crs _ (fun j => entry K j k) (fun j => nth 0 (quad_a q) j)) ea; apply: eq_bigr => j _; by rewrite (nth_map 0) ?ea.
- move=> h hh; rewrite (nth_map 0) ?sb // nth_mkseq // (k2_sum crs _ (fun i => entry L i h) (fun i => nth 0 (quad_b q) i)) eb; apply: eq_bigr => j _; by rewrite (nth_map 0) ?eb.
- by move=> h k hh hk; rewrite at_subst // eb ea.
- by move=> i l hi hl; apply: at_comb => //; exact: dx.1.
- by move=> i l hi hl; apply: at_comb => //; exact: dy.1.
Qed.
End Subst.
