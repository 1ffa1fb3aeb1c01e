(** Proofs of the statements in P_Mirror.v. *)
From mathcomp Require Import all_ssreflect all_algebra.
From Verif Require Import Base BaseLemmas Group DataStructures MatLemmas CoreAlg ComLemmas Generator Commit Statement Prove Verify Spec SpecMat SpecVerify SpecHide SpecPanic SpecFormula ProveLemmas VerifyLemmas FormulaProps Complete Main ComProps PadProps SpecMirror.
Set Implicit Arguments.
Unset Strict Implicit.
Unset Printing Implicit Defensive.
Import GRing.Theory.
Local Open Scope ring_scope.

Local Arguments gamma_checks : simpl never.
Local Arguments turned : simpl never.

Section Mirror.
Context {E : pairing}.
Local Notation M := (mirror E).
Implicit Types crs : CRS E.

Lemma drawn_mirror (R : rng E) (s : rst R) i : drawn (s : rst (mirror_rng R)) i = drawn s i.
Proof. by []. Qed.

Lemma k_C86_G1_mirror (R : rng E) (X : seq (G1 E)) crs (s : rst R) :
  batch_commit_G1 X crs s = batch_commit_G2 (E := M) X (mirror_crs crs) (s : rst (mirror_rng R)).
Proof. by rewrite batch_commit_G1_total (@batch_commit_G2_total M). Qed.
Lemma k_C86_G2_mirror (R : rng E) (X : seq (G2 E)) crs (s : rst R) :
  batch_commit_G2 X crs s = batch_commit_G1 (E := M) X (mirror_crs crs) (s : rst (mirror_rng R)).
Proof. by rewrite batch_commit_G2_total (@batch_commit_G1_total M). Qed.
Lemma k_C86_B1_mirror (R : rng E) (X : seq (Fr E)) crs (s : rst R) :
  batch_commit_scalar_to_B1 X crs s = batch_commit_scalar_to_B2 (E := M) X (mirror_crs crs) (s : rst (mirror_rng R)).
Proof. by rewrite batch_commit_scalar_to_B1_total (@batch_commit_scalar_to_B2_total M). Qed.
Lemma k_C86_B2_mirror (R : rng E) (X : seq (Fr E)) crs (s : rst R) :
  batch_commit_scalar_to_B2 X crs s = batch_commit_scalar_to_B1 (E := M) X (mirror_crs crs) (s : rst (mirror_rng R)).
Proof. by rewrite batch_commit_scalar_to_B2_total (@batch_commit_scalar_to_B1_total M). Qed.

Lemma entry_turned m n (G : matrix (Fr E)) i j : (i < m)%N -> (j < n)%N -> entry (E := M) (turned m n G) j i = entry G i j.
Proof. by move=> hi hj; rewrite /entry /turned nth_mkseq // nth_mkseq. Qed.
Lemma at_entry (G : matrix (Fr E)) i j : at_ G i j = entry G i j.
Proof. by []. Qed.

Lemma k_C86_ppe_mirror_holds (q : PPE E) X Y : ppe_wf q (size X) (size Y) ->
  (ppe_holds q X Y <-> ppe_holds (mirror_ppe q) Y X).
Proof.
case=> ea eb _; rewrite /ppe_holds /= ea eb [X in _ <-> X + _ = _]addrC exchange_big.
suff -> : \sum_(j < size Y) \sum_(i < size X) entry (ppe_gamma q) i j *: pair_e (nth 0 X i) (nth 0 Y j)
  = \sum_(j < size Y) \sum_(i < size X) entry (E := M) (turned (size X) (size Y) (ppe_gamma q)) j i *: pair_e (nth 0 X i) (nth 0 Y j) by [].
by apply: eq_bigr => j _; apply: eq_bigr => i _; rewrite entry_turned.
Qed.
Lemma k_C86_ms1_mirror_holds (q : MSMEG1 E) X Y : ms1_wf q (size X) (size Y) ->
  (ms1_holds q X Y <-> ms2_holds (mirror_ms1 q) Y X).
Proof.
case=> ea eb _; rewrite /ms1_holds /ms2_holds /= ea eb [X in _ <-> X + _ = _]addrC exchange_big.
suff -> : \sum_(j < size Y) \sum_(i < size X) (entry (ms1_gamma q) i j * nth 0 Y j) *: nth 0 X i
  = \sum_(j < size Y) \sum_(i < size X) (entry (E := M) (turned (size X) (size Y) (ms1_gamma q)) j i * nth 0 Y j) *: nth 0 X i by [].
by apply: eq_bigr => j _; apply: eq_bigr => i _; rewrite entry_turned.
Qed.
Lemma k_C86_ms2_mirror_holds (q : MSMEG2 E) X Y : ms2_wf q (size X) (size Y) ->
  (ms2_holds q X Y <-> ms1_holds (mirror_ms2 q) Y X).
Proof.
case=> ea eb _; rewrite /ms1_holds /ms2_holds /= ea eb [X in _ <-> X + _ = _]addrC exchange_big.
suff -> : \sum_(j < size Y) \sum_(i < size X) (entry (ms2_gamma q) i j * nth 0 X i) *: nth 0 Y j
  = \sum_(j < size Y) \sum_(i < size X) (entry (E := M) (turned (size X) (size Y) (ms2_gamma q)) j i * nth 0 X i) *: nth 0 Y j by [].
by apply: eq_bigr => j _; apply: eq_bigr => i _; rewrite entry_turned.
Qed.
Lemma k_C86_quad_mirror_holds (q : QuadEqu E) X Y : quad_wf q (size X) (size Y) ->
  (quad_holds q X Y <-> quad_holds (mirror_quad q) Y X).
Proof.
case=> ea eb _; rewrite /quad_holds /= ea eb [X in _ <-> X + _ = _]addrC exchange_big.
suff -> : \sum_(j < size Y) \sum_(i < size X) entry (quad_gamma q) i j * nth 0 X i * nth 0 Y j
  = \sum_(j < size Y) \sum_(i < size X) entry (E := M) (turned (size X) (size Y) (quad_gamma q)) j i * nth 0 Y j * nth 0 X i.
  have -> : \sum_(j < size Y) nth 0 (quad_a q) j * nth 0 Y j = \sum_(j < size Y) nth 0 Y j * nth 0 (quad_a q) j by apply: eq_bigr => j _; rewrite mulrC.
  by have -> : \sum_(j < size X) nth 0 X j * nth 0 (quad_b q) j = \sum_(j < size X) nth 0 (quad_b q) j * nth 0 X j by apply: eq_bigr => j _; rewrite mulrC.
by apply: eq_bigr => j _; apply: eq_bigr => i _; rewrite entry_turned // mulrAC.
Qed.

Lemma k_C86_binding_mirror crs a1 a2 t1 t2 : binding_crs_with crs a1 a2 t1 t2 <-> binding_crs_with (mirror_crs crs) a2 a1 t2 t1.
Proof. by split=> -[h1 h2 h3]; split. Qed.
Lemma k_C86_hiding_mirror crs a1 a2 t1 t2 : hiding_crs_with crs a1 a2 t1 t2 <-> hiding_crs_with (mirror_crs crs) a2 a1 t2 t1.
Proof. by split=> -[h1 h2 h3]; split. Qed.

(** ** Verification *)
Definition tr (t : ComT E) : ComT E := ((t.1.1, t.2.1), (t.1.2, t.2.2)).
Lemma trK t : tr (tr t) = t. Proof. by case: t => -[a b] [c d]. Qed.
Lemma trD t t' : tr (t + t') = tr t + tr t'. Proof. by []. Qed.
Lemma tr_sum n (f : 'I_n -> ComT E) : tr (\sum_(i < n) f i) = \sum_(i < n) tr (f i).
Proof. by elim/big_ind2: _ => [|x x' y y' <- <-|//]. Qed.
Lemma tr_inj t t' : tr t = tr t' <-> t = t'.
Proof. by split=> [/(congr1 tr)|->//]; rewrite !trK. Qed.
Lemma tr_pairT (x : Com1 E) (y : Com2 E) : tr (pairT x y) = pairT (E := M) y x.
Proof. by []. Qed.

Lemma mirror_bilinear : bilinear E -> bilinear M.
Proof. by case=> h1 h2 h3 h4; split=> *; [exact: h2 | exact: h1 | exact: h4 | exact: h3]. Qed.

Lemma dims_turned m n (G : matrix (Fr E)) : dims n m (turned m n G).
Proof. by split=> [|j hj]; rewrite ?size_mkseq // nth_mkseq // size_mkseq. Qed.

Lemma turned_ok m n : (0 < m)%N -> (0 < n)%N -> forall G, all (fun c : check => c.1) (gamma_checks (E := M) (turned m n G) n m).
Proof. by move=> hm hn G; rewrite (PadProps.gamma_ok (E := M) hn hm (dims_turned m n G)). Qed.

Section Bilinear.
Hypothesis hb : bilinear E.
Let fb : bilin (@pairT E : Com1 E -> Com2 E -> ComT E) := comT_pairing_bilin hb.
Let fm : bilin (@pairT M : Com1 M -> Com2 M -> ComT M) := comT_pairing_bilin (mirror_bilinear hb).

Lemma vv_mirror A B G p t crs pf kx ky :
  verify_value A B G p t crs pf kx ky =
  verify_value (E := M) B A (turned (size (coms (xcoms p))) (size (coms (ycoms p))) G) (mirror_proof p) (tr t) (mirror_crs crs) (mirror_pf pf) ky kx.
Proof.
have e (x y x' y' : ComT E) : tr x = x' -> tr y = y' -> (x == y) = (x' == y').
  by move=> <- <-; apply/eqP/eqP => [->//|/tr_inj].
apply: e => /=; last by rewrite !trD !tr_sum -!addrA; congr (_ + _); rewrite addrC.
rewrite !trD !tr_sum; congr (_ + _); first by rewrite addrC.
transitivity (\sum_(i < size (coms (xcoms p))) \sum_(j < size (coms (ycoms p))) at_ G i j *: pairT (E := M) (nth 0 (coms (ycoms p)) j) (nth 0 (coms (xcoms p)) i)).
  apply: eq_bigr => i _; rewrite (bil_sumr fb) tr_sum; apply: eq_bigr => j _; by rewrite (bilZr fb).
rewrite exchange_big; apply: eq_bigr => j _; rewrite (bil_sumr fm); apply: eq_bigr => i _.
by rewrite (bilZr fm); congr (_ *: _); rewrite [in RHS]/at_ -[RHS]/(entry (E := M) _ _ _) entry_turned.
Qed.

Lemma ok_iff cs cs' (b b' c : bool) : b = b' -> (first_failed cs = None <-> first_failed cs' = None) -> (checked cs b = Ok c <-> checked cs' b' = Ok c).
Proof. by move=> <-; rewrite /checked; case: (first_failed cs) => [x|]; case: (first_failed cs') => [y|] // [h1 h2]; [have := h2 erefl | have := h1 erefl]. Qed.

Lemma ff_and cs : first_failed cs = None <-> all (fun c : check => c.1) cs.
Proof. by elim: cs => //= -[[] x] cs ih. Qed.

Lemma k_C86_ppe_mirror_verify sch sch' (q : PPE E) p crs b : valid_sched sch -> valid_sched sch' ->
  (0 < size (coms (xcoms p)))%N -> (0 < size (coms (ycoms p)))%N -> ppe_wf q (size (coms (xcoms p))) (size (coms (ycoms p))) ->
  (ppe_verify sch q p crs = Ok b <-> ppe_verify sch' (mirror_ppe q) (mirror_proof p) (mirror_crs crs) = Ok b).
Proof.
move=> vs vs' hx hy [ea eb eg]; rewrite (ppe_verify_total _ _ _ vs) (@ppe_verify_total M _ _ _ _ vs').
case: p hx hy ea eb eg => cx cy [|pf [|pf' pfs]] //= hx hy ea eb eg; apply: ok_iff.
  by rewrite vv_mirror /= ea eb.
have := turned_ok hx hy (ppe_gamma q); rewrite !ff_and !all_cat (PadProps.gamma_ok hx hy eg) /= ea eb => ->; rewrite /=.
case: pf => pp th [] rr; rewrite /= ?eqxx ?andbT /= 1?[(size pp == _)]eq_sym //.
by rewrite andbC [_ == size pp]eq_sym [size th == _]eq_sym.
Qed.

Lemma k_C86_ms1_mirror_verify sch sch' (q : MSMEG1 E) p crs b : valid_sched sch -> valid_sched sch' ->
  (0 < size (coms (xcoms p)))%N -> (0 < size (coms (ycoms p)))%N -> ms1_wf q (size (coms (xcoms p))) (size (coms (ycoms p))) ->
  (ms1_verify sch q p crs = Ok b <-> ms2_verify sch' (mirror_ms1 q) (mirror_proof p) (mirror_crs crs) = Ok b).
Proof.
move=> vs vs' hx hy [ea eb eg]; rewrite (ms1_verify_total _ _ _ vs) (@ms2_verify_total M _ _ _ _ vs').
case: p hx hy ea eb eg => cx cy [|pf [|pf' pfs]] //= hx hy ea eb eg; apply: ok_iff.
  by rewrite vv_mirror /= ea eb.
have := turned_ok hx hy (ms1_gamma q); rewrite !ff_and !all_cat (PadProps.gamma_ok hx hy eg) /= ea eb => ->; rewrite /=.
have -> : nilp (ms1_b q) = false by rewrite /nilp eb (gtn_eqF hx).
case: pf => pp th [] rr; rewrite /= ?eqxx ?andbT //=.
by rewrite [size pp == _]eq_sym; case: (1 < _)%N => //=; rewrite andbC.
Qed.

Lemma k_C86_ms2_mirror_verify sch sch' (q : MSMEG2 E) p crs b : valid_sched sch -> valid_sched sch' ->
  (0 < size (coms (xcoms p)))%N -> (0 < size (coms (ycoms p)))%N -> ms2_wf q (size (coms (xcoms p))) (size (coms (ycoms p))) ->
  (ms2_verify sch q p crs = Ok b <-> ms1_verify sch' (mirror_ms2 q) (mirror_proof p) (mirror_crs crs) = Ok b).
Proof.
move=> vs vs' hx hy [ea eb eg]; rewrite (ms2_verify_total _ _ _ vs) (@ms1_verify_total M _ _ _ _ vs').
case: p hx hy ea eb eg => cx cy [|pf [|pf' pfs]] //= hx hy ea eb eg; apply: ok_iff.
  by rewrite vv_mirror /= ea eb.
have := turned_ok hx hy (ms2_gamma q); rewrite !ff_and !all_cat (PadProps.gamma_ok hx hy eg) /= ea eb => ->; rewrite /=.
have -> : nilp (ms2_a q) = false by rewrite /nilp ea (gtn_eqF hy).
case: pf => pp th [] rr; rewrite /= ?eqxx ?andbT //=.
by rewrite [size th == _]eq_sym; case: (1 < _)%N => //=; rewrite andbC.
Qed.

Lemma k_C86_quad_mirror_verify sch sch' (q : QuadEqu E) p crs b : valid_sched sch -> valid_sched sch' ->
  (0 < size (coms (xcoms p)))%N -> (0 < size (coms (ycoms p)))%N -> quad_wf q (size (coms (xcoms p))) (size (coms (ycoms p))) ->
  (quad_verify sch q p crs = Ok b <-> quad_verify sch' (mirror_quad q) (mirror_proof p) (mirror_crs crs) = Ok b).
Proof.
move=> vs vs' hx hy [ea eb eg]; rewrite (quad_verify_total _ _ _ vs) (@quad_verify_total M _ _ _ _ vs').
case: p hx hy ea eb eg => cx cy [|pf [|pf' pfs]] //= hx hy ea eb eg; apply: ok_iff.
  rewrite vv_mirror /= ea eb; congr (verify_value (E := M) _ _ _ _ _ _ _ _ _).
  by rewrite /k2 (bilZr fb) -(bilZl fb) tr_pairT.
have := turned_ok hx hy (quad_gamma q); rewrite !ff_and !all_cat (PadProps.gamma_ok hx hy eg) /= ea eb => ->; rewrite /=.
have -> : nilp (quad_a q) = false by rewrite /nilp ea (gtn_eqF hy).
have -> : nilp (quad_b q) = false by rewrite /nilp eb (gtn_eqF hx).
case: pf => pp th [] rr; rewrite /= ?eqxx ?andbT //=.
by do 2 case: (1 < _)%N => //=; rewrite andbC.
Qed.
End Bilinear.
(** ** Proving *)
Lemma mkext T (f g : nat -> T) n : (forall i, (i < n)%N -> f i = g i) -> mkseq f n = mkseq g n.
Proof. by move=> h; apply/eq_in_map => i; rewrite mem_iota => hi; exact: h. Qed.
Definition cross m n (G R S : matrix (Fr E)) k l : Fr E := \sum_(j < n) (\sum_(i < m) at_ R i k * at_ G i j) * at_ S j l.

Lemma at_turned m n (G : matrix (Fr E)) i j : (i < m)%N -> (j < n)%N -> at_ (turned m n G) j i = at_ G i j.
Proof. exact: entry_turned. Qed.

Lemma pv_mirror m n kx ky A X B Y G R S (T T' : matrix (Fr E)) crs t t' :
  (forall k l, (k < kx)%N -> (l < ky)%N -> at_ T' k l = cross m n G R S k l - at_ T l k) ->
  let f := prove_value m n kx ky A X B Y G R S T crs t in
  let g := prove_value (E := M) n m ky kx B Y A X (turned m n G) S R T' (mirror_crs crs) t' in
  pi f = theta g /\ theta f = pi g.
Proof.
move=> h f g; rewrite /f /g /=; split; apply: mkext => k hk.
  congr (_ + _ + _).
    apply: eq_bigr => j _; congr (_ *: _); apply: eq_bigr => i _; by rewrite at_turned.
  by apply: eq_bigr => l _; rewrite h.
congr (_ + _ + _).
  apply: eq_bigr => i _; congr (_ *: _); apply: eq_bigr => j _; by rewrite at_turned.
apply: eq_bigr => l _; rewrite h //; congr (_ *: _).
suff -> : \sum_(j < m) (\sum_(i < n) at_ S i k * at_ (turned m n G) i j) * at_ R j l = cross m n G R S l k by rewrite opprB addrC subrK.
rewrite /cross; under eq_bigr do rewrite mulr_suml; rewrite exchange_big; apply: eq_bigr => j _; rewrite mulr_suml; apply: eq_bigr => i _.
by rewrite at_turned // mulrAC [_ * at_ R i l]mulrC [RHS]mulrC mulrCA mulrA mulrC mulrA.
Qed.

Lemma draw_nth N (E' : pairing) (R : rng E') (s : rst R) i : (i < N)%N -> nth 0 (draws N s) i = drawn s i.
Proof. by move=> hi; rewrite -(tnth_nth 0 _ (Ordinal hi)) tnth_mktuple. Qed.

Lemma phi_bij N (phi psi : N.-tuple (Fr E) -> N.-tuple (Fr E)) :
  (forall t i, (i < N)%N -> nth 0 (psi (phi t)) i = nth 0 t i) -> (forall t i, (i < N)%N -> nth 0 (phi (psi t)) i = nth 0 t i) -> bijective phi.
Proof.
move=> h1 h2; exists psi => t; apply: val_inj; apply: (@eq_from_nth _ 0) => [|i]; rewrite !size_tuple // => hi; [exact: h1 | exact: h2].
Qed.

Lemma k_C86_ppe_mirror_prove sch sch' (q : PPE E) (X : seq (G1 E)) (Y : seq (G2 E)) (cx : Commit1 E) (cy : Commit2 E) crs : valid_sched sch -> valid_sched sch' ->
  (0 < size X)%N -> (0 < size Y)%N -> ppe_wf q (size X) (size Y) -> two_keys crs ->
  dims (size X) 2 (crand cx) -> dims (size Y) 2 (crand cy) ->
  exists phi : 4.-tuple (Fr E) -> 4.-tuple (Fr E), bijective phi /\
  forall (R : rng E) (R' : rng M) (s : rst R) (z : rst R'), draws 4 z = phi (draws 4 s) ->
  exists p t, seen (fun f => (pi f, theta f)) (ppe_prove sch q X Y cx cy crs s) = Ok (p, t) /\
    seen (fun f => (pi f, theta f)) (ppe_prove (E := M) sch' (mirror_ppe q) Y X cy cx (mirror_crs crs) z) = Ok (t, p).
Proof.
move=> vs vs' hx hy [ea eb eg] [hu hv] dx dy.
pose C := cross (size X) (size Y) (ppe_gamma q) (crand cx) (crand cy).
pose phi (t : 4.-tuple (Fr E)) : 4.-tuple (Fr E) := [tuple C 0%N 0%N - nth 0 t 0; C 0%N 1%N - nth 0 t 2; C 1%N 0%N - nth 0 t 1; C 1%N 1%N - nth 0 t 3].
pose psi (t : 4.-tuple (Fr E)) : 4.-tuple (Fr E) := [tuple C 0%N 0%N - nth 0 t 0; C 1%N 0%N - nth 0 t 2; C 0%N 1%N - nth 0 t 1; C 1%N 1%N - nth 0 t 3].
exists phi; split.
  by apply: (phi_bij (psi := psi)) => t [|[|[|[|//]]]] _ /=; rewrite opprB addrC subrK.
move=> R R' s z hz.
have i1' : isok (ppe_prove sch q X Y cx cy crs s).
  by rewrite (isok_ppe_prove vs) hu hv ?eqxx ?andbT; apply: Main.prove_shapeI => //; apply/Complete.dims_rect.
have i2' : isok (ppe_prove (E := M) sch' (mirror_ppe q) Y X cy cx (mirror_crs crs) z).
  rewrite (isok_ppe_prove (E := M) vs') /= hu hv ?eqxx ?andbT; apply: Main.prove_shapeI => //; [exact/Complete.dims_rect | exact/Complete.dims_rect | by rewrite ea eb; exact: dims_turned].
rewrite (FormulaProps.ppe_prove_total _ _ _ _ _ _ _ vs) in i1' *.
rewrite (FormulaProps.ppe_prove_total (E := M) _ _ _ _ _ _ _ vs') in i2' *.
rewrite (checked_val i1') (checked_val i2') /seen; do 2 eexists; split; first by [].
have hT : forall k l, (k < 2)%N -> (l < 2)%N -> at_ (table 2 2 (fun i j => drawn z (2 * i + j)%N)) k l = C k l - at_ (table 2 2 (fun i j => drawn s (2 * i + j)%N)) l k.
  by move=> [|[|//]] [|[|//]] _ _; rewrite /at_ /= -!(draw_nth (N := 4)) // hz.
have -> : ppe_gamma (mirror_ppe q) = turned (size X) (size Y) (ppe_gamma q) by rewrite /= ea eb.
by have [-> ->] := @pv_mirror (size X) (size Y) 2 2 [seq i1 x | x <- ppe_a q] [seq i1 x | x <- X] [seq i2 y | y <- ppe_b q] [seq i2 y | y <- Y] (ppe_gamma q) (crand cx) (crand cy) _ _ crs PairingProduct PairingProduct hT.
Qed.

Lemma k_C86_ms1_mirror_prove sch sch' (q : MSMEG1 E) (X : seq (G1 E)) (Y : seq (Fr E)) (cx : Commit1 E) (cy : Commit2 E) crs : valid_sched sch -> valid_sched sch' ->
  (0 < size X)%N -> (0 < size Y)%N -> ms1_wf q (size X) (size Y) -> two_keys crs ->
  dims (size X) 2 (crand cx) -> dims (size Y) 1 (crand cy) ->
  exists phi : 2.-tuple (Fr E) -> 2.-tuple (Fr E), bijective phi /\
  forall (R : rng E) (R' : rng M) (s : rst R) (z : rst R'), draws 2 z = phi (draws 2 s) ->
  exists p t, seen (fun f => (pi f, theta f)) (ms1_prove sch q X Y cx cy crs s) = Ok (p, t) /\
    seen (fun f => (pi f, theta f)) (ms2_prove (E := M) sch' (mirror_ms1 q) Y X cy cx (mirror_crs crs) z) = Ok (t, p).
Proof.
move=> vs vs' hx hy [ea eb eg] [hu hv] dx dy.
pose C := cross (size X) (size Y) (ms1_gamma q) (crand cx) (crand cy).
pose phi (t : 2.-tuple (Fr E)) : 2.-tuple (Fr E) := [tuple C 0%N 0%N - nth 0 t 0; C 1%N 0%N - nth 0 t 1].
pose psi (t : 2.-tuple (Fr E)) : 2.-tuple (Fr E) := [tuple C 0%N 0%N - nth 0 t 0; C 1%N 0%N - nth 0 t 1].
exists phi; split.
  by apply: (phi_bij (psi := psi)) => t [|[|//]] _ /=; rewrite opprB addrC subrK.
move=> R R' s z hz.
have i1' : isok (ms1_prove sch q X Y cx cy crs s).
  by rewrite (isok_ms1_prove vs) hu hv ?eqxx ?andbT; apply: Main.prove_shapeI => //; apply/Complete.dims_rect.
have i2' : isok (ms2_prove (E := M) sch' (mirror_ms1 q) Y X cy cx (mirror_crs crs) z).
  rewrite (isok_ms2_prove (E := M) vs') /= hu hv ?eqxx ?andbT; apply: Main.prove_shapeI => //; [exact/Complete.dims_rect | exact/Complete.dims_rect | by rewrite ea eb; exact: dims_turned].
rewrite (FormulaProps.ms1_prove_total _ _ _ _ _ _ _ vs) in i1' *.
rewrite (FormulaProps.ms2_prove_total (E := M) _ _ _ _ _ _ _ vs') in i2' *.
rewrite (checked_val i1') (checked_val i2') /seen; do 2 eexists; split; first by [].
have hT : forall k l, (k < 2)%N -> (l < 1)%N -> at_ (table 2 1 (fun i j => drawn z i)) k l = C k l - at_ (table 1 2 (fun i j => drawn s j)) l k.
  by move=> [|[|//]] [|//] _ _; rewrite /at_ /= -!(draw_nth (N := 2)) // hz.
have -> : ms2_gamma (mirror_ms1 q) = turned (size X) (size Y) (ms1_gamma q) by rewrite /= ea eb.
by have [-> ->] := @pv_mirror (size X) (size Y) 2 1 [seq i1 x | x <- ms1_a q] [seq i1 x | x <- X] [seq k2 crs y | y <- ms1_b q] [seq k2 crs y | y <- Y] (ms1_gamma q) (crand cx) (crand cy) _ _ crs MultiScalarG1 MultiScalarG2 hT.
Qed.

Lemma k_C86_ms2_mirror_prove sch sch' (q : MSMEG2 E) (X : seq (Fr E)) (Y : seq (G2 E)) (cx : Commit1 E) (cy : Commit2 E) crs : valid_sched sch -> valid_sched sch' ->
  (0 < size X)%N -> (0 < size Y)%N -> ms2_wf q (size X) (size Y) -> two_keys crs ->
  dims (size X) 1 (crand cx) -> dims (size Y) 2 (crand cy) ->
  exists phi : 2.-tuple (Fr E) -> 2.-tuple (Fr E), bijective phi /\
  forall (R : rng E) (R' : rng M) (s : rst R) (z : rst R'), draws 2 z = phi (draws 2 s) ->
  exists p t, seen (fun f => (pi f, theta f)) (ms2_prove sch q X Y cx cy crs s) = Ok (p, t) /\
    seen (fun f => (pi f, theta f)) (ms1_prove (E := M) sch' (mirror_ms2 q) Y X cy cx (mirror_crs crs) z) = Ok (t, p).
Proof.
move=> vs vs' hx hy [ea eb eg] [hu hv] dx dy.
pose C := cross (size X) (size Y) (ms2_gamma q) (crand cx) (crand cy).
pose phi (t : 2.-tuple (Fr E)) : 2.-tuple (Fr E) := [tuple C 0%N 0%N - nth 0 t 0; C 0%N 1%N - nth 0 t 1].
pose psi (t : 2.-tuple (Fr E)) : 2.-tuple (Fr E) := [tuple C 0%N 0%N - nth 0 t 0; C 0%N 1%N - nth 0 t 1].
exists phi; split.
  by apply: (phi_bij (psi := psi)) => t [|[|//]] _ /=; rewrite opprB addrC subrK.
move=> R R' s z hz.
have i1' : isok (ms2_prove sch q X Y cx cy crs s).
  by rewrite (isok_ms2_prove vs) hu hv ?eqxx ?andbT; apply: Main.prove_shapeI => //; apply/Complete.dims_rect.
have i2' : isok (ms1_prove (E := M) sch' (mirror_ms2 q) Y X cy cx (mirror_crs crs) z).
  rewrite (isok_ms1_prove (E := M) vs') /= hu hv ?eqxx ?andbT; apply: Main.prove_shapeI => //; [exact/Complete.dims_rect | exact/Complete.dims_rect | by rewrite ea eb; exact: dims_turned].
rewrite (FormulaProps.ms2_prove_total _ _ _ _ _ _ _ vs) in i1' *.
rewrite (FormulaProps.ms1_prove_total (E := M) _ _ _ _ _ _ _ vs') in i2' *.
rewrite (checked_val i1') (checked_val i2') /seen; do 2 eexists; split; first by [].
have hT : forall k l, (k < 1)%N -> (l < 2)%N -> at_ (table 1 2 (fun i j => drawn z j)) k l = C k l - at_ (table 2 1 (fun i j => drawn s i)) l k.
  by move=> [|//] [|[|//]] _ _; rewrite /at_ /= -!(draw_nth (N := 2)) // hz.
have -> : ms1_gamma (mirror_ms2 q) = turned (size X) (size Y) (ms2_gamma q) by rewrite /= ea eb.
by have [-> ->] := @pv_mirror (size X) (size Y) 1 2 [seq k1 crs x | x <- ms2_a q] [seq k1 crs x | x <- X] [seq i2 y | y <- ms2_b q] [seq i2 y | y <- Y] (ms2_gamma q) (crand cx) (crand cy) _ _ crs MultiScalarG2 MultiScalarG1 hT.
Qed.

Lemma k_C86_quad_mirror_prove sch sch' (q : QuadEqu E) (X : seq (Fr E)) (Y : seq (Fr E)) (cx : Commit1 E) (cy : Commit2 E) crs : valid_sched sch -> valid_sched sch' ->
  (0 < size X)%N -> (0 < size Y)%N -> quad_wf q (size X) (size Y) -> two_keys crs ->
  dims (size X) 1 (crand cx) -> dims (size Y) 1 (crand cy) ->
  exists phi : 1.-tuple (Fr E) -> 1.-tuple (Fr E), bijective phi /\
  forall (R : rng E) (R' : rng M) (s : rst R) (z : rst R'), draws 1 z = phi (draws 1 s) ->
  exists p t, seen (fun f => (pi f, theta f)) (quad_prove sch q X Y cx cy crs s) = Ok (p, t) /\
    seen (fun f => (pi f, theta f)) (quad_prove (E := M) sch' (mirror_quad q) Y X cy cx (mirror_crs crs) z) = Ok (t, p).
Proof.
move=> vs vs' hx hy [ea eb eg] [hu hv] dx dy.
pose C := cross (size X) (size Y) (quad_gamma q) (crand cx) (crand cy).
pose phi (t : 1.-tuple (Fr E)) : 1.-tuple (Fr E) := [tuple C 0%N 0%N - nth 0 t 0].
pose psi (t : 1.-tuple (Fr E)) : 1.-tuple (Fr E) := [tuple C 0%N 0%N - nth 0 t 0].
exists phi; split.
  by apply: (phi_bij (psi := psi)) => t [|//] _ /=; rewrite opprB addrC subrK.
move=> R R' s z hz.
have i1' : isok (quad_prove sch q X Y cx cy crs s).
  by rewrite (isok_quad_prove vs) hu hv ?eqxx ?andbT; apply: Main.prove_shapeI => //; apply/Complete.dims_rect.
have i2' : isok (quad_prove (E := M) sch' (mirror_quad q) Y X cy cx (mirror_crs crs) z).
  rewrite (isok_quad_prove (E := M) vs') /= hu hv ?eqxx ?andbT; apply: Main.prove_shapeI => //; [exact/Complete.dims_rect | exact/Complete.dims_rect | by rewrite ea eb; exact: dims_turned].
rewrite (FormulaProps.quad_prove_total _ _ _ _ _ _ _ vs) in i1' *.
rewrite (FormulaProps.quad_prove_total (E := M) _ _ _ _ _ _ _ vs') in i2' *.
rewrite (checked_val i1') (checked_val i2') /seen; do 2 eexists; split; first by [].
have hT : forall k l, (k < 1)%N -> (l < 1)%N -> at_ (table 1 1 (fun i j => drawn z 0)) k l = C k l - at_ (table 1 1 (fun i j => drawn s 0)) l k.
  by move=> [|//] [|//] _ _; rewrite /at_ /= -!(draw_nth (N := 1)) // hz.
have -> : quad_gamma (mirror_quad q) = turned (size X) (size Y) (quad_gamma q) by rewrite /= ea eb.
by have [-> ->] := @pv_mirror (size X) (size Y) 1 1 [seq k1 crs x | x <- quad_a q] [seq k1 crs x | x <- X] [seq k2 crs y | y <- quad_b q] [seq k2 crs y | y <- Y] (quad_gamma q) (crand cx) (crand cy) _ _ crs Quadratic Quadratic hT.
Qed.

End Mirror.
