(** What the verifier accepts and reads; shapes of proofs. *)
From mathcomp Require Import all_ssreflect all_algebra.
From Verif Require Import Base BaseLemmas Group DataStructures MatLemmas CoreAlg ComLemmas.
From Verif Require Import Commit Statement Prove Verify ProveLemmas CommitLemmas VerifyLemmas Spec SpecMat SpecVerify MatProps Draws.
Set Implicit Arguments.
Unset Strict Implicit.
Unset Printing Implicit Defensive.
Import GRing.Theory.
Local Open Scope ring_scope.

Lemma idx_take T (s : seq T) n i : (i < n)%N -> idx (take n s) i = idx s i.
Proof. by elim: s n i => [|x s IH] [|n] [|i] //= h; exact: IH. Qed.
Lemma sumM_eq T (z : T) add (f g : nat -> res T) s : (forall x, x \in s -> f x = g x) ->
  sumM z add f s = sumM z add g s.
Proof.
rewrite /sumM; elim: s z => //= x s IH z h; rewrite h ?mem_head //.
by case: (g x) => //= v; apply: IH => y hy; apply: h; rewrite inE hy orbT.
Qed.

Section Aux.
Context {E : pairing}.
Notation f := (comT_pairing : Com1 E -> Com2 E -> ComT E).

Lemma gamma_okP m n (G : matrix (Fr E)) : reflect (gamma_fits m n G) (gamma_ok m n G).
Proof.
rewrite /gamma_ok; case: (no_cellsP G) => [h|h] /=.
  apply: (iffP eqP) => [h0|[[_ //]|[hm hn hs hr hA]]]; first by left; split=> //; case: h; [left | right; left].
  by case: h => h; [move: hs hm; rewrite h => <- | move: hr hn; rewrite h => <-].
case: eqP => [hn|hn].
  apply: (iffP eqP) => [h0|[[_ //]|[hm hn' _ _ _]]]; first by left; split=> //; right; right.
  by rewrite hn in hn'.
apply: (iffP and3P) => [[/eqP hs /eqP hc /rows_geP hr]|[[h1 _]|[hm hn' hs hr hA]]].
- right; split; [|by rewrite lt0n; apply/eqP | by [] | by rewrite -ncols_row | by rewrite -hs].
  by rewrite -hs; case: (G) h => // h; case: h; left.
- by case: h1 => [h1|[h1|h1]]; [case: h; left | case: h; right | case: hn].
by split; [exact/eqP | rewrite ncols_row; exact/eqP | apply/rows_geP => i; rewrite hs; exact: hA].
Qed.
Lemma ppe_vshapeP (q : PPE E) cx cy pf crs :
  reflect ([/\ equ_type pf = PairingProduct, size (ppe_a q) = size (coms cy) /\ size (ppe_b q) = size (coms cx),
    gamma_fits (size (coms cx)) (size (coms cy)) (ppe_gamma q) & size (pi pf) = size (crs_u crs) /\ size (theta pf) = size (crs_v crs)])
  (ppe_vshape q cx cy pf crs).
Proof.
rewrite /ppe_vshape /stmt_shape; apply: (iffP idP).
  by case/and4P=> /eqtypeP h1 /and3P[/eqP h2 /eqP h3 /gamma_okP h4] /eqP h5 /eqP h6.
case=> h1 [h2 h3] h4 [h5 h6]; apply/and4P; split; [exact/eqtypeP | | exact/eqP | exact/eqP].
by apply/and3P; split; [exact/eqP | exact/eqP | exact/gamma_okP].
Qed.
Lemma ms1_vshapeP (q : MSMEG1 E) cx cy pf crs :
  reflect ([/\ equ_type pf = MultiScalarG1, size (ms1_a q) = size (coms cy) /\ size (ms1_b q) = size (coms cx),
    gamma_fits (size (coms cx)) (size (coms cy)) (ms1_gamma q) & size (pi pf) = size (crs_u crs) /\ (0 < size (theta pf))%N /\ (1 < size (crs_v crs))%N])
  (ms1_vshape q cx cy pf crs).
Proof.
rewrite /ms1_vshape /stmt_shape; apply: (iffP idP).
  by case/and5P=> /eqtypeP h1 /and3P[/eqP h2 /eqP h3 /gamma_okP h4] /eqP h5 h6 h7.
case=> h1 [h2 h3] h4 [h5 [h6 h7]]; apply/and5P; split=> //; [exact/eqtypeP | | exact/eqP].
by apply/and3P; split; [exact/eqP | exact/eqP | exact/gamma_okP].
Qed.
Lemma ms2_vshapeP (q : MSMEG2 E) cx cy pf crs :
  reflect ([/\ equ_type pf = MultiScalarG2, size (ms2_a q) = size (coms cy) /\ size (ms2_b q) = size (coms cx),
    gamma_fits (size (coms cx)) (size (coms cy)) (ms2_gamma q) & size (theta pf) = size (crs_v crs) /\ (0 < size (pi pf))%N /\ (1 < size (crs_u crs))%N])
  (ms2_vshape q cx cy pf crs).
Proof.
rewrite /ms2_vshape /stmt_shape; apply: (iffP idP).
  by case/and5P=> /eqtypeP h1 /and3P[/eqP h2 /eqP h3 /gamma_okP h4] /eqP h5 h6 h7.
case=> h1 [h2 h3] h4 [h5 [h6 h7]]; apply/and5P; split=> //; [exact/eqtypeP | | exact/eqP].
by apply/and3P; split; [exact/eqP | exact/eqP | exact/gamma_okP].
Qed.
Lemma quad_vshapeP (q : QuadEqu E) cx cy pf crs :
  reflect ([/\ equ_type pf = Quadratic, size (quad_a q) = size (coms cy) /\ size (quad_b q) = size (coms cx),
    gamma_fits (size (coms cx)) (size (coms cy)) (quad_gamma q) & (0 < size (pi pf))%N /\ (0 < size (theta pf))%N /\ (1 < size (crs_u crs))%N /\ (1 < size (crs_v crs))%N])
  (quad_vshape q cx cy pf crs).
Proof.
rewrite /quad_vshape /stmt_shape; apply: (iffP idP).
  by case/and5P=> /eqtypeP h1 /and3P[/eqP h2 /eqP h3 /gamma_okP h4] /andP[h5 h6] h7 h8.
case=> h1 [h2 h3] h4 [h5 [h6 [h7 h8]]]; apply/and5P; split=> //; [exact/eqtypeP | | by rewrite h5 h6].
by apply/and3P; split; [exact/eqP | exact/eqP | exact/gamma_okP].
Qed.

Lemma veq_check (hb : bilinear E) A B (G : matrix (Fr E)) c d t crs pf kx ky :
  veq A B G c d t (crs_u crs) (pi pf) (theta pf) (crs_v crs) kx ky <-> gs_check A B G c d t crs pf kx ky.
Proof.
rewrite /veq /gs_check /gs_eq !big_mkord.
suff -> : \sum_(k < size c) f (nth 0 c k) (\sum_(0 <= j < size d) ent 0 G k j *: nth 0 d j)
  = \sum_(i < size c) \sum_(j < size d) entry G i j *: pairT (nth 0 c i) (nth 0 d j) by split=> [/eqP|->].
apply: eq_bigr => i _; rewrite big_mkord (bil_sumr (comT_pairing_bilin hb)); apply: eq_bigr => j _.
exact: (bilZr (comT_pairing_bilin hb)).
Qed.

Lemma s1map1 (crs : CRS E) : s1map crs 1 = one1 crs. Proof. exact: scale1r. Qed.
Lemma s2map1 (crs : CRS E) : s2map crs 1 = one2 crs. Proof. exact: scale1r. Qed.

Lemma shift_veq (hb : bilinear E) A B (G : matrix (Fr E)) c d t crs T pf kx ky :
  (kx <= size (pi pf))%N -> (ky <= size (theta pf))%N ->
  veq A B G c d t (crs_u crs) (pi (shift_proof T crs kx ky pf)) (theta (shift_proof T crs kx ky pf)) (crs_v crs) kx ky
  = veq A B G c d t (crs_u crs) (pi pf) (theta pf) (crs_v crs) kx ky.
Proof.
move=> hp ht; rewrite /veq; congr (_ == _); rewrite -!addrA; congr (_ + _).
have fb := comT_pairing_bilin hb.
have -> : \sum_(0 <= i < kx) f (nth 0 (crs_u crs) i) (nth 0 (pi (shift_proof T crs kx ky pf)) i)
  = \sum_(0 <= i < kx) f (nth 0 (crs_u crs) i) (nth 0 (pi pf) i)
    - \sum_(0 <= i < kx) \sum_(0 <= l < ky) T l i *: f (nth 0 (crs_u crs) i) (nth 0 (crs_v crs) l).
  rewrite -sumrB; apply: eq_big_nat => i /andP[_ hi]; rewrite nth_mkseq; last exact: leq_trans hi hp.
  rewrite (bilBr fb) big_mkord (bil_sumr fb).
  by congr (_ - _); apply: eq_bigr => l _; rewrite (bilZr fb).
have -> : \sum_(0 <= l < ky) f (nth 0 (theta (shift_proof T crs kx ky pf)) l) (nth 0 (crs_v crs) l)
  = \sum_(0 <= l < ky) f (nth 0 (theta pf) l) (nth 0 (crs_v crs) l)
    + \sum_(0 <= i < kx) \sum_(0 <= l < ky) T l i *: f (nth 0 (crs_u crs) i) (nth 0 (crs_v crs) l).
  rewrite [X in _ = _ + X]exchange_big /= -big_split /=; apply: eq_big_nat => l /andP[_ hl].
  rewrite nth_mkseq; last exact: leq_trans hl ht.
  by rewrite (bilDl fb) big_mkord (bil_suml fb); congr (_ + _); apply: eq_bigr => i _; rewrite (bilZl fb).
by rewrite addrACA addNr addr0.
Qed.

Lemma left_mul_visible (sch : sched) k (d : matrix (Com2 E)) (G G' : matrix (Fr E)) :
  valid_sched sch -> same_visible G G' ->
  cmat_left_mul (sch k) d G true = cmat_left_mul (sch k) d G' true.
Proof.
move=> vs [hs h0 ht]; have vk : valid_ord (sch k) by move=> r c; exact: vs.
rewrite /cmat_left_mul !(left_mul_par_seq com_zero com_add com_scalar_mul (sch k) d _ true vk) /mat_left_mul.
have -> : no_cells G = no_cells G' by rewrite /no_cells /nilp hs -!nth0 -!/(mrow _ 0) h0.
case: ifP => // nG; case: ifP => // _.
have hG : (0 < size G')%N by move: nG; rewrite /no_cells; case: (G').
have hi0 : idx G 0 = idx G' 0 by rewrite !(idx_nth [::]) ?hs // -!/(mrow _ 0) h0.
rewrite hi0 (idx_nth [::] hG) -/(mrow _ 0) !bind_Ok hs.
case: (altP (size (mrow G' 0) =P size d)) => [hd|hd]; last by rewrite /assert_eq (negbTE hd).
rewrite assert_eqT // !bind_Ok; case: (idx d 0) => //= s0; apply: mapM_eq => i; apply: mapM_eq => j.
case: (ltnP i (size G')) => hi; last by rewrite !idx_oob ?hs.
rewrite !(idx_nth [::]) ?hs //= -!/(mrow _ i).
apply: sumM_eq => l; rewrite mem_iota add0n => hl.
case: (idx d l) => //= r; case: (idx r j) => //= x.
suff -> : idx (mrow G i) l = idx (mrow G' i) l by [].
by rewrite -(idx_take (mrow G i) hl) -(idx_take (mrow G' i) hl) -hd -h0 ht.
Qed.
End Aux.

Lemma k_C33_ppe_randomness : forall (E : pairing) (sch : sched) (q : PPE E) (p p' : CProof E) (crs : CRS E),
  public p = public p' -> ppe_verify sch q p crs = ppe_verify sch q p' crs.
Proof.
move=> E sch q [[cx rx] [cy ry] fs] [[cx' rx'] [cy' ry'] fs'] crs -[/= -> ->].
case: fs => [|[p0 th0 t0 r0] [|f1 fs]]; case: fs' => [|[p0' th0' t0' r0'] [|f1' fs']] //= [].
by move=> -> -> ->.
Qed.
Lemma k_C33_ppe_crs : forall (E : pairing) (sch : sched) (q : PPE E) (p : CProof E) (crs crs' : CRS E),
  crs_u crs = crs_u crs' -> crs_v crs = crs_v crs' -> ppe_verify sch q p crs = ppe_verify sch q p crs' .
Proof.
by move=> E sch q p crs crs' hu hv; rewrite /ppe_verify hu hv.
Qed.
Lemma k_C33_ms1_randomness : forall (E : pairing) (sch : sched) (q : MSMEG1 E) (p p' : CProof E) (crs : CRS E),
  public p = public p' -> ms1_verify sch q p crs = ms1_verify sch q p' crs.
Proof.
move=> E sch q [[cx rx] [cy ry] fs] [[cx' rx'] [cy' ry'] fs'] crs -[/= -> ->].
case: fs => [|[p0 th0 t0 r0] [|f1 fs]]; case: fs' => [|[p0' th0' t0' r0'] [|f1' fs']] //= [].
by move=> -> -> ->.
Qed.
Lemma k_C33_ms1_crs : forall (E : pairing) (sch : sched) (q : MSMEG1 E) (p : CProof E) (crs crs' : CRS E),
  crs_u crs = crs_u crs' -> crs_v crs = crs_v crs' -> g1_gen crs = g1_gen crs' -> g2_gen crs = g2_gen crs' ->
  ms1_verify sch q p crs = ms1_verify sch q p crs' .
Proof.
by move=> E sch q p [u v g1 g2 gt] [u' v' g1' g2' gt'] /= -> -> -> ->.
Qed.
Lemma k_C33_ms2_randomness : forall (E : pairing) (sch : sched) (q : MSMEG2 E) (p p' : CProof E) (crs : CRS E),
  public p = public p' -> ms2_verify sch q p crs = ms2_verify sch q p' crs.
Proof.
move=> E sch q [[cx rx] [cy ry] fs] [[cx' rx'] [cy' ry'] fs'] crs -[/= -> ->].
case: fs => [|[p0 th0 t0 r0] [|f1 fs]]; case: fs' => [|[p0' th0' t0' r0'] [|f1' fs']] //= [].
by move=> -> -> ->.
Qed.
Lemma k_C33_ms2_crs : forall (E : pairing) (sch : sched) (q : MSMEG2 E) (p : CProof E) (crs crs' : CRS E),
  crs_u crs = crs_u crs' -> crs_v crs = crs_v crs' -> g1_gen crs = g1_gen crs' -> g2_gen crs = g2_gen crs' ->
  ms2_verify sch q p crs = ms2_verify sch q p crs' .
Proof.
by move=> E sch q p [u v g1 g2 gt] [u' v' g1' g2' gt'] /= -> -> -> ->.
Qed.
Lemma k_C33_quad_randomness : forall (E : pairing) (sch : sched) (q : QuadEqu E) (p p' : CProof E) (crs : CRS E),
  public p = public p' -> quad_verify sch q p crs = quad_verify sch q p' crs.
Proof.
move=> E sch q [[cx rx] [cy ry] fs] [[cx' rx'] [cy' ry'] fs'] crs -[/= -> ->].
case: fs => [|[p0 th0 t0 r0] [|f1 fs]]; case: fs' => [|[p0' th0' t0' r0'] [|f1' fs']] //= [].
by move=> -> -> ->.
Qed.
Lemma k_C33_quad_crs : forall (E : pairing) (sch : sched) (q : QuadEqu E) (p : CProof E) (crs crs' : CRS E),
  crs_u crs = crs_u crs' -> crs_v crs = crs_v crs' -> g1_gen crs = g1_gen crs' -> g2_gen crs = g2_gen crs' ->
  quad_verify sch q p crs = quad_verify sch q p crs' .
Proof.
by move=> E sch q p [u v g1 g2 gt] [u' v' g1' g2' gt'] /= -> -> -> ->.
Qed.
Lemma k_C34_ppe_panics : forall (E : pairing) (sch : sched) (q : PPE E) (p : CProof E) (crs : CRS E), valid_sched sch ->
  returns (ppe_verify sch q p crs) <->
  exists pf, [/\ equ_proofs p = [:: pf], equ_type pf = PairingProduct,
    size (ppe_a q) = size (coms (ycoms p)) /\ size (ppe_b q) = size (coms (xcoms p)),
    gamma_fits (size (coms (xcoms p))) (size (coms (ycoms p))) (ppe_gamma q)
    & size (pi pf) = size (crs_u crs) /\ size (theta pf) = size (crs_v crs)].
Proof.
move=> E sch q [cx cy pfs] crs vs; apply: (iff_trans (returnsP _)); split.
  move=> h; have [pf e] := ppe_verify_one h; subst pfs.
  by exists pf; move: h; rewrite (isok_ppe_verify vs) => /ppe_vshapeP[].
case=> pf [/= -> h1 h2 h3 h4]; rewrite (isok_ppe_verify vs); exact/ppe_vshapeP.
Qed.
Lemma k_C34_ppe_value : forall (E : pairing) (sch : sched) (q : PPE E) (p : CProof E) (crs : CRS E) b pf, bilinear E -> valid_sched sch ->
  equ_proofs p = [:: pf] -> ppe_verify sch q p crs = Ok b ->
  (b <-> gs_check [seq (0, x) | x <- ppe_a q] [seq (0, y) | y <- ppe_b q] (ppe_gamma q) (coms (xcoms p)) (coms (ycoms p))
           (((0, 0), (0, ppe_target q))) crs pf (size (crs_u crs)) (size (crs_v crs))).
Proof.
move=> E sch q [cx cy pfs] crs b pf hb vs /= -> h.
have hs : ppe_vshape q cx cy pf crs by rewrite -(isok_ppe_verify vs) h.
move: h; rewrite (ppe_verify_Ok vs hs) => -[<-]; rewrite /ppe_veq.
apply: (iff_trans (veq_check hb _ _ _ _ _ _ _ _ _ _)).
by [].
Qed.
Lemma k_C34_ms1_panics : forall (E : pairing) (sch : sched) (q : MSMEG1 E) (p : CProof E) (crs : CRS E), valid_sched sch ->
  returns (ms1_verify sch q p crs) <->
  exists pf, [/\ equ_proofs p = [:: pf], equ_type pf = MultiScalarG1,
    size (ms1_a q) = size (coms (ycoms p)) /\ size (ms1_b q) = size (coms (xcoms p)),
    gamma_fits (size (coms (xcoms p))) (size (coms (ycoms p))) (ms1_gamma q)
    & size (pi pf) = size (crs_u crs) /\ (0 < size (theta pf))%N /\ (1 < size (crs_v crs))%N].
Proof.
move=> E sch q [cx cy pfs] crs vs; apply: (iff_trans (returnsP _)); split.
  move=> h; have [pf e] := ms1_verify_one h; subst pfs.
  by exists pf; move: h; rewrite (isok_ms1_verify vs) => /ms1_vshapeP[].
case=> pf [/= -> h1 h2 h3 h4]; rewrite (isok_ms1_verify vs); exact/ms1_vshapeP.
Qed.
Lemma k_C34_ms1_value : forall (E : pairing) (sch : sched) (q : MSMEG1 E) (p : CProof E) (crs : CRS E) b pf, bilinear E -> valid_sched sch ->
  equ_proofs p = [:: pf] -> ms1_verify sch q p crs = Ok b ->
  (b <-> gs_check [seq (0, x) | x <- ms1_a q] [seq y *: one2 crs | y <- ms1_b q] (ms1_gamma q) (coms (xcoms p)) (coms (ycoms p))
           (pairT (0, ms1_target q) (one2 crs)) crs pf (size (crs_u crs)) (1%N)).
Proof.
move=> E sch q [cx cy pfs] crs b pf hb vs /= -> h.
have hs : ms1_vshape q cx cy pf crs by rewrite -(isok_ms1_verify vs) h.
move: h; rewrite (ms1_verify_Ok vs hs) => -[<-]; rewrite /ms1_veq.
apply: (iff_trans (veq_check hb _ _ _ _ _ _ _ _ _ _)).
by rewrite s2map1.
Qed.
Lemma k_C34_ms2_panics : forall (E : pairing) (sch : sched) (q : MSMEG2 E) (p : CProof E) (crs : CRS E), valid_sched sch ->
  returns (ms2_verify sch q p crs) <->
  exists pf, [/\ equ_proofs p = [:: pf], equ_type pf = MultiScalarG2,
    size (ms2_a q) = size (coms (ycoms p)) /\ size (ms2_b q) = size (coms (xcoms p)),
    gamma_fits (size (coms (xcoms p))) (size (coms (ycoms p))) (ms2_gamma q)
    & size (theta pf) = size (crs_v crs) /\ (0 < size (pi pf))%N /\ (1 < size (crs_u crs))%N].
Proof.
move=> E sch q [cx cy pfs] crs vs; apply: (iff_trans (returnsP _)); split.
  move=> h; have [pf e] := ms2_verify_one h; subst pfs.
  by exists pf; move: h; rewrite (isok_ms2_verify vs) => /ms2_vshapeP[].
case=> pf [/= -> h1 h2 h3 h4]; rewrite (isok_ms2_verify vs); exact/ms2_vshapeP.
Qed.
Lemma k_C34_ms2_value : forall (E : pairing) (sch : sched) (q : MSMEG2 E) (p : CProof E) (crs : CRS E) b pf, bilinear E -> valid_sched sch ->
  equ_proofs p = [:: pf] -> ms2_verify sch q p crs = Ok b ->
  (b <-> gs_check [seq x *: one1 crs | x <- ms2_a q] [seq (0, y) | y <- ms2_b q] (ms2_gamma q) (coms (xcoms p)) (coms (ycoms p))
           (pairT (one1 crs) (0, ms2_target q)) crs pf (1%N) (size (crs_v crs))).
Proof.
move=> E sch q [cx cy pfs] crs b pf hb vs /= -> h.
have hs : ms2_vshape q cx cy pf crs by rewrite -(isok_ms2_verify vs) h.
move: h; rewrite (ms2_verify_Ok vs hs) => -[<-]; rewrite /ms2_veq.
apply: (iff_trans (veq_check hb _ _ _ _ _ _ _ _ _ _)).
by rewrite s1map1.
Qed.
Lemma k_C34_quad_panics : forall (E : pairing) (sch : sched) (q : QuadEqu E) (p : CProof E) (crs : CRS E), valid_sched sch ->
  returns (quad_verify sch q p crs) <->
  exists pf, [/\ equ_proofs p = [:: pf], equ_type pf = Quadratic,
    size (quad_a q) = size (coms (ycoms p)) /\ size (quad_b q) = size (coms (xcoms p)),
    gamma_fits (size (coms (xcoms p))) (size (coms (ycoms p))) (quad_gamma q)
    & (0 < size (pi pf))%N /\ (0 < size (theta pf))%N /\ (1 < size (crs_u crs))%N /\ (1 < size (crs_v crs))%N].
Proof.
move=> E sch q [cx cy pfs] crs vs; apply: (iff_trans (returnsP _)); split.
  move=> h; have [pf e] := quad_verify_one h; subst pfs.
  by exists pf; move: h; rewrite (isok_quad_verify vs) => /quad_vshapeP[].
case=> pf [/= -> h1 h2 h3 h4]; rewrite (isok_quad_verify vs); exact/quad_vshapeP.
Qed.
Lemma k_C34_quad_value : forall (E : pairing) (sch : sched) (q : QuadEqu E) (p : CProof E) (crs : CRS E) b pf, bilinear E -> valid_sched sch ->
  equ_proofs p = [:: pf] -> quad_verify sch q p crs = Ok b ->
  (b <-> gs_check [seq x *: one1 crs | x <- quad_a q] [seq y *: one2 crs | y <- quad_b q] (quad_gamma q) (coms (xcoms p)) (coms (ycoms p))
           (quad_target q *: pairT (one1 crs) (one2 crs)) crs pf (1%N) (1%N)).
Proof.
move=> E sch q [cx cy pfs] crs b pf hb vs /= -> h.
have hs : quad_vshape q cx cy pf crs by rewrite -(isok_quad_verify vs) h.
move: h; rewrite (quad_verify_Ok vs hs) => -[<-]; rewrite /quad_veq.
apply: (iff_trans (veq_check hb _ _ _ _ _ _ _ _ _ _)).
by rewrite s1map1 s2map1 (bilZr (comT_pairing_bilin hb)).
Qed.
Lemma k_C35_ppe_panics : forall (E : pairing) (sch : sched) (R : rng E) (q : PPE E) (X : seq (G1 E)) (Y : seq (G2 E)) cx cy crs (s : rst R), valid_sched sch ->
  returns (ppe_prove sch q X Y cx cy crs s) <->
  [/\ (0 < size X)%N /\ (0 < size Y)%N, dims (size X) 2 (crand cx) /\ dims (size Y) 2 (crand cy),
      dims (size X) (size Y) (ppe_gamma q), size (ppe_a q) = size Y /\ size (ppe_b q) = size X
    & size (crs_u crs) = 2%N /\ size (crs_v crs) = 2%N].
Proof.
move=> E sch R q X Y cx cy crs s vs; apply: (iff_trans (returnsP _)); rewrite (isok_ppe_prove vs) /prove_shape; split.
  case/andP=> /andP[/and5P[h1 h2 /rect_dims h3 /rect_dims h4 /and3P[/rect_dims h5 /eqP h6 /eqP h7]]] h8 h9.
  by do !split=> //; apply/eqP.
case=> -[h1 h2] [/dims_rect h3 /dims_rect h4] /dims_rect h5 [h6 h7] [h8 h9].
by rewrite h1 h2 h3 h4 h5 h6 h7 !eqxx ?h8 ?h9 /=.
Qed.
Lemma k_C35_ppe_shape : forall (E : pairing) (sch : sched) (R : rng E) (q : PPE E) (X : seq (G1 E)) (Y : seq (G2 E)) cx cy crs (s s' : rst R) pf, valid_sched sch ->
  ppe_prove sch q X Y cx cy crs s = Ok (pf, s') ->
  [/\ equ_type pf = PairingProduct, size (pi pf) = 2%N, size (theta pf) = 2%N & dims 2 2 (pf_rand pf)].
Proof.
move=> E sch R q X Y cx cy crs s s' pf vs h.
have hs : ppe_pshape q (size X) (size Y) cx cy crs by rewrite /ppe_pshape -(isok_ppe_prove vs q X Y cx cy crs s) h.
move: h; rewrite (ppe_prove_Ok vs _ hs) => -[<- _]; rewrite /ppe_pf; split=> //; rewrite ?size_mkseq //.
by apply: rect_dims; exact: rect_mkmat.
Qed.
Lemma k_C35_ms1_panics : forall (E : pairing) (sch : sched) (R : rng E) (q : MSMEG1 E) (X : seq (G1 E)) (Y : seq (Fr E)) cx cy crs (s : rst R), valid_sched sch ->
  returns (ms1_prove sch q X Y cx cy crs s) <->
  [/\ (0 < size X)%N /\ (0 < size Y)%N, dims (size X) 2 (crand cx) /\ dims (size Y) 1 (crand cy),
      dims (size X) (size Y) (ms1_gamma q), size (ms1_a q) = size Y /\ size (ms1_b q) = size X
    & size (crs_u crs) = 2%N /\ (1 < size (crs_v crs))%N].
Proof.
move=> E sch R q X Y cx cy crs s vs; apply: (iff_trans (returnsP _)); rewrite (isok_ms1_prove vs) /prove_shape; split.
  case/andP=> /andP[/and5P[h1 h2 /rect_dims h3 /rect_dims h4 /and3P[/rect_dims h5 /eqP h6 /eqP h7]]] h8 h9.
  by do !split=> //; apply/eqP.
case=> -[h1 h2] [/dims_rect h3 /dims_rect h4] /dims_rect h5 [h6 h7] [h8 h9].
by rewrite h1 h2 h3 h4 h5 h6 h7 !eqxx ?h8 ?h9 /=.
Qed.
Lemma k_C35_ms1_shape : forall (E : pairing) (sch : sched) (R : rng E) (q : MSMEG1 E) (X : seq (G1 E)) (Y : seq (Fr E)) cx cy crs (s s' : rst R) pf, valid_sched sch ->
  ms1_prove sch q X Y cx cy crs s = Ok (pf, s') ->
  [/\ equ_type pf = MultiScalarG1, size (pi pf) = 2%N, size (theta pf) = 1%N & dims 1 2 (pf_rand pf)].
Proof.
move=> E sch R q X Y cx cy crs s s' pf vs h.
have hs : ms1_pshape q (size X) (size Y) cx cy crs by rewrite /ms1_pshape -(isok_ms1_prove vs q X Y cx cy crs s) h.
move: h; rewrite (ms1_prove_Ok vs _ hs) => -[<- _]; rewrite /ms1_pf; split=> //; rewrite ?size_mkseq //.
by apply: rect_dims; exact: rect_mkmat.
Qed.
Lemma k_C35_ms2_panics : forall (E : pairing) (sch : sched) (R : rng E) (q : MSMEG2 E) (X : seq (Fr E)) (Y : seq (G2 E)) cx cy crs (s : rst R), valid_sched sch ->
  returns (ms2_prove sch q X Y cx cy crs s) <->
  [/\ (0 < size X)%N /\ (0 < size Y)%N, dims (size X) 1 (crand cx) /\ dims (size Y) 2 (crand cy),
      dims (size X) (size Y) (ms2_gamma q), size (ms2_a q) = size Y /\ size (ms2_b q) = size X
    & (1 < size (crs_u crs))%N /\ size (crs_v crs) = 2%N].
Proof.
move=> E sch R q X Y cx cy crs s vs; apply: (iff_trans (returnsP _)); rewrite (isok_ms2_prove vs) /prove_shape; split.
  case/andP=> /andP[/and5P[h1 h2 /rect_dims h3 /rect_dims h4 /and3P[/rect_dims h5 /eqP h6 /eqP h7]]] h8 h9.
  by do !split=> //; apply/eqP.
case=> -[h1 h2] [/dims_rect h3 /dims_rect h4] /dims_rect h5 [h6 h7] [h8 h9].
by rewrite h1 h2 h3 h4 h5 h6 h7 !eqxx ?h8 ?h9 /=.
Qed.
Lemma k_C35_ms2_shape : forall (E : pairing) (sch : sched) (R : rng E) (q : MSMEG2 E) (X : seq (Fr E)) (Y : seq (G2 E)) cx cy crs (s s' : rst R) pf, valid_sched sch ->
  ms2_prove sch q X Y cx cy crs s = Ok (pf, s') ->
  [/\ equ_type pf = MultiScalarG2, size (pi pf) = 1%N, size (theta pf) = 2%N & dims 2 1 (pf_rand pf)].
Proof.
move=> E sch R q X Y cx cy crs s s' pf vs h.
have hs : ms2_pshape q (size X) (size Y) cx cy crs by rewrite /ms2_pshape -(isok_ms2_prove vs q X Y cx cy crs s) h.
move: h; rewrite (ms2_prove_Ok vs _ hs) => -[<- _]; rewrite /ms2_pf; split=> //; rewrite ?size_mkseq //.
by apply: rect_dims; exact: rect_mkmat.
Qed.
Lemma k_C35_quad_panics : forall (E : pairing) (sch : sched) (R : rng E) (q : QuadEqu E) (X : seq (Fr E)) (Y : seq (Fr E)) cx cy crs (s : rst R), valid_sched sch ->
  returns (quad_prove sch q X Y cx cy crs s) <->
  [/\ (0 < size X)%N /\ (0 < size Y)%N, dims (size X) 1 (crand cx) /\ dims (size Y) 1 (crand cy),
      dims (size X) (size Y) (quad_gamma q), size (quad_a q) = size Y /\ size (quad_b q) = size X
    & (1 < size (crs_u crs))%N /\ (1 < size (crs_v crs))%N].
Proof.
move=> E sch R q X Y cx cy crs s vs; apply: (iff_trans (returnsP _)); rewrite (isok_quad_prove vs) /prove_shape; split.
  case/andP=> /andP[/and5P[h1 h2 /rect_dims h3 /rect_dims h4 /and3P[/rect_dims h5 /eqP h6 /eqP h7]]] h8 h9.
  by do !split=> //; apply/eqP.
case=> -[h1 h2] [/dims_rect h3 /dims_rect h4] /dims_rect h5 [h6 h7] [h8 h9].
by rewrite h1 h2 h3 h4 h5 h6 h7 !eqxx ?h8 ?h9 /=.
Qed.
Lemma k_C35_quad_shape : forall (E : pairing) (sch : sched) (R : rng E) (q : QuadEqu E) (X : seq (Fr E)) (Y : seq (Fr E)) cx cy crs (s s' : rst R) pf, valid_sched sch ->
  quad_prove sch q X Y cx cy crs s = Ok (pf, s') ->
  [/\ equ_type pf = Quadratic, size (pi pf) = 1%N, size (theta pf) = 1%N & dims 1 1 (pf_rand pf)].
Proof.
move=> E sch R q X Y cx cy crs s s' pf vs h.
have hs : quad_pshape q (size X) (size Y) cx cy crs by rewrite /quad_pshape -(isok_quad_prove vs q X Y cx cy crs s) h.
move: h; rewrite (quad_prove_Ok vs _ hs) => -[<- _]; rewrite /quad_pf; split=> //; rewrite ?size_mkseq //.
by apply: rect_dims; exact: rect_mkmat.
Qed.
Lemma k_C37_ppe_pi : forall (E : pairing) (sch : sched) (q : PPE E) (p : CProof E) (crs : CRS E) b pf, valid_sched sch ->
  equ_proofs p = [:: pf] -> ppe_verify sch q p crs = Ok b -> size (pi pf) = size (crs_u crs).
Proof.
move=> E sch q [cx cy pfs] crs b pf vs /= -> h.
by have : ppe_vshape q cx cy pf crs; [rewrite -(isok_ppe_verify vs) h | case/ppe_vshapeP => _ _ _; tauto].
Qed.
Lemma k_C37_ppe_theta : forall (E : pairing) (sch : sched) (q : PPE E) (p : CProof E) (crs : CRS E) b pf, valid_sched sch ->
  equ_proofs p = [:: pf] -> ppe_verify sch q p crs = Ok b -> size (theta pf) = size (crs_v crs).
Proof.
move=> E sch q [cx cy pfs] crs b pf vs /= -> h.
by have : ppe_vshape q cx cy pf crs; [rewrite -(isok_ppe_verify vs) h | case/ppe_vshapeP => _ _ _; tauto].
Qed.
Lemma k_C37_ms1_pi : forall (E : pairing) (sch : sched) (q : MSMEG1 E) (p : CProof E) (crs : CRS E) b pf, valid_sched sch ->
  equ_proofs p = [:: pf] -> ms1_verify sch q p crs = Ok b -> size (pi pf) = size (crs_u crs).
Proof.
move=> E sch q [cx cy pfs] crs b pf vs /= -> h.
by have : ms1_vshape q cx cy pf crs; [rewrite -(isok_ms1_verify vs) h | case/ms1_vshapeP => _ _ _; tauto].
Qed.
Lemma k_C37_ms1_theta_refuted : forall (E : pairing) (sch : sched) (q : MSMEG1 E) cx cy pf (crs : CRS E) b extra, valid_sched sch ->
  ms1_verify sch q (mkCProof cx cy [:: pf]) crs = Ok b ->
  ms1_verify sch q (mkCProof cx cy [:: longer pf [::] extra]) crs = Ok b.
Proof.
move=> E sch q cx cy pf crs b extra vs h.
have hs : ms1_vshape q cx cy pf crs by rewrite -(isok_ms1_verify vs) h.
have [h1 h2 h3 h4] := ms1_vshapeP _ _ _ _ _ hs.
have hs' : ms1_vshape q cx cy (longer pf [::] extra) crs.
  by apply/ms1_vshapeP; split=> //=; rewrite ?cats0 ?size_cat ?ltn_addr; try tauto; do ?[split]; rewrite ?ltn_addr; tauto.
move: h; rewrite (ms1_verify_Ok vs hs) (ms1_verify_Ok vs hs') /ms1_veq /veq /= cats0 => -[<-]; congr Ok.
by rewrite !big_nat1 nth_cat ifT //; tauto.
Qed.
Lemma k_C37_ms2_pi_refuted : forall (E : pairing) (sch : sched) (q : MSMEG2 E) cx cy pf (crs : CRS E) b extra, valid_sched sch ->
  ms2_verify sch q (mkCProof cx cy [:: pf]) crs = Ok b ->
  ms2_verify sch q (mkCProof cx cy [:: longer pf extra [::]]) crs = Ok b.
Proof.
move=> E sch q cx cy pf crs b extra vs h.
have hs : ms2_vshape q cx cy pf crs by rewrite -(isok_ms2_verify vs) h.
have [h1 h2 h3 h4] := ms2_vshapeP _ _ _ _ _ hs.
have hs' : ms2_vshape q cx cy (longer pf extra [::]) crs.
  by apply/ms2_vshapeP; split=> //=; rewrite ?cats0 ?size_cat ?ltn_addr; try tauto; do ?[split]; rewrite ?ltn_addr; tauto.
move: h; rewrite (ms2_verify_Ok vs hs) (ms2_verify_Ok vs hs') /ms2_veq /veq /= cats0 => -[<-]; congr Ok.
by rewrite !big_nat1 nth_cat ifT //; tauto.
Qed.
Lemma k_C37_ms2_theta : forall (E : pairing) (sch : sched) (q : MSMEG2 E) (p : CProof E) (crs : CRS E) b pf, valid_sched sch ->
  equ_proofs p = [:: pf] -> ms2_verify sch q p crs = Ok b -> size (theta pf) = size (crs_v crs).
Proof.
move=> E sch q [cx cy pfs] crs b pf vs /= -> h.
by have : ms2_vshape q cx cy pf crs; [rewrite -(isok_ms2_verify vs) h | case/ms2_vshapeP => _ _ _; tauto].
Qed.
Lemma k_C37_quad_pi_refuted : forall (E : pairing) (sch : sched) (q : QuadEqu E) cx cy pf (crs : CRS E) b extra, valid_sched sch ->
  quad_verify sch q (mkCProof cx cy [:: pf]) crs = Ok b ->
  quad_verify sch q (mkCProof cx cy [:: longer pf extra [::]]) crs = Ok b.
Proof.
move=> E sch q cx cy pf crs b extra vs h.
have hs : quad_vshape q cx cy pf crs by rewrite -(isok_quad_verify vs) h.
have [h1 h2 h3 h4] := quad_vshapeP _ _ _ _ _ hs.
have hs' : quad_vshape q cx cy (longer pf extra [::]) crs.
  by apply/quad_vshapeP; split=> //=; rewrite ?cats0 ?size_cat ?ltn_addr; try tauto; do ?[split]; rewrite ?ltn_addr; tauto.
move: h; rewrite (quad_verify_Ok vs hs) (quad_verify_Ok vs hs') /quad_veq /veq /= cats0 => -[<-]; congr Ok.
by rewrite !big_nat1 nth_cat ifT //; tauto.
Qed.
Lemma k_C37_quad_theta_refuted : forall (E : pairing) (sch : sched) (q : QuadEqu E) cx cy pf (crs : CRS E) b extra, valid_sched sch ->
  quad_verify sch q (mkCProof cx cy [:: pf]) crs = Ok b ->
  quad_verify sch q (mkCProof cx cy [:: longer pf [::] extra]) crs = Ok b.
Proof.
move=> E sch q cx cy pf crs b extra vs h.
have hs : quad_vshape q cx cy pf crs by rewrite -(isok_quad_verify vs) h.
have [h1 h2 h3 h4] := quad_vshapeP _ _ _ _ _ hs.
have hs' : quad_vshape q cx cy (longer pf [::] extra) crs.
  by apply/quad_vshapeP; split=> //=; rewrite ?cats0 ?size_cat ?ltn_addr; try tauto; do ?[split]; rewrite ?ltn_addr; tauto.
move: h; rewrite (quad_verify_Ok vs hs) (quad_verify_Ok vs hs') /quad_veq /veq /= cats0 => -[<-]; congr Ok.
by rewrite !big_nat1 nth_cat ifT //; tauto.
Qed.
Lemma k_C38_ppe : forall (E : pairing) (sch : sched) (q : PPE E) cx cy pf (crs : CRS E) b (T : nat -> nat -> Fr E), bilinear E -> valid_sched sch ->
  ppe_verify sch q (mkCProof cx cy [:: pf]) crs = Ok b ->
  ppe_verify sch q (mkCProof cx cy [:: shift_proof T crs (size (crs_u crs)) (size (crs_v crs)) pf]) crs = Ok b.
Proof.
move=> E sch q cx cy pf crs b T hb vs h.
have hs : ppe_vshape q cx cy pf crs by rewrite -(isok_ppe_verify vs) h.
have [h1 h2 h3 h4] := ppe_vshapeP _ _ _ _ _ hs.
have hs' : ppe_vshape q cx cy (shift_proof T crs (size (crs_u crs)) (size (crs_v crs)) pf) crs.
  by apply/ppe_vshapeP; split=> //=; rewrite !size_mkseq.
move: h; rewrite (ppe_verify_Ok vs hs) (ppe_verify_Ok vs hs') /ppe_veq => -[<-]; congr Ok.
by case: h4 => h5 h6; rewrite shift_veq //; first [by rewrite h5 | by rewrite h6 | exact: h5 | exact: (proj1 h6) | tauto].
Qed.
Lemma k_C38_ms1 : forall (E : pairing) (sch : sched) (q : MSMEG1 E) cx cy pf (crs : CRS E) b (T : nat -> nat -> Fr E), bilinear E -> valid_sched sch ->
  ms1_verify sch q (mkCProof cx cy [:: pf]) crs = Ok b ->
  ms1_verify sch q (mkCProof cx cy [:: shift_proof T crs (size (crs_u crs)) (1%N) pf]) crs = Ok b.
Proof.
move=> E sch q cx cy pf crs b T hb vs h.
have hs : ms1_vshape q cx cy pf crs by rewrite -(isok_ms1_verify vs) h.
have [h1 h2 h3 h4] := ms1_vshapeP _ _ _ _ _ hs.
have hs' : ms1_vshape q cx cy (shift_proof T crs (size (crs_u crs)) (1%N) pf) crs.
  by apply/ms1_vshapeP; split=> //=; rewrite !size_mkseq.
move: h; rewrite (ms1_verify_Ok vs hs) (ms1_verify_Ok vs hs') /ms1_veq => -[<-]; congr Ok.
by case: h4 => h5 h6; rewrite shift_veq //; first [by rewrite h5 | by rewrite h6 | exact: h5 | exact: (proj1 h6) | tauto].
Qed.
Lemma k_C38_ms2 : forall (E : pairing) (sch : sched) (q : MSMEG2 E) cx cy pf (crs : CRS E) b (T : nat -> nat -> Fr E), bilinear E -> valid_sched sch ->
  ms2_verify sch q (mkCProof cx cy [:: pf]) crs = Ok b ->
  ms2_verify sch q (mkCProof cx cy [:: shift_proof T crs (1%N) (size (crs_v crs)) pf]) crs = Ok b.
Proof.
move=> E sch q cx cy pf crs b T hb vs h.
have hs : ms2_vshape q cx cy pf crs by rewrite -(isok_ms2_verify vs) h.
have [h1 h2 h3 h4] := ms2_vshapeP _ _ _ _ _ hs.
have hs' : ms2_vshape q cx cy (shift_proof T crs (1%N) (size (crs_v crs)) pf) crs.
  by apply/ms2_vshapeP; split=> //=; rewrite !size_mkseq.
move: h; rewrite (ms2_verify_Ok vs hs) (ms2_verify_Ok vs hs') /ms2_veq => -[<-]; congr Ok.
by case: h4 => h5 h6; rewrite shift_veq //; first [by rewrite h5 | by rewrite h6 | exact: h5 | exact: (proj1 h6) | tauto].
Qed.
Lemma k_C38_quad : forall (E : pairing) (sch : sched) (q : QuadEqu E) cx cy pf (crs : CRS E) b (T : nat -> nat -> Fr E), bilinear E -> valid_sched sch ->
  quad_verify sch q (mkCProof cx cy [:: pf]) crs = Ok b ->
  quad_verify sch q (mkCProof cx cy [:: shift_proof T crs (1%N) (1%N) pf]) crs = Ok b.
Proof.
move=> E sch q cx cy pf crs b T hb vs h.
have hs : quad_vshape q cx cy pf crs by rewrite -(isok_quad_verify vs) h.
have [h1 h2 h3 h4] := quad_vshapeP _ _ _ _ _ hs.
have hs' : quad_vshape q cx cy (shift_proof T crs (1%N) (1%N) pf) crs.
  by apply/quad_vshapeP; split=> //=; rewrite !size_mkseq.
move: h; rewrite (quad_verify_Ok vs hs) (quad_verify_Ok vs hs') /quad_veq => -[<-]; congr Ok.
by case: h4 => h5 h6; rewrite shift_veq //; first [by rewrite h5 | by rewrite h6 | exact: h5 | exact: (proj1 h6) | tauto].
Qed.
Lemma k_C46_ppe_stamp : forall (E : pairing) (sch : sched) (R : rng E) (q : PPE E) (X : seq (G1 E)) (Y : seq (G2 E)) cx cy crs (s s' : rst R) pf,
  ppe_prove sch q X Y cx cy crs s = Ok (pf, s') -> equ_type pf = ppe_get_type q /\ ppe_get_type q = PairingProduct.
Proof.
move=> E sch R q X Y cx cy crs s s' pf; rewrite /ppe_prove.
do 11!move=> /bind_ok[? _]; do 4!case: (rand_fr _) => ? ?.
by do !move=> /bind_ok[? _]; case=> <-.
Qed.
Lemma k_C46_ppe_mismatch : forall (E : pairing) (sch : sched) (q : PPE E) cx cy pf (crs : CRS E), equ_type pf <> PairingProduct ->
  ppe_verify sch q (mkCProof cx cy [:: pf]) crs = Panic AssertFailed.
Proof.
move=> E sch q cx cy pf crs h; rewrite /ppe_verify /= /assert_type /ppe_get_type.
by case: (eqtypeP PairingProduct (equ_type pf)) => // e; case: h.
Qed.
Lemma k_C46_ms1_stamp : forall (E : pairing) (sch : sched) (R : rng E) (q : MSMEG1 E) (X : seq (G1 E)) (Y : seq (Fr E)) cx cy crs (s s' : rst R) pf,
  ms1_prove sch q X Y cx cy crs s = Ok (pf, s') -> equ_type pf = ms1_get_type q /\ ms1_get_type q = MultiScalarG1.
Proof.
move=> E sch R q X Y cx cy crs s s' pf; rewrite /ms1_prove.
do 11!move=> /bind_ok[? _]; do 2!case: (rand_fr _) => ? ?.
by do !move=> /bind_ok[? _]; case=> <-.
Qed.
Lemma k_C46_ms1_mismatch : forall (E : pairing) (sch : sched) (q : MSMEG1 E) cx cy pf (crs : CRS E), equ_type pf <> MultiScalarG1 ->
  ms1_verify sch q (mkCProof cx cy [:: pf]) crs = Panic AssertFailed.
Proof.
move=> E sch q cx cy pf crs h; rewrite /ms1_verify /= /assert_type /ms1_get_type.
by case: (eqtypeP MultiScalarG1 (equ_type pf)) => // e; case: h.
Qed.
Lemma k_C46_ms2_stamp : forall (E : pairing) (sch : sched) (R : rng E) (q : MSMEG2 E) (X : seq (Fr E)) (Y : seq (G2 E)) cx cy crs (s s' : rst R) pf,
  ms2_prove sch q X Y cx cy crs s = Ok (pf, s') -> equ_type pf = ms2_get_type q /\ ms2_get_type q = MultiScalarG2.
Proof.
move=> E sch R q X Y cx cy crs s s' pf; rewrite /ms2_prove.
do 11!move=> /bind_ok[? _]; do 2!case: (rand_fr _) => ? ?.
by do !move=> /bind_ok[? _]; case=> <-.
Qed.
Lemma k_C46_ms2_mismatch : forall (E : pairing) (sch : sched) (q : MSMEG2 E) cx cy pf (crs : CRS E), equ_type pf <> MultiScalarG2 ->
  ms2_verify sch q (mkCProof cx cy [:: pf]) crs = Panic AssertFailed.
Proof.
move=> E sch q cx cy pf crs h; rewrite /ms2_verify /= /assert_type /ms2_get_type.
by case: (eqtypeP MultiScalarG2 (equ_type pf)) => // e; case: h.
Qed.
Lemma k_C46_quad_stamp : forall (E : pairing) (sch : sched) (R : rng E) (q : QuadEqu E) (X : seq (Fr E)) (Y : seq (Fr E)) cx cy crs (s s' : rst R) pf,
  quad_prove sch q X Y cx cy crs s = Ok (pf, s') -> equ_type pf = quad_get_type q /\ quad_get_type q = Quadratic.
Proof.
move=> E sch R q X Y cx cy crs s s' pf; rewrite /quad_prove.
do 11!move=> /bind_ok[? _]; case: (rand_fr _) => ? ?.
by do !move=> /bind_ok[? _]; case=> <-.
Qed.
Lemma k_C46_quad_mismatch : forall (E : pairing) (sch : sched) (q : QuadEqu E) cx cy pf (crs : CRS E), equ_type pf <> Quadratic ->
  quad_verify sch q (mkCProof cx cy [:: pf]) crs = Panic AssertFailed.
Proof.
move=> E sch q cx cy pf crs h; rewrite /quad_verify /= /assert_type /quad_get_type.
by case: (eqtypeP Quadratic (equ_type pf)) => // e; case: h.
Qed.
Lemma k_C47_ppe_verify : forall (E : pairing) (sch : sched) (q q' : PPE E) (p : CProof E) (crs : CRS E), valid_sched sch ->
  ppe_a q = ppe_a q' -> ppe_b q = ppe_b q' -> ppe_target q = ppe_target q' -> same_visible (ppe_gamma q) (ppe_gamma q') ->
  ppe_verify sch q p crs = ppe_verify sch q' p crs.
Proof.
move=> E sch q q' p crs vs ha hb ht hg; rewrite /ppe_verify ha hb ht.
by rewrite (left_mul_visible _ _ vs hg).
Qed.
Lemma k_C47_ppe_prove : forall (E : pairing) (sch : sched) (R : rng E) (q : PPE E) (X : seq (G1 E)) (Y : seq (G2 E)) cx cy crs (s : rst R) i, valid_sched sch ->
  (i < size (ppe_gamma q))%N -> size (mrow (ppe_gamma q) i) <> size (mrow (ppe_gamma q) 0) ->
  ~ returns (ppe_prove sch q X Y cx cy crs s).
Proof.
move=> E sch R q X Y cx cy crs s i vs hi hn /(k_C35_ppe_panics _ _ _ _ _ _ _ vs)[[h1 h2] _ [hd hr] _ _].
by apply: hn; rewrite /mrow !hr // -hd.
Qed.
Lemma k_C47_ms1_verify : forall (E : pairing) (sch : sched) (q q' : MSMEG1 E) (p : CProof E) (crs : CRS E), valid_sched sch ->
  ms1_a q = ms1_a q' -> ms1_b q = ms1_b q' -> ms1_target q = ms1_target q' -> same_visible (ms1_gamma q) (ms1_gamma q') ->
  ms1_verify sch q p crs = ms1_verify sch q' p crs.
Proof.
move=> E sch q q' p crs vs ha hb ht hg; rewrite /ms1_verify ha hb ht.
by rewrite (left_mul_visible _ _ vs hg).
Qed.
Lemma k_C47_ms1_prove : forall (E : pairing) (sch : sched) (R : rng E) (q : MSMEG1 E) (X : seq (G1 E)) (Y : seq (Fr E)) cx cy crs (s : rst R) i, valid_sched sch ->
  (i < size (ms1_gamma q))%N -> size (mrow (ms1_gamma q) i) <> size (mrow (ms1_gamma q) 0) ->
  ~ returns (ms1_prove sch q X Y cx cy crs s).
Proof.
move=> E sch R q X Y cx cy crs s i vs hi hn /(k_C35_ms1_panics _ _ _ _ _ _ _ vs)[[h1 h2] _ [hd hr] _ _].
by apply: hn; rewrite /mrow !hr // -hd.
Qed.
Lemma k_C47_ms2_verify : forall (E : pairing) (sch : sched) (q q' : MSMEG2 E) (p : CProof E) (crs : CRS E), valid_sched sch ->
  ms2_a q = ms2_a q' -> ms2_b q = ms2_b q' -> ms2_target q = ms2_target q' -> same_visible (ms2_gamma q) (ms2_gamma q') ->
  ms2_verify sch q p crs = ms2_verify sch q' p crs.
Proof.
move=> E sch q q' p crs vs ha hb ht hg; rewrite /ms2_verify ha hb ht.
by rewrite (left_mul_visible _ _ vs hg).
Qed.
Lemma k_C47_ms2_prove : forall (E : pairing) (sch : sched) (R : rng E) (q : MSMEG2 E) (X : seq (Fr E)) (Y : seq (G2 E)) cx cy crs (s : rst R) i, valid_sched sch ->
  (i < size (ms2_gamma q))%N -> size (mrow (ms2_gamma q) i) <> size (mrow (ms2_gamma q) 0) ->
  ~ returns (ms2_prove sch q X Y cx cy crs s).
Proof.
move=> E sch R q X Y cx cy crs s i vs hi hn /(k_C35_ms2_panics _ _ _ _ _ _ _ vs)[[h1 h2] _ [hd hr] _ _].
by apply: hn; rewrite /mrow !hr // -hd.
Qed.
Lemma k_C47_quad_verify : forall (E : pairing) (sch : sched) (q q' : QuadEqu E) (p : CProof E) (crs : CRS E), valid_sched sch ->
  quad_a q = quad_a q' -> quad_b q = quad_b q' -> quad_target q = quad_target q' -> same_visible (quad_gamma q) (quad_gamma q') ->
  quad_verify sch q p crs = quad_verify sch q' p crs.
Proof.
move=> E sch q q' p crs vs ha hb ht hg; rewrite /quad_verify ha hb ht.
by rewrite (left_mul_visible _ _ vs hg).
Qed.
Lemma k_C47_quad_prove : forall (E : pairing) (sch : sched) (R : rng E) (q : QuadEqu E) (X : seq (Fr E)) (Y : seq (Fr E)) cx cy crs (s : rst R) i, valid_sched sch ->
  (i < size (quad_gamma q))%N -> size (mrow (quad_gamma q) i) <> size (mrow (quad_gamma q) 0) ->
  ~ returns (quad_prove sch q X Y cx cy crs s).
Proof.
move=> E sch R q X Y cx cy crs s i vs hi hn /(k_C35_quad_panics _ _ _ _ _ _ _ vs)[[h1 h2] _ [hd hr] _ _].
by apply: hn; rewrite /mrow !hr // -hd.
Qed.
