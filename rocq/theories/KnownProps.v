(** Proofs of the statements in P_Known.v. *)
From mathcomp Require Import all_ssreflect all_algebra.
From Verif Require Import Base BaseLemmas Group DataStructures MatLemmas CoreAlg ComLemmas Generator Commit Statement Prove Verify Spec SpecMat SpecVerify SpecHide SpecPanic SpecFormula ProveLemmas VerifyLemmas FormulaProps Complete Main ComProps PadProps SpecMirror MirrorProps SpecKnown.
Set Implicit Arguments.
Unset Strict Implicit.
Unset Printing Implicit Defensive.
Import GRing.Theory.
Local Open Scope ring_scope.

Section Known.
Variable E : pairing.
Implicit Types (crs : CRS E).

Lemma nth_rl (T : Type) (x0 z : T) s m : size s = m -> nth x0 (rcons s z) m = z.
Proof. by move=> <-; rewrite nth_rcons ltnn eqxx. Qed.
Lemma nth_rk (T : Type) (x0 z : T) s m i : size s = m -> (i < m)%N -> nth x0 (rcons s z) i = nth x0 s i.
Proof. by move=> <- h; rewrite nth_rcons h. Qed.
Lemma at_take m (G : matrix (Fr E)) i j : (i < m)%N -> at_ (take m G) i j = at_ G i j.
Proof. by move=> h; rewrite /at_ /mrow nth_take. Qed.
Lemma dims_take m n (G : matrix (Fr E)) : dims m.+1 n G -> dims m n (take m G).
Proof.
case=> sG hG; split; first by rewrite size_takel // sG.
by move=> i hi; rewrite nth_take // hG // ltnW.
Qed.
Lemma dims_known m k (R : matrix (Fr E)) : dims m k R -> dims m.+1 k (rcons R (nseq k 0)).
Proof.
case=> sR hR; split; first by rewrite size_rcons sR.
move=> i; rewrite ltnS leq_eqVlt => /orP[/eqP->|hi]; [by rewrite nth_rl // size_nseq | by rewrite (nth_rk _ _ sR hi) hR].
Qed.

Lemma pv_known m n kx ky A A' X z B B' Y G G' R R' S T crs t : size X = m ->
  (forall i, (i < m)%N -> nth 0 B' i = nth 0 B i) -> (forall j, (j < n)%N -> nth 0 A' j = nth 0 A j + at_ G m j *: z) ->
  (forall i j, (i < m)%N -> at_ G' i j = at_ G i j) ->
  (forall i k, (i < m)%N -> at_ R' i k = at_ R i k) -> (forall k, (k < kx)%N -> at_ R' m k = 0) ->
  prove_value (E := E) m.+1 n kx ky A (rcons X z) B Y G R' S T crs t = prove_value m n kx ky A' X B' Y G' R S T crs t.
Proof.
move=> sX hB hA hG hR hR0; rewrite /prove_value; congr mkEquProof; apply: mkext => k hk.
  have e j : \sum_(i < m.+1) at_ R' i k * at_ G i j = \sum_(i < m) at_ R i k * at_ G' i j.
    by rewrite big_ord_recr /= hR0 // mul0r addr0; apply: eq_bigr => i _; rewrite hR // hG.
  congr (_ + _ + _).
  - by rewrite big_ord_recr /= hR0 // scale0r addr0; apply: eq_bigr => i _; rewrite hR // hB.
  - by apply: eq_bigr => j _; rewrite e.
  - by apply: eq_bigr => l _; congr ((_ - _) *: _); apply: eq_bigr => j _; rewrite e.
congr (_ + _); rewrite big_ord_recr /= nth_rl // scaler_suml [X in _ + X]addrC addrA; congr (_ + _).
  rewrite -big_split; apply: eq_bigr => j _ /=; by rewrite hA // scalerDr scalerA.
by apply: eq_bigr => i _; rewrite (nth_rk _ _ sX) //; congr (_ *: _); apply: eq_bigr => j _; rewrite hG.
Qed.

Lemma lin_i1 (a x : G1 E) (g : Fr E) : i1 (a + g *: x) = i1 a + g *: i1 x :> Com1 E.
Proof. by congr pair; rewrite /= scaler0 addr0. Qed.
Lemma lin_k1 crs (a x g : Fr E) : k1 crs (a + g * x) = k1 crs a + g *: k1 crs x.
Proof. by rewrite /k1 scalerDl scalerA. Qed.

Lemma same_side (V : zmodType) (l l' t t' w : V) : l = l' + w -> t' + w = t -> (l = t <-> l' = t').
Proof. by move=> -> <-; split=> [/addIr|->]. Qed.
Lemma regroup3 (V : zmodType) (a b c d w a' b' c' : V) : a + d = a' -> b = b' -> c = c' -> a + (b + w) + (c + d) = a' + b' + c' + w.
Proof.
by move=> <- <- <-; rewrite -!addrA; congr (a + _); rewrite [RHS]addrCA; congr (b + _); rewrite addrA [RHS]addrC [w + c]addrC.
Qed.

Lemma k_C86_ppe_known_holds (q : PPE E) X x Y : bilinear E -> ppe_wf q (size X).+1 (size Y) ->
  (ppe_holds q (rcons X x) Y <-> ppe_holds (known_ppe q x) X Y).
Proof.
move=> [hl _ hz _] [ea eb eg]; apply: (@same_side (GT E) _ _ _ _ (pair_e x (nth 0 (ppe_b q) (size X)))); last by rewrite /= eb subrK.
rewrite /= eb /= size_rcons !big_ord_recr /= !nth_rl //; apply: regroup3.
- rewrite -big_split; apply: eq_bigr => j _ /=; by rewrite nth_mkseq ?ea // hl hz.
- by apply: eq_bigr => i _; rewrite (nth_rk _ _ erefl) // nth_take.
- by apply: eq_bigr => i _; apply: eq_bigr => j _; rewrite (nth_rk _ _ erefl) // -!at_entry at_take.
Qed.
Lemma k_C86_ms1_known_holds (q : MSMEG1 E) X x Y : ms1_wf q (size X).+1 (size Y) ->
  (ms1_holds q (rcons X x) Y <-> ms1_holds (known_ms1 q x) X Y).
Proof.
move=> [ea eb eg]; apply: (@same_side (G1 E) _ _ _ _ (nth 0 (ms1_b q) (size X) *: x)); last by rewrite /= eb subrK.
rewrite /= eb /= size_rcons !big_ord_recr /= !nth_rl //; apply: regroup3.
- rewrite -big_split; apply: eq_bigr => j _ /=; by rewrite nth_mkseq ?ea // scalerDr scalerA mulrC.
- by apply: eq_bigr => i _; rewrite (nth_rk _ _ erefl) // nth_take.
- by apply: eq_bigr => i _; apply: eq_bigr => j _; rewrite (nth_rk _ _ erefl) // -!at_entry at_take.
Qed.
Lemma k_C86_ms2_known_holds (q : MSMEG2 E) X x Y : ms2_wf q (size X).+1 (size Y) ->
  (ms2_holds q (rcons X x) Y <-> ms2_holds (known_ms2 q x) X Y).
Proof.
move=> [ea eb eg]; apply: (@same_side (G2 E) _ _ _ _ (x *: nth 0 (ms2_b q) (size X))); last by rewrite /= eb subrK.
rewrite /= eb /= size_rcons !big_ord_recr /= !nth_rl //; apply: regroup3.
- rewrite -big_split; apply: eq_bigr => j _ /=; by rewrite nth_mkseq ?ea // scalerDl.
- by apply: eq_bigr => i _; rewrite (nth_rk _ _ erefl) // nth_take.
- by apply: eq_bigr => i _; apply: eq_bigr => j _; rewrite (nth_rk _ _ erefl) // -!at_entry at_take.
Qed.
Lemma k_C86_quad_known_holds (q : QuadEqu E) X x Y : quad_wf q (size X).+1 (size Y) ->
  (quad_holds q (rcons X x) Y <-> quad_holds (known_quad q x) X Y).
Proof.
move=> [ea eb eg]; apply: (@same_side (Fr E) _ _ _ _ (x * nth 0 (quad_b q) (size X))); last by rewrite /= eb subrK.
rewrite /= eb /= size_rcons !big_ord_recr /= !nth_rl //; apply: regroup3.
- rewrite -big_split; apply: eq_bigr => j _ /=; by rewrite nth_mkseq ?ea // mulrDl.
- by apply: eq_bigr => i _; rewrite (nth_rk _ _ erefl) // nth_take.
- by apply: eq_bigr => i _; apply: eq_bigr => j _; rewrite (nth_rk _ _ erefl) // -!at_entry at_take.
Qed.

Lemma k_C86_ppe_known_wf (q : PPE E) (x : G1 E) m n : ppe_wf q m.+1 n -> ppe_wf (known_ppe q x) m n.
Proof. by case=> ea eb eg; split; rewrite /= ?eb /= ?size_mkseq ?size_takel ?eb //; exact: dims_take. Qed.
Lemma k_C86_ms1_known_wf (q : MSMEG1 E) (x : G1 E) m n : ms1_wf q m.+1 n -> ms1_wf (known_ms1 q x) m n.
Proof. by case=> ea eb eg; split; rewrite /= ?eb /= ?size_mkseq ?size_takel ?eb //; exact: dims_take. Qed.
Lemma k_C86_ms2_known_wf (q : MSMEG2 E) (x : Fr E) m n : ms2_wf q m.+1 n -> ms2_wf (known_ms2 q x) m n.
Proof. by case=> ea eb eg; split; rewrite /= ?eb /= ?size_mkseq ?size_takel ?eb //; exact: dims_take. Qed.
Lemma k_C86_quad_known_wf (q : QuadEqu E) (x : Fr E) m n : quad_wf q m.+1 n -> quad_wf (known_quad q x) m n.
Proof. by case=> ea eb eg; split; rewrite /= ?eb /= ?size_mkseq ?size_takel ?eb //; exact: dims_take. Qed.

Section Bilinear.
Hypothesis hb : bilinear E.
Let fb : bilin (@pairT E : Com1 E -> Com2 E -> ComT E) := comT_pairing_bilin hb.

Lemma regroup (V : zmodType) (a b c d w t P T : V) : (a + (b + w) + (c + d) == t + w + P + T) = (a + d + b + c == t + P + T).
Proof.
have -> : a + (b + w) + (c + d) = a + d + b + c + w.
  by rewrite -!addrA; congr (a + _); rewrite [RHS]addrCA; congr (b + _); rewrite addrA [RHS]addrC [w + c]addrC.
by rewrite [t + w + P]addrAC [t + P + w + T]addrAC (inj_eq (addIr w)).
Qed.

Lemma vv_known m k A A' z B B' G G' p t t' crs pf kx ky : size (coms (xcoms p)) = m ->
  (forall i, (i < m)%N -> nth 0 B' i = nth 0 B i) -> (forall j, (j < size (coms (ycoms p)))%N -> nth 0 A' j = nth 0 A j + at_ G m j *: z) ->
  (forall i j, (i < m)%N -> at_ G' i j = at_ G i j) -> t = t' + pairT z (nth 0 B m) ->
  verify_value (E := E) A B G (with_known k p z) t crs pf kx ky = verify_value A' B' G' p t' crs pf kx ky.
Proof.
move=> sc hB hA hG ->; rewrite /verify_value /= size_rcons sc !big_ord_recr /= !nth_rl //.
set P := \sum_(k < kx) _; set T := \sum_(l < ky) _; set w := pairT z _.
rewrite regroup; congr (_ == _).
have -> : \sum_(j < size (coms (ycoms p))) pairT (nth 0 A' j) (nth 0 (coms (ycoms p)) j)
  = \sum_(j < size (coms (ycoms p))) pairT (nth 0 A j) (nth 0 (coms (ycoms p)) j) + pairT z (\sum_(j < size (coms (ycoms p))) at_ G m j *: nth 0 (coms (ycoms p)) j).
  by rewrite (bil_sumr fb) -big_split; apply: eq_bigr => j _ /=; rewrite hA // (bilDl fb) (bilZl fb) (bilZr fb).
have -> : \sum_(i < m) pairT (nth 0 (coms (xcoms p)) i) (nth 0 B' i) = \sum_(i < m) pairT (nth 0 (rcons (coms (xcoms p)) z) i) (nth 0 B i).
  by apply: eq_bigr => i _; rewrite hB // (nth_rk _ _ sc).
have -> : \sum_(i < m) pairT (nth 0 (coms (xcoms p)) i) (\sum_(j < size (coms (ycoms p))) at_ G' i j *: nth 0 (coms (ycoms p)) j)
  = \sum_(i < m) pairT (nth 0 (rcons (coms (xcoms p)) z) i) (\sum_(j < size (coms (ycoms p))) at_ G i j *: nth 0 (coms (ycoms p)) j).
  by apply: eq_bigr => i _; rewrite (nth_rk _ _ sc) //; congr pairT; apply: eq_bigr => j _; rewrite hG.
by [].
Qed.

Lemma t_ppe (t : GT E) (x : G1 E) (y : G2 E) : (((0, 0), (0, t)) : ComT E) = (((0, 0), (0, t - pair_e x y)) : ComT E) + pairT (i1 x) (i2 y).
Proof.
have [_ _ hl hr] := hb; have e0 (y' : G2 E) : pair_e (0 : G1 E) y' = 0 by rewrite -[0](scale0r (0 : G1 E)) hl scale0r.
have e1 (x' : G1 E) : pair_e x' (0 : G2 E) = 0 by rewrite -[0](scale0r (0 : G2 E)) hr scale0r.
by rewrite /pairT /=; congr (_, _); congr (_, _); rewrite ?e0 ?e1 ?addr0 ?subrK.
Qed.
Lemma t_ms1 crs (t x : G1 E) (b : Fr E) : pairT (i1 t) (one2 crs) = pairT (i1 (t - b *: x)) (one2 crs) + pairT (i1 x) (k2 crs b).
Proof. by rewrite /k2 (bilZr fb) -(bilZl fb) -(bilDl fb) -lin_i1 subrK. Qed.
Lemma t_ms2 crs (t b : G2 E) (x : Fr E) : pairT (one1 crs) (i2 t) = pairT (one1 crs) (i2 (t - x *: b)) + pairT (k1 crs x) (i2 b).
Proof. by rewrite /k1 (bilZl fb) -(bilZr fb) -(bilDr fb); congr pairT; congr pair; rewrite /= ?scaler0 ?addr0 ?subrK. Qed.
Lemma t_quad crs (t b x : Fr E) : pairT (one1 crs) (k2 crs t) = pairT (one1 crs) (k2 crs (t - x * b)) + pairT (k1 crs x) (k2 crs b).
Proof. by rewrite /k1 (bilZl fb) -(bilZr fb) -(bilDr fb) /k2 scalerA -scalerDl subrK. Qed.

Lemma k_C86_ppe_known_verify sch sch' (q : PPE E) (x : G1 E) p crs : valid_sched sch -> valid_sched sch' ->
  (0 < size (coms (xcoms p)))%N -> (0 < size (coms (ycoms p)))%N -> ppe_wf q (size (coms (xcoms p))).+1 (size (coms (ycoms p))) ->
  ppe_verify sch q (with_known 2 p (i1 x)) crs = ppe_verify sch' (known_ppe q x) p crs.
Proof.
move=> vs vs' hm hn [ea eb eg]; rewrite (ppe_verify_total _ _ _ vs) (ppe_verify_total _ _ _ vs'); case: p hm hn ea eb eg => cx cy [|pf [|//]] //= hm hn ea eb eg.
have eb1 : (size (ppe_b q)).-1 = size (coms cx) by rewrite eb.
have st : size (take (size (coms cx)) (ppe_b q)) = size (coms cx) by rewrite size_takel // eb.
have -> : ppe_verify_checks q (size (rcons (coms cx) (i1 x))) (size (coms cy)) pf crs = ppe_verify_checks (known_ppe q x) (size (coms cx)) (size (coms cy)) pf crs.
  rewrite size_rcons /ppe_verify_checks [ppe_gamma (known_ppe q x)]/= [ppe_b (known_ppe q x)]/= [ppe_a (known_ppe q x)]/= eb1 !PadProps.gamma_ok //; last exact: dims_take.
  by rewrite /nilp ?size_mkseq ?ea ?st ?eb !eqxx ?(gtn_eqF hm) ?(gtn_eqF hn).
congr checked; rewrite /= eb /=; apply: (@vv_known (size (coms cx)) _ _ _ _ _ _ _ _ (mkCProof cx cy [:: pf])) => //=.
- by move=> i hi; have hi' := leqW hi; rewrite !(nth_map 0) ?st ?eb // nth_take.
- move=> j hj; rewrite !(nth_map 0) ?size_mkseq ?ea // nth_mkseq ?ea //; exact: lin_i1.
- by move=> i j hi; exact: at_take.
- by rewrite (nth_map 0) ?eb //; exact: t_ppe.
Qed.

Lemma k_C86_ms1_known_verify sch sch' (q : MSMEG1 E) (x : G1 E) p crs : valid_sched sch -> valid_sched sch' ->
  (0 < size (coms (xcoms p)))%N -> (0 < size (coms (ycoms p)))%N -> ms1_wf q (size (coms (xcoms p))).+1 (size (coms (ycoms p))) ->
  ms1_verify sch q (with_known 2 p (i1 x)) crs = ms1_verify sch' (known_ms1 q x) p crs.
Proof.
move=> vs vs' hm hn [ea eb eg]; rewrite (ms1_verify_total _ _ _ vs) (ms1_verify_total _ _ _ vs'); case: p hm hn ea eb eg => cx cy [|pf [|//]] //= hm hn ea eb eg.
have eb1 : (size (ms1_b q)).-1 = size (coms cx) by rewrite eb.
have st : size (take (size (coms cx)) (ms1_b q)) = size (coms cx) by rewrite size_takel // eb.
have -> : ms1_verify_checks q (size (rcons (coms cx) (i1 x))) (size (coms cy)) pf crs = ms1_verify_checks (known_ms1 q x) (size (coms cx)) (size (coms cy)) pf crs.
  rewrite size_rcons /ms1_verify_checks [ms1_gamma (known_ms1 q x)]/= [ms1_b (known_ms1 q x)]/= [ms1_a (known_ms1 q x)]/= eb1 !PadProps.gamma_ok //; last exact: dims_take.
  by rewrite /nilp ?size_mkseq ?ea ?st ?eb !eqxx ?(gtn_eqF hm) ?(gtn_eqF hn).
congr checked; rewrite /= eb /=; apply: (@vv_known (size (coms cx)) _ _ _ _ _ _ _ _ (mkCProof cx cy [:: pf])) => //=.
- by move=> i hi; have hi' := leqW hi; rewrite !(nth_map 0) ?st ?eb // nth_take.
- move=> j hj; rewrite !(nth_map 0) ?size_mkseq ?ea // nth_mkseq ?ea //; exact: lin_i1.
- by move=> i j hi; exact: at_take.
- by rewrite (nth_map 0) ?eb //; exact: t_ms1.
Qed.

Lemma k_C86_ms2_known_verify sch sch' (q : MSMEG2 E) (x : Fr E) p crs : valid_sched sch -> valid_sched sch' ->
  (0 < size (coms (xcoms p)))%N -> (0 < size (coms (ycoms p)))%N -> ms2_wf q (size (coms (xcoms p))).+1 (size (coms (ycoms p))) ->
  ms2_verify sch q (with_known 1 p (k1 crs x)) crs = ms2_verify sch' (known_ms2 q x) p crs.
Proof.
move=> vs vs' hm hn [ea eb eg]; rewrite (ms2_verify_total _ _ _ vs) (ms2_verify_total _ _ _ vs'); case: p hm hn ea eb eg => cx cy [|pf [|//]] //= hm hn ea eb eg.
have eb1 : (size (ms2_b q)).-1 = size (coms cx) by rewrite eb.
have st : size (take (size (coms cx)) (ms2_b q)) = size (coms cx) by rewrite size_takel // eb.
have -> : ms2_verify_checks q (size (rcons (coms cx) (k1 crs x))) (size (coms cy)) pf crs = ms2_verify_checks (known_ms2 q x) (size (coms cx)) (size (coms cy)) pf crs.
  rewrite size_rcons /ms2_verify_checks [ms2_gamma (known_ms2 q x)]/= [ms2_b (known_ms2 q x)]/= [ms2_a (known_ms2 q x)]/= eb1 !PadProps.gamma_ok //; last exact: dims_take.
  by rewrite /nilp ?size_mkseq ?ea ?st ?eb !eqxx ?(gtn_eqF hm) ?(gtn_eqF hn).
congr checked; rewrite /= eb /=; apply: (@vv_known (size (coms cx)) _ _ _ _ _ _ _ _ (mkCProof cx cy [:: pf])) => //=.
- by move=> i hi; have hi' := leqW hi; rewrite !(nth_map 0) ?st ?eb // nth_take.
- move=> j hj; rewrite !(nth_map 0) ?size_mkseq ?ea // nth_mkseq ?ea //; exact: lin_k1.
- by move=> i j hi; exact: at_take.
- by rewrite (nth_map 0) ?eb //; exact: t_ms2.
Qed.

Lemma k_C86_quad_known_verify sch sch' (q : QuadEqu E) (x : Fr E) p crs : valid_sched sch -> valid_sched sch' ->
  (0 < size (coms (xcoms p)))%N -> (0 < size (coms (ycoms p)))%N -> quad_wf q (size (coms (xcoms p))).+1 (size (coms (ycoms p))) ->
  quad_verify sch q (with_known 1 p (k1 crs x)) crs = quad_verify sch' (known_quad q x) p crs.
Proof.
move=> vs vs' hm hn [ea eb eg]; rewrite (quad_verify_total _ _ _ vs) (quad_verify_total _ _ _ vs'); case: p hm hn ea eb eg => cx cy [|pf [|//]] //= hm hn ea eb eg.
have eb1 : (size (quad_b q)).-1 = size (coms cx) by rewrite eb.
have st : size (take (size (coms cx)) (quad_b q)) = size (coms cx) by rewrite size_takel // eb.
have -> : quad_verify_checks q (size (rcons (coms cx) (k1 crs x))) (size (coms cy)) pf crs = quad_verify_checks (known_quad q x) (size (coms cx)) (size (coms cy)) pf crs.
  rewrite size_rcons /quad_verify_checks [quad_gamma (known_quad q x)]/= [quad_b (known_quad q x)]/= [quad_a (known_quad q x)]/= eb1 !PadProps.gamma_ok //; last exact: dims_take.
  by rewrite /nilp ?size_mkseq ?ea ?st ?eb !eqxx ?(gtn_eqF hm) ?(gtn_eqF hn).
congr checked; rewrite /= eb /=; apply: (@vv_known (size (coms cx)) _ _ _ _ _ _ _ _ (mkCProof cx cy [:: pf])) => //=.
- by move=> i hi; have hi' := leqW hi; rewrite !(nth_map 0) ?st ?eb // nth_take.
- move=> j hj; rewrite !(nth_map 0) ?size_mkseq ?ea // nth_mkseq ?ea //; exact: lin_k1.
- by move=> i j hi; exact: at_take.
- by rewrite (nth_map 0) ?eb //; exact: t_quad.
Qed.
End Bilinear.

Lemma k_C86_ppe_known_prove (R : rng E) sch sch' (q : PPE E) (X : seq (G1 E)) (x : G1 E) (Y : seq (G2 E)) cx cy crs (s : rst R) : valid_sched sch -> valid_sched sch' -> two_keys crs ->
  (0 < size X)%N -> (0 < size Y)%N -> ppe_wf q (size X).+1 (size Y) -> dims (size X) 2 (crand cx) -> dims (size Y) 2 (crand cy) ->
  ppe_prove sch q (rcons X x) Y (and_known 2 cx (i1 x)) cy crs s = ppe_prove sch' (known_ppe q x) X Y cx cy crs s.
Proof.
move=> vs vs' [hu hv] hx hy [ea eb eg] dx dy; have dk := dims_known dx.
have st : size (take (size X) (ppe_b q)) = size X by rewrite size_takel // eb.
have i1' : isok (ppe_prove sch q (rcons X x) Y (and_known 2 cx (i1 x)) cy crs s).
  by rewrite (isok_ppe_prove vs) hu hv ?eqxx ?andbT; apply: Main.prove_shapeI; rewrite ?size_rcons //; exact/Complete.dims_rect.
have i2' : isok (ppe_prove sch' (known_ppe q x) X Y cx cy crs s).
  by rewrite (isok_ppe_prove vs') /= hu hv ?eqxx ?andbT; apply: Main.prove_shapeI => //; rewrite ?eb /= ?size_mkseq // ?ea ?st //; first [exact/Complete.dims_rect | exact: dims_take].
rewrite (FormulaProps.ppe_prove_total _ _ _ _ _ _ _ vs) in i1' *; rewrite (FormulaProps.ppe_prove_total _ _ _ _ _ _ _ vs') in i2' *.
rewrite (checked_val i1') (checked_val i2') size_rcons map_rcons; congr (Ok (_, _)); rewrite /= eb /=; apply: pv_known.
- by rewrite size_map.
- by move=> i hi; have hi' := leqW hi; rewrite !(nth_map 0) ?st ?eb // nth_take.
- move=> j hj; rewrite !(nth_map 0) ?size_mkseq ?ea // nth_mkseq ?ea //; exact: lin_i1.
- by move=> i j hi; exact: at_take.
- by move=> i k hi; rewrite /at_ /mrow (nth_rk _ _ dx.1).
- by move=> [|[|k]] // hk; rewrite /at_ /mrow (nth_rl _ _ dx.1).
Qed.

Lemma k_C86_ms1_known_prove (R : rng E) sch sch' (q : MSMEG1 E) (X : seq (G1 E)) (x : G1 E) (Y : seq (Fr E)) cx cy crs (s : rst R) : valid_sched sch -> valid_sched sch' -> two_keys crs ->
  (0 < size X)%N -> (0 < size Y)%N -> ms1_wf q (size X).+1 (size Y) -> dims (size X) 2 (crand cx) -> dims (size Y) 1 (crand cy) ->
  ms1_prove sch q (rcons X x) Y (and_known 2 cx (i1 x)) cy crs s = ms1_prove sch' (known_ms1 q x) X Y cx cy crs s.
Proof.
move=> vs vs' [hu hv] hx hy [ea eb eg] dx dy; have dk := dims_known dx.
have st : size (take (size X) (ms1_b q)) = size X by rewrite size_takel // eb.
have i1' : isok (ms1_prove sch q (rcons X x) Y (and_known 2 cx (i1 x)) cy crs s).
  by rewrite (isok_ms1_prove vs) hu hv ?eqxx ?andbT; apply: Main.prove_shapeI; rewrite ?size_rcons //; exact/Complete.dims_rect.
have i2' : isok (ms1_prove sch' (known_ms1 q x) X Y cx cy crs s).
  by rewrite (isok_ms1_prove vs') /= hu hv ?eqxx ?andbT; apply: Main.prove_shapeI => //; rewrite ?eb /= ?size_mkseq // ?ea ?st //; first [exact/Complete.dims_rect | exact: dims_take].
rewrite (FormulaProps.ms1_prove_total _ _ _ _ _ _ _ vs) in i1' *; rewrite (FormulaProps.ms1_prove_total _ _ _ _ _ _ _ vs') in i2' *.
rewrite (checked_val i1') (checked_val i2') size_rcons map_rcons; congr (Ok (_, _)); rewrite /= eb /=; apply: pv_known.
- by rewrite size_map.
- by move=> i hi; have hi' := leqW hi; rewrite !(nth_map 0) ?st ?eb // nth_take.
- move=> j hj; rewrite !(nth_map 0) ?size_mkseq ?ea // nth_mkseq ?ea //; exact: lin_i1.
- by move=> i j hi; exact: at_take.
- by move=> i k hi; rewrite /at_ /mrow (nth_rk _ _ dx.1).
- by move=> [|[|k]] // hk; rewrite /at_ /mrow (nth_rl _ _ dx.1).
Qed.

Lemma k_C86_ms2_known_prove (R : rng E) sch sch' (q : MSMEG2 E) (X : seq (Fr E)) (x : Fr E) (Y : seq (G2 E)) cx cy crs (s : rst R) : valid_sched sch -> valid_sched sch' -> two_keys crs ->
  (0 < size X)%N -> (0 < size Y)%N -> ms2_wf q (size X).+1 (size Y) -> dims (size X) 1 (crand cx) -> dims (size Y) 2 (crand cy) ->
  ms2_prove sch q (rcons X x) Y (and_known 1 cx (k1 crs x)) cy crs s = ms2_prove sch' (known_ms2 q x) X Y cx cy crs s.
Proof.
move=> vs vs' [hu hv] hx hy [ea eb eg] dx dy; have dk := dims_known dx.
have st : size (take (size X) (ms2_b q)) = size X by rewrite size_takel // eb.
have i1' : isok (ms2_prove sch q (rcons X x) Y (and_known 1 cx (k1 crs x)) cy crs s).
  by rewrite (isok_ms2_prove vs) hu hv ?eqxx ?andbT; apply: Main.prove_shapeI; rewrite ?size_rcons //; exact/Complete.dims_rect.
have i2' : isok (ms2_prove sch' (known_ms2 q x) X Y cx cy crs s).
  by rewrite (isok_ms2_prove vs') /= hu hv ?eqxx ?andbT; apply: Main.prove_shapeI => //; rewrite ?eb /= ?size_mkseq // ?ea ?st //; first [exact/Complete.dims_rect | exact: dims_take].
rewrite (FormulaProps.ms2_prove_total _ _ _ _ _ _ _ vs) in i1' *; rewrite (FormulaProps.ms2_prove_total _ _ _ _ _ _ _ vs') in i2' *.
rewrite (checked_val i1') (checked_val i2') size_rcons map_rcons; congr (Ok (_, _)); rewrite /= eb /=; apply: pv_known.
- by rewrite size_map.
- by move=> i hi; have hi' := leqW hi; rewrite !(nth_map 0) ?st ?eb // nth_take.
- move=> j hj; rewrite !(nth_map 0) ?size_mkseq ?ea // nth_mkseq ?ea //; exact: lin_k1.
- by move=> i j hi; exact: at_take.
- by move=> i k hi; rewrite /at_ /mrow (nth_rk _ _ dx.1).
- by move=> [|[|k]] // hk; rewrite /at_ /mrow (nth_rl _ _ dx.1).
Qed.

Lemma k_C86_quad_known_prove (R : rng E) sch sch' (q : QuadEqu E) (X : seq (Fr E)) (x : Fr E) (Y : seq (Fr E)) cx cy crs (s : rst R) : valid_sched sch -> valid_sched sch' -> two_keys crs ->
  (0 < size X)%N -> (0 < size Y)%N -> quad_wf q (size X).+1 (size Y) -> dims (size X) 1 (crand cx) -> dims (size Y) 1 (crand cy) ->
  quad_prove sch q (rcons X x) Y (and_known 1 cx (k1 crs x)) cy crs s = quad_prove sch' (known_quad q x) X Y cx cy crs s.
Proof.
move=> vs vs' [hu hv] hx hy [ea eb eg] dx dy; have dk := dims_known dx.
have st : size (take (size X) (quad_b q)) = size X by rewrite size_takel // eb.
have i1' : isok (quad_prove sch q (rcons X x) Y (and_known 1 cx (k1 crs x)) cy crs s).
  by rewrite (isok_quad_prove vs) hu hv ?eqxx ?andbT; apply: Main.prove_shapeI; rewrite ?size_rcons //; exact/Complete.dims_rect.
have i2' : isok (quad_prove sch' (known_quad q x) X Y cx cy crs s).
  by rewrite (isok_quad_prove vs') /= hu hv ?eqxx ?andbT; apply: Main.prove_shapeI => //; rewrite ?eb /= ?size_mkseq // ?ea ?st //; first [exact/Complete.dims_rect | exact: dims_take].
rewrite (FormulaProps.quad_prove_total _ _ _ _ _ _ _ vs) in i1' *; rewrite (FormulaProps.quad_prove_total _ _ _ _ _ _ _ vs') in i2' *.
rewrite (checked_val i1') (checked_val i2') size_rcons map_rcons; congr (Ok (_, _)); rewrite /= eb /=; apply: pv_known.
- by rewrite size_map.
- by move=> i hi; have hi' := leqW hi; rewrite !(nth_map 0) ?st ?eb // nth_take.
- move=> j hj; rewrite !(nth_map 0) ?size_mkseq ?ea // nth_mkseq ?ea //; exact: lin_k1.
- by move=> i j hi; exact: at_take.
- by move=> i k hi; rewrite /at_ /mrow (nth_rk _ _ dx.1).
- by move=> [|[|k]] // hk; rewrite /at_ /mrow (nth_rl _ _ dx.1).
Qed.

Lemma k_C86_ppe_known (q : PPE E) (X : seq (G1 E)) (x : G1 E) (Y : seq (G2 E)) : bilinear E -> ppe_wf q (size X).+1 (size Y) ->
  ppe_wf (known_ppe q x) (size X) (size Y) /\ (ppe_holds q (rcons X x) Y <-> ppe_holds (known_ppe q x) X Y).
Proof. by move=> hb h; split; [exact: k_C86_ppe_known_wf | exact: k_C86_ppe_known_holds]. Qed.

Lemma k_C86_ms1_known (q : MSMEG1 E) (X : seq (G1 E)) (x : G1 E) (Y : seq (Fr E)) : ms1_wf q (size X).+1 (size Y) ->
  ms1_wf (known_ms1 q x) (size X) (size Y) /\ (ms1_holds q (rcons X x) Y <-> ms1_holds (known_ms1 q x) X Y).
Proof. by move=> h; split; [exact: k_C86_ms1_known_wf | exact: k_C86_ms1_known_holds]. Qed.

Lemma k_C86_ms2_known (q : MSMEG2 E) (X : seq (Fr E)) (x : Fr E) (Y : seq (G2 E)) : ms2_wf q (size X).+1 (size Y) ->
  ms2_wf (known_ms2 q x) (size X) (size Y) /\ (ms2_holds q (rcons X x) Y <-> ms2_holds (known_ms2 q x) X Y).
Proof. by move=> h; split; [exact: k_C86_ms2_known_wf | exact: k_C86_ms2_known_holds]. Qed.

Lemma k_C86_quad_known (q : QuadEqu E) (X : seq (Fr E)) (x : Fr E) (Y : seq (Fr E)) : quad_wf q (size X).+1 (size Y) ->
  quad_wf (known_quad q x) (size X) (size Y) /\ (quad_holds q (rcons X x) Y <-> quad_holds (known_quad q x) X Y).
Proof. by move=> h; split; [exact: k_C86_quad_known_wf | exact: k_C86_quad_known_holds]. Qed.
End Known.
