(** Proofs of the statements in P_KnownY.v. *)
From mathcomp Require Import all_ssreflect all_algebra.
From Verif Require Import Base BaseLemmas Group DataStructures MatLemmas CoreAlg ComLemmas Generator Commit Statement Prove Verify Spec SpecMat SpecVerify SpecHide SpecPanic SpecFormula ProveLemmas VerifyLemmas FormulaProps Complete Main ComProps PadProps SpecMirror MirrorProps SpecKnown KnownProps.
Set Implicit Arguments.
Unset Strict Implicit.
Unset Printing Implicit Defensive.
Import GRing.Theory.
Local Open Scope ring_scope.

Section Known.
Variable E : pairing.
Implicit Types (crs : CRS E).

Lemma at_cut n (G : matrix (Fr E)) i j : (j < n)%N -> at_ [seq take n r | r <- G] i j = at_ G i j.
Proof.
move=> h; rewrite /at_ /mrow; case: (ltnP i (size G)) => hi; first by rewrite (nth_map [::]) // nth_take.
by rewrite !(nth_default [::]) ?size_map.
Qed.
Lemma dims_cut m n (G : matrix (Fr E)) : dims m n.+1 G -> dims m n [seq take n r | r <- G].
Proof.
case=> sG hG; split; first by rewrite size_map.
by move=> i hi; rewrite (nth_map [::]) ?sG // size_takel // hG.
Qed.

Lemma pv_known_y m n kx ky A A' X B B' Y w G G' R S S' T crs t : size Y = n ->
  (forall j, (j < n)%N -> nth 0 A' j = nth 0 A j) -> (forall i, (i < m)%N -> nth 0 B' i = nth 0 B i + at_ G i n *: w) ->
  (forall i j, (j < n)%N -> at_ G' i j = at_ G i j) ->
  (forall j l, (j < n)%N -> at_ S' j l = at_ S j l) -> (forall l, (l < ky)%N -> at_ S' n l = 0) ->
  prove_value (E := E) m n.+1 kx ky A X B (rcons Y w) G R S' T crs t = prove_value m n kx ky A' X B' Y G' R S T crs t.
Proof.
move=> sY hA hB hG hS hS0; rewrite /prove_value; congr mkEquProof; apply: mkext => k hk.
  have e j : (j < n)%N -> \sum_(i < m) at_ R i k * at_ G i j = \sum_(i < m) at_ R i k * at_ G' i j.
    by move=> hj; apply: eq_bigr => i _; rewrite hG.
  congr (_ + _).
    rewrite big_ord_recr /= nth_rl // scaler_suml [X in _ + X]addrC addrA; congr (_ + _).
      by rewrite -big_split; apply: eq_bigr => i _ /=; rewrite hB // scalerDr scalerA.
    by apply: eq_bigr => j _; rewrite (nth_rk _ _ sY) // e.
  by apply: eq_bigr => l _; congr ((_ - _) *: _); rewrite big_ord_recr /= hS0 // mulr0 addr0; apply: eq_bigr => j _; rewrite e // hS.
congr (_ + _ + _).
  by rewrite big_ord_recr /= hS0 // scale0r addr0; apply: eq_bigr => j _; rewrite hS // hA.
by apply: eq_bigr => i _; congr (_ *: _); rewrite big_ord_recr /= hS0 // mul0r addr0; apply: eq_bigr => j _; rewrite hS // hG.
Qed.

Lemma lin_i2 (a x : G2 E) (g : Fr E) : i2 (a + g *: x) = i2 a + g *: i2 x :> Com2 E.
Proof. by congr pair; rewrite /= scaler0 addr0. Qed.
Lemma lin_k2 crs (a x g : Fr E) : k2 crs (a + g * x) = k2 crs a + g *: k2 crs x.
Proof. by rewrite /k2 scalerDl scalerA. Qed.

Lemma regroup4 (V : zmodType) (a b c d w a' b' c' : V) : a = a' -> b + d = b' -> c = c' -> a + w + b + (c + d) = a' + b' + c' + w.
Proof.
by move=> <- <- <-; rewrite -!addrA; congr (a + _); rewrite addrCA; congr (b + _); rewrite addrA [RHS]addrC [w + c]addrC.
Qed.

Lemma k_C86_ppe_known_y (q : PPE E) (X : seq (G1 E)) (Y : seq (G2 E)) (y : G2 E) : bilinear E -> ppe_wf q (size X) (size Y).+1 ->
  ppe_wf (known_y_ppe q y) (size X) (size Y) /\ (ppe_holds q X (rcons Y y) <-> ppe_holds (known_y_ppe q y) X Y).
Proof.
move=> [_ hr _ hz] [ea eb eg]; split.
  by split; rewrite /= ?ea /= ?size_mkseq ?size_takel ?ea //; exact: dims_cut.
apply: (@same_side (GT E) _ _ _ _ (pair_e (nth 0 (ppe_a q) (size Y)) y)); last by rewrite /= ea subrK.
rewrite /= ea /= size_rcons big_ord_recr /= nth_rl //.
under [X in _ + X = _]eq_bigr => i _ do rewrite big_ord_recr /= nth_rl //.
rewrite [X in _ + X = _]big_split; apply: regroup4.
- by apply: eq_bigr => j _; rewrite (nth_rk _ _ erefl) // nth_take.
- by rewrite -big_split; apply: eq_bigr => i _ /=; rewrite nth_mkseq ?eb // hr hz.
- by apply: eq_bigr => i _; apply: eq_bigr => j _; rewrite (nth_rk _ _ erefl) // -!at_entry at_cut.
Qed.

Lemma k_C86_ms1_known_y (q : MSMEG1 E) (X : seq (G1 E)) (Y : seq (Fr E)) (y : Fr E) : ms1_wf q (size X) (size Y).+1 ->
  ms1_wf (known_y_ms1 q y) (size X) (size Y) /\ (ms1_holds q X (rcons Y y) <-> ms1_holds (known_y_ms1 q y) X Y).
Proof.
move=> [ea eb eg]; split.
  by split; rewrite /= ?ea /= ?size_mkseq ?size_takel ?ea //; exact: dims_cut.
apply: (@same_side (G1 E) _ _ _ _ (y *: nth 0 (ms1_a q) (size Y))); last by rewrite /= ea subrK.
rewrite /= ea /= size_rcons big_ord_recr /= nth_rl //.
under [X in _ + X = _]eq_bigr => i _ do rewrite big_ord_recr /= nth_rl //.
rewrite [X in _ + X = _]big_split; apply: regroup4.
- by apply: eq_bigr => j _; rewrite (nth_rk _ _ erefl) // nth_take.
- by rewrite -big_split; apply: eq_bigr => i _ /=; rewrite nth_mkseq ?eb // scalerDl.
- by apply: eq_bigr => i _; apply: eq_bigr => j _; rewrite (nth_rk _ _ erefl) // -!at_entry at_cut.
Qed.

Lemma k_C86_ms2_known_y (q : MSMEG2 E) (X : seq (Fr E)) (Y : seq (G2 E)) (y : G2 E) : ms2_wf q (size X) (size Y).+1 ->
  ms2_wf (known_y_ms2 q y) (size X) (size Y) /\ (ms2_holds q X (rcons Y y) <-> ms2_holds (known_y_ms2 q y) X Y).
Proof.
move=> [ea eb eg]; split.
  by split; rewrite /= ?ea /= ?size_mkseq ?size_takel ?ea //; exact: dims_cut.
apply: (@same_side (G2 E) _ _ _ _ (nth 0 (ms2_a q) (size Y) *: y)); last by rewrite /= ea subrK.
rewrite /= ea /= size_rcons big_ord_recr /= nth_rl //.
under [X in _ + X = _]eq_bigr => i _ do rewrite big_ord_recr /= nth_rl //.
rewrite [X in _ + X = _]big_split; apply: regroup4.
- by apply: eq_bigr => j _; rewrite (nth_rk _ _ erefl) // nth_take.
- by rewrite -big_split; apply: eq_bigr => i _ /=; rewrite nth_mkseq ?eb // scalerDr scalerA mulrC.
- by apply: eq_bigr => i _; apply: eq_bigr => j _; rewrite (nth_rk _ _ erefl) // -!at_entry at_cut.
Qed.

Lemma k_C86_quad_known_y (q : QuadEqu E) (X : seq (Fr E)) (Y : seq (Fr E)) (y : Fr E) : quad_wf q (size X) (size Y).+1 ->
  quad_wf (known_y_quad q y) (size X) (size Y) /\ (quad_holds q X (rcons Y y) <-> quad_holds (known_y_quad q y) X Y).
Proof.
move=> [ea eb eg]; split.
  by split; rewrite /= ?ea /= ?size_mkseq ?size_takel ?ea //; exact: dims_cut.
apply: (@same_side (Fr E) _ _ _ _ (nth 0 (quad_a q) (size Y) * y)); last by rewrite /= ea subrK.
rewrite /= ea /= size_rcons big_ord_recr /= nth_rl //.
under [X in _ + X = _]eq_bigr => i _ do rewrite big_ord_recr /= nth_rl //.
rewrite [X in _ + X = _]big_split; apply: regroup4.
- by apply: eq_bigr => j _; rewrite (nth_rk _ _ erefl) // nth_take.
- by rewrite -big_split; apply: eq_bigr => i _ /=; rewrite nth_mkseq ?eb // mulrDr mulrCA mulrA.
- by apply: eq_bigr => i _; apply: eq_bigr => j _; rewrite (nth_rk _ _ erefl) // -!at_entry at_cut.
Qed.

Section Bilinear.
Hypothesis hb : bilinear E.
Let fb : bilin (@pairT E : Com1 E -> Com2 E -> ComT E) := comT_pairing_bilin hb.

Lemma regroup5 (V : zmodType) (a b c d w t P T : V) : (a + w + b + (c + d) == t + w + P + T) = (a + (b + d) + c == t + P + T).
Proof. by rewrite (@regroup4 V a b c d w _ _ _ erefl erefl erefl) [t + w + P]addrAC [t + P + w + T]addrAC (inj_eq (addIr w)). Qed.

Lemma vv_known_y n k A A' w B B' G G' p t t' crs pf kx ky : size (coms (ycoms p)) = n ->
  (forall j, (j < n)%N -> nth 0 A' j = nth 0 A j) -> (forall i, (i < size (coms (xcoms p)))%N -> nth 0 B' i = nth 0 B i + at_ G i n *: w) ->
  (forall i j, (j < n)%N -> at_ G' i j = at_ G i j) -> t = t' + pairT (nth 0 A n) w ->
  verify_value (E := E) A B G (with_known_y k p w) t crs pf kx ky = verify_value A' B' G' p t' crs pf kx ky.
Proof.
move=> sd hA hB hG ->; rewrite /verify_value /= size_rcons sd big_ord_recr /= nth_rl //.
under [X in _ + X == _]eq_bigr => i _ do rewrite big_ord_recr /= nth_rl // (bilDr fb).
rewrite [X in _ + X == _]big_split regroup5; congr (_ + _ + _ == _).
- by apply: eq_bigr => j _; rewrite hA // (nth_rk _ _ sd).
- by rewrite -big_split; apply: eq_bigr => i _ /=; rewrite hB // (bilDr fb).
- by apply: eq_bigr => i _; congr pairT; apply: eq_bigr => j _; rewrite hG // (nth_rk _ _ sd).
Qed.

Lemma k_C86_ppe_known_y_verify sch sch' (q : PPE E) (y : G2 E) p crs : valid_sched sch -> valid_sched sch' ->
  (0 < size (coms (xcoms p)))%N -> (0 < size (coms (ycoms p)))%N -> ppe_wf q (size (coms (xcoms p))) (size (coms (ycoms p))).+1 ->
  ppe_verify sch q (with_known_y 2 p (i2 y)) crs = ppe_verify sch' (known_y_ppe q y) p crs.
Proof.
move=> vs vs' hm hn [ea eb eg]; rewrite (ppe_verify_total _ _ _ vs) (ppe_verify_total _ _ _ vs'); case: p hm hn ea eb eg => cx cy [|pf [|//]] //= hm hn ea eb eg.
have ea1 : (size (ppe_a q)).-1 = size (coms cy) by rewrite ea.
have st : size (take (size (coms cy)) (ppe_a q)) = size (coms cy) by rewrite size_takel // ea.
have -> : ppe_verify_checks q (size (coms cx)) (size (rcons (coms cy) (i2 y))) pf crs = ppe_verify_checks (known_y_ppe q y) (size (coms cx)) (size (coms cy)) pf crs.
  rewrite size_rcons /ppe_verify_checks [ppe_gamma (known_y_ppe q y)]/= [ppe_b (known_y_ppe q y)]/= [ppe_a (known_y_ppe q y)]/= ea1 !PadProps.gamma_ok //; last exact: dims_cut.
  by rewrite /nilp ?size_mkseq ?eb ?st ?ea !eqxx ?(gtn_eqF hm) ?(gtn_eqF hn).
congr checked; rewrite /= ea /=; apply: (@vv_known_y (size (coms cy)) _ _ _ _ _ _ _ _ (mkCProof cx cy [:: pf])) => //=.
- by move=> i hi; have hi' := leqW hi; rewrite !(nth_map 0) ?st ?ea // nth_take.
- move=> j hj; rewrite !(nth_map 0) ?size_mkseq ?eb // nth_mkseq ?eb //; exact: lin_i2.
- by move=> i j hi; exact: at_cut.
- by rewrite (nth_map 0) ?ea //; exact: t_ppe.
Qed.

Lemma k_C86_ms1_known_y_verify sch sch' (q : MSMEG1 E) (y : Fr E) p crs : valid_sched sch -> valid_sched sch' ->
  (0 < size (coms (xcoms p)))%N -> (0 < size (coms (ycoms p)))%N -> ms1_wf q (size (coms (xcoms p))) (size (coms (ycoms p))).+1 ->
  ms1_verify sch q (with_known_y 1 p (k2 crs y)) crs = ms1_verify sch' (known_y_ms1 q y) p crs.
Proof.
move=> vs vs' hm hn [ea eb eg]; rewrite (ms1_verify_total _ _ _ vs) (ms1_verify_total _ _ _ vs'); case: p hm hn ea eb eg => cx cy [|pf [|//]] //= hm hn ea eb eg.
have ea1 : (size (ms1_a q)).-1 = size (coms cy) by rewrite ea.
have st : size (take (size (coms cy)) (ms1_a q)) = size (coms cy) by rewrite size_takel // ea.
have -> : ms1_verify_checks q (size (coms cx)) (size (rcons (coms cy) (k2 crs y))) pf crs = ms1_verify_checks (known_y_ms1 q y) (size (coms cx)) (size (coms cy)) pf crs.
  rewrite size_rcons /ms1_verify_checks [ms1_gamma (known_y_ms1 q y)]/= [ms1_b (known_y_ms1 q y)]/= [ms1_a (known_y_ms1 q y)]/= ea1 !PadProps.gamma_ok //; last exact: dims_cut.
  by rewrite /nilp ?size_mkseq ?eb ?st ?ea !eqxx ?(gtn_eqF hm) ?(gtn_eqF hn).
congr checked; rewrite /= ea /=; apply: (@vv_known_y (size (coms cy)) _ _ _ _ _ _ _ _ (mkCProof cx cy [:: pf])) => //=.
- by move=> i hi; have hi' := leqW hi; rewrite !(nth_map 0) ?st ?ea // nth_take.
- move=> j hj; rewrite !(nth_map 0) ?size_mkseq ?eb // nth_mkseq ?eb //; exact: lin_k2.
- by move=> i j hi; exact: at_cut.
- by rewrite (nth_map 0) ?ea //; exact: t_ms1.
Qed.

Lemma k_C86_ms2_known_y_verify sch sch' (q : MSMEG2 E) (y : G2 E) p crs : valid_sched sch -> valid_sched sch' ->
  (0 < size (coms (xcoms p)))%N -> (0 < size (coms (ycoms p)))%N -> ms2_wf q (size (coms (xcoms p))) (size (coms (ycoms p))).+1 ->
  ms2_verify sch q (with_known_y 2 p (i2 y)) crs = ms2_verify sch' (known_y_ms2 q y) p crs.
Proof.
move=> vs vs' hm hn [ea eb eg]; rewrite (ms2_verify_total _ _ _ vs) (ms2_verify_total _ _ _ vs'); case: p hm hn ea eb eg => cx cy [|pf [|//]] //= hm hn ea eb eg.
have ea1 : (size (ms2_a q)).-1 = size (coms cy) by rewrite ea.
have st : size (take (size (coms cy)) (ms2_a q)) = size (coms cy) by rewrite size_takel // ea.
have -> : ms2_verify_checks q (size (coms cx)) (size (rcons (coms cy) (i2 y))) pf crs = ms2_verify_checks (known_y_ms2 q y) (size (coms cx)) (size (coms cy)) pf crs.
  rewrite size_rcons /ms2_verify_checks [ms2_gamma (known_y_ms2 q y)]/= [ms2_b (known_y_ms2 q y)]/= [ms2_a (known_y_ms2 q y)]/= ea1 !PadProps.gamma_ok //; last exact: dims_cut.
  by rewrite /nilp ?size_mkseq ?eb ?st ?ea !eqxx ?(gtn_eqF hm) ?(gtn_eqF hn).
congr checked; rewrite /= ea /=; apply: (@vv_known_y (size (coms cy)) _ _ _ _ _ _ _ _ (mkCProof cx cy [:: pf])) => //=.
- by move=> i hi; have hi' := leqW hi; rewrite !(nth_map 0) ?st ?ea // nth_take.
- move=> j hj; rewrite !(nth_map 0) ?size_mkseq ?eb // nth_mkseq ?eb //; exact: lin_i2.
- by move=> i j hi; exact: at_cut.
- by rewrite (nth_map 0) ?ea //; exact: t_ms2.
Qed.

Lemma k_C86_quad_known_y_verify sch sch' (q : QuadEqu E) (y : Fr E) p crs : valid_sched sch -> valid_sched sch' ->
  (0 < size (coms (xcoms p)))%N -> (0 < size (coms (ycoms p)))%N -> quad_wf q (size (coms (xcoms p))) (size (coms (ycoms p))).+1 ->
  quad_verify sch q (with_known_y 1 p (k2 crs y)) crs = quad_verify sch' (known_y_quad q y) p crs.
Proof.
move=> vs vs' hm hn [ea eb eg]; rewrite (quad_verify_total _ _ _ vs) (quad_verify_total _ _ _ vs'); case: p hm hn ea eb eg => cx cy [|pf [|//]] //= hm hn ea eb eg.
have ea1 : (size (quad_a q)).-1 = size (coms cy) by rewrite ea.
have st : size (take (size (coms cy)) (quad_a q)) = size (coms cy) by rewrite size_takel // ea.
have -> : quad_verify_checks q (size (coms cx)) (size (rcons (coms cy) (k2 crs y))) pf crs = quad_verify_checks (known_y_quad q y) (size (coms cx)) (size (coms cy)) pf crs.
  rewrite size_rcons /quad_verify_checks [quad_gamma (known_y_quad q y)]/= [quad_b (known_y_quad q y)]/= [quad_a (known_y_quad q y)]/= ea1 !PadProps.gamma_ok //; last exact: dims_cut.
  by rewrite /nilp ?size_mkseq ?eb ?st ?ea !eqxx ?(gtn_eqF hm) ?(gtn_eqF hn).
congr checked; rewrite /= ea /=; apply: (@vv_known_y (size (coms cy)) _ _ _ _ _ _ _ _ (mkCProof cx cy [:: pf])) => //=.
- by move=> i hi; have hi' := leqW hi; rewrite !(nth_map 0) ?st ?ea // nth_take.
- move=> j hj; rewrite !(nth_map 0) ?size_mkseq ?eb // nth_mkseq ?eb //; exact: lin_k2.
- by move=> i j hi; exact: at_cut.
- by rewrite (nth_map 0) ?ea //; exact: t_quad.
Qed.
End Bilinear.

Lemma k_C86_ppe_known_y_prove (R : rng E) sch sch' (q : PPE E) (X : seq (G1 E)) (Y : seq (G2 E)) (y : G2 E) cx cy crs (s : rst R) : valid_sched sch -> valid_sched sch' -> two_keys crs ->
  (0 < size X)%N -> (0 < size Y)%N -> ppe_wf q (size X) (size Y).+1 -> dims (size X) 2 (crand cx) -> dims (size Y) 2 (crand cy) ->
  ppe_prove sch q X (rcons Y y) cx (and_known_y 2 cy (i2 y)) crs s = ppe_prove sch' (known_y_ppe q y) X Y cx cy crs s.
Proof.
move=> vs vs' [hu hv] hx hy [ea eb eg] dx dy; have dk := dims_known dy.
have st : size (take (size Y) (ppe_a q)) = size Y by rewrite size_takel // ea.
have i1' : isok (ppe_prove sch q X (rcons Y y) cx (and_known_y 2 cy (i2 y)) crs s).
  by rewrite (isok_ppe_prove vs) hu hv ?eqxx ?andbT; apply: Main.prove_shapeI; rewrite ?size_rcons //; exact/Complete.dims_rect.
have i2' : isok (ppe_prove sch' (known_y_ppe q y) X Y cx cy crs s).
  by rewrite (isok_ppe_prove vs') /= hu hv ?eqxx ?andbT; apply: Main.prove_shapeI => //; rewrite ?ea /= ?size_mkseq // ?eb ?st //; first [exact/Complete.dims_rect | exact: dims_cut].
rewrite (FormulaProps.ppe_prove_total _ _ _ _ _ _ _ vs) in i1' *; rewrite (FormulaProps.ppe_prove_total _ _ _ _ _ _ _ vs') in i2' *.
rewrite (checked_val i1') (checked_val i2') size_rcons map_rcons; congr (Ok (_, _)); rewrite /= ea /=; apply: pv_known_y.
- by rewrite size_map.
- by move=> i hi; have hi' := leqW hi; rewrite !(nth_map 0) ?st ?ea // nth_take.
- move=> j hj; rewrite !(nth_map 0) ?size_mkseq ?eb // nth_mkseq ?eb //; exact: lin_i2.
- by move=> i j hi; exact: at_cut.
- by move=> i k hi; rewrite /at_ /mrow (nth_rk _ _ dy.1).
- by move=> [|[|k]] // hk; rewrite /at_ /mrow (nth_rl _ _ dy.1).
Qed.

Lemma k_C86_ms1_known_y_prove (R : rng E) sch sch' (q : MSMEG1 E) (X : seq (G1 E)) (Y : seq (Fr E)) (y : Fr E) cx cy crs (s : rst R) : valid_sched sch -> valid_sched sch' -> two_keys crs ->
  (0 < size X)%N -> (0 < size Y)%N -> ms1_wf q (size X) (size Y).+1 -> dims (size X) 2 (crand cx) -> dims (size Y) 1 (crand cy) ->
  ms1_prove sch q X (rcons Y y) cx (and_known_y 1 cy (k2 crs y)) crs s = ms1_prove sch' (known_y_ms1 q y) X Y cx cy crs s.
Proof.
move=> vs vs' [hu hv] hx hy [ea eb eg] dx dy; have dk := dims_known dy.
have st : size (take (size Y) (ms1_a q)) = size Y by rewrite size_takel // ea.
have i1' : isok (ms1_prove sch q X (rcons Y y) cx (and_known_y 1 cy (k2 crs y)) crs s).
  by rewrite (isok_ms1_prove vs) hu hv ?eqxx ?andbT; apply: Main.prove_shapeI; rewrite ?size_rcons //; exact/Complete.dims_rect.
have i2' : isok (ms1_prove sch' (known_y_ms1 q y) X Y cx cy crs s).
  by rewrite (isok_ms1_prove vs') /= hu hv ?eqxx ?andbT; apply: Main.prove_shapeI => //; rewrite ?ea /= ?size_mkseq // ?eb ?st //; first [exact/Complete.dims_rect | exact: dims_cut].
rewrite (FormulaProps.ms1_prove_total _ _ _ _ _ _ _ vs) in i1' *; rewrite (FormulaProps.ms1_prove_total _ _ _ _ _ _ _ vs') in i2' *.
rewrite (checked_val i1') (checked_val i2') size_rcons map_rcons; congr (Ok (_, _)); rewrite /= ea /=; apply: pv_known_y.
- by rewrite size_map.
- by move=> i hi; have hi' := leqW hi; rewrite !(nth_map 0) ?st ?ea // nth_take.
- move=> j hj; rewrite !(nth_map 0) ?size_mkseq ?eb // nth_mkseq ?eb //; exact: lin_k2.
- by move=> i j hi; exact: at_cut.
- by move=> i k hi; rewrite /at_ /mrow (nth_rk _ _ dy.1).
- by move=> [|[|k]] // hk; rewrite /at_ /mrow (nth_rl _ _ dy.1).
Qed.

Lemma k_C86_ms2_known_y_prove (R : rng E) sch sch' (q : MSMEG2 E) (X : seq (Fr E)) (Y : seq (G2 E)) (y : G2 E) cx cy crs (s : rst R) : valid_sched sch -> valid_sched sch' -> two_keys crs ->
  (0 < size X)%N -> (0 < size Y)%N -> ms2_wf q (size X) (size Y).+1 -> dims (size X) 1 (crand cx) -> dims (size Y) 2 (crand cy) ->
  ms2_prove sch q X (rcons Y y) cx (and_known_y 2 cy (i2 y)) crs s = ms2_prove sch' (known_y_ms2 q y) X Y cx cy crs s.
Proof.
move=> vs vs' [hu hv] hx hy [ea eb eg] dx dy; have dk := dims_known dy.
have st : size (take (size Y) (ms2_a q)) = size Y by rewrite size_takel // ea.
have i1' : isok (ms2_prove sch q X (rcons Y y) cx (and_known_y 2 cy (i2 y)) crs s).
  by rewrite (isok_ms2_prove vs) hu hv ?eqxx ?andbT; apply: Main.prove_shapeI; rewrite ?size_rcons //; exact/Complete.dims_rect.
have i2' : isok (ms2_prove sch' (known_y_ms2 q y) X Y cx cy crs s).
  by rewrite (isok_ms2_prove vs') /= hu hv ?eqxx ?andbT; apply: Main.prove_shapeI => //; rewrite ?ea /= ?size_mkseq // ?eb ?st //; first [exact/Complete.dims_rect | exact: dims_cut].
rewrite (FormulaProps.ms2_prove_total _ _ _ _ _ _ _ vs) in i1' *; rewrite (FormulaProps.ms2_prove_total _ _ _ _ _ _ _ vs') in i2' *.
rewrite (checked_val i1') (checked_val i2') size_rcons map_rcons; congr (Ok (_, _)); rewrite /= ea /=; apply: pv_known_y.
- by rewrite size_map.
- by move=> i hi; have hi' := leqW hi; rewrite !(nth_map 0) ?st ?ea // nth_take.
- move=> j hj; rewrite !(nth_map 0) ?size_mkseq ?eb // nth_mkseq ?eb //; exact: lin_i2.
- by move=> i j hi; exact: at_cut.
- by move=> i k hi; rewrite /at_ /mrow (nth_rk _ _ dy.1).
- by move=> [|[|k]] // hk; rewrite /at_ /mrow (nth_rl _ _ dy.1).
Qed.

Lemma k_C86_quad_known_y_prove (R : rng E) sch sch' (q : QuadEqu E) (X : seq (Fr E)) (Y : seq (Fr E)) (y : Fr E) cx cy crs (s : rst R) : valid_sched sch -> valid_sched sch' -> two_keys crs ->
  (0 < size X)%N -> (0 < size Y)%N -> quad_wf q (size X) (size Y).+1 -> dims (size X) 1 (crand cx) -> dims (size Y) 1 (crand cy) ->
  quad_prove sch q X (rcons Y y) cx (and_known_y 1 cy (k2 crs y)) crs s = quad_prove sch' (known_y_quad q y) X Y cx cy crs s.
Proof.
move=> vs vs' [hu hv] hx hy [ea eb eg] dx dy; have dk := dims_known dy.
have st : size (take (size Y) (quad_a q)) = size Y by rewrite size_takel // ea.
have i1' : isok (quad_prove sch q X (rcons Y y) cx (and_known_y 1 cy (k2 crs y)) crs s).
  by rewrite (isok_quad_prove vs) hu hv ?eqxx ?andbT; apply: Main.prove_shapeI; rewrite ?size_rcons //; exact/Complete.dims_rect.
have i2' : isok (quad_prove sch' (known_y_quad q y) X Y cx cy crs s).
  by rewrite (isok_quad_prove vs') /= hu hv ?eqxx ?andbT; apply: Main.prove_shapeI => //; rewrite ?ea /= ?size_mkseq // ?eb ?st //; first [exact/Complete.dims_rect | exact: dims_cut].
rewrite (FormulaProps.quad_prove_total _ _ _ _ _ _ _ vs) in i1' *; rewrite (FormulaProps.quad_prove_total _ _ _ _ _ _ _ vs') in i2' *.
rewrite (checked_val i1') (checked_val i2') size_rcons map_rcons; congr (Ok (_, _)); rewrite /= ea /=; apply: pv_known_y.
- by rewrite size_map.
- by move=> i hi; have hi' := leqW hi; rewrite !(nth_map 0) ?st ?ea // nth_take.
- move=> j hj; rewrite !(nth_map 0) ?size_mkseq ?eb // nth_mkseq ?eb //; exact: lin_k2.
- by move=> i j hi; exact: at_cut.
- by move=> i k hi; rewrite /at_ /mrow (nth_rk _ _ dy.1).
- by move=> [|[|k]] // hk; rewrite /at_ /mrow (nth_rl _ _ dy.1).
Qed.
End Known.
