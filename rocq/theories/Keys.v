(** Arbitrary commitment keys: a kind of commitment is either binding, with a linear extraction map, or all
    values lie in the span of the key; the effect on the verification equation. *)
From mathcomp Require Import all_ssreflect all_algebra.
From Verif Require Import Base BaseLemmas Group DataStructures MatLemmas CoreAlg ComLemmas.
From Verif Require Import Commit Statement Verify Spec SpecKeys CommitLemmas VerifyLemmas Holds Sound.
Set Implicit Arguments.
Unset Strict Implicit.
Unset Printing Implicit Defensive.
Import GRing.Theory.
Local Open Scope ring_scope.

Section Lf.
Context {F : fieldType} {G : lmodType F}.
Implicit Types c : com G.
Definition lf (a b : F) c : G := a *: c.1 + b *: c.2.
Lemma lfD a b c c' : lf a b (c + c') = lf a b c + lf a b c'.
Proof. by rewrite /lf /= !scalerDr addrACA. Qed.
Lemma lfZ a b k c : lf a b (k *: c) = k *: lf a b c.
Proof. by rewrite /lf /= scalerDr !scalerA !(mulrC k). Qed.
Lemma lf0 a b : lf a b 0 = 0.
Proof. by rewrite /lf /= !scaler0 addr0. Qed.
Lemma lf_lin a x : lf a 1 (0, x) = x.
Proof. by rewrite /lf /= scaler0 add0r scale1r. Qed.

Hypothesis hc : cyclic G.

Lemma group_dich (w1 w2 : com G) :
  (exists a, lf a 1 w1 = 0 /\ lf a 1 w2 = 0) \/ (forall x, exists r1 r2, (0, x) = r1 *: w1 + r2 *: w2 :> com G).
Proof.
have spans (r1 r2 : F) (y : G) : y != 0 -> (0, y) = r1 *: w1 + r2 *: w2 :> com G ->
    forall x, exists r1 r2, (0, x) = r1 *: w1 + r2 *: w2 :> com G.
  move=> hy e x; have [k ->] := hc x hy; exists (k * r1), (k * r2).
  by rewrite -!scalerA -scalerDr -e /GRing.scale /= /scale_pair /= scaler0.
case: w1 w2 spans => [p1 q1] [p2 q2] spans; rewrite /lf /=.
case: (eqVneq p1 0) => [e1|n1].
  subst p1; case: (eqVneq q1 0) => [e1|n1]; last first.
    by right; apply: (spans 1 0 q1) => //; rewrite scale1r scale0r addr0.
  subst q1; case: (eqVneq p2 0) => [e2|n2].
    subst p2; case: (eqVneq q2 0) => [e2|n2].
      by subst q2; left; exists 0; rewrite !scaler0 addr0.
    by right; apply: (spans 0 1 q2) => //; rewrite scale1r scale0r add0r.
  have [k ->] := hc q2 n2; left; exists (- k).
  by rewrite !scaler0 addr0 scale1r scaleNr addNr.
have [k e1] := hc q1 n1; subst q1; have [t e2] := hc p2 n1; subst p2.
case: (eqVneq (q2 - t *: (k *: p1)) 0) => [e|n].
  left; exists (- k); rewrite !scale1r scaleNr addNr; split=> //.
  by move/eqP: e; rewrite subr_eq0 => /eqP ->; rewrite !scalerA mulNr mulrC scaleNr addNr.
right; apply: (spans (- t) 1 _ n); rewrite scale1r.
by rewrite -[_ *: (p1, _)]/(_, _) -[X in _ = X]/(_, _); congr (_, _); rewrite /= scaleNr ?addNr // addrC.
Qed.

Lemma scal_dich (w1 w2 : com G) :
  (exists a b, lf a b w1 = 0 /\ lf a b w2 != 0) \/ (exists t, w2 = t *: w1).
Proof.
case: w1 w2 => [p1 q1] [p2 q2]; rewrite /lf /=.
case: (eqVneq p1 0) => [e1|n1].
  subst p1; case: (eqVneq p2 0) => [e2|n2]; last first.
    by left; exists 1, 0; rewrite scaler0 !scale0r !addr0 scale1r.
  subst p2; case: (eqVneq q1 0) => [e1|n1].
    subst q1; case: (eqVneq q2 0) => [e2|n2].
      by subst q2; right; exists 0; rewrite scale0r.
    by left; exists 0, 1; rewrite !scaler0 addr0 scale1r add0r.
  by have [t ->] := hc q2 n1; right; exists t; rewrite -[RHS]/(_, _) /= scaler0.
have [k ->] := hc q1 n1; have [t e2] := hc p2 n1; subst p2.
case: (eqVneq (q2 - t *: (k *: p1)) 0) => [/eqP|n].
  by rewrite subr_eq0 => /eqP ->; right; exists t.
left; exists (- k), 1; rewrite !scale1r scaleNr addNr; split=> //.
by rewrite !scalerA mulNr mulrC scaleNr addrC -scalerA.
Qed.
End Lf.

Section Kinds.
Context {E : pairing}.
Implicit Types crs : CRS E.
Variable crs : CRS E.

(** The four kinds of commitment. *)
Lemma G1_kind : cyclic (G1 E) ->
  (exists a, lf a 1 (u1 crs) = 0 /\ lf a 1 (u2 crs) = 0) \/ (forall x, exists r1 r2, (0, x) = r1 *: u1 crs + r2 *: u2 crs).
Proof. by move=> hc; apply: group_dich. Qed.
Lemma G2_kind : cyclic (G2 E) ->
  (exists a, lf a 1 (v1 crs) = 0 /\ lf a 1 (v2 crs) = 0) \/ (forall x, exists r1 r2, (0, x) = r1 *: v1 crs + r2 *: v2 crs).
Proof. by move=> hc; apply: group_dich. Qed.
Lemma B1_kind : cyclic (G1 E) ->
  (exists a b, lf a b (u1 crs) = 0 /\ lf a b (u2 crs + (0, g1_gen crs)) != 0) \/ (exists t, u2 crs + (0, g1_gen crs) = t *: u1 crs).
Proof. by move=> hc; apply: scal_dich. Qed.
Lemma B2_kind : cyclic (G2 E) ->
  (exists a b, lf a b (v1 crs) = 0 /\ lf a b (v2 crs + (0, g2_gen crs)) != 0) \/ (exists t, v2 crs + (0, g2_gen crs) = t *: v1 crs).
Proof. by move=> hc; apply: scal_dich. Qed.

Lemma lf_G1 a x r c : lf a 1 (u1 crs) = 0 -> lf a 1 (u2 crs) = 0 -> com_G1 crs x r c -> lf a 1 c = x.
Proof. by move=> h1 h2 [r1 [r2 [_ ->]]]; rewrite !lfD !lfZ h1 h2 !scaler0 !addr0 lf_lin. Qed.
Lemma lf_G2 a x r c : lf a 1 (v1 crs) = 0 -> lf a 1 (v2 crs) = 0 -> com_G2 crs x r c -> lf a 1 c = x.
Proof. by move=> h1 h2 [r1 [r2 [_ ->]]]; rewrite !lfD !lfZ h1 h2 !scaler0 !addr0 lf_lin. Qed.
Lemma lf_B1 a b x r c : lf a b (u1 crs) = 0 -> com_B1 crs x r c -> lf a b c = x *: lf a b (u2 crs + (0, g1_gen crs)).
Proof. by move=> h1 [r1 [_ ->]]; rewrite (lfD a b (x *: _)) (lfZ a b x) lfZ h1 scaler0 addr0. Qed.
Lemma lf_B2 a b x r c : lf a b (v1 crs) = 0 -> com_B2 crs x r c -> lf a b c = x *: lf a b (v2 crs + (0, g2_gen crs)).
Proof. by move=> h1 [r1 [_ ->]]; rewrite (lfD a b (x *: _)) (lfZ a b x) lfZ h1 scaler0 addr0. Qed.

Lemma binds_G1 a : lf a 1 (u1 crs) = 0 -> lf a 1 (u2 crs) = 0 -> binding_for com_G1 crs.
Proof. by move=> h1 h2 x x' r r' c hc hc'; rewrite -(lf_G1 h1 h2 hc) (lf_G1 h1 h2 hc'). Qed.
Lemma binds_G2 a : lf a 1 (v1 crs) = 0 -> lf a 1 (v2 crs) = 0 -> binding_for com_G2 crs.
Proof. by move=> h1 h2 x x' r r' c hc hc'; rewrite -(lf_G2 h1 h2 hc) (lf_G2 h1 h2 hc'). Qed.
Lemma binds_B1 a b : lf a b (u1 crs) = 0 -> lf a b (u2 crs + (0, g1_gen crs)) != 0 -> binding_for com_B1 crs.
Proof. by move=> h1 h2 x x' r r' c hc hc'; apply: (scaleI h2); rewrite -(lf_B1 h1 hc) (lf_B1 h1 hc'). Qed.
Lemma binds_B2 a b : lf a b (v1 crs) = 0 -> lf a b (v2 crs + (0, g2_gen crs)) != 0 -> binding_for com_B2 crs.
Proof. by move=> h1 h2 x x' r r' c hc hc'; apply: (scaleI h2); rewrite -(lf_B2 h1 hc) (lf_B2 h1 hc'). Qed.

Lemma spans_G1 : g1_gen crs != 0 -> (forall x, exists r1 r2, (0, x) = r1 *: u1 crs + r2 *: u2 crs) -> ~ binding_for com_G1 crs.
Proof.
move=> hp h; have [r1 [r2 e]] := h (g1_gen crs) => /(_ (g1_gen crs) 0 [:: 0; 0] [:: r1; r2] (0, g1_gen crs)) hb.
move: hp; rewrite hb ?eqxx //; first by exists 0, 0; rewrite !scale0r !addr0.
by exists r1, r2; split=> //; rewrite {1}e -[(0, 0) + _]/(0 + _) add0r.
Qed.
Lemma spans_G2 : g2_gen crs != 0 -> (forall x, exists r1 r2, (0, x) = r1 *: v1 crs + r2 *: v2 crs) -> ~ binding_for com_G2 crs.
Proof.
move=> hp h; have [r1 [r2 e]] := h (g2_gen crs) => /(_ (g2_gen crs) 0 [:: 0; 0] [:: r1; r2] (0, g2_gen crs)) hb.
move: hp; rewrite hb ?eqxx //; first by exists 0, 0; rewrite !scale0r !addr0.
by exists r1, r2; split=> //; rewrite {1}e -[(0, 0) + _]/(0 + _) add0r.
Qed.
Lemma spans_B1 t : u2 crs + (0, g1_gen crs) = t *: u1 crs -> ~ binding_for com_B1 crs.
Proof.
move=> e /(_ 1 0 [:: 0] [:: t] (t *: u1 crs)) hb; have /eqP : 1 = 0 :> Fr E; last by rewrite oner_eq0.
apply: hb; first by exists 0; rewrite e scale1r scale0r addr0.
by exists t; rewrite scale0r add0r.
Qed.
Lemma spans_B2 t : v2 crs + (0, g2_gen crs) = t *: v1 crs -> ~ binding_for com_B2 crs.
Proof.
move=> e /(_ 1 0 [:: 0] [:: t] (t *: v1 crs)) hb; have /eqP : 1 = 0 :> Fr E; last by rewrite oner_eq0.
apply: hb; first by exists 0; rewrite e scale1r scale0r addr0.
by exists t; rewrite scale0r add0r.
Qed.
End Kinds.

Section Pairings.
Context {E : pairing}.
Hypothesis hb : bilinear E.
Let eb := pair_bilin hb.
Let fb := comT_pairing_bilin hb.
Notation f := (comT_pairing : Com1 E -> Com2 E -> ComT E).

Definition lfT (a b a' b' : Fr E) (z : ComT E) : GT E :=
  a *: (a' *: z.1.1 + b' *: z.1.2) + b *: (a' *: z.2.1 + b' *: z.2.2).
Lemma lfTD a b a' b' z z' : lfT a b a' b' (z + z') = lfT a b a' b' z + lfT a b a' b' z'.
Proof.
have D k l (p p' q q' : GT E) : k *: (p + p') + l *: (q + q') = (k *: p + l *: q) + (k *: p' + l *: q').
  by rewrite !scalerDr addrACA.
by rewrite /lfT /= (D a') (D a' b' z.2.1) D.
Qed.
Lemma lfT_f a b a' b' x y : lfT a b a' b' (f x y) = pair_e (lf a b x) (lf a' b' y).
Proof. by rewrite /lfT /lf /= (bilDl eb) !(bilZl eb) !(bilDr eb) !(bilZr eb). Qed.
Lemma lfT_sum a b a' b' I (r : seq I) g : lfT a b a' b' (\sum_(i <- r) g i) = \sum_(i <- r) lfT a b a' b' (g i).
Proof.
apply: (big_morph (lfT a b a' b')); first exact: lfTD.
by rewrite /lfT /= !scaler0 !addr0 !scaler0 addr0.
Qed.

Lemma veq_lf a b a' b' A B (G : matrix (Fr E)) c d t u p th v kx ky :
  (forall i, (i < kx)%N -> lf a b (nth 0 u i) = 0) -> (forall i, (i < ky)%N -> lf a' b' (nth 0 v i) = 0) ->
  veq A B G c d t u p th v kx ky ->
  gs_eq (@pair_e E) (size c) (size d) (ent 0 G)
    (fun j => lf a b (nth 0 A j)) (fun k => lf a b (nth 0 c k))
    (fun k => lf a' b' (nth 0 B k)) (fun j => lf a' b' (nth 0 d j)) = lfT a b a' b' t.
Proof.
move=> ku kv /eqP /(congr1 (lfT a b a' b')); rewrite !lfTD !lfT_sum.
have z n g : (forall i, (i < n)%N -> g i = 0) -> \sum_(0 <= i < n) g i = 0 :> GT E.
  by move=> h; rewrite big_mkord big1 // => i _; apply: h.
rewrite (z kx) => [|i hi]; last by rewrite lfT_f ku ?(bil0l eb).
rewrite (z ky) => [|i hi]; last by rewrite lfT_f kv ?(bil0r eb).
rewrite !addr0 => <-; rewrite /gs_eq; congr (_ + _ + _); apply: eq_bigr => k _.
- by rewrite lfT_f.
- by rewrite lfT_f.
rewrite lfT_f; congr (pair_e _ _).
rewrite (big_morph (lf a' b') (lfD a' b') (id1 := 0)); last exact: lf0.
by apply: eq_bigr => j _; rewrite lfZ.
Qed.

(** Values in the span of a key are absorbed by the proof. *)
Section Absorb.
Variables (k : nat) (u : seq (Com1 E)) (v : seq (Com2 E)).
Definition inU (c : Com1 E) := exists a : nat -> Fr E, c = \sum_(0 <= i < k) a i *: nth 0 u i.
Definition inV (d : Com2 E) := exists a : nat -> Fr E, d = \sum_(0 <= i < k) a i *: nth 0 v i.
Lemma inVD d d' : inV d -> inV d' -> inV (d + d').
Proof. by move=> [a ->] [a' ->]; exists (fun i => a i + a' i); rewrite -big_split; apply: eq_bigr => i _; rewrite scalerDl. Qed.
Lemma inVZ z d : inV d -> inV (z *: d).
Proof. by move=> [a ->]; exists (fun i => z * a i); rewrite scaler_sumr; apply: eq_bigr => i _; rewrite scalerA. Qed.
Lemma inUD d d' : inU d -> inU d' -> inU (d + d').
Proof. by move=> [a ->] [a' ->]; exists (fun i => a i + a' i); rewrite -big_split; apply: eq_bigr => i _; rewrite scalerDl. Qed.
Lemma inUZ z d : inU d -> inU (z *: d).
Proof. by move=> [a ->]; exists (fun i => z * a i); rewrite scaler_sumr; apply: eq_bigr => i _; rewrite scalerA. Qed.
Lemma inV0 : inV 0.
Proof. by exists (fun=> 0); rewrite big1 // => i _; rewrite scale0r. Qed.
Lemma inV_sum n (g : nat -> Com2 E) : (forall i, (i < n)%N -> inV (g i)) -> inV (\sum_(0 <= i < n) g i).
Proof.
move=> h; rewrite big_seq; apply: (big_ind inV) => [||i]; [exact: inV0 | exact: inVD |].
by rewrite mem_index_iota => /h.
Qed.

Definition absU (w : ComT E) := exists p : nat -> Com2 E, w = \sum_(0 <= i < k) f (nth 0 u i) (p i).
Definition absV (w : ComT E) := exists p : nat -> Com1 E, w = \sum_(0 <= i < k) f (p i) (nth 0 v i).
Lemma absU_f c d : inU c -> absU (f c d).
Proof. by move=> [a ->]; exists (fun i => a i *: d); rewrite (bil_suml fb); apply: eq_bigr => i _; rewrite (bilZl fb) (bilZr fb). Qed.
Lemma absV_f c d : inV d -> absV (f c d).
Proof. by move=> [a ->]; exists (fun i => a i *: c); rewrite (bil_sumr fb); apply: eq_bigr => i _; rewrite (bilZl fb) (bilZr fb). Qed.
Lemma absUD w w' : absU w -> absU w' -> absU (w + w').
Proof. by move=> [a ->] [a' ->]; exists (fun i => a i + a' i); rewrite -big_split; apply: eq_bigr => i _; rewrite (bilDr fb). Qed.
Lemma absVD w w' : absV w -> absV w' -> absV (w + w').
Proof. by move=> [a ->] [a' ->]; exists (fun i => a i + a' i); rewrite -big_split; apply: eq_bigr => i _; rewrite (bilDl fb). Qed.
Lemma absUN w : absU w -> absU (- w).
Proof. by move=> [a ->]; exists (fun i => - a i); rewrite -sumrN; apply: eq_bigr => i _; rewrite (bilNr fb). Qed.
Lemma absVN w : absV w -> absV (- w).
Proof. by move=> [a ->]; exists (fun i => - a i); rewrite -sumrN; apply: eq_bigr => i _; rewrite (bilNl fb). Qed.
Lemma absU0 : absU 0.
Proof. by exists (fun=> 0); rewrite big1 // => i _; rewrite (bil0r fb). Qed.
Lemma absV0 : absV 0.
Proof. by exists (fun=> 0); rewrite big1 // => i _; rewrite (bil0l fb). Qed.
Lemma absU_sum n (g : nat -> ComT E) : (forall i, (i < n)%N -> absU (g i)) -> absU (\sum_(0 <= i < n) g i).
Proof.
move=> h; rewrite big_seq; apply: (big_ind absU) => [||i]; [exact: absU0 | exact: absUD |].
by rewrite mem_index_iota => /h.
Qed.
Lemma absV_sum n (g : nat -> ComT E) : (forall i, (i < n)%N -> absV (g i)) -> absV (\sum_(0 <= i < n) g i).
Proof.
move=> h; rewrite big_seq; apply: (big_ind absV) => [||i]; [exact: absV0 | exact: absVD |].
by rewrite mem_index_iota => /h.
Qed.

Lemma veq_absU ky v' A B G c d t : absU t ->
  (forall j, (j < size d)%N -> inU (nth 0 A j)) -> (forall i, (i < size c)%N -> inU (nth 0 c i)) ->
  exists p th, [/\ size p = k, size th = ky & veq A B G c d t u p th v' k ky].
Proof.
move=> ht hA hc.
have [p hp] : absU (gs_eq f (size c) (size d) (ent 0 G) (nth 0 A) (nth 0 c) (nth 0 B) (nth 0 d) - t).
  apply: absUD (absUN ht); apply: absUD; [apply: absUD|]; apply: absU_sum => i hi; apply: absU_f; auto.
exists (mkseq p k), (nseq ky 0); rewrite size_mkseq size_nseq; split=> //; apply/eqP.
rewrite [X in _ + X]big1 ?addr0 => [|l _]; last by rewrite nth_nseq if_same (bil0l fb).
rewrite (eq_big_nat _ _ (F2 := fun i => f (nth 0 u i) (p i))) => [|i /andP[_ hi]]; last by rewrite nth_mkseq.
by rewrite -hp addrC subrK.
Qed.
Lemma veq_absV kx u' A B G c d t : absV t ->
  (forall i, (i < size c)%N -> inV (nth 0 B i)) -> (forall j, (j < size d)%N -> inV (nth 0 d j)) ->
  exists p th, [/\ size p = kx, size th = k & veq A B G c d t u' p th v kx k].
Proof.
move=> ht hB hd.
have [p hp] : absV (gs_eq f (size c) (size d) (ent 0 G) (nth 0 A) (nth 0 c) (nth 0 B) (nth 0 d) - t).
  apply: absVD (absVN ht); apply: absVD; [apply: absVD|]; apply: absV_sum => i hi; apply: absV_f; auto.
  by apply: inV_sum => j hj; apply: inVZ; auto.
exists (nseq kx 0), (mkseq p k); rewrite size_mkseq size_nseq; split=> //; apply/eqP.
rewrite [X in _ + X + _]big1 ?addr0 => [|l _]; last by rewrite nth_nseq if_same (bil0r fb).
rewrite (eq_big_nat _ _ (F2 := fun i => f (p i) (nth 0 v i))) => [|i /andP[_ hi]]; last by rewrite nth_mkseq.
by rewrite -hp addrC subrK.
Qed.
End Absorb.
End Pairings.
