(** Which proofs verify: existence under a hiding key, and the proofs of a true statement are exactly the outputs of the prover. *)
From mathcomp Require Import all_ssreflect all_algebra.
From Verif Require Import Base BaseLemmas Group DataStructures MatLemmas CoreAlg ComLemmas.
From Verif Require Import Generator Commit Statement Prove Verify Spec SpecMat SpecVerify SpecHide ProveLemmas CommitLemmas VerifyLemmas Holds Complete Draws GenProps HideCore HideTape Hiding RerandCore.
Set Implicit Arguments.
Unset Strict Implicit.
Unset Printing Implicit Defensive.
Import GRing.Theory.
Local Open Scope ring_scope.

Section Splits.
Context {E : pairing}.
Notation f := (comT_pairing : Com1 E -> Com2 E -> ComT E).
Hypotheses (hb : bilinear E) (hn : nondegenerate E) (hc1 : cyclic (G1 E)) (hc2 : cyclic (G2 E)).
Let fb := comT_pairing_bilin hb.
Let eb := pair_bilin hb.

(** Every pair of vectors that cancels in the verification equation is
    [x = - T v], [y = T u]. *)
Definition splits (kx ky : nat) (u : nat -> Com1 E) (v : nat -> Com2 E) : Prop :=
  forall (x : nat -> Com2 E) (y : nat -> Com1 E),
    \sum_(0 <= i < kx) f (u i) (x i) + \sum_(0 <= l < ky) f (y l) (v l) = 0 ->
  exists T : nat -> nat -> Fr E, (forall i, (i < kx)%N -> x i = - \sum_(0 <= l < ky) T l i *: v l)
    /\ (forall l, (l < ky)%N -> y l = \sum_(0 <= i < kx) T l i *: u i).

Variable crs : CRS E.
Hypothesis hp : proper_crs crs.

Lemma pair_inj1 (x : G1 E) (Q : G2 E) : Q != 0 -> pair_e x Q = 0 -> x = 0.
Proof. by move=> hQ /hn[//|e]; move: hQ; rewrite e eqxx. Qed.

Lemma key_solve1 (Q : G2 E) a t (x y : G1 E) : Q != 0 ->
  pair_e x Q + pair_e y (t *: Q) = 0 -> pair_e x (a *: Q) + pair_e y (t *: (a *: Q) - Q) = 0 -> x = 0 /\ y = 0.
Proof.
move=> hQ; rewrite (bilZr eb) -(bilZl eb) -(bilDl eb) => /(pair_inj1 hQ) h1.
have h2 : t *: (a *: Q) - Q = (t * a - 1) *: Q by rewrite scalerBl scale1r scalerA.
rewrite h2 !(bilZr eb) -!(bilZl eb) -(bilDl eb) => /(pair_inj1 hQ).
have -> : x = - (t *: y) by apply/eqP; rewrite -addr_eq0 h1.
rewrite scalerN scalerBl scale1r scalerA mulrC addrA addNr sub0r => /eqP; rewrite oppr_eq0 => /eqP ->.
by rewrite scaler0 oppr0.
Qed.
Lemma indep2' (w w' : Com1 E) : hiding_crs crs -> f w (v1 crs) + f w' (v2 crs) = 0 -> w = 0 /\ w' = 0.
Proof.
case=> a1 [a2 [t1 [t2 [_ -> _]]]]; case: hp => _ h1; rewrite /=.
case: w w' => [x1 x2] [y1 y2] [e1 e2 e3 e4].
by have [-> ->] := key_solve1 h1 e1 e2; have [-> ->] := key_solve1 h1 e3 e4.
Qed.

Lemma splits2 ky : hiding_crs crs -> splits 2 ky (nth 0 (crs_u crs)) (nth 0 (crs_v crs)).
Proof.
move=> hh x y h; have [T hT] := span_u hc1 hc2 hh hp ky y.
exists T; split=> [i hi|l hl]; last by rewrite hT.
move: h; rewrite (eq_big_nat _ _ (F1 := fun l => f (y l) _) (F2 := fun l => \sum_(0 <= i < 2) f (nth 0 (crs_u crs) i) (T l i *: nth 0 (crs_v crs) l))); last first.
  move=> l /andP[_ hl]; rewrite hT // /lin (bil_suml fb); apply: eq_bigr => i0 _; by rewrite (bilZl fb) (bilZr fb).
rewrite exchange_big /= -big_split /=.
rewrite (eq_bigr (fun i => f (nth 0 (crs_u crs) i) (x i + \sum_(0 <= l < ky) T l i *: nth 0 (crs_v crs) l))); last first.
  by move=> i0 _; rewrite (bilDr fb) (bil_sumr fb).
rewrite big2 => /(indep2 hb hn hh hp)[e0 e1]; apply/eqP; rewrite -addr_eq0; apply/eqP.
by case: i hi => [|[|i]].
Qed.
Lemma splits12 : hiding_crs crs -> splits 1 2 (nth 0 (crs_u crs)) (nth 0 (crs_v crs)).
Proof.
move=> hh x y h; have [T hT] := span_v hc1 hc2 hh hp 1 (fun i => - x i).
exists (fun l i => T i l); split=> [i hi|l hl]; first by rewrite -[x i]opprK hT.
move: h; rewrite big_nat1.
have -> : x 0%N = - lin 2 (nth 0 (crs_v crs)) (T 0%N) by rewrite -hT // opprK.
rewrite big2 /lin big2 (bilNr fb) (bilDr fb) !(bilZr fb) -!(bilZl fb) opprD addrACA.
rewrite -!(bilNl fb) -!(bilDl fb) => /(indep2' hh)[e0 e1].
rewrite big_nat1; apply/eqP; rewrite -subr_eq0 addrC; apply/eqP.
by case: l hl => [|[|l]].
Qed.
Lemma splits11 : binding_crs crs \/ hiding_crs crs -> splits 1 1 (nth 0 (crs_u crs)) (nth 0 (crs_v crs)).
Proof.
move=> hh; have [a1 [a2 [eu ev]]] : exists a1 a2, u1 crs = (g1_gen crs, a1 *: g1_gen crs) /\ v1 crs = (g2_gen crs, a2 *: g2_gen crs).
  by case: hh => -[a1 [a2 [t1 [t2 [-> -> _]]]]]; exists a1, a2.
move=> x y; rewrite !big_nat1 -/(u1 crs) -/(v1 crs) eu ev.
case: hp => h1 h2; case ex : (x 0%N) => [x1 x2]; case ey : (y 0%N) => [y1 y2] /= [e1 e2 e3 _].
have [z hz] := hc1 y1 h1; subst y1.
have hx1 : x1 = - (z *: g2_gen crs).
  apply/eqP; rewrite -addr_eq0; apply/eqP; apply: (pair_inj0 hn h1).
  by rewrite (bilDr eb) (bilZr eb) -(bilZl eb).
have hx2 : x2 = - (z *: (a2 *: g2_gen crs)).
  apply/eqP; rewrite -addr_eq0; apply/eqP; apply: (pair_inj0 hn h1).
  by rewrite (bilDr eb) (bilZr eb) -(bilZl eb).
have hy2 : y2 = z *: (a1 *: g1_gen crs).
  apply/eqP; rewrite -subr_eq0; apply/eqP; apply: (pair_inj1 h2).
  by rewrite (bilDl eb) (bilNl eb) (bilZl eb) -(bilZr eb) -(bilNr eb) -hx1 addrC.
exists (fun _ _ => z); split=> -[|//] _; rewrite big_nat1 -/(u1 crs) -/(v1 crs) ?ex ?ey ?eu ?ev.
  by rewrite hx1 hx2.
by rewrite hy2.
Qed.

Definition free (kx : nat) (u : nat -> Com1 E) : Prop :=
  forall a b : nat -> Fr E, \sum_(0 <= i < kx) a i *: u i = \sum_(0 <= i < kx) b i *: u i -> forall i, (i < kx)%N -> a i = b i.
Lemma free2 : hiding_crs crs -> free 2 (nth 0 (crs_u crs)).
Proof.
move=> hh a b; rewrite !big2 => h; have [k _] := hiding_crs_inj hh hp (a 0%N) (a 1%N) (b 0%N) (b 1%N).
by have [e0 e1] := k h; case=> [|[|i]].
Qed.
Lemma free1 : binding_crs crs \/ hiding_crs crs -> free 1 (nth 0 (crs_u crs)).
Proof.
move=> hh a b; rewrite !big_nat1 => h [|//] _.
have [a1 eu] : exists a1, u1 crs = (g1_gen crs, a1 *: g1_gen crs).
  by case: hh => -[a1 [a2 [t1 [t2 [-> _ _]]]]]; exists a1.
move: h; rewrite -/(u1 crs) eu => -[/eqP]; rewrite -subr_eq0 -scalerBl scaler_eq0 => /orP[/eqP/subr0_eq //|h] _.
by case: hp => h1 _; move: h1; rewrite h.
Qed.
End Splits.

Section Unique.
Context {E : pairing}.
Notation f := (comT_pairing : Com1 E -> Com2 E -> ComT E).
Hypothesis hb : bilinear E.
Let fb := comT_pairing_bilin hb.
Variables (m n kx ky N : nat) (A X u : nat -> Com1 E) (B Y v : nat -> Com2 E) (G R S : nat -> nat -> Fr E).
Hypotheses (hN : N = (kx * ky)%N) (hs : splits kx ky u v) (hf : free kx u).

Definition Tt (t : nat -> Fr E) (l i : nat) : Fr E := t (kx * l + i)%N.
Definition hon (t : nat -> Fr E) : seq (Com2 E) * seq (Com1 E) :=
  (mkseq (gs_pi m n ky B Y v G R S (Tt t)) kx, mkseq (gs_th m n kx A X u G S (Tt t)) ky).

Lemma TtE (t t' : nat -> Fr E) : (forall k, (k < N)%N -> t k = t' k) -> hon t = hon t'.
Proof.
move=> h.
have e i l : (i < kx)%N -> (l < ky)%N -> Tt t l i = Tt t' l i.
  move=> hi hl; apply: h; rewrite hN; apply: (@leq_trans (kx * l.+1)); last by rewrite leq_mul2l hl orbT.
  by rewrite mulnS addnC ltn_add2r.
rewrite /hon; congr (_, _); apply: eq_in_mkseq => k hk.
  by apply: eq_gs_pi => // l hl; exact: e.
by apply: eq_gs_th => // i hi; exact: e.
Qed.

Lemma hon_split (t0 : nat -> Fr E) (p : seq (Com2 E)) (th : seq (Com1 E)) : size p = kx -> size th = ky ->
  \sum_(0 <= i < kx) f (u i) (nth 0 p i) + \sum_(0 <= l < ky) f (nth 0 th l) (v l)
  = \sum_(0 <= i < kx) f (u i) (nth 0 (hon t0).1 i) + \sum_(0 <= l < ky) f (nth 0 (hon t0).2 l) (v l) ->
  exists T, (p, th) = hon (fun k => T (k %/ kx)%N (k %% kx)%N).
Proof.
move=> hsp hst h.
have [|T [hx hy]] := hs (x := fun i => nth 0 p i - nth 0 (hon t0).1 i) (y := fun l => nth 0 th l - nth 0 (hon t0).2 l).
  rewrite (eq_bigr (fun i => f (u i) (nth 0 p i) - f (u i) (nth 0 (hon t0).1 i))); last by move=> i _; rewrite (bilDr fb) (bilNr fb).
  rewrite [X in _ + X](eq_bigr (fun l => f (nth 0 th l) (v l) - f (nth 0 (hon t0).2 l) (v l))); last by move=> i _; rewrite (bilDl fb) (bilNl fb).
  by rewrite !sumrB addrACA -opprD h subrr.
exists (fun l i => Tt t0 l i + T l i).
have e l i : (i < kx)%N -> Tt (fun k => Tt t0 (k %/ kx)%N (k %% kx)%N + T (k %/ kx)%N (k %% kx)%N) l i = Tt t0 l i + T l i.
  move=> hi; have k0 : (0 < kx)%N by exact: leq_ltn_trans hi.
  by rewrite {1}/Tt (mulnC kx l) divnMDl // divn_small // addn0 modnMDl modn_small.
rewrite /hon; congr (_, _).
  apply: (@eq_from_nth _ 0); rewrite ?size_mkseq // hsp => i hi; rewrite nth_mkseq //.
  have := hx i hi; rewrite nth_mkseq // => /eqP; rewrite subr_eq => /eqP ->.
  rewrite !gs_pi_alt addrC -addrA -opprD; congr (_ - _); rewrite -big_split /=; apply: eq_bigr => l _.
  by rewrite e // scalerDl.
apply: (@eq_from_nth _ 0); rewrite ?size_mkseq // hst => l hl; rewrite nth_mkseq //.
have := hy l hl; rewrite nth_mkseq // => /eqP; rewrite subr_eq => /eqP ->.
rewrite !gs_th_alt addrC -addrA; congr (_ + _); rewrite -big_split /=; apply: eq_big_nat => i /andP[_ hi].
by rewrite e // scalerDl.
Qed.

Lemma hon_inj (t t' : nat -> Fr E) : hon t = hon t' -> forall k, (k < N)%N -> t k = t' k.
Proof.
case=> _ h k; rewrite hN => hk.
have k0 : (0 < kx)%N by case: (kx) hk.
have hl : (k %/ kx < ky)%N by rewrite ltn_divLR // mulnC.
have hi : (k %% kx < kx)%N by rewrite ltn_mod.
have e : gs_th m n kx A X u G S (Tt t) (k %/ kx)%N = gs_th m n kx A X u G S (Tt t') (k %/ kx)%N.
  by move/(congr1 (fun s => nth 0 s (k %/ kx)%N)): h; rewrite !nth_mkseq.
move: e; rewrite !gs_th_alt => /addrI/hf/(_ _ hi); rewrite /Tt.
by rewrite mulnC -divn_eq.
Qed.

Theorem hon_unique (t0 : nat -> Fr E) (p : seq (Com2 E)) (th : seq (Com1 E)) : size p = kx -> size th = ky ->
  \sum_(0 <= i < kx) f (u i) (nth 0 p i) + \sum_(0 <= l < ky) f (nth 0 th l) (v l)
  = \sum_(0 <= i < kx) f (u i) (nth 0 (hon t0).1 i) + \sum_(0 <= l < ky) f (nth 0 (hon t0).2 l) (v l) ->
  exists! t : N.-tuple (Fr E), hon (nth 0 t) = (p, th).
Proof.
move=> hsp hst h; have [T hT] := hon_split hsp hst h.
exists [tuple T (i %/ kx)%N (i %% kx)%N | i < N]; split.
  rewrite hT; apply: TtE => k hk; by rewrite -[k]/(nat_of_ord (Ordinal hk)) -tnth_nth tnth_mktuple.
move=> t ht; apply: eq_from_tnth => i; rewrite tnth_mktuple (tnth_nth 0).
by apply/esym; apply: (hon_inj (etrans ht hT)).
Qed.
End Unique.

Section Onto.
Context {E : pairing}.
Notation f := (comT_pairing : Com1 E -> Com2 E -> ComT E).
Hypotheses (hb : bilinear E) (hn : nondegenerate E) (hcT : cyclic (GT E)).
Let fb := comT_pairing_bilin hb.
Let eb := pair_bilin hb.
Variable crs : CRS E.
Hypotheses (hh : hiding_crs crs) (hp : proper_crs crs).

Lemma gT_neq0 : pair_e (g1_gen crs) (g2_gen crs) != 0.
Proof. by case: hp => h1 h2; apply/eqP => /hn[] h; [move: h1 | move: h2]; rewrite h eqxx. Qed.
Lemma onto_r (w : GT E) : exists y, pair_e (g1_gen crs) y = w.
Proof. by have [k ->] := hcT w gT_neq0; exists (k *: g2_gen crs); rewrite (bilZr eb). Qed.
Lemma onto_l (w : GT E) : exists x, pair_e x (g2_gen crs) = w.
Proof. by have [k ->] := hcT w gT_neq0; exists (k *: g1_gen crs); rewrite (bilZl eb). Qed.

Lemma surj_u (w : ComT E) : exists p0 p1 : Com2 E, f (u1 crs) p0 + f (u2 crs) p1 = w.
Proof.
case: hh => a1 [a2 [t1 [t2 [-> _ _]]]]; case: w => [[w1 w2] [w3 w4]] /=.
have col (x y : GT E) : exists p q : G2 E, pair_e (g1_gen crs) p + pair_e (t1 *: g1_gen crs) q = x /\
    pair_e (a1 *: g1_gen crs) p + pair_e (t1 *: (a1 *: g1_gen crs) - g1_gen crs) q = y.
  have [z hz] := onto_r x; have [q hq] := onto_r (a1 *: x - y).
  exists (z - t1 *: q), q; split.
    by rewrite (bilDr eb) (bilNr eb) (bilZl eb) (bilZr eb) subrK.
  rewrite (bilDl eb) (bilNl eb) !(bilZl eb) (bilDr eb) (bilNr eb) (bilZr eb) hz hq scalerBr (scalerA t1) (scalerA a1).
  by rewrite mulrC addrA subrK opprB addrC subrK.
have [p [q [e1 e3]]] := col w1 w3; have [p' [q' [e2 e4]]] := col w2 w4.
exists (p, p'), (q, q').
by apply: injective_projections; apply: injective_projections; rewrite /= ?e1 ?e2 ?e3 ?e4.
Qed.
Lemma surj_v (w : ComT E) : exists p0 p1 : Com1 E, f p0 (v1 crs) + f p1 (v2 crs) = w.
Proof.
case: hh => a1 [a2 [t1 [t2 [_ -> _]]]]; case: w => [[w1 w2] [w3 w4]] /=.
have col (x y : GT E) : exists p q : G1 E, pair_e p (g2_gen crs) + pair_e q (t2 *: g2_gen crs) = x /\
    pair_e p (a2 *: g2_gen crs) + pair_e q (t2 *: (a2 *: g2_gen crs) - g2_gen crs) = y.
  have [z hz] := onto_l x; have [q hq] := onto_l (a2 *: x - y).
  exists (z - t2 *: q), q; split.
    by rewrite (bilDl eb) (bilNl eb) (bilZr eb) (bilZl eb) subrK.
  rewrite (bilDr eb) (bilNr eb) !(bilZr eb) (bilDl eb) (bilNl eb) (bilZl eb) hz hq scalerBr (scalerA t2) (scalerA a2).
  by rewrite mulrC addrA subrK opprB addrC subrK.
have [p [q [e1 e2]]] := col w1 w2; have [p' [q' [e3 e4]]] := col w3 w4.
exists (p, p'), (q, q').
by apply: injective_projections; apply: injective_projections; rewrite /= ?e1 ?e2 ?e3 ?e4.
Qed.

Lemma veq_onto_u ky A B G c d t :
  exists p th, [/\ size p = 2%N, size th = ky & veq A B G c d t (crs_u crs) p th (crs_v crs) 2 ky].
Proof.
set w := gs_eq f (size c) (size d) (ent 0 G) (nth 0 A) (nth 0 c) (nth 0 B) (nth 0 d).
have [p0 [p1 h]] := surj_u (w - t); exists [:: p0; p1], (nseq ky 0); split; rewrite ?size_nseq //.
rewrite /veq -/w big2 -/(u1 crs) -/(u2 crs) [X in _ + X + _]h (addrC t) subrK big1 ?addr0 // => l _.
by rewrite nth_nseq if_same (bil0l fb).
Qed.
Lemma veq_onto_v kx A B G c d t :
  exists p th, [/\ size p = kx, size th = 2%N & veq A B G c d t (crs_u crs) p th (crs_v crs) kx 2].
Proof.
set w := gs_eq f (size c) (size d) (ent 0 G) (nth 0 A) (nth 0 c) (nth 0 B) (nth 0 d).
have [p0 [p1 h]] := surj_v (w - t); exists (nseq kx 0), [:: p0; p1]; split; rewrite ?size_nseq //.
rewrite /veq -/w big2 -/(v1 crs) -/(v2 crs) [X in _ + _ + X]h [X in t + X]big1; last first.
  by move=> l _; rewrite nth_nseq if_same (bil0r fb).
by rewrite addr0 (addrC t) subrK.
Qed.
End Onto.

Section Choice.
Lemma fin_choice (T : Type) (d : T) n (P : nat -> T -> Prop) : (forall i, (i < n)%N -> exists x, P i x) ->
  exists s, size s = n /\ forall i, (i < n)%N -> P i (nth d s i).
Proof.
elim: n => [|n ih] h; first by exists [::].
have [s [hs h']] := ih (fun i hi => h i (ltnW hi)); have [x hx] := h n (ltnSn n).
exists (rcons s x); split=> [|i]; first by rewrite size_rcons hs.
by rewrite ltnS nth_rcons hs leq_eqVlt => /orP[/eqP ->|hi]; [rewrite ltnn eqxx | rewrite hi; exact: h'].
Qed.
Lemma commits_made (F : fieldType) (G : lmodType F) (K V : Type) (cm : K -> V -> seq F -> com G -> Prop) (dv : V) (crs : K) (X : seq V) (c : seq (com G)) :
  size X = size c -> (forall i, (i < size c)%N -> exists r, cm crs (nth dv X i) r (nth 0 c i)) ->
  exists rs, made_of cm dv crs X (mkCommit c rs).
Proof.
move=> hs /(fin_choice [::])[rs [h1 h2]]; exists rs; split; rewrite /= ?hs // => i hi; exact: h2.
Qed.
End Choice.

Section Flat.
Context {E : pairing}.
Notation f := (comT_pairing : Com1 E -> Com2 E -> ComT E).
Hypothesis hb : bilinear E.
Let fb := comT_pairing_bilin hb.
Variable crs : CRS E.
Hypothesis hh : hiding_crs crs.

Definition flat (w : ComT E) : Prop := exists z, w = z *: f (u1 crs) (v1 crs).
Lemma flatD w w' : flat w -> flat w' -> flat (w + w').
Proof. by move=> [z ->] [z' ->]; exists (z + z'); rewrite scalerDl. Qed.
Lemma flat_sum n (F : nat -> ComT E) : (forall i, (i < n)%N -> flat (F i)) -> flat (\sum_(0 <= i < n) F i).
Proof.
move=> h; rewrite big_seq; apply: (big_ind flat) => [||i].
- by exists 0; rewrite scale0r.
- exact: flatD.
by rewrite mem_index_iota => /h.
Qed.
Definition onu (c : Com1 E) := exists z, c = z *: u1 crs.
Definition onv (c : Com2 E) := exists z, c = z *: v1 crs.
Lemma flat_f c d : onu c -> onv d -> flat (f c d).
Proof. by move=> [z ->] [z' ->]; exists (z' * z); rewrite (bilZl fb) (bilZr fb) scalerA mulrC. Qed.
Lemma onu_s1 x : onu (s1map crs x).
Proof. by case: hh => a1 [a2 [t1 [t2 h]]]; eexists; exact: (s1E _ h). Qed.
Lemma onv_s2 x : onv (s2map crs x).
Proof. by case: hh => a1 [a2 [t1 [t2 h]]]; eexists; exact: (s2E _ h). Qed.
Lemma onv_sum n (F : nat -> Com2 E) : (forall i, (i < n)%N -> onv (F i)) -> onv (\sum_(0 <= i < n) F i).
Proof.
move=> h; rewrite big_seq; apply: (big_ind onv) => [||i].
- by exists 0; rewrite scale0r.
- by move=> _ _ [z ->] [z' ->]; exists (z + z'); rewrite scalerDl.
by rewrite mem_index_iota => /h.
Qed.
Lemma onvZ k d : onv d -> onv (k *: d).
Proof. by move=> [z ->]; exists (k * z); rewrite scalerA. Qed.
Lemma com_B1_onu x r c : com_B1 crs x r c -> onu c.
Proof.
case=> r1 [_ ->]; have [z e] := onu_s1 x; exists (z + r1); rewrite scalerDl -e; congr (_ + _).
Qed.
Lemma com_B2_onv x r c : com_B2 crs x r c -> onv c.
Proof.
case=> r1 [_ ->]; have [z e] := onv_s2 x; exists (z + r1); rewrite scalerDl -e; congr (_ + _).
Qed.
Lemma veq_flat x y (A : seq (Fr E)) (B : seq (Fr E)) G c d t : commits_B1 crs c x -> commits_B2 crs d y ->
  exists z, veq [seq s1map crs x | x <- A] [seq s2map crs y | y <- B] G c d (f (s1map crs 1) (t *: s2map crs 1))
    (crs_u crs) [:: z *: v1 crs] [:: 0] (crs_v crs) 1 1.
Proof.
move=> [_ hx] [_ hy].
have hc i : (i < size c)%N -> onu (nth 0 c i) by move=> hi; have [r h] := hx i hi; exact: com_B1_onu h.
have hd i : (i < size d)%N -> onv (nth 0 d i) by move=> hi; have [r h] := hy i hi; exact: com_B2_onv h.
have [z hz] : flat (gs_eq f (size c) (size d) (ent 0 G) (nth 0 [seq s1map crs x | x <- A]) (nth 0 c) (nth 0 [seq s2map crs y | y <- B]) (nth 0 d)).
  apply: flatD; [apply: flatD|]; apply: flat_sum => i hi; apply: flat_f.
  - by rewrite nth_s1; exact: onu_s1.
  - exact: hd.
  - exact: hc.
  - by rewrite nth_s2; exact: onv_s2.
  - exact: hc.
  by apply: onv_sum => j hj; apply: onvZ; exact: hd.
have [z' hz'] : flat (f (s1map crs 1) (t *: s2map crs 1)).
  by apply: flat_f; [exact: onu_s1 | apply: onvZ; exact: onv_s2].
exists (z - z'); rewrite /veq hz hz' !big_nat1 /= -[X in _ == _ + X + _]/(f (u1 crs) ((z - z') *: v1 crs)) (bil0l fb) addr0 (bilZr fb) -scalerDl.
by rewrite addrC subrK.
Qed.
End Flat.
