(** Generated keys and hiding keys. *)
From mathcomp Require Import all_ssreflect all_algebra.
From Verif Require Import Base BaseLemmas Group DataStructures Generator Spec SpecMat Main.
Set Implicit Arguments.
Unset Strict Implicit.
Unset Printing Implicit Defensive.
Import GRing.Theory.
Local Open Scope ring_scope.

(** The pair [(c1, c2)] is a combination of the two key elements. *)
Section Key.
Context {F : fieldType} {G : lmodType F}.
Variables (P : G) (a t : F).
Hypotheses (hP : P != 0) (hc : cyclic G).
Notation U1 := (P, a *: P).
Notation B2 := (t *: P, t *: (a *: P)).
Notation H2 := (t *: P, t *: (a *: P) - P).

Lemma scaleI (k l : F) : k *: P = l *: P -> k = l.
Proof.
move=> h; apply/eqP; rewrite -subr_eq0; apply: contraNT hP => hk.
have : (k - l) *: P = 0 by rewrite scalerBl h subrr.
by move/eqP; rewrite scaler_eq0 (negbTE hk).
Qed.

Lemma h2E : t *: (a *: P) - P = (t * a - 1) *: P.
Proof. by rewrite scalerBl scale1r scalerA. Qed.

Lemma hiding_span (c : com G) : exists r1 r2, c = r1 *: (U1 : com G) + r2 *: (H2 : com G).
Proof.
case: c => c1 c2; have [k ->] := hc c1 hP; have [l ->] := hc c2 hP.
exists (k - (a * k - l) * t), (a * k - l); rewrite h2E; set r2 := a * k - l; congr pair.
  by rewrite /= scalerA -scalerDl subrK.
rewrite /= !scalerA -scalerDl; congr (_ *: _).
rewrite mulrBl mulrBr mulr1 mulrA addrA subrK /r2 mulrC opprB addrC subrK //.
Qed.

Lemma hiding_inj r1 r2 r1' r2' :
  r1 *: (U1 : com G) + r2 *: (H2 : com G) = r1' *: (U1 : com G) + r2' *: (H2 : com G) ->
  r1 = r1' /\ r2 = r2'.
Proof.
rewrite h2E => -[]; rewrite !scalerA -!scalerDl => /scaleI h1 /scaleI h2.
suff e2 : r2 = r2' by split=> //; move: h1; rewrite e2 => /addIr.
have e x y : y = (x + y * t) * a - (x * a + y * (t * a - 1)).
  by rewrite mulrBr mulr1 mulrDl mulrA addrA opprB addrC subrK.
by rewrite (e r1 r2) h1 h2 -e.
Qed.

Lemma binding_span_not r1 r2 : r1 *: (U1 : com G) + r2 *: (B2 : com G) <> (0, P).
Proof.
case; rewrite !scalerA -!scalerDl => /eqP; rewrite scaler_eq0 (negbTE hP) orbF => /eqP h.
by rewrite -mulrDl h mul0r scale0r => e; move: hP; rewrite -e eqxx.
Qed.
End Key.

Section Gen.
Context {E : pairing}.
Lemma generate_shape (R : rng E) (s : rst R) :
  let (p1, s1) := rand_g1 s in let (p2, s2) := rand_g2 s1 in
  let (a1, s3) := rand_fr s2 in let (a2, s4) := rand_fr s3 in
  let (t1, s5) := rand_fr s4 in let (t2, s6) := rand_fr s5 in
  exists crs, [/\ generate_crs s = (crs, s6), binding_crs_with crs a1 a2 t1 t2, g1_gen crs = p1 & g2_gen crs = p2].
Proof.
rewrite /generate_crs; case: (rand_g1 s) => p1 s1; case: (rand_g2 s1) => p2 s2.
case: (rand_fr s2) => a1 s3; case: (rand_fr s3) => a2 s4; case: (rand_fr s4) => t1 s5.
by case: (rand_fr s5) => t2 s6; eexists; split=> //; split; rewrite //= subr0.
Qed.
Lemma generate_gt (R : rng E) (s s' : rst R) crs : bilinear E -> nondegenerate E ->
  generate_crs s = (crs, s') -> (gt_gen crs != 0) = (g1_gen crs != 0) && (g2_gen crs != 0).
Proof.
move=> [b1 b2 b3 b4] nd h; have [a1 [a2 [t1 [t2 [_ _ ->]]]]] := generate_binding h.
apply/idP/andP=> [hg|[h1 h2]]; last first.
  by apply/eqP => /nd[] /eqP; apply/negP.
split; apply: contra hg => /eqP->; apply/eqP.
  by rewrite -(scale0r (0 : G1 E)) b3 scale0r.
by rewrite -(scale0r (0 : G2 E)) b4 scale0r.
Qed.

Lemma keys_differ (p1 : G1 E) (p2 : G2 E) a1 a2 t1 t2 gt :
  let key (k : G1 E * G2 E) := mkCRS [:: (p1, a1 *: p1); (t1 *: p1, k.1)] [:: (p2, a2 *: p2); (t2 *: p2, k.2)] p1 p2 gt in
  let b := prepare_real_binding_key p1 p2 (a1 *: p1) t1 (a2 *: p2) t2 in
  let h := prepare_simulated_hinding_key p1 p2 (a1 *: p1) t1 (a2 *: p2) t2 in
  gt = pair_e p1 p2 ->
  [/\ binding_crs_with (key b) a1 a2 t1 t2, hiding_crs_with (key h) a1 a2 t1 t2, h.1 = b.1 - p1 & h.2 = b.2 - p2].
Proof. by move=> /= ->; split; rewrite ?subr0. Qed.

Lemma hiding_crs_span (crs : CRS E) : hiding_crs crs -> proper_crs crs -> cyclic (G1 E) -> cyclic (G2 E) ->
  (forall c : Com1 E, exists r1 r2, c = r1 *: u1 crs + r2 *: u2 crs) /\
  (forall c : Com2 E, exists r1 r2, c = r1 *: v1 crs + r2 *: v2 crs).
Proof.
by case=> a1 [a2 [t1 [t2 [-> -> _]]]] [h1 h2] c1 c2; split=> c; [exact: hiding_span | exact: hiding_span].
Qed.
Lemma hiding_crs_inj (crs : CRS E) : hiding_crs crs -> proper_crs crs -> forall r1 r2 r1' r2',
  (r1 *: u1 crs + r2 *: u2 crs = r1' *: u1 crs + r2' *: u2 crs -> r1 = r1' /\ r2 = r2') /\
  (r1 *: v1 crs + r2 *: v2 crs = r1' *: v1 crs + r2' *: v2 crs -> r1 = r1' /\ r2 = r2').
Proof.
case=> a1 [a2 [t1 [t2 [-> -> _]]]] [h1 h2] r1 r2 r1' r2'.
by split; exact: hiding_inj.
Qed.
Lemma binding_crs_span (crs : CRS E) : binding_crs crs -> proper_crs crs ->
  (exists c : Com1 E, forall r1 r2, c <> r1 *: u1 crs + r2 *: u2 crs) /\
  (exists c : Com2 E, forall r1 r2, c <> r1 *: v1 crs + r2 *: v2 crs).
Proof.
case=> a1 [a2 [t1 [t2 [-> -> _]]]] [h1 h2]; split.
  by exists (0, g1_gen crs) => r1 r2 /esym; exact: binding_span_not.
by exists (0, g2_gen crs) => r1 r2 /esym; exact: binding_span_not.
Qed.
End Gen.
