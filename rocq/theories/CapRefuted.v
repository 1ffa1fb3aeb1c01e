(** Empty variable lists; injectivity for generated keys. *)
From mathcomp Require Import all_ssreflect all_algebra.
From Verif Require Import Base BaseLemmas Group DataStructures MatLemmas CoreAlg ComLemmas.
From Verif Require Import Generator Commit Statement Prove Verify Spec ProveLemmas CommitLemmas.
From Verif Require Import VerifyLemmas Holds Complete Sound Main CapLemmas.
Set Implicit Arguments.
Unset Strict Implicit.
Unset Printing Implicit Defensive.
Import GRing.Theory.
Local Open Scope ring_scope.

Lemma panicP A (r : res A) : ~ (exists a, r = Ok a) -> exists e, r = Panic e.
Proof. by case: r => [a h|e _]; [case: h; exists a | exists e]. Qed.

Section Gen.
Context {E : pairing} {R : rng E}.
Lemma generated_injective (s : rst R) (crs : CRS E) s' : generate_crs s = (crs, s') ->
  [/\ two_keys crs, g1_gen crs != 0 -> u2 crs + (0, g1_gen crs) != 0
    & g2_gen crs != 0 -> v2 crs + (0, g2_gen crs) != 0].
Proof.
move=> /generate_binding h; split; first exact: binding_two.
  by move=> /(binding_s1 h); rewrite s1map1.
by move=> /(binding_s2 h); rewrite s2map1.
Qed.

Variable sch : sched.
Hypothesis vs : valid_sched sch.

Lemma gamma_ok0 m (G : matrix (Fr E)) : (0 < m)%N -> gamma_ok m 0 G -> False.
Proof. by rewrite /gamma_ok orbT; case: m. Qed.

Lemma ppe_cap_empty (q : PPE E) X Y crs (s : rst R) : X = [::] \/ Y = [::] ->
  exists e, ppe_commit_and_prove sch q X Y crs s = Panic e.
Proof.
move=> h; apply: panicP => -[[p s'] e].
have [[hx hy] _ _ _] := (proj1 (ppe_cap_total vs q X Y crs s)) (ex_intro _ p (ex_intro _ s' e)).
by case: h hx hy => ->.
Qed.

Lemma ppe_verify_empty (q : PPE E) p crs : (0 < size (coms (xcoms p)))%N -> coms (ycoms p) = [::] ->
  exists e, ppe_verify sch q p crs = Panic e.
Proof.
case: p => cx cy pfs /= hx hy; apply: panicP => -[b e].
have ok : isok (ppe_verify sch q (mkCProof cx cy pfs) crs) by rewrite e.
have [pf epf] := ppe_verify_one ok; rewrite {}epf in ok.
have := ppe_verify_shape vs ok; rewrite /ppe_vshape /stmt_shape hy /=.
by case/and4P => _ /and3P[_ _ /(gamma_ok0 hx)].
Qed.

Lemma ms1_cap_empty (q : MSMEG1 E) X Y crs (s : rst R) : X = [::] \/ Y = [::] ->
  exists e, ms1_commit_and_prove sch q X Y crs s = Panic e.
Proof.
move=> h; apply: panicP => -[[p s'] e].
have [[hx hy] _ _ _] := (proj1 (ms1_cap_total vs q X Y crs s)) (ex_intro _ p (ex_intro _ s' e)).
by case: h hx hy => ->.
Qed.

Lemma ms1_verify_empty (q : MSMEG1 E) p crs : (0 < size (coms (xcoms p)))%N -> coms (ycoms p) = [::] ->
  exists e, ms1_verify sch q p crs = Panic e.
Proof.
case: p => cx cy pfs /= hx hy; apply: panicP => -[b e].
have ok : isok (ms1_verify sch q (mkCProof cx cy pfs) crs) by rewrite e.
have [pf epf] := ms1_verify_one ok; rewrite {}epf in ok.
have := ms1_verify_shape vs ok; rewrite /ms1_vshape /stmt_shape hy /=.
by case/and5P => _ /and3P[_ _ /(gamma_ok0 hx)].
Qed.

Lemma ms2_cap_empty (q : MSMEG2 E) X Y crs (s : rst R) : X = [::] \/ Y = [::] ->
  exists e, ms2_commit_and_prove sch q X Y crs s = Panic e.
Proof.
move=> h; apply: panicP => -[[p s'] e].
have [[hx hy] _ _ _] := (proj1 (ms2_cap_total vs q X Y crs s)) (ex_intro _ p (ex_intro _ s' e)).
by case: h hx hy => ->.
Qed.

Lemma ms2_verify_empty (q : MSMEG2 E) p crs : (0 < size (coms (xcoms p)))%N -> coms (ycoms p) = [::] ->
  exists e, ms2_verify sch q p crs = Panic e.
Proof.
case: p => cx cy pfs /= hx hy; apply: panicP => -[b e].
have ok : isok (ms2_verify sch q (mkCProof cx cy pfs) crs) by rewrite e.
have [pf epf] := ms2_verify_one ok; rewrite {}epf in ok.
have := ms2_verify_shape vs ok; rewrite /ms2_vshape /stmt_shape hy /=.
by case/and5P => _ /and3P[_ _ /(gamma_ok0 hx)].
Qed.

Lemma quad_cap_empty (q : QuadEqu E) X Y crs (s : rst R) : X = [::] \/ Y = [::] ->
  exists e, quad_commit_and_prove sch q X Y crs s = Panic e.
Proof.
move=> h; apply: panicP => -[[p s'] e].
have [[hx hy] _ _ _] := (proj1 (quad_cap_total vs q X Y crs s)) (ex_intro _ p (ex_intro _ s' e)).
by case: h hx hy => ->.
Qed.

Lemma quad_verify_empty (q : QuadEqu E) p crs : (0 < size (coms (xcoms p)))%N -> coms (ycoms p) = [::] ->
  exists e, quad_verify sch q p crs = Panic e.
Proof.
case: p => cx cy pfs /= hx hy; apply: panicP => -[b e].
have ok : isok (quad_verify sch q (mkCProof cx cy pfs) crs) by rewrite e.
have [pf epf] := quad_verify_one ok; rewrite {}epf in ok.
have := quad_verify_shape vs ok; rewrite /quad_vshape /stmt_shape hy /=.
by case/and5P => _ /and3P[_ _ /(gamma_ok0 hx)].
Qed.
End Gen.
