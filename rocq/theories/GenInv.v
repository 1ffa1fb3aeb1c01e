(** Proofs of C31_one_key and C31_every_key. *)
From mathcomp Require Import all_ssreflect all_algebra.
From Verif Require Import Base Group DataStructures Generator Commit Spec SpecHide SpecGen GenProps FibreProps.
Set Implicit Arguments.
Unset Strict Implicit.
Unset Printing Implicit Defensive.
Import GRing.Theory.
Local Open Scope ring_scope.

Lemma key_draws {E : pairing} (R : rng E) (s s' : rst R) crs : generate_crs s = (crs, s') ->
  let: (p1, p2, (a1, a2, (t1, t2))) := crs_draws s in
  [/\ binding_crs_with crs a1 a2 t1 t2, g1_gen crs = p1 & g2_gen crs = p2].
Proof.
move=> e; have := generate_shape s; rewrite /crs_draws.
case: (rand_g1 s) => p1 s1; case: (rand_g2 s1) => p2 s2; case: (rand_fr s2) => a1 s3; case: (rand_fr s3) => a2 s4.
by case: (rand_fr s4) => t1 s5; case: (rand_fr s5) => t2 s6 [c []]; rewrite e => -[<- _].
Qed.

Lemma k_C31_one_key : forall (E : pairing) (R R' : rng E) (s s' : rst R) (z z' : rst R') (crs : CRS E),
  generate_crs s = (crs, s') -> generate_crs z = (crs, z') -> proper_crs crs -> crs_draws s = crs_draws z.
Proof.
move=> E R R' s s' z z' crs /key_draws + /key_draws + [h1 h2].
case: (crs_draws s) => -[p1 p2] [[a1 a2] [t1 t2]]; case: (crs_draws z) => -[p1' p2'] [[a1' a2'] [t1' t2']].
case=> -[eu ev _] <- <- [[eu' ev' _] <- <-].
move: eu'; rewrite eu => -[/(scal_inj _ _ h1) <- /(scal_inj _ _ h1) <- _].
by move: ev'; rewrite ev => -[/(scal_inj _ _ h2) <- /(scal_inj _ _ h2) <- _].
Qed.

Lemma k_C31_every_key : forall (E : pairing) (crs : CRS E), binding_crs crs ->
  exists (R : rng E) (s s' : rst R), generate_crs s = (crs, s').
Proof.
move=> E crs [a1 [a2 [t1 [t2 [eu ev eg]]]]].
exists (@Rng E (seq (Fr E)) (fun t => (head 0 t, behead t)) (fun t => (g1_gen crs, t)) (fun t => (g2_gen crs, t))).
exists ([:: a1; a2; t1; t2] : seq (Fr E)), ([::] : seq (Fr E)); rewrite /generate_crs /=.
by rewrite !subr0; case: crs eu ev eg => u v g1 g2 gt /= -> -> ->.
Qed.
