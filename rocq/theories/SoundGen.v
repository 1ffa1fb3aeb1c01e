(** Soundness in the form of the property statements. *)
From mathcomp Require Import all_ssreflect all_algebra.
From Verif Require Import Base BaseLemmas Group DataStructures MatLemmas CoreAlg ComLemmas.
From Verif Require Import Generator Commit Statement Prove Verify Spec ProveLemmas CommitLemmas.
From Verif Require Import VerifyLemmas Holds Complete Sound Main CapLemmas Extract.
Set Implicit Arguments.
Unset Strict Implicit.
Unset Printing Implicit Defensive.
Import GRing.Theory.
Local Open Scope ring_scope.

Lemma ppe_sound_gen : forall (E : pairing) (R : rng E) (sch : sched) (s s' : rst R) (crs : CRS E),
  bilinear E -> valid_sched sch -> generate_crs s = (crs, s') ->
  exists (ex1 : Com1 E -> G1 E) (ex2 : Com2 E -> G2 E),
  [/\ forall (R' : rng E) x (z z' : rst R') c, commit_G1 x crs z = Ok (c, z') -> map ex1 (coms c) = [:: x],
      forall (R' : rng E) X (z z' : rst R') c, batch_commit_G1 X crs z = Ok (c, z') -> map ex1 (coms c) = X,
      forall (R' : rng E) y (z z' : rst R') c, commit_G2 y crs z = Ok (c, z') -> map ex2 (coms c) = [:: y],
      forall (R' : rng E) Y (z z' : rst R') c, batch_commit_G2 Y crs z = Ok (c, z') -> map ex2 (coms c) = Y
    & forall (q : PPE E) (p : CProof E), ppe_verify sch q p crs = Ok true ->
        ppe_holds q (map ex1 (coms (xcoms p))) (map ex2 (coms (ycoms p)))].
Proof.
move=> E R sch s s' crs hb vs /generate_binding bk .
have [ex1 [ex2 [h1 h2 h3]]] := ppe_extract hb vs bk .
exists ex1, ex2; split=> //.
- by move=> R' x z z' c /commit_made_G1; apply: h1.
- by move=> R' X z z' c /batch_made_G1; apply: h1.
- by move=> R' x z z' c /commit_made_G2; apply: h2.
- by move=> R' X z z' c /batch_made_G2; apply: h2.
Qed.

Lemma ms1_sound_gen : forall (E : pairing) (R : rng E) (sch : sched) (s s' : rst R) (crs : CRS E),
  bilinear E -> valid_sched sch -> generate_crs s = (crs, s') ->
  nondegenerate E -> cyclic (G2 E) -> g2_gen crs != 0 -> 
  exists (ex1 : Com1 E -> G1 E) (ex2 : Com2 E -> Fr E),
  [/\ forall (R' : rng E) x (z z' : rst R') c, commit_G1 x crs z = Ok (c, z') -> map ex1 (coms c) = [:: x],
      forall (R' : rng E) X (z z' : rst R') c, batch_commit_G1 X crs z = Ok (c, z') -> map ex1 (coms c) = X,
      forall (R' : rng E) y (z z' : rst R') c, commit_scalar_to_B2 y crs z = Ok (c, z') -> map ex2 (coms c) = [:: y],
      forall (R' : rng E) Y (z z' : rst R') c, batch_commit_scalar_to_B2 Y crs z = Ok (c, z') -> map ex2 (coms c) = Y
    & forall (q : MSMEG1 E) (p : CProof E), ms1_verify sch q p crs = Ok true ->
        ms1_holds q (map ex1 (coms (xcoms p))) (map ex2 (coms (ycoms p)))].
Proof.
move=> E R sch s s' crs hb vs /generate_binding bk hnd hc hp.
have [ex1 [ex2 [h1 h2 h3]]] := ms1_extract hb vs hnd bk hc hp.
exists ex1, ex2; split=> //.
- by move=> R' x z z' c /commit_made_G1; apply: h1.
- by move=> R' X z z' c /batch_made_G1; apply: h1.
- by move=> R' x z z' c /commit_made_B2; apply: h2.
- by move=> R' X z z' c /batch_made_B2; apply: h2.
Qed.

Lemma ms2_sound_gen : forall (E : pairing) (R : rng E) (sch : sched) (s s' : rst R) (crs : CRS E),
  bilinear E -> valid_sched sch -> generate_crs s = (crs, s') ->
  nondegenerate E -> cyclic (G1 E) -> g1_gen crs != 0 -> 
  exists (ex1 : Com1 E -> Fr E) (ex2 : Com2 E -> G2 E),
  [/\ forall (R' : rng E) x (z z' : rst R') c, commit_scalar_to_B1 x crs z = Ok (c, z') -> map ex1 (coms c) = [:: x],
      forall (R' : rng E) X (z z' : rst R') c, batch_commit_scalar_to_B1 X crs z = Ok (c, z') -> map ex1 (coms c) = X,
      forall (R' : rng E) y (z z' : rst R') c, commit_G2 y crs z = Ok (c, z') -> map ex2 (coms c) = [:: y],
      forall (R' : rng E) Y (z z' : rst R') c, batch_commit_G2 Y crs z = Ok (c, z') -> map ex2 (coms c) = Y
    & forall (q : MSMEG2 E) (p : CProof E), ms2_verify sch q p crs = Ok true ->
        ms2_holds q (map ex1 (coms (xcoms p))) (map ex2 (coms (ycoms p)))].
Proof.
move=> E R sch s s' crs hb vs /generate_binding bk hnd hc hp.
have [ex1 [ex2 [h1 h2 h3]]] := ms2_extract hb vs hnd bk hc hp.
exists ex1, ex2; split=> //.
- by move=> R' x z z' c /commit_made_B1; apply: h1.
- by move=> R' X z z' c /batch_made_B1; apply: h1.
- by move=> R' x z z' c /commit_made_G2; apply: h2.
- by move=> R' X z z' c /batch_made_G2; apply: h2.
Qed.

Lemma quad_sound_gen : forall (E : pairing) (R : rng E) (sch : sched) (s s' : rst R) (crs : CRS E),
  bilinear E -> valid_sched sch -> generate_crs s = (crs, s') ->
  nondegenerate E -> cyclic (G1 E) -> cyclic (G2 E) -> g1_gen crs != 0 -> g2_gen crs != 0 -> 
  exists (ex1 : Com1 E -> Fr E) (ex2 : Com2 E -> Fr E),
  [/\ forall (R' : rng E) x (z z' : rst R') c, commit_scalar_to_B1 x crs z = Ok (c, z') -> map ex1 (coms c) = [:: x],
      forall (R' : rng E) X (z z' : rst R') c, batch_commit_scalar_to_B1 X crs z = Ok (c, z') -> map ex1 (coms c) = X,
      forall (R' : rng E) y (z z' : rst R') c, commit_scalar_to_B2 y crs z = Ok (c, z') -> map ex2 (coms c) = [:: y],
      forall (R' : rng E) Y (z z' : rst R') c, batch_commit_scalar_to_B2 Y crs z = Ok (c, z') -> map ex2 (coms c) = Y
    & forall (q : QuadEqu E) (p : CProof E), quad_verify sch q p crs = Ok true ->
        quad_holds q (map ex1 (coms (xcoms p))) (map ex2 (coms (ycoms p)))].
Proof.
move=> E R sch s s' crs hb vs /generate_binding bk hnd hc1 hc2 hp1 hp2.
have [ex1 [ex2 [h1 h2 h3]]] := quad_extract hb vs hnd bk hc1 hc2 hp1 hp2.
exists ex1, ex2; split=> //.
- by move=> R' x z z' c /commit_made_B1; apply: h1.
- by move=> R' X z z' c /batch_made_B1; apply: h1.
- by move=> R' x z z' c /commit_made_B2; apply: h2.
- by move=> R' X z z' c /batch_made_B2; apply: h2.
Qed.

Lemma G1_binding_gen : forall (E : pairing) (R R1 R2 : rng E) (s s' : rst R) (crs : CRS E)
  (z1 z1' : rst R1) (z2 z2' : rst R2) X X' c c',
  generate_crs s = (crs, s') -> 
  batch_commit_G1 X crs z1 = Ok (c, z1') -> batch_commit_G1 X' crs z2 = Ok (c', z2') ->
  coms c = coms c' -> X = X'.
Proof.
move=> E R R1 R2 s s' crs z1 z1' z2 z2' X X' c c' /generate_binding bk /batch_made_G1[s1 _ h1] /batch_made_G1[s2 _ h2] e.
apply: (@eq_from_nth _ 0); first by rewrite -s1 -s2 e.
move=> i hi; have hi' : (i < size X')%N by rewrite -s2 -e s1.
have := h1 i hi; have := h2 i hi'; rewrite e => a b; exact: (binding_G1 bk b a).
Qed.
Lemma G1_binding1_gen : forall (E : pairing) (R R1 R2 : rng E) (s s' : rst R) (crs : CRS E)
  (z1 z1' : rst R1) (z2 z2' : rst R2) x x' c c',
  generate_crs s = (crs, s') -> 
  commit_G1 x crs z1 = Ok (c, z1') -> commit_G1 x' crs z2 = Ok (c', z2') ->
  coms c = coms c' -> x = x'.
Proof.
move=> E R R1 R2 s s' crs z1 z1' z2 z2' x x' c c' /generate_binding bk /commit_made_G1[s1 _ h1] /commit_made_G1[s2 _ h2] e.
by have := h1 0%N isT; have := h2 0%N isT; rewrite e => a b; apply: (binding_G1 bk b a).
Qed.

Lemma G2_binding_gen : forall (E : pairing) (R R1 R2 : rng E) (s s' : rst R) (crs : CRS E)
  (z1 z1' : rst R1) (z2 z2' : rst R2) X X' c c',
  generate_crs s = (crs, s') -> 
  batch_commit_G2 X crs z1 = Ok (c, z1') -> batch_commit_G2 X' crs z2 = Ok (c', z2') ->
  coms c = coms c' -> X = X'.
Proof.
move=> E R R1 R2 s s' crs z1 z1' z2 z2' X X' c c' /generate_binding bk /batch_made_G2[s1 _ h1] /batch_made_G2[s2 _ h2] e.
apply: (@eq_from_nth _ 0); first by rewrite -s1 -s2 e.
move=> i hi; have hi' : (i < size X')%N by rewrite -s2 -e s1.
have := h1 i hi; have := h2 i hi'; rewrite e => a b; exact: (binding_G2 bk b a).
Qed.
Lemma G2_binding1_gen : forall (E : pairing) (R R1 R2 : rng E) (s s' : rst R) (crs : CRS E)
  (z1 z1' : rst R1) (z2 z2' : rst R2) x x' c c',
  generate_crs s = (crs, s') -> 
  commit_G2 x crs z1 = Ok (c, z1') -> commit_G2 x' crs z2 = Ok (c', z2') ->
  coms c = coms c' -> x = x'.
Proof.
move=> E R R1 R2 s s' crs z1 z1' z2 z2' x x' c c' /generate_binding bk /commit_made_G2[s1 _ h1] /commit_made_G2[s2 _ h2] e.
by have := h1 0%N isT; have := h2 0%N isT; rewrite e => a b; apply: (binding_G2 bk b a).
Qed.

Lemma B1_binding_gen : forall (E : pairing) (R R1 R2 : rng E) (s s' : rst R) (crs : CRS E)
  (z1 z1' : rst R1) (z2 z2' : rst R2) X X' c c',
  generate_crs s = (crs, s') -> g1_gen crs != 0 -> 
  batch_commit_scalar_to_B1 X crs z1 = Ok (c, z1') -> batch_commit_scalar_to_B1 X' crs z2 = Ok (c', z2') ->
  coms c = coms c' -> X = X'.
Proof.
move=> E R R1 R2 s s' crs z1 z1' z2 z2' X X' c c' /generate_binding bk hp /batch_made_B1[s1 _ h1] /batch_made_B1[s2 _ h2] e.
apply: (@eq_from_nth _ 0); first by rewrite -s1 -s2 e.
move=> i hi; have hi' : (i < size X')%N by rewrite -s2 -e s1.
have := h1 i hi; have := h2 i hi'; rewrite e => a b; exact: (binding_B1 bk hp b a).
Qed.
Lemma B1_binding1_gen : forall (E : pairing) (R R1 R2 : rng E) (s s' : rst R) (crs : CRS E)
  (z1 z1' : rst R1) (z2 z2' : rst R2) x x' c c',
  generate_crs s = (crs, s') -> g1_gen crs != 0 -> 
  commit_scalar_to_B1 x crs z1 = Ok (c, z1') -> commit_scalar_to_B1 x' crs z2 = Ok (c', z2') ->
  coms c = coms c' -> x = x'.
Proof.
move=> E R R1 R2 s s' crs z1 z1' z2 z2' x x' c c' /generate_binding bk hp /commit_made_B1[s1 _ h1] /commit_made_B1[s2 _ h2] e.
by have := h1 0%N isT; have := h2 0%N isT; rewrite e => a b; apply: (binding_B1 bk hp b a).
Qed.

Lemma B2_binding_gen : forall (E : pairing) (R R1 R2 : rng E) (s s' : rst R) (crs : CRS E)
  (z1 z1' : rst R1) (z2 z2' : rst R2) X X' c c',
  generate_crs s = (crs, s') -> g2_gen crs != 0 -> 
  batch_commit_scalar_to_B2 X crs z1 = Ok (c, z1') -> batch_commit_scalar_to_B2 X' crs z2 = Ok (c', z2') ->
  coms c = coms c' -> X = X'.
Proof.
move=> E R R1 R2 s s' crs z1 z1' z2 z2' X X' c c' /generate_binding bk hp /batch_made_B2[s1 _ h1] /batch_made_B2[s2 _ h2] e.
apply: (@eq_from_nth _ 0); first by rewrite -s1 -s2 e.
move=> i hi; have hi' : (i < size X')%N by rewrite -s2 -e s1.
have := h1 i hi; have := h2 i hi'; rewrite e => a b; exact: (binding_B2 bk hp b a).
Qed.
Lemma B2_binding1_gen : forall (E : pairing) (R R1 R2 : rng E) (s s' : rst R) (crs : CRS E)
  (z1 z1' : rst R1) (z2 z2' : rst R2) x x' c c',
  generate_crs s = (crs, s') -> g2_gen crs != 0 -> 
  commit_scalar_to_B2 x crs z1 = Ok (c, z1') -> commit_scalar_to_B2 x' crs z2 = Ok (c', z2') ->
  coms c = coms c' -> x = x'.
Proof.
move=> E R R1 R2 s s' crs z1 z1' z2 z2' x x' c c' /generate_binding bk hp /commit_made_B2[s1 _ h1] /commit_made_B2[s2 _ h2] e.
by have := h1 0%N isT; have := h2 0%N isT; rewrite e => a b; apply: (binding_B2 bk hp b a).
Qed.

Lemma binding_s1_0 (E : pairing) (crs : CRS E) : binding_crs crs -> g1_gen crs = 0 -> s1map crs 1 = 0.
Proof. by case=> a1 [a2 [t1 [t2 [e _ _]]]] h; rewrite /s1map e h /= !scaler0 addr0 scaler0. Qed.
Lemma binding_s2_0 (E : pairing) (crs : CRS E) : binding_crs crs -> g2_gen crs = 0 -> s2map crs 1 = 0.
Proof. by case=> a1 [a2 [t1 [t2 [_ e _]]]] h; rewrite /s2map e h /= !scaler0 addr0 scaler0. Qed.

Lemma ms1_zero_gen : forall (E : pairing) (R R' : rng E) (sch sch' : sched) (s s' : rst R) (z z' : rst R')
  (crs : CRS E) (q : MSMEG1 E) X Y p,
  bilinear E -> valid_sched sch -> valid_sched sch' -> generate_crs s = (crs, s') -> g2_gen crs = 0 ->
  ms1_commit_and_prove sch q X Y crs z = Ok (p, z') -> ms1_verify sch' q p crs = Ok true.
Proof.
move=> E R R' sch sch' s s' z z' crs q X Y p hb vs vs' /generate_binding bk h0 hc.
have [s1 [s2 [pf [hx hy hp epf]]]] := (proj1 (ms1_cap_steps sch q X Y crs z p z')) hc.
case: p hx hy hp epf {hc} => cx cy pfs /= hx hy hp ->.
rewrite (ms1_honest hb vs vs' (batch_made_G1 hx) (batch_made_B2 hy) hp).
by rewrite (binding_s2_0 bk h0) !(bil0r (comT_pairing_bilin hb)) eqxx.
Qed.

Lemma ms2_zero_gen : forall (E : pairing) (R R' : rng E) (sch sch' : sched) (s s' : rst R) (z z' : rst R')
  (crs : CRS E) (q : MSMEG2 E) X Y p,
  bilinear E -> valid_sched sch -> valid_sched sch' -> generate_crs s = (crs, s') -> g1_gen crs = 0 ->
  ms2_commit_and_prove sch q X Y crs z = Ok (p, z') -> ms2_verify sch' q p crs = Ok true.
Proof.
move=> E R R' sch sch' s s' z z' crs q X Y p hb vs vs' /generate_binding bk h0 hc.
have [s1 [s2 [pf [hx hy hp epf]]]] := (proj1 (ms2_cap_steps sch q X Y crs z p z')) hc.
case: p hx hy hp epf {hc} => cx cy pfs /= hx hy hp ->.
rewrite (ms2_honest hb vs vs' (batch_made_B1 hx) (batch_made_G2 hy) hp).
by rewrite (binding_s1_0 bk h0) !(bil0l (comT_pairing_bilin hb)) eqxx.
Qed.

Lemma quad_zero_gen : forall (E : pairing) (R R' : rng E) (sch sch' : sched) (s s' : rst R) (z z' : rst R')
  (crs : CRS E) (q : QuadEqu E) X Y p,
  bilinear E -> valid_sched sch -> valid_sched sch' -> generate_crs s = (crs, s') -> g1_gen crs = 0 \/ g2_gen crs = 0 ->
  quad_commit_and_prove sch q X Y crs z = Ok (p, z') -> quad_verify sch' q p crs = Ok true.
Proof.
move=> E R R' sch sch' s s' z z' crs q X Y p hb vs vs' /generate_binding bk h0 hc.
have [s1 [s2 [pf [hx hy hp epf]]]] := (proj1 (quad_cap_steps sch q X Y crs z p z')) hc.
case: p hx hy hp epf {hc} => cx cy pfs /= hx hy hp ->.
rewrite (quad_honest hb vs vs' (batch_made_B1 hx) (batch_made_B2 hy) hp).
by case: h0 => [/(binding_s1_0 bk)|/(binding_s2_0 bk)] ->;
  rewrite ?scaler0 ?(bil0l (comT_pairing_bilin hb)) ?(bil0r (comT_pairing_bilin hb)) eqxx.
Qed.

Lemma unique_assignment : forall (E : pairing) (R : rng E) (s s' : rst R) (crs : CRS E),
  generate_crs s = (crs, s') -> g1_gen crs != 0 -> g2_gen crs != 0 ->
  [/\ forall c X X', commits_G1 crs c X -> commits_G1 crs c X' -> X = X',
      forall c x x', commits_B1 crs c x -> commits_B1 crs c x' -> x = x',
      forall d Y Y', commits_G2 crs d Y -> commits_G2 crs d Y' -> Y = Y'
    & forall d y y', commits_B2 crs d y -> commits_B2 crs d y' -> y = y'].
Proof.
move=> E R s s' crs /generate_binding bk hp1 hp2; split; apply: (@binding_list E crs).
- exact: binding_G1.
- exact: binding_B1.
- exact: binding_G2.
- exact: binding_B2.
Qed.
