(** Batch and single commitments, draws, histories, homomorphism. *)
From mathcomp Require Import all_ssreflect all_algebra.
From Verif Require Import Base BaseLemmas Group DataStructures MatLemmas CoreAlg ComLemmas.
From Verif Require Import Generator Commit Statement Prove Verify Spec SpecApi ProveLemmas CommitLemmas.
From Verif Require Import VerifyLemmas Holds Complete Sound Main CapLemmas.
Set Implicit Arguments.
Unset Strict Implicit.
Unset Printing Implicit Defensive.
Import GRing.Theory.
Local Open Scope ring_scope.

Lemma foldM_rcons A S (f : S -> A -> res S) acc s x :
  foldM f acc (rcons s x) = let! acc' := foldM f acc s in f acc' x.
Proof.
elim: s acc => [|y s IH] acc /=; first by case: (f acc x).
by case: (f acc y) => //= acc'.
Qed.

Lemma one_by_oneP (St V : Type) (F : fieldType) (G : lmodType F)
  (one : V -> St -> res (commit G * St)) (batch : seq V -> St -> res (commit G * St)) x0 X s :
  batch [:: x0] s = one x0 s ->
  (forall X x, (0 < size X)%N ->
     batch (rcons X x) s =
     let! (c1, s1) := batch X s in
     let! (c2, s2) := one x s1 in
     let! (a, _) := commit_append c1 c2 in
     Ok (a, s2)) ->
  batch (x0 :: X) s = let! acc := one x0 s in one_by_one one acc X.
Proof.
move=> h0 hS; elim/last_ind: X => [|X x IH]; first by rewrite h0; case: (one x0 s).
rewrite -rcons_cons hS // IH; case: (one x0 s) => //= acc; rewrite /one_by_one foldM_rcons.
by case: (foldM _ _ _) => //= -[c1 s1].
Qed.

Section CommitProps.
Context {E : pairing} {R : rng E}.
Implicit Types (s : rst R) (crs : CRS E).

Lemma gs_c2 (G : lmodType (Fr E)) (X : nat -> com G) u r k :
  gs_c 2 X u r k = X k + r k 0%N *: u 0%N + r k 1%N *: u 1%N.
Proof. by rewrite /gs_c big2 addrA. Qed.
Lemma gs_c1 (G : lmodType (Fr E)) (X : nat -> com G) u r k :
  gs_c 1 X u r k = X k + r k 0%N *: u 0%N.
Proof. by rewrite /gs_c big_nat1. Qed.

Lemma G1_batch1 x crs s : size (crs_u crs) = 2%N ->
  batch_commit_G1 [:: x] crs s = commit_G1 x crs s.
Proof.
move=> hk; rewrite batch_commit_G1_Ok // commit_G1_Ok ?hk //.
by rewrite /mkmat /mkseq /= gs_c2.
Qed.

Lemma G1_batch_rcons X x crs s : size (crs_u crs) = 2%N -> (0 < size X)%N ->
  batch_commit_G1 (rcons X x) crs s =
  let! (c1, s1) := batch_commit_G1 X crs s in
  let! (c2, s2) := commit_G1 x crs s1 in
  let! (a, _) := commit_append c1 c2 in
  Ok (a, s2).
Proof.
move=> hk hX; rewrite batch_commit_G1_Ok ?size_rcons // batch_commit_G1_Ok // bind_Ok; cbv beta iota.
rewrite commit_G1_Ok ?hk // bind_Ok; cbv beta iota; rewrite commit_appendE; cbn [coms crand size]; rewrite /mkmat !size_mkseq !assert_eqT // !bind_Ok; cbv beta iota; rewrite -afterD mulnS.
congr (Ok (mkCommit _ _, _)); rewrite mkseqS -cats1; congr (_ ++ _).
- apply: eq_in_mkseq => i hi; rewrite !gs_c2 /com1_batch_linear_map map_rcons nth_rcons size_map hi //.
- by rewrite gs_c2 /com1_batch_linear_map map_rcons nth_rcons size_map ltnn eqxx !drawn_after add0n addn0 add1n addn1.
- by rewrite /mkseq /= !drawn_after add0n addn0 add1n addn1.
Qed.

Lemma G1_batch_each x0 X crs s : size (crs_u crs) = 2%N ->
  batch_commit_G1 (x0 :: X) crs s
  = let! acc := commit_G1 x0 crs s in one_by_one (fun x s => commit_G1 x crs s) acc X.
Proof.
move=> hk; apply: (one_by_oneP (batch := fun X s => batch_commit_G1 X crs s)).
  exact: G1_batch1.
by move=> X' x hX; apply: G1_batch_rcons.
Qed.

Lemma G2_batch1 x crs s : size (crs_v crs) = 2%N ->
  batch_commit_G2 [:: x] crs s = commit_G2 x crs s.
Proof.
move=> hk; rewrite batch_commit_G2_Ok // commit_G2_Ok ?hk //.
by rewrite /mkmat /mkseq /= gs_c2.
Qed.

Lemma G2_batch_rcons X x crs s : size (crs_v crs) = 2%N -> (0 < size X)%N ->
  batch_commit_G2 (rcons X x) crs s =
  let! (c1, s1) := batch_commit_G2 X crs s in
  let! (c2, s2) := commit_G2 x crs s1 in
  let! (a, _) := commit_append c1 c2 in
  Ok (a, s2).
Proof.
move=> hk hX; rewrite batch_commit_G2_Ok ?size_rcons // batch_commit_G2_Ok // bind_Ok; cbv beta iota.
rewrite commit_G2_Ok ?hk // bind_Ok; cbv beta iota; rewrite commit_appendE; cbn [coms crand size]; rewrite /mkmat !size_mkseq !assert_eqT // !bind_Ok; cbv beta iota; rewrite -afterD mulnS.
congr (Ok (mkCommit _ _, _)); rewrite mkseqS -cats1; congr (_ ++ _).
- apply: eq_in_mkseq => i hi; rewrite !gs_c2 /com2_batch_linear_map map_rcons nth_rcons size_map hi //.
- by rewrite gs_c2 /com2_batch_linear_map map_rcons nth_rcons size_map ltnn eqxx !drawn_after add0n addn0 add1n addn1.
- by rewrite /mkseq /= !drawn_after add0n addn0 add1n addn1.
Qed.

Lemma G2_batch_each x0 X crs s : size (crs_v crs) = 2%N ->
  batch_commit_G2 (x0 :: X) crs s
  = let! acc := commit_G2 x0 crs s in one_by_one (fun x s => commit_G2 x crs s) acc X.
Proof.
move=> hk; apply: (one_by_oneP (batch := fun X s => batch_commit_G2 X crs s)).
  exact: G2_batch1.
by move=> X' x hX; apply: G2_batch_rcons.
Qed.

Lemma B1_batch1 x crs s : (1 < size (crs_u crs))%N ->
  batch_commit_scalar_to_B1 [:: x] crs s = commit_scalar_to_B1 x crs s.
Proof.
move=> hk; rewrite batch_commit_B1_Ok // commit_B1_Ok ?hk //.
by rewrite /mkmat /mkseq /= gs_c1.
Qed.

Lemma B1_batch_rcons X x crs s : (1 < size (crs_u crs))%N -> (0 < size X)%N ->
  batch_commit_scalar_to_B1 (rcons X x) crs s =
  let! (c1, s1) := batch_commit_scalar_to_B1 X crs s in
  let! (c2, s2) := commit_scalar_to_B1 x crs s1 in
  let! (a, _) := commit_append c1 c2 in
  Ok (a, s2).
Proof.
move=> hk hX; rewrite batch_commit_B1_Ok ?size_rcons // batch_commit_B1_Ok // bind_Ok; cbv beta iota.
rewrite commit_B1_Ok ?hk // bind_Ok; cbv beta iota; rewrite commit_appendE; cbn [coms crand size]; rewrite /mkmat !size_mkseq !assert_eqT // !bind_Ok; cbv beta iota; rewrite -afterD add1n.
congr (Ok (mkCommit _ _, _)); rewrite mkseqS -cats1; congr (_ ++ _).
- apply: eq_in_mkseq => i hi; rewrite !gs_c1  map_rcons nth_rcons size_map hi //.
- by rewrite gs_c1  map_rcons nth_rcons size_map ltnn eqxx !drawn_after add0n.

Qed.

Lemma B1_batch_each x0 X crs s : (1 < size (crs_u crs))%N ->
  batch_commit_scalar_to_B1 (x0 :: X) crs s
  = let! acc := commit_scalar_to_B1 x0 crs s in one_by_one (fun x s => commit_scalar_to_B1 x crs s) acc X.
Proof.
move=> hk; apply: (one_by_oneP (batch := fun X s => batch_commit_scalar_to_B1 X crs s)).
  exact: B1_batch1.
by move=> X' x hX; apply: B1_batch_rcons.
Qed.

Lemma B2_batch1 x crs s : (1 < size (crs_v crs))%N ->
  batch_commit_scalar_to_B2 [:: x] crs s = commit_scalar_to_B2 x crs s.
Proof.
move=> hk; rewrite batch_commit_B2_Ok // commit_B2_Ok ?hk //.
by rewrite /mkmat /mkseq /= gs_c1.
Qed.

Lemma B2_batch_rcons X x crs s : (1 < size (crs_v crs))%N -> (0 < size X)%N ->
  batch_commit_scalar_to_B2 (rcons X x) crs s =
  let! (c1, s1) := batch_commit_scalar_to_B2 X crs s in
  let! (c2, s2) := commit_scalar_to_B2 x crs s1 in
  let! (a, _) := commit_append c1 c2 in
  Ok (a, s2).
Proof.
move=> hk hX; rewrite batch_commit_B2_Ok ?size_rcons // batch_commit_B2_Ok // bind_Ok; cbv beta iota.
rewrite commit_B2_Ok ?hk // bind_Ok; cbv beta iota; rewrite commit_appendE; cbn [coms crand size]; rewrite /mkmat !size_mkseq !assert_eqT // !bind_Ok; cbv beta iota; rewrite -afterD add1n.
congr (Ok (mkCommit _ _, _)); rewrite mkseqS -cats1; congr (_ ++ _).
- apply: eq_in_mkseq => i hi; rewrite !gs_c1  map_rcons nth_rcons size_map hi //.
- by rewrite gs_c1  map_rcons nth_rcons size_map ltnn eqxx !drawn_after add0n.

Qed.

Lemma B2_batch_each x0 X crs s : (1 < size (crs_v crs))%N ->
  batch_commit_scalar_to_B2 (x0 :: X) crs s
  = let! acc := commit_scalar_to_B2 x0 crs s in one_by_one (fun x s => commit_scalar_to_B2 x crs s) acc X.
Proof.
move=> hk; apply: (one_by_oneP (batch := fun X s => batch_commit_scalar_to_B2 X crs s)).
  exact: B2_batch1.
by move=> X' x hX; apply: B2_batch_rcons.
Qed.

End CommitProps.
