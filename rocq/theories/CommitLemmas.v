(** What the commitment functions of Commit.v compute, and when they panic. *)
From mathcomp Require Import all_ssreflect all_algebra.
From Verif Require Import Base BaseLemmas Group DataStructures MatLemmas CoreAlg ComLemmas.
From Verif Require Import Commit Spec ProveLemmas.
Set Implicit Arguments.
Unset Strict Implicit.
Unset Printing Implicit Defensive.
Import GRing.Theory.
Local Open Scope ring_scope.

Section Generic.
Context {F : fieldType} {G : lmodType F}.

Lemma idx_key_at (l : seq (com G)) i : key_at l i = idx l i.
Proof. by rewrite /key_at; elim: l i => [|x l IH] [|i] //=; rewrite IH. Qed.

Lemma big2 (V : zmodType) (f : nat -> V) : \sum_(0 <= i < 2) f i = f 0%N + f 1%N.
Proof. by rewrite big_nat_recl // big_nat1. Qed.

(** [lin + rr * key] as computed by the batch functions on groups. *)
Definition gcommit (lin : seq (com G)) (rr : matrix F) (key : seq (com G)) : res (seq (com G)) :=
  let! ru := cmat_left_mul no_ord (vec_to_col_vec key) rr false in
  let! cs := cmat_add (vec_to_col_vec lin) ru in
  col_vec_to_vec cs.

Lemma lm_any ord (A : matrix (com G)) L :
  cmat_left_mul ord A L false = cmat_left_mul tasks A L false.
Proof. by []. Qed.

Lemma tasks_perm r c : perm_eq (tasks r c) (tasks r c).
Proof. exact: perm_refl. Qed.

Lemma gcommit_Ok lin key f k : (0 < size lin)%N -> (0 < k)%N -> size key = k ->
  gcommit lin (mkmat (size lin) k f) key = Ok (mkseq (gs_c k (nth 0 lin) (nth 0 key) f) (size lin)).
Proof.
move=> h0 hk hs; rewrite /gcommit lm_any !(vec_to_col_vecE 0) hs.
rewrite /cmat_left_mul (left_mul_mkmat 0 0 _ _ _ _ _ _ tasks_perm) //=.
rewrite /cmat_add (mat_add_mkmat 0) //= col_vec_to_vec_mkmat; congr Ok.
by apply: eq_mkseq => i; rewrite /gs_c com_tsum.
Qed.

Lemma isok_gcommit lin key f k : (0 < k)%N ->
  isok (gcommit lin (mkmat (size lin) k f) key) = (0 < size lin)%N && (size key == k).
Proof.
move=> hk; apply/idP/idP; last by case/andP=> h0 /eqP hs; rewrite gcommit_Ok.
case/isokP=> c; rewrite /gcommit lm_any => /bind_ok[ru hru] /bind_ok[cs hcs] _.
have h0 : (0 < size lin)%N.
  by case: (lin) hcs => // /add_nil_l.
rewrite h0 /=; case nl : (no_cells (vec_to_col_vec key)).
  move: hru; rewrite /cmat_left_mul left_mul_empty ?nl ?orbT // => -[e].
  by move: hcs; rewrite -e => /add_nil_r.
have := isok_left_mul com_zero com_add com_scalar_mul (vec_to_col_vec key)
  (mkmat (size lin) k f) false tasks_perm.
rewrite -/(cmat_left_mul _ _ _ _) hru /left_mul_shape nl no_cells_mkmat // ncols_mkmat //=.
by rewrite size_vec_to_col_vec eq_sym => /esym/and3P[].
Qed.

(** [lin + r * key0] as computed by the batch functions on scalars. *)
Definition gscommit (lin : seq (com G)) (rr : matrix F) (key : seq (com G)) : res (seq (com G)) :=
  let! rv := col_vec_to_vec rr in
  let! ruv := mapM (fun sca =>
    let! u0 := key_at key 0 in Ok (com_scalar_mul u0 sca)) rv in
  let! cs := cmat_add (vec_to_col_vec lin) (vec_to_col_vec ruv) in
  col_vec_to_vec cs.

Lemma gscommit_Ok lin key f : (0 < size lin)%N -> (0 < size key)%N ->
  gscommit lin (mkmat (size lin) 1 f) key
  = Ok (mkseq (gs_c 1 (nth 0 lin) (nth 0 key) f) (size lin)).
Proof.
move=> h0 hk; rewrite /gscommit col_vec_to_vec_mkmat /=.
rewrite (mapM_Ok (g := fun c => c *: nth 0 key 0)); last first.
  by move=> i hi d; rewrite idx_key_at (idx_nth 0 hk).
rewrite /= !(vec_to_col_vecE 0) size_map size_mkseq /cmat_add (mat_add_mkmat 0) //=.
rewrite col_vec_to_vec_mkmat; congr Ok; apply: eq_in_mkseq => i hi /=.
by rewrite /gs_c big_nat1 (nth_map 0) ?size_mkseq // nth_mkseq.
Qed.

Lemma gscommit_nil rr key : isok (gscommit [::] rr key) = false.
Proof.
apply/negbTE/negP => /isokP[c]; rewrite /gscommit => /bind_ok[rv _] /bind_ok[ruv _].
by move=> /bind_ok[cs /add_nil_l].
Qed.
End Generic.

Lemma bind_Ok A B (a : A) (k : A -> res B) : bind (Ok a) k = k a.
Proof. by []. Qed.

Lemma commit_appendE (F : fieldType) (G : lmodType F) (c1 c2 : commit G) :
  commit_append c1 c2 =
  let! _ := assert_eq (size (coms c1)) (size (crand c1)) in
  let! _ := assert_eq (size (coms c2)) (size (crand c2)) in
  Ok (mkCommit (coms c1 ++ coms c2) (crand c1 ++ crand c2), mkCommit [::] [::]).
Proof.
rewrite /commit_append /commit_append_mut.
by case: (assert_eq _ _) => [_|p] //=; case: (assert_eq _ _).
Qed.

Section Batch.
Context {E : pairing} {R : rng E}.
Implicit Types (s : rst R) (key : CRS E).

Notation RG s m := (mkmat m 2 (fun i j => drawn s (2 * i + j))).
Notation RS s m := (mkmat m 1 (fun i j => drawn s i)).

Lemma batch_commit_G1E X key s : batch_commit_G1 X key s =
  let! cs := gcommit (com1_batch_linear_map X) (RG s (size X)) (crs_u key) in
  Ok (mkCommit cs (RG s (size X)), after (2 * size X) s).
Proof.
rewrite /batch_commit_G1 draw_rows2E /gcommit; case: (cmat_left_mul _ _ _ _) => //= ru.
by case: (cmat_add _ _) => //= cs.
Qed.

Lemma batch_commit_G2E Y key s : batch_commit_G2 Y key s =
  let! cs := gcommit (com2_batch_linear_map Y) (RG s (size Y)) (crs_v key) in
  Ok (mkCommit cs (RG s (size Y)), after (2 * size Y) s).
Proof.
rewrite /batch_commit_G2 draw_rows2E /gcommit; case: (cmat_left_mul _ _ _ _) => //= ru.
by case: (cmat_add _ _) => //= cs.
Qed.

Lemma draw_rows1E' m s : draw_rows1 m s = (RS s m, after m s).
Proof.
rewrite draw_rows1E; congr (_, _); apply: eq_mkmat => i j _; rewrite ltnS leqn0 => /eqP ->.
by rewrite addn0.
Qed.

Lemma batch_commit_B1E X key s : batch_commit_scalar_to_B1 X key s =
  let! lin := com1_batch_scalar_linear_map X key in
  let! cs := gscommit lin (RS s (size X)) (crs_u key) in
  Ok (mkCommit cs (RS s (size X)), after (size X) s).
Proof.
rewrite /batch_commit_scalar_to_B1 draw_rows1E' /gscommit.
case: (com1_batch_scalar_linear_map _ _) => //= lin; case: (col_vec_to_vec _) => //= rv.
by case: (mapM _ _) => //= ruv; case: (cmat_add _ _) => //= cs.
Qed.

Lemma batch_commit_B2E Y key s : batch_commit_scalar_to_B2 Y key s =
  let! lin := com2_batch_scalar_linear_map Y key in
  let! cs := gscommit lin (RS s (size Y)) (crs_v key) in
  Ok (mkCommit cs (RS s (size Y)), after (size Y) s).
Proof.
rewrite /batch_commit_scalar_to_B2 draw_rows1E' /gscommit.
case: (com2_batch_scalar_linear_map _ _) => //= lin; case: (col_vec_to_vec _) => //= rv.
by case: (mapM _ _) => //= ruv; case: (cmat_add _ _) => //= cs.
Qed.

Lemma batch_commit_G1_Ok X key s : (0 < size X)%N -> size (crs_u key) = 2%N ->
  batch_commit_G1 X key s
  = Ok (mkCommit (mkseq (gs_c 2 (nth 0 (com1_batch_linear_map X)) (nth 0 (crs_u key))
                   (fun i j => drawn s (2 * i + j))) (size X)) (RG s (size X)),
        after (2 * size X) s).
Proof.
by move=> h0 hk; rewrite batch_commit_G1E -(size_com1_lin X) gcommit_Ok ?size_com1_lin.
Qed.

Lemma batch_commit_G2_Ok X key s : (0 < size X)%N -> size (crs_v key) = 2%N ->
  batch_commit_G2 X key s
  = Ok (mkCommit (mkseq (gs_c 2 (nth 0 (com2_batch_linear_map X)) (nth 0 (crs_v key))
                   (fun i j => drawn s (2 * i + j))) (size X)) (RG s (size X)),
        after (2 * size X) s).
Proof.
by move=> h0 hk; rewrite batch_commit_G2E -(size_com2_lin X) gcommit_Ok ?size_com2_lin.
Qed.

Lemma batch_commit_B1_Ok X key s : (0 < size X)%N -> (1 < size (crs_u key))%N ->
  batch_commit_scalar_to_B1 X key s
  = Ok (mkCommit (mkseq (gs_c 1 (nth 0 [seq s1map key x | x <- X]) (nth 0 (crs_u key))
                   (fun i j => drawn s i)) (size X)) (RS s (size X)), after (size X) s).
Proof.
move=> h0 hk; rewrite batch_commit_B1E bs1map_Ok //=.
by rewrite -[X in mkmat X](size_map (s1map key) X) gscommit_Ok ?size_map ?(ltnW hk).
Qed.

Lemma batch_commit_B2_Ok X key s : (0 < size X)%N -> (1 < size (crs_v key))%N ->
  batch_commit_scalar_to_B2 X key s
  = Ok (mkCommit (mkseq (gs_c 1 (nth 0 [seq s2map key x | x <- X]) (nth 0 (crs_v key))
                   (fun i j => drawn s i)) (size X)) (RS s (size X)), after (size X) s).
Proof.
move=> h0 hk; rewrite batch_commit_B2E bs2map_Ok //=.
by rewrite -[X in mkmat X](size_map (s2map key) X) gscommit_Ok ?size_map ?(ltnW hk).
Qed.

Lemma isok_batch_commit_G1 X key s :
  isok (batch_commit_G1 X key s) = (0 < size X)%N && (size (crs_u key) == 2%N).
Proof.
rewrite batch_commit_G1E -{1}(size_com1_lin X) isok_bind.
rewrite -[in RHS](size_com1_lin X) -(@isok_gcommit _ _ _ _ (fun i j => drawn s (2 * i + j)) 2) //.
Qed.

Lemma isok_batch_commit_G2 X key s :
  isok (batch_commit_G2 X key s) = (0 < size X)%N && (size (crs_v key) == 2%N).
Proof.
rewrite batch_commit_G2E -{1}(size_com2_lin X) isok_bind.
rewrite -[in RHS](size_com2_lin X) -(@isok_gcommit _ _ _ _ (fun i j => drawn s (2 * i + j)) 2) //.
Qed.

Lemma isok_batch_commit_B1 X key s :
  isok (batch_commit_scalar_to_B1 X key s) = (0 < size X)%N && (1 < size (crs_u key))%N.
Proof.
case: (posnP (size X)) => [/size0nil ->|h0]; last rewrite andTb.
  rewrite batch_commit_B1E -[com1_batch_scalar_linear_map _ _]/(Ok [::]) bind_Ok isok_bind.
  by have := gscommit_nil (RS s 0) (crs_u key); case: (gscommit _ _ _).
case: ltnP => h1; first by rewrite batch_commit_B1_Ok.
rewrite batch_commit_B1E isok_bind; have := isok_bs1map key X.
by rewrite (ltnNge 1) h1 orbF eqn0Ngt h0; case: (com1_batch_scalar_linear_map _ _).
Qed.

Lemma isok_batch_commit_B2 X key s :
  isok (batch_commit_scalar_to_B2 X key s) = (0 < size X)%N && (1 < size (crs_v key))%N.
Proof.
case: (posnP (size X)) => [/size0nil ->|h0]; last rewrite andTb.
  rewrite batch_commit_B2E -[com2_batch_scalar_linear_map _ _]/(Ok [::]) bind_Ok isok_bind.
  by have := gscommit_nil (RS s 0) (crs_v key); case: (gscommit _ _ _).
case: ltnP => h1; first by rewrite batch_commit_B2_Ok.
rewrite batch_commit_B2E isok_bind; have := isok_bs2map key X.
by rewrite (ltnNge 1) h1 orbF eqn0Ngt h0; case: (com2_batch_scalar_linear_map _ _).
Qed.

(** Single commitments. *)
Lemma commit_G1_Ok x key s : (1 < size (crs_u key))%N ->
  commit_G1 x key s
  = Ok (mkCommit [:: com1_linear_map x + drawn s 0 *: nth 0 (crs_u key) 0
                     + drawn s 1 *: nth 0 (crs_u key) 1]
                 [:: [:: drawn s 0; drawn s 1]], after 2 s).
Proof.
move=> h; rewrite /commit_G1 rand_frE; cbv beta iota; rewrite rand_fr_after; cbv beta iota.
by rewrite !idx_key_at (idx_nth 0 h) (idx_nth 0 (ltnW h)).
Qed.
Lemma commit_G2_Ok x key s : (1 < size (crs_v key))%N ->
  commit_G2 x key s
  = Ok (mkCommit [:: com2_linear_map x + drawn s 0 *: nth 0 (crs_v key) 0
                     + drawn s 1 *: nth 0 (crs_v key) 1]
                 [:: [:: drawn s 0; drawn s 1]], after 2 s).
Proof.
move=> h; rewrite /commit_G2 rand_frE; cbv beta iota; rewrite rand_fr_after; cbv beta iota.
by rewrite !idx_key_at (idx_nth 0 h) (idx_nth 0 (ltnW h)).
Qed.
Lemma commit_B1_Ok x key s : (1 < size (crs_u key))%N ->
  commit_scalar_to_B1 x key s
  = Ok (mkCommit [:: s1map key x + drawn s 0 *: nth 0 (crs_u key) 0] [:: [:: drawn s 0]], after 1 s).
Proof.
move=> h; rewrite /commit_scalar_to_B1 rand_frE; cbv beta iota.
by rewrite s1map_Ok // idx_key_at (idx_nth 0 (ltnW h)).
Qed.
Lemma commit_B2_Ok x key s : (1 < size (crs_v key))%N ->
  commit_scalar_to_B2 x key s
  = Ok (mkCommit [:: s2map key x + drawn s 0 *: nth 0 (crs_v key) 0] [:: [:: drawn s 0]], after 1 s).
Proof.
move=> h; rewrite /commit_scalar_to_B2 rand_frE; cbv beta iota.
by rewrite s2map_Ok // idx_key_at (idx_nth 0 (ltnW h)).
Qed.

Lemma isok_commit_G1 x key s : isok (commit_G1 x key s) = (1 < size (crs_u key))%N.
Proof.
case: ltnP => h; first by rewrite commit_G1_Ok.
rewrite /commit_G1 rand_frE; cbv beta iota; rewrite rand_fr_after; cbv beta iota.
by rewrite !idx_key_at isok_bind; case: (idx _ 0) => //= u0; rewrite idx_oob.
Qed.
Lemma isok_commit_G2 x key s : isok (commit_G2 x key s) = (1 < size (crs_v key))%N.
Proof.
case: ltnP => h; first by rewrite commit_G2_Ok.
rewrite /commit_G2 rand_frE; cbv beta iota; rewrite rand_fr_after; cbv beta iota.
by rewrite !idx_key_at isok_bind; case: (idx _ 0) => //= u0; rewrite idx_oob.
Qed.
Lemma isok_commit_B1 x key s : isok (commit_scalar_to_B1 x key s) = (1 < size (crs_u key))%N.
Proof.
case: ltnP => h; first by rewrite commit_B1_Ok.
rewrite /commit_scalar_to_B1 rand_frE; cbv beta iota.
by have := isok_s1map key x; rewrite ltnNge h; case: (com1_scalar_linear_map _ _).
Qed.
Lemma isok_commit_B2 x key s : isok (commit_scalar_to_B2 x key s) = (1 < size (crs_v key))%N.
Proof.
case: ltnP => h; first by rewrite commit_B2_Ok.
rewrite /commit_scalar_to_B2 rand_frE; cbv beta iota.
by have := isok_s2map key x; rewrite ltnNge h; case: (com2_scalar_linear_map _ _).
Qed.
End Batch.
