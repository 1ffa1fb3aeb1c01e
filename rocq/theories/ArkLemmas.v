(** Every function of [Ark.v] takes representations to representations of the
    result of its counterpart. *)
From mathcomp Require Import all_ssreflect all_algebra.
From Verif Require Import Base Group DataStructures Generator Commit Statement Prove Verify Derived.
From Verif Require Import ComLemmas Ark SpecArk ArkRel.
Set Implicit Arguments.
Unset Strict Implicit.
Unset Printing Implicit Defensive.
Import GRing.Theory.
Local Open Scope ring_scope.

Section Curve.
Context {F : fieldType} {G : lmodType F} {C : curve F} {r : repr G C}.
Hypothesis K : repr_ok r.
Local Notation rc := (rcom r).
Implicit Types (x y : com G) (a b : ark_com C).

Lemma rcom_eq x y a b : rc x a -> rc y b -> ark_com_eq a b = com_eq x y.
Proof. by case=> h1 h2 [h3 h4]; rewrite /ark_com_eq /com_eq !(ok_aff_eq K h1 h3, ok_aff_eq K h2 h4). Qed.
Lemma rcom_add x y a b : rc x a -> rc y b -> rc (com_add x y) (ark_com_add a b).
Proof. by case=> h1 h2 [h3 h4]; split=> /=; apply: (ok_into_affine K); apply: (ok_aff_add K). Qed.
Lemma rcom_add_assign x y a b : rc x a -> rc y b -> rc (com_add_assign x y) (ark_com_add_assign a b).
Proof. exact: rcom_add. Qed.
Lemma rcom_neg x a : rc x a -> rc (com_neg x) (ark_com_neg a).
Proof.
by case=> h1 h2; split=> /=; apply: (ok_into_affine K); apply: (ok_prj_neg K); apply: (ok_into_group K).
Qed.
Lemma rcom_sub x y a b : rc x a -> rc y b -> rc (com_sub x y) (ark_com_sub a b).
Proof. by move=> h1 h2; apply: rcom_add => //; apply: rcom_neg. Qed.
Lemma rcom_sub_assign x y a b : rc x a -> rc y b -> rc (com_sub_assign x y) (ark_com_sub_assign a b).
Proof. exact: rcom_sub. Qed.
Lemma rcom_zero : rc com_zero ark_com_zero.
Proof. by split; apply: (ok_aff_zero K). Qed.
Lemma rcom_is_zero x a : rc x a -> ark_com_is_zero a = com_is_zero x.
Proof. by move=> h; apply: rcom_eq h rcom_zero. Qed.
Lemma rcom_sum s t : rseq rc s t -> rc (com_sum s) (ark_com_sum t).
Proof. by move=> h; apply: rfoldl h; [apply: rcom_zero | move=> *; apply: rcom_add]. Qed.
Lemma rcom_scalar_mul x a k : rc x a -> rc (com_scalar_mul x k) (ark_com_scalar_mul a k).
Proof.
by case=> h1 h2; split=> /=; apply: (ok_into_affine K); apply: (ok_prj_mul K); apply: (ok_into_group K).
Qed.
Lemma rcom_from m n : rmat (ra r) m n -> rres rc (com_from m) (ark_com_from n).
Proof.
move=> h; rewrite /com_from /ark_com_from (rsize h); apply: rbind (rres_eq _) _ => _ _ _.
apply: rbind (ridx 0 h) _ => u v huv; rewrite (rsize huv); apply: rbind (rres_eq _) _ => _ _ _.
apply: rbind (ridx 1 h) _ => p q hpq; rewrite (rsize hpq); apply: rbind (rres_eq _) _ => _ _ _.
apply: rbind (ridx 0 huv) _ => x y hxy; apply: rbind (ridx 0 hpq) _ => z t hzt.
by split.
Qed.
Lemma rcom_as_col_vec x a : rc x a -> rmat (ra r) (com_as_col_vec x) (ark_com_as_col_vec a).
Proof. by case=> h1 h2 /=. Qed.
Lemma rcom_as_vec x a : rc x a -> rseq (ra r) (com_as_vec x) (ark_com_as_vec a).
Proof. by case=> h1 h2 /=. Qed.

Lemma rcmat_add M N M' N' : rmat rc M N -> rmat rc M' N' -> rres (rmat rc) (cmat_add M M') (ark_cmat_add N N').
Proof. by move=> h h'; apply: rmat_add h h' => *; apply: rcom_add. Qed.
Lemma rcmat_neg M N : rmat rc M N -> rres (rmat rc) (cmat_neg M) (ark_cmat_neg N).
Proof. by move=> h; apply: rmat_neg h => *; apply: rcom_neg. Qed.
Lemma rcmat_scalar_mul M N k : rmat rc M N -> rres (rmat rc) (cmat_scalar_mul M k) (ark_cmat_scalar_mul N k).
Proof. by move=> h; apply: rmat_scalar_mul h => *; apply: rcom_scalar_mul. Qed.
Lemma rcmat_transpose M N : rmat rc M N -> rres (rmat rc) (cmat_transpose M) (ark_cmat_transpose N).
Proof. exact: rmat_transpose. Qed.
Lemma rcmat_right_mul ord M N B par : rmat rc M N ->
  rres (rmat rc) (cmat_right_mul ord M B par) (ark_cmat_right_mul ord N B par).
Proof.
by move=> h; apply: rmat_right_mul h; [apply: rcom_zero | move=> *; apply: rcom_add | move=> *; apply: rcom_scalar_mul].
Qed.
Lemma rcmat_left_mul ord M N B par : rmat rc M N ->
  rres (rmat rc) (cmat_left_mul ord M B par) (ark_cmat_left_mul ord N B par).
Proof.
by move=> h; apply: rmat_left_mul h; [apply: rcom_zero | move=> *; apply: rcom_add | move=> *; apply: rcom_scalar_mul].
Qed.

Lemma rvec_eq S T (R : S -> T -> Prop) e f s t s' t' :
  (forall (p : S) (q : T) (p' : S) (q' : T), R p q -> R p' q' -> f q q' = e p p') -> rseq R s t -> rseq R s' t' -> vec_eq f t t' = vec_eq e s s'.
Proof.
move=> H; elim: s t s' t' => [|x s IH] [|y t] [|x' s'] [|y' t'] //= [h1 h2] [h3 h4].
by rewrite (H _ _ _ _ h1 h3) (IH _ _ _ h2 h4).
Qed.
Lemma rcommit_eq c d c' d' : rcommit r c d -> rcommit r c' d' -> ark_commit_eq d d' = commit_eq c c'.
Proof.
case: c d c' d' => [cs cr] [ds dr] [cs' cr'] [ds' dr'] [/= h <-] [/= h' <-].
rewrite /commit_eq /ark_commit_eq /=; congr andb.
elim: cs ds cs' ds' h h' => [|x s IH] [|y t] [|x' s'] [|y' t'] //= [h1 h2] [h3 h4].
by rewrite (rcom_eq h1 h3) (IH _ _ _ h2 h4).
Qed.
Lemma rcommit_append_mut c d c' d' : rcommit r c d -> rcommit r c' d' ->
  rpair eq (rpair (rcommit r) (rcommit r)) (commit_append_mut c c') (ark_commit_append_mut d d').
Proof.
case: c d c' d' => [cs cr] [ds dr] [cs' cr'] [ds' dr'] [/= h <-] [/= h' <-].
rewrite /commit_append_mut /ark_commit_append_mut /= (rsize h) (rsize h').
case: (assert_eq _ _) => [_|p] /=; last by [].
by case: (assert_eq _ _) => [_|p] /=; last by []; do !split=> //=; apply: rcat.
Qed.
Lemma rcommit_append c d c' d' : rcommit r c d -> rcommit r c' d' ->
  rres (rpair (rcommit r) (rcommit r)) (commit_append c c') (ark_commit_append d d').
Proof.
move=> h h'; move: (rcommit_append_mut h h'); rewrite /commit_append /ark_commit_append.
case: (commit_append_mut _ _) => o st; case: (ark_commit_append_mut _ _) => o' st' [/= <- H].
by case: o.
Qed.
End Curve.

Section Pairing.
Context {E : pairing} {A : ark (Fr E)} {r1 : repr (G1 E) (C1 A)} {r2 : repr (G2 E) (C2 A)} {rt : GT E -> out A -> Prop}.
Hypothesis I : implements r1 r2 rt.
Let K1 := ok_C1 I.
Let K2 := ok_C2 I.
Local Notation rT := (rcomT rt).
Local Notation rK := (rcrs r1 r2 rt).

Lemma rcomT_mk a b c d a' b' c' d' : rt a a' -> rt b b' -> rt c c' -> rt d d' ->
  rT (mkComT a b c d) (ark_mkComT a' b' c' d').
Proof. by []. Qed.
Lemma rcomT_eq x y a b : rT x a -> rT y b -> ark_comT_eq a b = comT_eq x y.
Proof.
case=> h1 h2 h3 h4 [k1 k2 k3 k4]; rewrite /ark_comT_eq /comT_eq.
by rewrite !(ok_out_eq I h1 k1, ok_out_eq I h2 k2, ok_out_eq I h3 k3, ok_out_eq I h4 k4).
Qed.
Lemma rcomT_add x y a b : rT x a -> rT y b -> rT (comT_add x y) (ark_comT_add a b).
Proof. by case=> h1 h2 h3 h4 [k1 k2 k3 k4]; apply: rcomT_mk; apply: (ok_out_add I). Qed.
Lemma rcomT_add_assign x y a b : rT x a -> rT y b -> rT (comT_add_assign x y) (ark_comT_add_assign a b).
Proof. by case=> h1 h2 h3 h4 [k1 k2 k3 k4]; apply: rcomT_mk; apply: (ok_out_add I). Qed.
Lemma rcomT_sub x y a b : rT x a -> rT y b -> rT (comT_sub x y) (ark_comT_sub a b).
Proof. by case=> h1 h2 h3 h4 [k1 k2 k3 k4]; apply: rcomT_mk; apply: (ok_out_sub I). Qed.
Lemma rcomT_sub_assign x y a b : rT x a -> rT y b -> rT (comT_sub_assign x y) (ark_comT_sub_assign a b).
Proof. by case=> h1 h2 h3 h4 [k1 k2 k3 k4]; apply: rcomT_mk; apply: (ok_out_sub I). Qed.
Lemma rcomT_neg x a : rT x a -> rT (comT_neg x) (ark_comT_neg a).
Proof. by case=> h1 h2 h3 h4; apply: rcomT_mk; apply: (ok_out_neg I). Qed.
Lemma rcomT_zero : rT comT_zero ark_comT_zero.
Proof. by apply: rcomT_mk; apply: (ok_out_zero I). Qed.
Lemma rcomT_is_zero x a : rT x a -> ark_comT_is_zero a = comT_is_zero x.
Proof. by move=> h; apply: rcomT_eq h rcomT_zero. Qed.
Lemma rcomT_sum s t : rseq rT s t -> rT (comT_sum s) (ark_comT_sum t).
Proof. by move=> h; apply: rfoldl h; [apply: rcomT_zero | move=> *; apply: rcomT_add]. Qed.
Lemma rcomT_from m n : rmat rt m n -> rres rT (comT_from m) (ark_comT_from n).
Proof.
move=> h; rewrite /comT_from /ark_comT_from (rsize h); apply: rbind (rres_eq _) _ => _ _ _.
apply: rbind (ridx 0 h) _ => u v huv; rewrite (rsize huv); apply: rbind (rres_eq _) _ => _ _ _.
apply: rbind (ridx 1 h) _ => p q hpq; rewrite (rsize hpq); apply: rbind (rres_eq _) _ => _ _ _.
apply: rbind (ridx 0 huv) _ => a a' ha; apply: rbind (ridx 1 huv) _ => b b' hb.
apply: rbind (ridx 0 hpq) _ => c c' hc; apply: rbind (ridx 1 hpq) _ => d d' hd.
exact: rcomT_mk.
Qed.
Lemma rcomT_as_matrix x a : rT x a -> rmat rt (comT_as_matrix x) (ark_comT_as_matrix a).
Proof. by case. Qed.
Lemma rcomT_pairing x y a b : rcom r1 x a -> rcom r2 y b -> rT (comT_pairing x y) (ark_comT_pairing a b).
Proof. by case=> h1 h2 [h3 h4]; apply: rcomT_mk; apply: (ok_pairing I). Qed.
Lemma rmulti_pairing xs ys s t : rseq (ra r1) xs s -> rseq (ra r2) ys t -> size xs = size ys ->
  rt (multi_pairing xs ys) (a_multi_pairing s t).
Proof.
move=> h h' e; rewrite multi_pairingE //.
have := ok_multi_pairing I h h' e.
rewrite (big_nth (0, 0)) size_zip -e minnn => hh.
by under eq_bigr => i _ do rewrite -[nth 0 xs i]/(nth 0 xs i, nth 0 ys i).1 -[nth 0 ys i]/(nth 0 xs i, nth 0 ys i).2 -nth_zip //.
Qed.
Lemma rcomT_pairing_sum xs ys s t : rseq (rcom r1) xs s -> rseq (rcom r2) ys t ->
  rres rT (comT_pairing_sum xs ys) (ark_comT_pairing_sum s t).
Proof.
move=> h h'; rewrite /comT_pairing_sum /ark_comT_pairing_sum.
have e : rres (fun _ _ => size xs = size ys) (assert_eq (size xs) (size ys)) (assert_eq (size s) (size t)).
  by rewrite (rsize h) (rsize h') /assert_eq; case: eqP.
have f1 : rseq (ra r1) [seq x.1 | x <- xs] [seq x.1 | x <- s] by apply: rmap h => x y [].
have f2 : rseq (ra r1) [seq x.2 | x <- xs] [seq x.2 | x <- s] by apply: rmap h => x y [].
have f3 : rseq (ra r2) [seq x.1 | x <- ys] [seq x.1 | x <- t] by apply: rmap h' => x y [].
have f4 : rseq (ra r2) [seq x.2 | x <- ys] [seq x.2 | x <- t] by apply: rmap h' => x y [].
apply: rbind e _ => _ _ e; apply: rcomT_mk; apply: rmulti_pairing => //; by rewrite !size_map.
Qed.

Lemma rcom1_linear_map x a : ra r1 x a -> rcom r1 (com1_linear_map x) (ark_com1_linear_map a).
Proof. by move=> h; split=> //; apply: (ok_aff_zero K1). Qed.
Lemma rcom2_linear_map x a : ra r2 x a -> rcom r2 (com2_linear_map x) (ark_com2_linear_map a).
Proof. by move=> h; split=> //; apply: (ok_aff_zero K2). Qed.
Lemma rcom1_batch_linear_map s t : rseq (ra r1) s t ->
  rseq (rcom r1) (com1_batch_linear_map s) (ark_com1_batch_linear_map t).
Proof. by move=> h; apply: rmap h => x y; apply: rcom1_linear_map. Qed.
Lemma rcom2_batch_linear_map s t : rseq (ra r2) s t ->
  rseq (rcom r2) (com2_batch_linear_map s) (ark_com2_batch_linear_map t).
Proof. by move=> h; apply: rmap h => x y; apply: rcom2_linear_map. Qed.
Lemma rcom1_scalar_linear_map k c d : rK c d ->
  rres (rcom r1) (com1_scalar_linear_map k c) (ark_com1_scalar_linear_map k d).
Proof.
case=> hu _ hg _ _; apply: rbind (ridx 1 hu) _ => u v huv; apply: (rcom_scalar_mul K1).
by apply: (rcom_add K1) => //; apply: rcom1_linear_map.
Qed.
Lemma rcom2_scalar_linear_map k c d : rK c d ->
  rres (rcom r2) (com2_scalar_linear_map k c) (ark_com2_scalar_linear_map k d).
Proof.
case=> _ hv _ hg _; apply: rbind (ridx 1 hv) _ => u v huv; apply: (rcom_scalar_mul K2).
by apply: (rcom_add K2) => //; apply: rcom2_linear_map.
Qed.
Lemma rcom1_batch_scalar_linear_map ks c d : rK c d ->
  rres (rseq (rcom r1)) (com1_batch_scalar_linear_map ks c) (ark_com1_batch_scalar_linear_map ks d).
Proof. by move=> h; apply: rmapMi => k; apply: rcom1_scalar_linear_map. Qed.
Lemma rcom2_batch_scalar_linear_map ks c d : rK c d ->
  rres (rseq (rcom r2)) (com2_batch_scalar_linear_map ks c) (ark_com2_batch_scalar_linear_map ks d).
Proof. by move=> h; apply: rmapMi => k; apply: rcom2_scalar_linear_map. Qed.
Lemma rlinear_map_PPE z a : rt z a -> rT (linear_map_PPE z) (ark_linear_map_PPE a).
Proof. by move=> h; apply: rcomT_mk => //; apply: (ok_out_zero I). Qed.
Lemma rlinear_map_MSMEG1 z a c d : ra r1 z a -> rK c d ->
  rres rT (linear_map_MSMEG1 z c) (ark_linear_map_MSMEG1 a d).
Proof.
move=> h k; apply: rbind (rcom2_scalar_linear_map 1 k) _ => x y hxy.
by apply: rcomT_pairing => //; apply: rcom1_linear_map.
Qed.
Lemma rlinear_map_MSMEG2 z a c d : ra r2 z a -> rK c d ->
  rres rT (linear_map_MSMEG2 z c) (ark_linear_map_MSMEG2 a d).
Proof.
move=> h k; apply: rbind (rcom1_scalar_linear_map 1 k) _ => x y hxy.
by apply: rcomT_pairing => //; apply: rcom2_linear_map.
Qed.
Lemma rlinear_map_quad z c d : rK c d -> rres rT (linear_map_quad z c) (ark_linear_map_quad z d).
Proof.
move=> k; apply: rbind (rcom1_scalar_linear_map 1 k) _ => x y hxy.
apply: rbind (rcom2_scalar_linear_map 1 k) _ => x' y' hxy'.
by apply: rcomT_pairing => //; apply: (rcom_scalar_mul K2).
Qed.

(** ** Generator and commitments *)
Section Rng.
Context {R : rng E} {R' : ark_rng A} {rs : rst R -> ark_rst R' -> Prop}.
Hypothesis D : scalars_alike rs.

Lemma rprepare_real_binding_key g1 g2 q1 (k1 : Fr E) q2 (k2 : Fr E) g1' g2' q1' q2' :
  rp r1 g1 g1' -> rp r2 g2 g2' -> rp r1 q1 q1' -> rp r2 q2 q2' ->
  rpair (rp r1) (rp r2) (prepare_real_binding_key g1 g2 q1 k1 q2 k2) (ark_prepare_real_binding_key g1' g2' q1' k1 q2' k2).
Proof.
move=> h1 h2 h3 h4; split=> /=; [apply: (ok_prj_sub K1) | apply: (ok_prj_sub K2)].
- exact: (ok_prj_mul K1).
- exact: (ok_prj_zero K1).
- exact: (ok_prj_mul K2).
- exact: (ok_prj_zero K2).
Qed.
Lemma rprepare_simulated_hinding_key g1 g2 q1 (k1 : Fr E) q2 (k2 : Fr E) g1' g2' q1' q2' :
  rp r1 g1 g1' -> rp r2 g2 g2' -> rp r1 q1 q1' -> rp r2 q2 q2' ->
  rpair (rp r1) (rp r2) (prepare_simulated_hinding_key g1 g2 q1 k1 q2 k2)
    (ark_prepare_simulated_hinding_key g1' g2' q1' k1 q2' k2).
Proof.
move=> h1 h2 h3 h4; split=> /=; [apply: (ok_prj_sub K1) => // | apply: (ok_prj_sub K2) => //].
- exact: (ok_prj_mul K1).
- exact: (ok_prj_mul K2).
Qed.

Lemma rgenerate_crs s t : draws_alike r1 r2 rs -> rs s t -> rpair rK rs (generate_crs s) (ark_generate_crs t).
Proof.
move=> D' h; rewrite /generate_crs /ark_generate_crs.
move: (ok_rand_g1 D' h); case: (rand_g1 s) => p1 {h}s; case: (ark_rand_g1 t) => p1' {}t [/= h1 h].
move: (ok_rand_g2 D' h); case: (rand_g2 s) => p2 {h}s; case: (ark_rand_g2 t) => p2' {}t [/= h2 h].
move: (D h); case: (rand_fr s) => a1 {h}s; case: (ark_rand_fr t) => a1' {}t [/= <- h].
move: (D h); case: (rand_fr s) => a2 {h}s; case: (ark_rand_fr t) => a2' {}t [/= <- h].
move: (D h); case: (rand_fr s) => b1 {h}s; case: (ark_rand_fr t) => b1' {}t [/= <- h].
move: (D h); case: (rand_fr s) => b2 {h}s; case: (ark_rand_fr t) => b2' {}t [/= <- h].
have hq1 := ok_prj_mul K1 a1 h1; have hq2 := ok_prj_mul K2 a2 h2.
have hu1 := ok_prj_mul K1 b1 h1; have hu2 := ok_prj_mul K2 b2 h2.
have [/= hw1 hw2] := rprepare_real_binding_key b1 b2 h1 h2 hq1 hq2.
have i1 := ok_into_affine K1; have i2 := ok_into_affine K2.
split=> //; split=> /=.
- by split; [split | split=> //; split]; apply: i1.
- by split; [split | split=> //; split]; apply: i2.
- exact: i1.
- exact: i2.
- by apply: (ok_pairing I); [apply: i1 | apply: i2].
Qed.

Lemma rkey_at T S (Q : T -> S -> Prop) s t i : rseq Q s t -> rres Q (key_at s i) (key_at t i).
Proof. by move=> h; apply: rbind (ridx i (rvec_to_col_vec h)) _ => a b hab; apply: ridx. Qed.

Ltac szs := repeat match goal with
  | H : rseq _ ?a ?b |- context [size ?a] => rewrite (rsize H)
  | H : rmat _ ?a ?b |- context [size ?a] => rewrite (rsize H)
  end.
Ltac side := lazymatch goal with
  | |- rres _ (idx _ _) _ => eapply ridx; side
  | |- rres _ (key_at _ _) _ => eapply rkey_at; side
  | |- rres _ (col_vec_to_vec _) _ => eapply rcol_vec_to_vec; side
  | |- rres _ (@cmat_add _ (G1 E) _ _ ) _ => eapply (rcmat_add K1); side
  | |- rres _ (@cmat_add _ (G2 E) _ _ ) _ => eapply (rcmat_add K2); side
  | |- rres _ (@cmat_left_mul _ (G1 E) _ _ _ _ ) _ => eapply (rcmat_left_mul K1); side
  | |- rres _ (@cmat_left_mul _ (G2 E) _ _ _ _ ) _ => eapply (rcmat_left_mul K2); side
  | |- rres _ (com1_scalar_linear_map _ _ ) _ => eapply rcom1_scalar_linear_map; side
  | |- rres _ (com2_scalar_linear_map _ _ ) _ => eapply rcom2_scalar_linear_map; side
  | |- rres _ (com1_batch_scalar_linear_map _ _ ) _ => eapply rcom1_batch_scalar_linear_map; side
  | |- rres _ (com2_batch_scalar_linear_map _ _ ) _ => eapply rcom2_batch_scalar_linear_map; side
  | |- rres _ (comT_pairing_sum _ _ ) _ => eapply rcomT_pairing_sum; side
  | |- rres _ (linear_map_MSMEG1 _ _ ) _ => eapply rlinear_map_MSMEG1; side
  | |- rres _ (linear_map_MSMEG2 _ _ ) _ => eapply rlinear_map_MSMEG2; side
  | |- rres _ (linear_map_quad _ _ ) _ => eapply rlinear_map_quad; side
  | |- rcom r1 (com_add _ _ ) _ => eapply (rcom_add K1); side
  | |- rcom r1 (com_scalar_mul _ _ ) _ => eapply (rcom_scalar_mul K1); side
  | |- rcom r1 (com1_linear_map _) _ => eapply rcom1_linear_map; side
  | |- rcom r2 (com_add _ _ ) _ => eapply (rcom_add K2); side
  | |- rcom r2 (com_scalar_mul _ _ ) _ => eapply (rcom_scalar_mul K2); side
  | |- rcom r2 (com2_linear_map _) _ => eapply rcom2_linear_map; side
  | |- rcomT _ (comT_add _ _) _ => eapply rcomT_add; side
  | |- rcomT _ (comT_pairing _ _) _ => eapply rcomT_pairing; side
  | |- rcomT _ (linear_map_PPE _) _ => eapply rlinear_map_PPE; side
  | |- rmat _ [:: [:: _]] _ => refine (conj (conj _ Logic.I) Logic.I); side
  | |- _ _ (vec_to_col_vec _) _ => eapply rvec_to_col_vec; side
  | |- _ _ (com1_batch_linear_map _) _ => eapply rcom1_batch_linear_map; side
  | |- _ _ (com2_batch_linear_map _) _ => eapply rcom2_batch_linear_map; side
  | |- _ => eassumption
  end.
Ltac rstep :=
  lazymatch goal with
  | |- rres _ (bind ?m _) (bind ?m _) => refine (rbind (rres_eq m) _); intros ? ? <-
  | h : rs ?s ?t |- rres _ (let (_, _) := rand_fr ?s in _) (let (_, _) := ark_rand_fr ?t in _) =>
      move: (D h); clear h; case: (rand_fr s) => ? ?; case: (ark_rand_fr t) => ? ? [/= <- ?]
  | |- rres _ (bind _ _) (bind _ _) => first
     [ eapply rbind; [side | intros ? ? ?]
     | progress szs ]
  end; cbv beta iota zeta.

Lemma rdraw_rows2 m s t : rs s t -> rpair eq rs (draw_rows2 m s) (ark_draw_rows2 m t).
Proof.
elim: m s t => [|m IH] s t h //=.
move: (D h); case: (rand_fr s) => a1 {h}s; case: (ark_rand_fr t) => a1' {}t [/= <- h].
move: (D h); case: (rand_fr s) => a2 {h}s; case: (ark_rand_fr t) => a2' {}t [/= <- h].
by move: (IH _ _ h); case: (draw_rows2 _ _) => ? ?; case: (ark_draw_rows2 _ _) => ? ? [/= <- ?].
Qed.
Lemma rdraw_rows1 m s t : rs s t -> rpair eq rs (draw_rows1 m s) (ark_draw_rows1 m t).
Proof.
elim: m s t => [|m IH] s t h //=.
move: (D h); case: (rand_fr s) => a1 {h}s; case: (ark_rand_fr t) => a1' {}t [/= <- h].
by move: (IH _ _ h); case: (draw_rows1 _ _) => ? ?; case: (ark_draw_rows1 _ _) => ? ? [/= <- ?].
Qed.

Lemma rcommit_G1 x a c d s t : ra r1 x a -> rK c d -> rs s t ->
  rres (rpair (rcommit r1) rs) (commit_G1 x c s) (ark_commit_G1 a d t).
Proof.
move=> h [hu hv h1 h2 h3] hs; rewrite /commit_G1 /ark_commit_G1; do 2 rstep.
do 2 (eapply rbind; [eapply rkey_at; eassumption | intros ? ? ?]).
by split=> //; split=> //=; split=> //; side.
Qed.
Lemma rbatch_commit_G1 xs a c d s t : rseq (ra r1) xs a -> rK c d -> rs s t ->
  rres (rpair (rcommit r1) rs) (batch_commit_G1 xs c s) (ark_batch_commit_G1 a d t).
Proof.
move=> h [hu hv h1 h2 h3] hs; rewrite /batch_commit_G1 /ark_batch_commit_G1 (rsize h).
move: (rdraw_rows2 (size a) hs); case: (draw_rows2 _ _) => rr ?; case: (ark_draw_rows2 _ _) => ? ? [/= <- ?].
by repeat rstep.
Qed.
Lemma rcommit_scalar_to_B1 x c d s t : rK c d -> rs s t ->
  rres (rpair (rcommit r1) rs) (commit_scalar_to_B1 x c s) (ark_commit_scalar_to_B1 x d t).
Proof.
move=> h hs; rewrite /commit_scalar_to_B1 /ark_commit_scalar_to_B1; do 2 rstep.
case: h => hu hv h1 h2 h3; eapply rbind; [eapply rkey_at; eassumption | intros ? ? ?].
by split=> //; split=> //=; split=> //; side.
Qed.
Lemma rbatch_commit_scalar_to_B1 xs c d s t : rK c d -> rs s t ->
  rres (rpair (rcommit r1) rs) (batch_commit_scalar_to_B1 xs c s) (ark_batch_commit_scalar_to_B1 xs d t).
Proof.
move=> h hs; rewrite /batch_commit_scalar_to_B1 /ark_batch_commit_scalar_to_B1.
move: (rdraw_rows1 (size xs) hs); case: (draw_rows1 _ _) => rr ?; case: (ark_draw_rows1 _ _) => ? ? [/= <- ?].
rstep; rstep; apply: (rbind (R := rseq (rcom r1))).
  apply: rmapMi => i; have [hu hv _ _ _] := h; apply: rbind (rkey_at 0 hu) _ => ? ? ? /=; side.
move=> ? ? ?; repeat rstep; by do !split.
Qed.

Lemma rcommit_G2 x a c d s t : ra r2 x a -> rK c d -> rs s t ->
  rres (rpair (rcommit r2) rs) (commit_G2 x c s) (ark_commit_G2 a d t).
Proof.
move=> h [hu hv h1 h2 h3] hs; rewrite /commit_G2 /ark_commit_G2; do 2 rstep.
do 2 (eapply rbind; [eapply rkey_at; eassumption | intros ? ? ?]).
by split=> //; split=> //=; split=> //; side.
Qed.
Lemma rbatch_commit_G2 xs a c d s t : rseq (ra r2) xs a -> rK c d -> rs s t ->
  rres (rpair (rcommit r2) rs) (batch_commit_G2 xs c s) (ark_batch_commit_G2 a d t).
Proof.
move=> h [hu hv h1 h2 h3] hs; rewrite /batch_commit_G2 /ark_batch_commit_G2 (rsize h).
move: (rdraw_rows2 (size a) hs); case: (draw_rows2 _ _) => rr ?; case: (ark_draw_rows2 _ _) => ? ? [/= <- ?].
by repeat rstep.
Qed.
Lemma rcommit_scalar_to_B2 x c d s t : rK c d -> rs s t ->
  rres (rpair (rcommit r2) rs) (commit_scalar_to_B2 x c s) (ark_commit_scalar_to_B2 x d t).
Proof.
move=> h hs; rewrite /commit_scalar_to_B2 /ark_commit_scalar_to_B2; do 2 rstep.
case: h => hu hv h1 h2 h3; eapply rbind; [eapply rkey_at; eassumption | intros ? ? ?].
by split=> //; split=> //=; split=> //; side.
Qed.
Lemma rbatch_commit_scalar_to_B2 xs c d s t : rK c d -> rs s t ->
  rres (rpair (rcommit r2) rs) (batch_commit_scalar_to_B2 xs c s) (ark_batch_commit_scalar_to_B2 xs d t).
Proof.
move=> h hs; rewrite /batch_commit_scalar_to_B2 /ark_batch_commit_scalar_to_B2.
move: (rdraw_rows1 (size xs) hs); case: (draw_rows1 _ _) => rr ?; case: (ark_draw_rows1 _ _) => ? ? [/= <- ?].
rstep; rstep; apply: (rbind (R := rseq (rcom r2))).
  apply: rmapMi => i; have [hu hv _ _ _] := h; apply: rbind (rkey_at 0 hv) _ => ? ? ? /=; side.
move=> ? ? ?; repeat rstep; by do !split.
Qed.

Local Notation rP := (requproof r1 r2).
Local Notation rC := (rcproof r1 r2).

Lemma rppe_prove sch e f xs a ys b x x' y y' c d s t :
  rppe r1 r2 rt e f -> rseq (ra r1) xs a -> rseq (ra r2) ys b -> rcommit r1 x x' -> rcommit r2 y y' -> rK c d -> rs s t ->
  rres (rpair rP rs) (ppe_prove sch e xs ys x y c s) (ark_ppe_prove sch f a b x' y' d t).
Proof.
case: e f x x' y y' => ea eb eg et [fa fb fg ft] [xc xr] [xc' xr'] [yc yr] [yc' yr'].
rewrite /rppe /rcommit /= => -[he1 he2 he3 he4] hx hy [hxc hxr] [hyc hyr] hc hs.
subst; have [hu hv _ _ _] := hc; rewrite /ppe_prove /ark_ppe_prove /=; szs.
by repeat rstep; split=> //; split.
Qed.

Lemma rppe_commit_and_prove sch e f xs a ys b c d s t :
  rppe r1 r2 rt e f -> rseq (ra r1) xs a -> rseq (ra r2) ys b -> rK c d -> rs s t ->
  rres (rpair rC rs) (ppe_commit_and_prove sch e xs ys c s) (ark_ppe_commit_and_prove sch f a b d t).
Proof.
move=> he hx hy hc hs; rewrite /ppe_commit_and_prove /ark_ppe_commit_and_prove.
apply: (rbind (rbatch_commit_G1 hx hc hs)) => -[x {}s] [x' {}t] [/= hcx {}hs].
apply: (rbind (rbatch_commit_G2 hy hc hs)) => -[y {}s] [y' {}t] [/= hcy {}hs].
have hp := rppe_prove sch he hx hy hcx hcy hc hs.
by apply: (rbind hp) => -[p s3] [p' t3] [/= hp' hs3].
Qed.

Lemma rms1_prove sch e f xs a ys x x' y y' c d s t :
  rms1 r1 e f -> rseq (ra r1) xs a -> rcommit r1 x x' -> rcommit r2 y y' -> rK c d -> rs s t ->
  rres (rpair rP rs) (ms1_prove sch e xs ys x y c s) (ark_ms1_prove sch f a ys x' y' d t).
Proof.
case: e f x x' y y' => ea eb eg et [fa fb fg ft] [xc xr] [xc' xr'] [yc yr] [yc' yr'].
rewrite /rms1 /rcommit /= => -[he1 he2 he3 he4] hx [hxc hxr] [hyc hyr] hc hs.
subst; have [hu hv _ _ _] := hc; rewrite /ms1_prove /ark_ms1_prove /=; szs.
by repeat rstep; split=> //; split.
Qed.

Lemma rms1_commit_and_prove sch e f xs a ys c d s t :
  rms1 r1 e f -> rseq (ra r1) xs a -> rK c d -> rs s t ->
  rres (rpair rC rs) (ms1_commit_and_prove sch e xs ys c s) (ark_ms1_commit_and_prove sch f a ys d t).
Proof.
move=> he hx hc hs; rewrite /ms1_commit_and_prove /ark_ms1_commit_and_prove.
apply: (rbind (rbatch_commit_G1 hx hc hs)) => -[x {}s] [x' {}t] [/= hcx {}hs].
apply: (rbind (rbatch_commit_scalar_to_B2 ys hc hs)) => -[y {}s] [y' {}t] [/= hcy {}hs].
have hp := rms1_prove sch ys he hx hcx hcy hc hs.
by apply: (rbind hp) => -[p s3] [p' t3] [/= hp' hs3].
Qed.

Lemma rms2_prove sch e f xs ys b x x' y y' c d s t :
  rms2 r2 e f -> rseq (ra r2) ys b -> rcommit r1 x x' -> rcommit r2 y y' -> rK c d -> rs s t ->
  rres (rpair rP rs) (ms2_prove sch e xs ys x y c s) (ark_ms2_prove sch f xs b x' y' d t).
Proof.
case: e f x x' y y' => ea eb eg et [fa fb fg ft] [xc xr] [xc' xr'] [yc yr] [yc' yr'].
rewrite /rms2 /rcommit /= => -[he1 he2 he3 he4] hy [hxc hxr] [hyc hyr] hc hs.
subst; have [hu hv _ _ _] := hc; rewrite /ms2_prove /ark_ms2_prove /=; szs.
by repeat rstep; split=> //; split.
Qed.

Lemma rms2_commit_and_prove sch e f xs ys b c d s t :
  rms2 r2 e f -> rseq (ra r2) ys b -> rK c d -> rs s t ->
  rres (rpair rC rs) (ms2_commit_and_prove sch e xs ys c s) (ark_ms2_commit_and_prove sch f xs b d t).
Proof.
move=> he hy hc hs; rewrite /ms2_commit_and_prove /ark_ms2_commit_and_prove.
apply: (rbind (rbatch_commit_scalar_to_B1 xs hc hs)) => -[x {}s] [x' {}t] [/= hcx {}hs].
apply: (rbind (rbatch_commit_G2 hy hc hs)) => -[y {}s] [y' {}t] [/= hcy {}hs].
have hp := rms2_prove sch xs he hy hcx hcy hc hs.
by apply: (rbind hp) => -[p s3] [p' t3] [/= hp' hs3].
Qed.

Lemma rquad_prove sch e f xs ys x x' y y' c d s t :
  rquad e f -> rcommit r1 x x' -> rcommit r2 y y' -> rK c d -> rs s t ->
  rres (rpair rP rs) (quad_prove sch e xs ys x y c s) (ark_quad_prove sch f xs ys x' y' d t).
Proof.
case: e f x x' y y' => ea eb eg et [fa fb fg ft] [xc xr] [xc' xr'] [yc yr] [yc' yr'].
rewrite /rquad /rcommit /= => -[he1 he2 he3 he4]  [hxc hxr] [hyc hyr] hc hs.
subst; have [hu hv _ _ _] := hc; rewrite /quad_prove /ark_quad_prove /=; szs.
by repeat rstep; split=> //; split.
Qed.

Lemma rquad_commit_and_prove sch e f xs ys c d s t :
  rquad e f -> rK c d -> rs s t ->
  rres (rpair rC rs) (quad_commit_and_prove sch e xs ys c s) (ark_quad_commit_and_prove sch f xs ys d t).
Proof.
move=> he  hc hs; rewrite /quad_commit_and_prove /ark_quad_commit_and_prove.
apply: (rbind (rbatch_commit_scalar_to_B1 xs hc hs)) => -[x {}s] [x' {}t] [/= hcx {}hs].
apply: (rbind (rbatch_commit_scalar_to_B2 ys hc hs)) => -[y {}s] [y' {}t] [/= hcy {}hs].
have hp := rquad_prove sch xs ys he  hcx hcy hc hs.
by apply: (rbind hp) => -[p s3] [p' t3] [/= hp' hs3].
Qed.

Lemma rppe_verify sch e f p q c d : rppe r1 r2 rt e f -> rC p q -> rK c d ->
  ark_ppe_verify sch f q d = ppe_verify sch e p c.
Proof.
case: e f p q => ea eb eg et [fa fb fg ft] [[xc xr] [yc yr] ps] [[xc' xr'] [yc' yr'] qs].
rewrite /rppe /rcproof /rcommit /= => -[he1 he2 he3 he4] [[hxc hxr] [hyc hyr] hps] hc.
subst; have [hu hv _ _ _] := hc; apply/esym/rres_eqE; rewrite /ppe_verify /ark_ppe_verify /=; szs.
rstep; eapply rbind; [side | move=> [pp pt pty pr] [qp qt qty qr] [/= hp1 hp2 <- _]].
rewrite /ppe_get_type /ark_ppe_get_type.
by repeat rstep; refine (esym (rcomT_eq _ _)); side.
Qed.

Lemma rms1_verify sch e f p q c d : rms1 r1 e f -> rC p q -> rK c d ->
  ark_ms1_verify sch f q d = ms1_verify sch e p c.
Proof.
case: e f p q => ea eb eg et [fa fb fg ft] [[xc xr] [yc yr] ps] [[xc' xr'] [yc' yr'] qs].
rewrite /rms1 /rcproof /rcommit /= => -[he1 he2 he3 he4] [[hxc hxr] [hyc hyr] hps] hc.
subst; have [hu hv _ _ _] := hc; apply/esym/rres_eqE; rewrite /ms1_verify /ark_ms1_verify /=; szs.
rstep; eapply rbind; [side | move=> [pp pt pty pr] [qp qt qty qr] [/= hp1 hp2 <- _]].
rewrite /ms1_get_type /ark_ms1_get_type.
by repeat rstep; refine (esym (rcomT_eq _ _)); side.
Qed.

Lemma rms2_verify sch e f p q c d : rms2 r2 e f -> rC p q -> rK c d ->
  ark_ms2_verify sch f q d = ms2_verify sch e p c.
Proof.
case: e f p q => ea eb eg et [fa fb fg ft] [[xc xr] [yc yr] ps] [[xc' xr'] [yc' yr'] qs].
rewrite /rms2 /rcproof /rcommit /= => -[he1 he2 he3 he4] [[hxc hxr] [hyc hyr] hps] hc.
subst; have [hu hv _ _ _] := hc; apply/esym/rres_eqE; rewrite /ms2_verify /ark_ms2_verify /=; szs.
rstep; eapply rbind; [side | move=> [pp pt pty pr] [qp qt qty qr] [/= hp1 hp2 <- _]].
rewrite /ms2_get_type /ark_ms2_get_type.
by repeat rstep; refine (esym (rcomT_eq _ _)); side.
Qed.

Lemma rquad_verify sch e f p q c d : rquad e f -> rC p q -> rK c d ->
  ark_quad_verify sch f q d = quad_verify sch e p c.
Proof.
case: e f p q => ea eb eg et [fa fb fg ft] [[xc xr] [yc yr] ps] [[xc' xr'] [yc' yr'] qs].
rewrite /rquad /rcproof /rcommit /= => -[he1 he2 he3 he4] [[hxc hxr] [hyc hyr] hps] hc.
subst; have [hu hv _ _ _] := hc; apply/esym/rres_eqE; rewrite /quad_verify /ark_quad_verify /=; szs.
rstep; eapply rbind; [side | move=> [pp pt pty pr] [qp qt qty qr] [/= hp1 hp2 <- _]].
rewrite /quad_get_type /ark_quad_get_type.
by repeat rstep; refine (esym (rcomT_eq _ _)); side.
Qed.
End Rng.

Lemma rppe_eq (e : PPE E) f (e' : PPE E) f' : rppe r1 r2 rt e f -> rppe r1 r2 rt e' f' -> ark_ppe_eq f f' = ppe_eq e e'.
Proof.
case: e f e' f' => ea eb eg et [fa fb fg ft] [ea' eb' eg' et'] [fa' fb' fg' ft'].
rewrite /rppe /= => -[h1 h2 h3 h4] [k1 k2 k3 k4]; rewrite /ppe_eq /ark_ppe_eq /=.
rewrite (rvec_eq (e := fun p r : G1 E => p == r) _ h1 k1); last by move=> ? ? ? ?; apply: (ok_aff_eq K1).
rewrite (rvec_eq (e := fun p r : G2 E => p == r) _ h2 k2); last by move=> ? ? ? ?; apply: (ok_aff_eq K2).
by rewrite h3 k3 (ok_out_eq I h4 k4).
Qed.

Lemma rms1_eq (e : MSMEG1 E) f (e' : MSMEG1 E) f' : rms1 r1 e f -> rms1 r1 e' f' -> ark_ms1_eq f f' = ms1_eq e e'.
Proof.
case: e f e' f' => ea eb eg et [fa fb fg ft] [ea' eb' eg' et'] [fa' fb' fg' ft'].
rewrite /rms1 /= => -[h1 h2 h3 h4] [k1 k2 k3 k4]; rewrite /ms1_eq /ark_ms1_eq /=.
rewrite (rvec_eq (e := fun p r : G1 E => p == r) _ h1 k1); last by move=> ? ? ? ?; apply: (ok_aff_eq K1).
rewrite h2 k2.
by rewrite h3 k3 (ok_aff_eq K1 h4 k4).
Qed.

Lemma rms2_eq (e : MSMEG2 E) f (e' : MSMEG2 E) f' : rms2 r2 e f -> rms2 r2 e' f' -> ark_ms2_eq f f' = ms2_eq e e'.
Proof.
case: e f e' f' => ea eb eg et [fa fb fg ft] [ea' eb' eg' et'] [fa' fb' fg' ft'].
rewrite /rms2 /= => -[h1 h2 h3 h4] [k1 k2 k3 k4]; rewrite /ms2_eq /ark_ms2_eq /=.
rewrite h1 k1.
rewrite (rvec_eq (e := fun p r : G2 E => p == r) _ h2 k2); last by move=> ? ? ? ?; apply: (ok_aff_eq K2).
by rewrite h3 k3 (ok_aff_eq K2 h4 k4).
Qed.

Lemma rquad_eq (e : QuadEqu E) f (e' : QuadEqu E) f' : rquad e f -> rquad e' f' -> ark_quad_eq f f' = quad_eq e e'.
Proof.
case: e f e' f' => ea eb eg et [fa fb fg ft] [ea' eb' eg' et'] [fa' fb' fg' ft'].
rewrite /rquad /= => -[h1 h2 h3 h4] [k1 k2 k3 k4]; rewrite /quad_eq /ark_quad_eq /=.
rewrite h1 k1.
rewrite h2 k2.
by rewrite h3 k3 h4 k4.
Qed.

Lemma requproof_eq p q p' q' : requproof r1 r2 p q -> requproof r1 r2 p' q' -> ark_equproof_eq q q' = equproof_eq p p'.
Proof.
case=> h1 h2 h3 h4 [k1 k2 k3 k4]; rewrite /equproof_eq /ark_equproof_eq h3 k3 h4 k4.
rewrite (rvec_eq (e := com_eq) _ h1 k1); last by move=> ? ? ? ?; apply: (rcom_eq K2).
by rewrite (rvec_eq (e := com_eq) _ h2 k2); last by move=> ? ? ? ?; apply: (rcom_eq K1).
Qed.
Lemma rcproof_eq p q p' q' : rcproof r1 r2 p q -> rcproof r1 r2 p' q' -> ark_cproof_eq q q' = cproof_eq p p'.
Proof.
case=> h1 h2 h3 [k1 k2 k3]; rewrite /cproof_eq /ark_cproof_eq (rcommit_eq K1 h1 k1) (rcommit_eq K2 h2 k2).
by rewrite (rvec_eq (e := equproof_eq) _ h3 k3); last exact: requproof_eq.
Qed.
End Pairing.
