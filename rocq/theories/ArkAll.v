(** The lemmas of [ArkLemmas.v], grouped. *)
From mathcomp Require Import all_ssreflect all_algebra.
From Verif Require Import Base Group DataStructures Generator Commit Statement Prove Verify Derived Spec.
From Verif Require Import Ark SpecArk ArkRel ArkLemmas.
Set Implicit Arguments.
Unset Strict Implicit.
Unset Printing Implicit Defensive.
Import GRing.Theory.
Local Open Scope ring_scope.

Ltac from t := intros; first [exact t | eapply t; eassumption].

Lemma ark_com_all : forall (F : fieldType) (G : lmodType F) (C : curve F) (r : repr G C), repr_ok r ->
  [/\ forall x y a b, rcom r x a -> rcom r y b -> ark_com_eq a b = com_eq x y,
      forall x y a b, rcom r x a -> rcom r y b -> rcom r (com_add x y) (ark_com_add a b),
      forall x y a b, rcom r x a -> rcom r y b -> rcom r (com_add_assign x y) (ark_com_add_assign a b)
    & forall x a, rcom r x a -> rcom r (com_neg x) (ark_com_neg a)] /\
  [/\ forall x y a b, rcom r x a -> rcom r y b -> rcom r (com_sub x y) (ark_com_sub a b),
      forall x y a b, rcom r x a -> rcom r y b -> rcom r (com_sub_assign x y) (ark_com_sub_assign a b),
      rcom r com_zero ark_com_zero,
      forall x a, rcom r x a -> ark_com_is_zero a = com_is_zero x
    & forall s t, rseq (rcom r) s t -> rcom r (com_sum s) (ark_com_sum t)] /\
  [/\ forall x a k, rcom r x a -> rcom r (com_scalar_mul x k) (ark_com_scalar_mul a k),
      forall m n, rmat (ra r) m n -> rres (rcom r) (com_from m) (ark_com_from n),
      forall x a, rcom r x a -> rmat (ra r) (com_as_col_vec x) (ark_com_as_col_vec a)
    & forall x a, rcom r x a -> rseq (ra r) (com_as_vec x) (ark_com_as_vec a)].
Proof. move=> F G C r K; split; [split; [from (rcom_eq K) | from (rcom_add K) | from (rcom_add_assign K) | from (rcom_neg K)] | split; [split; [from (rcom_sub K) | from (rcom_sub_assign K) | from (rcom_zero K) | from (rcom_is_zero K) | from (rcom_sum K)] | split; [from (rcom_scalar_mul K) | from (@rcom_from) | from (@rcom_as_col_vec) | from (@rcom_as_vec)]]]. Qed.

Lemma ark_mat_all : forall (F : fieldType) (G : lmodType F) (C : curve F) (r : repr G C), repr_ok r ->
  [/\ forall M N M' N', rmat (rcom r) M N -> rmat (rcom r) M' N' -> rres (rmat (rcom r)) (cmat_add M M') (ark_cmat_add N N'),
      forall M N, rmat (rcom r) M N -> rres (rmat (rcom r)) (cmat_neg M) (ark_cmat_neg N)
    & forall M N k, rmat (rcom r) M N -> rres (rmat (rcom r)) (cmat_scalar_mul M k) (ark_cmat_scalar_mul N k)] /\
  [/\ forall M N, rmat (rcom r) M N -> rres (rmat (rcom r)) (cmat_transpose M) (ark_cmat_transpose N),
      forall ord M N B par, rmat (rcom r) M N ->
        rres (rmat (rcom r)) (cmat_right_mul ord M B par) (ark_cmat_right_mul ord N B par)
    & forall ord M N B par, rmat (rcom r) M N ->
        rres (rmat (rcom r)) (cmat_left_mul ord M B par) (ark_cmat_left_mul ord N B par)].
Proof. move=> F G C r K; split; [split; [from (rcmat_add K) | from (rcmat_neg K) | from (rcmat_scalar_mul K)] | split; [from (@rcmat_transpose) | from (rcmat_right_mul K) | from (rcmat_left_mul K)]]. Qed.

Lemma ark_comT_all : forall (E : pairing) (A : ark (Fr E)) (r1 : repr (G1 E) (C1 A)) (r2 : repr (G2 E) (C2 A)) (rt : GT E -> out A -> Prop), implements r1 r2 rt ->
  [/\ forall x y a b, rcomT rt x a -> rcomT rt y b -> ark_comT_eq a b = comT_eq x y,
      forall x y a b, rcomT rt x a -> rcomT rt y b -> rcomT rt (comT_add x y) (ark_comT_add a b),
      forall x y a b, rcomT rt x a -> rcomT rt y b -> rcomT rt (comT_add_assign x y) (ark_comT_add_assign a b),
      forall x y a b, rcomT rt x a -> rcomT rt y b -> rcomT rt (comT_sub x y) (ark_comT_sub a b)
    & forall x y a b, rcomT rt x a -> rcomT rt y b -> rcomT rt (comT_sub_assign x y) (ark_comT_sub_assign a b)] /\
  [/\ forall x a, rcomT rt x a -> rcomT rt (comT_neg x) (ark_comT_neg a),
      rcomT rt comT_zero ark_comT_zero,
      forall x a, rcomT rt x a -> ark_comT_is_zero a = comT_is_zero x
    & forall s t, rseq (rcomT rt) s t -> rcomT rt (comT_sum s) (ark_comT_sum t)] /\
  [/\ forall m n, rmat rt m n -> rres (rcomT rt) (comT_from m) (ark_comT_from n),
      forall x a, rcomT rt x a -> rmat rt (comT_as_matrix x) (ark_comT_as_matrix a),
      forall x y a b, rcom r1 x a -> rcom r2 y b -> rcomT rt (comT_pairing x y) (ark_comT_pairing a b)
    & forall xs ys s t, rseq (rcom r1) xs s -> rseq (rcom r2) ys t ->
        rres (rcomT rt) (comT_pairing_sum xs ys) (ark_comT_pairing_sum s t)].
Proof. move=> E A r1 r2 rt I; split; [split; [from (rcomT_eq I) | from (rcomT_add I) | from (rcomT_add_assign I) | from (rcomT_sub I) | from (rcomT_sub_assign I)] | split; [split; [from (rcomT_neg I) | from (rcomT_zero I) | from (rcomT_is_zero I) | from (rcomT_sum I)] | split; [from (@rcomT_from) | from (@rcomT_as_matrix) | from (rcomT_pairing I) | from (rcomT_pairing_sum I)]]]. Qed.

Lemma ark_maps_all : forall (E : pairing) (A : ark (Fr E)) (r1 : repr (G1 E) (C1 A)) (r2 : repr (G2 E) (C2 A)) (rt : GT E -> out A -> Prop), implements r1 r2 rt ->
  [/\ forall x a, ra r1 x a -> rcom r1 (com1_linear_map x) (ark_com1_linear_map a),
      forall s t, rseq (ra r1) s t -> rseq (rcom r1) (com1_batch_linear_map s) (ark_com1_batch_linear_map t),
      forall k c d, rcrs r1 r2 rt c d -> rres (rcom r1) (com1_scalar_linear_map k c) (ark_com1_scalar_linear_map k d)
    & forall ks c d, rcrs r1 r2 rt c d ->
        rres (rseq (rcom r1)) (com1_batch_scalar_linear_map ks c) (ark_com1_batch_scalar_linear_map ks d)] /\
  [/\ forall x a, ra r2 x a -> rcom r2 (com2_linear_map x) (ark_com2_linear_map a),
      forall s t, rseq (ra r2) s t -> rseq (rcom r2) (com2_batch_linear_map s) (ark_com2_batch_linear_map t),
      forall k c d, rcrs r1 r2 rt c d -> rres (rcom r2) (com2_scalar_linear_map k c) (ark_com2_scalar_linear_map k d)
    & forall ks c d, rcrs r1 r2 rt c d ->
        rres (rseq (rcom r2)) (com2_batch_scalar_linear_map ks c) (ark_com2_batch_scalar_linear_map ks d)] /\
  [/\ forall z a, rt z a -> rcomT rt (linear_map_PPE z) (ark_linear_map_PPE a),
      forall z a c d, ra r1 z a -> rcrs r1 r2 rt c d -> rres (rcomT rt) (linear_map_MSMEG1 z c) (ark_linear_map_MSMEG1 a d),
      forall z a c d, ra r2 z a -> rcrs r1 r2 rt c d -> rres (rcomT rt) (linear_map_MSMEG2 z c) (ark_linear_map_MSMEG2 a d)
    & forall z c d, rcrs r1 r2 rt c d -> rres (rcomT rt) (linear_map_quad z c) (ark_linear_map_quad z d)].
Proof. move=> E A r1 r2 rt I; split; [split; [from (rcom1_linear_map I) | from (rcom1_batch_linear_map I) | from (rcom1_scalar_linear_map I) | from (rcom1_batch_scalar_linear_map I)] | split; [split; [from (rcom2_linear_map I) | from (rcom2_batch_linear_map I) | from (rcom2_scalar_linear_map I) | from (rcom2_batch_scalar_linear_map I)] | split; [from (rlinear_map_PPE I) | from (rlinear_map_MSMEG1 I) | from (rlinear_map_MSMEG2 I) | from (rlinear_map_quad I)]]]. Qed.

Lemma ark_generate_all : forall (E : pairing) (A : ark (Fr E)) (r1 : repr (G1 E) (C1 A)) (r2 : repr (G2 E) (C2 A)) (rt : GT E -> out A -> Prop)
  (R : rng E) (R' : ark_rng A) (rs : rst R -> ark_rst R' -> Prop) s t,
  implements r1 r2 rt -> draws_alike r1 r2 rs -> rs s t -> rpair (rcrs r1 r2 rt) rs (generate_crs s) (ark_generate_crs t).
Proof. move=> E A r1 r2 rt R R' rs s t I D h; from (rgenerate_crs I (ok_rand_fr D) D h). Qed.

Lemma ark_prepare_all : forall (E : pairing) (A : ark (Fr E)) (r1 : repr (G1 E) (C1 A)) (r2 : repr (G2 E) (C2 A)) (rt : GT E -> out A -> Prop) (g1 q1 : G1 E) (g2 q2 : G2 E) (k1 k2 : Fr E) g1' g2' q1' q2',
  implements r1 r2 rt -> rp r1 g1 g1' -> rp r2 g2 g2' -> rp r1 q1 q1' -> rp r2 q2 q2' ->
  rpair (rp r1) (rp r2) (prepare_real_binding_key g1 g2 q1 k1 q2 k2) (ark_prepare_real_binding_key g1' g2' q1' k1 q2' k2) /\
  rpair (rp r1) (rp r2) (prepare_simulated_hinding_key g1 g2 q1 k1 q2 k2)
    (ark_prepare_simulated_hinding_key g1' g2' q1' k1 q2' k2).
Proof. move=> E A r1 r2 rt g1 q1 g2 q2 k1 k2 g1' g2' q1' q2' I h1 h2 h3 h4; split; [from (rprepare_real_binding_key I k1 k2 h1 h2 h3 h4) | from (rprepare_simulated_hinding_key I k1 k2 h1 h2 h3 h4)]. Qed.

Lemma ark_append_all : forall (F : fieldType) (G : lmodType F) (C : curve F) (r : repr G C) (c c' : commit G) (d d' : ark_commit C),
  repr_ok r -> rcommit r c d -> rcommit r c' d' ->
  [/\ rpair eq (rpair (rcommit r) (rcommit r)) (commit_append_mut c c') (ark_commit_append_mut d d'),
      rres (rpair (rcommit r) (rcommit r)) (commit_append c c') (ark_commit_append d d')
    & ark_commit_eq d d' = commit_eq c c'].
Proof. move=> F G C r c c' d d' K h1 h2; split; [from (rcommit_append_mut h1 h2) | from (rcommit_append h1 h2) | from (rcommit_eq K h1 h2)]. Qed.

Lemma ark_derived_all : forall (E : pairing) (A : ark (Fr E)) (r1 : repr (G1 E) (C1 A)) (r2 : repr (G2 E) (C2 A)) (rt : GT E -> out A -> Prop), implements r1 r2 rt ->
  [/\ forall (e e' : PPE E) f f', rppe r1 r2 rt e f -> rppe r1 r2 rt e' f' -> ark_ppe_eq f f' = ppe_eq e e',
      forall (e e' : MSMEG1 E) f f', rms1 r1 e f -> rms1 r1 e' f' -> ark_ms1_eq f f' = ms1_eq e e',
      forall (e e' : MSMEG2 E) f f', rms2 r2 e f -> rms2 r2 e' f' -> ark_ms2_eq f f' = ms2_eq e e'
    & forall (e e' : QuadEqu E) f f', rquad e f -> rquad e' f' -> ark_quad_eq f f' = quad_eq e e'] /\
  (forall p p' q q', requproof r1 r2 p q -> requproof r1 r2 p' q' -> ark_equproof_eq q q' = equproof_eq p p') /\
  (forall p p' q q', rcproof r1 r2 p q -> rcproof r1 r2 p' q' -> ark_cproof_eq q q' = cproof_eq p p').
Proof. move=> E A r1 r2 rt I; split; [split; [from (rppe_eq I) | from (rms1_eq I) | from (rms2_eq I) | from (@rquad_eq)] | split; [from (requproof_eq I) | from (rcproof_eq I)]]. Qed.
