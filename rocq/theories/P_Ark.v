(** Properties C79-C81: the code over affine and projective points. *)
From mathcomp Require Import all_ssreflect all_algebra.
From Verif Require Import Base Group DataStructures Generator Commit Statement Prove Verify Derived Spec SpecVerify SpecHide.
From Verif Require Import Concrete Concrete4 Ark SpecArk ArkRel ArkLemmas ArkAll ArkTransfer ArkShift Concrete13.
From Verif Require Import Concrete25.
From Verif Require Import Concrete27.
From Verif Require Import Concrete28.
Set Implicit Arguments.
Unset Strict Implicit.
Unset Printing Implicit Defensive.
Import GRing.Theory.
Local Open Scope ring_scope.

(** C79: the operations on commitments. *)
Theorem C79_com : forall (F : fieldType) (G : lmodType F) (C : curve F) (r : repr G C), repr_ok r ->
  [/\ forall x y a b, rcom r x a -> rcom r y b -> ark_com_eq a b = com_eq x y,
      forall x y a b, rcom r x a -> rcom r y b -> rcom r (com_add x y) (ark_com_add a b),
      forall x y a b, rcom r x a -> rcom r y b -> rcom r (com_add_assign x y) (ark_com_add_assign a b)
    & forall x a, rcom r x a -> rcom r (com_neg x) (ark_com_neg a)] /\
  [/\ forall x y a b, rcom r x a -> rcom r y b -> rcom r (com_sub x y) (ark_com_sub a b),
      forall x y a b, rcom r x a -> rcom r y b -> rcom r (com_sub_assign x y) (ark_com_sub_assign a b),
      rcom r com_zero ark_com_zero,
      forall x a, rcom r x a -> ark_com_is_zero a = com_is_zero x
    & forall s t, rseq (rcom r) s t -> rcom r (com_sum s) (ark_com_sum t)] /\
  [/\ forall x a k, rcom r x a -> rcom r (com_scalar_mul x k) (ark_com_scalar_mul a k),
      forall m n, rmat (ra r) m n -> rres (rcom r) (com_from m) (ark_com_from n),
      forall x a, rcom r x a -> rmat (ra r) (com_as_col_vec x) (ark_com_as_col_vec a)
    & forall x a, rcom r x a -> rseq (ra r) (com_as_vec x) (ark_com_as_vec a)].
Proof. exact: @ark_com_all. Qed.
Print Assumptions C79_com.

Example C79_com_case : rcom trepr (com_sub (n7 1 : F7o, n7 2 : F7o) (n7 3 : F7o, n7 4 : F7o))
  (ark_com_sub (C := tcurve) ((n7 1, false), (n7 2, false)) ((n7 3, false), (n7 4, false))) /\
  ark_com_sub (C := tcurve) ((n7 1, false), (n7 2, false)) ((n7 3, false), (n7 4, false)) = ((n7 5, false), (n7 5, false)).
Proof.
split; last by vm_compute.
by case: (C79_com trepr_ok) => _ [[h _ _ _ _] _]; apply: h.
Qed.

(** C79: the matrix operations. *)
Theorem C79_mat : forall (F : fieldType) (G : lmodType F) (C : curve F) (r : repr G C), repr_ok r ->
  [/\ forall M N M' N', rmat (rcom r) M N -> rmat (rcom r) M' N' -> rres (rmat (rcom r)) (cmat_add M M') (ark_cmat_add N N'),
      forall M N, rmat (rcom r) M N -> rres (rmat (rcom r)) (cmat_neg M) (ark_cmat_neg N)
    & forall M N k, rmat (rcom r) M N -> rres (rmat (rcom r)) (cmat_scalar_mul M k) (ark_cmat_scalar_mul N k)] /\
  [/\ forall M N, rmat (rcom r) M N -> rres (rmat (rcom r)) (cmat_transpose M) (ark_cmat_transpose N),
      forall ord M N B par, rmat (rcom r) M N ->
        rres (rmat (rcom r)) (cmat_right_mul ord M B par) (ark_cmat_right_mul ord N B par)
    & forall ord M N B par, rmat (rcom r) M N ->
        rres (rmat (rcom r)) (cmat_left_mul ord M B par) (ark_cmat_left_mul ord N B par)].
Proof. exact: @ark_mat_all. Qed.
Print Assumptions C79_mat.

Example C79_mat_case :
  rres (rmat (rcom trepr)) (cmat_left_mul (fun r c => rev (tasks r c)) [:: [:: (n7 1 : F7o, n7 2 : F7o)]] [:: [:: n7 3]; [:: n7 5]] true)
    (ark_cmat_left_mul (C := tcurve) (fun r c => rev (tasks r c)) [:: [:: ((n7 1, false), (n7 2, false))]] [:: [:: n7 3]; [:: n7 5]] true).
Proof. by case: (C79_mat trepr_ok) => _ [_ _]; apply. Qed.

(** C79: the operations in the target group. *)
Theorem C79_comT : forall (E : pairing) (A : ark (Fr E)) (r1 : repr (G1 E) (C1 A)) (r2 : repr (G2 E) (C2 A)) (rt : GT E -> out A -> Prop), implements r1 r2 rt ->
  [/\ forall x y a b, rcomT rt x a -> rcomT rt y b -> ark_comT_eq a b = comT_eq x y,
      forall x y a b, rcomT rt x a -> rcomT rt y b -> rcomT rt (comT_add x y) (ark_comT_add a b),
      forall x y a b, rcomT rt x a -> rcomT rt y b -> rcomT rt (comT_add_assign x y) (ark_comT_add_assign a b),
      forall x y a b, rcomT rt x a -> rcomT rt y b -> rcomT rt (comT_sub x y) (ark_comT_sub a b)
    & forall x y a b, rcomT rt x a -> rcomT rt y b -> rcomT rt (comT_sub_assign x y) (ark_comT_sub_assign a b)] /\
  [/\ forall x a, rcomT rt x a -> rcomT rt (comT_neg x) (ark_comT_neg a),
      rcomT rt comT_zero ark_comT_zero,
      forall x a, rcomT rt x a -> ark_comT_is_zero a = comT_is_zero x
    & forall s t, rseq (rcomT rt) s t -> rcomT rt (comT_sum s) (ark_comT_sum t)] /\
  [/\ forall m n, rmat rt m n -> rres (rcomT rt) (comT_from m) (ark_comT_from n),
      forall x a, rcomT rt x a -> rmat rt (comT_as_matrix x) (ark_comT_as_matrix a),
      forall x y a b, rcom r1 x a -> rcom r2 y b -> rcomT rt (comT_pairing x y) (ark_comT_pairing a b)
    & forall xs ys s t, rseq (rcom r1) xs s -> rseq (rcom r2) ys t ->
        rres (rcomT rt) (comT_pairing_sum xs ys) (ark_comT_pairing_sum s t)].
Proof. exact: @ark_comT_all. Qed.
Print Assumptions C79_comT.

Example C79_comT_case : rcomT (E := toy) (A := tark) (fun x a => x = a) (comT_pairing (E := toy) (n7 1, n7 2) (n7 3, n7 4))
  (ark_comT_pairing (A := tark) ((n7 1, false), (n7 2, false)) ((n7 3, false), (n7 4, false))).
Proof. by case: (C79_comT tark_ok) => _ [_ [_ _ h _]]; apply: h. Qed.

(** C79: the linear maps. *)
Theorem C79_maps : forall (E : pairing) (A : ark (Fr E)) (r1 : repr (G1 E) (C1 A)) (r2 : repr (G2 E) (C2 A)) (rt : GT E -> out A -> Prop), implements r1 r2 rt ->
  [/\ forall x a, ra r1 x a -> rcom r1 (com1_linear_map x) (ark_com1_linear_map a),
      forall s t, rseq (ra r1) s t -> rseq (rcom r1) (com1_batch_linear_map s) (ark_com1_batch_linear_map t),
      forall k c d, rcrs r1 r2 rt c d -> rres (rcom r1) (com1_scalar_linear_map k c) (ark_com1_scalar_linear_map k d)
    & forall ks c d, rcrs r1 r2 rt c d ->
        rres (rseq (rcom r1)) (com1_batch_scalar_linear_map ks c) (ark_com1_batch_scalar_linear_map ks d)] /\
  [/\ forall x a, ra r2 x a -> rcom r2 (com2_linear_map x) (ark_com2_linear_map a),
      forall s t, rseq (ra r2) s t -> rseq (rcom r2) (com2_batch_linear_map s) (ark_com2_batch_linear_map t),
      forall k c d, rcrs r1 r2 rt c d -> rres (rcom r2) (com2_scalar_linear_map k c) (ark_com2_scalar_linear_map k d)
    & forall ks c d, rcrs r1 r2 rt c d ->
        rres (rseq (rcom r2)) (com2_batch_scalar_linear_map ks c) (ark_com2_batch_scalar_linear_map ks d)] /\
  [/\ forall z a, rt z a -> rcomT rt (linear_map_PPE z) (ark_linear_map_PPE a),
      forall z a c d, ra r1 z a -> rcrs r1 r2 rt c d -> rres (rcomT rt) (linear_map_MSMEG1 z c) (ark_linear_map_MSMEG1 a d),
      forall z a c d, ra r2 z a -> rcrs r1 r2 rt c d -> rres (rcomT rt) (linear_map_MSMEG2 z c) (ark_linear_map_MSMEG2 a d)
    & forall z c d, rcrs r1 r2 rt c d -> rres (rcomT rt) (linear_map_quad z c) (ark_linear_map_quad z d)].
Proof. exact: @ark_maps_all. Qed.
Print Assumptions C79_maps.

Example C79_maps_case : rres (rcomT (E := toy) (A := tark) (fun x a => x = a)) (linear_map_quad (E := toy) (n7 3) crs0) (ark_linear_map_quad (A := tark) (n7 3) tcrs).
Proof. by case: (C79_maps tark_ok) => _ [_ [_ _ _ h]]; apply: h tcrs_rel. Qed.

(** C79: key generation. *)
Theorem C79_generate_crs : forall (E : pairing) (A : ark (Fr E)) (r1 : repr (G1 E) (C1 A)) (r2 : repr (G2 E) (C2 A)) (rt : GT E -> out A -> Prop)
  (R : rng E) (R' : ark_rng A) (rs : rst R -> ark_rst R' -> Prop) s t,
  implements r1 r2 rt -> draws_alike r1 r2 rs -> rs s t -> rpair (rcrs r1 r2 rt) rs (generate_crs s) (ark_generate_crs t).
Proof. exact: @ark_generate_all. Qed.
Print Assumptions C79_generate_crs.

Theorem C79_prepare_keys : forall (E : pairing) (A : ark (Fr E)) (r1 : repr (G1 E) (C1 A)) (r2 : repr (G2 E) (C2 A)) (rt : GT E -> out A -> Prop) (g1 q1 : G1 E) (g2 q2 : G2 E) (k1 k2 : Fr E) g1' g2' q1' q2',
  implements r1 r2 rt -> rp r1 g1 g1' -> rp r2 g2 g2' -> rp r1 q1 q1' -> rp r2 q2 q2' ->
  rpair (rp r1) (rp r2) (prepare_real_binding_key g1 g2 q1 k1 q2 k2) (ark_prepare_real_binding_key g1' g2' q1' k1 q2' k2) /\
  rpair (rp r1) (rp r2) (prepare_simulated_hinding_key g1 g2 q1 k1 q2 k2)
    (ark_prepare_simulated_hinding_key g1' g2' q1' k1 q2' k2).
Proof. exact: @ark_prepare_all. Qed.
Print Assumptions C79_prepare_keys.

Example C79_generate_crs_case :
  rpair (rcrs (E := toy) (A := tark) trepr trepr (fun x a => x = a)) eq (generate_crs (0%N : rst ctr)) (ark_generate_crs (0%N : ark_rst tctr)) /\
  [seq (c.1.1 : F7, c.2.1 : F7) | c <- ark_crs_u tcrs] == [:: (n7 1, n7 2); (n7 4, n7 1)].
Proof. by split; [exact: (C79_generate_crs tark_ok tctr_alike (erefl 0%N)) | vm_compute]. Qed.

(** C79: commitments. *)
Theorem C79_commit_G1 : forall (E : pairing) (A : ark (Fr E)) (r1 : repr (G1 E) (C1 A)) (r2 : repr (G2 E) (C2 A)) (rt : GT E -> out A -> Prop)
  (R : rng E) (R' : ark_rng A) (rs : rst R -> ark_rst R' -> Prop) x a c d s t, implements r1 r2 rt -> scalars_alike rs -> ra r1 x a -> rcrs r1 r2 rt c d -> rs s t ->
  rres (rpair (rcommit r1) rs) (commit_G1 x c s) (ark_commit_G1 a d t).
Proof. move=> E A r1 r2 rt R R' rs x a c d s t I D; exact: (rcommit_G1 I D). Qed.
Print Assumptions C79_commit_G1.

Example C79_commit_G1_case := @C79_commit_G1 toy tark trepr trepr (fun x a => x = a) ctr tctr eq (n7 3) (n7 3, false) crs0 tcrs 6%N 6%N tark_ok (ok_rand_fr tctr_alike) erefl tcrs_rel erefl.

Theorem C79_batch_commit_G1 : forall (E : pairing) (A : ark (Fr E)) (r1 : repr (G1 E) (C1 A)) (r2 : repr (G2 E) (C2 A)) (rt : GT E -> out A -> Prop)
  (R : rng E) (R' : ark_rng A) (rs : rst R -> ark_rst R' -> Prop) x a c d s t, implements r1 r2 rt -> scalars_alike rs -> rseq (ra r1) x a -> rcrs r1 r2 rt c d -> rs s t ->
  rres (rpair (rcommit r1) rs) (batch_commit_G1 x c s) (ark_batch_commit_G1 a d t).
Proof. move=> E A r1 r2 rt R R' rs x a c d s t I D; exact: (rbatch_commit_G1 I D). Qed.
Print Assumptions C79_batch_commit_G1.

Example C79_batch_commit_G1_case := @C79_batch_commit_G1 toy tark trepr trepr (fun x a => x = a) ctr tctr eq xs0 (lift xs0) crs0 tcrs 6%N 6%N tark_ok (ok_rand_fr tctr_alike) (lift_rel xs0) tcrs_rel erefl.

Theorem C79_commit_scalar_to_B1 : forall (E : pairing) (A : ark (Fr E)) (r1 : repr (G1 E) (C1 A)) (r2 : repr (G2 E) (C2 A)) (rt : GT E -> out A -> Prop)
  (R : rng E) (R' : ark_rng A) (rs : rst R -> ark_rst R' -> Prop) x c d s t, implements r1 r2 rt -> scalars_alike rs -> rcrs r1 r2 rt c d -> rs s t ->
  rres (rpair (rcommit r1) rs) (commit_scalar_to_B1 x c s) (ark_commit_scalar_to_B1 x d t).
Proof. move=> E A r1 r2 rt R R' rs x c d s t I D; exact: (rcommit_scalar_to_B1 I D). Qed.
Print Assumptions C79_commit_scalar_to_B1.

Example C79_commit_scalar_to_B1_case := @C79_commit_scalar_to_B1 toy tark trepr trepr (fun x a => x = a) ctr tctr eq (n7 3) crs0 tcrs 6%N 6%N tark_ok (ok_rand_fr tctr_alike) tcrs_rel erefl.

Theorem C79_batch_commit_scalar_to_B1 : forall (E : pairing) (A : ark (Fr E)) (r1 : repr (G1 E) (C1 A)) (r2 : repr (G2 E) (C2 A)) (rt : GT E -> out A -> Prop)
  (R : rng E) (R' : ark_rng A) (rs : rst R -> ark_rst R' -> Prop) x c d s t, implements r1 r2 rt -> scalars_alike rs -> rcrs r1 r2 rt c d -> rs s t ->
  rres (rpair (rcommit r1) rs) (batch_commit_scalar_to_B1 x c s) (ark_batch_commit_scalar_to_B1 x d t).
Proof. move=> E A r1 r2 rt R R' rs x c d s t I D; exact: (rbatch_commit_scalar_to_B1 I D). Qed.
Print Assumptions C79_batch_commit_scalar_to_B1.

Example C79_commit_1_case :
  rres (rpair (rcommit trepr) eq) (batch_commit_G1 (E := toy) (R := ctr) xs0 crs0 6%N) (ark_batch_commit_G1 (R := tctr) (lift xs0) tcrs 6%N) /\
  rres (rpair (rcommit trepr) eq) (batch_commit_scalar_to_B1 (E := toy) (R := ctr) xs0 crs0 6%N) (ark_batch_commit_scalar_to_B1 (R := tctr) xs0 tcrs 6%N).
Proof.
split; first exact: (C79_batch_commit_G1 tark_ok (ok_rand_fr tctr_alike) (lift_rel xs0) tcrs_rel erefl).
exact: (C79_batch_commit_scalar_to_B1 (E := toy) xs0 tark_ok (ok_rand_fr tctr_alike) tcrs_rel erefl).
Qed.

Theorem C79_commit_G2 : forall (E : pairing) (A : ark (Fr E)) (r1 : repr (G1 E) (C1 A)) (r2 : repr (G2 E) (C2 A)) (rt : GT E -> out A -> Prop)
  (R : rng E) (R' : ark_rng A) (rs : rst R -> ark_rst R' -> Prop) x a c d s t, implements r1 r2 rt -> scalars_alike rs -> ra r2 x a -> rcrs r1 r2 rt c d -> rs s t ->
  rres (rpair (rcommit r2) rs) (commit_G2 x c s) (ark_commit_G2 a d t).
Proof. move=> E A r1 r2 rt R R' rs x a c d s t I D; exact: (rcommit_G2 I D). Qed.
Print Assumptions C79_commit_G2.

Example C79_commit_G2_case := @C79_commit_G2 toy tark trepr trepr (fun x a => x = a) ctr tctr eq (n7 3) (n7 3, false) crs0 tcrs 6%N 6%N tark_ok (ok_rand_fr tctr_alike) erefl tcrs_rel erefl.

Theorem C79_batch_commit_G2 : forall (E : pairing) (A : ark (Fr E)) (r1 : repr (G1 E) (C1 A)) (r2 : repr (G2 E) (C2 A)) (rt : GT E -> out A -> Prop)
  (R : rng E) (R' : ark_rng A) (rs : rst R -> ark_rst R' -> Prop) x a c d s t, implements r1 r2 rt -> scalars_alike rs -> rseq (ra r2) x a -> rcrs r1 r2 rt c d -> rs s t ->
  rres (rpair (rcommit r2) rs) (batch_commit_G2 x c s) (ark_batch_commit_G2 a d t).
Proof. move=> E A r1 r2 rt R R' rs x a c d s t I D; exact: (rbatch_commit_G2 I D). Qed.
Print Assumptions C79_batch_commit_G2.

Example C79_batch_commit_G2_case := @C79_batch_commit_G2 toy tark trepr trepr (fun x a => x = a) ctr tctr eq xs0 (lift xs0) crs0 tcrs 6%N 6%N tark_ok (ok_rand_fr tctr_alike) (lift_rel xs0) tcrs_rel erefl.

Theorem C79_commit_scalar_to_B2 : forall (E : pairing) (A : ark (Fr E)) (r1 : repr (G1 E) (C1 A)) (r2 : repr (G2 E) (C2 A)) (rt : GT E -> out A -> Prop)
  (R : rng E) (R' : ark_rng A) (rs : rst R -> ark_rst R' -> Prop) x c d s t, implements r1 r2 rt -> scalars_alike rs -> rcrs r1 r2 rt c d -> rs s t ->
  rres (rpair (rcommit r2) rs) (commit_scalar_to_B2 x c s) (ark_commit_scalar_to_B2 x d t).
Proof. move=> E A r1 r2 rt R R' rs x c d s t I D; exact: (rcommit_scalar_to_B2 I D). Qed.
Print Assumptions C79_commit_scalar_to_B2.

Example C79_commit_scalar_to_B2_case := @C79_commit_scalar_to_B2 toy tark trepr trepr (fun x a => x = a) ctr tctr eq (n7 3) crs0 tcrs 6%N 6%N tark_ok (ok_rand_fr tctr_alike) tcrs_rel erefl.

Theorem C79_batch_commit_scalar_to_B2 : forall (E : pairing) (A : ark (Fr E)) (r1 : repr (G1 E) (C1 A)) (r2 : repr (G2 E) (C2 A)) (rt : GT E -> out A -> Prop)
  (R : rng E) (R' : ark_rng A) (rs : rst R -> ark_rst R' -> Prop) x c d s t, implements r1 r2 rt -> scalars_alike rs -> rcrs r1 r2 rt c d -> rs s t ->
  rres (rpair (rcommit r2) rs) (batch_commit_scalar_to_B2 x c s) (ark_batch_commit_scalar_to_B2 x d t).
Proof. move=> E A r1 r2 rt R R' rs x c d s t I D; exact: (rbatch_commit_scalar_to_B2 I D). Qed.
Print Assumptions C79_batch_commit_scalar_to_B2.

Example C79_commit_2_case :
  rres (rpair (rcommit trepr) eq) (batch_commit_G2 (E := toy) (R := ctr) xs0 crs0 6%N) (ark_batch_commit_G2 (R := tctr) (lift xs0) tcrs 6%N) /\
  rres (rpair (rcommit trepr) eq) (batch_commit_scalar_to_B2 (E := toy) (R := ctr) xs0 crs0 6%N) (ark_batch_commit_scalar_to_B2 (R := tctr) xs0 tcrs 6%N).
Proof.
split; first exact: (C79_batch_commit_G2 tark_ok (ok_rand_fr tctr_alike) (lift_rel xs0) tcrs_rel erefl).
exact: (C79_batch_commit_scalar_to_B2 (E := toy) xs0 tark_ok (ok_rand_fr tctr_alike) tcrs_rel erefl).
Qed.

(** C79: append and the comparison of commitments. *)
Theorem C79_append : forall (F : fieldType) (G : lmodType F) (C : curve F) (r : repr G C) (c c' : commit G) (d d' : ark_commit C),
  repr_ok r -> rcommit r c d -> rcommit r c' d' ->
  [/\ rpair eq (rpair (rcommit r) (rcommit r)) (commit_append_mut c c') (ark_commit_append_mut d d'),
      rres (rpair (rcommit r) (rcommit r)) (commit_append c c') (ark_commit_append d d')
    & ark_commit_eq d d' = commit_eq c c'].
Proof. exact: @ark_append_all. Qed.
Print Assumptions C79_append.

Example C79_append_case :
  rres (rpair (rcommit trepr) (rcommit trepr)) (commit_append (mkCommit [:: (n7 1 : F7o, n7 2 : F7o)] [:: [:: n7 3]]) (mkCommit [:: (n7 4 : F7o, n7 5 : F7o)] [:: [:: n7 6]]))
    (ark_commit_append (ark_mkCommit (C := tcurve) [:: ((n7 1, false), (n7 2, false))] [:: [:: n7 3]])
       (ark_mkCommit (C := tcurve) [:: ((n7 4, false), (n7 5, false))] [:: [:: n7 6]])).
Proof. by have [] := C79_append trepr_ok (_ : rcommit trepr (mkCommit [:: (n7 1 : F7o, n7 2 : F7o)] [:: [:: n7 3]]) (ark_mkCommit (C := tcurve) [:: ((n7 1, false), (n7 2, false))] [:: [:: n7 3]])) (_ : rcommit trepr (mkCommit [:: (n7 4 : F7o, n7 5 : F7o)] [:: [:: n7 6]]) (ark_mkCommit (C := tcurve) [:: ((n7 4, false), (n7 5, false))] [:: [:: n7 6]])). Qed.

(** C79: the derived comparisons. *)
Theorem C79_derived_eq : forall (E : pairing) (A : ark (Fr E)) (r1 : repr (G1 E) (C1 A)) (r2 : repr (G2 E) (C2 A)) (rt : GT E -> out A -> Prop), implements r1 r2 rt ->
  [/\ forall (e e' : PPE E) f f', rppe r1 r2 rt e f -> rppe r1 r2 rt e' f' -> ark_ppe_eq f f' = ppe_eq e e',
      forall (e e' : MSMEG1 E) f f', rms1 r1 e f -> rms1 r1 e' f' -> ark_ms1_eq f f' = ms1_eq e e',
      forall (e e' : MSMEG2 E) f f', rms2 r2 e f -> rms2 r2 e' f' -> ark_ms2_eq f f' = ms2_eq e e'
    & forall (e e' : QuadEqu E) f f', rquad e f -> rquad e' f' -> ark_quad_eq f f' = quad_eq e e'] /\
  (forall p p' q q', requproof r1 r2 p q -> requproof r1 r2 p' q' -> ark_equproof_eq q q' = equproof_eq p p') /\
  (forall p p' q q', rcproof r1 r2 p q -> rcproof r1 r2 p' q' -> ark_cproof_eq q q' = cproof_eq p p').
Proof. exact: @ark_derived_all. Qed.
Print Assumptions C79_derived_eq.

Example C79_derived_eq_case : ark_ppe_eq tppe tppe = ppe_eq ppe0 ppe0 /\ ark_ppe_eq tppe tppe = true.
Proof. by case: (C79_derived_eq tark_ok) => -[h _ _ _] _; rewrite (h _ _ _ _ tppe_rel tppe_rel) -(h _ _ _ _ tppe_rel tppe_rel); split; vm_compute. Qed.

(** C79: proving and verifying. *)
Theorem C79_ppe_prove : forall (E : pairing) (A : ark (Fr E)) (r1 : repr (G1 E) (C1 A)) (r2 : repr (G2 E) (C2 A)) (rt : GT E -> out A -> Prop)
  (R : rng E) (R' : ark_rng A) (rs : rst R -> ark_rst R' -> Prop) sch (e : PPE E) f (X : seq (G1 E)) (Y : seq (G2 E)) a b x x' y y' c d s t,
  implements r1 r2 rt -> scalars_alike rs -> rppe r1 r2 rt e f -> rseq (ra r1) X a -> rseq (ra r2) Y b -> rcommit r1 x x' -> rcommit r2 y y' -> rcrs r1 r2 rt c d -> rs s t ->
  rres (rpair (requproof r1 r2) rs) (ppe_prove sch e X Y x y c s) (ark_ppe_prove sch f a b x' y' d t).
Proof. move=> E A r1 r2 rt R R' rs sch e f X Y a b x x' y y' c d s t I D; exact: (rppe_prove I D). Qed.
Print Assumptions C79_ppe_prove.

Example C79_ppe_prove_case := @C79_ppe_prove toy tark trepr trepr (fun x a => x = a) ctr tctr eq bwd ppe0 tppe xs0 ys0 (lift xs0) (lift ys0) many_G10.1 (lcommit many_G10.1) many_ys_G.1 (lcommit many_ys_G.1) crs0 tcrs 6%N 6%N tark_ok (ok_rand_fr tctr_alike) tppe_rel (lift_rel xs0) (lift_rel ys0) (lcommit_rel many_G10.1) (lcommit_rel many_ys_G.1) tcrs_rel erefl.

Theorem C79_ppe_commit_and_prove : forall (E : pairing) (A : ark (Fr E)) (r1 : repr (G1 E) (C1 A)) (r2 : repr (G2 E) (C2 A)) (rt : GT E -> out A -> Prop)
  (R : rng E) (R' : ark_rng A) (rs : rst R -> ark_rst R' -> Prop) sch (e : PPE E) f (X : seq (G1 E)) (Y : seq (G2 E)) a b c d s t,
  implements r1 r2 rt -> scalars_alike rs -> rppe r1 r2 rt e f -> rseq (ra r1) X a -> rseq (ra r2) Y b -> rcrs r1 r2 rt c d -> rs s t ->
  rres (rpair (rcproof r1 r2) rs) (ppe_commit_and_prove sch e X Y c s) (ark_ppe_commit_and_prove sch f a b d t).
Proof. move=> E A r1 r2 rt R R' rs sch e f X Y a b c d s t I D; exact: (rppe_commit_and_prove I D). Qed.
Print Assumptions C79_ppe_commit_and_prove.

Example C79_ppe_commit_and_prove_case := @C79_ppe_commit_and_prove toy tark trepr trepr (fun x a => x = a) ctr tctr eq bwd ppe0 tppe xs0 ys0 (lift xs0) (lift ys0) crs0 tcrs 6%N 6%N tark_ok (ok_rand_fr tctr_alike) tppe_rel (lift_rel xs0) (lift_rel ys0) tcrs_rel erefl.

Theorem C79_ppe_verify : forall (E : pairing) (A : ark (Fr E)) (r1 : repr (G1 E) (C1 A)) (r2 : repr (G2 E) (C2 A)) (rt : GT E -> out A -> Prop)
  sch (e : PPE E) f p q c d, implements r1 r2 rt -> rppe r1 r2 rt e f -> rcproof r1 r2 p q -> rcrs r1 r2 rt c d ->
  ark_ppe_verify sch f q d = ppe_verify sch e p c.
Proof. move=> E A r1 r2 rt sch e f p q c d I; exact: (rppe_verify I). Qed.
Print Assumptions C79_ppe_verify.

Example C79_ppe_case : exists p, rcproof (E := toy) (A := tark) trepr trepr p tp_ppe /\ ppe_verify fwd ppe0 p crs0 = Ok true /\
  ark_ppe_verify fwd tppe tp_ppe tcrs = Ok true.
Proof.
have W := (@C79_ppe_commit_and_prove toy tark trepr trepr _ ctr tctr eq bwd ppe0 tppe xs0 ys0 (lift xs0) (lift ys0) crs0 tcrs 6%N 6%N tark_ok (ok_rand_fr tctr_alike) tppe_rel (lift_rel xs0) (lift_rel ys0) tcrs_rel erefl).
have [s e] := the_proofE tp_ppe_x; rewrite e in W; have [p hp] := rOk W; exists p; split; [exact: hp | split; last exact: tppe_accepted].
rewrite -(C79_ppe_verify fwd tark_ok tppe_rel hp tcrs_rel); exact: tppe_accepted.
Qed.

Theorem C79_ms1_prove : forall (E : pairing) (A : ark (Fr E)) (r1 : repr (G1 E) (C1 A)) (r2 : repr (G2 E) (C2 A)) (rt : GT E -> out A -> Prop)
  (R : rng E) (R' : ark_rng A) (rs : rst R -> ark_rst R' -> Prop) sch (e : MSMEG1 E) f (X : seq (G1 E)) (Y : seq (Fr E)) a x x' y y' c d s t,
  implements r1 r2 rt -> scalars_alike rs -> rms1 r1 e f -> rseq (ra r1) X a -> rcommit r1 x x' -> rcommit r2 y y' -> rcrs r1 r2 rt c d -> rs s t ->
  rres (rpair (requproof r1 r2) rs) (ms1_prove sch e X Y x y c s) (ark_ms1_prove sch f a Y x' y' d t).
Proof. move=> E A r1 r2 rt R R' rs sch e f X Y a x x' y y' c d s t I D; exact: (rms1_prove I D). Qed.
Print Assumptions C79_ms1_prove.

Example C79_ms1_prove_case := @C79_ms1_prove toy tark trepr trepr (fun x a => x = a) ctr tctr eq bwd ms10 tms1 xs0 ys0 (lift xs0) many_G10.1 (lcommit many_G10.1) many_ys_B.1 (lcommit many_ys_B.1) crs0 tcrs 6%N 6%N tark_ok (ok_rand_fr tctr_alike) tms1_rel (lift_rel xs0) (lcommit_rel many_G10.1) (lcommit_rel many_ys_B.1) tcrs_rel erefl.

Theorem C79_ms1_commit_and_prove : forall (E : pairing) (A : ark (Fr E)) (r1 : repr (G1 E) (C1 A)) (r2 : repr (G2 E) (C2 A)) (rt : GT E -> out A -> Prop)
  (R : rng E) (R' : ark_rng A) (rs : rst R -> ark_rst R' -> Prop) sch (e : MSMEG1 E) f (X : seq (G1 E)) (Y : seq (Fr E)) a c d s t,
  implements r1 r2 rt -> scalars_alike rs -> rms1 r1 e f -> rseq (ra r1) X a -> rcrs r1 r2 rt c d -> rs s t ->
  rres (rpair (rcproof r1 r2) rs) (ms1_commit_and_prove sch e X Y c s) (ark_ms1_commit_and_prove sch f a Y d t).
Proof. move=> E A r1 r2 rt R R' rs sch e f X Y a c d s t I D; exact: (rms1_commit_and_prove I D). Qed.
Print Assumptions C79_ms1_commit_and_prove.

Example C79_ms1_commit_and_prove_case := @C79_ms1_commit_and_prove toy tark trepr trepr (fun x a => x = a) ctr tctr eq bwd ms10 tms1 xs0 ys0 (lift xs0) crs0 tcrs 6%N 6%N tark_ok (ok_rand_fr tctr_alike) tms1_rel (lift_rel xs0) tcrs_rel erefl.

Theorem C79_ms1_verify : forall (E : pairing) (A : ark (Fr E)) (r1 : repr (G1 E) (C1 A)) (r2 : repr (G2 E) (C2 A)) (rt : GT E -> out A -> Prop)
  sch (e : MSMEG1 E) f p q c d, implements r1 r2 rt -> rms1 r1 e f -> rcproof r1 r2 p q -> rcrs r1 r2 rt c d ->
  ark_ms1_verify sch f q d = ms1_verify sch e p c.
Proof. move=> E A r1 r2 rt sch e f p q c d I; exact: (rms1_verify I). Qed.
Print Assumptions C79_ms1_verify.

Example C79_ms1_case : exists p, rcproof (E := toy) (A := tark) trepr trepr p tp_ms1 /\ ms1_verify fwd ms10 p crs0 = Ok true /\
  ark_ms1_verify fwd tms1 tp_ms1 tcrs = Ok true.
Proof.
have W := (@C79_ms1_commit_and_prove toy tark trepr trepr _ ctr tctr eq bwd ms10 tms1 xs0 ys0 (lift xs0) crs0 tcrs 6%N 6%N tark_ok (ok_rand_fr tctr_alike) tms1_rel (lift_rel xs0) tcrs_rel erefl).
have [s e] := the_proofE tp_ms1_x; rewrite e in W; have [p hp] := rOk W; exists p; split; [exact: hp | split; last exact: tms1_accepted].
rewrite -(C79_ms1_verify fwd tark_ok tms1_rel hp tcrs_rel); exact: tms1_accepted.
Qed.

Theorem C79_ms2_prove : forall (E : pairing) (A : ark (Fr E)) (r1 : repr (G1 E) (C1 A)) (r2 : repr (G2 E) (C2 A)) (rt : GT E -> out A -> Prop)
  (R : rng E) (R' : ark_rng A) (rs : rst R -> ark_rst R' -> Prop) sch (e : MSMEG2 E) f (X : seq (Fr E)) (Y : seq (G2 E)) b x x' y y' c d s t,
  implements r1 r2 rt -> scalars_alike rs -> rms2 r2 e f -> rseq (ra r2) Y b -> rcommit r1 x x' -> rcommit r2 y y' -> rcrs r1 r2 rt c d -> rs s t ->
  rres (rpair (requproof r1 r2) rs) (ms2_prove sch e X Y x y c s) (ark_ms2_prove sch f X b x' y' d t).
Proof. move=> E A r1 r2 rt R R' rs sch e f X Y b x x' y y' c d s t I D; exact: (rms2_prove I D). Qed.
Print Assumptions C79_ms2_prove.

Example C79_ms2_prove_case := @C79_ms2_prove toy tark trepr trepr (fun x a => x = a) ctr tctr eq bwd ms20 tms2 xs0 ys0 (lift ys0) many_B10.1 (lcommit many_B10.1) many_ys_G.1 (lcommit many_ys_G.1) crs0 tcrs 6%N 6%N tark_ok (ok_rand_fr tctr_alike) tms2_rel (lift_rel ys0) (lcommit_rel many_B10.1) (lcommit_rel many_ys_G.1) tcrs_rel erefl.

Theorem C79_ms2_commit_and_prove : forall (E : pairing) (A : ark (Fr E)) (r1 : repr (G1 E) (C1 A)) (r2 : repr (G2 E) (C2 A)) (rt : GT E -> out A -> Prop)
  (R : rng E) (R' : ark_rng A) (rs : rst R -> ark_rst R' -> Prop) sch (e : MSMEG2 E) f (X : seq (Fr E)) (Y : seq (G2 E)) b c d s t,
  implements r1 r2 rt -> scalars_alike rs -> rms2 r2 e f -> rseq (ra r2) Y b -> rcrs r1 r2 rt c d -> rs s t ->
  rres (rpair (rcproof r1 r2) rs) (ms2_commit_and_prove sch e X Y c s) (ark_ms2_commit_and_prove sch f X b d t).
Proof. move=> E A r1 r2 rt R R' rs sch e f X Y b c d s t I D; exact: (rms2_commit_and_prove I D). Qed.
Print Assumptions C79_ms2_commit_and_prove.

Example C79_ms2_commit_and_prove_case := @C79_ms2_commit_and_prove toy tark trepr trepr (fun x a => x = a) ctr tctr eq bwd ms20 tms2 xs0 ys0 (lift ys0) crs0 tcrs 6%N 6%N tark_ok (ok_rand_fr tctr_alike) tms2_rel (lift_rel ys0) tcrs_rel erefl.

Theorem C79_ms2_verify : forall (E : pairing) (A : ark (Fr E)) (r1 : repr (G1 E) (C1 A)) (r2 : repr (G2 E) (C2 A)) (rt : GT E -> out A -> Prop)
  sch (e : MSMEG2 E) f p q c d, implements r1 r2 rt -> rms2 r2 e f -> rcproof r1 r2 p q -> rcrs r1 r2 rt c d ->
  ark_ms2_verify sch f q d = ms2_verify sch e p c.
Proof. move=> E A r1 r2 rt sch e f p q c d I; exact: (rms2_verify I). Qed.
Print Assumptions C79_ms2_verify.

Example C79_ms2_case : exists p, rcproof (E := toy) (A := tark) trepr trepr p tp_ms2 /\ ms2_verify fwd ms20 p crs0 = Ok true /\
  ark_ms2_verify fwd tms2 tp_ms2 tcrs = Ok true.
Proof.
have W := (@C79_ms2_commit_and_prove toy tark trepr trepr _ ctr tctr eq bwd ms20 tms2 xs0 ys0 (lift ys0) crs0 tcrs 6%N 6%N tark_ok (ok_rand_fr tctr_alike) tms2_rel (lift_rel ys0) tcrs_rel erefl).
have [s e] := the_proofE tp_ms2_x; rewrite e in W; have [p hp] := rOk W; exists p; split; [exact: hp | split; last exact: tms2_accepted].
rewrite -(C79_ms2_verify fwd tark_ok tms2_rel hp tcrs_rel); exact: tms2_accepted.
Qed.

Theorem C79_quad_prove : forall (E : pairing) (A : ark (Fr E)) (r1 : repr (G1 E) (C1 A)) (r2 : repr (G2 E) (C2 A)) (rt : GT E -> out A -> Prop)
  (R : rng E) (R' : ark_rng A) (rs : rst R -> ark_rst R' -> Prop) sch (e : QuadEqu E) f (X : seq (Fr E)) (Y : seq (Fr E)) x x' y y' c d s t,
  implements r1 r2 rt -> scalars_alike rs -> rquad e f -> rcommit r1 x x' -> rcommit r2 y y' -> rcrs r1 r2 rt c d -> rs s t ->
  rres (rpair (requproof r1 r2) rs) (quad_prove sch e X Y x y c s) (ark_quad_prove sch f X Y x' y' d t).
Proof. move=> E A r1 r2 rt R R' rs sch e f X Y x x' y y' c d s t I D; exact: (rquad_prove I D). Qed.
Print Assumptions C79_quad_prove.

Example C79_quad_prove_case := @C79_quad_prove toy tark trepr trepr (fun x a => x = a) ctr tctr eq bwd quad0 tquad xs0 ys0 many_B10.1 (lcommit many_B10.1) many_ys_B.1 (lcommit many_ys_B.1) crs0 tcrs 6%N 6%N tark_ok (ok_rand_fr tctr_alike) tquad_rel (lcommit_rel many_B10.1) (lcommit_rel many_ys_B.1) tcrs_rel erefl.

Theorem C79_quad_commit_and_prove : forall (E : pairing) (A : ark (Fr E)) (r1 : repr (G1 E) (C1 A)) (r2 : repr (G2 E) (C2 A)) (rt : GT E -> out A -> Prop)
  (R : rng E) (R' : ark_rng A) (rs : rst R -> ark_rst R' -> Prop) sch (e : QuadEqu E) f (X : seq (Fr E)) (Y : seq (Fr E)) c d s t,
  implements r1 r2 rt -> scalars_alike rs -> rquad e f -> rcrs r1 r2 rt c d -> rs s t ->
  rres (rpair (rcproof r1 r2) rs) (quad_commit_and_prove sch e X Y c s) (ark_quad_commit_and_prove sch f X Y d t).
Proof. move=> E A r1 r2 rt R R' rs sch e f X Y c d s t I D; exact: (rquad_commit_and_prove I D). Qed.
Print Assumptions C79_quad_commit_and_prove.

Example C79_quad_commit_and_prove_case := @C79_quad_commit_and_prove toy tark trepr trepr (fun x a => x = a) ctr tctr eq bwd quad0 tquad xs0 ys0 crs0 tcrs 6%N 6%N tark_ok (ok_rand_fr tctr_alike) tquad_rel tcrs_rel erefl.

Theorem C79_quad_verify : forall (E : pairing) (A : ark (Fr E)) (r1 : repr (G1 E) (C1 A)) (r2 : repr (G2 E) (C2 A)) (rt : GT E -> out A -> Prop)
  sch (e : QuadEqu E) f p q c d, implements r1 r2 rt -> rquad e f -> rcproof r1 r2 p q -> rcrs r1 r2 rt c d ->
  ark_quad_verify sch f q d = quad_verify sch e p c.
Proof. move=> E A r1 r2 rt sch e f p q c d I; exact: (rquad_verify I). Qed.
Print Assumptions C79_quad_verify.

Example C79_quad_case : exists p, rcproof (E := toy) (A := tark) trepr trepr p tp_quad /\ quad_verify fwd quad0 p crs0 = Ok true /\
  ark_quad_verify fwd tquad tp_quad tcrs = Ok true.
Proof.
have W := (@C79_quad_commit_and_prove toy tark trepr trepr _ ctr tctr eq bwd quad0 tquad xs0 ys0 crs0 tcrs 6%N 6%N tark_ok (ok_rand_fr tctr_alike) tquad_rel tcrs_rel erefl).
have [s e] := the_proofE tp_quad_x; rewrite e in W; have [p hp] := rOk W; exists p; split; [exact: hp | split; last exact: tquad_accepted].
rewrite -(C79_quad_verify fwd tark_ok tquad_rel hp tcrs_rel); exact: tquad_accepted.
Qed.

(** C80: completeness, soundness and witness indistinguishability for any implementation. *)
Theorem C80_ppe_decides : forall (E : pairing) (A : ark (Fr E)) (r1 : repr (G1 E) (C1 A)) (r2 : repr (G2 E) (C2 A)) (rt : GT E -> out A -> Prop)
  (R' : ark_rng A) sch sch' (q : PPE E) f (X : seq (G1 E)) (Y : seq (G2 E)) a b crs d (t : ark_rst R'), implements r1 r2 rt ->
  bilinear E -> valid_sched sch -> valid_sched sch' -> rppe r1 r2 rt q f -> rseq (ra r1) X a -> rseq (ra r2) Y b -> rcrs r1 r2 rt crs d ->
  (0 < size X)%N -> (0 < size Y)%N -> ppe_wf q (size X) (size Y) -> two_keys crs -> 
  exists p t' o, [/\ ark_ppe_commit_and_prove sch f a b d t = Ok (p, t'),
    ark_ppe_verify sch' f p d = Ok o & o <-> ppe_holds q X Y].
Proof. move=> E A r1 r2 rt R' sch sch' q f X Y a b crs d t I; exact: (ppe_ark_decides I). Qed.
Print Assumptions C80_ppe_decides.

Example C80_ppe_decides_case : exists p t' o, [/\ ark_ppe_commit_and_prove (R := tctr) bwd tppe (lift xs0) (lift ys2) tcrs 6%N = Ok (p, t'),
  ark_ppe_verify fwd tppe p tcrs = Ok o & ~~ o].
Proof.
have [p [t' [o [h1 h2 h3]]]] := @C80_ppe_decides toy tark trepr trepr _ tctr bwd fwd ppe0 tppe xs0 ys2 (lift xs0) (lift ys2) crs0 tcrs 6%N tark_ok
  toy_bilinear bwd_valid fwd_valid tppe_rel (lift_rel _) (lift_rel _) tcrs_rel isT isT ppe0_wf crs0_two .
by exists p, t', o; split=> //; apply/negP => /h3 /ppe0_fails.
Qed.

Theorem C80_ppe_sound : forall (E : pairing) (A : ark (Fr E)) (r1 : repr (G1 E) (C1 A)) (r2 : repr (G2 E) (C2 A)) (rt : GT E -> out A -> Prop)
  (R' : ark_rng A) sch (t t' : ark_rst R') d P1 P2, implements r1 r2 rt ->
  bilinear E -> valid_sched sch -> ark_generate_crs t = (d, t') ->
  rp r1 P1 (ark_rand_g1 t).1 -> rp r2 P2 (ark_rand_g2 (ark_rand_g1 t).2).1 -> 
  exists (ex1 : Com1 E -> G1 E) (ex2 : Com2 E -> G2 E),
  [/\ forall (R2 : ark_rng A) X a (z z' : ark_rst R2) c c', rseq (ra r1) X a -> ark_batch_commit_G1 a d z = Ok (c', z') ->
        rseq (rcom r1) c (ark_coms c') -> map ex1 c = X,
      forall (R2 : ark_rng A) Y b (z z' : ark_rst R2) c c', rseq (ra r2) Y b -> ark_batch_commit_G2 b d z = Ok (c', z') ->
        rseq (rcom r2) c (ark_coms c') -> map ex2 c = Y
    & forall q f p p', rppe r1 r2 rt q f -> rcproof r1 r2 p p' -> ark_ppe_verify sch f p' d = Ok true ->
        ppe_holds q (map ex1 (coms (xcoms p))) (map ex2 (coms (ycoms p)))].
Proof. move=> E A r1 r2 rt R' sch t t' d P1 P2 I; exact: (ppe_ark_sound I). Qed.
Print Assumptions C80_ppe_sound.

Example C80_ppe_sound_case : exists X Y, ppe_holds ppe0 X Y /\ ark_ppe_verify fwd tppe tp_ppe tcrs = Ok true.
Proof.
have [p [hp [_ hv]]] := C79_ppe_case.
have [ex1 [ex2 [_ _ h]]] := @C80_ppe_sound toy tark trepr trepr _ tctr fwd 0%N 6%N tcrs (n7 1) (n7 2) tark_ok toy_bilinear fwd_valid tcrsE
  (ok_rand_g1 tctr_alike (erefl 0%N)).1 (ok_rand_g2 tctr_alike (erefl 1%N)).1.
exists (map ex1 (coms (xcoms p))), (map ex2 (coms (ycoms p))); split; last exact: hv.
exact: (h ppe0 tppe p tp_ppe tppe_rel hp hv).
Qed.

Theorem C80_ppe_wi : forall (E : pairing) (A : ark (Fr E)) (r1 : repr (G1 E) (C1 A)) (r2 : repr (G2 E) (C2 A)) (rt : GT E -> out A -> Prop)
  sch sch' (q : PPE E) f (X : seq (G1 E)) (Y : seq (G2 E)) a b (X' : seq (G1 E)) (Y' : seq (G2 E)) a' b' crs d, implements r1 r2 rt ->
  bilinear E -> nondegenerate E -> cyclic (G1 E) -> cyclic (G2 E) -> valid_sched sch -> valid_sched sch' ->
  canonical r1 -> canonical r2 -> rppe r1 r2 rt q f -> rseq (ra r1) X a -> rseq (ra r2) Y b -> rseq (ra r1) X' a' -> rseq (ra r2) Y' b' -> rcrs r1 r2 rt crs d ->
  hiding_crs crs -> proper_crs crs ->
  (0 < size X)%N -> (0 < size Y)%N -> ppe_wf q (size X) (size Y) -> size X' = size X -> size Y' = size Y ->
  ppe_holds q X Y -> ppe_holds q X' Y' ->
  let N := (2 * size X + (2 * size Y + 4))%N in
  exists phi : N.-tuple (Fr E) -> N.-tuple (Fr E), bijective phi /\
  forall (R R' : ark_rng A) (s : ark_rst R) (z : ark_rst R') (u : N.-tuple (Fr E)),
    ark_draws N s = u -> ark_draws N z = phi u ->
    ark_seen (ark_ppe_commit_and_prove sch f a b d s) = ark_seen (ark_ppe_commit_and_prove sch' f a' b' d z).
Proof. move=> E A r1 r2 rt sch sch' q f X Y a b X' Y' a' b' crs d I; exact: (ppe_ark_wi I). Qed.
Print Assumptions C80_ppe_wi.

Example C80_ppe_wi_case : let N := ((2 * 2 + (2 * 1 + 4)))%N in exists phi : N.-tuple F7 -> N.-tuple F7, bijective phi /\
  forall (R R' : ark_rng tark) (s : ark_rst R) (z : ark_rst R') (u : N.-tuple F7),
    ark_draws N s = u -> ark_draws N z = phi u ->
    ark_seen (ark_ppe_commit_and_prove fwd tppe (lift xs0) (lift ys0) tcrsh s) = ark_seen (ark_ppe_commit_and_prove bwd tppe (lift xs1) (lift ys1) tcrsh z).
Proof.
exact: (@C80_ppe_wi toy tark trepr trepr _ fwd bwd ppe0 tppe xs0 ys0 (lift xs0) (lift ys0) xs1 ys1 (lift xs1) (lift ys1) crsh tcrsh tark_ok
  toy_bilinear toy_nondegenerate toy_cyclic toy_cyclic fwd_valid bwd_valid trepr_canonical trepr_canonical tppe_rel (lift_rel _) (lift_rel _) (lift_rel _) (lift_rel _) tcrsh_rel crsh_hid crsh_prop isT isT ppe0_wf erefl erefl ppe0_holds ppe0_holds1).
Qed.

Theorem C80_ms1_decides : forall (E : pairing) (A : ark (Fr E)) (r1 : repr (G1 E) (C1 A)) (r2 : repr (G2 E) (C2 A)) (rt : GT E -> out A -> Prop)
  (R' : ark_rng A) sch sch' (q : MSMEG1 E) f (X : seq (G1 E)) (Y : seq (Fr E)) a crs d (t : ark_rst R'), implements r1 r2 rt ->
  bilinear E -> nondegenerate E -> valid_sched sch -> valid_sched sch' -> rms1 r1 q f -> rseq (ra r1) X a -> rcrs r1 r2 rt crs d ->
  (0 < size X)%N -> (0 < size Y)%N -> ms1_wf q (size X) (size Y) -> two_keys crs -> v2 crs + (0, g2_gen crs) != 0 ->
  exists p t' o, [/\ ark_ms1_commit_and_prove sch f a Y d t = Ok (p, t'),
    ark_ms1_verify sch' f p d = Ok o & o <-> ms1_holds q X Y].
Proof. move=> E A r1 r2 rt R' sch sch' q f X Y a crs d t I; exact: (ms1_ark_decides I). Qed.
Print Assumptions C80_ms1_decides.

Example C80_ms1_decides_case : exists p t' o, [/\ ark_ms1_commit_and_prove (R := tctr) bwd tms1 (lift xs0) ys2 tcrs 6%N = Ok (p, t'),
  ark_ms1_verify fwd tms1 p tcrs = Ok o & ~~ o].
Proof.
have [p [t' [o [h1 h2 h3]]]] := @C80_ms1_decides toy tark trepr trepr _ tctr bwd fwd ms10 tms1 xs0 ys2 (lift xs0) crs0 tcrs 6%N tark_ok
  toy_bilinear toy_nondegenerate bwd_valid fwd_valid tms1_rel (lift_rel _) tcrs_rel isT isT ms10_wf crs0_two isT .
by exists p, t', o; split=> //; apply/negP => /h3 /ms10_fails.
Qed.

Theorem C80_ms1_sound : forall (E : pairing) (A : ark (Fr E)) (r1 : repr (G1 E) (C1 A)) (r2 : repr (G2 E) (C2 A)) (rt : GT E -> out A -> Prop)
  (R' : ark_rng A) sch (t t' : ark_rst R') d P1 P2, implements r1 r2 rt ->
  bilinear E -> valid_sched sch -> ark_generate_crs t = (d, t') ->
  rp r1 P1 (ark_rand_g1 t).1 -> rp r2 P2 (ark_rand_g2 (ark_rand_g1 t).2).1 -> nondegenerate E -> cyclic (G2 E) -> P2 != 0 -> 
  exists (ex1 : Com1 E -> G1 E) (ex2 : Com2 E -> Fr E),
  [/\ forall (R2 : ark_rng A) X a (z z' : ark_rst R2) c c', rseq (ra r1) X a -> ark_batch_commit_G1 a d z = Ok (c', z') ->
        rseq (rcom r1) c (ark_coms c') -> map ex1 c = X,
      forall (R2 : ark_rng A) Y (z z' : ark_rst R2) c c', ark_batch_commit_scalar_to_B2 Y d z = Ok (c', z') ->
        rseq (rcom r2) c (ark_coms c') -> map ex2 c = Y
    & forall q f p p', rms1 r1 q f -> rcproof r1 r2 p p' -> ark_ms1_verify sch f p' d = Ok true ->
        ms1_holds q (map ex1 (coms (xcoms p))) (map ex2 (coms (ycoms p)))].
Proof. move=> E A r1 r2 rt R' sch t t' d P1 P2 I; exact: (ms1_ark_sound I). Qed.
Print Assumptions C80_ms1_sound.

Example C80_ms1_sound_case : exists X Y, ms1_holds ms10 X Y /\ ark_ms1_verify fwd tms1 tp_ms1 tcrs = Ok true.
Proof.
have [p [hp [_ hv]]] := C79_ms1_case.
have [ex1 [ex2 [_ _ h]]] := @C80_ms1_sound toy tark trepr trepr _ tctr fwd 0%N 6%N tcrs (n7 1) (n7 2) tark_ok toy_bilinear fwd_valid tcrsE
  (ok_rand_g1 tctr_alike (erefl 0%N)).1 (ok_rand_g2 tctr_alike (erefl 1%N)).1 toy_nondegenerate toy_cyclic isT.
exists (map ex1 (coms (xcoms p))), (map ex2 (coms (ycoms p))); split; last exact: hv.
exact: (h ms10 tms1 p tp_ms1 tms1_rel hp hv).
Qed.

Theorem C80_ms1_wi : forall (E : pairing) (A : ark (Fr E)) (r1 : repr (G1 E) (C1 A)) (r2 : repr (G2 E) (C2 A)) (rt : GT E -> out A -> Prop)
  sch sch' (q : MSMEG1 E) f (X : seq (G1 E)) (Y : seq (Fr E)) a (X' : seq (G1 E)) (Y' : seq (Fr E)) a' crs d, implements r1 r2 rt ->
  bilinear E -> nondegenerate E -> cyclic (G1 E) -> cyclic (G2 E) -> valid_sched sch -> valid_sched sch' ->
  canonical r1 -> canonical r2 -> rms1 r1 q f -> rseq (ra r1) X a -> rseq (ra r1) X' a' -> rcrs r1 r2 rt crs d ->
  hiding_crs crs -> proper_crs crs ->
  (0 < size X)%N -> (0 < size Y)%N -> ms1_wf q (size X) (size Y) -> size X' = size X -> size Y' = size Y ->
  ms1_holds q X Y -> ms1_holds q X' Y' ->
  let N := (2 * size X + (size Y + 2))%N in
  exists phi : N.-tuple (Fr E) -> N.-tuple (Fr E), bijective phi /\
  forall (R R' : ark_rng A) (s : ark_rst R) (z : ark_rst R') (u : N.-tuple (Fr E)),
    ark_draws N s = u -> ark_draws N z = phi u ->
    ark_seen (ark_ms1_commit_and_prove sch f a Y d s) = ark_seen (ark_ms1_commit_and_prove sch' f a' Y' d z).
Proof. move=> E A r1 r2 rt sch sch' q f X Y a X' Y' a' crs d I; exact: (ms1_ark_wi I). Qed.
Print Assumptions C80_ms1_wi.

Example C80_ms1_wi_case : let N := ((2 * 2 + (1 + 2)))%N in exists phi : N.-tuple F7 -> N.-tuple F7, bijective phi /\
  forall (R R' : ark_rng tark) (s : ark_rst R) (z : ark_rst R') (u : N.-tuple F7),
    ark_draws N s = u -> ark_draws N z = phi u ->
    ark_seen (ark_ms1_commit_and_prove fwd tms1 (lift xs0) ys0 tcrsh s) = ark_seen (ark_ms1_commit_and_prove bwd tms1 (lift xs1) ys1 tcrsh z).
Proof.
exact: (@C80_ms1_wi toy tark trepr trepr _ fwd bwd ms10 tms1 xs0 ys0 (lift xs0) xs1 ys1 (lift xs1) crsh tcrsh tark_ok
  toy_bilinear toy_nondegenerate toy_cyclic toy_cyclic fwd_valid bwd_valid trepr_canonical trepr_canonical tms1_rel (lift_rel _) (lift_rel _) tcrsh_rel crsh_hid crsh_prop isT isT ms10_wf erefl erefl ms10_holds ms10_holds1).
Qed.

Theorem C80_ms2_decides : forall (E : pairing) (A : ark (Fr E)) (r1 : repr (G1 E) (C1 A)) (r2 : repr (G2 E) (C2 A)) (rt : GT E -> out A -> Prop)
  (R' : ark_rng A) sch sch' (q : MSMEG2 E) f (X : seq (Fr E)) (Y : seq (G2 E)) b crs d (t : ark_rst R'), implements r1 r2 rt ->
  bilinear E -> nondegenerate E -> valid_sched sch -> valid_sched sch' -> rms2 r2 q f -> rseq (ra r2) Y b -> rcrs r1 r2 rt crs d ->
  (0 < size X)%N -> (0 < size Y)%N -> ms2_wf q (size X) (size Y) -> two_keys crs -> u2 crs + (0, g1_gen crs) != 0 ->
  exists p t' o, [/\ ark_ms2_commit_and_prove sch f X b d t = Ok (p, t'),
    ark_ms2_verify sch' f p d = Ok o & o <-> ms2_holds q X Y].
Proof. move=> E A r1 r2 rt R' sch sch' q f X Y b crs d t I; exact: (ms2_ark_decides I). Qed.
Print Assumptions C80_ms2_decides.

Example C80_ms2_decides_case : exists p t' o, [/\ ark_ms2_commit_and_prove (R := tctr) bwd tms2 xs0 (lift ys2) tcrs 6%N = Ok (p, t'),
  ark_ms2_verify fwd tms2 p tcrs = Ok o & ~~ o].
Proof.
have [p [t' [o [h1 h2 h3]]]] := @C80_ms2_decides toy tark trepr trepr _ tctr bwd fwd ms20 tms2 xs0 ys2 (lift ys2) crs0 tcrs 6%N tark_ok
  toy_bilinear toy_nondegenerate bwd_valid fwd_valid tms2_rel (lift_rel _) tcrs_rel isT isT ms20_wf crs0_two isT .
by exists p, t', o; split=> //; apply/negP => /h3 /ms20_fails.
Qed.

Theorem C80_ms2_sound : forall (E : pairing) (A : ark (Fr E)) (r1 : repr (G1 E) (C1 A)) (r2 : repr (G2 E) (C2 A)) (rt : GT E -> out A -> Prop)
  (R' : ark_rng A) sch (t t' : ark_rst R') d P1 P2, implements r1 r2 rt ->
  bilinear E -> valid_sched sch -> ark_generate_crs t = (d, t') ->
  rp r1 P1 (ark_rand_g1 t).1 -> rp r2 P2 (ark_rand_g2 (ark_rand_g1 t).2).1 -> nondegenerate E -> cyclic (G1 E) -> P1 != 0 -> 
  exists (ex1 : Com1 E -> Fr E) (ex2 : Com2 E -> G2 E),
  [/\ forall (R2 : ark_rng A) X (z z' : ark_rst R2) c c', ark_batch_commit_scalar_to_B1 X d z = Ok (c', z') ->
        rseq (rcom r1) c (ark_coms c') -> map ex1 c = X,
      forall (R2 : ark_rng A) Y b (z z' : ark_rst R2) c c', rseq (ra r2) Y b -> ark_batch_commit_G2 b d z = Ok (c', z') ->
        rseq (rcom r2) c (ark_coms c') -> map ex2 c = Y
    & forall q f p p', rms2 r2 q f -> rcproof r1 r2 p p' -> ark_ms2_verify sch f p' d = Ok true ->
        ms2_holds q (map ex1 (coms (xcoms p))) (map ex2 (coms (ycoms p)))].
Proof. move=> E A r1 r2 rt R' sch t t' d P1 P2 I; exact: (ms2_ark_sound I). Qed.
Print Assumptions C80_ms2_sound.

Example C80_ms2_sound_case : exists X Y, ms2_holds ms20 X Y /\ ark_ms2_verify fwd tms2 tp_ms2 tcrs = Ok true.
Proof.
have [p [hp [_ hv]]] := C79_ms2_case.
have [ex1 [ex2 [_ _ h]]] := @C80_ms2_sound toy tark trepr trepr _ tctr fwd 0%N 6%N tcrs (n7 1) (n7 2) tark_ok toy_bilinear fwd_valid tcrsE
  (ok_rand_g1 tctr_alike (erefl 0%N)).1 (ok_rand_g2 tctr_alike (erefl 1%N)).1 toy_nondegenerate toy_cyclic isT.
exists (map ex1 (coms (xcoms p))), (map ex2 (coms (ycoms p))); split; last exact: hv.
exact: (h ms20 tms2 p tp_ms2 tms2_rel hp hv).
Qed.

Theorem C80_ms2_wi : forall (E : pairing) (A : ark (Fr E)) (r1 : repr (G1 E) (C1 A)) (r2 : repr (G2 E) (C2 A)) (rt : GT E -> out A -> Prop)
  sch sch' (q : MSMEG2 E) f (X : seq (Fr E)) (Y : seq (G2 E)) b (X' : seq (Fr E)) (Y' : seq (G2 E)) b' crs d, implements r1 r2 rt ->
  bilinear E -> nondegenerate E -> cyclic (G1 E) -> cyclic (G2 E) -> valid_sched sch -> valid_sched sch' ->
  canonical r1 -> canonical r2 -> rms2 r2 q f -> rseq (ra r2) Y b -> rseq (ra r2) Y' b' -> rcrs r1 r2 rt crs d ->
  hiding_crs crs -> proper_crs crs ->
  (0 < size X)%N -> (0 < size Y)%N -> ms2_wf q (size X) (size Y) -> size X' = size X -> size Y' = size Y ->
  ms2_holds q X Y -> ms2_holds q X' Y' ->
  let N := (size X + (2 * size Y + 2))%N in
  exists phi : N.-tuple (Fr E) -> N.-tuple (Fr E), bijective phi /\
  forall (R R' : ark_rng A) (s : ark_rst R) (z : ark_rst R') (u : N.-tuple (Fr E)),
    ark_draws N s = u -> ark_draws N z = phi u ->
    ark_seen (ark_ms2_commit_and_prove sch f X b d s) = ark_seen (ark_ms2_commit_and_prove sch' f X' b' d z).
Proof. move=> E A r1 r2 rt sch sch' q f X Y b X' Y' b' crs d I; exact: (ms2_ark_wi I). Qed.
Print Assumptions C80_ms2_wi.

Example C80_ms2_wi_case : let N := ((2 + (2 * 1 + 2)))%N in exists phi : N.-tuple F7 -> N.-tuple F7, bijective phi /\
  forall (R R' : ark_rng tark) (s : ark_rst R) (z : ark_rst R') (u : N.-tuple F7),
    ark_draws N s = u -> ark_draws N z = phi u ->
    ark_seen (ark_ms2_commit_and_prove fwd tms2 xs0 (lift ys0) tcrsh s) = ark_seen (ark_ms2_commit_and_prove bwd tms2 xs1 (lift ys1) tcrsh z).
Proof.
exact: (@C80_ms2_wi toy tark trepr trepr _ fwd bwd ms20 tms2 xs0 ys0 (lift ys0) xs1 ys1 (lift ys1) crsh tcrsh tark_ok
  toy_bilinear toy_nondegenerate toy_cyclic toy_cyclic fwd_valid bwd_valid trepr_canonical trepr_canonical tms2_rel (lift_rel _) (lift_rel _) tcrsh_rel crsh_hid crsh_prop isT isT ms20_wf erefl erefl ms20_holds ms20_holds1).
Qed.

Theorem C80_quad_decides : forall (E : pairing) (A : ark (Fr E)) (r1 : repr (G1 E) (C1 A)) (r2 : repr (G2 E) (C2 A)) (rt : GT E -> out A -> Prop)
  (R' : ark_rng A) sch sch' (q : QuadEqu E) f (X : seq (Fr E)) (Y : seq (Fr E)) crs d (t : ark_rst R'), implements r1 r2 rt ->
  bilinear E -> nondegenerate E -> valid_sched sch -> valid_sched sch' -> rquad q f -> rcrs r1 r2 rt crs d ->
  (0 < size X)%N -> (0 < size Y)%N -> quad_wf q (size X) (size Y) -> two_keys crs -> u2 crs + (0, g1_gen crs) != 0 -> v2 crs + (0, g2_gen crs) != 0 ->
  exists p t' o, [/\ ark_quad_commit_and_prove sch f X Y d t = Ok (p, t'),
    ark_quad_verify sch' f p d = Ok o & o <-> quad_holds q X Y].
Proof. move=> E A r1 r2 rt R' sch sch' q f X Y crs d t I; exact: (quad_ark_decides I). Qed.
Print Assumptions C80_quad_decides.

Example C80_quad_decides_case : exists p t' o, [/\ ark_quad_commit_and_prove (R := tctr) bwd tquad xs0 ys2 tcrs 6%N = Ok (p, t'),
  ark_quad_verify fwd tquad p tcrs = Ok o & ~~ o].
Proof.
have [p [t' [o [h1 h2 h3]]]] := @C80_quad_decides toy tark trepr trepr _ tctr bwd fwd quad0 tquad xs0 ys2 crs0 tcrs 6%N tark_ok
  toy_bilinear toy_nondegenerate bwd_valid fwd_valid tquad_rel tcrs_rel isT isT quad0_wf crs0_two isT isT .
by exists p, t', o; split=> //; apply/negP => /h3 /quad0_fails.
Qed.

Theorem C80_quad_sound : forall (E : pairing) (A : ark (Fr E)) (r1 : repr (G1 E) (C1 A)) (r2 : repr (G2 E) (C2 A)) (rt : GT E -> out A -> Prop)
  (R' : ark_rng A) sch (t t' : ark_rst R') d P1 P2, implements r1 r2 rt ->
  bilinear E -> valid_sched sch -> ark_generate_crs t = (d, t') ->
  rp r1 P1 (ark_rand_g1 t).1 -> rp r2 P2 (ark_rand_g2 (ark_rand_g1 t).2).1 -> nondegenerate E -> cyclic (G1 E) -> cyclic (G2 E) -> P1 != 0 -> P2 != 0 -> 
  exists (ex1 : Com1 E -> Fr E) (ex2 : Com2 E -> Fr E),
  [/\ forall (R2 : ark_rng A) X (z z' : ark_rst R2) c c', ark_batch_commit_scalar_to_B1 X d z = Ok (c', z') ->
        rseq (rcom r1) c (ark_coms c') -> map ex1 c = X,
      forall (R2 : ark_rng A) Y (z z' : ark_rst R2) c c', ark_batch_commit_scalar_to_B2 Y d z = Ok (c', z') ->
        rseq (rcom r2) c (ark_coms c') -> map ex2 c = Y
    & forall q f p p', rquad q f -> rcproof r1 r2 p p' -> ark_quad_verify sch f p' d = Ok true ->
        quad_holds q (map ex1 (coms (xcoms p))) (map ex2 (coms (ycoms p)))].
Proof. move=> E A r1 r2 rt R' sch t t' d P1 P2 I; exact: (quad_ark_sound I). Qed.
Print Assumptions C80_quad_sound.

Example C80_quad_sound_case : exists X Y, quad_holds quad0 X Y /\ ark_quad_verify fwd tquad tp_quad tcrs = Ok true.
Proof.
have [p [hp [_ hv]]] := C79_quad_case.
have [ex1 [ex2 [_ _ h]]] := @C80_quad_sound toy tark trepr trepr _ tctr fwd 0%N 6%N tcrs (n7 1) (n7 2) tark_ok toy_bilinear fwd_valid tcrsE
  (ok_rand_g1 tctr_alike (erefl 0%N)).1 (ok_rand_g2 tctr_alike (erefl 1%N)).1 toy_nondegenerate toy_cyclic toy_cyclic isT isT.
exists (map ex1 (coms (xcoms p))), (map ex2 (coms (ycoms p))); split; last exact: hv.
exact: (h quad0 tquad p tp_quad tquad_rel hp hv).
Qed.

Theorem C80_quad_wi : forall (E : pairing) (A : ark (Fr E)) (r1 : repr (G1 E) (C1 A)) (r2 : repr (G2 E) (C2 A)) (rt : GT E -> out A -> Prop)
  sch sch' (q : QuadEqu E) f (X : seq (Fr E)) (Y : seq (Fr E)) (X' : seq (Fr E)) (Y' : seq (Fr E)) crs d, implements r1 r2 rt ->
  bilinear E -> nondegenerate E -> cyclic (G1 E) -> cyclic (G2 E) -> valid_sched sch -> valid_sched sch' ->
  canonical r1 -> canonical r2 -> rquad q f -> rcrs r1 r2 rt crs d ->
  hiding_crs crs -> proper_crs crs ->
  (0 < size X)%N -> (0 < size Y)%N -> quad_wf q (size X) (size Y) -> size X' = size X -> size Y' = size Y ->
  quad_holds q X Y -> quad_holds q X' Y' ->
  let N := (size X + (size Y + 1))%N in
  exists phi : N.-tuple (Fr E) -> N.-tuple (Fr E), bijective phi /\
  forall (R R' : ark_rng A) (s : ark_rst R) (z : ark_rst R') (u : N.-tuple (Fr E)),
    ark_draws N s = u -> ark_draws N z = phi u ->
    ark_seen (ark_quad_commit_and_prove sch f X Y d s) = ark_seen (ark_quad_commit_and_prove sch' f X' Y' d z).
Proof. move=> E A r1 r2 rt sch sch' q f X Y X' Y' crs d I; exact: (quad_ark_wi I). Qed.
Print Assumptions C80_quad_wi.

Example C80_quad_wi_case : let N := ((2 + (1 + 1)))%N in exists phi : N.-tuple F7 -> N.-tuple F7, bijective phi /\
  forall (R R' : ark_rng tark) (s : ark_rst R) (z : ark_rst R') (u : N.-tuple F7),
    ark_draws N s = u -> ark_draws N z = phi u ->
    ark_seen (ark_quad_commit_and_prove fwd tquad xs0 ys0 tcrsh s) = ark_seen (ark_quad_commit_and_prove bwd tquad xs1 ys1 tcrsh z).
Proof.
exact: (@C80_quad_wi toy tark trepr trepr _ fwd bwd quad0 tquad xs0 ys0 xs1 ys1 crsh tcrsh tark_ok
  toy_bilinear toy_nondegenerate toy_cyclic toy_cyclic fwd_valid bwd_valid trepr_canonical trepr_canonical tquad_rel tcrsh_rel crsh_hid crsh_prop isT isT quad0_wf erefl erefl quad0_holds quad0_holds1).
Qed.

(** C81: points of G1 that the pairing does not see. *)
Theorem C81_ppe_shift : forall (F : fieldType) (A : ark F) (S : aff (C1 A) -> aff (C1 A) -> Prop) sch (f : ark_PPE A) p p' d,
  invisible S -> shifted S p p' -> ark_ppe_verify sch f p d = ark_ppe_verify sch f p' d.
Proof. move=> F A S sch f p p' d H; exact: ppe_shift. Qed.
Print Assumptions C81_ppe_shift.

Example C81_ppe_shift_case : ark_coms (ark_xcoms (out_proof tp_ppe)) <> ark_coms (ark_xcoms tp_ppe) /\
  ark_ppe_verify fwd tppe (out_proof tp_ppe) tcrs = Ok true.
Proof. by split; [vm_compute | rewrite -(C81_ppe_shift fwd tppe tcrs same_x_invisible (out_shifted tp_ppe)); vm_compute]. Qed.

(** An accepted proof need not consist of representations of group elements. *)
Theorem C81_ppe_refuted : ~ (forall (E : pairing) (A : ark (Fr E)) (r1 : repr (G1 E) (C1 A)) (r2 : repr (G2 E) (C2 A)) (rt : GT E -> out A -> Prop)
  sch (q : PPE E) f p crs d, implements r1 r2 rt -> canonical r1 -> canonical r2 -> bilinear E -> nondegenerate E -> valid_sched sch ->
  rppe r1 r2 rt q f -> rcrs r1 r2 rt crs d ->
  ark_ppe_verify sch f p d = Ok true -> exists c, rseq (rcom r1) c (ark_coms (ark_xcoms p))).
Proof.
move=> h; have [c hc] := h toy tark trepr trepr _ fwd ppe0 tppe (out_proof tp_ppe) crs0 tcrs tark_ok trepr_canonical trepr_canonical toy_bilinear toy_nondegenerate fwd_valid tppe_rel tcrs_rel
  C81_ppe_shift_case.2.
exact: out_unrepresented tp_ppe_x hc.
Qed.
Print Assumptions C81_ppe_refuted.

(** The equation holds nevertheless of the values extracted from the points without the part that the pairing does not see. *)
Theorem C81_ppe_sound : forall (E : pairing) (A : ark (Fr E)) (r1 : repr (G1 E) (C1 A)) (r2 : repr (G2 E) (C2 A)) (rt : GT E -> out A -> Prop) (S : aff (C1 A) -> aff (C1 A) -> Prop)
  (R' : ark_rng A) sch (t t' : ark_rst R') d P1 P2, implements r1 r2 rt ->
  bilinear E -> valid_sched sch -> ark_generate_crs t = (d, t') ->
  rp r1 P1 (ark_rand_g1 t).1 -> rp r2 P2 (ark_rand_g2 (ark_rand_g1 t).2).1 -> 
  invisible S ->
  exists (ex1 : Com1 E -> G1 E) (ex2 : Com2 E -> G2 E),
  [/\ forall (R2 : ark_rng A) X a (z z' : ark_rst R2) c c', rseq (ra r1) X a -> ark_batch_commit_G1 a d z = Ok (c', z') ->
        rseq (rcom r1) c (ark_coms c') -> map ex1 c = X,
      forall (R2 : ark_rng A) Y b (z z' : ark_rst R2) c c', rseq (ra r2) Y b -> ark_batch_commit_G2 b d z = Ok (c', z') ->
        rseq (rcom r2) c (ark_coms c') -> map ex2 c = Y
    & forall q f p p' p'', rppe r1 r2 rt q f -> rcproof r1 r2 p p' -> shifted S p' p'' -> ark_ppe_verify sch f p'' d = Ok true ->
        ppe_holds q (map ex1 (coms (xcoms p))) (map ex2 (coms (ycoms p)))].
Proof. move=> E A r1 r2 rt S R' sch t t' d P1 P2 I; exact: (ppe_shift_sound I). Qed.
Print Assumptions C81_ppe_sound.

Example C81_ppe_sound_case : exists X Y, ppe_holds ppe0 X Y /\ ark_ppe_verify fwd tppe (out_proof tp_ppe) tcrs = Ok true.
Proof.
have [p [hp [_ _]]] := C79_ppe_case; have hv := C81_ppe_shift_case.2.
have [ex1 [ex2 [_ _ h]]] := @C81_ppe_sound toy tark trepr trepr _ same_x tctr fwd 0%N 6%N tcrs (n7 1) (n7 2) tark_ok toy_bilinear fwd_valid tcrsE
  (ok_rand_g1 tctr_alike (erefl 0%N)).1 (ok_rand_g2 tctr_alike (erefl 1%N)).1 same_x_invisible.
exists (map ex1 (coms (xcoms p))), (map ex2 (coms (ycoms p))); split; last exact: hv.
exact: (h ppe0 tppe p tp_ppe (out_proof tp_ppe) tppe_rel hp (out_shifted _) hv).
Qed.

Theorem C81_ms1_shift : forall (F : fieldType) (A : ark F) (S : aff (C1 A) -> aff (C1 A) -> Prop) sch (f : ark_MSMEG1 A) p p' d,
  invisible S -> shifted S p p' -> ark_ms1_verify sch f p d = ark_ms1_verify sch f p' d.
Proof. move=> F A S sch f p p' d H; exact: ms1_shift. Qed.
Print Assumptions C81_ms1_shift.

Example C81_ms1_shift_case : ark_coms (ark_xcoms (out_proof tp_ms1)) <> ark_coms (ark_xcoms tp_ms1) /\
  ark_ms1_verify fwd tms1 (out_proof tp_ms1) tcrs = Ok true.
Proof. by split; [vm_compute | rewrite -(C81_ms1_shift fwd tms1 tcrs same_x_invisible (out_shifted tp_ms1)); vm_compute]. Qed.

(** An accepted proof need not consist of representations of group elements. *)
Theorem C81_ms1_refuted : ~ (forall (E : pairing) (A : ark (Fr E)) (r1 : repr (G1 E) (C1 A)) (r2 : repr (G2 E) (C2 A)) (rt : GT E -> out A -> Prop)
  sch (q : MSMEG1 E) f p crs d, implements r1 r2 rt -> canonical r1 -> canonical r2 -> bilinear E -> nondegenerate E -> valid_sched sch ->
  rms1 r1 q f -> rcrs r1 r2 rt crs d ->
  ark_ms1_verify sch f p d = Ok true -> exists c, rseq (rcom r1) c (ark_coms (ark_xcoms p))).
Proof.
move=> h; have [c hc] := h toy tark trepr trepr _ fwd ms10 tms1 (out_proof tp_ms1) crs0 tcrs tark_ok trepr_canonical trepr_canonical toy_bilinear toy_nondegenerate fwd_valid tms1_rel tcrs_rel
  C81_ms1_shift_case.2.
exact: out_unrepresented tp_ms1_x hc.
Qed.
Print Assumptions C81_ms1_refuted.

(** The equation holds nevertheless of the values extracted from the points without the part that the pairing does not see. *)
Theorem C81_ms1_sound : forall (E : pairing) (A : ark (Fr E)) (r1 : repr (G1 E) (C1 A)) (r2 : repr (G2 E) (C2 A)) (rt : GT E -> out A -> Prop) (S : aff (C1 A) -> aff (C1 A) -> Prop)
  (R' : ark_rng A) sch (t t' : ark_rst R') d P1 P2, implements r1 r2 rt ->
  bilinear E -> valid_sched sch -> ark_generate_crs t = (d, t') ->
  rp r1 P1 (ark_rand_g1 t).1 -> rp r2 P2 (ark_rand_g2 (ark_rand_g1 t).2).1 -> nondegenerate E -> cyclic (G2 E) -> P2 != 0 -> 
  invisible S ->
  exists (ex1 : Com1 E -> G1 E) (ex2 : Com2 E -> Fr E),
  [/\ forall (R2 : ark_rng A) X a (z z' : ark_rst R2) c c', rseq (ra r1) X a -> ark_batch_commit_G1 a d z = Ok (c', z') ->
        rseq (rcom r1) c (ark_coms c') -> map ex1 c = X,
      forall (R2 : ark_rng A) Y (z z' : ark_rst R2) c c', ark_batch_commit_scalar_to_B2 Y d z = Ok (c', z') ->
        rseq (rcom r2) c (ark_coms c') -> map ex2 c = Y
    & forall q f p p' p'', rms1 r1 q f -> rcproof r1 r2 p p' -> shifted S p' p'' -> ark_ms1_verify sch f p'' d = Ok true ->
        ms1_holds q (map ex1 (coms (xcoms p))) (map ex2 (coms (ycoms p)))].
Proof. move=> E A r1 r2 rt S R' sch t t' d P1 P2 I; exact: (ms1_shift_sound I). Qed.
Print Assumptions C81_ms1_sound.

Example C81_ms1_sound_case : exists X Y, ms1_holds ms10 X Y /\ ark_ms1_verify fwd tms1 (out_proof tp_ms1) tcrs = Ok true.
Proof.
have [p [hp [_ _]]] := C79_ms1_case; have hv := C81_ms1_shift_case.2.
have [ex1 [ex2 [_ _ h]]] := @C81_ms1_sound toy tark trepr trepr _ same_x tctr fwd 0%N 6%N tcrs (n7 1) (n7 2) tark_ok toy_bilinear fwd_valid tcrsE
  (ok_rand_g1 tctr_alike (erefl 0%N)).1 (ok_rand_g2 tctr_alike (erefl 1%N)).1 toy_nondegenerate toy_cyclic isT same_x_invisible.
exists (map ex1 (coms (xcoms p))), (map ex2 (coms (ycoms p))); split; last exact: hv.
exact: (h ms10 tms1 p tp_ms1 (out_proof tp_ms1) tms1_rel hp (out_shifted _) hv).
Qed.

Theorem C81_ms2_shift : forall (F : fieldType) (A : ark F) (S : aff (C1 A) -> aff (C1 A) -> Prop) sch (f : ark_MSMEG2 A) p p' d,
  invisible S -> shifted S p p' -> ark_ms2_verify sch f p d = ark_ms2_verify sch f p' d.
Proof. move=> F A S sch f p p' d H; exact: ms2_shift. Qed.
Print Assumptions C81_ms2_shift.

Example C81_ms2_shift_case : ark_coms (ark_xcoms (out_proof tp_ms2)) <> ark_coms (ark_xcoms tp_ms2) /\
  ark_ms2_verify fwd tms2 (out_proof tp_ms2) tcrs = Ok true.
Proof. by split; [vm_compute | rewrite -(C81_ms2_shift fwd tms2 tcrs same_x_invisible (out_shifted tp_ms2)); vm_compute]. Qed.

(** An accepted proof need not consist of representations of group elements. *)
Theorem C81_ms2_refuted : ~ (forall (E : pairing) (A : ark (Fr E)) (r1 : repr (G1 E) (C1 A)) (r2 : repr (G2 E) (C2 A)) (rt : GT E -> out A -> Prop)
  sch (q : MSMEG2 E) f p crs d, implements r1 r2 rt -> canonical r1 -> canonical r2 -> bilinear E -> nondegenerate E -> valid_sched sch ->
  rms2 r2 q f -> rcrs r1 r2 rt crs d ->
  ark_ms2_verify sch f p d = Ok true -> exists c, rseq (rcom r1) c (ark_coms (ark_xcoms p))).
Proof.
move=> h; have [c hc] := h toy tark trepr trepr _ fwd ms20 tms2 (out_proof tp_ms2) crs0 tcrs tark_ok trepr_canonical trepr_canonical toy_bilinear toy_nondegenerate fwd_valid tms2_rel tcrs_rel
  C81_ms2_shift_case.2.
exact: out_unrepresented tp_ms2_x hc.
Qed.
Print Assumptions C81_ms2_refuted.

(** The equation holds nevertheless of the values extracted from the points without the part that the pairing does not see. *)
Theorem C81_ms2_sound : forall (E : pairing) (A : ark (Fr E)) (r1 : repr (G1 E) (C1 A)) (r2 : repr (G2 E) (C2 A)) (rt : GT E -> out A -> Prop) (S : aff (C1 A) -> aff (C1 A) -> Prop)
  (R' : ark_rng A) sch (t t' : ark_rst R') d P1 P2, implements r1 r2 rt ->
  bilinear E -> valid_sched sch -> ark_generate_crs t = (d, t') ->
  rp r1 P1 (ark_rand_g1 t).1 -> rp r2 P2 (ark_rand_g2 (ark_rand_g1 t).2).1 -> nondegenerate E -> cyclic (G1 E) -> P1 != 0 -> 
  invisible S ->
  exists (ex1 : Com1 E -> Fr E) (ex2 : Com2 E -> G2 E),
  [/\ forall (R2 : ark_rng A) X (z z' : ark_rst R2) c c', ark_batch_commit_scalar_to_B1 X d z = Ok (c', z') ->
        rseq (rcom r1) c (ark_coms c') -> map ex1 c = X,
      forall (R2 : ark_rng A) Y b (z z' : ark_rst R2) c c', rseq (ra r2) Y b -> ark_batch_commit_G2 b d z = Ok (c', z') ->
        rseq (rcom r2) c (ark_coms c') -> map ex2 c = Y
    & forall q f p p' p'', rms2 r2 q f -> rcproof r1 r2 p p' -> shifted S p' p'' -> ark_ms2_verify sch f p'' d = Ok true ->
        ms2_holds q (map ex1 (coms (xcoms p))) (map ex2 (coms (ycoms p)))].
Proof. move=> E A r1 r2 rt S R' sch t t' d P1 P2 I; exact: (ms2_shift_sound I). Qed.
Print Assumptions C81_ms2_sound.

Example C81_ms2_sound_case : exists X Y, ms2_holds ms20 X Y /\ ark_ms2_verify fwd tms2 (out_proof tp_ms2) tcrs = Ok true.
Proof.
have [p [hp [_ _]]] := C79_ms2_case; have hv := C81_ms2_shift_case.2.
have [ex1 [ex2 [_ _ h]]] := @C81_ms2_sound toy tark trepr trepr _ same_x tctr fwd 0%N 6%N tcrs (n7 1) (n7 2) tark_ok toy_bilinear fwd_valid tcrsE
  (ok_rand_g1 tctr_alike (erefl 0%N)).1 (ok_rand_g2 tctr_alike (erefl 1%N)).1 toy_nondegenerate toy_cyclic isT same_x_invisible.
exists (map ex1 (coms (xcoms p))), (map ex2 (coms (ycoms p))); split; last exact: hv.
exact: (h ms20 tms2 p tp_ms2 (out_proof tp_ms2) tms2_rel hp (out_shifted _) hv).
Qed.

Theorem C81_quad_shift : forall (F : fieldType) (A : ark F) (S : aff (C1 A) -> aff (C1 A) -> Prop) sch (f : ark_QuadEqu F) p p' d,
  invisible S -> shifted S p p' -> ark_quad_verify sch f p d = ark_quad_verify sch f p' d.
Proof. move=> F A S sch f p p' d H; exact: quad_shift. Qed.
Print Assumptions C81_quad_shift.

Example C81_quad_shift_case : ark_coms (ark_xcoms (out_proof tp_quad)) <> ark_coms (ark_xcoms tp_quad) /\
  ark_quad_verify fwd tquad (out_proof tp_quad) tcrs = Ok true.
Proof. by split; [vm_compute | rewrite -(C81_quad_shift fwd tquad tcrs same_x_invisible (out_shifted tp_quad)); vm_compute]. Qed.

(** An accepted proof need not consist of representations of group elements. *)
Theorem C81_quad_refuted : ~ (forall (E : pairing) (A : ark (Fr E)) (r1 : repr (G1 E) (C1 A)) (r2 : repr (G2 E) (C2 A)) (rt : GT E -> out A -> Prop)
  sch (q : QuadEqu E) f p crs d, implements r1 r2 rt -> canonical r1 -> canonical r2 -> bilinear E -> nondegenerate E -> valid_sched sch ->
  rquad q f -> rcrs r1 r2 rt crs d ->
  ark_quad_verify sch f p d = Ok true -> exists c, rseq (rcom r1) c (ark_coms (ark_xcoms p))).
Proof.
move=> h; have [c hc] := h toy tark trepr trepr _ fwd quad0 tquad (out_proof tp_quad) crs0 tcrs tark_ok trepr_canonical trepr_canonical toy_bilinear toy_nondegenerate fwd_valid tquad_rel tcrs_rel
  C81_quad_shift_case.2.
exact: out_unrepresented tp_quad_x hc.
Qed.
Print Assumptions C81_quad_refuted.

(** The equation holds nevertheless of the values extracted from the points without the part that the pairing does not see. *)
Theorem C81_quad_sound : forall (E : pairing) (A : ark (Fr E)) (r1 : repr (G1 E) (C1 A)) (r2 : repr (G2 E) (C2 A)) (rt : GT E -> out A -> Prop) (S : aff (C1 A) -> aff (C1 A) -> Prop)
  (R' : ark_rng A) sch (t t' : ark_rst R') d P1 P2, implements r1 r2 rt ->
  bilinear E -> valid_sched sch -> ark_generate_crs t = (d, t') ->
  rp r1 P1 (ark_rand_g1 t).1 -> rp r2 P2 (ark_rand_g2 (ark_rand_g1 t).2).1 -> nondegenerate E -> cyclic (G1 E) -> cyclic (G2 E) -> P1 != 0 -> P2 != 0 -> 
  invisible S ->
  exists (ex1 : Com1 E -> Fr E) (ex2 : Com2 E -> Fr E),
  [/\ forall (R2 : ark_rng A) X (z z' : ark_rst R2) c c', ark_batch_commit_scalar_to_B1 X d z = Ok (c', z') ->
        rseq (rcom r1) c (ark_coms c') -> map ex1 c = X,
      forall (R2 : ark_rng A) Y (z z' : ark_rst R2) c c', ark_batch_commit_scalar_to_B2 Y d z = Ok (c', z') ->
        rseq (rcom r2) c (ark_coms c') -> map ex2 c = Y
    & forall q f p p' p'', rquad q f -> rcproof r1 r2 p p' -> shifted S p' p'' -> ark_quad_verify sch f p'' d = Ok true ->
        quad_holds q (map ex1 (coms (xcoms p))) (map ex2 (coms (ycoms p)))].
Proof. move=> E A r1 r2 rt S R' sch t t' d P1 P2 I; exact: (quad_shift_sound I). Qed.
Print Assumptions C81_quad_sound.

Example C81_quad_sound_case : exists X Y, quad_holds quad0 X Y /\ ark_quad_verify fwd tquad (out_proof tp_quad) tcrs = Ok true.
Proof.
have [p [hp [_ _]]] := C79_quad_case; have hv := C81_quad_shift_case.2.
have [ex1 [ex2 [_ _ h]]] := @C81_quad_sound toy tark trepr trepr _ same_x tctr fwd 0%N 6%N tcrs (n7 1) (n7 2) tark_ok toy_bilinear fwd_valid tcrsE
  (ok_rand_g1 tctr_alike (erefl 0%N)).1 (ok_rand_g2 tctr_alike (erefl 1%N)).1 toy_nondegenerate toy_cyclic toy_cyclic isT isT same_x_invisible.
exists (map ex1 (coms (xcoms p))), (map ex2 (coms (ycoms p))); split; last exact: hv.
exact: (h quad0 tquad p tp_quad (out_proof tp_quad) tquad_rel hp (out_shifted _) hv).
Qed.
