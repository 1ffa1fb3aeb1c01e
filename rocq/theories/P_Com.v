(** Properties C26-C29: the commitment groups, the pairing of commitments, the linear maps. *)
From mathcomp Require Import all_ssreflect all_algebra.
From Verif Require Import Base BaseLemmas Group DataStructures Spec SpecMat SpecCom Concrete MatLemmas MatInst ComProps.
Set Implicit Arguments.
Unset Strict Implicit.
Unset Printing Implicit Defensive.
Import GRing.Theory.
Local Open Scope ring_scope.

(** C26: Com1, Com2 ([com] at G1, G2) and ComT. *)
Theorem C26_com_abelian : forall (F : fieldType) (G : lmodType F), abelian_group (com_add : com G -> com G -> com G) com_zero com_neg.
Proof. exact: @k_C26_com_abelian. Qed.
Print Assumptions C26_com_abelian.

Theorem C26_com_sub : forall (F : fieldType) (G : lmodType F) (x y : com G),
  com_sub x y = com_add x (com_neg y) /\ com_add_assign x y = com_add x y /\ com_sub_assign x y = com_sub x y.
Proof. exact: @k_C26_com_sub. Qed.
Print Assumptions C26_com_sub.

Theorem C26_com_eq : forall (F : fieldType) (G : lmodType F) (x y : com G), com_eq x y <-> x = y.
Proof. exact: @k_C26_com_eq. Qed.
Print Assumptions C26_com_eq.

Theorem C26_com_is_zero : forall (F : fieldType) (G : lmodType F) (x : com G), com_is_zero x <-> x = com_zero.
Proof. exact: @k_C26_com_is_zero. Qed.
Print Assumptions C26_com_is_zero.

Theorem C26_com_sum : forall (F : fieldType) (G : lmodType F) (s s' : seq (com G)) x,
  com_sum ([::] : seq (com G)) = com_zero /\ com_sum (x :: s) = com_add x (com_sum s) /\
  com_sum (s ++ s') = com_add (com_sum s) (com_sum s') /\
  (perm_eq s s' -> com_sum s = com_sum s').
Proof. exact: @k_C26_com_sum. Qed.
Print Assumptions C26_com_sum.

Theorem C26_comT_abelian : forall (E : pairing), abelian_group (comT_add : ComT E -> ComT E -> ComT E) comT_zero comT_neg.
Proof. exact: @k_C26_comT_abelian. Qed.
Print Assumptions C26_comT_abelian.

Theorem C26_comT_sub : forall (E : pairing) (x y : ComT E),
  comT_sub x y = comT_add x (comT_neg y) /\ comT_add_assign x y = comT_add x y /\ comT_sub_assign x y = comT_sub x y.
Proof. exact: @k_C26_comT_sub. Qed.
Print Assumptions C26_comT_sub.

Theorem C26_comT_eq : forall (E : pairing) (x y : ComT E), comT_eq x y <-> x = y.
Proof. exact: @k_C26_comT_eq. Qed.
Print Assumptions C26_comT_eq.

Theorem C26_comT_is_zero : forall (E : pairing) (x : ComT E), comT_is_zero x <-> x = comT_zero.
Proof. exact: @k_C26_comT_is_zero. Qed.
Print Assumptions C26_comT_is_zero.

Theorem C26_comT_sum : forall (E : pairing) (s s' : seq (ComT E)) x,
  comT_sum ([::] : seq (ComT E)) = comT_zero /\ comT_sum (x :: s) = comT_add x (comT_sum s) /\
  comT_sum (s ++ s') = comT_add (comT_sum s) (comT_sum s') /\
  (perm_eq s s' -> comT_sum s = comT_sum s').
Proof. exact: @k_C26_comT_sum. Qed.
Print Assumptions C26_comT_sum.

Example C26_case : com_add (G := F7o) (n7 5, n7 3) (n7 4, n7 6) = (n7 2, n7 2) /\
  com_sub_assign (G := F7o) (n7 5, n7 3) (n7 4, n7 6) = (n7 1, n7 4) /\
  com_is_zero (G := F7o) (n7 7, n7 0) /\ ~~ com_is_zero (G := F7o) (n7 0, n7 1) /\
  com_sum (G := F7o) [:: (n7 1, n7 2); (n7 3, n7 4); (n7 5, n7 6)] = (n7 2, n7 5).
Proof. by do !split; apply/eqP; vm_compute. Qed.

(** C27. *)
Theorem C27_module : forall (F : fieldType) (G : lmodType F), module_action (com_add : com G -> com G -> com G) com_scalar_mul.
Proof. exact: @k_C27_module. Qed.
Print Assumptions C27_module.

Example C27_case : com_scalar_mul (G := F7o) (n7 5, n7 3) (n7 3) = (n7 1, n7 2).
Proof. by apply/eqP; vm_compute. Qed.

(** C28. *)
Theorem C28_additive : forall (E : pairing), bilinear E -> forall (x x' : Com1 E) (y y' : Com2 E),
  comT_pairing (com_add x x') y = comT_add (comT_pairing x y) (comT_pairing x' y) /\
  comT_pairing x (com_add y y') = comT_add (comT_pairing x y) (comT_pairing x y').
Proof. exact: @k_C28_additive. Qed.
Print Assumptions C28_additive.

Example C28_additive_case := @C28_additive toy toy_bilinear (n7 3, n7 4) (n7 5, n7 1) (n7 2, n7 6) (n7 1, n7 1).

Theorem C28_homogeneous : forall (E : pairing), bilinear E -> forall (x : Com1 E) (y : Com2 E) k,
  comT_pairing (com_scalar_mul x k) y = scaleT k (comT_pairing x y) /\
  comT_pairing x (com_scalar_mul y k) = scaleT k (comT_pairing x y).
Proof. exact: @k_C28_homogeneous. Qed.
Print Assumptions C28_homogeneous.

Example C28_homogeneous_case := @C28_homogeneous toy toy_bilinear (n7 3, n7 4) (n7 2, n7 6) (n7 4).

Theorem C28_no_zero_divisors : forall (E : pairing), nondegenerate E -> forall (x : Com1 E) (y : Com2 E),
  comT_pairing x y = comT_zero -> x = com_zero \/ y = com_zero.
Proof. exact: @k_C28_no_zero_divisors. Qed.
Print Assumptions C28_no_zero_divisors.

Example C28_no_zero_divisors_case : ((n7 3, n7 4) : Com1 toy) = com_zero \/ ((n7 0, n7 0) : Com2 toy) = com_zero.
Proof.
apply: (@C28_no_zero_divisors toy toy_nondegenerate); rewrite /comT_pairing /comT_zero /=; congr (mkComT _ _ _ _); exact: (@mulr0 F7).
Qed.

Theorem C28_nondegenerate : forall (E : pairing), nondegenerate E ->
  (forall Q : G2 E, Q <> 0 -> forall x : Com1 E, (forall y, comT_pairing x y = comT_zero) -> x = com_zero) /\
  (forall P : G1 E, P <> 0 -> forall y : Com2 E, (forall x, comT_pairing x y = comT_zero) -> y = com_zero).
Proof. exact: @k_C28_nondegenerate. Qed.
Print Assumptions C28_nondegenerate.

Example C28_nondegenerate_case := @C28_nondegenerate toy toy_nondegenerate.

Theorem C28_pairing_sum : forall (E : pairing) (xs : seq (Com1 E)) (ys : seq (Com2 E)),
  (size xs = size ys ->
   comT_pairing_sum xs ys = Ok (comT_sum [seq comT_pairing xy.1 xy.2 | xy <- zip xs ys])) /\
  (size xs <> size ys -> comT_pairing_sum xs ys = Panic AssertFailed).
Proof. exact: @k_C28_pairing_sum. Qed.
Print Assumptions C28_pairing_sum.

(** C28: entry (i, j) is the pairing of component i of the first with component j of the second. *)
Theorem C28_entries : forall (E : pairing) (x : Com1 E) (y : Com2 E),
  is_mat 2 2 (comT_as_matrix (comT_pairing x y)) (fun i j => pair_e (nth 0 (com_as_vec x) i) (nth 0 (com_as_vec y) j)).
Proof. exact: @k_C28_entries. Qed.
Print Assumptions C28_entries.

Example C28_entries_case := @C28_entries toy (n7 1, n7 2) (n7 3, n7 4).

Theorem C28_sum_entries : forall (E : pairing) (xs : seq (Com1 E)) (ys : seq (Com2 E)) t, comT_pairing_sum xs ys = Ok t ->
  is_mat 2 2 (comT_as_matrix t)
    (fun i j => \sum_(k < size xs) pair_e (nth 0 (com_as_vec (nth 0 xs k)) i) (nth 0 (com_as_vec (nth 0 ys k)) j)).
Proof. exact: @k_C28_sum_entries. Qed.
Print Assumptions C28_sum_entries.

Example C28_sum_entries_case := @C28_sum_entries toy [:: (n7 1, n7 2); (n7 0, n7 1)] [:: (n7 3, n7 4); (n7 5, n7 5)] _ erefl.

(** The toy pairing meets the hypotheses. *)
Example C28_case : bilinear toy /\ nondegenerate toy /\ (n7 1 : G2 toy) <> 0 /\
  comT_pairing (E := toy) (n7 1, n7 2) (n7 3, n7 4) = mkComT (E := toy) (n7 3) (n7 4) (n7 6) (n7 1) /\
  comT_pairing_sum (E := toy) [:: (n7 1, n7 2); (n7 0, n7 1)] [:: (n7 3, n7 4); (n7 5, n7 5)]
  = Ok (mkComT (E := toy) (n7 3) (n7 4) (n7 4) (n7 6)).
Proof.
split; first exact: toy_bilinear.
split; first exact: toy_nondegenerate.
split; first by apply/eqP.
by split; [apply/eqP; vm_compute | ok_eq].
Qed.

(** C29. *)
Theorem C29_PPE : forall (E : pairing), bilinear E -> forall (x : G1 E) (y : G2 E),
  comT_pairing (com1_linear_map x) (com2_linear_map y) = linear_map_PPE (pair_e x y).
Proof. exact: @k_C29_PPE. Qed.
Print Assumptions C29_PPE.

Example C29_PPE_case := @C29_PPE toy toy_bilinear (n7 3) (n7 5).

Theorem C29_MSMEG1 : forall (E : pairing), bilinear E -> forall (x : G1 E) (y : Fr E) (key : CRS E),
  (let! y' := com2_scalar_linear_map y key in Ok (comT_pairing (com1_linear_map x) y'))
  = linear_map_MSMEG1 (y *: x) key.
Proof. exact: @k_C29_MSMEG1. Qed.
Print Assumptions C29_MSMEG1.

Example C29_MSMEG1_case := @C29_MSMEG1 toy toy_bilinear (n7 3) (n7 6) crs0.

Theorem C29_MSMEG2 : forall (E : pairing), bilinear E -> forall (x : Fr E) (y : G2 E) (key : CRS E),
  (let! x' := com1_scalar_linear_map x key in Ok (comT_pairing x' (com2_linear_map y)))
  = linear_map_MSMEG2 (x *: y) key.
Proof. exact: @k_C29_MSMEG2. Qed.
Print Assumptions C29_MSMEG2.

Example C29_MSMEG2_case := @C29_MSMEG2 toy toy_bilinear (n7 2) (n7 5) crs0.

Theorem C29_quad : forall (E : pairing), bilinear E -> forall (x y : Fr E) (key : CRS E),
  (let! x' := com1_scalar_linear_map x key in let! y' := com2_scalar_linear_map y key in
   Ok (comT_pairing x' y')) = linear_map_quad (x * y) key.
Proof. exact: @k_C29_quad. Qed.
Print Assumptions C29_quad.

Example C29_quad_case := @C29_quad toy toy_bilinear (n7 2) (n7 6) crs0.

Theorem C29_com1_maps_linear : forall (E : pairing) (x x' : G1 E) (k l l' : Fr E) (key : CRS E),
  com1_linear_map (x + x') = com_add (com1_linear_map x) (com1_linear_map x') /\
  com1_linear_map (k *: x) = com_scalar_mul (com1_linear_map x) k /\
  com1_scalar_linear_map (l + l') key
    = (let! a := com1_scalar_linear_map l key in let! b := com1_scalar_linear_map l' key in Ok (com_add a b)) /\
  com1_scalar_linear_map (l * k) key
    = (let! a := com1_scalar_linear_map l key in Ok (com_scalar_mul a k)).
Proof. exact: @k_C29_com1_maps_linear. Qed.
Print Assumptions C29_com1_maps_linear.

Theorem C29_com1_batch_maps : forall (E : pairing) (xs : seq (G1 E)) (ls : seq (Fr E)) (key : CRS E),
  (size (com1_batch_linear_map xs) = size xs /\
   forall i d c, (i < size xs)%N -> nth c (com1_batch_linear_map xs) i = com1_linear_map (nth d xs i)) /\
  (returns (com1_batch_scalar_linear_map ls key) <-> ls = [::] \/ (1 < size (crs_u key))%N) /\
  (forall cs, com1_batch_scalar_linear_map ls key = Ok cs -> size cs = size ls /\
     forall i d c, (i < size ls)%N -> com1_scalar_linear_map (nth d ls i) key = Ok (nth c cs i)).
Proof. exact: @k_C29_com1_batch_maps. Qed.
Print Assumptions C29_com1_batch_maps.

Theorem C29_com2_maps_linear : forall (E : pairing) (x x' : G2 E) (k l l' : Fr E) (key : CRS E),
  com2_linear_map (x + x') = com_add (com2_linear_map x) (com2_linear_map x') /\
  com2_linear_map (k *: x) = com_scalar_mul (com2_linear_map x) k /\
  com2_scalar_linear_map (l + l') key
    = (let! a := com2_scalar_linear_map l key in let! b := com2_scalar_linear_map l' key in Ok (com_add a b)) /\
  com2_scalar_linear_map (l * k) key
    = (let! a := com2_scalar_linear_map l key in Ok (com_scalar_mul a k)).
Proof. exact: @k_C29_com2_maps_linear. Qed.
Print Assumptions C29_com2_maps_linear.

Theorem C29_com2_batch_maps : forall (E : pairing) (xs : seq (G2 E)) (ls : seq (Fr E)) (key : CRS E),
  (size (com2_batch_linear_map xs) = size xs /\
   forall i d c, (i < size xs)%N -> nth c (com2_batch_linear_map xs) i = com2_linear_map (nth d xs i)) /\
  (returns (com2_batch_scalar_linear_map ls key) <-> ls = [::] \/ (1 < size (crs_v key))%N) /\
  (forall cs, com2_batch_scalar_linear_map ls key = Ok cs -> size cs = size ls /\
     forall i d c, (i < size ls)%N -> com2_scalar_linear_map (nth d ls i) key = Ok (nth c cs i)).
Proof. exact: @k_C29_com2_batch_maps. Qed.
Print Assumptions C29_com2_batch_maps.

Theorem C29_target_maps_linear : forall (E : pairing), bilinear E -> forall (z z' : GT E) (x x' : G1 E) (y y' : G2 E) (k k' : Fr E) (key : CRS E),
  linear_map_PPE (z + z') = comT_add (linear_map_PPE z) (linear_map_PPE z') /\
  linear_map_MSMEG1 (x + x') key
    = (let! a := linear_map_MSMEG1 x key in let! b := linear_map_MSMEG1 x' key in Ok (comT_add a b)) /\
  linear_map_MSMEG2 (y + y') key
    = (let! a := linear_map_MSMEG2 y key in let! b := linear_map_MSMEG2 y' key in Ok (comT_add a b)) /\
  linear_map_quad (k + k') key
    = (let! a := linear_map_quad k key in let! b := linear_map_quad k' key in Ok (comT_add a b)).
Proof. exact: @k_C29_target_maps_linear. Qed.
Print Assumptions C29_target_maps_linear.

Example C29_case : bilinear toy /\ size (crs_u crs0) = 2%N /\
  com1_scalar_linear_map (E := toy) (n7 3) crs0 = Ok (n7 5, n7 6) /\
  linear_map_MSMEG1 (E := toy) (n7 3) crs0 = Ok (mkComT (E := toy) 0 0 (n7 2) (n7 5)) /\
  linear_map_quad (E := toy) (n7 5) (mkCRS (E := toy) [:: (n7 1, n7 2)] [::] (n7 1) (n7 2) (n7 2)) = Panic IndexOutOfBounds.
Proof. by split; [exact: toy_bilinear | do !split; ok_eq]. Qed.

