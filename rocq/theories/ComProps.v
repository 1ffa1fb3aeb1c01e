(** Laws of the commitment groups. *)
From mathcomp Require Import all_ssreflect all_algebra.
From Verif Require Import Base BaseLemmas Group DataStructures MatLemmas CoreAlg ComLemmas Spec SpecMat SpecCom MatProps MatInst.
Set Implicit Arguments.
Unset Strict Implicit.
Unset Printing Implicit Defensive.
Import GRing.Theory.
Local Open Scope ring_scope.

Lemma com_add_fold (F : fieldType) (G : lmodType F) (s : seq (com G)) :
  foldl com_add com_zero s = \sum_(y <- s) (y : pair_zmodType G G).
Proof. exact: com_sumE. Qed.
Lemma comT_add_fold (E : pairing) (s : seq (ComT E)) :
  foldl comT_add comT_zero s
  = \sum_(y <- s) (y : pair_zmodType (pair_zmodType (GT E) (GT E)) (pair_zmodType (GT E) (GT E))).
Proof.
pose V := pair_zmodType (pair_zmodType (GT E) (GT E)) (pair_zmodType (GT E) (GT E)).
by apply: (etrans (@foldl_add V s 0)); rewrite add0r.
Qed.
Lemma k_C26_com_abelian : forall (F : fieldType) (G : lmodType F), abelian_group (com_add : com G -> com G -> com G) com_zero com_neg.
Proof.
move=> F G; pose V := pair_zmodType G G.
split; [exact: (@addrA V) | exact: (@addrC V) | exact: (@add0r V) | exact: (@addNr V)].
Qed.
Lemma k_C26_com_sub : forall (F : fieldType) (G : lmodType F) (x y : com G),
  com_sub x y = com_add x (com_neg y) /\ com_add_assign x y = com_add x y /\ com_sub_assign x y = com_sub x y.
Proof.
by [].
Qed.
Lemma k_C26_com_eq : forall (F : fieldType) (G : lmodType F) (x y : com G), com_eq x y <-> x = y.
Proof.
by move=> *; rewrite com_eqE; split=> /eqP.
Qed.
Lemma k_C26_com_is_zero : forall (F : fieldType) (G : lmodType F) (x : com G), com_is_zero x <-> x = com_zero.
Proof.
by move=> *; rewrite com_is_zeroE; split=> /eqP.
Qed.
Lemma k_C26_com_sum : forall (F : fieldType) (G : lmodType F) (s s' : seq (com G)) x,
  com_sum ([::] : seq (com G)) = com_zero /\ com_sum (x :: s) = com_add x (com_sum s) /\
  com_sum (s ++ s') = com_add (com_sum s) (com_sum s') /\
  (perm_eq s s' -> com_sum s = com_sum s').
Proof.
move=> F G s s' x; pose V := pair_zmodType G G.
have e t : com_sum t = \sum_(y <- t) (y : V) by rewrite /com_sum com_add_fold.
by rewrite !e big_nil big_cons big_cat; do !split=> //; move=> h; rewrite (perm_big s').
Qed.
Lemma k_C26_comT_abelian : forall (E : pairing), abelian_group (comT_add : ComT E -> ComT E -> ComT E) comT_zero comT_neg.
Proof.
move=> E; pose V := pair_zmodType (pair_zmodType (GT E) (GT E)) (pair_zmodType (GT E) (GT E)).
split; [exact: (@addrA V) | exact: (@addrC V) | exact: (@add0r V) | exact: (@addNr V)].
Qed.
Lemma k_C26_comT_sub : forall (E : pairing) (x y : ComT E),
  comT_sub x y = comT_add x (comT_neg y) /\ comT_add_assign x y = comT_add x y /\ comT_sub_assign x y = comT_sub x y.
Proof.
by [].
Qed.
Lemma k_C26_comT_eq : forall (E : pairing) (x y : ComT E), comT_eq x y <-> x = y.
Proof.
by move=> *; rewrite comT_eqE; split=> /eqP.
Qed.
Lemma k_C26_comT_is_zero : forall (E : pairing) (x : ComT E), comT_is_zero x <-> x = comT_zero.
Proof.
by move=> *; rewrite /comT_is_zero comT_eqE; split=> /eqP.
Qed.
Lemma k_C26_comT_sum : forall (E : pairing) (s s' : seq (ComT E)) x,
  comT_sum ([::] : seq (ComT E)) = comT_zero /\ comT_sum (x :: s) = comT_add x (comT_sum s) /\
  comT_sum (s ++ s') = comT_add (comT_sum s) (comT_sum s') /\
  (perm_eq s s' -> comT_sum s = comT_sum s').
Proof.
move=> E s s' x; pose V := pair_zmodType (pair_zmodType (GT E) (GT E)) (pair_zmodType (GT E) (GT E)).
have e t : comT_sum t = \sum_(y <- t) (y : V) by rewrite /comT_sum comT_add_fold.
by rewrite !e big_nil big_cons big_cat; do !split=> //; move=> h; rewrite (perm_big s').
Qed.
Lemma k_C27_module : forall (F : fieldType) (G : lmodType F), module_action (com_add : com G -> com G -> com G) com_scalar_mul.
Proof.
by move=> F G; split; [exact: csmDl | exact: csmDr | exact: csmA | exact: csm1].
Qed.
Lemma k_C28_additive : forall (E : pairing), bilinear E -> forall (x x' : Com1 E) (y y' : Com2 E),
  comT_pairing (com_add x x') y = comT_add (comT_pairing x y) (comT_pairing x' y) /\
  comT_pairing x (com_add y y') = comT_add (comT_pairing x y) (comT_pairing x y').
Proof.
by move=> E h x x' y y'; have [h1 h2 _ _] := comT_pairing_bilin h; split; [exact: h1 | exact: h2].
Qed.
Lemma k_C28_homogeneous : forall (E : pairing), bilinear E -> forall (x : Com1 E) (y : Com2 E) k,
  comT_pairing (com_scalar_mul x k) y = scaleT k (comT_pairing x y) /\
  comT_pairing x (com_scalar_mul y k) = scaleT k (comT_pairing x y).
Proof.
by move=> E h x y k; have [_ _ h3 h4] := comT_pairing_bilin h; split; [exact: h3 | exact: h4].
Qed.
Lemma k_C28_no_zero_divisors : forall (E : pairing), nondegenerate E -> forall (x : Com1 E) (y : Com2 E),
  comT_pairing x y = comT_zero -> x = com_zero \/ y = com_zero.
Proof.
move=> E nd [x x'] [y y'] [] /nd h1 /nd h2 /nd h3 /nd h4; rewrite /com_zero.
have [->|/eqP hx] := eqVneq x 0; last by case: h1 => // ->; case: h2 => // ->; right.
by have [->|/eqP hx] := eqVneq x' 0; [left | case: h3 => // ->; case: h4 => // ->; right].
Qed.
Lemma k_C28_nondegenerate : forall (E : pairing), nondegenerate E ->
  (forall Q : G2 E, Q <> 0 -> forall x : Com1 E, (forall y, comT_pairing x y = comT_zero) -> x = com_zero) /\
  (forall P : G1 E, P <> 0 -> forall y : Com2 E, (forall x, comT_pairing x y = comT_zero) -> y = com_zero).
Proof.
move=> E nd; split=> [Q h x hx|P h y hy].
  by case: (k_C28_no_zero_divisors nd (hx (Q, Q))) => // -[].
by case: (k_C28_no_zero_divisors nd (hy (P, P))) => // -[].
Qed.
Lemma k_C28_pairing_sum : forall (E : pairing) (xs : seq (Com1 E)) (ys : seq (Com2 E)),
  (size xs = size ys ->
   comT_pairing_sum xs ys = Ok (comT_sum [seq comT_pairing xy.1 xy.2 | xy <- zip xs ys])) /\
  (size xs <> size ys -> comT_pairing_sum xs ys = Panic AssertFailed).
Proof.
move=> E xs ys; split=> [h|/eqP h]; last by rewrite /comT_pairing_sum /assert_eq (negbTE h).
rewrite pairing_sum_Ok // /comT_sum comT_add_fold big_map (big_nth (0, 0)) size_zip h minnn.
by congr Ok; apply: eq_big_nat => k hk; rewrite nth_zip.
Qed.
Lemma k_C28_entries : forall (E : pairing) (x : Com1 E) (y : Com2 E),
  is_mat 2 2 (comT_as_matrix (comT_pairing x y)) (fun i j => pair_e (nth 0 (com_as_vec x) i) (nth 0 (com_as_vec y) j)).
Proof.
move=> E x y; split; first by split=> // -[|[|]].
by move=> -[|[|//]] [|[|//]].
Qed.
Lemma k_C28_sum_entries : forall (E : pairing) (xs : seq (Com1 E)) (ys : seq (Com2 E)) t, comT_pairing_sum xs ys = Ok t ->
  is_mat 2 2 (comT_as_matrix t)
    (fun i j => \sum_(k < size xs) pair_e (nth 0 (com_as_vec (nth 0 xs k)) i) (nth 0 (com_as_vec (nth 0 ys k)) j)).
Proof.
move=> E xs ys t; case: (size xs =P size ys) => [h|/eqP h]; last by rewrite /comT_pairing_sum /assert_eq (negbTE h).
rewrite /comT_pairing_sum assert_eqT //= => -[<-]; split=> [|i j hi hj]; first by split=> // -[|[|]].
have hm (f : Com1 E -> G1 E) (g : Com2 E -> G2 E) :
  multi_pairing [seq f x | x <- xs] [seq g y | y <- ys] = \sum_(k < size xs) pair_e (f (nth 0 xs k)) (g (nth 0 ys k)).
  rewrite multi_pairingE ?size_map // big_mkord; apply: eq_bigr => k _.
  by rewrite (nth_map 0) // (nth_map 0) // -h.
by case: i j hi hj => [|[|//]] [|[|//]] _ _; exact: hm.
Qed.
Lemma k_C29_PPE : forall (E : pairing), bilinear E -> forall (x : G1 E) (y : G2 E),
  comT_pairing (com1_linear_map x) (com2_linear_map y) = linear_map_PPE (pair_e x y).
Proof.
by move=> E /pair_bilin h x y; rewrite /comT_pairing /linear_map_PPE /= !(bil0l h) (bil0r h).
Qed.
Lemma k_C29_MSMEG1 : forall (E : pairing), bilinear E -> forall (x : G1 E) (y : Fr E) (key : CRS E),
  (let! y' := com2_scalar_linear_map y key in Ok (comT_pairing (com1_linear_map x) y'))
  = linear_map_MSMEG1 (y *: x) key.
Proof.
move=> E /comT_pairing_bilin h x y key; rewrite /linear_map_MSMEG1 /com2_scalar_linear_map.
case: (idx _ 1) => //= v; congr Ok; rewrite !com_scalar_mulE scale1r (bilZr h) -(bilZl h); congr comT_pairing.
by rewrite /com1_linear_map; congr pair; rewrite scaler0.
Qed.
Lemma k_C29_MSMEG2 : forall (E : pairing), bilinear E -> forall (x : Fr E) (y : G2 E) (key : CRS E),
  (let! x' := com1_scalar_linear_map x key in Ok (comT_pairing x' (com2_linear_map y)))
  = linear_map_MSMEG2 (x *: y) key.
Proof.
move=> E /comT_pairing_bilin h x y key; rewrite /linear_map_MSMEG2 /com1_scalar_linear_map.
case: (idx _ 1) => //= v; congr Ok; rewrite !com_scalar_mulE scale1r (bilZl h) -(bilZr h); congr comT_pairing.
by rewrite /com2_linear_map; congr pair; rewrite scaler0.
Qed.
Lemma k_C29_quad : forall (E : pairing), bilinear E -> forall (x y : Fr E) (key : CRS E),
  (let! x' := com1_scalar_linear_map x key in let! y' := com2_scalar_linear_map y key in
   Ok (comT_pairing x' y')) = linear_map_quad (x * y) key.
Proof.
move=> E /comT_pairing_bilin h x y key; rewrite /linear_map_quad /com1_scalar_linear_map /com2_scalar_linear_map.
case: (idx _ 1) => //= u; case: (idx _ 1) => //= v; congr Ok.
by rewrite !com_scalar_mulE !scale1r (bilZl h) !(bilZr h) scalerA.
Qed.
Lemma k_C29_com1_maps_linear : forall (E : pairing) (x x' : G1 E) (k l l' : Fr E) (key : CRS E),
  com1_linear_map (x + x') = com_add (com1_linear_map x) (com1_linear_map x') /\
  com1_linear_map (k *: x) = com_scalar_mul (com1_linear_map x) k /\
  com1_scalar_linear_map (l + l') key
    = (let! a := com1_scalar_linear_map l key in let! b := com1_scalar_linear_map l' key in Ok (com_add a b)) /\
  com1_scalar_linear_map (l * k) key
    = (let! a := com1_scalar_linear_map l key in Ok (com_scalar_mul a k)).
Proof.
move=> E x x' k l l' key; split; first by rewrite /com1_linear_map /com_add /= addr0.
split; first by rewrite /com1_linear_map /com_scalar_mul /= scaler0.
rewrite /com1_scalar_linear_map; case: (idx _ 1) => //= u; split; congr Ok.
  exact: csmDr.
by rewrite csmA.
Qed.
Lemma k_C29_com1_batch_maps : forall (E : pairing) (xs : seq (G1 E)) (ls : seq (Fr E)) (key : CRS E),
  (size (com1_batch_linear_map xs) = size xs /\
   forall i d c, (i < size xs)%N -> nth c (com1_batch_linear_map xs) i = com1_linear_map (nth d xs i)) /\
  (returns (com1_batch_scalar_linear_map ls key) <-> ls = [::] \/ (1 < size (crs_u key))%N) /\
  (forall cs, com1_batch_scalar_linear_map ls key = Ok cs -> size cs = size ls /\
     forall i d c, (i < size ls)%N -> com1_scalar_linear_map (nth d ls i) key = Ok (nth c cs i)).
Proof.
move=> E xs ls key; split; [|split].
- by rewrite size_com1_lin; split=> // i d c hi; rewrite (nth_map d).
- apply: (iff_trans (returnsP _)); rewrite isok_bs1map size_eq0.
  by split=> [/orP[/eqP|]|[->|->]]; rewrite ?orbT //; [left | right].
move=> cs h; split; first exact: mapM_size h.
by move=> i d c hi; exact: mapM_inv h hi.
Qed.
Lemma k_C29_com2_maps_linear : forall (E : pairing) (x x' : G2 E) (k l l' : Fr E) (key : CRS E),
  com2_linear_map (x + x') = com_add (com2_linear_map x) (com2_linear_map x') /\
  com2_linear_map (k *: x) = com_scalar_mul (com2_linear_map x) k /\
  com2_scalar_linear_map (l + l') key
    = (let! a := com2_scalar_linear_map l key in let! b := com2_scalar_linear_map l' key in Ok (com_add a b)) /\
  com2_scalar_linear_map (l * k) key
    = (let! a := com2_scalar_linear_map l key in Ok (com_scalar_mul a k)).
Proof.
move=> E x x' k l l' key; split; first by rewrite /com2_linear_map /com_add /= addr0.
split; first by rewrite /com2_linear_map /com_scalar_mul /= scaler0.
rewrite /com2_scalar_linear_map; case: (idx _ 1) => //= u; split; congr Ok.
  exact: csmDr.
by rewrite csmA.
Qed.
Lemma k_C29_com2_batch_maps : forall (E : pairing) (xs : seq (G2 E)) (ls : seq (Fr E)) (key : CRS E),
  (size (com2_batch_linear_map xs) = size xs /\
   forall i d c, (i < size xs)%N -> nth c (com2_batch_linear_map xs) i = com2_linear_map (nth d xs i)) /\
  (returns (com2_batch_scalar_linear_map ls key) <-> ls = [::] \/ (1 < size (crs_v key))%N) /\
  (forall cs, com2_batch_scalar_linear_map ls key = Ok cs -> size cs = size ls /\
     forall i d c, (i < size ls)%N -> com2_scalar_linear_map (nth d ls i) key = Ok (nth c cs i)).
Proof.
move=> E xs ls key; split; [|split].
- by rewrite size_com2_lin; split=> // i d c hi; rewrite (nth_map d).
- apply: (iff_trans (returnsP _)); rewrite isok_bs2map size_eq0.
  by split=> [/orP[/eqP|]|[->|->]]; rewrite ?orbT //; [left | right].
move=> cs h; split; first exact: mapM_size h.
by move=> i d c hi; exact: mapM_inv h hi.
Qed.
Lemma k_C29_target_maps_linear : forall (E : pairing), bilinear E -> forall (z z' : GT E) (x x' : G1 E) (y y' : G2 E) (k k' : Fr E) (key : CRS E),
  linear_map_PPE (z + z') = comT_add (linear_map_PPE z) (linear_map_PPE z') /\
  linear_map_MSMEG1 (x + x') key
    = (let! a := linear_map_MSMEG1 x key in let! b := linear_map_MSMEG1 x' key in Ok (comT_add a b)) /\
  linear_map_MSMEG2 (y + y') key
    = (let! a := linear_map_MSMEG2 y key in let! b := linear_map_MSMEG2 y' key in Ok (comT_add a b)) /\
  linear_map_quad (k + k') key
    = (let! a := linear_map_quad k key in let! b := linear_map_quad k' key in Ok (comT_add a b)).
Proof.
move=> E h z z' x x' y y' k k' key.
have h1 (a a' : Com1 E) (b : Com2 E) : comT_add (comT_pairing a b) (comT_pairing a' b) = comT_pairing (com_add a a') b.
  by rewrite (proj1 (k_C28_additive h a a' b b)).
have h2 (a : Com1 E) (b b' : Com2 E) : comT_add (comT_pairing a b) (comT_pairing a b') = comT_pairing a (com_add b b').
  by rewrite (proj2 (k_C28_additive h a a b b')).
have e1 : com1_linear_map (x + x') = com_add (com1_linear_map x) (com1_linear_map x').
  by rewrite /com1_linear_map /com_add /= addr0.
have e2 : com2_linear_map (y + y') = com_add (com2_linear_map y) (com2_linear_map y').
  by rewrite /com2_linear_map /com_add /= addr0.
split; first by rewrite /linear_map_PPE /comT_add /= !addr0.
rewrite /linear_map_MSMEG1 /linear_map_MSMEG2 /linear_map_quad /com1_scalar_linear_map /com2_scalar_linear_map e1 e2.
case: (idx (crs_u key) 1) => [u|e]; case: (idx (crs_v key) 1) => [v|e']; cbn [bind];
  split; try split; try reflexivity; rewrite ?h1 ?h2 //.
by congr (Ok (comT_pairing _ _)); exact: csmDr.
Qed.
