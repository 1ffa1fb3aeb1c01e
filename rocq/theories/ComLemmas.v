(** Com1, Com2 and ComT as modules, and their pairing. *)
From mathcomp Require Import all_ssreflect all_algebra.
From Verif Require Import Base BaseLemmas Group DataStructures MatLemmas CoreAlg.
Set Implicit Arguments.
Unset Strict Implicit.
Unset Printing Implicit Defensive.
Import GRing.Theory.
Local Open Scope ring_scope.

Section Com.
Context {F : fieldType} {G : lmodType F}.
Implicit Types x y : com G.

Lemma com_addE x y : com_add x y = x + y. Proof. by []. Qed.
Lemma com_add_assignE x y : com_add_assign x y = x + y. Proof. by []. Qed.
Lemma com_negE x : com_neg x = - x. Proof. by []. Qed.
Lemma com_subE x y : com_sub x y = x - y. Proof. by []. Qed.
Lemma com_sub_assignE x y : com_sub_assign x y = x - y. Proof. by []. Qed.
Lemma com_zeroE : com_zero = 0 :> com G. Proof. by []. Qed.
Lemma com_scalar_mulE x k : com_scalar_mul x k = k *: x. Proof. by []. Qed.
Lemma com_eqE x y : com_eq x y = (x == y). Proof. by case: x y => [? ?] [? ?]. Qed.
Lemma com_is_zeroE x : com_is_zero x = (x == 0). Proof. exact: com_eqE. Qed.
Lemma com_sumE (s : seq (com G)) : com_sum s = \sum_(x <- s) x.
Proof. by rewrite -[RHS]add0r; exact: foldl_add. Qed.

Lemma com_tsum (f : nat -> com G) n : tsum com_zero com_add f n = \sum_(0 <= k < n) f k.
Proof. exact: tsum_big. Qed.
End Com.

Section Pairs.
Context {F : fieldType} {V W : lmodType F}.
Lemma sum_fst I (r : seq I) (f : I -> V * W) : (\sum_(i <- r) f i).1 = \sum_(i <- r) (f i).1.
Proof. by apply: (big_morph (fun x => x.1)). Qed.
Lemma sum_snd I (r : seq I) (f : I -> V * W) : (\sum_(i <- r) f i).2 = \sum_(i <- r) (f i).2.
Proof. by apply: (big_morph (fun x => x.2)). Qed.
End Pairs.

Section ComT.
Context {E : pairing}.
Implicit Types (p q : ComT E) (key : CRS E).

Lemma comT_eqE p q : comT_eq p q = (p == q).
Proof.
by case: p q => [[? ?] [? ?]] [[? ?] [? ?]]; rewrite /comT_eq /t0 /t1 /t2 /t3 /= !xpair_eqE -!andbA.
Qed.
Lemma comT_ext p q : p.1.1 = q.1.1 -> p.1.2 = q.1.2 -> p.2.1 = q.2.1 -> p.2.2 = q.2.2 -> p = q.
Proof. by case: p q => [[? ?] [? ?]] [[? ?] [? ?]] /= -> -> -> ->. Qed.
Lemma comT_addE p q : comT_add p q = p + q. Proof. by []. Qed.
Lemma comT_zeroE : comT_zero = 0 :> ComT E. Proof. by []. Qed.
Lemma comT_negE p : comT_neg p = - p. Proof. by []. Qed.
Lemma comT_subE p q : comT_sub p q = p - q. Proof. by []. Qed.

Lemma multi_pairingE (xs : seq (G1 E)) (ys : seq (G2 E)) : size xs = size ys ->
  multi_pairing xs ys = \sum_(0 <= k < size xs) pair_e (nth 0 xs k) (nth 0 ys k).
Proof.
move=> hs; rewrite /multi_pairing -[RHS]add0r.
have gen z : foldl (fun acc xy => acc + pair_e xy.1 xy.2) z (zip xs ys)
  = z + \sum_(0 <= k < size xs) pair_e (nth 0 xs k) (nth 0 ys k).
  elim: xs ys hs z => [|x xs IH] [|y ys] //= hs z; first by rewrite big_geq // addr0.
  by case: hs => /IH ->; rewrite big_nat_recl // addrA.
exact: gen.
Qed.

Lemma pairing_sum_Ok (xs : seq (Com1 E)) (ys : seq (Com2 E)) : size xs = size ys ->
  comT_pairing_sum xs ys
  = Ok (\sum_(0 <= k < size xs) (comT_pairing (nth 0 xs k) (nth 0 ys k) : ComT E)).
Proof.
move=> hs; rewrite /comT_pairing_sum assert_eqT //=; congr Ok.
rewrite !multi_pairingE ?size_map // /mkComT.
by apply: comT_ext; rewrite /= !(sum_fst, sum_snd); apply: eq_big_nat => k /andP[_ hk];
   rewrite (nth_map 0) // (nth_map 0) // -hs.
Qed.

Lemma isok_pairing_sum (xs : seq (Com1 E)) (ys : seq (Com2 E)) :
  isok (comT_pairing_sum xs ys) = (size xs == size ys).
Proof. by rewrite /comT_pairing_sum isok_bind -isok_assert_eq; case: (assert_eq _ _). Qed.

Lemma comT_pairing_bilin : bilinear E ->
  bilin (comT_pairing : Com1 E -> Com2 E -> ComT E).
Proof.
case=> h1 h2 h3 h4; split.
- by move=> x x' y; rewrite /comT_pairing /= !h1.
- by move=> x y y'; rewrite /comT_pairing /= !h2.
- by move=> k x y; rewrite /comT_pairing /= !h3.
- by move=> k x y; rewrite /comT_pairing /= !h4.
Qed.

Lemma pair_bilin : bilinear E -> bilin (@pair_e E).
Proof. by case. Qed.

Lemma size_com1_lin (xs : seq (G1 E)) : size (com1_batch_linear_map xs) = size xs.
Proof. exact: size_map. Qed.
Lemma size_com2_lin (xs : seq (G2 E)) : size (com2_batch_linear_map xs) = size xs.
Proof. exact: size_map. Qed.

(** The scalar maps, when the key has a second element. *)
Definition s1map (key : CRS E) (x : Fr E) : Com1 E :=
  x *: (nth 0 (crs_u key) 1 + com1_linear_map (g1_gen key)).
Definition s2map (key : CRS E) (y : Fr E) : Com2 E :=
  y *: (nth 0 (crs_v key) 1 + com2_linear_map (g2_gen key)).

Lemma s1map_Ok key x : (1 < size (crs_u key))%N -> com1_scalar_linear_map x key = Ok (s1map key x).
Proof. by move=> h; rewrite /com1_scalar_linear_map (idx_nth 0 h). Qed.
Lemma s2map_Ok key x : (1 < size (crs_v key))%N -> com2_scalar_linear_map x key = Ok (s2map key x).
Proof. by move=> h; rewrite /com2_scalar_linear_map (idx_nth 0 h). Qed.

Lemma bs1map_Ok key xs : (1 < size (crs_u key))%N ->
  com1_batch_scalar_linear_map xs key = Ok [seq s1map key x | x <- xs].
Proof. by move=> h; apply: mapM_Ok => i hi d; rewrite s1map_Ok. Qed.
Lemma bs2map_Ok key xs : (1 < size (crs_v key))%N ->
  com2_batch_scalar_linear_map xs key = Ok [seq s2map key x | x <- xs].
Proof. by move=> h; apply: mapM_Ok => i hi d; rewrite s2map_Ok. Qed.

Lemma isok_s1map key x : isok (com1_scalar_linear_map x key) = (1 < size (crs_u key))%N.
Proof. by rewrite -isok_idx /com1_scalar_linear_map; case: (idx _ 1). Qed.
Lemma isok_s2map key x : isok (com2_scalar_linear_map x key) = (1 < size (crs_v key))%N.
Proof. by rewrite -isok_idx /com2_scalar_linear_map; case: (idx _ 1). Qed.

Lemma isok_bs1map key xs : isok (com1_batch_scalar_linear_map xs key)
  = (size xs == 0%N) || (1 < size (crs_u key))%N.
Proof.
rewrite /com1_batch_scalar_linear_map isok_mapM.
under eq_all do rewrite isok_s1map.
by case: xs => //= x xs; case: (1 < _)%N => //; rewrite all_predT.
Qed.
Lemma isok_bs2map key xs : isok (com2_batch_scalar_linear_map xs key)
  = (size xs == 0%N) || (1 < size (crs_v key))%N.
Proof.
rewrite /com2_batch_scalar_linear_map isok_mapM.
under eq_all do rewrite isok_s2map.
by case: xs => //= x xs; case: (1 < _)%N => //; rewrite all_predT.
Qed.
End ComT.
