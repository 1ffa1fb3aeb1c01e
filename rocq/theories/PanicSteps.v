(** The first failing check of the commitment functions, of the maps into the
    commitment groups and of the products used by the prover and the verifier. *)
From mathcomp Require Import all_ssreflect all_algebra.
From Verif Require Import Base BaseLemmas Group DataStructures MatLemmas ProveLemmas Commit CommitLemmas Statement Prove Verify SpecPanic PanicLemmas.
Set Implicit Arguments.
Unset Strict Implicit.
Unset Printing Implicit Defensive.
Import GRing.Theory.

(** Lists of steps, one after the other. *)
Lemma step_mapM A B (f : A -> res B) s b (P : B -> Prop) :
  (forall x, step (f x) [:: reads b] P) ->
  step (mapM f s) [:: reads (nilp s || b)] (fun t => size t = size s).
Proof.
move=> h; apply: idx_only_step.
- apply: idx_only_mapM => x; case: (h x) => /=; case: (f x) => //= p; case: b {h} => // -[->] _ //.
- rewrite isok_mapM; elim: s => //= x s ->; case: (h x) => /= + _; case: (f x) => /= [_|p].
    by case: b {h} => // _; rewrite orbT.
  by case: b {h}.
by move=> t /mapM_size.
Qed.

Lemma size_filterE T (p : pred T) s : size (filter p s) = count p s.
Proof. by rewrite size_filter. Qed.

Lemma width_rect T m n (M : matrix T) : rect m n M -> (0 < m)%N -> width M = n.
Proof. by move=> h h0; rewrite widthE; exact: rect_ncols h h0. Qed.

Lemma wide_rect T m n k (M : matrix T) : rect m n M -> (k <= n)%N -> wide k M.
Proof.
move=> h hk; apply/(all_nthP [::]) => i hi; rewrite (rect_row h) //.
by rewrite -(rect_size h).
Qed.

Lemma narrow_rect T m n k (M : matrix T) : rect m n M -> (n <= k)%N -> narrow k M.
Proof.
move=> h hk; apply/(all_nthP [::]) => i hi; rewrite (rect_row h) //.
by rewrite -(rect_size h).
Qed.

Lemma void_rect T m n (M : matrix T) : rect m n M -> (0 < m)%N -> (0 < n)%N -> void M = false.
Proof.
move=> h h1 h2; rewrite /void (rect_size h) (width_rect h) // !eqn0Ngt.
by rewrite h1 h2.
Qed.

Lemma rect_of T (n : nat) (M : matrix T) : wide n M -> narrow n M -> rect (size M) n M.
Proof. exact: rows_eq. Qed.

Lemma void_col T (w : seq T) : void (vec_to_col_vec w) = nilp w.
Proof. by case: w. Qed.

Lemma wide_col T (w : seq T) : wide 1 (vec_to_col_vec w).
Proof. by elim: w. Qed.

Lemma width_col T (w : seq T) : width (vec_to_col_vec w) = ~~ nilp w.
Proof. by case: w. Qed.

Section Com.
Context {F : fieldType} {G : lmodType F}.
Implicit Types (w : seq (com G)) (L : matrix F) (M : matrix (com G)).

(** A column of commitments times a matrix. *)
Lemma step_col ord w L par : (forall r c, perm_eq (ord r c) (tasks r c)) ->
  step (cmat_left_mul ord (vec_to_col_vec w) L par)
    [:: asserts (nilp w || void L || (width L == size w)); reads (nilp w || void L || wide (size w) L)]
    (fun M => if nilp w || void L then M = [::] else rect (size L) 1 M).
Proof.
move=> vo; have := step_left_mul (0%R : com G) (0%R : F) com_zero com_add com_scalar_mul (vec_to_col_vec w) L par vo.
rewrite /left_mul_checks void_col width_col size_vec_to_col_vec.
case: (boolP (nilp w || void L)) => [/= _ h|/= hn h].
  exact: step_as h _.
move: hn h; rewrite negb_or => /andP[-> _]; rewrite wide_col andbT => h; exact: h.
Qed.

(** [[[x]].left_mul(L)]. *)
Lemma step_one ord (x : com G) L par : (forall r c, perm_eq (ord r c) (tasks r c)) ->
  step (cmat_left_mul ord [:: [:: x]] L par)
    [:: asserts (void L || (width L == 1)); reads (void L || wide 1 L)]
    (fun M => if void L then M = [::] else rect (size L) 1 M).
Proof. by move=> vo; exact: (step_col [:: x] L par vo). Qed.

Lemma step_cadd M M' : step (cmat_add M M') (add_checks M M') (rect (size M) (width M)).
Proof. exact: (@step_mat_add _ (0%R : com G)). Qed.

Lemma step_fadd (A B : matrix F) : step (fmat_add A B) (add_checks A B) (rect (size A) (width A)).
Proof. rewrite fmat_addE; exact: (@step_mat_add _ (0%R : F)). Qed.

Lemma step_fneg (A : matrix F) : step (fmat_neg A) [::] (fun M : matrix F => M = [seq [seq (- x)%R | x <- r] | r <- A]).
Proof. rewrite fmat_negE; exact: (@step_mat_neg _ (0%R : F)). Qed.

Lemma step_ftrans (A : matrix F) : step (fmat_transpose A) (transpose_checks A)
  (fun M : matrix F => M = mkseq (fun i => [seq nth 0%R r i | r <- A & (i < size r)%N]) (width A)).
Proof. rewrite fmat_transposeE; exact: step_transpose. Qed.

Lemma step_fright ord (A L : matrix F) par : (forall r c, perm_eq (ord r c) (tasks r c)) ->
  step (fmat_right_mul ord A L par) (right_mul_checks A L)
    (fun M : matrix F => if void A || void L then M = [::] else rect (size A) (width L) M).
Proof. move=> vo; rewrite fmat_right_mulE; exact: (@step_right_mul _ _ (0%R : F) (0%R : F)). Qed.

Lemma step_fleft ord (A L : matrix F) par : (forall r c, perm_eq (ord r c) (tasks r c)) ->
  step (fmat_left_mul ord A L par) (left_mul_checks A L)
    (fun M : matrix F => if void A || void L then M = [::] else rect (size L) (width A) M).
Proof. move=> vo; rewrite fmat_left_mulE; exact: (@step_left_mul _ _ (0%R : F) (0%R : F)). Qed.

Lemma step_key_at w i : step (key_at w i) [:: reads (i < size w)%N] (fun x => x = nth 0%R w i).
Proof. rewrite idx_key_at; exact: step_idx. Qed.

Lemma step_com_from (M : matrix G) : step (com_from M) (from_checks 1 M) (fun _ => True).
Proof.
split=> //; case: M => [|r0 [|r1 [|r2 M]]] //; rewrite /com_from /from_checks /=.
case: r0 => [|x0 [|x1 r0]] //; by case: r1 => [|y0 [|y1 r1]].
Qed.

Lemma step_append (c c' : commit G) : step (commit_append c c') (append_checks c c') (fun _ => True).
Proof.
split=> //; rewrite /commit_append /commit_append_mut /append_checks /assert_eq /=.
by case: eqP => //= _; case: eqP.
Qed.

(** Committing to a list, with a matrix of randomness of [2] columns. *)
Lemma step_gcommit lin w (rr : matrix F) m :
  size lin = m -> rect m 2 rr ->
  step (let! ru := cmat_left_mul no_ord (vec_to_col_vec w) rr false in
        let! cs := cmat_add (vec_to_col_vec lin) ru in col_vec_to_vec cs)
    (batch_checks (size w) m) (fun cv => size cv = m).
Proof.
move=> hl hr; have sr := rect_size hr.
apply: (@step_as _ _ ([:: asserts (nilp w || void rr || (width rr == size w)); reads (nilp w || void rr || wide (size w) rr)] ++
   [:: asserts (m == if nilp w || void rr then 0 else m); reads (0 < m)]%N ++ [::])).
  rewrite lm_any; apply: step_seq (step_col w rr false tasks_perm) _ => /and3P[h1 h2 _] ru hru.
  apply: step_seq.
    apply: step_as (step_cadd _ _) _; rewrite /add_checks size_vec_to_col_vec hl width_col.
    move: hru; case: ifP => [hz ->|hz hru].
      by rewrite /=; case: eqP => // hm0; case: posnP => //; rewrite hm0.
    rewrite (rect_size hru) sr /= eqxx; case: posnP => // h0.
    rewrite (width_rect hru) ?sr //.
    have hn : nilp lin = false by rewrite /nilp hl eqn0Ngt h0.
    by rewrite hn /= wide_col (wide_rect hru).
  case/and3P=> _ /= h0 _ M hM; rewrite size_vec_to_col_vec hl in hM.
  have hn : nilp lin = false by rewrite /nilp hl eqn0Ngt h0.
  rewrite width_col hn /= in hM; apply: step_as; first apply: step_weak (step_flatten M) _.
    move=> v ->; rewrite (rect_size hM) (width_rect hM) //; by case: eqP.
  by rewrite /flatten_checks; case: ifP => //= _; rewrite (wide_rect hM).
rewrite /batch_checks /=; have -> : void rr = (m == 0)%N.
  case: (posnP m) => [m0|m0]; last by rewrite (void_rect hr).
  by rewrite /void sr m0.
case: (posnP m) => [->|m0] /=; first by rewrite !orbT.
rewrite (width_rect hr) // orbF.
have hw : wide 2 rr := wide_rect hr (leqnn 2).
case: w => [|x [|y [|z w]]] //=; first by rewrite (gtn_eqF m0).
by rewrite hw eqxx.
Qed.
End Com.

Section Maps.
Context {E : pairing}.
Implicit Types (crs : CRS E).

Lemma step_comT_from (M : matrix (GT E)) : step (comT_from M) (from_checks 2 M) (fun _ => True).
Proof.
split=> //; case: M => [|r0 [|r1 [|r2 M]]] //; rewrite /comT_from /from_checks /=.
case: r0 => [|x0 [|x1 [|x2 r0]]] //; by case: r1 => [|y0 [|y1 [|y2 r1]]].
Qed.

Lemma step_pairing_sum (x : seq (Com1 E)) (y : seq (Com2 E)) :
  step (comT_pairing_sum x y) [:: asserts (size x == size y)] (fun _ => True).
Proof. by split=> //; rewrite /comT_pairing_sum /assert_eq /=; case: eqP. Qed.

Lemma step_slm1 (x : Fr E) crs : step (com1_scalar_linear_map x crs) [:: reads (1 < size (crs_u crs))%N] (fun _ => True).
Proof.
split=> //; rewrite /com1_scalar_linear_map; case: (crs_u crs) => [|u0 [|u1 u]] //.
Qed.

Lemma step_slm2 (x : Fr E) crs : step (com2_scalar_linear_map x crs) [:: reads (1 < size (crs_v crs))%N] (fun _ => True).
Proof.
split=> //; rewrite /com2_scalar_linear_map; case: (crs_v crs) => [|u0 [|u1 u]] //.
Qed.

Lemma step_bslm1 (x : seq (Fr E)) crs :
  step (com1_batch_scalar_linear_map x crs) [:: reads (nilp x || (1 < size (crs_u crs)))%N] (fun l => size l = size x).
Proof. by apply: step_mapM => y; exact: step_slm1. Qed.

Lemma step_bslm2 (x : seq (Fr E)) crs :
  step (com2_batch_scalar_linear_map x crs) [:: reads (nilp x || (1 < size (crs_v crs)))%N] (fun l => size l = size x).
Proof. by apply: step_mapM => y; exact: step_slm2. Qed.

Lemma step_lmms1 (z : G1 E) crs : step (linear_map_MSMEG1 z crs) [:: reads (1 < size (crs_v crs))%N] (fun _ => True).
Proof. by split=> //; rewrite /linear_map_MSMEG1 /com2_scalar_linear_map; case: (crs_v crs) => [|u0 [|u1 u]]. Qed.

Lemma step_lmms2 (z : G2 E) crs : step (linear_map_MSMEG2 z crs) [:: reads (1 < size (crs_u crs))%N] (fun _ => True).
Proof. by split=> //; rewrite /linear_map_MSMEG2 /com1_scalar_linear_map; case: (crs_u crs) => [|u0 [|u1 u]]. Qed.

Lemma step_lmquad (z : Fr E) crs :
  step (linear_map_quad z crs) [:: reads (1 < size (crs_u crs)); reads (1 < size (crs_v crs))]%N (fun _ => True).
Proof.
split=> //; rewrite /linear_map_quad /com1_scalar_linear_map /com2_scalar_linear_map; case: (crs_u crs) => [|u0 [|u1 u]] //=.
by case: (crs_v crs) => [|v0 [|v1 v]].
Qed.
End Maps.
