(** Re-randomized commitments and proofs verify like the originals; combinations of proofs. *)
From mathcomp Require Import all_ssreflect all_algebra.
From Verif Require Import Base BaseLemmas Group DataStructures MatLemmas CoreAlg ComLemmas.
From Verif Require Import Commit Statement Verify VerifyLemmas Spec SpecMat SpecVerify MatProps VProps Draws SpecHide HideCore HideTape Hiding RerandCore SpecRerand.
Set Implicit Arguments.
Unset Strict Implicit.
Unset Printing Implicit Defensive.
Import GRing.Theory.
Local Open Scope ring_scope.

Section Rerand.
Context {E : pairing}.
Notation f := (comT_pairing : Com1 E -> Com2 E -> ComT E).
Variables (A : seq (Com1 E)) (B : seq (Com2 E)) (G : matrix (Fr E)) (kx ky : nat) (crs : CRS E) (R S T : nat -> nat -> Fr E).

Lemma fresh_cE c k : (k < size c)%N -> nth 0 (fresh_c kx crs R c) k = gs_c kx (nth 0 c) (nth 0 (crs_u crs)) R k.
Proof. by move=> h; rewrite nth_mkseq // /gs_c big_mkord. Qed.
Lemma fresh_dE d k : (k < size d)%N -> nth 0 (fresh_d ky crs S d) k = gs_d ky (nth 0 d) (nth 0 (crs_v crs)) S k.
Proof. by move=> h; rewrite nth_mkseq // /gs_d big_mkord. Qed.
Lemma size_fresh_c c : size (fresh_c kx crs R c) = size c. Proof. exact: size_mkseq. Qed.
Lemma size_fresh_d d : size (fresh_d ky crs S d) = size d. Proof. exact: size_mkseq. Qed.

Definition re_pf (c : seq (Com1 E)) (d : seq (Com2 E)) (g : EquProof E) : EquProof E :=
  let d' := fresh_d ky crs S d in
  mkEquProof
       (mkseq (fun a => nth 0 (pi g) a
          + \sum_(i < size c) R i a *: (nth 0 B i + \sum_(j < size d) entry G i j *: nth 0 d' j)
          - \sum_(b < ky) T b a *: nth 0 (crs_v crs) b) (size (pi g)))
       (mkseq (fun b => nth 0 (theta g) b
          + \sum_(j < size d) S j b *: (nth 0 A j + \sum_(i < size c) entry G i j *: nth 0 c i)
          + \sum_(a < kx) T b a *: nth 0 (crs_u crs) a) (size (theta g)))
       (equ_type g) [::].

Lemma re_pi c d g i : (i < size (pi g))%N -> nth 0 (pi (re_pf c d g)) i
  = nth 0 (pi g) i + gs_pi (size c) (size d) ky (nth 0 B) (nth 0 d) (nth 0 (crs_v crs)) (ent 0 G) R S T i.
Proof.
move=> hi; rewrite nth_mkseq // gs_pi_alt addrA; congr (_ + _ - _); last by rewrite big_mkord.
rewrite big_mkord; apply: eq_bigr => k _; congr (_ *: (_ + _)); rewrite big_mkord; apply: eq_bigr => j _.
by rewrite fresh_dE.
Qed.
Lemma re_th c d g l : (l < size (theta g))%N -> nth 0 (theta (re_pf c d g)) l
  = nth 0 (theta g) l + gs_th (size c) (size d) kx (nth 0 A) (nth 0 c) (nth 0 (crs_u crs)) (ent 0 G) S T l.
Proof.
move=> hi; rewrite nth_mkseq // gs_th_alt addrA; congr (_ + _ + _); last by rewrite big_mkord.
by rewrite big_mkord; apply: eq_bigr => k _; congr (_ *: (_ + _)); rewrite big_mkord.
Qed.

Lemma eq_gs_eq m n (X X' : nat -> Com1 E) (Y Y' : nat -> Com2 E) a b g :
  (forall k, (k < m)%N -> X k = X' k) -> (forall j, (j < n)%N -> Y j = Y' j) ->
  gs_eq f m n g a X b Y = gs_eq f m n g a X' b Y'.
Proof.
move=> hX hY; rewrite /gs_eq; congr (_ + _ + _); apply: eq_big_nat => k /andP[_ hk]; rewrite ?hX ?hY //.
by congr (f _ _); apply: eq_big_nat => j /andP[_ hj]; rewrite hY.
Qed.

Lemma rerand_veq (hb : bilinear E) c d t g : (kx <= size (pi g))%N -> (ky <= size (theta g))%N ->
  veq A B G (fresh_c kx crs R c) (fresh_d ky crs S d) t (crs_u crs) (pi (re_pf c d g)) (theta (re_pf c d g)) (crs_v crs) kx ky
  = veq A B G c d t (crs_u crs) (pi g) (theta g) (crs_v crs) kx ky.
Proof.
move=> hp ht; have fb := comT_pairing_bilin hb.
rewrite /veq size_fresh_c size_fresh_d (eq_gs_eq _ _ _ (fun k => @fresh_cE c k) (fun k => @fresh_dE d k)).
rewrite (gs_identity fb _ _ _ _ _ _ _ _ _ _ _ R S T).
rewrite (eq_big_nat _ _ (F2 := fun i => f (nth 0 (crs_u crs) i) (nth 0 (pi g) i)
   + f (nth 0 (crs_u crs) i) (gs_pi (size c) (size d) ky (nth 0 B) (nth 0 d) (nth 0 (crs_v crs)) (ent 0 G) R S T i))); last first.
  by move=> i /andP[_ hi]; rewrite re_pi ?(bilDr fb) //; exact: leq_trans hi hp.
rewrite (eq_big_nat _ _ (F1 := fun l => f (nth 0 (theta (re_pf c d g)) l) (nth 0 (crs_v crs) l)) (F2 := fun l => f (nth 0 (theta g) l) (nth 0 (crs_v crs) l)
   + f (gs_th (size c) (size d) kx (nth 0 A) (nth 0 c) (nth 0 (crs_u crs)) (ent 0 G) S T l) (nth 0 (crs_v crs) l))); last first.
  by move=> l /andP[_ hl]; rewrite re_th ?(bilDl fb) //; exact: leq_trans hl ht.
rewrite !big_split /=; set e := gs_eq _ _ _ _ _ _ _ _.
set p := \sum_(0 <= i < kx) _; set p' := \sum_(0 <= i < kx) _; set h := \sum_(0 <= l < ky) _; set h' := \sum_(0 <= l < ky) _.
have -> : t + (p' + p) + (h' + h) = t + p' + h' + (p + h) by rewrite (addrA t) addrACA.
by rewrite -addrA (inj_eq (addIr _)).
Qed.
End Rerand.

Section Public.
Context {E : pairing}.
Lemma public_rerand (A : seq (Com1 E)) (B : seq (Com2 E)) (G : matrix (Fr E)) kx ky (crs : CRS E) (t : nat -> Fr E) p ty m n
  (c : seq (Com1 E)) (d : seq (Com2 E)) (pp : seq (Com2 E)) (th : seq (Com1 E)) :
  public p = pubof ty (c, d, (pp, th)) -> size c = m -> size d = n -> size pp = kx -> size th = ky ->
  public (rerand A B G kx ky crs (Rd kx t) (Sd m kx ky t) (Td m n kx ky t) p)
  = pubof ty (gre m n kx ky (nth 0 A) (nth 0 (crs_u crs)) (nth 0 B) (nth 0 (crs_v crs)) (ent 0 G) (c, d, (pp, th)) t).
Proof.
case: p => [[c0 rc] [d0 rd] [|g [|g' gs]]] // -[e1 e2 e3 e4 e5] hc hd hp hh.
move: e1 e2 e3 e4 e5; rewrite /= => e1 e2 e3 e4 e5; subst c0 d0.
rewrite /public /rerand /pubof /= e3 e4 e5; congr (_, _, [:: (_, _, _)]).
- by rewrite -hc; apply: eq_in_mkseq => k hk; rewrite -(fresh_cE kx crs (Rd kx t) hk) nth_mkseq.
- by rewrite -hd; apply: eq_in_mkseq => k hk; rewrite -(fresh_dE ky crs _ hk) nth_mkseq.
- rewrite hp; apply: eq_in_mkseq => i hi.
  have := @re_pi E A B G kx ky crs (Rd kx t) (Sd m kx ky t) (Td m n kx ky t) c d (mkEquProof pp th ty [::]) i.
  by rewrite nth_mkseq /= hp // hc hd => /(_ hi).
rewrite hh; apply: eq_in_mkseq => i hi.
have := @re_th E A B G kx ky crs (Rd kx t) (Sd m kx ky t) (Td m n kx ky t) c d (mkEquProof pp th ty [::]) i.
by rewrite nth_mkseq /= hh // hc hd => /(_ hi).
Qed.
End Public.

Section Values.
Context {E : pairing}.
Variable crs : CRS E.
Variable R : nat -> nat -> Fr E.
Lemma k_C60_G1 (c : seq (Com1 E)) X : two_keys crs -> commits_G1 crs c X -> commits_G1 crs (fresh_c (size (crs_u crs)) crs R c) X.
Proof.
move=> [-> _] [hs h]; split=> [|i]; rewrite size_fresh_c // => hi; have [r [r1 [r2 [_ e]]]] := h i hi.
exists [:: r1 + R i 0%N; r2 + R i 1%N], (r1 + R i 0%N), (r2 + R i 1%N); split=> //.
by rewrite nth_mkseq // e !big_ord_recl big_ord0 /= addr0 !scalerDl addrACA -!addrA.
Qed.
Lemma k_C60_G2 (c : seq (Com2 E)) X : two_keys crs -> commits_G2 crs c X -> commits_G2 crs (fresh_d (size (crs_v crs)) crs R c) X.
Proof.
move=> [_ ->] [hs h]; split=> [|i]; rewrite size_fresh_d // => hi; have [r [r1 [r2 [_ e]]]] := h i hi.
exists [:: r1 + R i 0%N; r2 + R i 1%N], (r1 + R i 0%N), (r2 + R i 1%N); split=> //.
by rewrite nth_mkseq // e !big_ord_recl big_ord0 /= addr0 !scalerDl addrACA -!addrA.
Qed.
Lemma k_C60_B1 (c : seq (Com1 E)) X : commits_B1 crs c X -> commits_B1 crs (fresh_c 1 crs R c) X.
Proof.
move=> [hs h]; split=> [|i]; rewrite size_fresh_c // => hi; have [r [r1 [_ e]]] := h i hi.
exists [:: r1 + R i 0%N], (r1 + R i 0%N); split=> //.
by rewrite nth_mkseq // e !big_ord_recl big_ord0 /= addr0 !scalerDl -!addrA.
Qed.
Lemma k_C60_B2 (c : seq (Com2 E)) X : commits_B2 crs c X -> commits_B2 crs (fresh_d 1 crs R c) X.
Proof.
move=> [hs h]; split=> [|i]; rewrite size_fresh_d // => hi; have [r [r1 [_ e]]] := h i hi.
exists [:: r1 + R i 0%N], (r1 + R i 0%N); split=> //.
by rewrite nth_mkseq // e !big_ord_recl big_ord0 /= addr0 !scalerDl -!addrA.
Qed.
End Values.

Section Comb.
Context {E : pairing}.
Notation f := (comT_pairing : Com1 E -> Com2 E -> ComT E).
Variable k : Fr E.

Lemma nth_comb (V : lmodType (Fr E)) (x y : seq V) i : (i < size x)%N -> nth 0 (comb k x y) i = nth 0 x i + k *: nth 0 y i.
Proof. exact: nth_mkseq. Qed.
Lemma nth_combf (x y : seq (Fr E)) i : (i < size x)%N -> nth 0 (combf k x y) i = nth 0 x i + k * nth 0 y i.
Proof. exact: nth_mkseq. Qed.
Lemma size_comb (V : lmodType (Fr E)) (x y : seq V) : size (comb k x y) = size x. Proof. exact: size_mkseq. Qed.
Lemma size_combf (x y : seq (Fr E)) : size (combf k x y) = size x. Proof. exact: size_mkseq. Qed.
Lemma size_combm (G H : matrix (Fr E)) : size (combm k G H) = size G. Proof. exact: size_mkseq. Qed.
Lemma size_combm_row (G H : matrix (Fr E)) i : size (nth [::] (combm k G H) i) = size (nth [::] G i).
Proof.
case: (ltnP i (size G)) => hi; first by rewrite nth_mkseq // size_combf.
by rewrite !nth_default // size_combm.
Qed.
Lemma combm_fits m n (G H : matrix (Fr E)) : gamma_fits m n G -> gamma_fits m n (combm k G H).
Proof.
have hr i := size_combm_row G H i.
case=> [[h hm]|[hm hn hs h0 hg]]; [left; split=> //|right; split=> //]; rewrite ?size_combm /mrow ?hr //.
  case: h => [->|[h|->]]; [by left | right; left | by right; right].
  by apply/size0nil; rewrite /mrow hr; move: h; rewrite /mrow => ->.
by move=> i hi; rewrite hr; exact: hg.
Qed.
Lemma ent_combm m n (G H : matrix (Fr E)) i j : gamma_fits m n G -> (i < m)%N -> (j < n)%N ->
  ent 0 (combm k G H) i j = ent 0 G i j + k * ent 0 H i j.
Proof.
case=> [[_ ->] //|[_ _ hs _ hg]] hi hj; rewrite /ent /= nth_mkseq ?hs // nth_combf //.
exact: leq_trans hj (hg i hi).
Qed.

Lemma veq_comb (hb : bilinear E) A B G (c : seq (Com1 E)) (d : seq (Com2 E)) t p th A' B' G' t' p' th' A'' B'' G'' t'' p'' th'' u v kx ky :
  (forall j, (j < size d)%N -> nth 0 A'' j = nth 0 A j + k *: nth 0 A' j) ->
  (forall i, (i < size c)%N -> nth 0 B'' i = nth 0 B i + k *: nth 0 B' i) ->
  (forall i j, (i < size c)%N -> (j < size d)%N -> ent 0 G'' i j = ent 0 G i j + k * ent 0 G' i j) ->
  t'' = t + k *: t' ->
  (forall i, (i < kx)%N -> nth 0 p'' i = nth 0 p i + k *: nth 0 p' i) ->
  (forall i, (i < ky)%N -> nth 0 th'' i = nth 0 th i + k *: nth 0 th' i) ->
  veq A B G c d t u p th v kx ky -> veq A' B' G' c d t' u p' th' v kx ky ->
  veq A'' B'' G'' c d t'' u p'' th'' v kx ky.
Proof.
have fb := comT_pairing_bilin hb.
move=> hA hB hG ht hp hh /eqP e /eqP e'; apply/eqP; move: e e'.
have -> : gs_eq f (size c) (size d) (ent 0 G'') (nth 0 A'') (nth 0 c) (nth 0 B'') (nth 0 d)
  = gs_eq f (size c) (size d) (ent 0 G) (nth 0 A) (nth 0 c) (nth 0 B) (nth 0 d)
    + k *: gs_eq f (size c) (size d) (ent 0 G') (nth 0 A') (nth 0 c) (nth 0 B') (nth 0 d).
  rewrite /gs_eq !scalerDr !scaler_sumr.
  set a := \sum_(0 <= j < size d) f _ _; set b := \sum_(0 <= i < size c) f _ (nth 0 B'' _); set e := \sum_(0 <= i < size c) f _ _.
  set a1 := \sum_(0 <= j < size d) f _ _; set b1 := \sum_(0 <= i < size c) f _ (nth 0 B _); set e1 := \sum_(0 <= i < size c) f _ _.
  set a2 := \sum_(0 <= j < size d) _ *: _; set b2 := \sum_(0 <= i < size c) _ *: f _ (nth 0 B' _); set e2 := \sum_(0 <= i < size c) _ *: _.
  have -> : a = a1 + a2.
    by rewrite -big_split; apply: eq_big_nat => j /andP[_ hj]; rewrite hA // (bilDl fb) (bilZl fb).
  have -> : b = b1 + b2.
    by rewrite -big_split; apply: eq_big_nat => j /andP[_ hj]; rewrite hB // (bilDr fb) (bilZr fb).
  have -> : e = e1 + e2.
    rewrite -big_split; apply: eq_big_nat => i /andP[_ hi] /=; rewrite -(bilZr fb) -(bilDr fb); congr (f _ _).
    rewrite scaler_sumr -big_split; apply: eq_big_nat => j /andP[_ hj] /=; rewrite hG // scalerDl scalerA.
    by [].
  by rewrite (addrACA a1) (addrACA (a1 + b1)).
move=> -> ->; rewrite ht !scalerDr !scaler_sumr.
rewrite (eq_big_nat _ _ (F1 := fun i => f (nth 0 u i) (nth 0 p'' i)) (F2 := fun i => f (nth 0 u i) (nth 0 p i) + k *: f (nth 0 u i) (nth 0 p' i))); last first.
  by move=> i /andP[_ hi]; rewrite hp // (bilDr fb) (bilZr fb).
rewrite (eq_big_nat _ _ (F1 := fun i => f (nth 0 th'' i) (nth 0 v i)) (F2 := fun i => f (nth 0 th i) (nth 0 v i) + k *: f (nth 0 th' i) (nth 0 v i))); last first.
  by move=> i /andP[_ hi]; rewrite hh // (bilDl fb) (bilZl fb).
by rewrite !big_split /= (addrACA t) (addrACA (t + _)).
Qed.

Lemma veq_sum (hb : bilinear E) A B G (c c' : seq (Com1 E)) (d d' : seq (Com2 E)) t p th t' p' th' t'' p'' th'' u v kx ky :
  size c' = size c -> size d' = size d -> (forall i j, ent 0 G i j = 0) ->
  t'' = t + k *: t' ->
  (forall i, (i < kx)%N -> nth 0 p'' i = nth 0 p i + k *: nth 0 p' i) ->
  (forall i, (i < ky)%N -> nth 0 th'' i = nth 0 th i + k *: nth 0 th' i) ->
  veq A B G c d t u p th v kx ky -> veq A B G c' d' t' u p' th' v kx ky ->
  veq A B G (comb k c c') (comb k d d') t'' u p'' th'' v kx ky.
Proof.
have fb := comT_pairing_bilin hb.
move=> hc hd hG ht hp hh /eqP e /eqP e'; apply/eqP; move: e e'; rewrite !size_comb hc hd.
have g0 (x : nat -> Com1 E) (y : nat -> Com2 E) : \sum_(0 <= i < size c) f (x i) (\sum_(0 <= j < size d) ent 0 G i j *: y j) = 0.
  rewrite big1 // => i _; rewrite big1 ?(bil0r fb) // => j _; by rewrite hG scale0r.
rewrite /gs_eq !g0 !addr0.
rewrite (eq_big_nat _ _ (F1 := fun j => f (nth 0 A j) (nth 0 (comb k d d') j)) (F2 := fun j => f (nth 0 A j) (nth 0 d j) + k *: f (nth 0 A j) (nth 0 d' j))); last first.
  by move=> j /andP[_ hj]; rewrite nth_comb // (bilDr fb) (bilZr fb).
rewrite (eq_big_nat _ _ (F1 := fun i => f (nth 0 (comb k c c') i) (nth 0 B i)) (F2 := fun i => f (nth 0 c i) (nth 0 B i) + k *: f (nth 0 c' i) (nth 0 B i))); last first.
  by move=> j /andP[_ hj]; rewrite nth_comb // (bilDl fb) (bilZl fb).
rewrite !big_split /= -!scaler_sumr => e e'; rewrite addrACA -scalerDr e e' ht !scalerDr !scaler_sumr.
rewrite (eq_big_nat _ _ (F1 := fun i => f (nth 0 u i) (nth 0 p'' i)) (F2 := fun i => f (nth 0 u i) (nth 0 p i) + k *: f (nth 0 u i) (nth 0 p' i))); last first.
  by move=> i /andP[_ hi]; rewrite hp // (bilDr fb) (bilZr fb).
rewrite (eq_big_nat _ _ (F1 := fun i => f (nth 0 th'' i) (nth 0 v i)) (F2 := fun i => f (nth 0 th i) (nth 0 v i) + k *: f (nth 0 th' i) (nth 0 v i))); last first.
  by move=> i /andP[_ hi]; rewrite hh // (bilDl fb) (bilZl fb).
by rewrite !big_split /= (addrACA t) (addrACA (t + _)).
Qed.
End Comb.

Section Hom.
Context {E : pairing}.
Variables (crs : CRS E) (k : Fr E).
Lemma lin_pair (V : lmodType (Fr E)) (x y : V) : ((0, x + k *: y) : com V) = (0, x) + k *: ((0, y) : com V).
Proof. by apply: injective_projections; rewrite /= ?scaler0 ?addr0. Qed.
Lemma hom2 (V : lmodType (Fr E)) (w w' a b : V) (r1 r2 r1' r2' : Fr E) :
  (w + r1 *: a + r2 *: b) + k *: (w' + r1' *: a + r2' *: b) = (w + k *: w') + (r1 + k * r1') *: a + (r2 + k * r2') *: b.
Proof. by rewrite !scalerDl -!scalerA !scalerDr addrACA (addrACA w). Qed.
Lemma hom1 (V : lmodType (Fr E)) (x x' : Fr E) (w a : V) (r r' : Fr E) :
  (x *: w + r *: a) + k *: (x' *: w + r' *: a) = (x + k * x') *: w + (r + k * r') *: a.
Proof. by rewrite !scalerDl -!scalerA !scalerDr addrACA. Qed.
Lemma k_C62_G1 (c c' : seq (Com1 E)) X X' : size c' = size c -> commits_G1 crs c X -> commits_G1 crs c' X' ->
  commits_G1 crs (comb k c c') (comb k X X').
Proof.
move=> hs [hx h] [hx' h']; split; rewrite ?size_comb // => i hi.
have [r [r1 [r2 [_ e]]]] := h i hi; have [|r' [r1' [r2' [_ e']]]] := h' i; first by rewrite hs.
exists [:: r1 + k * r1'; r2 + k * r2'], (r1 + k * r1'), (r2 + k * r2'); split=> //.
by rewrite !nth_comb ?hx // e e' lin_pair hom2.
Qed.
Lemma k_C62_G2 (c c' : seq (Com2 E)) X X' : size c' = size c -> commits_G2 crs c X -> commits_G2 crs c' X' ->
  commits_G2 crs (comb k c c') (comb k X X').
Proof.
move=> hs [hx h] [hx' h']; split; rewrite ?size_comb // => i hi.
have [r [r1 [r2 [_ e]]]] := h i hi; have [|r' [r1' [r2' [_ e']]]] := h' i; first by rewrite hs.
exists [:: r1 + k * r1'; r2 + k * r2'], (r1 + k * r1'), (r2 + k * r2'); split=> //.
by rewrite !nth_comb ?hx // e e' lin_pair hom2.
Qed.
Lemma k_C62_B1 (c c' : seq (Com1 E)) X X' : size c' = size c -> commits_B1 crs c X -> commits_B1 crs c' X' ->
  commits_B1 crs (comb k c c') (combf k X X').
Proof.
move=> hs [hx h] [hx' h']; split; rewrite ?size_comb ?size_combf // => i hi.
have [r [r1 [_ e]]] := h i hi; have [|r' [r1' [_ e']]] := h' i; first by rewrite hs.
exists [:: r1 + k * r1'], (r1 + k * r1'); split=> //.
by rewrite nth_comb // nth_combf ?hx // e e' hom1.
Qed.
Lemma k_C62_B2 (c c' : seq (Com2 E)) X X' : size c' = size c -> commits_B2 crs c X -> commits_B2 crs c' X' ->
  commits_B2 crs (comb k c c') (combf k X X').
Proof.
move=> hs [hx h] [hx' h']; split; rewrite ?size_comb ?size_combf // => i hi.
have [r [r1 [_ e]]] := h i hi; have [|r' [r1' [_ e']]] := h' i; first by rewrite hs.
exists [:: r1 + k * r1'], (r1 + k * r1'); split=> //.
by rewrite nth_comb // nth_combf ?hx // e e' hom1.
Qed.
End Hom.
