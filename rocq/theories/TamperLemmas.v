(** Lemmas: replacing one element of an accepted proof or of its equation. *)
From mathcomp Require Import all_ssreflect all_algebra.
From Verif Require Import Base BaseLemmas Group DataStructures Generator Commit Statement Prove Verify Spec SpecMat SpecVerify SpecTamper CoreAlg ComLemmas ComProps Main VProps.
Set Implicit Arguments.
Unset Strict Implicit.
Unset Printing Implicit Defensive.
Import GRing.Theory.
Local Open Scope ring_scope.

Section Put.
Context {T : zmodType}.
Implicit Types (s : seq T) (x : T).
Lemma size_put i x s : size (put i x s) = size s. Proof. by rewrite size_map size_iota. Qed.
Lemma nth_put i x s k : (i < size s)%N -> nth 0 (put i x s) k = if k == i then x else nth 0 s k.
Proof.
move=> hi; have [hk|hk] := ltnP k (size s); last first.
  rewrite !nth_default ?size_put //; case: eqP => // e; by move: hk; rewrite e leqNgt hi.
by rewrite (nth_map 0%N) ?size_iota // nth_iota.
Qed.
Lemma sum_put (V : zmodType) (F : nat -> T -> V) n s i x : (i < n)%N -> (i < size s)%N ->
  \sum_(k < n) F k (nth 0 (put i x s) k) = \sum_(k < n) F k (nth 0 s k) + (F i x - F i (nth 0 s i)).
Proof.
move=> hn hs; rewrite (bigD1 (Ordinal hn)) //= [in RHS](bigD1 (Ordinal hn)) //=.
rewrite nth_put // eqxx [in RHS]addrAC [X in _ = X + _]addrC subrK; congr (_ + _).
by apply: eq_bigr => k hk; rewrite nth_put //; case: eqP => // e; case/eqP: hk; apply: val_inj.
Qed.
End Put.
Lemma map_put (T U : zmodType) (g : T -> U) i x (s : seq T) : (i < size s)%N -> [seq g y | y <- put i x s] = put i (g x) [seq g y | y <- s].
Proof.
move=> hi; apply: (@eq_from_nth _ 0); first by rewrite size_map !size_put size_map.
move=> k; rewrite size_map size_put => hk; rewrite (nth_map 0) ?size_put // nth_put // [in RHS]nth_put ?size_map // (nth_map 0) //; by case: eqP.
Qed.
Section PutEntry.
Context {T : zmodType}.
Implicit Types x : T.
Lemma size_put_entry i j x (G : matrix T) : size (put_entry i j x G) = size G. Proof. by rewrite size_map size_iota. Qed.
Lemma nth_put_entry i j x (G : matrix T) k : (i < size G)%N ->
  nth [::] (put_entry i j x G) k = if k == i then put j x (nth [::] G i) else nth [::] G k.
Proof.
move=> hi; have [hk|hk] := ltnP k (size G); last first.
  have /negbTE -> : k != i by apply: contraTneq hk => ->; rewrite -ltnNge.
  by rewrite [LHS]nth_default ?size_put_entry // nth_default.
by rewrite (nth_map 0%N) ?size_iota // nth_iota // add0n; case: (k =P i) => [->|].
Qed.
End PutEntry.

Section Gap.
Context {E : pairing}.
Hypothesis hb : bilinear E.
Hypothesis hn : nondegenerate E.
Let fb : bilin (@pairT E : Com1 E -> Com2 E -> ComT E) := comT_pairing_bilin hb.

Lemma pairT_eq0 (x : Com1 E) (y : Com2 E) : pairT x y = 0 <-> x = 0 \/ y = 0.
Proof.
split; first exact: (k_C28_no_zero_divisors hn).
by case=> ->; [exact: (bil0l fb) | exact: (bil0r fb)].
Qed.

Definition gap (A : seq (Com1 E)) (B : seq (Com2 E)) (G : matrix (Fr E)) (c : seq (Com1 E)) (d : seq (Com2 E))
  (t : ComT E) (u : seq (Com1 E)) (v : seq (Com2 E)) (p : seq (Com2 E)) (th : seq (Com1 E)) (kx ky : nat) : ComT E :=
  (\sum_(j < size d) pairT (nth 0 A j) (nth 0 d j)
  + \sum_(i < size c) pairT (nth 0 c i) (nth 0 B i)
  + \sum_(i < size c) \sum_(j < size d) entry G i j *: pairT (nth 0 c i) (nth 0 d j))
  - (t + \sum_(i < kx) pairT (nth 0 u i) (nth 0 p i) + \sum_(l < ky) pairT (nth 0 th l) (nth 0 v l)).

Lemma gapP A B G c d t crs pf kx ky : gs_check A B G c d t crs pf kx ky <->
  gap A B G c d t (crs_u crs) (crs_v crs) (pi pf) (theta pf) kx ky = 0.
Proof. by rewrite /gs_check /gap; split=> [->|/eqP]; [exact: subrr | rewrite subr_eq0 => /eqP]. Qed.

Lemma addsub (V : zmodType) (a b : V) : a + b - a = b.
Proof. by rewrite addrC addKr. Qed.
Lemma sub3 (V : zmodType) (a b c a' b' c' : V) : (a' + b' + c') - (a + b + c) = (a' - a) + (b' - b) + (c' - c).
Proof. by rewrite opprD addrACA opprD [a' + b' + _]addrACA. Qed.
Lemma sub2 (V : zmodType) (a b a' b' : V) : (a' - b') - (a - b) = (a' - a) - (b' - b).
Proof. by rewrite !opprB [b - a]addrC addrACA [- b' + b]addrC. Qed.
Lemma gap_diff A B G c d t u v p th kx ky A' B' G' c' d' t' u' v' p' th' :
  gap A' B' G' c' d' t' u' v' p' th' kx ky - gap A B G c d t u v p th kx ky =
  ((\sum_(j < size d') pairT (nth 0 A' j) (nth 0 d' j) - \sum_(j < size d) pairT (nth 0 A j) (nth 0 d j))
  + (\sum_(i < size c') pairT (nth 0 c' i) (nth 0 B' i) - \sum_(i < size c) pairT (nth 0 c i) (nth 0 B i))
  + (\sum_(i < size c') \sum_(j < size d') entry G' i j *: pairT (nth 0 c' i) (nth 0 d' j)
     - \sum_(i < size c) \sum_(j < size d) entry G i j *: pairT (nth 0 c i) (nth 0 d j)))
  - ((t' - t) + (\sum_(i < kx) pairT (nth 0 u' i) (nth 0 p' i) - \sum_(i < kx) pairT (nth 0 u i) (nth 0 p i))
    + (\sum_(l < ky) pairT (nth 0 th' l) (nth 0 v' l) - \sum_(l < ky) pairT (nth 0 th l) (nth 0 v l))).
Proof. by rewrite /gap sub2 -!sub3. Qed.

(** The effect of one replacement on the gap. *)
Lemma gap_pi A B G c d t u v p th kx ky i x : (i < kx)%N -> (i < size p)%N ->
  gap A B G c d t u v (put i x p) th kx ky - gap A B G c d t u v p th kx ky = - pairT (nth 0 u i) (x - nth 0 p i).
Proof.
move=> h1 h2; rewrite gap_diff (sum_put (fun k y => pairT (nth 0 u k) y)) // (bilBr fb).
by rewrite !subrr !add0r addr0 [X in - (X - _)]addrC addrK.
Qed.
Lemma gap_theta A B G c d t u v p th kx ky i x : (i < ky)%N -> (i < size th)%N ->
  gap A B G c d t u v p (put i x th) kx ky - gap A B G c d t u v p th kx ky = - pairT (x - nth 0 th i) (nth 0 v i).
Proof.
move=> h1 h2; rewrite gap_diff (sum_put (fun k y => pairT y (nth 0 v k))) // (bilBl fb).
by rewrite !subrr !add0r [X in - (X - _)]addrC addrK.
Qed.
Lemma gap_u A B G c d t u v p th kx ky i x : (i < kx)%N -> (i < size u)%N ->
  gap A B G c d t (put i x u) v p th kx ky - gap A B G c d t u v p th kx ky = - pairT (x - nth 0 u i) (nth 0 p i).
Proof.
move=> h1 h2; rewrite gap_diff (sum_put (fun k y => pairT y (nth 0 p k))) // (bilBl fb).
by rewrite !subrr !add0r addr0 [X in - (X - _)]addrC addrK.
Qed.
Lemma gap_v A B G c d t u v p th kx ky i x : (i < ky)%N -> (i < size v)%N ->
  gap A B G c d t u (put i x v) p th kx ky - gap A B G c d t u v p th kx ky = - pairT (nth 0 th i) (x - nth 0 v i).
Proof.
move=> h1 h2; rewrite gap_diff (sum_put (fun k y => pairT (nth 0 th k) y)) // (bilBr fb).
by rewrite !subrr !add0r [X in - (X - _)]addrC addrK.
Qed.
Lemma gap_t A B G c d t u v p th kx ky t' :
  gap A B G c d t' u v p th kx ky - gap A B G c d t u v p th kx ky = - (t' - t).
Proof. by rewrite gap_diff !subrr !add0r ?addr0 ?sub0r. Qed.
Lemma gap_A A B G c d t u v p th kx ky j x : (j < size d)%N -> size A = size d ->
  gap (put j x A) B G c d t u v p th kx ky - gap A B G c d t u v p th kx ky = pairT (x - nth 0 A j) (nth 0 d j).
Proof.
move=> h1 h2; rewrite gap_diff (sum_put (fun k y => pairT y (nth 0 d k))) ?h2 // (bilBl fb).
by rewrite !subrr !add0r [X in X - _ + _]addrC addrK ?addr0 ?subr0 ?oppr0 ?addr0.
Qed.
Lemma gap_B A B G c d t u v p th kx ky i x : (i < size c)%N -> size B = size c ->
  gap A (put i x B) G c d t u v p th kx ky - gap A B G c d t u v p th kx ky = pairT (nth 0 c i) (x - nth 0 B i).
Proof.
move=> h1 h2; rewrite gap_diff (sum_put (fun k y => pairT (nth 0 c k) y)) ?h2 // (bilBr fb).
by rewrite !subrr !add0r [X in X - _ + _]addrC addrK ?addr0 ?subr0 ?oppr0 ?addr0.
Qed.
Lemma gap_c A B G c d t u v p th kx ky i x : (i < size c)%N ->
  gap A B G (put i x c) d t u v p th kx ky - gap A B G c d t u v p th kx ky = pairT (x - nth 0 c i) (factor_x B G d i).
Proof.
move=> h1; rewrite gap_diff size_put (sum_put (fun k y => pairT y (nth 0 B k))) //.
rewrite (sum_put (fun k y => \sum_(j < size d) entry G k j *: pairT y (nth 0 d j))) //.
rewrite !subrr ?add0r ?addr0 ?subr0 !addsub.
rewrite /factor_x (bilDr fb) (bilBl fb) (bil_sumr fb); congr (_ + _); rewrite -sumrB; apply: eq_bigr => j _.
by rewrite (bilZr fb) (bilBl fb) scalerBr.
Qed.
Lemma gap_d A B G c d t u v p th kx ky j y : (j < size d)%N ->
  gap A B G c (put j y d) t u v p th kx ky - gap A B G c d t u v p th kx ky = pairT (factor_y A G c j) (y - nth 0 d j).
Proof.
pose F k y := \sum_(i < size c) entry G i k *: pairT (nth 0 c i) y.
have ex d0 : \sum_(i < size c) \sum_(k < size d) entry G i k *: pairT (nth 0 c i) (nth 0 d0 k) = \sum_(k < size d) F k (nth 0 d0 k).
  by rewrite exchange_big.
move=> h1; rewrite gap_diff size_put (sum_put (fun k y => pairT (nth 0 A k) y)) // !ex (sum_put F) //.
rewrite !subrr ?add0r ?addr0 ?subr0 !addsub /F.
rewrite /factor_y (bilDl fb) (bilBr fb) (bil_suml fb); congr (_ + _); rewrite -sumrB; apply: eq_bigr => i _.
by rewrite (bilZl fb) (bilBr fb) scalerBr.
Qed.
Lemma entry_put i j g (G : matrix (Fr E)) a b : (i < size G)%N -> (j < size (nth [::] G i))%N ->
  entry (put_entry i j g G) a b = if (a == i) && (b == j) then g else entry G a b.
Proof.
move=> h1 h2; rewrite /entry nth_put_entry //; case: (a =P i) => [->|_] //=; exact: nth_put.
Qed.
Lemma gap_G A B G c d t u v p th kx ky i j g : (i < size c)%N -> (j < size d)%N -> (i < size G)%N -> (j < size (nth [::] G i))%N ->
  gap A B (put_entry i j g G) c d t u v p th kx ky - gap A B G c d t u v p th kx ky
  = (g - entry G i j) *: pairT (nth 0 c i) (nth 0 d j).
Proof.
move=> h1 h2 h3 h4; rewrite gap_diff !subrr ?add0r ?addr0 ?subr0 -sumrB (bigD1 (Ordinal h1)) //= -sumrB (bigD1 (Ordinal h2)) //=.
rewrite entry_put // !eqxx /= -scalerBl big1 ?addr0 ?big1 ?addr0 // => [a|b] hne.
  rewrite -sumrB big1 // => b _; rewrite entry_put //; case: (nat_of_ord a =P i) => [e|]; last by rewrite subrr.
  by case/eqP: hne; apply: val_inj.
rewrite entry_put // eqxx /=; case: (nat_of_ord b =P j) => [e|]; last by rewrite subrr.
by case/eqP: hne; apply: val_inj.
Qed.
Lemma gap_still (g g' : ComT E) (P : Prop) : g = 0 -> (g' - g = 0 <-> P) -> (g' = 0 <-> P).
Proof. by move=> ->; rewrite subr0. Qed.
End Gap.
