(** C98: which random tapes make a commitment function return the same commitments. *)
From mathcomp Require Import all_ssreflect all_algebra.
From Verif Require Import Base BaseLemmas Group DataStructures Generator Commit Statement Prove Verify Spec SpecMat SpecVerify SpecHide SpecPanic SpecFormula FormulaProps HideCore HideTape Hiding HideProps GenProps FibreProps.
Set Implicit Arguments.
Unset Strict Implicit.
Unset Printing Implicit Defensive.
Import GRing.Theory.
Local Open Scope ring_scope.

Section FibreCom.
Context {E : pairing}.
Implicit Types crs : CRS E.

(** Two values which differ in the random scalars only. *)
Lemma cv_same (G : lmodType (Fr E)) k (key L : seq (com G)) (r r' : nat -> nat -> Fr E) :
  coms (commit_value k key L r') = coms (commit_value k key L r) <->
  forall i, (i < size L)%N -> \sum_(l < k) r' i l *: nth 0 key l = \sum_(l < k) r i l *: nth 0 key l.
Proof.
rewrite /commit_value /=; apply: (iff_trans (mkseq_same _ _ _)).
by split=> h i hi; [have /addrI := h i hi | rewrite h].
Qed.

Lemma k_C98_G1_binding (R R' : rng E) (X : seq (G1 E)) crs a1 a2 t1 t2 (s s' : rst R) (z z' : rst R') c d :
  binding_crs_with crs a1 a2 t1 t2 -> proper_crs crs ->
  batch_commit_G1 X crs s = Ok (c, s') -> batch_commit_G1 X crs z = Ok (d, z') ->
  (coms d = coms c <-> forall i, (i < size X)%N ->
     drawn z (2 * i) + t1 * drawn z (2 * i).+1 = drawn s (2 * i) + t1 * drawn s (2 * i).+1).
Proof.
move=> hk hp; have [nu nv] := heads_not0 hk hp; have bs x y := (binding_sum x y hk).1.
rewrite !batch_commit_G1_total => hc hd; rewrite (checked_ok hc) (checked_ok hd) {hc hd}.
apply: (iff_trans (cv_same _ _ _ _ _)); rewrite size_map; split=> h i hi; have := h i hi;
  rewrite !big_ord_recl !big_ord0 !addr0 /= !bs /bump /= !addn0 !addn1.
  by move/(scal_inj _ _ nu).
by move=> ->.
Qed.

Lemma k_C98_G1_hiding (R R' : rng E) (X : seq (G1 E)) crs (s s' : rst R) (z z' : rst R') c d :
  hiding_crs crs -> proper_crs crs ->
  batch_commit_G1 X crs s = Ok (c, s') -> batch_commit_G1 X crs z = Ok (d, z') ->
  (coms d = coms c <-> forall i, (i < 2 * size X)%N -> drawn z i = drawn s i).
Proof.
move=> hk hp; have hi2 a b a' b' := (hiding_crs_inj hk hp a b a' b').1.
rewrite !batch_commit_G1_total => hc hd; rewrite (checked_ok hc) (checked_ok hd) {hc hd}.
apply: (iff_trans (cv_same _ _ _ _ _)); rewrite size_map; split=> h i hi; last first.
  have h0 : (2 * i < 2 * size X)%N by rewrite ltn_mul2l.
  have h1 : ((2 * i).+1 < 2 * size X)%N by rewrite !mul2n -!doubleS leq_double.
  by rewrite !big_ord_recl !big_ord0 !addr0 /= /bump /= !addn0 !addn1 h // h.
have hh : (i./2 < size X)%N by rewrite -ltn_double -[(size X).*2]mul2n (leq_ltn_trans _ hi) // -[X in (_ <= X)%N]odd_double_half leq_addl.
have := h _ hh; rewrite !big_ord_recl !big_ord0 !addr0 /= /bump /= !addn0 !addn1 => /hi2 [e0 e1].
rewrite -(odd_double_half i) -mul2n; case: (odd i); rewrite ?add1n ?add0n //.
Qed.

Lemma k_C98_B1 (R R' : rng E) (X : seq (Fr E)) crs (s s' : rst R) (z z' : rst R') c d :
  nth 0 (crs_u crs) 0 != 0 ->
  batch_commit_scalar_to_B1 X crs s = Ok (c, s') -> batch_commit_scalar_to_B1 X crs z = Ok (d, z') ->
  (coms d = coms c <-> forall i, (i < size X)%N -> drawn z i = drawn s i).
Proof.
move=> nu; rewrite !batch_commit_scalar_to_B1_total => hc hd; rewrite (checked_ok hc) (checked_ok hd) {hc hd}.
apply: (iff_trans (cv_same _ _ _ _ _)); rewrite size_map; split=> h i hi; have := h i hi;
  rewrite !big_ord_recl !big_ord0 !addr0 /=.
  by move/(scal_inj _ _ nu).
by move=> ->.
Qed.

Lemma k_C98_G2_binding (R R' : rng E) (X : seq (G2 E)) crs a1 a2 t1 t2 (s s' : rst R) (z z' : rst R') c d :
  binding_crs_with crs a1 a2 t1 t2 -> proper_crs crs ->
  batch_commit_G2 X crs s = Ok (c, s') -> batch_commit_G2 X crs z = Ok (d, z') ->
  (coms d = coms c <-> forall i, (i < size X)%N ->
     drawn z (2 * i) + t2 * drawn z (2 * i).+1 = drawn s (2 * i) + t2 * drawn s (2 * i).+1).
Proof.
move=> hk hp; have [nu nv] := heads_not0 hk hp; have bs x y := (binding_sum x y hk).2.
rewrite !batch_commit_G2_total => hc hd; rewrite (checked_ok hc) (checked_ok hd) {hc hd}.
apply: (iff_trans (cv_same _ _ _ _ _)); rewrite size_map; split=> h i hi; have := h i hi;
  rewrite !big_ord_recl !big_ord0 !addr0 /= !bs /bump /= !addn0 !addn1.
  by move/(scal_inj _ _ nv).
by move=> ->.
Qed.

Lemma k_C98_G2_hiding (R R' : rng E) (X : seq (G2 E)) crs (s s' : rst R) (z z' : rst R') c d :
  hiding_crs crs -> proper_crs crs ->
  batch_commit_G2 X crs s = Ok (c, s') -> batch_commit_G2 X crs z = Ok (d, z') ->
  (coms d = coms c <-> forall i, (i < 2 * size X)%N -> drawn z i = drawn s i).
Proof.
move=> hk hp; have hi2 a b a' b' := (hiding_crs_inj hk hp a b a' b').2.
rewrite !batch_commit_G2_total => hc hd; rewrite (checked_ok hc) (checked_ok hd) {hc hd}.
apply: (iff_trans (cv_same _ _ _ _ _)); rewrite size_map; split=> h i hi; last first.
  have h0 : (2 * i < 2 * size X)%N by rewrite ltn_mul2l.
  have h1 : ((2 * i).+1 < 2 * size X)%N by rewrite !mul2n -!doubleS leq_double.
  by rewrite !big_ord_recl !big_ord0 !addr0 /= /bump /= !addn0 !addn1 h // h.
have hh : (i./2 < size X)%N by rewrite -ltn_double -[(size X).*2]mul2n (leq_ltn_trans _ hi) // -[X in (_ <= X)%N]odd_double_half leq_addl.
have := h _ hh; rewrite !big_ord_recl !big_ord0 !addr0 /= /bump /= !addn0 !addn1 => /hi2 [e0 e1].
rewrite -(odd_double_half i) -mul2n; case: (odd i); rewrite ?add1n ?add0n //.
Qed.

Lemma k_C98_B2 (R R' : rng E) (X : seq (Fr E)) crs (s s' : rst R) (z z' : rst R') c d :
  nth 0 (crs_v crs) 0 != 0 ->
  batch_commit_scalar_to_B2 X crs s = Ok (c, s') -> batch_commit_scalar_to_B2 X crs z = Ok (d, z') ->
  (coms d = coms c <-> forall i, (i < size X)%N -> drawn z i = drawn s i).
Proof.
move=> nv; rewrite !batch_commit_scalar_to_B2_total => hc hd; rewrite (checked_ok hc) (checked_ok hd) {hc hd}.
apply: (iff_trans (cv_same _ _ _ _ _)); rewrite size_map; split=> h i hi; have := h i hi;
  rewrite !big_ord_recl !big_ord0 !addr0 /=.
  by move/(scal_inj _ _ nv).
by move=> ->.
Qed.
End FibreCom.

Section Counts.
Variables (F : finFieldType) (A B C : lmodType F) (e : A -> B -> C).
Let E := Pairing e.

Lemma com_card (G : lmodType F) N (K : finType) (h : K -> N.-tuple F) (run : forall R : rng E, rst R -> res (commit G * rst R)) (c : commit G) :
  injective h -> (forall t : N.-tuple F, exists d z', run tape_rng (tval t : seq F) = Ok (d, z') /\
    (coms d = coms c <-> exists k, t = h k)) ->
  tapes N (fun d => coms d) run (fun r => if r is Ok v then v == coms c else false) = #|K|.
Proof.
move=> hi hr; rewrite /tapes -(card_imset K hi); apply: eq_card => t; rewrite !inE.
have [d [z' [-> hd]]] := hr t; rewrite /seen; apply/eqP/imsetP => [/hd [k ->]|[k _ ht]]; first by exists k.
by apply/hd; exists k.
Qed.

(** The tapes on which each pair has a given combination. *)
Lemma pairs_line n (t1 : F) (v : nat -> F) : exists h : n.-tuple F -> (2 * n).-tuple F, injective h /\
  forall t : (2 * n).-tuple F, (exists k, t = h k) <-> forall i, (i < n)%N -> nth 0 t (2 * i) + t1 * nth 0 t (2 * i).+1 = v i.
Proof.
have b0 i : (i < n)%N -> (2 * i < 2 * n)%N by move=> hi; rewrite ltn_mul2l.
have b1 i : (i < n)%N -> ((2 * i).+1 < 2 * n)%N by move=> hi; rewrite !mul2n -!doubleS leq_double.
pose h (k : n.-tuple F) : (2 * n).-tuple F :=
  [tuple if odd p then nth 0 k p./2 else v p./2 - t1 * nth 0 k p./2 | p < 2 * n].
have nh k p : (p < 2 * n)%N -> nth 0 (h k) p = if odd p then nth 0 k p./2 else v p./2 - t1 * nth 0 k p./2.
  by move=> hp; rewrite -(tnth_nth 0 _ (Ordinal hp)) tnth_mktuple.
have n0 k i : (i < n)%N -> nth 0 (h k) (2 * i) = v i - t1 * nth 0 k i.
  by move=> hi; rewrite nh ?b0 // mul2n odd_double doubleK.
have n1 k i : (i < n)%N -> nth 0 (h k) (2 * i).+1 = nth 0 k i.
  by move=> hi; rewrite nh ?b1 // mul2n /= odd_double /= uphalf_double.
exists h; split=> [k k' ek|t].
  by apply/tup_eq => i hi; rewrite -(n1 k) // -(n1 k') // ek.
split=> [[k ->] i hi|ht]; first by rewrite n0 // n1 // subrK.
exists [tuple nth 0 t (2 * i).+1 | i < n].
have nk i : (i < n)%N -> nth 0 [tuple nth 0 t (2 * i).+1 | i < n] i = nth 0 t (2 * i).+1.
  by move=> hi; rewrite -(tnth_nth 0 _ (Ordinal hi)) tnth_mktuple.
apply/tup_eq => p hp.
have hh : (p./2 < n)%N by rewrite -ltn_double -[n.*2]mul2n (leq_ltn_trans _ hp) // -[X in (_ <= X)%N]odd_double_half leq_addl.
have : p = (odd p + 2 * p./2)%N by rewrite mul2n odd_double_half.
move: hh; move: (p./2) (odd p) => i [] hi ->; rewrite ?add1n ?add0n; first by rewrite n1 // nk.
by rewrite n0 // nk // -(ht _ hi) addrK.
Qed.

Lemma k_C98_G1_counts (R : rng E) (X : seq (G1 E)) (crs : CRS E) (s s' : rst R) c :
  binding_crs crs -> proper_crs crs -> batch_commit_G1 X crs s = Ok (c, s') ->
  tapes (2 * size X) (fun d => coms d) (fun R s => batch_commit_G1 (R := R) X crs s)
    (fun r => if r is Ok v then v == coms c else false) = (#|F| ^ size X)%N.
Proof.
case=> a1 [a2 [t1 [t2 hk]]] hp hc; rewrite -card_tuple.
have [h [hi hh]] := pairs_line (size X) t1 (fun i => drawn s (2 * i) + t1 * drawn s (2 * i).+1).
apply: (@com_card _ _ _ h) => // t.
have [d [z' hd]] : exists d z', batch_commit_G1 X crs (tval t : rst (@tape_rng E)) = Ok (d, z').
  by move: hc; rewrite !batch_commit_G1_total /checked; case: first_failed => // _; eexists; eexists.
exists d, z'; split=> //; apply: (iff_trans (k_C98_G1_binding hk hp hc hd)); apply: (iff_trans _ (iff_sym (hh t))).
by split=> h' i hi'; have := h' i hi'; rewrite !tape_drawn.
Qed.

Lemma k_C98_G2_counts (R : rng E) (X : seq (G2 E)) (crs : CRS E) (s s' : rst R) c :
  binding_crs crs -> proper_crs crs -> batch_commit_G2 X crs s = Ok (c, s') ->
  tapes (2 * size X) (fun d => coms d) (fun R s => batch_commit_G2 (R := R) X crs s)
    (fun r => if r is Ok v then v == coms c else false) = (#|F| ^ size X)%N.
Proof.
case=> a1 [a2 [t1 [t2 hk]]] hp hc; rewrite -card_tuple.
have [h [hi hh]] := pairs_line (size X) t2 (fun i => drawn s (2 * i) + t2 * drawn s (2 * i).+1).
apply: (@com_card _ _ _ h) => // t.
have [d [z' hd]] : exists d z', batch_commit_G2 X crs (tval t : rst (@tape_rng E)) = Ok (d, z').
  by move: hc; rewrite !batch_commit_G2_total /checked; case: first_failed => // _; eexists; eexists.
exists d, z'; split=> //; apply: (iff_trans (k_C98_G2_binding hk hp hc hd)); apply: (iff_trans _ (iff_sym (hh t))).
by split=> h' i hi'; have := h' i hi'; rewrite !tape_drawn.
Qed.
End Counts.
