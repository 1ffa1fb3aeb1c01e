(** C99: under a hiding key [commit_and_prove] is one-to-one onto the accepted proofs. *)
From mathcomp Require Import all_ssreflect all_algebra.
From Verif Require Import Base BaseLemmas Group DataStructures MatLemmas CoreAlg ComLemmas Generator Commit Statement Prove Verify Spec SpecMat SpecVerify SpecHide ProveLemmas CommitLemmas VerifyLemmas Holds Complete Main SoundGen Draws GenProps CapLemmas HideCore HideTape Hiding MatProps VProps HideProps SpecRerand RerandProps Exist ExistProps SpecPanic SpecFormula FormulaProps SpecBij BijCore.
Set Implicit Arguments.
Unset Strict Implicit.
Unset Printing Implicit Defensive.
Import GRing.Theory.
Local Open Scope ring_scope.

Section Stages.
Context {E : pairing}.
Notation F := (Fr E).

(** One tape for each list of commitments. *)
Lemma commit_stage (G : lmodType F) (f : forall R : rng E, rst R -> res (commit G * rst R)) k N (key : nat -> com G) (L cs : seq (com G)) :
  (0 < k)%N -> N = (k * size L)%N -> size cs = size L ->
  (forall R s, seen coms (f R s) = Ok (mkseq (fun i => nth 0 L i + \sum_(l < k) drawn s (k * i + l)%N *: key l) (size L))) ->
  (forall a b : nat -> F, \sum_(l < k) a l *: key l = \sum_(l < k) b l *: key l -> forall l, (l < k)%N -> a l = b l) ->
  (exists c : nat -> nat -> F, forall i, (i < size L)%N -> nth 0 cs i - nth 0 L i = \sum_(l < k) c i l *: key l) ->
  exists! t : N.-tuple F, shows coms f cs t.
Proof.
move=> k0 -> szc hf hfree [c hc].
have bound i (l : 'I_k) : (i < size L)%N -> (k * i + l < k * size L)%N.
  by move=> hi; apply: (@leq_trans (k * i.+1)); rewrite ?leq_mul2l ?hi ?orbT // mulnS addnC ltn_add2r.
pose t : (k * size L).-tuple F := [tuple c (p %/ k)%N (p %% k)%N | p < k * size L].
have nt i (l : 'I_k) : (i < size L)%N -> nth 0 t (k * i + l) = c i l.
  move=> hi; rewrite -[(k * i + l)%N]/(nat_of_ord (Ordinal (bound i l hi))) -tnth_nth tnth_mktuple /=.
  by rewrite mulnC divnMDl // modnMDl modn_small // divn_small // addn0.
exists t; split=> [R s hs|t' ht'].
  rewrite hf; congr Ok; apply: (@eq_from_nth _ 0); rewrite size_mkseq ?szc // => i hi; rewrite nth_mkseq //.
  rewrite (eq_bigr (fun l : 'I_k => c i l *: key l)) -?hc // ?[RHS]addrC ?subrK //; first by rewrite addrC subrK.
  by move=> l _; rewrite (drawn_draws hs (bound i l hi)) nt.
have := ht' _ (tval t' : rst (@tape_rng E)) (draws_tape t'); rewrite hf => e0; have e := Ok_inj e0.
apply: eq_from_tnth => p; rewrite !(tnth_nth 0).
have hp : (p < size L * k)%N := leq_trans (ltn_ord p) (eq_leq (mulnC k (size L))).
have hi : (p %/ k < size L)%N by rewrite ltn_divLR.
have hl : (p %% k < k)%N by rewrite ltn_mod.
have ep : nat_of_ord p = (k * (p %/ k) + Ordinal hl)%N by rewrite /= [(k * (p %/ k))%N]mulnC -divn_eq.
rewrite ep nt //.
have := congr1 (fun x => nth 0 x (p %/ k)%N) e; rewrite nth_mkseq // => e1.
have := hc _ hi; rewrite -e1 addrC addKr => e2.
have := hfree (fun l => drawn (tval t' : rst (@tape_rng E)) (k * (p %/ k) + l)%N) (c (p %/ k)%N) e2 _ hl; rewrite /= => <-.
by rewrite (drawn_draws (draws_tape t')) //; exact: (bound _ (Ordinal hl) hi).
Qed.

Lemma bigE (V : lmodType F) k (x : nat -> F) (w : nat -> V) : lin k w x = \sum_(l < k) x l *: w l.
Proof. by rewrite /lin big_mkord. Qed.

Lemma pick_multiples (G : lmodType F) (w : com G) (c : seq (com G)) : multiples w c ->
  exists r : nat -> F, forall i, (i < size c)%N -> nth 0 c i = r i *: w.
Proof.
move=> h; have : forall n, (n <= size c)%N -> exists r : nat -> F, forall i, (i < n)%N -> nth 0 c i = r i *: w.
  elim=> [|n IH] hn; first by exists (fun=> 0).
  have [r hr] := IH (ltnW hn); have [a ha] := h _ hn.
  exists (fun i => if i == n then a else r i) => i; rewrite ltnS leq_eqVlt; case: eqP => [->|_] //=; exact: hr.
by move=> /(_ _ (leqnn _)).
Qed.

Section Hide.
Variable crs : CRS E.
Hypotheses (hb : bilinear E) (hn : nondegenerate E) (hc1 : cyclic (G1 E)) (hc2 : cyclic (G2 E)).
Hypotheses (hk : hiding_crs crs) (hp : proper_crs crs).

Lemma free2_u (a b : nat -> F) : \sum_(l < 2) a l *: nth 0 (crs_u crs) l = \sum_(l < 2) b l *: nth 0 (crs_u crs) l ->
  forall l, (l < 2)%N -> a l = b l.
Proof.
rewrite !big_ord_recl !big_ord0 !addr0 => e; have [h _] := hiding_crs_inj hk hp (a 0%N) (a 1%N) (b 0%N) (b 1%N).
by have [e0 e1] := h e; case=> [|[|l]].
Qed.
Lemma u1_not0 : u1 crs != 0.
Proof.
case: hp => h1 h2; case: hk => a1 [a2 [t1 [t2 [eu ev _]]]]; rewrite eu /=.
by apply/eqP => -[e _]; move: h1; rewrite e eqxx.
Qed.
Lemma free1_u (a b : nat -> F) : \sum_(l < 1) a l *: nth 0 (crs_u crs) l = \sum_(l < 1) b l *: nth 0 (crs_u crs) l ->
  forall l, (l < 1)%N -> a l = b l.
Proof.
rewrite !big_ord_recl !big_ord0 !addr0 => /eqP; rewrite -subr_eq0 -scalerBl scaler_eq0 => /orP[|e].
  by rewrite subr_eq0 => /eqP e [|l].
by have := u1_not0; rewrite -/(u1 crs) in e; rewrite e.
Qed.
Lemma one_G1 (X : seq (G1 E)) (cs : seq (Com1 E)) : (0 < size X)%N -> size cs = size X ->
  exists! t : (2 * size X).-tuple F, shows coms (fun R s => batch_commit_G1 (R := R) X crs s) cs t.
Proof.
move=> h0 hs; have [hu hv] := hiding_two_keys hk.
apply: (@commit_stage _ _ 2 _ (nth 0 (crs_u crs)) [seq i1 x | x <- X]) => //; rewrite ?size_map //.
- move=> R s; have /isokP[[c s'] e] : isok (batch_commit_G1 X crs s) by rewrite isok_batch_commit_G1 h0 hu eqxx.
  by have := batch_commit_G1_total X crs s; rewrite e => e1; have [-> _] := checked_ok (esym e1); rewrite /= size_map.
- exact: free2_u.
have [c hc] := span_u hc1 hc2 hk hp (size X) (fun i => nth 0 cs i - nth 0 [seq i1 x | x <- X] i).
by exists c => i hi; rewrite hc // bigE.
Qed.
Lemma one_B1 (X : seq F) (cs : seq (Com1 E)) : (0 < size X)%N -> size cs = size X -> multiples (u1 crs) cs ->
  exists! t : (size X).-tuple F, shows coms (fun R s => batch_commit_scalar_to_B1 (R := R) X crs s) cs t.
Proof.
move=> h0 hs /pick_multiples[r hr]; have [hu hv] := hiding_two_keys hk.
apply: (@commit_stage _ _ 1 _ (nth 0 (crs_u crs)) [seq k1 crs x | x <- X]) => //; rewrite ?size_map ?mul1n //.
- move=> R s; have /isokP[[c s'] e] : isok (batch_commit_scalar_to_B1 X crs s) by rewrite isok_batch_commit_B1 h0 hu.
  have := batch_commit_scalar_to_B1_total X crs s; rewrite e => e1; have [-> _] := checked_ok (esym e1); rewrite /= size_map; congr Ok.
  by apply: eq_mkseq => i; congr (_ + _); apply: eq_bigr => l _; rewrite mul1n ord1 addn0.
- exact: free1_u.
case: (hk) => a1 [a2 [t1 [t2 hw]]]; exists (fun i _ => r i - nth 0 X i * t1) => i hi.
rewrite big_ord_recl big_ord0 addr0 (nth_map 0) // hr ?hs // scalerBl -/(u1 crs); congr (_ - _).
exact: (s1E (nth 0 X i) hw).
Qed.
Lemma mult_B1 (R : rng E) (X : seq F) (s s' : rst R) c : batch_commit_scalar_to_B1 X crs s = Ok (c, s') -> multiples (u1 crs) (coms c).
Proof.
rewrite batch_commit_scalar_to_B1_total => e1 i; have [-> _] := checked_ok e1; rewrite size_mkseq size_map => hi.
case: (hk) => a1 [a2 [t1 [t2 hw]]]; exists (nth 0 X i * t1 + drawn s i).
rewrite nth_mkseq ?size_map // big_ord_recl big_ord0 addr0 (nth_map 0) // scalerDl -/(u1 crs); congr (_ + _).
exact: (s1E (nth 0 X i) hw).
Qed.

Lemma free2_v (a b : nat -> F) : \sum_(l < 2) a l *: nth 0 (crs_v crs) l = \sum_(l < 2) b l *: nth 0 (crs_v crs) l ->
  forall l, (l < 2)%N -> a l = b l.
Proof.
rewrite !big_ord_recl !big_ord0 !addr0 => e; have [_ h] := hiding_crs_inj hk hp (a 0%N) (a 1%N) (b 0%N) (b 1%N).
by have [e0 e1] := h e; case=> [|[|l]].
Qed.
Lemma v1_not0 : v1 crs != 0.
Proof.
case: hp => h1 h2; case: hk => a1 [a2 [t1 [t2 [eu ev _]]]]; rewrite ev /=.
by apply/eqP => -[e _]; move: h2; rewrite e eqxx.
Qed.
Lemma free1_v (a b : nat -> F) : \sum_(l < 1) a l *: nth 0 (crs_v crs) l = \sum_(l < 1) b l *: nth 0 (crs_v crs) l ->
  forall l, (l < 1)%N -> a l = b l.
Proof.
rewrite !big_ord_recl !big_ord0 !addr0 => /eqP; rewrite -subr_eq0 -scalerBl scaler_eq0 => /orP[|e].
  by rewrite subr_eq0 => /eqP e [|l].
by have := v1_not0; rewrite -/(v1 crs) in e; rewrite e.
Qed.
Lemma one_G2 (X : seq (G2 E)) (cs : seq (Com2 E)) : (0 < size X)%N -> size cs = size X ->
  exists! t : (2 * size X).-tuple F, shows coms (fun R s => batch_commit_G2 (R := R) X crs s) cs t.
Proof.
move=> h0 hs; have [hu hv] := hiding_two_keys hk.
apply: (@commit_stage _ _ 2 _ (nth 0 (crs_v crs)) [seq i2 x | x <- X]) => //; rewrite ?size_map //.
- move=> R s; have /isokP[[c s'] e] : isok (batch_commit_G2 X crs s) by rewrite isok_batch_commit_G2 h0 hv eqxx.
  by have := batch_commit_G2_total X crs s; rewrite e => e1; have [-> _] := checked_ok (esym e1); rewrite /= size_map.
- exact: free2_v.
have [c hc] := span_v hc1 hc2 hk hp (size X) (fun i => nth 0 cs i - nth 0 [seq i2 x | x <- X] i).
by exists c => i hi; rewrite hc // bigE.
Qed.
Lemma one_B2 (X : seq F) (cs : seq (Com2 E)) : (0 < size X)%N -> size cs = size X -> multiples (v1 crs) cs ->
  exists! t : (size X).-tuple F, shows coms (fun R s => batch_commit_scalar_to_B2 (R := R) X crs s) cs t.
Proof.
move=> h0 hs /pick_multiples[r hr]; have [hu hv] := hiding_two_keys hk.
apply: (@commit_stage _ _ 1 _ (nth 0 (crs_v crs)) [seq k2 crs x | x <- X]) => //; rewrite ?size_map ?mul1n //.
- move=> R s; have /isokP[[c s'] e] : isok (batch_commit_scalar_to_B2 X crs s) by rewrite isok_batch_commit_B2 h0 hv.
  have := batch_commit_scalar_to_B2_total X crs s; rewrite e => e1; have [-> _] := checked_ok (esym e1); rewrite /= size_map; congr Ok.
  by apply: eq_mkseq => i; congr (_ + _); apply: eq_bigr => l _; rewrite mul1n ord1 addn0.
- exact: free1_v.
case: (hk) => a1 [a2 [t1 [t2 hw]]]; exists (fun i _ => r i - nth 0 X i * t2) => i hi.
rewrite big_ord_recl big_ord0 addr0 (nth_map 0) // hr ?hs // scalerBl -/(v1 crs); congr (_ - _).
exact: (s2E (nth 0 X i) hw).
Qed.
Lemma mult_B2 (R : rng E) (X : seq F) (s s' : rst R) c : batch_commit_scalar_to_B2 X crs s = Ok (c, s') -> multiples (v1 crs) (coms c).
Proof.
rewrite batch_commit_scalar_to_B2_total => e1 i; have [-> _] := checked_ok e1; rewrite size_mkseq size_map => hi.
case: (hk) => a1 [a2 [t1 [t2 hw]]]; exists (nth 0 X i * t2 + drawn s i).
rewrite nth_mkseq ?size_map // big_ord_recl big_ord0 addr0 (nth_map 0) // scalerDl -/(v1 crs); congr (_ + _).
exact: (s2E (nth 0 X i) hw).
Qed.

End Hide.
End Stages.
