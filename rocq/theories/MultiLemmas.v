(** Several equations over the same commitments: completeness, and the change of
    randomness of HideCore.v for all proofs at once. *)
From mathcomp Require Import all_ssreflect all_algebra.
From Verif Require Import Base BaseLemmas Group DataStructures MatLemmas CoreAlg ComLemmas.
From Verif Require Import Generator Commit Statement Prove Verify Spec SpecApi SpecMat SpecVerify SpecHide SpecMulti.
From Verif Require Import ProveLemmas CommitLemmas Holds Complete Main Draws GenProps CapLemmas SoundGen HideCore HideTape Hiding HideProps ApiLemmas.
Set Implicit Arguments.
Unset Strict Implicit.
Unset Printing Implicit Defensive.
Import GRing.Theory.
Local Open Scope ring_scope.

Section Step.
Context {F : fieldType} {U V W : lmodType F}.
Variables (f : U -> V -> W) (m n kx ky : nat).
Variables (A u : nat -> U) (B v : nat -> V) (G : nat -> nat -> F).
Variables (X X' : nat -> U) (Y Y' : nat -> V) (xc xc' yc yc' : nat -> nat -> F).
Hypothesis hX : forall k, (k < m)%N -> X k = lin kx u (xc k).
Hypothesis hX' : forall k, (k < m)%N -> X' k = lin kx u (xc' k).
Hypothesis hY : forall j, (j < n)%N -> Y j = lin ky v (yc j).
Hypothesis hY' : forall j, (j < n)%N -> Y' j = lin ky v (yc' j).
Lemma hide_step (pe : nat -> V) (te : nat -> U) : bilin f ->
  (forall p : nat -> nat -> F, \sum_(0 <= i < kx) f (u i) (lin ky v (p i)) = 0 ->
   forall i l, (i < kx)%N -> (l < ky)%N -> p i l = 0) ->
  spanned kx u n A -> spanned ky v m B -> spanned ky v kx pe -> spanned kx u ky te ->
  gs_eq f m n G A X' B Y'
  = gs_eq f m n G A X B Y + \sum_(0 <= i < kx) f (u i) (pe i) + \sum_(0 <= l < ky) f (te l) (v l) ->
  exists tau : (nat -> nat -> F) -> nat -> nat -> F,
  (forall S S', (forall j l, (j < n)%N -> (l < ky)%N -> S j l = S' j l) ->
     forall l i, (l < ky)%N -> tau S l i = tau S' l i) /\
  forall R S T R' S' T' : nat -> nat -> F,
   (forall k i, (k < m)%N -> (i < kx)%N -> R' k i = R k i + (xc k i - xc' k i)) ->
   (forall j l, (j < n)%N -> (l < ky)%N -> S' j l = S j l + (yc j l - yc' j l)) ->
   (forall l i, (l < ky)%N -> (i < kx)%N -> T' l i = T l i + tau S l i) ->
   (forall i, (i < kx)%N -> gs_pi m n ky B Y' v G R' S' T' i + pe i = gs_pi m n ky B Y v G R S T i) /\
   (forall l, (l < ky)%N -> gs_th m n kx A X' u G S' T' l + te l = gs_th m n kx A X u G S T l).
Proof.
move=> fb indep [ac hA] [bc hB] [pec hpe] [tec hte] heq.
exists (fun S l i => thc m n G ac xc S l i - (thc m n G ac xc' (S_to yc yc' S) l i + tec l i)); split.
  move=> S S' h l i hl; congr (_ - (_ + _)); apply: eq_thc_in => // j hj; first exact: h.
  by rewrite /S_to h.
move=> R S T R' S' T' hR hS hT; split=> [i hi|l hl].
  exact: (hide_pi fb hA hB indep hX hX' hY hY' hpe hte heq hR hS hT).
exact: (hide_th hA hX hX' hte hS hT).
Qed.
End Step.

Section Glue.
Context {F : fieldType}.
Lemma glue (a : nat) (x y : nat -> F) : exists h : nat -> F,
  (forall p, (p < a)%N -> h p = x p) /\ (forall p, h (a + p)%N = y p).
Proof.
exists (fun p => if (p < a)%N then x p else y (p - a)%N); split=> p; first by move=> ->.
by rewrite ltnNge leq_addr addKn.
Qed.
Lemma rows k (x : nat -> nat -> F) : exists h : nat -> F, forall a i, (i < k)%N -> h (k * a + i)%N = x a i.
Proof. by exists (fun p => x (p %/ k)%N (p %% k)%N) => a i hi; rewrite divrow // modrow. Qed.
End Glue.

Section Multi.
Context {E : pairing}.
Implicit Types (crs : CRS E) (v : assign E) (q : eqn E).

(** Numbers of scalars drawn before each block. *)
Definition n0 v := (2 * size (aX v) + size (ax v) + 2 * size (aY v) + size (ay v))%N.
Definition pX (d : nat -> Fr E) (k i : nat) : Fr E := d (2 * k + i)%N.
Definition px v (d : nat -> Fr E) (k i : nat) : Fr E := d (2 * size (aX v) + k)%N.
Definition pY v (d : nat -> Fr E) (k i : nat) : Fr E := d (2 * size (aX v) + size (ax v) + (2 * k + i))%N.
Definition py v (d : nat -> Fr E) (k i : nat) : Fr E := d (2 * size (aX v) + size (ax v) + 2 * size (aY v) + k)%N.

Definition comsof v crs (d : nat -> Fr E) : coms4 E :=
  mkComs4
    (mkCommit (mkseq (gs_c 2 (nth 0 (com1_batch_linear_map (aX v))) (nth 0 (crs_u crs)) (pX d)) (size (aX v))) (mkmat (size (aX v)) 2 (pX d)))
    (mkCommit (mkseq (gs_c 1 (nth 0 [seq s1map crs x | x <- ax v]) (nth 0 (crs_u crs)) (px v d)) (size (ax v))) (mkmat (size (ax v)) 1 (px v d)))
    (mkCommit (mkseq (gs_c 2 (nth 0 (com2_batch_linear_map (aY v))) (nth 0 (crs_v crs)) (pY v d)) (size (aY v))) (mkmat (size (aY v)) 2 (pY v d)))
    (mkCommit (mkseq (gs_c 1 (nth 0 [seq s2map crs x | x <- ay v]) (nth 0 (crs_v crs)) (py v d)) (size (ay v))) (mkmat (size (ay v)) 1 (py v d))).

Lemma after_add (R : rng E) (s : rst R) a b : after a (after b s) = after (b + a) s.
Proof. by rewrite /after addnC iterD. Qed.

Lemma commit_all_Ok (R : rng E) v crs (s : rst R) : two_keys crs ->
  commit_all v crs s = Ok (comsof v crs (drawn s), after (n0 v) s).
Proof.
move=> [hu hv]; case: v => X x Y y; rewrite /commit_all; cbn [aX ax aY ay].
have e1 : commit_if (fun X crs s => batch_commit_G1 X crs s) X crs s
  = Ok (mkCommit (mkseq (gs_c 2 (nth 0 (com1_batch_linear_map X)) (nth 0 (crs_u crs)) (pX (drawn s))) (size X)) (mkmat (size X) 2 (pX (drawn s))), after (2 * size X) s).
  by case: X => [|X0 X] //; rewrite /commit_if batch_commit_G1_Ok.
rewrite e1 bind_Ok; cbv beta iota => {e1}.
have e2 (z : rst R) : commit_if (fun X crs s => batch_commit_scalar_to_B1 X crs s) x crs z
  = Ok (mkCommit (mkseq (gs_c 1 (nth 0 [seq s1map crs x | x <- x]) (nth 0 (crs_u crs)) (fun i j => drawn z i)) (size x)) (mkmat (size x) 1 (fun i j => drawn z i)), after (size x) z).
  by case: x => [|x0 x] //; rewrite /commit_if batch_commit_B1_Ok // hu.
rewrite e2 bind_Ok; cbv beta iota => {e2}.
have e3 (z : rst R) : commit_if (fun X crs s => batch_commit_G2 X crs s) Y crs z
  = Ok (mkCommit (mkseq (gs_c 2 (nth 0 (com2_batch_linear_map Y)) (nth 0 (crs_v crs)) (pX (drawn z))) (size Y)) (mkmat (size Y) 2 (pX (drawn z))), after (2 * size Y) z).
  by case: Y => [|Y0 Y] //; rewrite /commit_if batch_commit_G2_Ok.
rewrite e3 bind_Ok; cbv beta iota => {e3}.
have e4 (z : rst R) : commit_if (fun X crs s => batch_commit_scalar_to_B2 X crs s) y crs z
  = Ok (mkCommit (mkseq (gs_c 1 (nth 0 [seq s2map crs x | x <- y]) (nth 0 (crs_v crs)) (fun i j => drawn z i)) (size y)) (mkmat (size y) 1 (fun i j => drawn z i)), after (size y) z).
  by case: y => [|y0 y] //; rewrite /commit_if batch_commit_B2_Ok // hv.
rewrite e4 bind_Ok; cbv beta iota => {e4}.
rewrite !after_add /n0 /comsof; cbn [aX ax aY ay].
have h2 : forall i j, drawn (after (2 * size X) s) i = px (mkAssign X x Y y) (drawn s) i j.
  by move=> i j; rewrite drawn_after addnC.
have h3 : forall i j, pX (drawn (after (2 * size X + size x) s)) i j = pY (mkAssign X x Y y) (drawn s) i j.
  by move=> i j; rewrite /pX drawn_after addnC.
have h4 : forall i j, drawn (after (2 * size X + size x + 2 * size Y) s) i = py (mkAssign X x Y y) (drawn s) i j.
  by move=> i j; rewrite drawn_after addnC.
congr (Ok (mkComs4 _ _ _ _, _)); congr mkCommit.
- by apply: eq_mkseq => k; apply: eq_c_fun => i _; exact: h2.
- by apply: eq_mkmat => i j _ _; exact: h2.
- by apply: eq_mkseq => k; apply: eq_c_fun => i _; exact: h3.
- by apply: eq_mkmat => i j _ _; exact: h3.
- by apply: eq_mkseq => k; apply: eq_c_fun => i _; exact: h4.
- by apply: eq_mkmat => i j _ _; exact: h4.
Qed.

(** ** The change of randomness *)
Section Change.
Variables (sch sch' : sched) (crs : CRS E).
Hypotheses (vs : valid_sched sch) (vs' : valid_sched sch').
Hypotheses (hb : bilinear E) (hn : nondegenerate E) (hc1 : cyclic (G1 E)) (hc2 : cyclic (G2 E)).
Hypotheses (hh : hiding_crs crs) (hp : proper_crs crs).
Notation f := (comT_pairing : Com1 E -> Com2 E -> ComT E).
Let fb := comT_pairing_bilin hb.
Let tk : two_keys crs := hiding_two hh.
Variables (v v' : assign E).
Hypothesis hs : same_sizes v v'.
Variables (xX xX' xx xx' yY yY' yy yy' : nat -> nat -> Fr E) (dc : nat -> Fr E).
Hypothesis hX : forall k, (k < size (aX v))%N -> nth 0 (com1_batch_linear_map (aX v)) k = lin 2 (nth 0 (crs_u crs)) (xX k).
Hypothesis hX' : forall k, (k < size (aX v))%N -> nth 0 (com1_batch_linear_map (aX v')) k = lin 2 (nth 0 (crs_u crs)) (xX' k).
Hypothesis hx : forall k, (k < size (ax v))%N -> nth 0 [seq s1map crs x | x <- ax v] k = lin 1 (nth 0 (crs_u crs)) (xx k).
Hypothesis hx' : forall k, (k < size (ax v))%N -> nth 0 [seq s1map crs x | x <- ax v'] k = lin 1 (nth 0 (crs_u crs)) (xx' k).
Hypothesis hY : forall k, (k < size (aY v))%N -> nth 0 (com2_batch_linear_map (aY v)) k = lin 2 (nth 0 (crs_v crs)) (yY k).
Hypothesis hY' : forall k, (k < size (aY v))%N -> nth 0 (com2_batch_linear_map (aY v')) k = lin 2 (nth 0 (crs_v crs)) (yY' k).
Hypothesis hy : forall k, (k < size (ay v))%N -> nth 0 [seq s2map crs x | x <- ay v] k = lin 1 (nth 0 (crs_v crs)) (yy k).
Hypothesis hy' : forall k, (k < size (ay v))%N -> nth 0 [seq s2map crs x | x <- ay v'] k = lin 1 (nth 0 (crs_v crs)) (yy' k).
Hypothesis dX : forall k i, (k < size (aX v))%N -> (i < 2)%N -> pX dc k i = xX k i - xX' k i.
Hypothesis dx : forall k i, (k < size (ax v))%N -> (i < 1)%N -> px v dc k i = xx k i - xx' k i.
Hypothesis dY : forall k i, (k < size (aY v))%N -> (i < 2)%N -> pY v dc k i = yY k i - yY' k i.
Hypothesis dy : forall k i, (k < size (ay v))%N -> (i < 1)%N -> py v dc k i = yy k i - yy' k i.

Definition shifted (d d' : nat -> Fr E) : Prop := forall p, (p < n0 v)%N -> d' p = d p + dc p.

Lemma n0_X k i : (k < size (aX v))%N -> (i < 2)%N -> (2 * k + i < n0 v)%N.
Proof.
move=> hk hi; apply: (leq_trans (lt_row hk hi)); rewrite /n0; do 2!apply: (leq_trans _ (leq_addr _ _)); exact: leq_addr.
Qed.
Lemma n0_x k : (k < size (ax v))%N -> (2 * size (aX v) + k < n0 v)%N.
Proof.
move=> hk; rewrite /n0; apply: (@leq_trans (2 * size (aX v) + size (ax v))%N); first by rewrite ltn_add2l.
apply: (leq_trans _ (leq_addr _ _)); exact: leq_addr.
Qed.
Lemma n0_Y k i : (k < size (aY v))%N -> (i < 2)%N -> (2 * size (aX v) + size (ax v) + (2 * k + i) < n0 v)%N.
Proof.
move=> hk hi; rewrite /n0; apply: (leq_trans _ (leq_addr _ _)); rewrite ltn_add2l; exact: lt_row.
Qed.
Lemma n0_y k : (k < size (ay v))%N -> (2 * size (aX v) + size (ax v) + 2 * size (aY v) + k < n0 v)%N.
Proof. by move=> hk; rewrite /n0 ltn_add2l. Qed.

Lemma px_same d k i : px v' d k i = px v d k i. Proof. by case: hs => h1 h2 h3 h4; rewrite /px h1. Qed.
Lemma pY_same d k i : pY v' d k i = pY v d k i. Proof. by case: hs => h1 h2 h3 h4; rewrite /pY h1 h2. Qed.
Lemma py_same d k i : py v' d k i = py v d k i. Proof. by case: hs => h1 h2 h3 h4; rewrite /py h1 h2 h3. Qed.

Lemma shift_aX d d' k i : shifted d d' -> (k < size (aX v))%N -> (i < 2)%N -> pX d' k i = pX d k i + (xX k i - xX' k i).
Proof. by move=> h hk hi; rewrite -dX // /pX h // n0_X. Qed.
Lemma shift_ax d d' k i : shifted d d' -> (k < size (ax v))%N -> (i < 1)%N -> px v' d' k i = px v d k i + (xx k i - xx' k i).
Proof. by move=> h hk hi; rewrite px_same -dx // /px h // n0_x. Qed.
Lemma shift_aY d d' k i : shifted d d' -> (k < size (aY v))%N -> (i < 2)%N -> pY v' d' k i = pY v d k i + (yY k i - yY' k i).
Proof. by move=> h hk hi; rewrite pY_same -dY // /pY h // n0_Y. Qed.
Lemma shift_ay d d' k i : shifted d d' -> (k < size (ay v))%N -> (i < 1)%N -> py v' d' k i = py v d k i + (yy k i - yy' k i).
Proof. by move=> h hk hi; rewrite py_same -dy // /py h // n0_y. Qed.

(** The commitments do not change. *)
Lemma coms_same d d' : shifted d d' ->
  [/\ coms (cX (comsof v' crs d')) = coms (cX (comsof v crs d)), coms (cx (comsof v' crs d')) = coms (cx (comsof v crs d)),
      coms (cY (comsof v' crs d')) = coms (cY (comsof v crs d)) & coms (cy (comsof v' crs d')) = coms (cy (comsof v crs d))].
Proof.
move=> h; case: (hs) => h1 h2 h3 h4; split; cbn [cX cx cY cy comsof coms]; rewrite -?h1 -?h2 -?h3 -?h4; apply: eq_in_mkseq => k hk.
- by apply: (hide_c hX hX') => // a i ha hi; rewrite (shift_aX h).
- by apply: (hide_c hx hx') => // a i ha hi; rewrite (shift_ax h).
- by apply: (hide_c hY hY') => // a i ha hi; rewrite (shift_aY h).
- by apply: (hide_c hy hy') => // a i ha hi; rewrite (shift_ay h).
Qed.

(** The published part of a proof. *)
Definition pubpf (g : EquProof E) := (pi g, theta g, equ_type g).
(** What is shown of one equation, and of a list. *)
Definition step_ok q (dp : seq (Com2 E)) (dt : seq (Com1 E)) : Prop :=
  exists tau : (nat -> Fr E) -> nat -> Fr E,
  (forall d d', (forall p, (p < n0 v)%N -> d p = d' p) -> forall p, (p < eqn_draws q)%N -> tau d p = tau d' p) /\
  forall d d', shifted d d' -> forall (R R' : rng E) (s : rst R) (z : rst R'),
    (forall p, (p < eqn_draws q)%N -> drawn z p = drawn s p + tau d p) ->
  exists pf pf', [/\ eqn_prove sch q v (comsof v crs d) crs s = Ok (pf, after (eqn_draws q) s),
    eqn_prove sch' q v' (comsof v' crs d') crs z = Ok (pf', after (eqn_draws q) z)
    & pubpf (correct_pf dp dt pf') = pubpf pf].

Lemma ppe_step (q : PPE E) dp dt : eqn_wf (EqPPE q) v ->
  spanned 2 (nth 0 (crs_v crs)) 2 (nth 0 dp) -> spanned 2 (nth 0 (crs_u crs)) 2 (nth 0 dt) ->
  linear_map_PPE (ppe_val q (aX v') (aY v')) = linear_map_PPE (ppe_val q (aX v) (aY v)) + \sum_(0 <= i < 2) f (nth 0 (crs_u crs) i) (nth 0 dp i)
    + \sum_(0 <= j < 2) f (nth 0 dt j) (nth 0 (crs_v crs) j) ->
  step_ok (EqPPE q) dp dt.
Proof.
move=> [lX lY wf] sp st; rewrite -(ppe_lin hb q) -(ppe_lin hb q).
case: (hs) => h1 h2 h3 h4; rewrite -h1 -h3 => heq.
have [tau [ext ht]] := hide_step hX hX' hY hY' fb (fun p => indep_le (p := p) hb hn hh hp (isT : (2 <= 2)%N) (isT : (2 <= 2)%N)) (span_u hc1 hc2 hh hp _ _) (span_v hc1 hc2 hh hp _ _) sp st heq.
exists (fun d p => tau (pY v d) (p %/ 2)%N (p %% 2)%N); split.
  move=> d d' hd p hpp; apply: ext; last by rewrite ltn_divLR.
  by move=> j l hj hl; apply: hd; apply: n0_Y.
case: wf => ha hb' /dims_rect hG; have [hu hv] := tk.
move=> d d' hd R R' s z hz.
have [hpi hth] := ht (pX d) (pY v d) (fun l i => drawn s (2 * l + i)%N) (pX d') (pY v' d') (fun l i => drawn z (2 * l + i)%N)
  (fun k i hk hi => shift_aX hd hk hi) (fun k i hk hi => shift_aY hd hk hi)
  (fun l i hl hi => etrans (hz _ (leq_trans (lt_row hl hi) (isT : (2 * 2 <= 4)%N))) (congr1 (fun k => drawn s (2 * l + i)%N + k) (f_equal2 (tau (pY v d)) (divrow l hi) (modrow l hi)))).
exists (ppe_pf q (aX v) (aY v) (cX (comsof v crs d)) (cY (comsof v crs d)) crs (drawn s)).
exists (ppe_pf q (aX v') (aY v') (cX (comsof v' crs d')) (cY (comsof v' crs d')) crs (drawn z)).
split.
- rewrite /eqn_prove (ppe_prove_Ok vs) //; cbn [cX cx cY cy comsof].
  by rewrite /ppe_pshape hu hv /= ?andbT ?andbT /prove_shape lX lY !rect_mkmat hG ha hb' !eqxx.
- rewrite /eqn_prove (ppe_prove_Ok vs') //; cbn [cX cx cY cy comsof].
  by rewrite /ppe_pshape hu hv /= ?andbT ?andbT /prove_shape -h1 -h3 lX lY !rect_mkmat hG ha hb' !eqxx.
rewrite /pubpf /correct_pf /ppe_pf; cbn [pi theta equ_type crand cX cx cY cy comsof]; rewrite !size_mkseq.
congr (_, _, _); apply: eq_in_mkseq => i hi; rewrite nth_mkseq //.
- rewrite -h1 -h3; apply: etrans (etrans (hpi i hi) _).
    congr (_ + _); apply: eq_pi_fun.
    + by move=> [|[|l]].
    + by move=> j hj; rewrite ent_mkmat.
    + by move=> j l hj hl; rewrite ent_mkmat.
    + by move=> l hl; rewrite ent_mkmat //; congr (drawn z _); move: hi hl; case: i => [|[|i]] //; case: l => [|[|l]].
  apply: eq_pi_fun.
  + by move=> [|[|l]].
  + by move=> j hj; rewrite ent_mkmat.
  + by move=> j l hj hl; rewrite ent_mkmat.
  + by move=> l hl; rewrite ent_mkmat //; congr (drawn s _); move: hi hl; case: i => [|[|i]] //; case: l => [|[|l]].
- rewrite -h1 -h3; apply: etrans (etrans (hth i hi) _).
    congr (_ + _); apply: eq_th_fun.
    + by move=> [|[|l]].
    + by move=> j hj; rewrite ent_mkmat.
    + by move=> l hl; rewrite ent_mkmat //; congr (drawn z _); move: hi hl; case: i => [|[|i]] //; case: l => [|[|l]].
  apply: eq_th_fun.
  + by move=> [|[|l]].
  + by move=> j hj; rewrite ent_mkmat.
  + by move=> l hl; rewrite ent_mkmat //; congr (drawn s _); move: hi hl; case: i => [|[|i]] //; case: l => [|[|l]].
Qed.

Lemma ms1_step (q : MSMEG1 E) dp dt : eqn_wf (EqMS1 q) v ->
  spanned 1 (nth 0 (crs_v crs)) 2 (nth 0 dp) -> spanned 2 (nth 0 (crs_u crs)) 1 (nth 0 dt) ->
  f (com1_linear_map (ms1_val q (aX v') (ay v'))) (s2map crs 1) = f (com1_linear_map (ms1_val q (aX v) (ay v))) (s2map crs 1) + \sum_(0 <= i < 2) f (nth 0 (crs_u crs) i) (nth 0 dp i)
    + \sum_(0 <= j < 1) f (nth 0 dt j) (nth 0 (crs_v crs) j) ->
  step_ok (EqMS1 q) dp dt.
Proof.
move=> [lX lY wf] sp st; rewrite -(ms1_lin hb crs q) -(ms1_lin hb crs q).
case: (hs) => h1 h2 h3 h4; rewrite -h1 -h4 => heq.
have [tau [ext ht]] := hide_step hX hX' hy hy' fb (fun p => indep_le (p := p) hb hn hh hp (isT : (2 <= 2)%N) (isT : (1 <= 2)%N)) (span_u hc1 hc2 hh hp _ _) (span_s2 hh _ _) sp st heq.
exists (fun d p => tau (py v d) (p %/ 2)%N (p %% 2)%N); split.
  move=> d d' hd p hpp; apply: ext; last by rewrite ltn_divLR.
  by move=> j l hj hl; apply: hd; apply: n0_y.
case: wf => ha hb' /dims_rect hG; have [hu hv] := tk.
move=> d d' hd R R' s z hz.
have [hpi hth] := ht (pX d) (py v d) (fun l i => drawn s (2 * l + i)%N) (pX d') (py v' d') (fun l i => drawn z (2 * l + i)%N)
  (fun k i hk hi => shift_aX hd hk hi) (fun k i hk hi => shift_ay hd hk hi)
  (fun l i hl hi => etrans (hz _ (leq_trans (lt_row hl hi) (isT : (2 * 1 <= 2)%N))) (congr1 (fun k => drawn s (2 * l + i)%N + k) (f_equal2 (tau (py v d)) (divrow l hi) (modrow l hi)))).
exists (ms1_pf q (aX v) (ay v) (cX (comsof v crs d)) (cy (comsof v crs d)) crs (drawn s)).
exists (ms1_pf q (aX v') (ay v') (cX (comsof v' crs d')) (cy (comsof v' crs d')) crs (drawn z)).
split.
- rewrite /eqn_prove (ms1_prove_Ok vs) //; cbn [cX cx cY cy comsof].
  by rewrite /ms1_pshape hu hv /= ?andbT ?andbT /prove_shape lX lY !rect_mkmat hG ha hb' !eqxx.
- rewrite /eqn_prove (ms1_prove_Ok vs') //; cbn [cX cx cY cy comsof].
  by rewrite /ms1_pshape hu hv /= ?andbT ?andbT /prove_shape -h1 -h4 lX lY !rect_mkmat hG ha hb' !eqxx.
rewrite /pubpf /correct_pf /ms1_pf; cbn [pi theta equ_type crand cX cx cY cy comsof]; rewrite !size_mkseq.
congr (_, _, _); apply: eq_in_mkseq => i hi; rewrite nth_mkseq //.
- rewrite -h1 -h4; apply: etrans (etrans (hpi i hi) _).
    congr (_ + _); apply: eq_pi_fun.
    + by move=> [|[|l]].
    + by move=> j hj; rewrite ent_mkmat.
    + by move=> j l hj hl; rewrite ent_mkmat.
    + by move=> l hl; rewrite ent_mkmat //; congr (drawn z _); move: hi hl; case: i => [|[|i]] //; case: l => [|[|l]].
  apply: eq_pi_fun.
  + by move=> [|[|l]].
  + by move=> j hj; rewrite ent_mkmat.
  + by move=> j l hj hl; rewrite ent_mkmat.
  + by move=> l hl; rewrite ent_mkmat //; congr (drawn s _); move: hi hl; case: i => [|[|i]] //; case: l => [|[|l]].
- rewrite -h1 -h4; apply: etrans (etrans (hth i hi) _).
    congr (_ + _); apply: eq_th_fun.
    + by move=> [|[|l]].
    + by move=> j hj; rewrite ent_mkmat.
    + by move=> l hl; rewrite ent_mkmat //; congr (drawn z _); move: hi hl; case: i => [|[|i]] //; case: l => [|[|l]].
  apply: eq_th_fun.
  + by move=> [|[|l]].
  + by move=> j hj; rewrite ent_mkmat.
  + by move=> l hl; rewrite ent_mkmat //; congr (drawn s _); move: hi hl; case: i => [|[|i]] //; case: l => [|[|l]].
Qed.

Lemma ms2_step (q : MSMEG2 E) dp dt : eqn_wf (EqMS2 q) v ->
  spanned 2 (nth 0 (crs_v crs)) 1 (nth 0 dp) -> spanned 1 (nth 0 (crs_u crs)) 2 (nth 0 dt) ->
  f (s1map crs 1) (com2_linear_map (ms2_val q (ax v') (aY v'))) = f (s1map crs 1) (com2_linear_map (ms2_val q (ax v) (aY v))) + \sum_(0 <= i < 1) f (nth 0 (crs_u crs) i) (nth 0 dp i)
    + \sum_(0 <= j < 2) f (nth 0 dt j) (nth 0 (crs_v crs) j) ->
  step_ok (EqMS2 q) dp dt.
Proof.
move=> [lX lY wf] sp st; rewrite -(ms2_lin hb crs q) -(ms2_lin hb crs q).
case: (hs) => h1 h2 h3 h4; rewrite -h2 -h3 => heq.
have [tau [ext ht]] := hide_step hx hx' hY hY' fb (fun p => indep_le (p := p) hb hn hh hp (isT : (1 <= 2)%N) (isT : (2 <= 2)%N)) (span_s1 hh _ _) (span_v hc1 hc2 hh hp _ _) sp st heq.
exists (fun d p => tau (pY v d) (p %/ 1)%N (p %% 1)%N); split.
  move=> d d' hd p hpp; apply: ext; last by rewrite ltn_divLR.
  by move=> j l hj hl; apply: hd; apply: n0_Y.
case: wf => ha hb' /dims_rect hG; have [hu hv] := tk.
move=> d d' hd R R' s z hz.
have [hpi hth] := ht (px v d) (pY v d) (fun l i => drawn s (1 * l + i)%N) (px v' d') (pY v' d') (fun l i => drawn z (1 * l + i)%N)
  (fun k i hk hi => shift_ax hd hk hi) (fun k i hk hi => shift_aY hd hk hi)
  (fun l i hl hi => etrans (hz _ (leq_trans (lt_row hl hi) (isT : (1 * 2 <= 2)%N))) (congr1 (fun k => drawn s (1 * l + i)%N + k) (f_equal2 (tau (pY v d)) (divrow l hi) (modrow l hi)))).
exists (ms2_pf q (ax v) (aY v) (cx (comsof v crs d)) (cY (comsof v crs d)) crs (drawn s)).
exists (ms2_pf q (ax v') (aY v') (cx (comsof v' crs d')) (cY (comsof v' crs d')) crs (drawn z)).
split.
- rewrite /eqn_prove (ms2_prove_Ok vs) //; cbn [cX cx cY cy comsof].
  by rewrite /ms2_pshape hu hv /= ?andbT ?andbT /prove_shape lX lY !rect_mkmat hG ha hb' !eqxx.
- rewrite /eqn_prove (ms2_prove_Ok vs') //; cbn [cX cx cY cy comsof].
  by rewrite /ms2_pshape hu hv /= ?andbT ?andbT /prove_shape -h2 -h3 lX lY !rect_mkmat hG ha hb' !eqxx.
rewrite /pubpf /correct_pf /ms2_pf; cbn [pi theta equ_type crand cX cx cY cy comsof]; rewrite !size_mkseq.
congr (_, _, _); apply: eq_in_mkseq => i hi; rewrite nth_mkseq //.
- rewrite -h2 -h3; apply: etrans (etrans (hpi i hi) _).
    congr (_ + _); apply: eq_pi_fun.
    + by move=> [|[|l]].
    + by move=> j hj; rewrite ent_mkmat.
    + by move=> j l hj hl; rewrite ent_mkmat.
    + by move=> l hl; rewrite ent_mkmat //; congr (drawn z _); move: hi hl; case: i => [|[|i]] //; case: l => [|[|l]].
  apply: eq_pi_fun.
  + by move=> [|[|l]].
  + by move=> j hj; rewrite ent_mkmat.
  + by move=> j l hj hl; rewrite ent_mkmat.
  + by move=> l hl; rewrite ent_mkmat //; congr (drawn s _); move: hi hl; case: i => [|[|i]] //; case: l => [|[|l]].
- rewrite -h2 -h3; apply: etrans (etrans (hth i hi) _).
    congr (_ + _); apply: eq_th_fun.
    + by move=> [|[|l]].
    + by move=> j hj; rewrite ent_mkmat.
    + by move=> l hl; rewrite ent_mkmat //; congr (drawn z _); move: hi hl; case: i => [|[|i]] //; case: l => [|[|l]].
  apply: eq_th_fun.
  + by move=> [|[|l]].
  + by move=> j hj; rewrite ent_mkmat.
  + by move=> l hl; rewrite ent_mkmat //; congr (drawn s _); move: hi hl; case: i => [|[|i]] //; case: l => [|[|l]].
Qed.

Lemma quad_step (q : QuadEqu E) dp dt : eqn_wf (EqQuad q) v ->
  spanned 1 (nth 0 (crs_v crs)) 1 (nth 0 dp) -> spanned 1 (nth 0 (crs_u crs)) 1 (nth 0 dt) ->
  f (s1map crs 1) (quad_val q (ax v') (ay v') *: s2map crs 1) = f (s1map crs 1) (quad_val q (ax v) (ay v) *: s2map crs 1) + \sum_(0 <= i < 1) f (nth 0 (crs_u crs) i) (nth 0 dp i)
    + \sum_(0 <= j < 1) f (nth 0 dt j) (nth 0 (crs_v crs) j) ->
  step_ok (EqQuad q) dp dt.
Proof.
move=> [lX lY wf] sp st; rewrite -(quad_lin hb crs q) -(quad_lin hb crs q).
case: (hs) => h1 h2 h3 h4; rewrite -h2 -h4 => heq.
have [tau [ext ht]] := hide_step hx hx' hy hy' fb (fun p => indep_le (p := p) hb hn hh hp (isT : (1 <= 2)%N) (isT : (1 <= 2)%N)) (span_s1 hh _ _) (span_s2 hh _ _) sp st heq.
exists (fun d p => tau (py v d) (p %/ 1)%N (p %% 1)%N); split.
  move=> d d' hd p hpp; apply: ext; last by rewrite ltn_divLR.
  by move=> j l hj hl; apply: hd; apply: n0_y.
case: wf => ha hb' /dims_rect hG; have [hu hv] := tk.
move=> d d' hd R R' s z hz.
have [hpi hth] := ht (px v d) (py v d) (fun l i => drawn s (1 * l + i)%N) (px v' d') (py v' d') (fun l i => drawn z (1 * l + i)%N)
  (fun k i hk hi => shift_ax hd hk hi) (fun k i hk hi => shift_ay hd hk hi)
  (fun l i hl hi => etrans (hz _ (leq_trans (lt_row hl hi) (isT : (1 * 1 <= 1)%N))) (congr1 (fun k => drawn s (1 * l + i)%N + k) (f_equal2 (tau (py v d)) (divrow l hi) (modrow l hi)))).
exists (quad_pf q (ax v) (ay v) (cx (comsof v crs d)) (cy (comsof v crs d)) crs (drawn s)).
exists (quad_pf q (ax v') (ay v') (cx (comsof v' crs d')) (cy (comsof v' crs d')) crs (drawn z)).
split.
- rewrite /eqn_prove (quad_prove_Ok vs) //; cbn [cX cx cY cy comsof].
  by rewrite /quad_pshape hu hv /= ?andbT ?andbT /prove_shape lX lY !rect_mkmat hG ha hb' !eqxx.
- rewrite /eqn_prove (quad_prove_Ok vs') //; cbn [cX cx cY cy comsof].
  by rewrite /quad_pshape hu hv /= ?andbT ?andbT /prove_shape -h2 -h4 lX lY !rect_mkmat hG ha hb' !eqxx.
rewrite /pubpf /correct_pf /quad_pf; cbn [pi theta equ_type crand cX cx cY cy comsof]; rewrite !size_mkseq.
congr (_, _, _); apply: eq_in_mkseq => i hi; rewrite nth_mkseq //.
- rewrite -h2 -h4; apply: etrans (etrans (hpi i hi) _).
    congr (_ + _); apply: eq_pi_fun.
    + by move=> [|[|l]].
    + by move=> j hj; rewrite ent_mkmat.
    + by move=> j l hj hl; rewrite ent_mkmat.
    + by move=> l hl; rewrite ent_mkmat //; congr (drawn z _); move: hi hl; case: i => [|[|i]] //; case: l => [|[|l]].
  apply: eq_pi_fun.
  + by move=> [|[|l]].
  + by move=> j hj; rewrite ent_mkmat.
  + by move=> j l hj hl; rewrite ent_mkmat.
  + by move=> l hl; rewrite ent_mkmat //; congr (drawn s _); move: hi hl; case: i => [|[|i]] //; case: l => [|[|l]].
- rewrite -h2 -h4; apply: etrans (etrans (hth i hi) _).
    congr (_ + _); apply: eq_th_fun.
    + by move=> [|[|l]].
    + by move=> j hj; rewrite ent_mkmat.
    + by move=> l hl; rewrite ent_mkmat //; congr (drawn z _); move: hi hl; case: i => [|[|i]] //; case: l => [|[|l]].
  apply: eq_th_fun.
  + by move=> [|[|l]].
  + by move=> j hj; rewrite ent_mkmat.
  + by move=> l hl; rewrite ent_mkmat //; congr (drawn s _); move: hi hl; case: i => [|[|i]] //; case: l => [|[|l]].
Qed.

Fixpoint fix_list (L : seq (eqn E * (seq (Com2 E) * seq (Com1 E)))) (pfs : seq (EquProof E)) : seq (EquProof E) :=
  match L, pfs with
  | t :: L, pf :: pfs => correct_pf t.2.1 t.2.2 pf :: fix_list L pfs
  | _, _ => [::]
  end.
Definition ldraws (L : seq (eqn E * (seq (Com2 E) * seq (Com1 E)))) : nat := sumn [seq eqn_draws q | q <- [seq t.1 | t <- L]].

Lemma steps_ok L : every (fun t => step_ok t.1 t.2.1 t.2.2) L ->
  exists tau : (nat -> Fr E) -> nat -> Fr E,
  (forall d d', (forall p, (p < n0 v)%N -> d p = d' p) -> forall p, (p < ldraws L)%N -> tau d p = tau d' p) /\
  forall d d', shifted d d' -> forall (R R' : rng E) (s : rst R) (z : rst R'),
    (forall p, (p < ldraws L)%N -> drawn z p = drawn s p + tau d p) ->
  exists pfs pfs', [/\ prove_all sch [seq t.1 | t <- L] v (comsof v crs d) crs s = Ok (pfs, after (ldraws L) s),
    prove_all sch' [seq t.1 | t <- L] v' (comsof v' crs d') crs z = Ok (pfs', after (ldraws L) z)
    & [seq pubpf g | g <- fix_list L pfs'] = [seq pubpf g | g <- pfs]].
Proof.
elim: L => [|t L IH].
  by move=> _; exists (fun _ _ => 0); split=> // d d' _ R R' s z _; exists [::], [::].
move=> [[tau [ext ht]] /IH[tauL [extL hL]]].
have eN : ldraws (t :: L) = (eqn_draws t.1 + ldraws L)%N by [].
exists (fun d p => if (p < eqn_draws t.1)%N then tau d p else tauL d (p - eqn_draws t.1)%N); split.
  move=> d d' hd p; rewrite eN => hp'; case: ifPn => h; first exact: ext.
  by apply: extL => //; rewrite ltn_subLR // leqNgt.
move=> d d' hd R R' s z hz.
have [p h|pf [pf' [e1 e2 e3]]] := ht d d' hd R R' s z.
  have := hz p; rewrite eN h; apply; exact: (leq_trans h (leq_addr _ _)).
have [p h|pfs [pfs' [e4 e5 e6]]] := hL d d' hd R R' (after (eqn_draws t.1) s) (after (eqn_draws t.1) z).
  have := hz (p + eqn_draws t.1)%N; rewrite eN addnC ltn_add2l => /(_ h).
  by rewrite ltnNge leq_addr addKn !drawn_after addnC.
exists (pf :: pfs), (pf' :: pfs'); rewrite eN -!after_add; split.
- rewrite [LHS]/= e1 bind_Ok; cbv beta iota; rewrite e4 bind_Ok; cbv beta iota; by rewrite after_add addnC -after_add.
- rewrite [LHS]/= e2 bind_Ok; cbv beta iota; rewrite e5 bind_Ok; cbv beta iota; by rewrite after_add addnC -after_add.
cbn [fix_list map]; by rewrite e3 e6.
Qed.

Lemma shift_hide L : every (fun t => step_ok t.1 t.2.1 t.2.2) L ->
  same_output (system_draws [seq t.1 | t <- L] v) public_system (fun p => public_system (p.1, fix_list L p.2))
    (fun R s => prove_system (R := R) sch [seq t.1 | t <- L] v crs s) (fun R s => prove_system (R := R) sch' [seq t.1 | t <- L] v' crs s).
Proof.
move=> /steps_ok[tau [ext h]].
have n0' : n0 v' = n0 v by case: hs => h1 h2 h3 h4; rewrite /n0 h1 h2 h3 h4.
rewrite -[system_draws _ _]/(n0 v + ldraws L)%N; set N := (_ + _)%N.
have lt0 p : (p < n0 v)%N -> (p < N)%N by move=> h0; apply: (leq_trans h0 (leq_addr _ _)).
pose to (d : nat -> Fr E) p := d p + (if (p < n0 v)%N then dc p else tau d (p - n0 v)%N).
pose back (d : nat -> Fr E) p := d p - (if (p < n0 v)%N then dc p else tau (fun p => d p - dc p) (p - n0 v)%N).
have lL p : (p < N)%N -> ~~ (p < n0 v)%N -> (p - n0 v < ldraws L)%N.
  by move=> h1; rewrite -leqNgt => h2; rewrite ltn_subLR.
have to_ext d d' : (forall p, (p < N)%N -> d p = d' p) -> forall p, (p < N)%N -> to d p = to d' p.
  move=> hd p hp'; rewrite /to hd //; case: ifPn => // h0; congr (_ + _).
  by apply: ext; [move=> q hq; apply: hd; exact: lt0 | exact: lL].
have back_ext d d' : (forall p, (p < N)%N -> d p = d' p) -> forall p, (p < N)%N -> back d p = back d' p.
  move=> hd p hp'; rewrite /back hd //; case: ifPn => // h0; congr (_ - _).
  by apply: ext; [move=> q hq; rewrite hd //; exact: lt0 | exact: lL].
have tb d p : (p < N)%N -> back (to d) p = d p.
  move=> hp'; rewrite /back {1}/to; case: ifPn => h0; first by rewrite addrK.
  rewrite (ext (fun p => to d p - dc p) d) ?addrK //; last exact: lL.
  by move=> q hq; rewrite /to hq addrK.
have bt d p : (p < N)%N -> to (back d) p = d p.
  move=> hp'; rewrite /to {1}/back; case: ifPn => h0; first by rewrite subrK.
  rewrite (ext (back d) (fun p => d p - dc p)) ?subrK //; last exact: lL.
  by move=> q hq; rewrite /back hq.
exists (fun t : N.-tuple (Fr E) => cut N (to (nth 0 t))); split.
  exists (fun t : N.-tuple (Fr E) => cut N (back (nth 0 t))) => t.
    rewrite -[RHS]cut_nth; apply: eq_cut => p hp'; rewrite -[RHS](tb _ _ hp').
    by apply: back_ext => // q hq; rewrite nth_cut.
  rewrite -[RHS]cut_nth; apply: eq_cut => p hp'; rewrite -[RHS](bt _ _ hp').
  by apply: to_ext => // q hq; rewrite nth_cut.
move=> R R' s z /cut_eq hd.
have hz p : (p < N)%N -> drawn z p = to (drawn s) p.
  by move=> hp'; rewrite hd //; apply: to_ext => // q hq; exact: nth_cut.
have hsh : shifted (drawn s) (drawn z) by move=> p h0; rewrite hz ?lt0 // /to h0.
have [p h0|pfs [pfs' [e1 e2 e3]]] := h _ _ hsh R R' (after (n0 v) s) (after (n0 v) z).
  rewrite !drawn_after addnC hz ?ltn_add2l // /to ltnNge leq_addr addKn //.
have [c1 c2 c3 c4] := coms_same hsh.
rewrite /prove_system commit_all_Ok // bind_Ok; cbv beta iota; rewrite commit_all_Ok // bind_Ok; cbv beta iota.
rewrite e1 bind_Ok n0'; cbv beta iota; rewrite e2 bind_Ok; cbv beta iota; rewrite /seen /public_system.
by cbn [fst snd]; rewrite c1 c2 c3 c4 -/pubpf e3.
Qed.
End Change.

Section Final.
Variables (sch sch' : sched) (crs : CRS E).
Hypotheses (vs : valid_sched sch) (vs' : valid_sched sch').
Hypotheses (hb : bilinear E) (hn : nondegenerate E) (hc1 : cyclic (G1 E)) (hc2 : cyclic (G2 E)).
Hypotheses (hp : proper_crs crs).
Notation f := (comT_pairing : Com1 E -> Com2 E -> ComT E).
Let fb := comT_pairing_bilin hb.

(** The corrections account for the difference of the two values. *)
Definition eqn_diff (v v' : assign E) q (dp : seq (Com2 E)) (dt : seq (Com1 E)) : Prop :=
  match q with
  | EqPPE q => [/\ spanned 2 (nth 0 (crs_v crs)) 2 (nth 0 dp), spanned 2 (nth 0 (crs_u crs)) 2 (nth 0 dt)
    & linear_map_PPE (ppe_val q (aX v') (aY v')) = linear_map_PPE (ppe_val q (aX v) (aY v)) + \sum_(0 <= i < 2) f (nth 0 (crs_u crs) i) (nth 0 dp i)
      + \sum_(0 <= j < 2) f (nth 0 dt j) (nth 0 (crs_v crs) j)]
  | EqMS1 q => [/\ spanned 1 (nth 0 (crs_v crs)) 2 (nth 0 dp), spanned 2 (nth 0 (crs_u crs)) 1 (nth 0 dt)
    & f (com1_linear_map (ms1_val q (aX v') (ay v'))) (s2map crs 1) = f (com1_linear_map (ms1_val q (aX v) (ay v))) (s2map crs 1) + \sum_(0 <= i < 2) f (nth 0 (crs_u crs) i) (nth 0 dp i)
      + \sum_(0 <= j < 1) f (nth 0 dt j) (nth 0 (crs_v crs) j)]
  | EqMS2 q => [/\ spanned 2 (nth 0 (crs_v crs)) 1 (nth 0 dp), spanned 1 (nth 0 (crs_u crs)) 2 (nth 0 dt)
    & f (s1map crs 1) (com2_linear_map (ms2_val q (ax v') (aY v'))) = f (s1map crs 1) (com2_linear_map (ms2_val q (ax v) (aY v))) + \sum_(0 <= i < 1) f (nth 0 (crs_u crs) i) (nth 0 dp i)
      + \sum_(0 <= j < 2) f (nth 0 dt j) (nth 0 (crs_v crs) j)]
  | EqQuad q => [/\ spanned 1 (nth 0 (crs_v crs)) 1 (nth 0 dp), spanned 1 (nth 0 (crs_u crs)) 1 (nth 0 dt)
    & f (s1map crs 1) (quad_val q (ax v') (ay v') *: s2map crs 1) = f (s1map crs 1) (quad_val q (ax v) (ay v) *: s2map crs 1) + \sum_(0 <= i < 1) f (nth 0 (crs_u crs) i) (nth 0 dp i)
      + \sum_(0 <= j < 1) f (nth 0 dt j) (nth 0 (crs_v crs) j)]
  end.

Lemma every_impl (T : Type) (P Q : T -> Prop) L : (forall t, P t -> Q t) -> every P L -> every Q L.
Proof. by move=> h; elim: L => //= t L IH [/h h1 /IH h2]. Qed.

Lemma sys_hide v v' L : hiding_crs crs -> same_sizes v v' ->
  every (fun t => eqn_wf t.1 v /\ eqn_diff v v' t.1 t.2.1 t.2.2) L ->
  same_output (system_draws [seq t.1 | t <- L] v) public_system (fun p => public_system (p.1, fix_list L p.2))
    (fun R s => prove_system (R := R) sch [seq t.1 | t <- L] v crs s) (fun R s => prove_system (R := R) sch' [seq t.1 | t <- L] v' crs s).
Proof.
move=> hh hs hL.
have [xX hX] := span_u hc1 hc2 hh hp (size (aX v)) (nth 0 (com1_batch_linear_map (aX v))).
have [xX' hX'] := span_u hc1 hc2 hh hp (size (aX v)) (nth 0 (com1_batch_linear_map (aX v'))).
have [xx hx] := span_s1 hh (size (ax v)) (ax v).
have [xx' hx'] := span_s1 hh (size (ax v)) (ax v').
have [yY hY] := span_v hc1 hc2 hh hp (size (aY v)) (nth 0 (com2_batch_linear_map (aY v))).
have [yY' hY'] := span_v hc1 hc2 hh hp (size (aY v)) (nth 0 (com2_batch_linear_map (aY v'))).
have [yy hy] := span_s2 hh (size (ay v)) (ay v).
have [yy' hy'] := span_s2 hh (size (ay v)) (ay v').
have [rX eX] := rows 2 (fun k i => xX k i - xX' k i).
have [rY eY] := rows 2 (fun k i => yY k i - yY' k i).
have [g1 [a1 b1]] := glue (2 * size (aY v))%N rY (fun k => yy k 0%N - yy' k 0%N).
have [g2 [a2 b2]] := glue (size (ax v)) (fun k => xx k 0%N - xx' k 0%N) g1.
have [dc [a3 b3]] := glue (2 * size (aX v))%N rX g2.
have dX : forall k i, (k < size (aX v))%N -> (i < 2)%N -> pX dc k i = xX k i - xX' k i.
  by move=> k i hk hi; rewrite /pX a3 ?lt_row // eX.
have dx : forall k i, (k < size (ax v))%N -> (i < 1)%N -> px v dc k i = xx k i - xx' k i.
  by move=> k [|//] hk _; rewrite /px b3 a2.
have dY : forall k i, (k < size (aY v))%N -> (i < 2)%N -> pY v dc k i = yY k i - yY' k i.
  by move=> k i hk hi; rewrite /pY -addnA b3 b2 a1 ?lt_row // eY.
have dy : forall k i, (k < size (ay v))%N -> (i < 1)%N -> py v dc k i = yy k i - yy' k i.
  by move=> k [|//] hk _; rewrite /py -!(addnA (2 * size (aX v))%N) -(addnA (size (ax v))) b3 b2 b1.
apply: (shift_hide hh hs hX hX' hx hx' hY hY' hy hy' dX dx dY dy).
apply: every_impl hL => -[q [dp dt]] /=; case: q => q [wf [sp st e]].
- exact: (ppe_step vs vs' hb hn hc1 hc2 hh hp hs hX hX' hY hY' dX dY wf sp st e).
- exact: (ms1_step vs vs' hb hn hc1 hc2 hh hp hs hX hX' hy hy' dX dy wf sp st e).
- exact: (ms2_step vs vs' hb hn hc1 hc2 hh hp hs hx hx' hY hY' dx dY wf sp st e).
- exact: (quad_step vs vs' hb hn hh hp hs hx hx' hy hy' dx dy wf sp st e).
Qed.
End Final.
End Multi.
