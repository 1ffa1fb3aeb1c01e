(** C98: which random tapes make [prove] return the same proof. *)
From mathcomp Require Import all_ssreflect all_algebra.
From Verif Require Import Base BaseLemmas Group DataStructures Generator Commit Statement Prove Verify Spec SpecMat SpecVerify SpecHide SpecPanic SpecFormula FormulaProps HideCore HideTape Hiding HideProps.
Set Implicit Arguments.
Unset Strict Implicit.
Unset Printing Implicit Defensive.
Import GRing.Theory.
Local Open Scope ring_scope.

Lemma checked_ok {A B} cs (a b : A) (c d : B) : checked cs (a, c) = Ok (b, d) -> b = a.
Proof. by rewrite /checked; case: (first_failed cs) => // -[]. Qed.

Lemma scal_inj (F : fieldType) (V : lmodType F) (v : V) (a b : F) : v != 0 -> (a *: v = b *: v <-> a = b).
Proof.
move=> hv; split=> [/eqP|-> //].
by rewrite -subr_eq0 -scalerBl scaler_eq0 (negbTE hv) orbF subr_eq0 => /eqP.
Qed.

(** The four combinations of the matrix which are seen under a binding key. *)
Lemma comb (F : fieldType) (a b c d a' b' c' d' t1 t2 : F) :
  [/\ a' + t2 * c' = a + t2 * c, b' + t2 * d' = b + t2 * d, a' + t1 * b' = a + t1 * b & c' + t1 * d' = c + t1 * d] <->
  exists k, [/\ a' = a + t1 * t2 * k, b' = b - t2 * k, c' = c - t1 * k & d' = d + k].
Proof.
split=> [[h1 h2 h3 h4]|[k [-> -> -> ->]]].
  have hb : b' = b - t2 * (d' - d) by rewrite mulrBr opprB addrA -h2 addrK.
  have hc : c' = c - t1 * (d' - d) by rewrite mulrBr opprB addrA -h4 addrK.
  exists (d' - d); split=> //; last by rewrite addrC subrK.
  move: h1; rewrite hc mulrBr => /(canRL (addrK _)) ->.
  by rewrite opprB -addrA [t2 * c + _]addrC subrK mulrA (mulrC t2).
split.
- by rewrite mulrBr mulrA (mulrC t2 t1) addrACA subrr addr0.
- by rewrite mulrDr addrACA addNr addr0.
- by rewrite mulrBr mulrA addrACA subrr addr0.
by rewrite mulrDr addrACA addNr addr0.
Qed.

Lemma mkseq_same {A} (f g : nat -> A) n : mkseq f n = mkseq g n <-> forall k, (k < n)%N -> f k = g k.
Proof.
split=> [h k hk|h]; last by apply/eq_in_map => k; rewrite mem_iota; apply: h.
by have := congr1 (fun l => nth (f k) l k) h; rewrite !nth_mkseq.
Qed.

Section Fibre.
Context {E : pairing}.
Implicit Types crs : CRS E.

(** Two values of [prove] which differ in the matrix only. *)
Lemma pv_same m n kx ky A X B Y G R S (T T' : matrix (Fr E)) crs t :
  let f := prove_value m n kx ky A X B Y G R S T crs t in
  let g := prove_value m n kx ky A X B Y G R S T' crs t in
  (pi g, theta g) = (pi f, theta f) <->
  (forall k, (k < kx)%N -> \sum_(l < ky) at_ T' l k *: nth 0 (crs_v crs) l = \sum_(l < ky) at_ T l k *: nth 0 (crs_v crs) l) /\
  (forall l, (l < ky)%N -> \sum_(k < kx) at_ T' l k *: nth 0 (crs_u crs) k = \sum_(k < kx) at_ T l k *: nth 0 (crs_u crs) k).
Proof.
have sub (c : nat -> nat -> Fr E) (M : matrix (Fr E)) k :
  \sum_(l < ky) (c k l - at_ M l k) *: nth 0 (crs_v crs) l
  = \sum_(l < ky) c k l *: nth 0 (crs_v crs) l - \sum_(l < ky) at_ M l k *: nth 0 (crs_v crs) l.
  by rewrite -sumrB; apply: eq_bigr => l _; rewrite scalerBl.
move=> f g; rewrite /f /g /=; split=> [[/mkseq_same h1 /mkseq_same h2]|[h1 h2]].
  split=> [k hk|l hl]; last by have /addrI := h2 l hl.
  have /addrI := h1 k hk.
  by rewrite !(sub (fun k l => \sum_(j < n) (\sum_(i < m) at_ R i k * at_ G i j) * at_ S j l)) => /addrI/oppr_inj.
congr (_, _); apply/mkseq_same => k hk; last by rewrite h2.
by congr (_ + _); rewrite !(sub (fun k l => \sum_(j < n) (\sum_(i < m) at_ R i k * at_ G i j) * at_ S j l)) h1.
Qed.

Lemma binding_sum crs a1 a2 t1 t2 (x y : Fr E) : binding_crs_with crs a1 a2 t1 t2 ->
  x *: nth 0 (crs_u crs) 0 + y *: nth 0 (crs_u crs) 1 = (x + t1 * y) *: nth 0 (crs_u crs) 0 /\
  x *: nth 0 (crs_v crs) 0 + y *: nth 0 (crs_v crs) 1 = (x + t2 * y) *: nth 0 (crs_v crs) 0.
Proof.
case=> -> -> _ /=; split.
  have -> : (t1 *: g1_gen crs, t1 *: (a1 *: g1_gen crs)) = t1 *: (g1_gen crs, a1 *: g1_gen crs) :> Com1 E by [].
  by rewrite scalerA -scalerDl (mulrC y).
have -> : (t2 *: g2_gen crs, t2 *: (a2 *: g2_gen crs)) = t2 *: (g2_gen crs, a2 *: g2_gen crs) :> Com2 E by [].
by rewrite scalerA -scalerDl (mulrC y).
Qed.

Lemma heads_not0 crs a1 a2 t1 t2 : binding_crs_with crs a1 a2 t1 t2 -> proper_crs crs ->
  nth 0 (crs_u crs) 0 != 0 /\ nth 0 (crs_v crs) 0 != 0.
Proof.
case=> -> -> _ [h1 h2] /=; split; apply/eqP => -[h _]; first by rewrite h eqxx in h1.
by rewrite h eqxx in h2.
Qed.

Lemma k_C98_ppe (R R' : rng E) sch sch' (q : PPE E) X Y (cx : Commit1 E) (cy : Commit2 E) crs a1 a2 t1 t2 (s s' : rst R) (z z' : rst R') f g :
  valid_sched sch -> valid_sched sch' -> binding_crs_with crs a1 a2 t1 t2 -> proper_crs crs ->
  ppe_prove sch q X Y cx cy crs s = Ok (f, s') -> ppe_prove sch' q X Y cx cy crs z = Ok (g, z') ->
  ((pi g, theta g) = (pi f, theta f) <->
   exists k, [/\ drawn z 0 = drawn s 0 + t1 * t2 * k, drawn z 1 = drawn s 1 - t2 * k,
     drawn z 2 = drawn s 2 - t1 * k & drawn z 3 = drawn s 3 + k]).
Proof.
move=> vs vs' hk hp; have [nu nv] := heads_not0 hk hp.
rewrite (FormulaProps.ppe_prove_total _ _ _ _ _ _ _ vs) (FormulaProps.ppe_prove_total _ _ _ _ _ _ _ vs') => hf hg; rewrite (checked_ok hf) (checked_ok hg) {hf hg}.
rewrite -comb; apply: (iff_trans (pv_same _ _ _ _ _ _ _ _ _ _ _ _ _ _ _)).
have bu x y := (binding_sum x y hk).1; have bv x y := (binding_sum x y hk).2.
split=> [[h1 h2]|[h1 h2 h3 h4]].
  have := h1 0%N isT; have := h1 1%N isT; have := h2 0%N isT; have := h2 1%N isT.
  rewrite !big_ord_recl !big_ord0 !addr0 /= !bu !bv => /(scal_inj _ _ nu) e4 /(scal_inj _ _ nu) e3 /(scal_inj _ _ nv) e2 /(scal_inj _ _ nv) e1.
  by split.
by split=> -[|[|//]] _; rewrite !big_ord_recl !big_ord0 !addr0 /= !(bu, bv) ?h1 ?h2 ?h3 ?h4.
Qed.

Lemma k_C98_ms1 (R R' : rng E) sch sch' (q : MSMEG1 E) X Y (cx : Commit1 E) (cy : Commit2 E) crs (s s' : rst R) (z z' : rst R') f g :
  valid_sched sch -> valid_sched sch' -> nth 0 (crs_v crs) 0 != 0 ->
  ms1_prove sch q X Y cx cy crs s = Ok (f, s') -> ms1_prove sch' q X Y cx cy crs z = Ok (g, z') ->
  ((pi g, theta g) = (pi f, theta f) <-> drawn z 0 = drawn s 0 /\ drawn z 1 = drawn s 1).
Proof.
move=> vs vs' nv; rewrite (FormulaProps.ms1_prove_total _ _ _ _ _ _ _ vs) (FormulaProps.ms1_prove_total _ _ _ _ _ _ _ vs') => hf hg; rewrite (checked_ok hf) (checked_ok hg) {hf hg}.
apply: (iff_trans (pv_same _ _ _ _ _ _ _ _ _ _ _ _ _ _ _)).
split=> [[h _]|[h0 h1]].
  by have := h 0%N isT; have := h 1%N isT; rewrite !big_ord_recl !big_ord0 !addr0 /= => /(scal_inj _ _ nv) e1 /(scal_inj _ _ nv) e0.
by split=> -[|[|//]] _ //; rewrite !big_ord_recl !big_ord0 /= /at_ /= ?h0 ?h1.
Qed.

Lemma k_C98_ms2 (R R' : rng E) sch sch' (q : MSMEG2 E) X Y (cx : Commit1 E) (cy : Commit2 E) crs (s s' : rst R) (z z' : rst R') f g :
  valid_sched sch -> valid_sched sch' -> nth 0 (crs_u crs) 0 != 0 ->
  ms2_prove sch q X Y cx cy crs s = Ok (f, s') -> ms2_prove sch' q X Y cx cy crs z = Ok (g, z') ->
  ((pi g, theta g) = (pi f, theta f) <-> drawn z 0 = drawn s 0 /\ drawn z 1 = drawn s 1).
Proof.
move=> vs vs' nu; rewrite (FormulaProps.ms2_prove_total _ _ _ _ _ _ _ vs) (FormulaProps.ms2_prove_total _ _ _ _ _ _ _ vs') => hf hg; rewrite (checked_ok hf) (checked_ok hg) {hf hg}.
apply: (iff_trans (pv_same _ _ _ _ _ _ _ _ _ _ _ _ _ _ _)).
split=> [[_ h]|[h0 h1]].
  by have := h 0%N isT; have := h 1%N isT; rewrite !big_ord_recl !big_ord0 !addr0 /= => /(scal_inj _ _ nu) e1 /(scal_inj _ _ nu) e0.
by split=> -[|[|//]] _ //; rewrite !big_ord_recl !big_ord0 /= /at_ /= ?h0 ?h1.
Qed.

Lemma k_C98_quad (R R' : rng E) sch sch' (q : QuadEqu E) X Y (cx : Commit1 E) (cy : Commit2 E) crs (s s' : rst R) (z z' : rst R') f g :
  valid_sched sch -> valid_sched sch' -> nth 0 (crs_u crs) 0 != 0 \/ nth 0 (crs_v crs) 0 != 0 ->
  quad_prove sch q X Y cx cy crs s = Ok (f, s') -> quad_prove sch' q X Y cx cy crs z = Ok (g, z') ->
  ((pi g, theta g) = (pi f, theta f) <-> drawn z 0 = drawn s 0).
Proof.
move=> vs vs' n; rewrite (FormulaProps.quad_prove_total _ _ _ _ _ _ _ vs) (FormulaProps.quad_prove_total _ _ _ _ _ _ _ vs') => hf hg; rewrite (checked_ok hf) (checked_ok hg) {hf hg}.
apply: (iff_trans (pv_same _ _ _ _ _ _ _ _ _ _ _ _ _ _ _)).
split=> [[h1 h2]|h0].
  case: n => n; [have := h2 0%N isT | have := h1 0%N isT]; rewrite !big_ord_recl !big_ord0 !addr0 /= => /(scal_inj _ _ n); exact.
by split=> -[|//] _; rewrite !big_ord_recl !big_ord0 /= /at_ /= ?h0.
Qed.
End Fibre.

Lemma ppe_again {E : pairing} (R R' : rng E) sch (q : PPE E) X Y (cx : Commit1 E) (cy : Commit2 E) (crs : CRS E) (s s' : rst R) (z : rst R') f :
  valid_sched sch -> ppe_prove sch q X Y cx cy crs s = Ok (f, s') -> exists g z', ppe_prove sch q X Y cx cy crs z = Ok (g, z').
Proof.
move=> vs; rewrite !(FormulaProps.ppe_prove_total _ _ _ _ _ _ _ vs) /checked; case: first_failed => // _; by eexists; eexists.
Qed.

Lemma ms1_again {E : pairing} (R R' : rng E) sch (q : MSMEG1 E) X Y (cx : Commit1 E) (cy : Commit2 E) (crs : CRS E) (s s' : rst R) (z : rst R') f :
  valid_sched sch -> ms1_prove sch q X Y cx cy crs s = Ok (f, s') -> exists g z', ms1_prove sch q X Y cx cy crs z = Ok (g, z').
Proof.
move=> vs; rewrite !(FormulaProps.ms1_prove_total _ _ _ _ _ _ _ vs) /checked; case: first_failed => // _; by eexists; eexists.
Qed.

Lemma ms2_again {E : pairing} (R R' : rng E) sch (q : MSMEG2 E) X Y (cx : Commit1 E) (cy : Commit2 E) (crs : CRS E) (s s' : rst R) (z : rst R') f :
  valid_sched sch -> ms2_prove sch q X Y cx cy crs s = Ok (f, s') -> exists g z', ms2_prove sch q X Y cx cy crs z = Ok (g, z').
Proof.
move=> vs; rewrite !(FormulaProps.ms2_prove_total _ _ _ _ _ _ _ vs) /checked; case: first_failed => // _; by eexists; eexists.
Qed.

Lemma quad_again {E : pairing} (R R' : rng E) sch (q : QuadEqu E) X Y (cx : Commit1 E) (cy : Commit2 E) (crs : CRS E) (s s' : rst R) (z : rst R') f :
  valid_sched sch -> quad_prove sch q X Y cx cy crs s = Ok (f, s') -> exists g z', quad_prove sch q X Y cx cy crs z = Ok (g, z').
Proof.
move=> vs; rewrite !(FormulaProps.quad_prove_total _ _ _ _ _ _ _ vs) /checked; case: first_failed => // _; by eexists; eexists.
Qed.

Section Counts.
Variables (F : finFieldType) (A B C : lmodType F) (e : A -> B -> C).
Let E := Pairing e.

(** Counting the tapes which give the proof [f]. *)
Lemma fibre_card N (K : finType) (h : K -> N.-tuple F) (run : forall R : rng E, rst R -> res (EquProof E * rst R)) (f : EquProof E) :
  injective h -> (forall t : N.-tuple F, exists g z', run tape_rng (tval t : seq F) = Ok (g, z') /\
    ((pi g, theta g) = (pi f, theta f) <-> exists k, t = h k)) ->
  tapes N (fun g => (pi g, theta g)) run (fun r => if r is Ok v then v == (pi f, theta f) else false) = #|K|.
Proof.
move=> hi hr; rewrite /tapes -(card_imset K hi); apply: eq_card => t; rewrite !inE.
have [g [z' [-> hg]]] := hr t; rewrite /seen; apply/eqP/imsetP => [/hg [k ->]|[k _ ht]]; first by exists k.
by apply/hg; exists k.
Qed.

Lemma tup_eq N (t u : N.-tuple F) : t = u <-> forall i, (i < N)%N -> nth 0 t i = nth 0 u i.
Proof.
split=> [-> //|h]; apply: val_inj; apply: (@eq_from_nth _ 0); rewrite !size_tuple // => i; exact: h.
Qed.

Lemma nth_draws N (R : rng E) (s : rst R) i : (i < N)%N -> nth 0 (draws N s) i = drawn s i.
Proof. by move=> hi; rewrite -(tnth_nth 0 _ (Ordinal hi)) tnth_mktuple. Qed.

Lemma k_C98_ppe_counts (R : rng E) sch (q : PPE E) X Y (cx : Commit1 E) (cy : Commit2 E) (crs : CRS E) (s s' : rst R) f :
  valid_sched sch -> binding_crs crs -> proper_crs crs -> ppe_prove sch q X Y cx cy crs s = Ok (f, s') ->
  tapes 4 (fun g => (pi g, theta g)) (fun R s => ppe_prove (R := R) sch q X Y cx cy crs s)
    (fun r => if r is Ok v then v == (pi f, theta f) else false) = #|F|.
Proof.
move=> vs [a1 [a2 [t1 [t2 hk]]]] hp hf.
pose h (k : F) : 4.-tuple F := [tuple drawn s 0 + t1 * t2 * k; drawn s 1 - t2 * k; drawn s 2 - t1 * k; drawn s 3 + k].
apply: (@fibre_card _ _ h) => [k k' /(congr1 (fun t : 4.-tuple F => nth 0 t 3)) /addrI //|t].
have [g [z' hg]] := ppe_again (tval t : rst (@tape_rng E)) vs hf; exists g, z'; split=> //.
apply: (iff_trans (k_C98_ppe vs vs hk hp hf hg)); rewrite !tape_drawn; split=> [[k [h0 h1 h2 h3]]|[k ->]]; exists k => //.
by apply/tup_eq => -[|[|[|[|//]]]] _.
Qed.

Lemma k_C98_ms1_counts (R : rng E) sch (q : MSMEG1 E) X Y (cx : Commit1 E) (cy : Commit2 E) (crs : CRS E) (s s' : rst R) f :
  valid_sched sch -> nth 0 (crs_v crs) 0 != 0 -> ms1_prove sch q X Y cx cy crs s = Ok (f, s') ->
  tapes 2 (fun g => (pi g, theta g)) (fun R s => ms1_prove (R := R) sch q X Y cx cy crs s)
    (fun r => if r is Ok v then v == (pi f, theta f) else false) = 1%N.
Proof.
move=> vs hn hf; rewrite -[RHS]card_unit; apply: (@fibre_card _ _ (fun _ : unit => draws 2 s : 2.-tuple F)) => [[] [] //|t].
have [g [z' hg]] := ms1_again (tval t : rst (@tape_rng E)) vs hf; exists g, z'; split=> //.
apply: (iff_trans (k_C98_ms1 vs vs hn hf hg)); rewrite !tape_drawn.
split=> [[h0 h1]|[_ ->]]; last by rewrite !nth_draws.
by exists tt; apply/tup_eq => -[|[|//]] _; rewrite nth_draws.
Qed.

Lemma k_C98_ms2_counts (R : rng E) sch (q : MSMEG2 E) X Y (cx : Commit1 E) (cy : Commit2 E) (crs : CRS E) (s s' : rst R) f :
  valid_sched sch -> nth 0 (crs_u crs) 0 != 0 -> ms2_prove sch q X Y cx cy crs s = Ok (f, s') ->
  tapes 2 (fun g => (pi g, theta g)) (fun R s => ms2_prove (R := R) sch q X Y cx cy crs s)
    (fun r => if r is Ok v then v == (pi f, theta f) else false) = 1%N.
Proof.
move=> vs hn hf; rewrite -[RHS]card_unit; apply: (@fibre_card _ _ (fun _ : unit => draws 2 s : 2.-tuple F)) => [[] [] //|t].
have [g [z' hg]] := ms2_again (tval t : rst (@tape_rng E)) vs hf; exists g, z'; split=> //.
apply: (iff_trans (k_C98_ms2 vs vs hn hf hg)); rewrite !tape_drawn.
split=> [[h0 h1]|[_ ->]]; last by rewrite !nth_draws.
by exists tt; apply/tup_eq => -[|[|//]] _; rewrite nth_draws.
Qed.

Lemma k_C98_quad_counts (R : rng E) sch (q : QuadEqu E) X Y (cx : Commit1 E) (cy : Commit2 E) (crs : CRS E) (s s' : rst R) f :
  valid_sched sch -> nth 0 (crs_u crs) 0 != 0 \/ nth 0 (crs_v crs) 0 != 0 -> quad_prove sch q X Y cx cy crs s = Ok (f, s') ->
  tapes 1 (fun g => (pi g, theta g)) (fun R s => quad_prove (R := R) sch q X Y cx cy crs s)
    (fun r => if r is Ok v then v == (pi f, theta f) else false) = 1%N.
Proof.
move=> vs hn hf; rewrite -[RHS]card_unit; apply: (@fibre_card _ _ (fun _ : unit => draws 1 s : 1.-tuple F)) => [[] [] //|t].
have [g [z' hg]] := quad_again (tval t : rst (@tape_rng E)) vs hf; exists g, z'; split=> //.
apply: (iff_trans (k_C98_quad vs vs hn hf hg)); rewrite !tape_drawn.
split=> [h0|[_ ->]]; last by rewrite nth_draws.
by exists tt; apply/tup_eq => -[|//] _; rewrite nth_draws.
Qed.
End Counts.
