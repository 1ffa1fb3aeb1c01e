(** C98: how many tapes give one proof of [commit_and_prove]. *)
From mathcomp Require Import all_ssreflect all_algebra.
From Verif Require Import Base BaseLemmas Group DataStructures Generator Commit Statement Prove Verify Spec SpecMat SpecVerify SpecHide SpecPanic SpecFormula ProveLemmas FormulaProps BenchLemmas HideCore HideTape Hiding HideProps GenProps FibreProps FibreCom SpecRun RunCore RunProps RunThms.
Set Implicit Arguments.
Unset Strict Implicit.
Unset Printing Implicit Defensive.
Import GRing.Theory.
Local Open Scope ring_scope.

Section Counts.
Variables (F : finFieldType) (A B C : lmodType F) (e : A -> B -> C).
Let E := Pairing e.

Lemma view_card N (K : finType) (h : K -> N.-tuple F) (run : forall R : rng E, rst R -> res (CProof E * rst R)) (f : CProof E) :
  injective h -> (forall t : N.-tuple F, exists g z', run tape_rng (tval t : seq F) = Ok (g, z') /\
    (public g = public f <-> exists k, t = h k)) ->
  tapes N public run (fun r => if r is Ok v then v == public f else false) = #|K|.
Proof.
move=> hi hr; rewrite /tapes -(card_imset K hi); apply: eq_card => t; rewrite !inE.
have [g [z' [-> hg]]] := hr t; rewrite /seen; apply/eqP/imsetP => [/hg [k ->]|[k _ ht]]; first by exists k.
by apply/hg; exists k.
Qed.

Section Tape.
Variables (R : rng E) (s : rst R).
Definition pairf (o : nat) (t : F) (k : nat -> F) (p : nat) : F :=
  if odd (p - o) then drawn s p + k (p - o)./2 else drawn s p - t * k (p - o)./2.
Lemma moved_iff (tp : seq F) o n t k : moved s (tp : rst (@tape_rng E)) o n t k <->
  forall p, (o <= p)%N -> (p < o + 2 * n)%N -> nth 0 tp p = pairf o t k p.
Proof.
split=> [h p ho hp|h i hi].
  have hq : ((p - o)./2 < n)%N.
    by rewrite -ltn_double -[n.*2]mul2n (leq_ltn_trans _ (_ : (p - o < 2 * n)%N)) ?ltn_subLR // -[X in (_ <= X)%N]odd_double_half leq_addl.
  have [e0 e1] := h _ hq; move: e0 e1; rewrite !tape_drawn.
  have ep : p = (o + (odd (p - o) + 2 * (p - o)./2))%N by rewrite mul2n odd_double_half subnKC.
  rewrite /pairf; case eo: (odd (p - o)) ep => ep e0 e1; last by rewrite {1 2}ep add0n.
  by rewrite {1 2}ep add1n addnS.
have h0 : (o + 2 * i < o + 2 * n)%N by rewrite ltn_add2l ltn_mul2l.
have h1 : ((o + 2 * i).+1 < o + 2 * n)%N by rewrite -addnS ltn_add2l !mul2n -!doubleS leq_double.
rewrite !tape_drawn !h ?leq_addr ?(leq_trans (leq_addr (2 * i) o)) // /pairf -addnS !addKn /= mul2n odd_double doubleK /= uphalf_double.
by [].
Qed.
Lemma moved_ext (R' : rng E) (z : rst R') o n t k k' : (forall i, (i < n)%N -> k i = k' i) -> moved s z o n t k -> moved s z o n t k'.
Proof. by move=> h hm i hi; rewrite -h //; exact: hm. Qed.
Lemma same_iff (tp : seq F) o n : same_from s (tp : rst (@tape_rng E)) o n <->
  forall p, (o <= p)%N -> (p < o + n)%N -> nth 0 tp p = drawn s p.
Proof.
split=> [h p ho hp|h i hi]; last by rewrite tape_drawn h ?leq_addr ?ltn_add2l.
by have := h (p - o)%N; rewrite tape_drawn subnKC // => ->; rewrite // ltn_subLR.
Qed.
End Tape.

Lemma nth_tup n (k : nat -> F) i : (i < n)%N -> nth 0 [tuple k j | j < n] i = k i.
Proof. by move=> hi; rewrite -(tnth_nth 0 _ (Ordinal hi)) tnth_mktuple. Qed.

Section Ker.
Variables (W : lmodType F) (n : nat) (w : nat -> W).
Definition isker (k : n.-tuple F) : bool := \sum_(i < n) nth 0 k i *: w i == 0.
Definition ker : Type := {k : n.-tuple F | isker k}.
Definition co (k : ker) : nat -> F := nth 0 (val k).
Lemma ker_sum (k : ker) : \sum_(i < n) co k i *: w i = 0.
Proof. exact/eqP/(valP k). Qed.
Lemma ker_mk (k : nat -> F) : \sum_(i < n) k i *: w i = 0 -> exists x : ker, forall i, (i < n)%N -> k i = co x i.
Proof.
move=> h; have hx : isker [tuple k j | j < n].
  by rewrite /isker -[X in _ == X]h; apply/eqP; apply: eq_bigr => i _; rewrite nth_tup.
by exists (exist (fun k => is_true (isker k)) _ hx) => i hi; rewrite /co /= nth_tup.
Qed.
Lemma ker_inj (k k' : ker) : (forall i, (i < n)%N -> co k i = co k' i) -> k = k'.
Proof. by move=> h; apply: val_inj; apply/tup_eq. Qed.
Lemma ker_card : #|[finType of ker]| = orthogonal n w.
Proof. by rewrite card_sig /orthogonal cardsE. Qed.
End Ker.

Lemma k_C98_ms1_run_counts (R : rng E) (sch : sched) (q : MSMEG1 E) (X : seq (G1 E)) (Y : seq (Fr E)) (crs : CRS E) (s s' : rst R) p :
  valid_sched sch -> binding_crs crs -> proper_crs crs -> ms1_commit_and_prove sch q X Y crs s = Ok (p, s') ->
  let m := size X in let n := size Y in
  tapes (2 * m + n + 2) public (fun R s => ms1_commit_and_prove (R := R) sch q X Y crs s)
    (fun r => if r is Ok v then v == public p else false)
  = orthogonal (W := [lmodType F of F^o]) m (fun i => (nth 0 (ms1_b q) i + \sum_(j < n) at_ (ms1_gamma q) i j * nth 0 Y j)%R).
Proof.
move=> vs [a1 [a2 [t1 [t2 hk]]]] hp hf m n.
pose w (i : nat) : [lmodType F of F^o] := nth 0 (ms1_b q) i + \sum_(j < n) at_ (ms1_gamma q) i j * nth 0 Y j.
rewrite -[RHS](@ker_card [lmodType F of F^o] m w).
pose ee (k : nat -> F) : F := \sum_(i < m) \sum_(j < n) k i * at_ (ms1_gamma q) i j * drawn s (2 * m + j).
pose f (k : nat -> F) p := if (p < 2 * m)%N then pairf s 0 t1 k p else if (p < 2 * m + n)%N then drawn s p
  else if (p == 2 * m + n)%N then drawn s p - t1 * ee k else drawn s p + ee k.
pose h (k : ker m w) : (2 * m + n + 2).-tuple F := [tuple f (co k) p | p < 2 * m + n + 2].
have hn (t : (2 * m + n + 2).-tuple F) (k : ker m w) : [/\ moved s (tval t : rst (@tape_rng E)) 0 m t1 (co k), same_from s (tval t : rst (@tape_rng E)) (2 * m) n,
  drawn (tval t : rst (@tape_rng E)) (2 * m + n) = drawn s (2 * m + n) - t1 * ee (co k) & drawn (tval t : rst (@tape_rng E)) (2 * m + n).+1 = drawn s (2 * m + n).+1 + ee (co k)] <-> t = h k.
  rewrite tup_eq; rewrite !tape_drawn; split=> [[/moved_iff h1 /same_iff h2 h3 h4] i hi|ht].
    rewrite nth_tup // /f; case: ltnP => l1; first exact: h1.
    case: ltnP => l2; first exact: h2.
    case: eqP => [-> //|ne]; have -> : i = (2 * m + n).+1.
      by apply/eqP; rewrite eqn_leq -ltnS -addn2 hi /= ltn_neqAle l2 andbT; apply/eqP => e0; apply: ne.
    by [].
  split.
  - apply/moved_iff => i _ hi; rewrite ht ?nth_tup /f ?hi //; by rewrite -addnA ltn_addr.
  - apply/same_iff => i hl hi; rewrite ht ?nth_tup /f ?hi ?ltnNge ?hl //=; by rewrite -ltnNge ltn_addr.
  - have hb : (2 * m + n < 2 * m + n + 2)%N by rewrite addn2 ltnW.
    by rewrite ht // nth_tup // /f ltnNge leq_addr /= ltnn eqxx.
  have hb : ((2 * m + n).+1 < 2 * m + n + 2)%N by rewrite addn2.
  by rewrite ht // nth_tup // /f ltnNge (leq_trans (leq_addr n _) (leqnSn _)) /= ltnNge leqnSn /= gtn_eqF.
apply: (@view_card _ _ h) => [k k' ek|t].
  have [h1 _ _ _] := (hn (h k) k).2 erefl; have [h1' _ _ _] := (hn (h k) k').2 ek.
  by apply: ker_inj => i hi; have [_ ] := h1 i hi; have [_ -> /addrI] := h1' i hi.
have [g [z' hg]] : exists g z', ms1_commit_and_prove sch q X Y crs (tval t : rst (@tape_rng E)) = Ok (g, z').
  by move: hf; rewrite !(ms1_cap_total _ _ _ _ _ vs) /checked; case: first_failed => // _; eexists; eexists.
exists g, z'; split=> //; apply: (iff_trans (k_C98_ms1_run vs vs hk hp hf hg)); split=> [[k [h1 h2 h3 h4 h5]]|[k /hn [h2 h3 h4 h5]]].
  have [x hx] := @ker_mk [lmodType F of F^o] m w k h1; exists x; apply/hn.
  have ex : ee k = ee (co x) by apply: eq_bigr => i _; apply: eq_bigr => j _; rewrite hx.
  by split=> //; [exact: (moved_ext hx) | rewrite -ex | rewrite -ex].
by exists (co k); split=> //; exact (@ker_sum [lmodType F of F^o] m w k).
Qed.

Lemma k_C98_ms2_run_counts (R : rng E) (sch : sched) (q : MSMEG2 E) (X : seq (Fr E)) (Y : seq (G2 E)) (crs : CRS E) (s s' : rst R) p :
  valid_sched sch -> binding_crs crs -> proper_crs crs -> ms2_commit_and_prove sch q X Y crs s = Ok (p, s') ->
  let m := size X in let n := size Y in
  tapes (m + 2 * n + 2) public (fun R s => ms2_commit_and_prove (R := R) sch q X Y crs s)
    (fun r => if r is Ok v then v == public p else false)
  = orthogonal (W := [lmodType F of F^o]) n (fun j => (nth 0 (ms2_a q) j + \sum_(i < m) at_ (ms2_gamma q) i j * nth 0 X i)%R).
Proof.
move=> vs [a1 [a2 [t1 [t2 hk]]]] hp hf m n.
pose w (j : nat) : [lmodType F of F^o] := nth 0 (ms2_a q) j + \sum_(i < m) at_ (ms2_gamma q) i j * nth 0 X i.
rewrite -[RHS](@ker_card [lmodType F of F^o] n w).
pose f (k : nat -> F) p := if (p < m)%N then drawn s p else if (p < m + 2 * n)%N then pairf s m t2 k p else drawn s p.
pose h (k : ker n w) : (m + 2 * n + 2).-tuple F := [tuple f (co k) p | p < m + 2 * n + 2].
have hn (t : (m + 2 * n + 2).-tuple F) (k : ker n w) : [/\ same_from s (tval t : rst (@tape_rng E)) 0 m, moved s (tval t : rst (@tape_rng E)) m n t2 (co k) &
  same_from s (tval t : rst (@tape_rng E)) (m + 2 * n) 2] <-> t = h k.
  rewrite tup_eq; split=> [[/same_iff h1 /moved_iff h2 /same_iff h3] i hi|ht].
    rewrite nth_tup // /f; case: ltnP => l1; first exact: h1.
    by case: ltnP => l2; [exact: h2 | exact: h3].
  split.
  - by apply/same_iff => i _ hi; rewrite ht ?nth_tup /f ?hi // -addnA ltn_addr.
  - by apply/moved_iff => i hl hi; rewrite ht ?nth_tup /f ?(leq_gtF hl) ?hi // ltn_addr.
  by apply/same_iff => i hl hi; rewrite ht ?nth_tup // /f (leq_gtF hl) (leq_gtF (leq_trans (leq_addr _ _) hl)).
apply: (@view_card _ _ h) => [k k' ek|t].
  have [_ h1 _] := (hn (h k) k).2 erefl; have [_ h1' _] := (hn (h k) k').2 ek.
  by apply: ker_inj => i hi; have [_ ] := h1 i hi; have [_ -> /addrI] := h1' i hi.
have [g [z' hg]] : exists g z', ms2_commit_and_prove sch q X Y crs (tval t : rst (@tape_rng E)) = Ok (g, z').
  by move: hf; rewrite !(ms2_cap_total _ _ _ _ _ vs) /checked; case: first_failed => // _; eexists; eexists.
exists g, z'; split=> //; apply: (iff_trans (k_C98_ms2_run vs vs hk hp hf hg)); split=> [[k [h1 h2 h3 h4]]|[k /hn [h2 h3 h4]]].
  by have [x hx] := @ker_mk [lmodType F of F^o] n w k h1; exists x; apply/hn; split=> //; exact: (moved_ext hx).
by exists (co k); split=> //; exact (@ker_sum [lmodType F of F^o] n w k).
Qed.

Lemma k_C98_quad_run_counts (R : rng E) (sch : sched) (q : QuadEqu E) (X : seq (Fr E)) (Y : seq (Fr E)) (crs : CRS E) (s s' : rst R) p :
  valid_sched sch -> u1 crs != 0 -> v1 crs != 0 -> quad_commit_and_prove sch q X Y crs s = Ok (p, s') ->
  let m := size X in let n := size Y in
  tapes (m + n + 1) public (fun R s => quad_commit_and_prove (R := R) sch q X Y crs s)
    (fun r => if r is Ok v then v == public p else false)
  = 1%N.
Proof.
move=> vs nu nv hf m n; rewrite -[RHS]card_unit.
pose h (k : unit) : (m + n + 1).-tuple F := [tuple drawn s p | p < m + n + 1].
apply: (@view_card _ _ h) => [[] [] //|t].
have [g [z' hg]] : exists g z', quad_commit_and_prove sch q X Y crs (tval t : rst (@tape_rng E)) = Ok (g, z').
  by move: hf; rewrite !(quad_cap_total _ _ _ _ _ vs) /checked; case: first_failed => // _; eexists; eexists.
exists g, z'; split=> //; apply: (iff_trans (k_C98_quad_run vs vs nu nv hf hg)); apply: (iff_trans (same_iff _ _ _ _)).
split=> [hh|[x et] i _ hi]; last by rewrite et nth_tup.
by exists tt; apply/tup_eq => i hi; rewrite nth_tup // hh.
Qed.

Lemma k_C98_ppe_run_counts (R : rng E) (sch : sched) (q : PPE E) (X : seq (G1 E)) (Y : seq (G2 E)) (crs : CRS E) (s s' : rst R) p :
  valid_sched sch -> binding_crs crs -> proper_crs crs -> ppe_commit_and_prove sch q X Y crs s = Ok (p, s') ->
  let m := size X in let n := size Y in
  tapes (2 * m + 2 * n + 4) public (fun R s => ppe_commit_and_prove (R := R) sch q X Y crs s)
    (fun r => if r is Ok v then v == public p else false)
  = (orthogonal m (fun i => (nth 0 (ppe_b q) i + \sum_(j < n) at_ (ppe_gamma q) i j *: nth 0 Y j)%R) * orthogonal n (fun j => (nth 0 (ppe_a q) j + \sum_(i < m) at_ (ppe_gamma q) i j *: nth 0 X i)%R) * #|F|)%N.
Proof.
move=> vs [a1 [a2 [t1 [t2 hk]]]] hp hf m n.
pose w i := nth 0 (ppe_b q) i + \sum_(j < n) at_ (ppe_gamma q) i j *: nth 0 Y j.
pose v j := nth 0 (ppe_a q) j + \sum_(i < m) at_ (ppe_gamma q) i j *: nth 0 X i.
rewrite -[orthogonal m _](@ker_card _ m w) -[orthogonal n _](@ker_card _ n v) -!card_prod.
pose o := (2 * m + 2 * n)%N.
pose ee (k : nat -> F) : F := \sum_(i < m) \sum_(j < n) k i * at_ (ppe_gamma q) i j * (drawn s (2 * m + 2 * j) + t2 * drawn s (2 * m + 2 * j).+1).
pose f (k l : nat -> F) (c : F) p := if (p < 2 * m)%N then pairf s 0 t1 k p else if (p < o)%N then pairf s (2 * m) t2 l p
  else if (p == o)%N then drawn s p + t1 * (t2 * c - ee k) else if p == o.+1 then drawn s p + ee k - t2 * c
  else if p == o.+2 then drawn s p - t1 * c else drawn s p + c.
pose h (x : ker m w * ker n v * F) : (o + 4).-tuple F := [tuple f (co x.1.1) (co x.1.2) x.2 p | p < o + 4].
have hn (t : (o + 4).-tuple F) (x : ker m w * ker n v * F) : [/\ moved s (tval t : rst (@tape_rng E)) 0 m t1 (co x.1.1), moved s (tval t : rst (@tape_rng E)) (2 * m) n t2 (co x.1.2) &
  [/\ drawn (tval t : rst (@tape_rng E)) o = drawn s o + t1 * (t2 * x.2 - ee (co x.1.1)), drawn (tval t : rst (@tape_rng E)) o.+1 = drawn s o.+1 + ee (co x.1.1) - t2 * x.2,
      drawn (tval t : rst (@tape_rng E)) o.+2 = drawn s o.+2 - t1 * x.2 & drawn (tval t : rst (@tape_rng E)) o.+3 = drawn s o.+3 + x.2]] <-> t = h x.
  rewrite tup_eq !tape_drawn; split=> [[/moved_iff h1 /moved_iff h2 [h3 h4 h5 h6]] i hi|ht].
    rewrite nth_tup // /f; case: ltnP => l1; first exact: h1.
    case: ltnP => l2; first exact: h2.
    case: eqP => [-> //|n0]; case: eqP => [-> //|n1]; case: eqP => [-> //|n2].
    suff -> : i = o.+3 by [].
    apply/eqP; rewrite eqn_leq -ltnS -addn4 hi /= ltn_neqAle; apply/andP; split; first by apply/eqP => e0; apply: n2.
    rewrite ltn_neqAle; apply/andP; split; first by apply/eqP => e0; apply: n1.
    by rewrite ltn_neqAle l2 andbT; apply/eqP => e0; apply: n0.
  have fo d : (2 * m <= o + d)%N by rewrite /o -addnA leq_addr.
  split.
  - by apply/moved_iff => i _ hi; rewrite ht ?nth_tup /f ?hi // /o -addnA ltn_addr.
  - by apply/moved_iff => i hl hi; rewrite ht ?nth_tup /f ?(leq_gtF hl) ?hi // ltn_addr.
  split.
  - have hb : (o < o + 4)%N by rewrite -{1}[o]addn0 ltn_add2l.
    have hm : (o < 2 * m)%N = false by rewrite -[o]addn0 (leq_gtF (fo 0%N)).
    by rewrite ht // nth_tup // /f hm ltnn eqxx.
  - have hb : (o.+1 < o + 4)%N by rewrite -[o.+1]addn1 ltn_add2l.
    have hm : (o.+1 < 2 * m)%N = false by rewrite -[o.+1]addn1 (leq_gtF (fo 1%N)).
    by rewrite ht // nth_tup // /f hm (leq_gtF (leqnSn _)) gtn_eqF // eqxx.
  - have hb : (o.+2 < o + 4)%N by rewrite -[o.+2]addn2 ltn_add2l.
    have hm : (o.+2 < 2 * m)%N = false by rewrite -[o.+2]addn2 (leq_gtF (fo 2%N)).
    by rewrite ht // nth_tup // /f hm (leq_gtF (ltnW (leqnSn _))) (gtn_eqF (ltnW (ltnSn _))) (gtn_eqF (ltnSn _)) eqxx.
  - have hb : (o.+3 < o + 4)%N by rewrite -[o.+3]addn3 ltn_add2l.
    have hm : (o.+3 < 2 * m)%N = false by rewrite -[o.+3]addn3 (leq_gtF (fo 3%N)).
    by rewrite ht // nth_tup // /f hm (leq_gtF (ltnW (ltnW (leqnSn _)))) (gtn_eqF (ltnW (ltnW (ltnSn _)))) (gtn_eqF (ltnW (ltnSn _))) (gtn_eqF (ltnSn _)).
apply: (@view_card _ _ h) => [[[k l] c] [[k' l'] c'] ek|t].
  have [h1 h2 [_ _ _ h3]] := (hn (h (k, l, c)) (k, l, c)).2 erefl; have [h1' h2' [_ _ _ h3']] := (hn (h (k, l, c)) (k', l', c')).2 ek.
  have -> : k = k' by apply: ker_inj => i hi; have [_ ] := h1 i hi; have [_ -> /addrI] := h1' i hi.
  have -> : l = l' by apply: ker_inj => i hi; have [_ ] := h2 i hi; have [_ -> /addrI] := h2' i hi.
  by move: h3; rewrite h3' => /addrI /= ->.
have [g [z' hg]] : exists g z', ppe_commit_and_prove sch q X Y crs (tval t : rst (@tape_rng E)) = Ok (g, z').
  by move: hf; rewrite !(ppe_cap_total _ _ _ _ _ vs) /checked; case: first_failed => // _; eexists; eexists.
exists g, z'; split=> //; apply: (iff_trans (k_C98_ppe_run vs vs hk hp hf hg)); split=> [[k [l [c [h1 h2 h3 h4 h5]]]]|[[[k l] c] /hn [h2 h3 h4]]].
  have [x hx] := @ker_mk _ m w k h1; have [y hy] := @ker_mk _ n v l h2; exists (x, y, c); apply/hn.
  have ex : ee k = ee (co x) by apply: eq_bigr => i _; apply: eq_bigr => j _; rewrite hx.
  by split=> //=; [exact: (moved_ext hx) | exact: (moved_ext hy) | rewrite -ex].
by exists (co k), (co l), c; split=> //; [exact: ker_sum | exact: ker_sum].
Qed.
End Counts.

(** How many tuples are orthogonal to [w]. *)
Lemma k_C98_orthogonal (F : finFieldType) (W : lmodType F) n (w : nat -> W) : cyclic W ->
  orthogonal n w = (if [exists i : 'I_n, (w i != 0)%R] then #|F| ^ n.-1 else #|F| ^ n)%N.
Proof.
move=> hc; case: existsP => [[i0 hi0]|h]; last first.
  rewrite /orthogonal -card_tuple -cardsT; apply: eq_card => k; rewrite !inE; apply/eqP; apply: big1 => i _.
  by case: (eqVneq (w i) 0) => [->|hi]; [rewrite scaler0 | case: h; exists i].
have n0 : (0 < n)%N := leq_ltn_trans (leq0n _) (ltn_ord i0).
suff e : (#|F| * orthogonal n w = #|F| ^ n)%N.
  have F0 : (0 < #|F|)%N by apply/card_gt0P; exists 0.
  by move/eqP: e; rewrite -{2}(prednK n0) expnS eqn_mul2l eqn0Ngt F0 => /eqP.
rewrite -ker_card -card_prod -card_tuple.
pose h (x : F * ker n w) : n.-tuple F := [tuple co x.2 i + x.1 *+ (i == i0) | i < n].
have hn x i : (i < n)%N -> nth 0 (h x) i = co x.2 i + x.1 *+ (i == i0).
  by move=> hi; rewrite (@nth_tup _ n (fun i => co x.2 i + x.1 *+ (i == i0))).
have hs x : \sum_(i < n) nth 0 (h x) i *: w i = x.1 *: w i0.
  rewrite (eq_bigr (fun i : 'I_n => co x.2 i *: w i + (x.1 *+ (i == i0)) *: w i)); last by move=> i _; rewrite hn // scalerDl.
  rewrite big_split /= ker_sum add0r (bigD1 i0) //= eqxx mulr1n big1 ?addr0 // => i /negbTE hi.
  by rewrite hi mulr0n scale0r.
have hi : injective h.
  move=> x y exy; have ea : x.1 = y.1 by apply/(scal_inj _ _ hi0); rewrite -!hs exy.
  case: x y ea exy => [a k] [b l] /= <- exy; congr (_, _); apply: ker_inj => i hi.
  by have := congr1 (fun t : n.-tuple F => nth 0 t i) exy; rewrite !hn //= => /addIr.
rewrite -(card_imset _ hi) -cardsT; apply: eq_card => t; rewrite !inE; apply/imsetP.
have [a ea] := hc _ (\sum_(i < n) nth 0 t i *: w i) hi0.
have [x hx] : exists x : ker n w, forall i, (i < n)%N -> nth 0 t i - a *+ (i == i0) = co x i.
  apply: (@ker_mk _ _ _ _ (fun i => nth 0 t i - a *+ (i == i0))).
  rewrite (eq_bigr (fun i : 'I_n => nth 0 t i *: w i - (a *+ (i == i0)) *: w i)); last by move=> i _; rewrite scalerBl.
  rewrite sumrB ea (bigD1 i0) //= eqxx mulr1n big1 ?addr0 ?subrr // => i /negbTE hi'.
  by rewrite hi' mulr0n scale0r.
by exists (a, x) => //; apply/tup_eq => i hi'; rewrite hn //= -hx // subrK.
Qed.
