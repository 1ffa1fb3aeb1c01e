(** Sessions: what is drawn, and counting the tapes of a session round by round. *)
From mathcomp Require Import all_ssreflect all_algebra.
From Verif Require Import Base BaseLemmas Group DataStructures MatLemmas CoreAlg ComLemmas.
From Verif Require Import Generator Commit Statement Prove Spec SpecVerify SpecHide SpecSxdh SpecMulti SpecAdaptive.
From Verif Require Import ProveLemmas CommitLemmas Draws HideProps Sxdh MultiLemmas MultiProps.
Set Implicit Arguments.
Unset Strict Implicit.
Unset Printing Implicit Defensive.
Import Order.Theory GRing.Theory Num.Theory.
Local Open Scope ring_scope.

Section Draws.
Context {E : pairing}.
Lemma consumes_pure T (a : T) : consumes (E := E) 0 (fun R s => Ok (a, s)).
Proof. by move=> R s s' c [<- <-]; split. Qed.
Lemma consumes_if V T n (f : seq V -> forall R : rng E, rst R -> res (T * rst R)) (a : T) (X : seq V) :
  (X = [::] -> n = 0%N) -> consumes n (f X) -> consumes n (fun R s => if X is [::] then Ok (a, s) else f X R s).
Proof. by case: X => [|x X] // -> // _; exact: consumes_pure. Qed.

Lemma commit_all_draws (v : assign E) (crs : CRS E) :
  consumes (2 * size (aX v) + (size (ax v) + (2 * size (aY v) + size (ay v)))) (fun R s => commit_all (R := R) v crs s).
Proof.
apply: consumes_bind => [|a].
  by apply: (consumes_if (f := fun X R s => batch_commit_G1 (R := R) X crs s)) => [->|] //; exact: G1_batch_draws.
apply: consumes_bind => [|b].
  by apply: (consumes_if (f := fun X R s => batch_commit_scalar_to_B1 (R := R) X crs s)) => [->|] //; exact: B1_batch_draws.
apply: consumes_bind => [|c].
  by apply: (consumes_if (f := fun X R s => batch_commit_G2 (R := R) X crs s)) => [->|] //; exact: G2_batch_draws.
apply: (consumes_ret (h := fun d => mkComs4 a b c d)).
by apply: (consumes_if (f := fun X R s => batch_commit_scalar_to_B2 (R := R) X crs s)) => [->|] //; exact: B2_batch_draws.
Qed.

Lemma eqn_prove_draws (sch : sched) q (v : assign E) c (crs : CRS E) : valid_sched sch ->
  consumes (eqn_draws q) (fun R s => eqn_prove sch (R := R) q v c crs s).
Proof.
move=> vs; case: q => q; [exact: ppe_prove_draws | exact: ms1_prove_draws | exact: ms2_prove_draws | exact: quad_prove_draws].
Qed.
Lemma prove_all_draws (sch : sched) qs (v : assign E) c (crs : CRS E) : valid_sched sch ->
  consumes (sumn [seq eqn_draws q | q <- qs]) (fun R s => prove_all sch (R := R) qs v c crs s).
Proof.
move=> vs; elim: qs => [|q qs IH]; first exact: consumes_pure.
apply: consumes_bind => [|pf]; first exact: eqn_prove_draws.
exact: (consumes_ret (h := cons pf)).
Qed.
Lemma system_draws_ok (sch : sched) qs (v : assign E) (crs : CRS E) : valid_sched sch ->
  consumes (system_draws qs v) (fun R s => prove_system sch (R := R) qs v crs s).
Proof.
move=> vs; have -> : system_draws qs v = (2 * size (aX v) + (size (ax v) + (2 * size (aY v) + size (ay v))) + sumn [seq eqn_draws q | q <- qs])%N.
  by rewrite /system_draws !addnA.
apply: consumes_bind => [|c]; first exact: commit_all_draws.
apply: (consumes_ret (h := pair c)); exact: prove_all_draws.
Qed.
End Draws.

Section Count.
Context {F : finFieldType} {A B C : lmodType F} {e : A -> B -> C}.
Local Notation E := (Pairing e).
Local Notation prog T := (forall R : rng E, rst R -> res (T * rst R)).

(** A tape of [a + b] scalars is a tape of [a] and one of [b]. *)
Lemma split_bij a b : bijective (fun x : a.-tuple F * b.-tuple F => cat_tuple x.1 x.2).
Proof.
have h1 (t : (a + b).-tuple F) : size (take a t) == a by rewrite size_takel // size_tuple leq_addr.
have h2 (t : (a + b).-tuple F) : size (drop a t) == b by rewrite size_drop size_tuple addKn.
exists (fun t => (Tuple (h1 t), Tuple (h2 t))).
  move=> [x y]; congr (_, _); apply: val_inj => /=.
    by rewrite take_size_cat // size_tuple.
  by rewrite drop_size_cat // size_tuple.
by move=> t; apply: val_inj => /=; rewrite cat_take_drop.
Qed.

Lemma tapes_split a b T O (view : T -> O) (f : prog T) D :
  tapes (a + b) view f D = (\sum_(x : a.-tuple F) #|[set y : b.-tuple F | D (seen view (f tape_rng (tval x ++ tval y : seq F)))]|)%N.
Proof.
rewrite /tapes -(@on_card_preimset _ _ (fun x : a.-tuple F * b.-tuple F => cat_tuple x.1 x.2)); last exact/onW_bij/split_bij.
under [RHS]eq_bigr do rewrite card_pred.
rewrite pair_bigA /= -card_pred; apply: eq_card => x; by rewrite !inE.
Qed.

(** One program after another: [k] continues from what is seen of the first. *)
Lemma tapes_then a b T T' O V V' P (view : T -> O) (view' : T' -> O) (vV : V -> P) (vV' : V' -> P)
  (f : prog T) (g : prog T') (k : O -> prog V) (l : O -> prog V') :
  same_output a view view' f g -> consumes a f -> consumes a g ->
  (forall o D, tapes b vV (k o) D = tapes b vV' (l o) D) -> forall D,
  tapes (a + b) vV (fun R s => let! (x, s) := f R s in k (view x) R s) D
  = tapes (a + b) vV' (fun R s => let! (x, s) := g R s in l (view' x) R s) D.
Proof.
move=> [phi [hphi h]] cf cg hk D; rewrite !tapes_split [RHS](reindex phi) /=; last exact/onW_bij.
have dr n (t : n.-tuple F) (y : seq F) : draws (E := E) n (tval t ++ y : rst (@tape_rng E)) = t.
  by apply: eq_from_tnth => i; rewrite tnth_mktuple tape_drawn nth_cat size_tuple ltn_ord (tnth_nth 0).
have sd n (t : n.-tuple F) (y y' : seq F) : same_draws (E := E) n (tval t ++ y : rst (@tape_rng E)) (tval t ++ y' : rst (@tape_rng E)).
  by move=> i hi; rewrite !tape_drawn !nth_cat size_tuple hi.
have ta n (t : n.-tuple F) (y : seq F) : after (E := E) n (tval t ++ y : rst (@tape_rng E)) = y.
  by rewrite tape_after drop_size_cat // size_tuple.
apply: eq_bigr => t _.
have hs y y' : seen view (f tape_rng (tval t ++ y : seq F)) = seen view' (g tape_rng (tval (phi t) ++ y' : seq F)).
  apply: h; exact: etrans (dr a (phi t) y') (congr1 phi (esym (dr a t y))).
have := hs [::] [::]; case ef : (f tape_rng (tval t ++ [::] : seq F)) => [[x s1]|p]; last first.
  case eg : (g tape_rng (tval (phi t) ++ [::] : seq F)) => [[x' s1']|p'] //= [epp].
  rewrite !card_pred; apply: eq_bigr => y _.
  have := etrans (hs y [::]) (esym (hs [::] [::])); have := etrans (esym (hs [::] y)) (hs [::] [::]); rewrite ef eg /=.
  case: (g tape_rng (_ ++ tval y : seq F)) => [[? ?]//|p2] [->].
  by case: (f tape_rng (_ ++ tval y : seq F)) => [[? ?]//|p1] [->] /=; rewrite epp.
case eg : (g tape_rng (tval (phi t) ++ [::] : seq F)) => [[x' s1']|p'] //= [exx].
have := hk (view x) D; rewrite {2}exx /tapes => e1; move: e1.
rewrite !card_pred => e1; apply: etrans (etrans e1 _); apply: eq_bigr => y _.
  have [_ h1] := cf _ _ _ _ ef.
  have := h1 tape_rng (tval t ++ tval y : seq F) (sd _ _ _ _) => ->.
  by rewrite bind_Ok; cbv beta iota; rewrite ta.
have [_ h1] := cg _ _ _ _ eg.
have := h1 tape_rng (tval (phi t) ++ tval y : seq F) (sd _ _ _ _) => ->.
by rewrite bind_Ok; cbv beta iota; rewrite ta.
Qed.

(** A session: [m h] scalars are drawn after the answers [h], at most [M]. *)
Lemma tapes_session T T' V (f : seq V -> prog T) (g : seq V -> prog T') (view : seq V -> T -> V) (view' : seq V -> T' -> V)
  (m : seq V -> nat) (M : nat) :
  (forall h, same_output (m h) (view h) (view' h) (f h) (g h)) ->
  (forall h, consumes (m h) (f h)) -> (forall h, consumes (m h) (g h)) -> (forall h, (m h <= M)%N) ->
  forall k N, (k * M <= N)%N -> forall h D, tapes N id (session f view k h) D = tapes N id (session g view' k h) D.
Proof.
move=> hs cf cg hm; elim=> [|k IH] N hN h D //.
have h1 : (m h <= N)%N by apply: leq_trans (hm h) (leq_trans _ hN); rewrite mulSn leq_addr.
rewrite -(subnKC h1); apply: (tapes_then (k := fun o => session f view k (rcons h o)) (l := fun o => session g view' k (rcons h o))) => //.
move=> o D'; apply: IH; rewrite leq_subRL //; apply: leq_trans hN; by rewrite mulSn leq_add2r.
Qed.
End Count.

Section Perfect.
Context {F : finFieldType} {A B C : lmodType F} {e : A -> B -> C}.
Local Notation E := (Pairing e).
Variables (sch sch' : sched) (crs : CRS E) (k M N : nat).
Hypotheses (hb : bilinear E) (hn : nondegenerate E) (hc1 : cyclic (G1 E)) (hc2 : cyclic (G2 E)).
Hypotheses (vs : valid_sched sch) (vs' : valid_sched sch') (hp : proper_crs crs) (hN : (k * M <= N)%N).

Lemma same_sizes_draws qs (v v' : assign E) : same_sizes v v' -> system_draws qs v = system_draws qs v'.
Proof. by case=> h1 h2 h3 h4; rewrite /system_draws h1 h2 h3 h4. Qed.
Lemma zero_sizes (v : assign E) : same_sizes v (zero_assign v).
Proof. by split; rewrite /= size_nseq. Qed.

Lemma adaptive_wi (qs : seq answer -> seq (eqn E)) (v v' : seq answer -> assign E) :
  hiding_crs crs ->
  (forall h, (system_draws (qs h) (v h) <= M)%N) ->
  (forall h, [/\ same_sizes (v h) (v' h), every (fun q => eqn_wf q (v h)) (qs h),
     every (fun q => eqn_holds q (v h)) (qs h) & every (fun q => eqn_holds q (v' h)) (qs h)]) ->
  forall D, tapes N id (prover sch k qs v crs) D = tapes N id (prover sch' k qs v' crs) D.
Proof.
move=> hh hM hq; apply: (tapes_session (m := fun h => system_draws (qs h) (v h)) (M := M)) => // h.
- by have [h1 h2 h3 h4] := hq h; exact: system_wi.
- exact: system_draws_ok.
- have [h1 _ _ _] := hq h; rewrite (same_sizes_draws _ h1); exact: system_draws_ok.
Qed.

Lemma adaptive_zk (qs : seq answer -> seq (eqn E * gt_form E)) (v : seq answer -> assign E) a1 a2 t1 t2 :
  hiding_crs_with crs a1 a2 t1 t2 ->
  (forall h, (system_draws [seq q.1 | q <- qs h] (v h) <= M)%N) ->
  (forall h, [/\ every (fun q => eqn_wf q.1 (v h)) (qs h),
     every (fun q => eqn_holds q.1 (v h)) (qs h) & every (fun q => eqn_form crs q.1 q.2) (qs h)]) ->
  forall D, tapes N id (prover sch k (fun h => [seq q.1 | q <- qs h]) v crs) D
    = tapes N id (simulator t1 t2 sch' k qs v crs) D.
Proof.
move=> hh hM hq; apply: (tapes_session (m := fun h => system_draws [seq q.1 | q <- qs h] (v h)) (M := M)) => // h.
- by have [h1 h2 h3] := hq h; exact: (system_zk vs vs' hb hn hc1 hc2 hp hh).
- exact: system_draws_ok.
- rewrite (same_sizes_draws _ (zero_sizes (v h))); exact: system_draws_ok.
Qed.
End Perfect.

Section Comp.
Context {F : finFieldType} {A B C : lmodType F} {e : A -> B -> C}.
Local Notation E := (Pairing e).
Context {O1 O2 W : finType} (s1 : O1 -> A) (s2 : O2 -> B) {V : Type} (N : nat) (D : W -> CRS E -> pred (res V)).
Context (f : W -> CRS E -> forall R : rng E, rst R -> res (V * rst R)).
Context (g : F -> F -> W -> CRS E -> forall R : rng E, rst R -> res (V * rst R)).

Lemma zk_session_step :
  (forall w crs a1 a2 t1 t2, hiding_crs_with crs a1 a2 t1 t2 -> proper_crs crs -> forall D',
     tapes N id (f w crs) D' = tapes N id (g t1 t2 w crs) D') ->
  `|game s1 s2 real_crs (proof_test (N := N) D id f) - sim_session N D s1 s2 g|
  <= key_adv s1 s2 (proof_test (N := N) D id f) + bad_point s1 s2.
Proof.
move=> h; apply: le_trans (ler_dist_add (game s1 s2 sim_crs (proof_test (N := N) D id f)) _ _) _.
apply: ler_add => //.
pose ff w (c : O1 * O2 * (F * F * F * F)) (t : N.-tuple F) :=
  let: (o1, o2, (a1, a2, t1, t2)) := c in let crs := sim_crs (e := e) (s1 o1) (s2 o2) a1 a2 t1 t2 in
  D w crs (seen id (@f w crs tape_rng (tval t : seq F))).
pose gg w (c : O1 * O2 * (F * F * F * F)) (t : N.-tuple F) :=
  let: (o1, o2, (a1, a2, t1, t2)) := c in let crs := sim_crs (e := e) (s1 o1) (s2 o2) a1 a2 t1 t2 in
  D w crs (seen id (@g t1 t2 w crs tape_rng (tval t : seq F))).
pose bad (c : O1 * O2 * (F * F * F * F)) := (s1 c.1.1 == 0) || (s2 c.1.2 == 0).
have := @fibre_step W [finType of N.-tuple F] _ ff gg bad _.
have -> : Pr (fun x : (W * N.-tuple F) * _ => ff x.1.1 x.2 x.1.2) = game s1 s2 sim_crs (proof_test (N := N) D id f).
  by apply: eq_Pr => -[[w t] [[o1 o2] [[[a1 a2] t1] t2]]].
have -> : Pr (fun x : (W * N.-tuple F) * _ => gg x.1.1 x.2 x.1.2) = sim_session N D s1 s2 g.
  by apply: eq_Pr => -[[w t] [[o1 o2] [[[a1 a2] t1] t2]]].
move=> hs; apply: le_trans (hs _) (@Pr_fst _ [finType of F * F * F * F] (fun o : O1 * O2 => (s1 o.1 == 0) || (s2 o.2 == 0))).
move=> w [[o1 o2] [[[a1 a2] t1] t2]]; rewrite /bad negb_or /= => /andP [n1 n2].
by apply: (h w _ a1 a2 t1 t2 (sim_crs_hiding _ _ _ _ _ _)).
Qed.
End Comp.

Lemma adaptive_comp_wi : forall (F : finFieldType) (A B C : lmodType F) (e : A -> B -> C), let E := Pairing e in
  forall (O1 O2 W : finType) (s1 : O1 -> A) (s2 : O2 -> B) (D : W -> CRS E -> pred (res (seq answer))) (sch sch' : sched) (k M N : nat)
  (qs : W -> CRS E -> seq answer -> seq (eqn E)) (v v' : W -> CRS E -> seq answer -> assign E),
  bilinear E -> nondegenerate E -> cyclic (G1 E) -> cyclic (G2 E) -> valid_sched sch -> valid_sched sch' -> (k * M <= N)%N ->
  (forall w crs h, proper_crs crs -> (system_draws (qs w crs h) (v w crs h) <= M)%N) ->
  (forall w crs h, proper_crs crs -> [/\ same_sizes (v w crs h) (v' w crs h), every (fun q => eqn_wf q (v w crs h)) (qs w crs h),
     every (fun q => eqn_holds q (v w crs h)) (qs w crs h) & every (fun q => eqn_holds q (v' w crs h)) (qs w crs h)]) ->
  let B1 := proof_test (N := N) D id (fun w crs => prover sch k (qs w crs) (v w crs) crs) in
  let B2 := proof_test (N := N) D id (fun w crs => prover sch' k (qs w crs) (v' w crs) crs) in
  is_true (`|game s1 s2 real_crs B1 - game s1 s2 real_crs B2| <= key_adv s1 s2 B1 + key_adv s1 s2 B2 + bad_point s1 s2).
Proof.
move=> F A B C e E O1 O2 W s1 s2 D sch sch' k M N qs v v' hb hn hc1 hc2 vs vs' hN hM hq B1 B2.
apply: (@wi_step F A B C e O1 O2 W s1 s2 _ _ N D id) => w crs hh hp D'.
apply: (adaptive_wi (M := M)) => // h; [exact: hM | exact: hq].
Qed.
Lemma adaptive_comp_wi_ddh : forall (F : finFieldType) (A B C : lmodType F) (e : A -> B -> C), let E := Pairing e in
  forall (O1 O2 W : finType) (s1 : O1 -> A) (s2 : O2 -> B) (D : W -> CRS E -> pred (res (seq answer))) (sch sch' : sched) (k M N : nat)
  (qs : W -> CRS E -> seq answer -> seq (eqn E)) (v v' : W -> CRS E -> seq answer -> assign E),
  bilinear E -> nondegenerate E -> cyclic (G1 E) -> cyclic (G2 E) -> valid_sched sch -> valid_sched sch' -> (k * M <= N)%N ->
  (forall w crs h, proper_crs crs -> (system_draws (qs w crs h) (v w crs h) <= M)%N) ->
  (forall w crs h, proper_crs crs -> [/\ same_sizes (v w crs h) (v' w crs h), every (fun q => eqn_wf q (v w crs h)) (qs w crs h),
     every (fun q => eqn_holds q (v w crs h)) (qs w crs h) & every (fun q => eqn_holds q (v' w crs h)) (qs w crs h)]) ->
  let B1 := proof_test (N := N) D id (fun w crs => prover sch k (qs w crs) (v w crs) crs) in
  let B2 := proof_test (N := N) D id (fun w crs => prover sch' k (qs w crs) (v' w crs) crs) in
  is_true (`|game s1 s2 real_crs B1 - game s1 s2 real_crs B2| <=
    (ddh_adv s1 (ddh1 s2 B1) + ddh_adv s1 (ddh2 s2 B1) + ddh_adv s2 (ddh3 s1 B1) + ddh_adv s2 (ddh4 s1 B1))
    + (ddh_adv s1 (ddh1 s2 B2) + ddh_adv s1 (ddh2 s2 B2) + ddh_adv s2 (ddh3 s1 B2) + ddh_adv s2 (ddh4 s1 B2)) + bad_point s1 s2).
Proof.
move=> F A B C e E O1 O2 W s1 s2 D sch sch' k M N qs v v' hb hn hc1 hc2 vs vs' hN hM hq B1 B2.
have := @adaptive_comp_wi F A B C e O1 O2 W s1 s2 D sch sch' k M N qs v v' hb hn hc1 hc2 vs vs' hN hM hq.
rewrite -/B1 -/B2; cbv zeta => h; apply: le_trans h _.
apply: ler_add => //; apply: ler_add; exact: key_adv_ddh.
Qed.
Lemma adaptive_comp_zk : forall (F : finFieldType) (A B C : lmodType F) (e : A -> B -> C), let E := Pairing e in
  forall (O1 O2 W : finType) (s1 : O1 -> A) (s2 : O2 -> B) (D : W -> CRS E -> pred (res (seq answer))) (sch sch' : sched) (k M N : nat)
  (qs : W -> CRS E -> seq answer -> seq (eqn E * gt_form E)) (v : W -> CRS E -> seq answer -> assign E),
  bilinear E -> nondegenerate E -> cyclic (G1 E) -> cyclic (G2 E) -> valid_sched sch -> valid_sched sch' -> (k * M <= N)%N ->
  (forall w crs h, proper_crs crs -> (system_draws [seq q.1 | q <- qs w crs h] (v w crs h) <= M)%N) ->
  (forall w crs h, proper_crs crs -> [/\ every (fun q => eqn_wf q.1 (v w crs h)) (qs w crs h),
     every (fun q => eqn_holds q.1 (v w crs h)) (qs w crs h) & every (fun q => eqn_form crs q.1 q.2) (qs w crs h)]) ->
  let B1 := proof_test (N := N) D id (fun w crs => prover sch k (fun h => [seq q.1 | q <- qs w crs h]) (v w crs) crs) in
  is_true (`|game s1 s2 real_crs B1 - sim_session N D s1 s2 (fun t1 t2 w crs => simulator (E := E) t1 t2 sch' k (qs w crs) (v w crs) crs)|
    <= key_adv s1 s2 B1 + bad_point s1 s2).
Proof.
move=> F A B C e E O1 O2 W s1 s2 D sch sch' k M N qs v hb hn hc1 hc2 vs vs' hN hM hq B1.
apply: (@zk_session_step F A B C e O1 O2 W s1 s2 _ N D) => w crs a1 a2 t1 t2 hh hp D'.
apply: (adaptive_zk (M := M) hb hn hc1 hc2 vs vs' hp hN hh) => h; [exact: hM | exact: hq].
Qed.
Lemma adaptive_comp_zk_ddh : forall (F : finFieldType) (A B C : lmodType F) (e : A -> B -> C), let E := Pairing e in
  forall (O1 O2 W : finType) (s1 : O1 -> A) (s2 : O2 -> B) (D : W -> CRS E -> pred (res (seq answer))) (sch sch' : sched) (k M N : nat)
  (qs : W -> CRS E -> seq answer -> seq (eqn E * gt_form E)) (v : W -> CRS E -> seq answer -> assign E),
  bilinear E -> nondegenerate E -> cyclic (G1 E) -> cyclic (G2 E) -> valid_sched sch -> valid_sched sch' -> (k * M <= N)%N ->
  (forall w crs h, proper_crs crs -> (system_draws [seq q.1 | q <- qs w crs h] (v w crs h) <= M)%N) ->
  (forall w crs h, proper_crs crs -> [/\ every (fun q => eqn_wf q.1 (v w crs h)) (qs w crs h),
     every (fun q => eqn_holds q.1 (v w crs h)) (qs w crs h) & every (fun q => eqn_form crs q.1 q.2) (qs w crs h)]) ->
  let B1 := proof_test (N := N) D id (fun w crs => prover sch k (fun h => [seq q.1 | q <- qs w crs h]) (v w crs) crs) in
  is_true (`|game s1 s2 real_crs B1 - sim_session N D s1 s2 (fun t1 t2 w crs => simulator (E := E) t1 t2 sch' k (qs w crs) (v w crs) crs)|
    <= (ddh_adv s1 (ddh1 s2 B1) + ddh_adv s1 (ddh2 s2 B1) + ddh_adv s2 (ddh3 s1 B1) + ddh_adv s2 (ddh4 s1 B1)) + bad_point s1 s2).
Proof.
move=> F A B C e E O1 O2 W s1 s2 D sch sch' k M N qs v hb hn hc1 hc2 vs vs' hN hM hq B1.
have := @adaptive_comp_zk F A B C e O1 O2 W s1 s2 D sch sch' k M N qs v hb hn hc1 hc2 vs vs' hN hM hq.
rewrite -/B1; cbv zeta => h; apply: le_trans h _.
apply: ler_add => //; exact: key_adv_ddh.
Qed.
