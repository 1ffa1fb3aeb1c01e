(** Proofs of the property of P_Strip.v. *)
From mathcomp Require Import all_ssreflect all_algebra.
From Coq Require Import Strings.Byte.
From Verif Require Import Base BaseLemmas Group DataStructures MatLemmas CoreAlg ComLemmas Generator Commit Statement Prove Verify Codec Spec SpecVerify SpecHide SpecSxdh SpecCodec SpecStrip.
From Verif Require Import Complete Main CapLemmas ApiLemmas CodecLemmas CodecProps HideProps Sxdh VProps RerandProps.
Set Implicit Arguments.
Unset Strict Implicit.
Unset Printing Implicit Defensive.
Import Order.Theory GRing.Theory Num.Theory.
Local Open Scope ring_scope.

Section Strip.
Context {E : pairing}.
Implicit Types (cs : codecs E) (p : CProof E).

Lemma strip_public p : public (strip p) = public p.
Proof. by rewrite /public /strip /= -map_comp; congr (_, _); apply: eq_map. Qed.

Lemma stripped_public cs md p p' : public p = public p' -> stripped cs md p = stripped cs md p'.
Proof.
rewrite /public /stripped /strip => -[-> -> h]; congr (wire cs md (mkCProof _ _ _)).
elim: (equ_proofs p) (equ_proofs p') h => [|f l IH] [|f' l'] //= [h1 h2 h3 /IH ->].
by rewrite h1 h2 h3.
Qed.

Lemma same_view N {T T' O O'} (v : T -> O) (v' : T' -> O) (w : T -> O') (w' : T' -> O')
  (f : forall R : rng E, rst R -> res (T * rst R)) (g : forall R : rng E, rst R -> res (T' * rst R)) :
  (forall a b, v a = v' b -> w a = w' b) -> same_output N v v' f g -> same_output N w w' f g.
Proof.
move=> hv [phi [hb h]]; exists phi; split=> // R R' s z /h; rewrite /seen.
case: (f R s) => [[a ?]|?]; case: (g R' z) => [[b ?]|?] //; first by move=> [/hv ->].
by move=> [->].
Qed.

Lemma short_rect_mat {T} (M : matrix T) m n : (m < 2 ^ 64)%N -> (n < 2 ^ 64)%N -> rect m n M -> short_mat M.
Proof.
move=> hm hn; case/andP=> /eqP hs hr; split; first by rewrite /short hs.
exact: (short_rows hn).
Qed.

Lemma made_G1_fits crs X c : made_G1 crs X c -> short X -> commit1_fits c (E := E).
Proof.
move=> /made_G1_gs[hr hs _] hX; split; first by rewrite /short hs.
by apply: (short_rect_mat _ _ hr); [exact: hX|exact: small2].
Qed.

Lemma made_G2_fits crs X c : made_G2 crs X c -> short X -> commit2_fits c (E := E).
Proof.
move=> /made_G2_gs[hr hs _] hX; split; first by rewrite /short hs.
by apply: (short_rect_mat _ _ hr); [exact: hX|exact: small2].
Qed.

Lemma made_B1_fits crs X c : made_B1 crs X c -> short X -> commit1_fits c (E := E).
Proof.
move=> /made_B1_gs[hr hs _] hX; split; first by rewrite /short hs.
by apply: (short_rect_mat _ _ hr); [exact: hX|exact: small1].
Qed.

Lemma made_B2_fits crs X c : made_B2 crs X c -> short X -> commit2_fits c (E := E).
Proof.
move=> /made_B2_gs[hr hs _] hX; split; first by rewrite /short hs.
by apply: (short_rect_mat _ _ hr); [exact: hX|exact: small1].
Qed.

Lemma DOk_inj T (a b : T) r r' : DOk a r = DOk b r' -> a = b /\ r = r'.
Proof. exact: (fun h => conj (congr1 (fun x => if x is DOk c _ then c else a) h) (congr1 (fun x => if x is DOk _ c then c else r) h)). Qed.

Lemma wire_coms cs md p p' : elements_ok cs good_codec -> commit1_fits (xcoms p) -> commit1_fits (xcoms p') ->
  commit2_fits (ycoms p) -> commit2_fits (ycoms p') -> wire cs md p = wire cs md p' -> xcoms p = xcoms p' /\ ycoms p = ycoms p'.
Proof.
move=> hc x1 x2 y1 y2 h; have := congr1 (de (commit1_codec cs) md VNo) h.
rewrite /wire (commit1_back hc md VNo _ x1) (commit1_back hc md VNo _ x2) => e; have [ex er] := DOk_inj e; split=> //.
have := congr1 (de (commit2_codec cs) md VNo) er.
by rewrite (commit2_back hc md VNo _ y1) (commit2_back hc md VNo _ y2) => e'; exact: (proj1 (DOk_inj e')).
Qed.

Lemma made_G1_same crs X X' c : made_G1 crs X c -> made_G1 crs X' c -> X = X' :> seq (G1 E).
Proof. by move=> /made_recover1 <- /made_recover1. Qed.
Lemma made_G2_same crs X X' c : made_G2 crs X c -> made_G2 crs X' c -> X = X' :> seq (G2 E).
Proof. by move=> /made_recover2 <- /made_recover2. Qed.

Lemma same_on_tapes N {T T' O} (v : T -> O) (v' : T' -> O)
  (f : forall R : rng E, rst R -> res (T * rst R)) (g : forall R : rng E, rst R -> res (T' * rst R)) :
  same_output N v v' f g -> exists s z : rst (@tape_rng E), seen v (f _ s) = seen v' (g _ z).
Proof.
case=> phi [_ h]; set s : rst (@tape_rng E) := nseq N 0; exists s, (tval (phi (draws N s))).
by apply: h; rewrite draws_tape.
Qed.
End Strip.

Lemma k_C97_strip : forall (E : pairing) (p : CProof E), public (strip p) = public p /\ crand (xcoms (strip p)) = [::] /\ crand (ycoms (strip p)) = [::] /\ all (fun f => pf_rand f == [::]) (equ_proofs (strip p)).
Proof.
by move=> E p; rewrite strip_public; do !split=> //; rewrite /= all_map; elim: (equ_proofs p).
Qed.

Lemma k_C97_bytes : forall (E : pairing) (cs : codecs E) (md : Compress) (p p' : CProof E), public p = public p' -> stripped cs md p = stripped cs md p'.
Proof.
exact: @stripped_public.
Qed.

Lemma k_C97_built : forall (E : pairing) (cs : codecs E) (md : Compress) (p : CProof E), let no_rand := nseq 8 x00 in
  stripped cs md p = (ser (vec_codec (com1_codec cs)) md (coms (xcoms p)) ++ no_rand) ++ (ser (vec_codec (com2_codec cs)) md (coms (ycoms p)) ++ no_rand)
    ++ flatten [seq ser (vec_codec (com2_codec cs)) md (pi f) ++ ser (vec_codec (com1_codec cs)) md (theta f) ++ ser equtype_codec md (equ_type f) ++ no_rand | f <- equ_proofs p].
Proof.
move=> E cs md p nr; rewrite /stripped /wire.
have -> : equ_proofs (strip p) = [seq mkEquProof (pi f) (theta f) (equ_type f) [::] | f <- equ_proofs p] by [].
by rewrite -map_comp.
Qed.

Lemma k_C97_commit1_read : forall (E : pairing) (cs : codecs E) (md : Compress) (v : Validate) (c : seq (Com1 E)) (rest : seq byte), elements_ok cs good_codec -> short c ->
  de (commit1_codec cs) md v (ser (vec_codec (com1_codec cs)) md c ++ nseq 8 x00 ++ rest) = DOk (mkCommit c [::]) rest.
Proof.
move=> E cs md v c rest hc hs.
have h : commit1_fits (mkCommit c [::] : Commit1 E) by split; [exact: hs|split; [exact: (expn_gt0 2 64)|constructor]].
have := @commit1_back E cs hc md v _ rest h; rewrite -[ser (commit1_codec cs) md _]/(ser (vec_codec (com1_codec cs)) md c ++ nseq 8 x00).
by rewrite -catA => ->.
Qed.

Lemma k_C97_commit2_read : forall (E : pairing) (cs : codecs E) (md : Compress) (v : Validate) (c : seq (Com2 E)) (rest : seq byte), elements_ok cs good_codec -> short c ->
  de (commit2_codec cs) md v (ser (vec_codec (com2_codec cs)) md c ++ nseq 8 x00 ++ rest) = DOk (mkCommit c [::]) rest.
Proof.
move=> E cs md v c rest hc hs.
have h : commit2_fits (mkCommit c [::] : Commit2 E) by split; [exact: hs|split; [exact: (expn_gt0 2 64)|constructor]].
have := @commit2_back E cs hc md v _ rest h; rewrite -[ser (commit2_codec cs) md _]/(ser (vec_codec (com2_codec cs)) md c ++ nseq 8 x00).
by rewrite -catA => ->.
Qed.

Lemma k_C97_equproof_read : forall (E : pairing) (cs : codecs E) (md : Compress) (v : Validate) (p : seq (Com2 E)) (t : seq (Com1 E)) (ty : EquType) (rest : seq byte), elements_ok cs good_codec -> short p -> short t ->
  de (equproof_codec cs) md v (ser (vec_codec (com2_codec cs)) md p ++ ser (vec_codec (com1_codec cs)) md t ++ ser equtype_codec md ty ++ nseq 8 x00 ++ rest) = DOk (mkEquProof p t ty [::]) rest.
Proof.
move=> E cs md v p t ty rest hc hp ht.
have h : equproof_fits (mkEquProof p t ty [::] : EquProof E) by split; [exact: hp|split; [exact: ht|split; [exact: (expn_gt0 2 64)|constructor]]].
have := @equproof_back E cs hc md v _ rest h.
rewrite -[ser (equproof_codec cs) md _]/(ser (vec_codec (com2_codec cs)) md p ++ (ser (vec_codec (com1_codec cs)) md t ++ (ser equtype_codec md ty ++ nseq 8 x00))).
by rewrite -!catA => ->.
Qed.

Lemma k_C97_ppe_verdict : forall (E : pairing) (sch : sched) (q : PPE E) (p : CProof E) (crs : CRS E), ppe_verify sch q (strip p) crs = ppe_verify sch q p crs.
Proof.
by move=> E sch q p crs; apply: k_C33_ppe_randomness; rewrite strip_public.
Qed.

Lemma k_C97_ppe_received : forall (E : pairing) (cs : codecs E) (sch : sched) (md : Compress) (v : Validate) (q : PPE E) (crs : CRS E) (p : CProof E) (pf : EquProof E),
  elements_ok cs good_codec -> ppe_fits q -> crs_fits crs -> short (coms (xcoms p)) -> short (coms (ycoms p)) -> short (pi pf) -> short (theta pf) -> equ_proofs p = [:: pf] ->
  receive cs (ppe_codec cs) (ppe_verify sch) md v (ser (ppe_codec cs) md q ++ ser (crs_codec cs) md crs ++ stripped cs md p) = DOk (ppe_verify sch q p crs) [::].
Proof.
move=> E cs sch md v q crs p pf hc hq hk hx hy hp ht ep; rewrite -k_C97_ppe_verdict.
have hn T : short_mat ([::] : matrix T) by split; [exact: (expn_gt0 2 64)|constructor].
have -> : strip p = mkCProof (xcoms (strip p)) (ycoms (strip p)) [:: mkEquProof (pi pf) (theta pf) (equ_type pf) [::]] by rewrite /strip ep.
have -> : stripped cs md p = ser (commit1_codec cs) md (xcoms (strip p)) ++ ser (commit2_codec cs) md (ycoms (strip p)) ++ ser (equproof_codec cs) md (mkEquProof (pi pf) (theta pf) (equ_type pf) [::]).
  have -> : stripped cs md p = ser (commit1_codec cs) md (xcoms (strip p)) ++ (ser (commit2_codec cs) md (ycoms (strip p)) ++ flatten [seq ser (equproof_codec cs) md f | f <- equ_proofs (strip p)]) by [].
  by rewrite -[equ_proofs (strip p)]/[seq mkEquProof (pi f) (theta f) (equ_type f) [::] | f <- equ_proofs p] ep -[flatten _]/(_ ++ [::]) cats0.
exact (@ppe_transport E cs sch md v q crs (xcoms (strip p)) (ycoms (strip p)) (mkEquProof (pi pf) (theta pf) (equ_type pf) [::]) hc hq hk (conj hx (hn _)) (conj hy (hn _)) (conj hp (conj ht (hn _)))).

Qed.

Lemma k_C97_ppe_wi : forall (E : pairing) (cs : codecs E) (md : Compress) (sch sch' : sched) (q : PPE E) (X X' : seq (G1 E)) (Y Y' : seq (G2 E)) (crs : CRS E),
  bilinear E -> nondegenerate E -> cyclic (G1 E) -> cyclic (G2 E) -> valid_sched sch -> valid_sched sch' ->
  hiding_crs crs -> proper_crs crs ->
  (0 < size X)%N -> (0 < size Y)%N -> ppe_wf q (size X) (size Y) -> size X' = size X -> size Y' = size Y ->
  ppe_holds q X Y -> ppe_holds q X' Y' ->
  same_output (2 * size X + (2 * size Y + 4))%N (stripped cs md) (stripped cs md)
    (fun R s => ppe_commit_and_prove (R := R) sch q X Y crs s) (fun R s => ppe_commit_and_prove (R := R) sch' q X' Y' crs s).
Proof.
move=> E cs md sch sch' q X X' Y Y' crs hb hn hc1 hc2 vs vs' hh hp h1 h2 h3 h4 h5 h6 h7; apply: (same_view (stripped_public cs md)); exact: ppe_wi.
Qed.

Lemma k_C97_ppe_wi_counts : forall (F : finFieldType) (A B C : lmodType F) (e : A -> B -> C), let E := Pairing e in
  forall (cs : codecs E) (md : Compress) (sch sch' : sched) (q : PPE E) (X X' : seq (G1 E)) (Y Y' : seq (G2 E)) (crs : CRS E) D,
  bilinear E -> nondegenerate E -> cyclic (G1 E) -> cyclic (G2 E) -> valid_sched sch -> valid_sched sch' ->
  hiding_crs crs -> proper_crs crs ->
  (0 < size X)%N -> (0 < size Y)%N -> ppe_wf q (size X) (size Y) -> size X' = size X -> size Y' = size Y ->
  ppe_holds q X Y -> ppe_holds q X' Y' ->
  tapes (2 * size X + (2 * size Y + 4))%N (stripped cs md) (fun R s => ppe_commit_and_prove (R := R) sch q X Y crs s) D
  = tapes (2 * size X + (2 * size Y + 4))%N (stripped cs md) (fun R s => ppe_commit_and_prove (R := R) sch' q X' Y' crs s) D.
Proof.
by move=> F A B C e E cs md *; apply: same_tapes; apply: k_C97_ppe_wi.
Qed.

Lemma k_C97_ppe_zk : forall (E : pairing) (cs : codecs E) (md : Compress) (sch sch' : sched) (q : PPE E) (X : seq (G1 E)) (Y : seq (G2 E)) (crs : CRS E) (a1 a2 t1 t2 : Fr E) (k l : Fr E) (P : G1 E) (Q : G2 E),
  bilinear E -> nondegenerate E -> cyclic (G1 E) -> cyclic (G2 E) -> valid_sched sch -> valid_sched sch' ->
  hiding_crs_with crs a1 a2 t1 t2 -> proper_crs crs ->
  ppe_target q = pair_e (k *: g1_gen crs) Q + pair_e P (l *: g2_gen crs) ->
  (0 < size X)%N -> (0 < size Y)%N -> ppe_wf q (size X) (size Y) -> ppe_holds q X Y ->
  same_output (2 * size X + (2 * size Y + 4))%N (stripped cs md) (fun p => stripped cs md (ppe_fix t1 t2 k l P Q p))
    (fun R s => ppe_commit_and_prove (R := R) sch q X Y crs s)
    (fun R s => ppe_commit_and_prove (R := R) sch' q (nseq (size X) 0) (nseq (size Y) 0) crs s).
Proof.
move=> E cs md sch sch' q X Y crs a1 a2 t1 t2 k l P Q hb hn hc1 hc2 vs vs' hh hp ht h1 h2 h3 h4; apply: (same_view (fun a b => @stripped_public _ cs md a _)); exact: (ppe_zk vs vs' hb hn hc1 hc2 hp hh ht).
Qed.

Lemma k_C97_ppe_zk_counts : forall (F : finFieldType) (A B C : lmodType F) (e : A -> B -> C), let E := Pairing e in
  forall (cs : codecs E) (md : Compress) (sch sch' : sched) (q : PPE E) (X : seq (G1 E)) (Y : seq (G2 E)) (crs : CRS E) (a1 a2 t1 t2 : Fr E) (k l : Fr E) (P : G1 E) (Q : G2 E) D,
  bilinear E -> nondegenerate E -> cyclic (G1 E) -> cyclic (G2 E) -> valid_sched sch -> valid_sched sch' ->
  hiding_crs_with crs a1 a2 t1 t2 -> proper_crs crs ->
  ppe_target q = pair_e (k *: g1_gen crs) Q + pair_e P (l *: g2_gen crs) ->
  (0 < size X)%N -> (0 < size Y)%N -> ppe_wf q (size X) (size Y) -> ppe_holds q X Y ->
  tapes (2 * size X + (2 * size Y + 4))%N (stripped cs md) (fun R s => ppe_commit_and_prove (R := R) sch q X Y crs s) D
  = tapes (2 * size X + (2 * size Y + 4))%N (fun p => stripped cs md (ppe_fix t1 t2 k l P Q p)) (fun R s => ppe_commit_and_prove (R := R) sch' q (nseq (size X) 0) (nseq (size Y) 0) crs s) D.
Proof.
move=> F A B C e E cs md sch sch' q X Y crs a1 a2 t1 t2 k l P Q D hb hn hc1 hc2 vs vs' hh hp ht h1 h2 h3 h4; apply: same_tapes; exact: (@k_C97_ppe_zk E cs md sch sch' q X Y crs a1 a2 t1 t2 k l P Q hb hn hc1 hc2 vs vs' hh hp ht h1 h2 h3 h4).
Qed.

Lemma ppe_strip_wi : forall (F : finFieldType) (A B C : lmodType F) (e : A -> B -> C), let E := Pairing e in
  forall (cs : codecs E) (md : Compress) (O1 O2 W : finType) (s1 : O1 -> A) (s2 : O2 -> B) (D : W -> CRS E -> pred _) (sch sch' : sched) (m n : nat)
  (q : W -> CRS E -> PPE E) (X X' : W -> CRS E -> seq A) (Y Y' : W -> CRS E -> seq B),
  bilinear E -> nondegenerate E -> cyclic (G1 E) -> cyclic (G2 E) -> valid_sched sch -> valid_sched sch' -> (0 < m)%N -> (0 < n)%N ->
  (forall w crs, [/\ size (X w crs) = m, size (Y w crs) = n, size (X' w crs) = m & size (Y' w crs) = n]) ->
  (forall w crs, proper_crs crs -> [/\ ppe_wf (q w crs) m n, ppe_holds (q w crs) (X w crs) (Y w crs) & ppe_holds (q w crs) (X' w crs) (Y' w crs)]) ->
  let B1 := proof_test (N := (2 * m + (2 * n + 4))%N) D (stripped cs md) (fun w crs R s => ppe_commit_and_prove (R := R) sch (q w crs) (X w crs) (Y w crs) crs s) in
  let B2 := proof_test (N := (2 * m + (2 * n + 4))%N) D (stripped cs md) (fun w crs R s => ppe_commit_and_prove (R := R) sch' (q w crs) (X' w crs) (Y' w crs) crs s) in
  is_true (`|game s1 s2 real_crs B1 - game s1 s2 real_crs B2| <= key_adv s1 s2 B1 + key_adv s1 s2 B2 + bad_point s1 s2).
Proof.
move=> F A B C e E cs md O1 O2 W s1 s2 D sch sch' m n q X X' Y Y' hb hn hc1 hc2 vs vs' hm hn' hs hq B1 B2.
apply: (@wi_step F A B C e O1 O2 W s1 s2 _ _ (2 * m + (2 * n + 4))%N D (stripped cs md)) => w crs hh hp D'.
have [x1 y1 x2 y2] := hs w crs; have [wf h1 h2] := hq w crs hp.
have e1 := etrans x2 (esym x1); have e2 := etrans y2 (esym y1).
apply: same_tapes; apply: (same_view (stripped_public cs md)); rewrite -x1 -y1 in wf hm hn' *; exact: ppe_wi.
Qed.

Lemma k_C97_ppe_wi_ddh : forall (F : finFieldType) (A B C : lmodType F) (e : A -> B -> C), let E := Pairing e in
  forall (cs : codecs E) (md : Compress) (O1 O2 W : finType) (s1 : O1 -> A) (s2 : O2 -> B) (D : W -> CRS E -> pred _) (sch sch' : sched) (m n : nat)
  (q : W -> CRS E -> PPE E) (X X' : W -> CRS E -> seq A) (Y Y' : W -> CRS E -> seq B),
  bilinear E -> nondegenerate E -> cyclic (G1 E) -> cyclic (G2 E) -> valid_sched sch -> valid_sched sch' -> (0 < m)%N -> (0 < n)%N ->
  (forall w crs, [/\ size (X w crs) = m, size (Y w crs) = n, size (X' w crs) = m & size (Y' w crs) = n]) ->
  (forall w crs, proper_crs crs -> [/\ ppe_wf (q w crs) m n, ppe_holds (q w crs) (X w crs) (Y w crs) & ppe_holds (q w crs) (X' w crs) (Y' w crs)]) ->
  let B1 := proof_test (N := (2 * m + (2 * n + 4))%N) D (stripped cs md) (fun w crs R s => ppe_commit_and_prove (R := R) sch (q w crs) (X w crs) (Y w crs) crs s) in
  let B2 := proof_test (N := (2 * m + (2 * n + 4))%N) D (stripped cs md) (fun w crs R s => ppe_commit_and_prove (R := R) sch' (q w crs) (X' w crs) (Y' w crs) crs s) in
  is_true (`|game s1 s2 real_crs B1 - game s1 s2 real_crs B2| <= 
  (ddh_adv s1 (ddh1 s2 B1) + ddh_adv s1 (ddh2 s2 B1) + ddh_adv s2 (ddh3 s1 B1) + ddh_adv s2 (ddh4 s1 B1))
  + (ddh_adv s1 (ddh1 s2 B2) + ddh_adv s1 (ddh2 s2 B2) + ddh_adv s2 (ddh3 s1 B2) + ddh_adv s2 (ddh4 s1 B2))
  + bad_point s1 s2).
Proof.
move=> F A B C e E cs md O1 O2 W s1 s2 D sch sch' m n q X X' Y Y' hb hn hc1 hc2 vs vs' hm hn' hs hq B1 B2.
have := @ppe_strip_wi F A B C e cs md O1 O2 W s1 s2 D sch sch' m n q X X' Y Y' hb hn hc1 hc2 vs vs' hm hn' hs hq.
rewrite -/B1 -/B2; cbv zeta => h; apply: le_trans h _.
apply: ler_add => //; apply: ler_add; exact: key_adv_ddh.
Qed.

Lemma ppe_strip_zk : forall (F : finFieldType) (A B C : lmodType F) (e : A -> B -> C), let E := Pairing e in
  forall (cs : codecs E) (md : Compress) (O1 O2 W : finType) (s1 : O1 -> A) (s2 : O2 -> B) (D : W -> CRS E -> pred _) (sch sch' : sched) (m n : nat)
  (q : W -> CRS E -> PPE E) (X : W -> CRS E -> seq A) (Y : W -> CRS E -> seq B) (k l : W -> CRS E -> F) (P : W -> CRS E -> A) (Q : W -> CRS E -> B),
  bilinear E -> nondegenerate E -> cyclic (G1 E) -> cyclic (G2 E) -> valid_sched sch -> valid_sched sch' -> (0 < m)%N -> (0 < n)%N ->
  (forall w crs, size (X w crs) = m /\ size (Y w crs) = n) ->
  (forall w crs, proper_crs crs -> ppe_wf (q w crs) m n /\ ppe_holds (q w crs) (X w crs) (Y w crs)) ->
  (forall w crs, proper_crs crs -> ppe_target (q w crs) = e (k w crs *: g1_gen crs) (Q w crs) + e (P w crs) (l w crs *: g2_gen crs)) ->
  let B1 := proof_test (N := (2 * m + (2 * n + 4))%N) D (stripped cs md) (fun w crs R s => ppe_commit_and_prove (R := R) sch (q w crs) (X w crs) (Y w crs) crs s) in
  is_true (`|game s1 s2 real_crs B1 -
    sim_game (2 * m + (2 * n + 4))%N D s1 s2 (fun t1 t2 w crs p => stripped cs md (ppe_fix (E := E) t1 t2 (k w crs) (l w crs) (P w crs) (Q w crs) p))
      (fun w crs R s => ppe_commit_and_prove (R := R) sch' (q w crs) (nseq m 0) (nseq n 0) crs s)| <= key_adv s1 s2 B1 + bad_point s1 s2).
Proof.
move=> F A B C e E cs md O1 O2 W s1 s2 D sch sch' m n q X Y k l P Q hb hn hc1 hc2 vs vs' hm hn' hs hq ht B1.
apply: (@zk_step F A B C e O1 O2 W s1 s2 _ _ (2 * m + (2 * n + 4))%N D (stripped cs md)) => w crs a1 a2 t1 t2 hh hp D'.
have [x1 y1] := hs w crs; have [wf h1] := hq w crs hp.
apply: same_tapes; apply: (same_view (fun a b => @stripped_public _ cs md a _)); rewrite -x1 -y1 in wf hm hn' *; exact: (ppe_zk vs vs' hb hn hc1 hc2 hp hh (ht w crs hp)).
Qed.

Lemma k_C97_ppe_zk_ddh : forall (F : finFieldType) (A B C : lmodType F) (e : A -> B -> C), let E := Pairing e in
  forall (cs : codecs E) (md : Compress) (O1 O2 W : finType) (s1 : O1 -> A) (s2 : O2 -> B) (D : W -> CRS E -> pred _) (sch sch' : sched) (m n : nat)
  (q : W -> CRS E -> PPE E) (X : W -> CRS E -> seq A) (Y : W -> CRS E -> seq B) (k l : W -> CRS E -> F) (P : W -> CRS E -> A) (Q : W -> CRS E -> B),
  bilinear E -> nondegenerate E -> cyclic (G1 E) -> cyclic (G2 E) -> valid_sched sch -> valid_sched sch' -> (0 < m)%N -> (0 < n)%N ->
  (forall w crs, size (X w crs) = m /\ size (Y w crs) = n) ->
  (forall w crs, proper_crs crs -> ppe_wf (q w crs) m n /\ ppe_holds (q w crs) (X w crs) (Y w crs)) ->
  (forall w crs, proper_crs crs -> ppe_target (q w crs) = e (k w crs *: g1_gen crs) (Q w crs) + e (P w crs) (l w crs *: g2_gen crs)) ->
  let B1 := proof_test (N := (2 * m + (2 * n + 4))%N) D (stripped cs md) (fun w crs R s => ppe_commit_and_prove (R := R) sch (q w crs) (X w crs) (Y w crs) crs s) in
  is_true (`|game s1 s2 real_crs B1 -
    sim_game (2 * m + (2 * n + 4))%N D s1 s2 (fun t1 t2 w crs p => stripped cs md (ppe_fix (E := E) t1 t2 (k w crs) (l w crs) (P w crs) (Q w crs) p))
      (fun w crs R s => ppe_commit_and_prove (R := R) sch' (q w crs) (nseq m 0) (nseq n 0) crs s)| <= 
  (ddh_adv s1 (ddh1 s2 B1) + ddh_adv s1 (ddh2 s2 B1) + ddh_adv s2 (ddh3 s1 B1) + ddh_adv s2 (ddh4 s1 B1)) + bad_point s1 s2).
Proof.
move=> F A B C e E cs md O1 O2 W s1 s2 D sch sch' m n q X Y k l P Q hb hn hc1 hc2 vs vs' hm hn' hs hq ht B1.
have := @ppe_strip_zk F A B C e cs md O1 O2 W s1 s2 D sch sch' m n q X Y k l P Q hb hn hc1 hc2 vs vs' hm hn' hs hq ht.
rewrite -/B1; cbv zeta => h; apply: le_trans h _.
apply: ler_add => //; exact: key_adv_ddh.
Qed.

Lemma k_C97_ppe_full_refuted : forall (E : pairing) (cs : codecs E) (md : Compress) (sch sch' : sched) (R R' : rng E) (s s' : rst R) (z z' : rst R') (q q' : PPE E) (X X' : seq (G1 E)) (Y Y' : seq (G2 E)) (crs : CRS E) (p p' : CProof E),
  elements_ok cs good_codec -> short X -> short Y -> short X' -> short Y' -> 
  ppe_commit_and_prove sch q X Y crs s = Ok (p, s') -> ppe_commit_and_prove sch' q' X' Y' crs z = Ok (p', z') ->
  wire cs md p = wire cs md p' -> X = X' /\ Y = Y'.
Proof.
move=> E cs md sch sch' R R' s s' z z' q q' X X' Y Y' crs p p' hc x1 y1 x2 y2  /ppe_cap_made[mx my] /ppe_cap_made[mx' my'] h.
have [ex ey] := wire_coms hc (made_G1_fits mx x1) (made_G1_fits mx' x2) (made_G2_fits my y1) (made_G2_fits my' y2) h.
rewrite -ex in mx'; rewrite -ey in my'.
exact (conj (made_G1_same mx mx') (made_G2_same my my')).
Qed.

Lemma k_C97_ppe_full_wi_refuted : forall (E : pairing) (cs : codecs E) (md : Compress) (sch sch' : sched) (q : PPE E) (X X' : seq (G1 E)) (Y Y' : seq (G2 E)) (crs : CRS E),
  elements_ok cs good_codec -> valid_sched sch -> short X -> short Y -> size (crs_u crs) = 2%N -> size (crs_v crs) = 2%N -> 
  (0 < size X)%N -> (0 < size Y)%N -> ppe_wf q (size X) (size Y) -> size X' = size X -> size Y' = size Y ->
  (X, Y) <> (X', Y') ->
  ~ same_output (2 * size X + (2 * size Y + 4))%N (wire cs md) (wire cs md)
    (fun R s => ppe_commit_and_prove (R := R) sch q X Y crs s) (fun R s => ppe_commit_and_prove (R := R) sch' q X' Y' crs s).
Proof.
move=> E cs md sch sch' q X X' Y Y' crs hc vs x1 y1 hu hv  hm hn wf ex ey hne /same_on_tapes[s [z]].
have [p [s' e]] := proj2 (ppe_cap_total vs q X Y crs s) (And4 (conj hm hn) wf hu hv).
rewrite e; case e' : (ppe_commit_and_prove sch' q X' Y' crs z) => [[p' z']|f] h0; last discriminate h0.
have h : wire cs md p = wire cs md p' := Ok_inj h0; apply: hne.
have x2 : short X' by rewrite /short ex; exact: x1.
have y2 : short Y' by rewrite /short ey; exact: y1.
by have [-> ->] := @k_C97_ppe_full_refuted E cs md sch sch' _ _ s s' z z' q q X X' Y Y' crs p p' hc x1 y1 x2 y2  e e' h.
Qed.

Lemma k_C97_ms1_verdict : forall (E : pairing) (sch : sched) (q : MSMEG1 E) (p : CProof E) (crs : CRS E), ms1_verify sch q (strip p) crs = ms1_verify sch q p crs.
Proof.
by move=> E sch q p crs; apply: k_C33_ms1_randomness; rewrite strip_public.
Qed.

Lemma k_C97_ms1_received : forall (E : pairing) (cs : codecs E) (sch : sched) (md : Compress) (v : Validate) (q : MSMEG1 E) (crs : CRS E) (p : CProof E) (pf : EquProof E),
  elements_ok cs good_codec -> ms1_fits q -> crs_fits crs -> short (coms (xcoms p)) -> short (coms (ycoms p)) -> short (pi pf) -> short (theta pf) -> equ_proofs p = [:: pf] ->
  receive cs (ms1_codec cs) (ms1_verify sch) md v (ser (ms1_codec cs) md q ++ ser (crs_codec cs) md crs ++ stripped cs md p) = DOk (ms1_verify sch q p crs) [::].
Proof.
move=> E cs sch md v q crs p pf hc hq hk hx hy hp ht ep; rewrite -k_C97_ms1_verdict.
have hn T : short_mat ([::] : matrix T) by split; [exact: (expn_gt0 2 64)|constructor].
have -> : strip p = mkCProof (xcoms (strip p)) (ycoms (strip p)) [:: mkEquProof (pi pf) (theta pf) (equ_type pf) [::]] by rewrite /strip ep.
have -> : stripped cs md p = ser (commit1_codec cs) md (xcoms (strip p)) ++ ser (commit2_codec cs) md (ycoms (strip p)) ++ ser (equproof_codec cs) md (mkEquProof (pi pf) (theta pf) (equ_type pf) [::]).
  have -> : stripped cs md p = ser (commit1_codec cs) md (xcoms (strip p)) ++ (ser (commit2_codec cs) md (ycoms (strip p)) ++ flatten [seq ser (equproof_codec cs) md f | f <- equ_proofs (strip p)]) by [].
  by rewrite -[equ_proofs (strip p)]/[seq mkEquProof (pi f) (theta f) (equ_type f) [::] | f <- equ_proofs p] ep -[flatten _]/(_ ++ [::]) cats0.
exact (@ms1_transport E cs sch md v q crs (xcoms (strip p)) (ycoms (strip p)) (mkEquProof (pi pf) (theta pf) (equ_type pf) [::]) hc hq hk (conj hx (hn _)) (conj hy (hn _)) (conj hp (conj ht (hn _)))).

Qed.

Lemma k_C97_ms1_wi : forall (E : pairing) (cs : codecs E) (md : Compress) (sch sch' : sched) (q : MSMEG1 E) (X X' : seq (G1 E)) (Y Y' : seq (Fr E)) (crs : CRS E),
  bilinear E -> nondegenerate E -> cyclic (G1 E) -> cyclic (G2 E) -> valid_sched sch -> valid_sched sch' ->
  hiding_crs crs -> proper_crs crs ->
  (0 < size X)%N -> (0 < size Y)%N -> ms1_wf q (size X) (size Y) -> size X' = size X -> size Y' = size Y ->
  ms1_holds q X Y -> ms1_holds q X' Y' ->
  same_output (2 * size X + (size Y + 2))%N (stripped cs md) (stripped cs md)
    (fun R s => ms1_commit_and_prove (R := R) sch q X Y crs s) (fun R s => ms1_commit_and_prove (R := R) sch' q X' Y' crs s).
Proof.
move=> E cs md sch sch' q X X' Y Y' crs hb hn hc1 hc2 vs vs' hh hp h1 h2 h3 h4 h5 h6 h7; apply: (same_view (stripped_public cs md)); exact: ms1_wi.
Qed.

Lemma k_C97_ms1_wi_counts : forall (F : finFieldType) (A B C : lmodType F) (e : A -> B -> C), let E := Pairing e in
  forall (cs : codecs E) (md : Compress) (sch sch' : sched) (q : MSMEG1 E) (X X' : seq (G1 E)) (Y Y' : seq (Fr E)) (crs : CRS E) D,
  bilinear E -> nondegenerate E -> cyclic (G1 E) -> cyclic (G2 E) -> valid_sched sch -> valid_sched sch' ->
  hiding_crs crs -> proper_crs crs ->
  (0 < size X)%N -> (0 < size Y)%N -> ms1_wf q (size X) (size Y) -> size X' = size X -> size Y' = size Y ->
  ms1_holds q X Y -> ms1_holds q X' Y' ->
  tapes (2 * size X + (size Y + 2))%N (stripped cs md) (fun R s => ms1_commit_and_prove (R := R) sch q X Y crs s) D
  = tapes (2 * size X + (size Y + 2))%N (stripped cs md) (fun R s => ms1_commit_and_prove (R := R) sch' q X' Y' crs s) D.
Proof.
by move=> F A B C e E cs md *; apply: same_tapes; apply: k_C97_ms1_wi.
Qed.

Lemma k_C97_ms1_zk : forall (E : pairing) (cs : codecs E) (md : Compress) (sch sch' : sched) (q : MSMEG1 E) (X : seq (G1 E)) (Y : seq (Fr E)) (crs : CRS E) (a1 a2 t1 t2 : Fr E),
  bilinear E -> nondegenerate E -> cyclic (G1 E) -> cyclic (G2 E) -> valid_sched sch -> valid_sched sch' ->
  hiding_crs_with crs a1 a2 t1 t2 -> proper_crs crs ->
  (0 < size X)%N -> (0 < size Y)%N -> ms1_wf q (size X) (size Y) -> ms1_holds q X Y ->
  same_output (2 * size X + (size Y + 2))%N (stripped cs md) (fun p => stripped cs md (ms1_fix t1 t2 q p))
    (fun R s => ms1_commit_and_prove (R := R) sch q X Y crs s)
    (fun R s => ms1_commit_and_prove (R := R) sch' q (nseq (size X) 0) (nseq (size Y) 0) crs s).
Proof.
move=> E cs md sch sch' q X Y crs a1 a2 t1 t2 hb hn hc1 hc2 vs vs' hh hp h1 h2 h3 h4; apply: (same_view (fun a b => @stripped_public _ cs md a _)); exact: (ms1_zk vs vs' hb hn hc1 hc2 hp hh).
Qed.

Lemma k_C97_ms1_zk_counts : forall (F : finFieldType) (A B C : lmodType F) (e : A -> B -> C), let E := Pairing e in
  forall (cs : codecs E) (md : Compress) (sch sch' : sched) (q : MSMEG1 E) (X : seq (G1 E)) (Y : seq (Fr E)) (crs : CRS E) (a1 a2 t1 t2 : Fr E) D,
  bilinear E -> nondegenerate E -> cyclic (G1 E) -> cyclic (G2 E) -> valid_sched sch -> valid_sched sch' ->
  hiding_crs_with crs a1 a2 t1 t2 -> proper_crs crs ->
  (0 < size X)%N -> (0 < size Y)%N -> ms1_wf q (size X) (size Y) -> ms1_holds q X Y ->
  tapes (2 * size X + (size Y + 2))%N (stripped cs md) (fun R s => ms1_commit_and_prove (R := R) sch q X Y crs s) D
  = tapes (2 * size X + (size Y + 2))%N (fun p => stripped cs md (ms1_fix t1 t2 q p)) (fun R s => ms1_commit_and_prove (R := R) sch' q (nseq (size X) 0) (nseq (size Y) 0) crs s) D.
Proof.
move=> F A B C e E cs md sch sch' q X Y crs a1 a2 t1 t2 D hb hn hc1 hc2 vs vs' hh hp h1 h2 h3 h4; apply: same_tapes; exact: (@k_C97_ms1_zk E cs md sch sch' q X Y crs a1 a2 t1 t2 hb hn hc1 hc2 vs vs' hh hp h1 h2 h3 h4).
Qed.

Lemma ms1_strip_wi : forall (F : finFieldType) (A B C : lmodType F) (e : A -> B -> C), let E := Pairing e in
  forall (cs : codecs E) (md : Compress) (O1 O2 W : finType) (s1 : O1 -> A) (s2 : O2 -> B) (D : W -> CRS E -> pred _) (sch sch' : sched) (m n : nat)
  (q : W -> CRS E -> MSMEG1 E) (X X' : W -> CRS E -> seq A) (Y Y' : W -> CRS E -> seq F),
  bilinear E -> nondegenerate E -> cyclic (G1 E) -> cyclic (G2 E) -> valid_sched sch -> valid_sched sch' -> (0 < m)%N -> (0 < n)%N ->
  (forall w crs, [/\ size (X w crs) = m, size (Y w crs) = n, size (X' w crs) = m & size (Y' w crs) = n]) ->
  (forall w crs, proper_crs crs -> [/\ ms1_wf (q w crs) m n, ms1_holds (q w crs) (X w crs) (Y w crs) & ms1_holds (q w crs) (X' w crs) (Y' w crs)]) ->
  let B1 := proof_test (N := (2 * m + (n + 2))%N) D (stripped cs md) (fun w crs R s => ms1_commit_and_prove (R := R) sch (q w crs) (X w crs) (Y w crs) crs s) in
  let B2 := proof_test (N := (2 * m + (n + 2))%N) D (stripped cs md) (fun w crs R s => ms1_commit_and_prove (R := R) sch' (q w crs) (X' w crs) (Y' w crs) crs s) in
  is_true (`|game s1 s2 real_crs B1 - game s1 s2 real_crs B2| <= key_adv s1 s2 B1 + key_adv s1 s2 B2 + bad_point s1 s2).
Proof.
move=> F A B C e E cs md O1 O2 W s1 s2 D sch sch' m n q X X' Y Y' hb hn hc1 hc2 vs vs' hm hn' hs hq B1 B2.
apply: (@wi_step F A B C e O1 O2 W s1 s2 _ _ (2 * m + (n + 2))%N D (stripped cs md)) => w crs hh hp D'.
have [x1 y1 x2 y2] := hs w crs; have [wf h1 h2] := hq w crs hp.
have e1 := etrans x2 (esym x1); have e2 := etrans y2 (esym y1).
apply: same_tapes; apply: (same_view (stripped_public cs md)); rewrite -x1 -y1 in wf hm hn' *; exact: ms1_wi.
Qed.

Lemma k_C97_ms1_wi_ddh : forall (F : finFieldType) (A B C : lmodType F) (e : A -> B -> C), let E := Pairing e in
  forall (cs : codecs E) (md : Compress) (O1 O2 W : finType) (s1 : O1 -> A) (s2 : O2 -> B) (D : W -> CRS E -> pred _) (sch sch' : sched) (m n : nat)
  (q : W -> CRS E -> MSMEG1 E) (X X' : W -> CRS E -> seq A) (Y Y' : W -> CRS E -> seq F),
  bilinear E -> nondegenerate E -> cyclic (G1 E) -> cyclic (G2 E) -> valid_sched sch -> valid_sched sch' -> (0 < m)%N -> (0 < n)%N ->
  (forall w crs, [/\ size (X w crs) = m, size (Y w crs) = n, size (X' w crs) = m & size (Y' w crs) = n]) ->
  (forall w crs, proper_crs crs -> [/\ ms1_wf (q w crs) m n, ms1_holds (q w crs) (X w crs) (Y w crs) & ms1_holds (q w crs) (X' w crs) (Y' w crs)]) ->
  let B1 := proof_test (N := (2 * m + (n + 2))%N) D (stripped cs md) (fun w crs R s => ms1_commit_and_prove (R := R) sch (q w crs) (X w crs) (Y w crs) crs s) in
  let B2 := proof_test (N := (2 * m + (n + 2))%N) D (stripped cs md) (fun w crs R s => ms1_commit_and_prove (R := R) sch' (q w crs) (X' w crs) (Y' w crs) crs s) in
  is_true (`|game s1 s2 real_crs B1 - game s1 s2 real_crs B2| <= 
  (ddh_adv s1 (ddh1 s2 B1) + ddh_adv s1 (ddh2 s2 B1) + ddh_adv s2 (ddh3 s1 B1) + ddh_adv s2 (ddh4 s1 B1))
  + (ddh_adv s1 (ddh1 s2 B2) + ddh_adv s1 (ddh2 s2 B2) + ddh_adv s2 (ddh3 s1 B2) + ddh_adv s2 (ddh4 s1 B2))
  + bad_point s1 s2).
Proof.
move=> F A B C e E cs md O1 O2 W s1 s2 D sch sch' m n q X X' Y Y' hb hn hc1 hc2 vs vs' hm hn' hs hq B1 B2.
have := @ms1_strip_wi F A B C e cs md O1 O2 W s1 s2 D sch sch' m n q X X' Y Y' hb hn hc1 hc2 vs vs' hm hn' hs hq.
rewrite -/B1 -/B2; cbv zeta => h; apply: le_trans h _.
apply: ler_add => //; apply: ler_add; exact: key_adv_ddh.
Qed.

Lemma ms1_strip_zk : forall (F : finFieldType) (A B C : lmodType F) (e : A -> B -> C), let E := Pairing e in
  forall (cs : codecs E) (md : Compress) (O1 O2 W : finType) (s1 : O1 -> A) (s2 : O2 -> B) (D : W -> CRS E -> pred _) (sch sch' : sched) (m n : nat)
  (q : W -> CRS E -> MSMEG1 E) (X : W -> CRS E -> seq A) (Y : W -> CRS E -> seq F),
  bilinear E -> nondegenerate E -> cyclic (G1 E) -> cyclic (G2 E) -> valid_sched sch -> valid_sched sch' -> (0 < m)%N -> (0 < n)%N ->
  (forall w crs, size (X w crs) = m /\ size (Y w crs) = n) ->
  (forall w crs, proper_crs crs -> ms1_wf (q w crs) m n /\ ms1_holds (q w crs) (X w crs) (Y w crs)) ->
  let B1 := proof_test (N := (2 * m + (n + 2))%N) D (stripped cs md) (fun w crs R s => ms1_commit_and_prove (R := R) sch (q w crs) (X w crs) (Y w crs) crs s) in
  is_true (`|game s1 s2 real_crs B1 -
    sim_game (2 * m + (n + 2))%N D s1 s2 (fun t1 t2 w crs p => stripped cs md (ms1_fix (E := E) t1 t2 (q w crs) p))
      (fun w crs R s => ms1_commit_and_prove (R := R) sch' (q w crs) (nseq m 0) (nseq n 0) crs s)| <= key_adv s1 s2 B1 + bad_point s1 s2).
Proof.
move=> F A B C e E cs md O1 O2 W s1 s2 D sch sch' m n q X Y hb hn hc1 hc2 vs vs' hm hn' hs hq B1.
apply: (@zk_step F A B C e O1 O2 W s1 s2 _ _ (2 * m + (n + 2))%N D (stripped cs md)) => w crs a1 a2 t1 t2 hh hp D'.
have [x1 y1] := hs w crs; have [wf h1] := hq w crs hp.
apply: same_tapes; apply: (same_view (fun a b => @stripped_public _ cs md a _)); rewrite -x1 -y1 in wf hm hn' *; exact: (ms1_zk vs vs' hb hn hc1 hc2 hp hh).
Qed.

Lemma k_C97_ms1_zk_ddh : forall (F : finFieldType) (A B C : lmodType F) (e : A -> B -> C), let E := Pairing e in
  forall (cs : codecs E) (md : Compress) (O1 O2 W : finType) (s1 : O1 -> A) (s2 : O2 -> B) (D : W -> CRS E -> pred _) (sch sch' : sched) (m n : nat)
  (q : W -> CRS E -> MSMEG1 E) (X : W -> CRS E -> seq A) (Y : W -> CRS E -> seq F),
  bilinear E -> nondegenerate E -> cyclic (G1 E) -> cyclic (G2 E) -> valid_sched sch -> valid_sched sch' -> (0 < m)%N -> (0 < n)%N ->
  (forall w crs, size (X w crs) = m /\ size (Y w crs) = n) ->
  (forall w crs, proper_crs crs -> ms1_wf (q w crs) m n /\ ms1_holds (q w crs) (X w crs) (Y w crs)) ->
  let B1 := proof_test (N := (2 * m + (n + 2))%N) D (stripped cs md) (fun w crs R s => ms1_commit_and_prove (R := R) sch (q w crs) (X w crs) (Y w crs) crs s) in
  is_true (`|game s1 s2 real_crs B1 -
    sim_game (2 * m + (n + 2))%N D s1 s2 (fun t1 t2 w crs p => stripped cs md (ms1_fix (E := E) t1 t2 (q w crs) p))
      (fun w crs R s => ms1_commit_and_prove (R := R) sch' (q w crs) (nseq m 0) (nseq n 0) crs s)| <= 
  (ddh_adv s1 (ddh1 s2 B1) + ddh_adv s1 (ddh2 s2 B1) + ddh_adv s2 (ddh3 s1 B1) + ddh_adv s2 (ddh4 s1 B1)) + bad_point s1 s2).
Proof.
move=> F A B C e E cs md O1 O2 W s1 s2 D sch sch' m n q X Y hb hn hc1 hc2 vs vs' hm hn' hs hq B1.
have := @ms1_strip_zk F A B C e cs md O1 O2 W s1 s2 D sch sch' m n q X Y hb hn hc1 hc2 vs vs' hm hn' hs hq.
rewrite -/B1; cbv zeta => h; apply: le_trans h _.
apply: ler_add => //; exact: key_adv_ddh.
Qed.

Lemma k_C97_ms1_full_refuted : forall (E : pairing) (cs : codecs E) (md : Compress) (sch sch' : sched) (R R' : rng E) (s s' : rst R) (z z' : rst R') (q q' : MSMEG1 E) (X X' : seq (G1 E)) (Y Y' : seq (Fr E)) (crs : CRS E) (p p' : CProof E),
  elements_ok cs good_codec -> short X -> short Y -> short X' -> short Y' -> v2 crs + (0, g2_gen crs) != 0 -> 
  ms1_commit_and_prove sch q X Y crs s = Ok (p, s') -> ms1_commit_and_prove sch' q' X' Y' crs z = Ok (p', z') ->
  wire cs md p = wire cs md p' -> X = X' /\ Y = Y'.
Proof.
move=> E cs md sch sch' R R' s s' z z' q q' X X' Y Y' crs p p' hc x1 y1 x2 y2 hw2 /ms1_cap_made[mx my] /ms1_cap_made[mx' my'] h.
have [ex ey] := wire_coms hc (made_G1_fits mx x1) (made_G1_fits mx' x2) (made_B2_fits my y1) (made_B2_fits my' y2) h.
rewrite -ex in mx'; rewrite -ey in my'.
exact (conj (made_G1_same mx mx') (made_B2_determined hw2 my my')).
Qed.

Lemma k_C97_ms1_full_wi_refuted : forall (E : pairing) (cs : codecs E) (md : Compress) (sch sch' : sched) (q : MSMEG1 E) (X X' : seq (G1 E)) (Y Y' : seq (Fr E)) (crs : CRS E),
  elements_ok cs good_codec -> valid_sched sch -> short X -> short Y -> size (crs_u crs) = 2%N -> size (crs_v crs) = 2%N -> v2 crs + (0, g2_gen crs) != 0 -> 
  (0 < size X)%N -> (0 < size Y)%N -> ms1_wf q (size X) (size Y) -> size X' = size X -> size Y' = size Y ->
  (X, Y) <> (X', Y') ->
  ~ same_output (2 * size X + (size Y + 2))%N (wire cs md) (wire cs md)
    (fun R s => ms1_commit_and_prove (R := R) sch q X Y crs s) (fun R s => ms1_commit_and_prove (R := R) sch' q X' Y' crs s).
Proof.
move=> E cs md sch sch' q X X' Y Y' crs hc vs x1 y1 hu hv hw2 hm hn wf ex ey hne /same_on_tapes[s [z]].
have [p [s' e]] := proj2 (ms1_cap_total vs q X Y crs s) (And4 (conj hm hn) wf hu (@eq_ind_r nat 2%N (fun n : nat => is_true (1 < n)%N) isT _ hv)).
rewrite e; case e' : (ms1_commit_and_prove sch' q X' Y' crs z) => [[p' z']|f] h0; last discriminate h0.
have h : wire cs md p = wire cs md p' := Ok_inj h0; apply: hne.
have x2 : short X' by rewrite /short ex; exact: x1.
have y2 : short Y' by rewrite /short ey; exact: y1.
by have [-> ->] := @k_C97_ms1_full_refuted E cs md sch sch' _ _ s s' z z' q q X X' Y Y' crs p p' hc x1 y1 x2 y2 hw2 e e' h.
Qed.

Lemma k_C97_ms2_verdict : forall (E : pairing) (sch : sched) (q : MSMEG2 E) (p : CProof E) (crs : CRS E), ms2_verify sch q (strip p) crs = ms2_verify sch q p crs.
Proof.
by move=> E sch q p crs; apply: k_C33_ms2_randomness; rewrite strip_public.
Qed.

Lemma k_C97_ms2_received : forall (E : pairing) (cs : codecs E) (sch : sched) (md : Compress) (v : Validate) (q : MSMEG2 E) (crs : CRS E) (p : CProof E) (pf : EquProof E),
  elements_ok cs good_codec -> ms2_fits q -> crs_fits crs -> short (coms (xcoms p)) -> short (coms (ycoms p)) -> short (pi pf) -> short (theta pf) -> equ_proofs p = [:: pf] ->
  receive cs (ms2_codec cs) (ms2_verify sch) md v (ser (ms2_codec cs) md q ++ ser (crs_codec cs) md crs ++ stripped cs md p) = DOk (ms2_verify sch q p crs) [::].
Proof.
move=> E cs sch md v q crs p pf hc hq hk hx hy hp ht ep; rewrite -k_C97_ms2_verdict.
have hn T : short_mat ([::] : matrix T) by split; [exact: (expn_gt0 2 64)|constructor].
have -> : strip p = mkCProof (xcoms (strip p)) (ycoms (strip p)) [:: mkEquProof (pi pf) (theta pf) (equ_type pf) [::]] by rewrite /strip ep.
have -> : stripped cs md p = ser (commit1_codec cs) md (xcoms (strip p)) ++ ser (commit2_codec cs) md (ycoms (strip p)) ++ ser (equproof_codec cs) md (mkEquProof (pi pf) (theta pf) (equ_type pf) [::]).
  have -> : stripped cs md p = ser (commit1_codec cs) md (xcoms (strip p)) ++ (ser (commit2_codec cs) md (ycoms (strip p)) ++ flatten [seq ser (equproof_codec cs) md f | f <- equ_proofs (strip p)]) by [].
  by rewrite -[equ_proofs (strip p)]/[seq mkEquProof (pi f) (theta f) (equ_type f) [::] | f <- equ_proofs p] ep -[flatten _]/(_ ++ [::]) cats0.
exact (@ms2_transport E cs sch md v q crs (xcoms (strip p)) (ycoms (strip p)) (mkEquProof (pi pf) (theta pf) (equ_type pf) [::]) hc hq hk (conj hx (hn _)) (conj hy (hn _)) (conj hp (conj ht (hn _)))).

Qed.

Lemma k_C97_ms2_wi : forall (E : pairing) (cs : codecs E) (md : Compress) (sch sch' : sched) (q : MSMEG2 E) (X X' : seq (Fr E)) (Y Y' : seq (G2 E)) (crs : CRS E),
  bilinear E -> nondegenerate E -> cyclic (G1 E) -> cyclic (G2 E) -> valid_sched sch -> valid_sched sch' ->
  hiding_crs crs -> proper_crs crs ->
  (0 < size X)%N -> (0 < size Y)%N -> ms2_wf q (size X) (size Y) -> size X' = size X -> size Y' = size Y ->
  ms2_holds q X Y -> ms2_holds q X' Y' ->
  same_output (size X + (2 * size Y + 2))%N (stripped cs md) (stripped cs md)
    (fun R s => ms2_commit_and_prove (R := R) sch q X Y crs s) (fun R s => ms2_commit_and_prove (R := R) sch' q X' Y' crs s).
Proof.
move=> E cs md sch sch' q X X' Y Y' crs hb hn hc1 hc2 vs vs' hh hp h1 h2 h3 h4 h5 h6 h7; apply: (same_view (stripped_public cs md)); exact: ms2_wi.
Qed.

Lemma k_C97_ms2_wi_counts : forall (F : finFieldType) (A B C : lmodType F) (e : A -> B -> C), let E := Pairing e in
  forall (cs : codecs E) (md : Compress) (sch sch' : sched) (q : MSMEG2 E) (X X' : seq (Fr E)) (Y Y' : seq (G2 E)) (crs : CRS E) D,
  bilinear E -> nondegenerate E -> cyclic (G1 E) -> cyclic (G2 E) -> valid_sched sch -> valid_sched sch' ->
  hiding_crs crs -> proper_crs crs ->
  (0 < size X)%N -> (0 < size Y)%N -> ms2_wf q (size X) (size Y) -> size X' = size X -> size Y' = size Y ->
  ms2_holds q X Y -> ms2_holds q X' Y' ->
  tapes (size X + (2 * size Y + 2))%N (stripped cs md) (fun R s => ms2_commit_and_prove (R := R) sch q X Y crs s) D
  = tapes (size X + (2 * size Y + 2))%N (stripped cs md) (fun R s => ms2_commit_and_prove (R := R) sch' q X' Y' crs s) D.
Proof.
by move=> F A B C e E cs md *; apply: same_tapes; apply: k_C97_ms2_wi.
Qed.

Lemma k_C97_ms2_zk : forall (E : pairing) (cs : codecs E) (md : Compress) (sch sch' : sched) (q : MSMEG2 E) (X : seq (Fr E)) (Y : seq (G2 E)) (crs : CRS E) (a1 a2 t1 t2 : Fr E),
  bilinear E -> nondegenerate E -> cyclic (G1 E) -> cyclic (G2 E) -> valid_sched sch -> valid_sched sch' ->
  hiding_crs_with crs a1 a2 t1 t2 -> proper_crs crs ->
  (0 < size X)%N -> (0 < size Y)%N -> ms2_wf q (size X) (size Y) -> ms2_holds q X Y ->
  same_output (size X + (2 * size Y + 2))%N (stripped cs md) (fun p => stripped cs md (ms2_fix t1 t2 q p))
    (fun R s => ms2_commit_and_prove (R := R) sch q X Y crs s)
    (fun R s => ms2_commit_and_prove (R := R) sch' q (nseq (size X) 0) (nseq (size Y) 0) crs s).
Proof.
move=> E cs md sch sch' q X Y crs a1 a2 t1 t2 hb hn hc1 hc2 vs vs' hh hp h1 h2 h3 h4; apply: (same_view (fun a b => @stripped_public _ cs md a _)); exact: (ms2_zk vs vs' hb hn hc1 hc2 hp hh).
Qed.

Lemma k_C97_ms2_zk_counts : forall (F : finFieldType) (A B C : lmodType F) (e : A -> B -> C), let E := Pairing e in
  forall (cs : codecs E) (md : Compress) (sch sch' : sched) (q : MSMEG2 E) (X : seq (Fr E)) (Y : seq (G2 E)) (crs : CRS E) (a1 a2 t1 t2 : Fr E) D,
  bilinear E -> nondegenerate E -> cyclic (G1 E) -> cyclic (G2 E) -> valid_sched sch -> valid_sched sch' ->
  hiding_crs_with crs a1 a2 t1 t2 -> proper_crs crs ->
  (0 < size X)%N -> (0 < size Y)%N -> ms2_wf q (size X) (size Y) -> ms2_holds q X Y ->
  tapes (size X + (2 * size Y + 2))%N (stripped cs md) (fun R s => ms2_commit_and_prove (R := R) sch q X Y crs s) D
  = tapes (size X + (2 * size Y + 2))%N (fun p => stripped cs md (ms2_fix t1 t2 q p)) (fun R s => ms2_commit_and_prove (R := R) sch' q (nseq (size X) 0) (nseq (size Y) 0) crs s) D.
Proof.
move=> F A B C e E cs md sch sch' q X Y crs a1 a2 t1 t2 D hb hn hc1 hc2 vs vs' hh hp h1 h2 h3 h4; apply: same_tapes; exact: (@k_C97_ms2_zk E cs md sch sch' q X Y crs a1 a2 t1 t2 hb hn hc1 hc2 vs vs' hh hp h1 h2 h3 h4).
Qed.

Lemma ms2_strip_wi : forall (F : finFieldType) (A B C : lmodType F) (e : A -> B -> C), let E := Pairing e in
  forall (cs : codecs E) (md : Compress) (O1 O2 W : finType) (s1 : O1 -> A) (s2 : O2 -> B) (D : W -> CRS E -> pred _) (sch sch' : sched) (m n : nat)
  (q : W -> CRS E -> MSMEG2 E) (X X' : W -> CRS E -> seq F) (Y Y' : W -> CRS E -> seq B),
  bilinear E -> nondegenerate E -> cyclic (G1 E) -> cyclic (G2 E) -> valid_sched sch -> valid_sched sch' -> (0 < m)%N -> (0 < n)%N ->
  (forall w crs, [/\ size (X w crs) = m, size (Y w crs) = n, size (X' w crs) = m & size (Y' w crs) = n]) ->
  (forall w crs, proper_crs crs -> [/\ ms2_wf (q w crs) m n, ms2_holds (q w crs) (X w crs) (Y w crs) & ms2_holds (q w crs) (X' w crs) (Y' w crs)]) ->
  let B1 := proof_test (N := (m + (2 * n + 2))%N) D (stripped cs md) (fun w crs R s => ms2_commit_and_prove (R := R) sch (q w crs) (X w crs) (Y w crs) crs s) in
  let B2 := proof_test (N := (m + (2 * n + 2))%N) D (stripped cs md) (fun w crs R s => ms2_commit_and_prove (R := R) sch' (q w crs) (X' w crs) (Y' w crs) crs s) in
  is_true (`|game s1 s2 real_crs B1 - game s1 s2 real_crs B2| <= key_adv s1 s2 B1 + key_adv s1 s2 B2 + bad_point s1 s2).
Proof.
move=> F A B C e E cs md O1 O2 W s1 s2 D sch sch' m n q X X' Y Y' hb hn hc1 hc2 vs vs' hm hn' hs hq B1 B2.
apply: (@wi_step F A B C e O1 O2 W s1 s2 _ _ (m + (2 * n + 2))%N D (stripped cs md)) => w crs hh hp D'.
have [x1 y1 x2 y2] := hs w crs; have [wf h1 h2] := hq w crs hp.
have e1 := etrans x2 (esym x1); have e2 := etrans y2 (esym y1).
apply: same_tapes; apply: (same_view (stripped_public cs md)); rewrite -x1 -y1 in wf hm hn' *; exact: ms2_wi.
Qed.

Lemma k_C97_ms2_wi_ddh : forall (F : finFieldType) (A B C : lmodType F) (e : A -> B -> C), let E := Pairing e in
  forall (cs : codecs E) (md : Compress) (O1 O2 W : finType) (s1 : O1 -> A) (s2 : O2 -> B) (D : W -> CRS E -> pred _) (sch sch' : sched) (m n : nat)
  (q : W -> CRS E -> MSMEG2 E) (X X' : W -> CRS E -> seq F) (Y Y' : W -> CRS E -> seq B),
  bilinear E -> nondegenerate E -> cyclic (G1 E) -> cyclic (G2 E) -> valid_sched sch -> valid_sched sch' -> (0 < m)%N -> (0 < n)%N ->
  (forall w crs, [/\ size (X w crs) = m, size (Y w crs) = n, size (X' w crs) = m & size (Y' w crs) = n]) ->
  (forall w crs, proper_crs crs -> [/\ ms2_wf (q w crs) m n, ms2_holds (q w crs) (X w crs) (Y w crs) & ms2_holds (q w crs) (X' w crs) (Y' w crs)]) ->
  let B1 := proof_test (N := (m + (2 * n + 2))%N) D (stripped cs md) (fun w crs R s => ms2_commit_and_prove (R := R) sch (q w crs) (X w crs) (Y w crs) crs s) in
  let B2 := proof_test (N := (m + (2 * n + 2))%N) D (stripped cs md) (fun w crs R s => ms2_commit_and_prove (R := R) sch' (q w crs) (X' w crs) (Y' w crs) crs s) in
  is_true (`|game s1 s2 real_crs B1 - game s1 s2 real_crs B2| <= 
  (ddh_adv s1 (ddh1 s2 B1) + ddh_adv s1 (ddh2 s2 B1) + ddh_adv s2 (ddh3 s1 B1) + ddh_adv s2 (ddh4 s1 B1))
  + (ddh_adv s1 (ddh1 s2 B2) + ddh_adv s1 (ddh2 s2 B2) + ddh_adv s2 (ddh3 s1 B2) + ddh_adv s2 (ddh4 s1 B2))
  + bad_point s1 s2).
Proof.
move=> F A B C e E cs md O1 O2 W s1 s2 D sch sch' m n q X X' Y Y' hb hn hc1 hc2 vs vs' hm hn' hs hq B1 B2.
have := @ms2_strip_wi F A B C e cs md O1 O2 W s1 s2 D sch sch' m n q X X' Y Y' hb hn hc1 hc2 vs vs' hm hn' hs hq.
rewrite -/B1 -/B2; cbv zeta => h; apply: le_trans h _.
apply: ler_add => //; apply: ler_add; exact: key_adv_ddh.
Qed.

Lemma ms2_strip_zk : forall (F : finFieldType) (A B C : lmodType F) (e : A -> B -> C), let E := Pairing e in
  forall (cs : codecs E) (md : Compress) (O1 O2 W : finType) (s1 : O1 -> A) (s2 : O2 -> B) (D : W -> CRS E -> pred _) (sch sch' : sched) (m n : nat)
  (q : W -> CRS E -> MSMEG2 E) (X : W -> CRS E -> seq F) (Y : W -> CRS E -> seq B),
  bilinear E -> nondegenerate E -> cyclic (G1 E) -> cyclic (G2 E) -> valid_sched sch -> valid_sched sch' -> (0 < m)%N -> (0 < n)%N ->
  (forall w crs, size (X w crs) = m /\ size (Y w crs) = n) ->
  (forall w crs, proper_crs crs -> ms2_wf (q w crs) m n /\ ms2_holds (q w crs) (X w crs) (Y w crs)) ->
  let B1 := proof_test (N := (m + (2 * n + 2))%N) D (stripped cs md) (fun w crs R s => ms2_commit_and_prove (R := R) sch (q w crs) (X w crs) (Y w crs) crs s) in
  is_true (`|game s1 s2 real_crs B1 -
    sim_game (m + (2 * n + 2))%N D s1 s2 (fun t1 t2 w crs p => stripped cs md (ms2_fix (E := E) t1 t2 (q w crs) p))
      (fun w crs R s => ms2_commit_and_prove (R := R) sch' (q w crs) (nseq m 0) (nseq n 0) crs s)| <= key_adv s1 s2 B1 + bad_point s1 s2).
Proof.
move=> F A B C e E cs md O1 O2 W s1 s2 D sch sch' m n q X Y hb hn hc1 hc2 vs vs' hm hn' hs hq B1.
apply: (@zk_step F A B C e O1 O2 W s1 s2 _ _ (m + (2 * n + 2))%N D (stripped cs md)) => w crs a1 a2 t1 t2 hh hp D'.
have [x1 y1] := hs w crs; have [wf h1] := hq w crs hp.
apply: same_tapes; apply: (same_view (fun a b => @stripped_public _ cs md a _)); rewrite -x1 -y1 in wf hm hn' *; exact: (ms2_zk vs vs' hb hn hc1 hc2 hp hh).
Qed.

Lemma k_C97_ms2_zk_ddh : forall (F : finFieldType) (A B C : lmodType F) (e : A -> B -> C), let E := Pairing e in
  forall (cs : codecs E) (md : Compress) (O1 O2 W : finType) (s1 : O1 -> A) (s2 : O2 -> B) (D : W -> CRS E -> pred _) (sch sch' : sched) (m n : nat)
  (q : W -> CRS E -> MSMEG2 E) (X : W -> CRS E -> seq F) (Y : W -> CRS E -> seq B),
  bilinear E -> nondegenerate E -> cyclic (G1 E) -> cyclic (G2 E) -> valid_sched sch -> valid_sched sch' -> (0 < m)%N -> (0 < n)%N ->
  (forall w crs, size (X w crs) = m /\ size (Y w crs) = n) ->
  (forall w crs, proper_crs crs -> ms2_wf (q w crs) m n /\ ms2_holds (q w crs) (X w crs) (Y w crs)) ->
  let B1 := proof_test (N := (m + (2 * n + 2))%N) D (stripped cs md) (fun w crs R s => ms2_commit_and_prove (R := R) sch (q w crs) (X w crs) (Y w crs) crs s) in
  is_true (`|game s1 s2 real_crs B1 -
    sim_game (m + (2 * n + 2))%N D s1 s2 (fun t1 t2 w crs p => stripped cs md (ms2_fix (E := E) t1 t2 (q w crs) p))
      (fun w crs R s => ms2_commit_and_prove (R := R) sch' (q w crs) (nseq m 0) (nseq n 0) crs s)| <= 
  (ddh_adv s1 (ddh1 s2 B1) + ddh_adv s1 (ddh2 s2 B1) + ddh_adv s2 (ddh3 s1 B1) + ddh_adv s2 (ddh4 s1 B1)) + bad_point s1 s2).
Proof.
move=> F A B C e E cs md O1 O2 W s1 s2 D sch sch' m n q X Y hb hn hc1 hc2 vs vs' hm hn' hs hq B1.
have := @ms2_strip_zk F A B C e cs md O1 O2 W s1 s2 D sch sch' m n q X Y hb hn hc1 hc2 vs vs' hm hn' hs hq.
rewrite -/B1; cbv zeta => h; apply: le_trans h _.
apply: ler_add => //; exact: key_adv_ddh.
Qed.

Lemma k_C97_ms2_full_refuted : forall (E : pairing) (cs : codecs E) (md : Compress) (sch sch' : sched) (R R' : rng E) (s s' : rst R) (z z' : rst R') (q q' : MSMEG2 E) (X X' : seq (Fr E)) (Y Y' : seq (G2 E)) (crs : CRS E) (p p' : CProof E),
  elements_ok cs good_codec -> short X -> short Y -> short X' -> short Y' -> u2 crs + (0, g1_gen crs) != 0 -> 
  ms2_commit_and_prove sch q X Y crs s = Ok (p, s') -> ms2_commit_and_prove sch' q' X' Y' crs z = Ok (p', z') ->
  wire cs md p = wire cs md p' -> X = X' /\ Y = Y'.
Proof.
move=> E cs md sch sch' R R' s s' z z' q q' X X' Y Y' crs p p' hc x1 y1 x2 y2 hw1 /ms2_cap_made[mx my] /ms2_cap_made[mx' my'] h.
have [ex ey] := wire_coms hc (made_B1_fits mx x1) (made_B1_fits mx' x2) (made_G2_fits my y1) (made_G2_fits my' y2) h.
rewrite -ex in mx'; rewrite -ey in my'.
exact (conj (made_B1_determined hw1 mx mx') (made_G2_same my my')).
Qed.

Lemma k_C97_ms2_full_wi_refuted : forall (E : pairing) (cs : codecs E) (md : Compress) (sch sch' : sched) (q : MSMEG2 E) (X X' : seq (Fr E)) (Y Y' : seq (G2 E)) (crs : CRS E),
  elements_ok cs good_codec -> valid_sched sch -> short X -> short Y -> size (crs_u crs) = 2%N -> size (crs_v crs) = 2%N -> u2 crs + (0, g1_gen crs) != 0 -> 
  (0 < size X)%N -> (0 < size Y)%N -> ms2_wf q (size X) (size Y) -> size X' = size X -> size Y' = size Y ->
  (X, Y) <> (X', Y') ->
  ~ same_output (size X + (2 * size Y + 2))%N (wire cs md) (wire cs md)
    (fun R s => ms2_commit_and_prove (R := R) sch q X Y crs s) (fun R s => ms2_commit_and_prove (R := R) sch' q X' Y' crs s).
Proof.
move=> E cs md sch sch' q X X' Y Y' crs hc vs x1 y1 hu hv hw1 hm hn wf ex ey hne /same_on_tapes[s [z]].
have [p [s' e]] := proj2 (ms2_cap_total vs q X Y crs s) (And4 (conj hm hn) wf (@eq_ind_r nat 2%N (fun n : nat => is_true (1 < n)%N) isT _ hu) hv).
rewrite e; case e' : (ms2_commit_and_prove sch' q X' Y' crs z) => [[p' z']|f] h0; last discriminate h0.
have h : wire cs md p = wire cs md p' := Ok_inj h0; apply: hne.
have x2 : short X' by rewrite /short ex; exact: x1.
have y2 : short Y' by rewrite /short ey; exact: y1.
by have [-> ->] := @k_C97_ms2_full_refuted E cs md sch sch' _ _ s s' z z' q q X X' Y Y' crs p p' hc x1 y1 x2 y2 hw1 e e' h.
Qed.

Lemma k_C97_quad_verdict : forall (E : pairing) (sch : sched) (q : QuadEqu E) (p : CProof E) (crs : CRS E), quad_verify sch q (strip p) crs = quad_verify sch q p crs.
Proof.
by move=> E sch q p crs; apply: k_C33_quad_randomness; rewrite strip_public.
Qed.

Lemma k_C97_quad_received : forall (E : pairing) (cs : codecs E) (sch : sched) (md : Compress) (v : Validate) (q : QuadEqu E) (crs : CRS E) (p : CProof E) (pf : EquProof E),
  elements_ok cs good_codec -> quad_fits q -> crs_fits crs -> short (coms (xcoms p)) -> short (coms (ycoms p)) -> short (pi pf) -> short (theta pf) -> equ_proofs p = [:: pf] ->
  receive cs (quad_codec cs) (quad_verify sch) md v (ser (quad_codec cs) md q ++ ser (crs_codec cs) md crs ++ stripped cs md p) = DOk (quad_verify sch q p crs) [::].
Proof.
move=> E cs sch md v q crs p pf hc hq hk hx hy hp ht ep; rewrite -k_C97_quad_verdict.
have hn T : short_mat ([::] : matrix T) by split; [exact: (expn_gt0 2 64)|constructor].
have -> : strip p = mkCProof (xcoms (strip p)) (ycoms (strip p)) [:: mkEquProof (pi pf) (theta pf) (equ_type pf) [::]] by rewrite /strip ep.
have -> : stripped cs md p = ser (commit1_codec cs) md (xcoms (strip p)) ++ ser (commit2_codec cs) md (ycoms (strip p)) ++ ser (equproof_codec cs) md (mkEquProof (pi pf) (theta pf) (equ_type pf) [::]).
  have -> : stripped cs md p = ser (commit1_codec cs) md (xcoms (strip p)) ++ (ser (commit2_codec cs) md (ycoms (strip p)) ++ flatten [seq ser (equproof_codec cs) md f | f <- equ_proofs (strip p)]) by [].
  by rewrite -[equ_proofs (strip p)]/[seq mkEquProof (pi f) (theta f) (equ_type f) [::] | f <- equ_proofs p] ep -[flatten _]/(_ ++ [::]) cats0.
exact (@quad_transport E cs sch md v q crs (xcoms (strip p)) (ycoms (strip p)) (mkEquProof (pi pf) (theta pf) (equ_type pf) [::]) hc hq hk (conj hx (hn _)) (conj hy (hn _)) (conj hp (conj ht (hn _)))).

Qed.

Lemma k_C97_quad_wi : forall (E : pairing) (cs : codecs E) (md : Compress) (sch sch' : sched) (q : QuadEqu E) (X X' : seq (Fr E)) (Y Y' : seq (Fr E)) (crs : CRS E),
  bilinear E -> nondegenerate E -> cyclic (G1 E) -> cyclic (G2 E) -> valid_sched sch -> valid_sched sch' ->
  hiding_crs crs -> proper_crs crs ->
  (0 < size X)%N -> (0 < size Y)%N -> quad_wf q (size X) (size Y) -> size X' = size X -> size Y' = size Y ->
  quad_holds q X Y -> quad_holds q X' Y' ->
  same_output (size X + (size Y + 1))%N (stripped cs md) (stripped cs md)
    (fun R s => quad_commit_and_prove (R := R) sch q X Y crs s) (fun R s => quad_commit_and_prove (R := R) sch' q X' Y' crs s).
Proof.
move=> E cs md sch sch' q X X' Y Y' crs hb hn hc1 hc2 vs vs' hh hp h1 h2 h3 h4 h5 h6 h7; apply: (same_view (stripped_public cs md)); exact: quad_wi.
Qed.

Lemma k_C97_quad_wi_counts : forall (F : finFieldType) (A B C : lmodType F) (e : A -> B -> C), let E := Pairing e in
  forall (cs : codecs E) (md : Compress) (sch sch' : sched) (q : QuadEqu E) (X X' : seq (Fr E)) (Y Y' : seq (Fr E)) (crs : CRS E) D,
  bilinear E -> nondegenerate E -> cyclic (G1 E) -> cyclic (G2 E) -> valid_sched sch -> valid_sched sch' ->
  hiding_crs crs -> proper_crs crs ->
  (0 < size X)%N -> (0 < size Y)%N -> quad_wf q (size X) (size Y) -> size X' = size X -> size Y' = size Y ->
  quad_holds q X Y -> quad_holds q X' Y' ->
  tapes (size X + (size Y + 1))%N (stripped cs md) (fun R s => quad_commit_and_prove (R := R) sch q X Y crs s) D
  = tapes (size X + (size Y + 1))%N (stripped cs md) (fun R s => quad_commit_and_prove (R := R) sch' q X' Y' crs s) D.
Proof.
by move=> F A B C e E cs md *; apply: same_tapes; apply: k_C97_quad_wi.
Qed.

Lemma k_C97_quad_zk : forall (E : pairing) (cs : codecs E) (md : Compress) (sch sch' : sched) (q : QuadEqu E) (X : seq (Fr E)) (Y : seq (Fr E)) (crs : CRS E) (a1 a2 t1 t2 : Fr E),
  bilinear E -> nondegenerate E -> cyclic (G1 E) -> cyclic (G2 E) -> valid_sched sch -> valid_sched sch' ->
  hiding_crs_with crs a1 a2 t1 t2 -> proper_crs crs ->
  (0 < size X)%N -> (0 < size Y)%N -> quad_wf q (size X) (size Y) -> quad_holds q X Y ->
  same_output (size X + (size Y + 1))%N (stripped cs md) (fun p => stripped cs md (quad_fix t1 t2 q crs p))
    (fun R s => quad_commit_and_prove (R := R) sch q X Y crs s)
    (fun R s => quad_commit_and_prove (R := R) sch' q (nseq (size X) 0) (nseq (size Y) 0) crs s).
Proof.
move=> E cs md sch sch' q X Y crs a1 a2 t1 t2 hb hn hc1 hc2 vs vs' hh hp h1 h2 h3 h4; apply: (same_view (fun a b => @stripped_public _ cs md a _)); exact: (quad_zk vs vs' hb hn hp hh).
Qed.

Lemma k_C97_quad_zk_counts : forall (F : finFieldType) (A B C : lmodType F) (e : A -> B -> C), let E := Pairing e in
  forall (cs : codecs E) (md : Compress) (sch sch' : sched) (q : QuadEqu E) (X : seq (Fr E)) (Y : seq (Fr E)) (crs : CRS E) (a1 a2 t1 t2 : Fr E) D,
  bilinear E -> nondegenerate E -> cyclic (G1 E) -> cyclic (G2 E) -> valid_sched sch -> valid_sched sch' ->
  hiding_crs_with crs a1 a2 t1 t2 -> proper_crs crs ->
  (0 < size X)%N -> (0 < size Y)%N -> quad_wf q (size X) (size Y) -> quad_holds q X Y ->
  tapes (size X + (size Y + 1))%N (stripped cs md) (fun R s => quad_commit_and_prove (R := R) sch q X Y crs s) D
  = tapes (size X + (size Y + 1))%N (fun p => stripped cs md (quad_fix t1 t2 q crs p)) (fun R s => quad_commit_and_prove (R := R) sch' q (nseq (size X) 0) (nseq (size Y) 0) crs s) D.
Proof.
move=> F A B C e E cs md sch sch' q X Y crs a1 a2 t1 t2 D hb hn hc1 hc2 vs vs' hh hp h1 h2 h3 h4; apply: same_tapes; exact: (@k_C97_quad_zk E cs md sch sch' q X Y crs a1 a2 t1 t2 hb hn hc1 hc2 vs vs' hh hp h1 h2 h3 h4).
Qed.

Lemma quad_strip_wi : forall (F : finFieldType) (A B C : lmodType F) (e : A -> B -> C), let E := Pairing e in
  forall (cs : codecs E) (md : Compress) (O1 O2 W : finType) (s1 : O1 -> A) (s2 : O2 -> B) (D : W -> CRS E -> pred _) (sch sch' : sched) (m n : nat)
  (q : W -> CRS E -> QuadEqu E) (X X' : W -> CRS E -> seq F) (Y Y' : W -> CRS E -> seq F),
  bilinear E -> nondegenerate E -> cyclic (G1 E) -> cyclic (G2 E) -> valid_sched sch -> valid_sched sch' -> (0 < m)%N -> (0 < n)%N ->
  (forall w crs, [/\ size (X w crs) = m, size (Y w crs) = n, size (X' w crs) = m & size (Y' w crs) = n]) ->
  (forall w crs, proper_crs crs -> [/\ quad_wf (q w crs) m n, quad_holds (q w crs) (X w crs) (Y w crs) & quad_holds (q w crs) (X' w crs) (Y' w crs)]) ->
  let B1 := proof_test (N := (m + (n + 1))%N) D (stripped cs md) (fun w crs R s => quad_commit_and_prove (R := R) sch (q w crs) (X w crs) (Y w crs) crs s) in
  let B2 := proof_test (N := (m + (n + 1))%N) D (stripped cs md) (fun w crs R s => quad_commit_and_prove (R := R) sch' (q w crs) (X' w crs) (Y' w crs) crs s) in
  is_true (`|game s1 s2 real_crs B1 - game s1 s2 real_crs B2| <= key_adv s1 s2 B1 + key_adv s1 s2 B2 + bad_point s1 s2).
Proof.
move=> F A B C e E cs md O1 O2 W s1 s2 D sch sch' m n q X X' Y Y' hb hn hc1 hc2 vs vs' hm hn' hs hq B1 B2.
apply: (@wi_step F A B C e O1 O2 W s1 s2 _ _ (m + (n + 1))%N D (stripped cs md)) => w crs hh hp D'.
have [x1 y1 x2 y2] := hs w crs; have [wf h1 h2] := hq w crs hp.
have e1 := etrans x2 (esym x1); have e2 := etrans y2 (esym y1).
apply: same_tapes; apply: (same_view (stripped_public cs md)); rewrite -x1 -y1 in wf hm hn' *; exact: quad_wi.
Qed.

Lemma k_C97_quad_wi_ddh : forall (F : finFieldType) (A B C : lmodType F) (e : A -> B -> C), let E := Pairing e in
  forall (cs : codecs E) (md : Compress) (O1 O2 W : finType) (s1 : O1 -> A) (s2 : O2 -> B) (D : W -> CRS E -> pred _) (sch sch' : sched) (m n : nat)
  (q : W -> CRS E -> QuadEqu E) (X X' : W -> CRS E -> seq F) (Y Y' : W -> CRS E -> seq F),
  bilinear E -> nondegenerate E -> cyclic (G1 E) -> cyclic (G2 E) -> valid_sched sch -> valid_sched sch' -> (0 < m)%N -> (0 < n)%N ->
  (forall w crs, [/\ size (X w crs) = m, size (Y w crs) = n, size (X' w crs) = m & size (Y' w crs) = n]) ->
  (forall w crs, proper_crs crs -> [/\ quad_wf (q w crs) m n, quad_holds (q w crs) (X w crs) (Y w crs) & quad_holds (q w crs) (X' w crs) (Y' w crs)]) ->
  let B1 := proof_test (N := (m + (n + 1))%N) D (stripped cs md) (fun w crs R s => quad_commit_and_prove (R := R) sch (q w crs) (X w crs) (Y w crs) crs s) in
  let B2 := proof_test (N := (m + (n + 1))%N) D (stripped cs md) (fun w crs R s => quad_commit_and_prove (R := R) sch' (q w crs) (X' w crs) (Y' w crs) crs s) in
  is_true (`|game s1 s2 real_crs B1 - game s1 s2 real_crs B2| <= 
  (ddh_adv s1 (ddh1 s2 B1) + ddh_adv s1 (ddh2 s2 B1) + ddh_adv s2 (ddh3 s1 B1) + ddh_adv s2 (ddh4 s1 B1))
  + (ddh_adv s1 (ddh1 s2 B2) + ddh_adv s1 (ddh2 s2 B2) + ddh_adv s2 (ddh3 s1 B2) + ddh_adv s2 (ddh4 s1 B2))
  + bad_point s1 s2).
Proof.
move=> F A B C e E cs md O1 O2 W s1 s2 D sch sch' m n q X X' Y Y' hb hn hc1 hc2 vs vs' hm hn' hs hq B1 B2.
have := @quad_strip_wi F A B C e cs md O1 O2 W s1 s2 D sch sch' m n q X X' Y Y' hb hn hc1 hc2 vs vs' hm hn' hs hq.
rewrite -/B1 -/B2; cbv zeta => h; apply: le_trans h _.
apply: ler_add => //; apply: ler_add; exact: key_adv_ddh.
Qed.

Lemma quad_strip_zk : forall (F : finFieldType) (A B C : lmodType F) (e : A -> B -> C), let E := Pairing e in
  forall (cs : codecs E) (md : Compress) (O1 O2 W : finType) (s1 : O1 -> A) (s2 : O2 -> B) (D : W -> CRS E -> pred _) (sch sch' : sched) (m n : nat)
  (q : W -> CRS E -> QuadEqu E) (X : W -> CRS E -> seq F) (Y : W -> CRS E -> seq F),
  bilinear E -> nondegenerate E -> cyclic (G1 E) -> cyclic (G2 E) -> valid_sched sch -> valid_sched sch' -> (0 < m)%N -> (0 < n)%N ->
  (forall w crs, size (X w crs) = m /\ size (Y w crs) = n) ->
  (forall w crs, proper_crs crs -> quad_wf (q w crs) m n /\ quad_holds (q w crs) (X w crs) (Y w crs)) ->
  let B1 := proof_test (N := (m + (n + 1))%N) D (stripped cs md) (fun w crs R s => quad_commit_and_prove (R := R) sch (q w crs) (X w crs) (Y w crs) crs s) in
  is_true (`|game s1 s2 real_crs B1 -
    sim_game (m + (n + 1))%N D s1 s2 (fun t1 t2 w crs p => stripped cs md (quad_fix (E := E) t1 t2 (q w crs) crs p))
      (fun w crs R s => quad_commit_and_prove (R := R) sch' (q w crs) (nseq m 0) (nseq n 0) crs s)| <= key_adv s1 s2 B1 + bad_point s1 s2).
Proof.
move=> F A B C e E cs md O1 O2 W s1 s2 D sch sch' m n q X Y hb hn hc1 hc2 vs vs' hm hn' hs hq B1.
apply: (@zk_step F A B C e O1 O2 W s1 s2 _ _ (m + (n + 1))%N D (stripped cs md)) => w crs a1 a2 t1 t2 hh hp D'.
have [x1 y1] := hs w crs; have [wf h1] := hq w crs hp.
apply: same_tapes; apply: (same_view (fun a b => @stripped_public _ cs md a _)); rewrite -x1 -y1 in wf hm hn' *; exact: (quad_zk vs vs' hb hn hp hh).
Qed.

Lemma k_C97_quad_zk_ddh : forall (F : finFieldType) (A B C : lmodType F) (e : A -> B -> C), let E := Pairing e in
  forall (cs : codecs E) (md : Compress) (O1 O2 W : finType) (s1 : O1 -> A) (s2 : O2 -> B) (D : W -> CRS E -> pred _) (sch sch' : sched) (m n : nat)
  (q : W -> CRS E -> QuadEqu E) (X : W -> CRS E -> seq F) (Y : W -> CRS E -> seq F),
  bilinear E -> nondegenerate E -> cyclic (G1 E) -> cyclic (G2 E) -> valid_sched sch -> valid_sched sch' -> (0 < m)%N -> (0 < n)%N ->
  (forall w crs, size (X w crs) = m /\ size (Y w crs) = n) ->
  (forall w crs, proper_crs crs -> quad_wf (q w crs) m n /\ quad_holds (q w crs) (X w crs) (Y w crs)) ->
  let B1 := proof_test (N := (m + (n + 1))%N) D (stripped cs md) (fun w crs R s => quad_commit_and_prove (R := R) sch (q w crs) (X w crs) (Y w crs) crs s) in
  is_true (`|game s1 s2 real_crs B1 -
    sim_game (m + (n + 1))%N D s1 s2 (fun t1 t2 w crs p => stripped cs md (quad_fix (E := E) t1 t2 (q w crs) crs p))
      (fun w crs R s => quad_commit_and_prove (R := R) sch' (q w crs) (nseq m 0) (nseq n 0) crs s)| <= 
  (ddh_adv s1 (ddh1 s2 B1) + ddh_adv s1 (ddh2 s2 B1) + ddh_adv s2 (ddh3 s1 B1) + ddh_adv s2 (ddh4 s1 B1)) + bad_point s1 s2).
Proof.
move=> F A B C e E cs md O1 O2 W s1 s2 D sch sch' m n q X Y hb hn hc1 hc2 vs vs' hm hn' hs hq B1.
have := @quad_strip_zk F A B C e cs md O1 O2 W s1 s2 D sch sch' m n q X Y hb hn hc1 hc2 vs vs' hm hn' hs hq.
rewrite -/B1; cbv zeta => h; apply: le_trans h _.
apply: ler_add => //; exact: key_adv_ddh.
Qed.

Lemma k_C97_quad_full_refuted : forall (E : pairing) (cs : codecs E) (md : Compress) (sch sch' : sched) (R R' : rng E) (s s' : rst R) (z z' : rst R') (q q' : QuadEqu E) (X X' : seq (Fr E)) (Y Y' : seq (Fr E)) (crs : CRS E) (p p' : CProof E),
  elements_ok cs good_codec -> short X -> short Y -> short X' -> short Y' -> u2 crs + (0, g1_gen crs) != 0 -> v2 crs + (0, g2_gen crs) != 0 -> 
  quad_commit_and_prove sch q X Y crs s = Ok (p, s') -> quad_commit_and_prove sch' q' X' Y' crs z = Ok (p', z') ->
  wire cs md p = wire cs md p' -> X = X' /\ Y = Y'.
Proof.
move=> E cs md sch sch' R R' s s' z z' q q' X X' Y Y' crs p p' hc x1 y1 x2 y2 hw1 hw2 /quad_cap_made[mx my] /quad_cap_made[mx' my'] h.
have [ex ey] := wire_coms hc (made_B1_fits mx x1) (made_B1_fits mx' x2) (made_B2_fits my y1) (made_B2_fits my' y2) h.
rewrite -ex in mx'; rewrite -ey in my'.
exact (conj (made_B1_determined hw1 mx mx') (made_B2_determined hw2 my my')).
Qed.

Lemma k_C97_quad_full_wi_refuted : forall (E : pairing) (cs : codecs E) (md : Compress) (sch sch' : sched) (q : QuadEqu E) (X X' : seq (Fr E)) (Y Y' : seq (Fr E)) (crs : CRS E),
  elements_ok cs good_codec -> valid_sched sch -> short X -> short Y -> size (crs_u crs) = 2%N -> size (crs_v crs) = 2%N -> u2 crs + (0, g1_gen crs) != 0 -> v2 crs + (0, g2_gen crs) != 0 -> 
  (0 < size X)%N -> (0 < size Y)%N -> quad_wf q (size X) (size Y) -> size X' = size X -> size Y' = size Y ->
  (X, Y) <> (X', Y') ->
  ~ same_output (size X + (size Y + 1))%N (wire cs md) (wire cs md)
    (fun R s => quad_commit_and_prove (R := R) sch q X Y crs s) (fun R s => quad_commit_and_prove (R := R) sch' q X' Y' crs s).
Proof.
move=> E cs md sch sch' q X X' Y Y' crs hc vs x1 y1 hu hv hw1 hw2 hm hn wf ex ey hne /same_on_tapes[s [z]].
have [p [s' e]] := proj2 (quad_cap_total vs q X Y crs s) (And4 (conj hm hn) wf (@eq_ind_r nat 2%N (fun n : nat => is_true (1 < n)%N) isT _ hu) (@eq_ind_r nat 2%N (fun n : nat => is_true (1 < n)%N) isT _ hv)).
rewrite e; case e' : (quad_commit_and_prove sch' q X' Y' crs z) => [[p' z']|f] h0; last discriminate h0.
have h : wire cs md p = wire cs md p' := Ok_inj h0; apply: hne.
have x2 : short X' by rewrite /short ex; exact: x1.
have y2 : short Y' by rewrite /short ey; exact: y1.
by have [-> ->] := @k_C97_quad_full_refuted E cs md sch sch' _ _ s s' z z' q q X X' Y Y' crs p p' hc x1 y1 x2 y2 hw1 hw2 e e' h.
Qed.
