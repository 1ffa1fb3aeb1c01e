(** The trapdoors of the two kinds of keys: proofs. *)
From mathcomp Require Import all_ssreflect all_algebra.
From Verif Require Import Base BaseLemmas Group DataStructures MatLemmas CoreAlg ComLemmas.
From Verif Require Import Generator Commit Statement Prove Verify Spec SpecMat SpecVerify SpecPanic SpecFormula SpecApi SpecTrap ProveLemmas CommitLemmas.
From Verif Require Import VerifyLemmas Holds Complete Sound Main CapLemmas Extract SoundGen FormulaProps MultiProps VProps.
Set Implicit Arguments.
Unset Strict Implicit.
Unset Printing Implicit Defensive.
Import GRing.Theory.
Local Open Scope ring_scope.

Section Decrypt.
Context {E : pairing}.
Hypothesis hb : bilinear E.
Let eb := pair_bilin hb.
Variables (sch : sched) (crs : CRS E) (a1 a2 t1 t2 : Fr E).
Hypothesis vs : valid_sched sch.
Hypothesis bw : binding_crs_with crs a1 a2 t1 t2.
Let hk := binding_killed bw.

Lemma nth_ext (G : lmodType (Fr E)) a (cs : seq (com G)) k : (k < size cs)%N -> nth 0 (map (decrypt a) cs) k = ext a (nth 0 cs k).
Proof. by move=> h; rewrite (nth_map 0). Qed.

Lemma ppe_dec_trap q p : ppe_verify sch q p crs = Ok true ->
  ppe_holds q (map (decrypt a1) (coms (xcoms p))) (map (decrypt a2) (coms (ycoms p))).
Proof. by move=> h; apply: (ppe_sound_ext hb vs bw h); apply: ext_map_id. Qed.

Lemma ms1_dec_trap q p : ms1_verify sch q p crs = Ok true ->
  ppe_holds (ms1_lifted q crs) (map (decrypt a1) (coms (xcoms p))) (map (decrypt a2) (coms (ycoms p))).
Proof.
case: p => cx cy pfs h; have ok : isok (ms1_verify sch q (mkCProof cx cy pfs) crs) by rewrite h.
have [pf epf] := ms1_verify_one ok; rewrite {}epf in h ok.
have sh := ms1_verify_shape vs ok; move: h; rewrite (ms1_verify_Ok vs sh) => -[/(veq_ext hb hk)].
rewrite (size_v bw) => /(_ (leqnn _) isT) h; apply/(ppe_holdsE _ _ _ hb).
move: h; rewrite (extT_f hb) ext_lin (ext_s2 bw) scale1r => h; rewrite [ppe_target _]/= -h.
rewrite /ppe_val !size_map; symmetry; apply: (gs_map (i1 := id) (i2 := id) (iT := id)) => //.
- by move=> j hj; rewrite nth_lin1 ext_lin.
- by move=> k hk'; rewrite nth_ext.
- move=> k hk'; rewrite nth_s2 (ext_s2 bw) /=.
  by have [hi|hi] := ltnP k (size (ms1_b q)); [rewrite (nth_map 0) | rewrite !nth_default ?size_map // scale0r].
- by move=> k hk'; rewrite nth_ext.
Qed.

Lemma ms2_dec_trap q p : ms2_verify sch q p crs = Ok true ->
  ppe_holds (ms2_lifted q crs) (map (decrypt a1) (coms (xcoms p))) (map (decrypt a2) (coms (ycoms p))).
Proof.
case: p => cx cy pfs h; have ok : isok (ms2_verify sch q (mkCProof cx cy pfs) crs) by rewrite h.
have [pf epf] := ms2_verify_one ok; rewrite {}epf in h ok.
have sh := ms2_verify_shape vs ok; move: h; rewrite (ms2_verify_Ok vs sh) => -[/(veq_ext hb hk)].
rewrite (size_u bw) => /(_ isT (leqnn _)) h; apply/(ppe_holdsE _ _ _ hb).
move: h; rewrite (extT_f hb) ext_lin (ext_s1 bw) scale1r => h; rewrite [ppe_target _]/= -h.
rewrite /ppe_val !size_map; symmetry; apply: (gs_map (i1 := id) (i2 := id) (iT := id)) => //.
- move=> k hk'; rewrite nth_s1 (ext_s1 bw) /=.
  by have [hi|hi] := ltnP k (size (ms2_a q)); [rewrite (nth_map 0) | rewrite !nth_default ?size_map // scale0r].
- by move=> k hk'; rewrite nth_ext.
- by move=> j hj; rewrite nth_lin2 ext_lin.
- by move=> k hk'; rewrite nth_ext.
Qed.

Lemma quad_dec_trap q p : quad_verify sch q p crs = Ok true ->
  ppe_holds (quad_lifted q crs) (map (decrypt a1) (coms (xcoms p))) (map (decrypt a2) (coms (ycoms p))).
Proof.
case: p => cx cy pfs h; have ok : isok (quad_verify sch q (mkCProof cx cy pfs) crs) by rewrite h.
have [pf epf] := quad_verify_one ok; rewrite {}epf in h ok.
have sh := quad_verify_shape vs ok; move: h; rewrite (quad_verify_Ok vs sh) => -[/(veq_ext hb hk)].
rewrite (size_u bw) (size_v bw) => /(_ isT isT) h; apply/(ppe_holdsE _ _ _ hb).
have -> : ppe_target (quad_lifted q crs) = pair_e (g1_gen crs) (quad_target q *: g2_gen crs) by rewrite (bilZr eb).
move: h; rewrite (extT_f hb) extZ (ext_s1 bw) (ext_s2 bw) !scale1r => <-.
rewrite /ppe_val !size_map; symmetry; apply: (gs_map (i1 := id) (i2 := id) (iT := id)) => //.
- move=> k hk'; rewrite nth_s1 (ext_s1 bw) /=.
  by have [hi|hi] := ltnP k (size (quad_a q)); [rewrite (nth_map 0) | rewrite !nth_default ?size_map // scale0r].
- by move=> k hk'; rewrite nth_ext.
- move=> k hk'; rewrite nth_s2 (ext_s2 bw) /=.
  by have [hi|hi] := ltnP k (size (quad_b q)); [rewrite (nth_map 0) | rewrite !nth_default ?size_map // scale0r].
- by move=> k hk'; rewrite nth_ext.
Qed.

Lemma made_dec_B1 X c : made_B1 crs X c -> map (decrypt a1) (coms c) = [seq x *: g1_gen crs | x <- X].
Proof.
case=> hs hr h; apply: (@eq_from_nth _ 0); rewrite !size_map ?hs // => i hi.
by rewrite !(nth_map 0) ?hs //; apply: (open_B1 bw (h i hi)).
Qed.
Lemma made_dec_B2 X c : made_B2 crs X c -> map (decrypt a2) (coms c) = [seq x *: g2_gen crs | x <- X].
Proof.
case=> hs hr h; apply: (@eq_from_nth _ 0); rewrite !size_map ?hs // => i hi.
by rewrite !(nth_map 0) ?hs //; apply: (open_B2 bw (h i hi)).
Qed.
End Decrypt.

Lemma gen_keys (E : pairing) (R : rng E) (s s' : rst R) (crs : CRS E) a1 a2 : generate_crs s = (crs, s') -> secret_keys crs a1 a2 ->
  exists t1 t2, binding_crs_with crs a1 a2 t1 t2.
Proof.
move=> /generate_binding [b1 [b2 [t1 [t2 [hu hv hg]]]]]; rewrite /secret_keys hu hv /= => -[h1 h2].
by exists t1, t2; rewrite /binding_crs_with -h1 -h2.
Qed.

Lemma trap_C75_keys : forall (E : pairing) (R : rng E) (s s' : rst R) (crs : CRS E),
  generate_crs s = (crs, s') -> secret_keys crs (drawn_keys s).1 (drawn_keys s).2.
Proof.
move=> E R s s' crs; rewrite /generate_crs /secret_keys /drawn_keys /drawn /after /=.
case: (rand_g1 s) => p1 s1 /=; case: (rand_g2 s1) => p2 s2 /=; case: (rand_fr s2) => a1 s3 /=.
case: (rand_fr s3) => a2 s4 /=; case: (rand_fr s4) => t1 s5; case: (rand_fr s5) => t2 s6 /=.
by case=> <- _ /=.
Qed.

Lemma trap_C75_decrypt_G1 : forall (E : pairing) (R R' : rng E) (s s' : rst R) (crs : CRS E) (a1 a2 : Fr E) (z z' : rst R'),
  generate_crs s = (crs, s') -> secret_keys crs a1 a2 ->
  (forall x c, commit_G1 x crs z = Ok (c, z') -> map (decrypt a1) (coms c) = [:: x]) /\
  (forall X c, batch_commit_G1 X crs z = Ok (c, z') -> map (decrypt a1) (coms c) = X).
Proof.
move=> E R R' s s' crs a1 a2 z z' hg hs; have [t1 [t2 bw]] := gen_keys hg hs.
split=> [x c /commit_made_G1|X c /batch_made_G1] h; exact: Extract.made_ext_G1 bw _ _ h.
Qed.

Lemma trap_C75_decrypt_G2 : forall (E : pairing) (R R' : rng E) (s s' : rst R) (crs : CRS E) (a1 a2 : Fr E) (z z' : rst R'),
  generate_crs s = (crs, s') -> secret_keys crs a1 a2 ->
  (forall x c, commit_G2 x crs z = Ok (c, z') -> map (decrypt a2) (coms c) = [:: x]) /\
  (forall X c, batch_commit_G2 X crs z = Ok (c, z') -> map (decrypt a2) (coms c) = X).
Proof.
move=> E R R' s s' crs a1 a2 z z' hg hs; have [t1 [t2 bw]] := gen_keys hg hs.
split=> [x c /commit_made_G2|X c /batch_made_G2] h; exact: Extract.made_ext_G2 bw _ _ h.
Qed.

Lemma trap_C75_decrypt_B1 : forall (E : pairing) (R R' : rng E) (s s' : rst R) (crs : CRS E) (a1 a2 : Fr E) (z z' : rst R'),
  generate_crs s = (crs, s') -> secret_keys crs a1 a2 ->
  (forall x c, commit_scalar_to_B1 x crs z = Ok (c, z') -> map (decrypt a1) (coms c) = [seq x *: g1_gen crs | x <- [:: x]]) /\
  (forall X c, batch_commit_scalar_to_B1 X crs z = Ok (c, z') -> map (decrypt a1) (coms c) = [seq x *: g1_gen crs | x <- X]).
Proof.
move=> E R R' s s' crs a1 a2 z z' hg hs; have [t1 [t2 bw]] := gen_keys hg hs.
split=> [x c /commit_made_B1|X c /batch_made_B1] h; exact: made_dec_B1 bw _ _ h.
Qed.

Lemma trap_C75_decrypt_B2 : forall (E : pairing) (R R' : rng E) (s s' : rst R) (crs : CRS E) (a1 a2 : Fr E) (z z' : rst R'),
  generate_crs s = (crs, s') -> secret_keys crs a1 a2 ->
  (forall x c, commit_scalar_to_B2 x crs z = Ok (c, z') -> map (decrypt a2) (coms c) = [seq x *: g2_gen crs | x <- [:: x]]) /\
  (forall X c, batch_commit_scalar_to_B2 X crs z = Ok (c, z') -> map (decrypt a2) (coms c) = [seq x *: g2_gen crs | x <- X]).
Proof.
move=> E R R' s s' crs a1 a2 z z' hg hs; have [t1 [t2 bw]] := gen_keys hg hs.
split=> [x c /commit_made_B2|X c /batch_made_B2] h; exact: made_dec_B2 bw _ _ h.
Qed.

Lemma trap_C75_ppe : forall (E : pairing) (R : rng E) (sch : sched) (s s' : rst R) (crs : CRS E) (a1 a2 : Fr E) (q : PPE E) (p : CProof E),
  bilinear E -> valid_sched sch -> generate_crs s = (crs, s') -> secret_keys crs a1 a2 ->
  ppe_verify sch q p crs = Ok true ->
  ppe_holds q (map (decrypt a1) (coms (xcoms p))) (map (decrypt a2) (coms (ycoms p))).
Proof.
move=> E R sch s s' crs a1 a2 q p hb vs hg hs; have [t1 [t2 bw]] := gen_keys hg hs.
exact: (ppe_dec_trap hb vs bw).
Qed.

Lemma trap_C75_ms1 : forall (E : pairing) (R : rng E) (sch : sched) (s s' : rst R) (crs : CRS E) (a1 a2 : Fr E) (q : MSMEG1 E) (p : CProof E),
  bilinear E -> valid_sched sch -> generate_crs s = (crs, s') -> secret_keys crs a1 a2 ->
  ms1_verify sch q p crs = Ok true ->
  ppe_holds (ms1_lifted q crs) (map (decrypt a1) (coms (xcoms p))) (map (decrypt a2) (coms (ycoms p))).
Proof.
move=> E R sch s s' crs a1 a2 q p hb vs hg hs; have [t1 [t2 bw]] := gen_keys hg hs.
exact: (ms1_dec_trap hb vs bw).
Qed.

Lemma trap_C75_ms2 : forall (E : pairing) (R : rng E) (sch : sched) (s s' : rst R) (crs : CRS E) (a1 a2 : Fr E) (q : MSMEG2 E) (p : CProof E),
  bilinear E -> valid_sched sch -> generate_crs s = (crs, s') -> secret_keys crs a1 a2 ->
  ms2_verify sch q p crs = Ok true ->
  ppe_holds (ms2_lifted q crs) (map (decrypt a1) (coms (xcoms p))) (map (decrypt a2) (coms (ycoms p))).
Proof.
move=> E R sch s s' crs a1 a2 q p hb vs hg hs; have [t1 [t2 bw]] := gen_keys hg hs.
exact: (ms2_dec_trap hb vs bw).
Qed.

Lemma trap_C75_quad : forall (E : pairing) (R : rng E) (sch : sched) (s s' : rst R) (crs : CRS E) (a1 a2 : Fr E) (q : QuadEqu E) (p : CProof E),
  bilinear E -> valid_sched sch -> generate_crs s = (crs, s') -> secret_keys crs a1 a2 ->
  quad_verify sch q p crs = Ok true ->
  ppe_holds (quad_lifted q crs) (map (decrypt a1) (coms (xcoms p))) (map (decrypt a2) (coms (ycoms p))).
Proof.
move=> E R sch s s' crs a1 a2 q p hb vs hg hs; have [t1 [t2 bw]] := gen_keys hg hs.
exact: (quad_dec_trap hb vs bw).
Qed.

Section Reopen.
Context {E : pairing}.
Lemma list_after (t : rst (@list_rng E)) k : after k t = drop k t.
Proof.
elim: k => [|k ih]; first by rewrite drop0.
by rewrite /after iterS -/(after k t) ih /= -[behead _]drop1 drop_drop add1n.
Qed.
Lemma list_drawn (t : rst (@list_rng E)) k : drawn t k = nth 0 t k.
Proof. by rewrite /drawn list_after /= -nth0 nth_drop addn0. Qed.

Lemma nth_flat (T : Type) (x : T) k (ss : seq (seq T)) i l : all (fun r => size r == k) ss -> (l < k)%N ->
  nth x (flatten ss) (k * i + l) = nth x (nth [::] ss i) l.
Proof.
move=> h hl; elim: ss i h => [|r ss ih] i; first by rewrite !nth_nil.
rewrite /= => /andP [/eqP hr hs]; rewrite nth_cat hr; case: i => [|i]; first by rewrite muln0 add0n hl.
by rewrite mulnS -addnA ltnNge leq_addr /= addKn ih.
Qed.
Lemma size_flat (T : Type) k (ss : seq (seq T)) : all (fun r => size r == k) ss -> size (flatten ss) = (k * size ss)%N.
Proof. by elim: ss => [|r ss ih] /=; rewrite ?muln0 // => /andP [/eqP hr /ih h]; rewrite size_cat hr h mulnS. Qed.

Lemma eq_mkseq_lt (T : Type) (f g : nat -> T) n : (forall i, (i < n)%N -> f i = g i) -> mkseq f n = mkseq g n.
Proof. by move=> h; apply/eq_in_map => i; rewrite mem_iota add0n => /andP [_ /h]. Qed.

Lemma point_id (G : lmodType (Fr E)) (P U V : com G) t k k' r0 r1 : P = t *: U - V ->
  k *: P + r0 *: U + r1 *: V = k' *: P + (r0 + (k - k') * t) *: U + (r1 - (k - k')) *: V.
Proof.
move=> hp; have -> : k *: P = k' *: P + (k - k') *: (t *: U - V) by rewrite -hp -scalerDl addrC subrK.
rewrite scalerBr scalerA [(r0 + _) *: U]scalerDl [(r1 - _) *: V]scalerBl -!addrA; congr (_ + _).
by rewrite [RHS]addrCA; congr (_ + _); rewrite addrC addrA.
Qed.
Lemma scalar_id (G : lmodType (Fr E)) (P U V : com G) t k k' r0 : P = t *: U - V ->
  k *: (V + P) + r0 *: U = k' *: (V + P) + (r0 + (k - k') * t) *: U.
Proof.
move=> ->; have -> : V + (t *: U - V) = t *: U by rewrite addrC subrK.
rewrite !scalerA -!scalerDl; congr (_ *: _).
by rewrite mulrBl [RHS]addrCA [k' * t + _]addrC subrK addrC.
Qed.
Lemma congr2_ok (T S : Type) (a a' : T) (b b' : S) : a = a' -> b = b' -> Ok (a, b) = Ok (a', b').
Proof. by move=> -> ->. Qed.
End Reopen.

Lemma reopen_val_G1 (E : pairing) (crs : CRS E) a1 a2 t1 t2 (K K' : seq (Fr E)) (r : nat -> nat -> Fr E) :
  hiding_crs_with crs a1 a2 t1 t2 -> size K' = size K ->
  let t : rst (@list_rng E) := flatten (reopen_points t1 K K' (table (size K) 2 r)) in
  commit_value 2 (crs_u crs) [seq i1 x | x <- [seq k *: g1_gen crs | k <- K']] (fun i l => drawn t (2 * i + l)%N)
  = mkCommit (coms (commit_value 2 (crs_u crs) [seq i1 x | x <- [seq k *: g1_gen crs | k <- K]] r)) (reopen_points t1 K K' (table (size K) 2 r))
  /\ after (2 * size K)%N t = [::].
Proof.
move=> [hu hv _] hs; set rr := reopen_points _ _ _ _; move=> t.
have hsz : all (fun x => size x == 2%N) rr by apply/allP => x /mapP [i _ ->].
have hn i l : (l < 2)%N -> (i < size K)%N -> drawn t (2 * i + l)%N = nth 0 (nth [::] rr i) l by move=> hl hi; rewrite list_drawn (nth_flat _ _ hsz).
split; last by rewrite list_after drop_oversize // (size_flat hsz) size_mkseq ?mul1n.
have hat i l : (l < 2)%N -> (i < size K)%N -> nth 0 (nth [::] (table (size K) 2 r) i) l = r i l by move=> hl hi; rewrite /table !nth_mkseq.
rewrite /commit_value !size_map hs; congr mkCommit; apply: eq_mkseq_lt => i hi; last first.
  have h0 := hn i 0%N isT hi; rewrite addn0 in h0.
  have h1 := hn i 1%N isT hi.
  by rewrite /mkseq /= ?addn0 h0 h1 /rr !nth_mkseq.
rewrite !(nth_map 0) ?size_map ?hs //.
rewrite !big_ord_recl !big_ord0 /= /bump /= ?addn0 ?addr0.
have := hn i 0%N isT hi; rewrite addn0 => ->.
rewrite (hn i 1%N isT hi).
rewrite /rr /reopen_points nth_mkseq //= !hat //.
have key : (0, g1_gen crs) = t1 *: nth 0 (crs_u crs) 0 - nth 0 (crs_u crs) 1 :> com _.
  by rewrite hu /=; congr pair; rewrite /= ?subrr // opprB addrC subrK.
have iE x : i1 (x *: g1_gen crs) = x *: ((0, g1_gen crs) : com _) by rewrite /i1; congr pair; rewrite /= scaler0.
rewrite !iE !addrA; symmetry; exact: point_id key.
Qed.

Lemma trap_C76_G1 : forall (E : pairing) (R : rng E) (crs : CRS E) (a1 a2 t1 t2 : Fr E) (s s' : rst R),
  hiding_crs_with crs a1 a2 t1 t2 ->
  (forall k k' c, commit_G1 (k *: g1_gen crs) crs s = Ok (c, s') -> let r := reopen_points t1 [:: k] [:: k'] (crand c) in
     commit_G1 (R := list_rng) (k' *: g1_gen crs) crs (flatten r) = Ok (mkCommit (coms c) r, [::])) /\
  (forall K K' c, size K' = size K -> batch_commit_G1 [seq k *: g1_gen crs | k <- K] crs s = Ok (c, s') -> let r := reopen_points t1 K K' (crand c) in
     batch_commit_G1 (R := list_rng) [seq k *: g1_gen crs | k <- K'] crs (flatten r) = Ok (mkCommit (coms c) r, [::])).
Proof.
move=> E R crs a1 a2 t1 t2 s s' hh; have [hu hv _] := hh.
split=> [k k' c|K K' c hs].
  rewrite commit_G1_total => e; have [h1 h2] := reopen_val_G1 (fun i l => drawn s (2 * i + l)%N) hh (erefl : size [:: k'] = size [:: k]).
  move: e; rewrite /checked; case ef : (first_failed _) => [//|] -[<- _].
  rewrite [crand _]/= commit_G1_total /checked ef; apply: congr2_ok; [exact: h1 | exact: h2].
rewrite batch_commit_G1_total => e; have [h1 h2] := reopen_val_G1 (fun i l => drawn s (2 * i + l)%N) hh hs.
move: e; rewrite /checked !size_map; case ef : (first_failed _) => [//|] -[<- _].
rewrite [crand _]/= !size_map batch_commit_G1_total /checked !size_map hs ef; apply: congr2_ok; [exact: h1 | exact: h2].
Qed.

Lemma reopen_val_G2 (E : pairing) (crs : CRS E) a1 a2 t1 t2 (K K' : seq (Fr E)) (r : nat -> nat -> Fr E) :
  hiding_crs_with crs a1 a2 t1 t2 -> size K' = size K ->
  let t : rst (@list_rng E) := flatten (reopen_points t2 K K' (table (size K) 2 r)) in
  commit_value 2 (crs_v crs) [seq i2 x | x <- [seq k *: g2_gen crs | k <- K']] (fun i l => drawn t (2 * i + l)%N)
  = mkCommit (coms (commit_value 2 (crs_v crs) [seq i2 x | x <- [seq k *: g2_gen crs | k <- K]] r)) (reopen_points t2 K K' (table (size K) 2 r))
  /\ after (2 * size K)%N t = [::].
Proof.
move=> [hu hv _] hs; set rr := reopen_points _ _ _ _; move=> t.
have hsz : all (fun x => size x == 2%N) rr by apply/allP => x /mapP [i _ ->].
have hn i l : (l < 2)%N -> (i < size K)%N -> drawn t (2 * i + l)%N = nth 0 (nth [::] rr i) l by move=> hl hi; rewrite list_drawn (nth_flat _ _ hsz).
split; last by rewrite list_after drop_oversize // (size_flat hsz) size_mkseq ?mul1n.
have hat i l : (l < 2)%N -> (i < size K)%N -> nth 0 (nth [::] (table (size K) 2 r) i) l = r i l by move=> hl hi; rewrite /table !nth_mkseq.
rewrite /commit_value !size_map hs; congr mkCommit; apply: eq_mkseq_lt => i hi; last first.
  have h0 := hn i 0%N isT hi; rewrite addn0 in h0.
  have h1 := hn i 1%N isT hi.
  by rewrite /mkseq /= ?addn0 h0 h1 /rr !nth_mkseq.
rewrite !(nth_map 0) ?size_map ?hs //.
rewrite !big_ord_recl !big_ord0 /= /bump /= ?addn0 ?addr0.
have := hn i 0%N isT hi; rewrite addn0 => ->.
rewrite (hn i 1%N isT hi).
rewrite /rr /reopen_points nth_mkseq //= !hat //.
have key : (0, g2_gen crs) = t2 *: nth 0 (crs_v crs) 0 - nth 0 (crs_v crs) 1 :> com _.
  by rewrite hv /=; congr pair; rewrite /= ?subrr // opprB addrC subrK.
have iE x : i2 (x *: g2_gen crs) = x *: ((0, g2_gen crs) : com _) by rewrite /i2; congr pair; rewrite /= scaler0.
rewrite !iE !addrA; symmetry; exact: point_id key.
Qed.

Lemma trap_C76_G2 : forall (E : pairing) (R : rng E) (crs : CRS E) (a1 a2 t1 t2 : Fr E) (s s' : rst R),
  hiding_crs_with crs a1 a2 t1 t2 ->
  (forall k k' c, commit_G2 (k *: g2_gen crs) crs s = Ok (c, s') -> let r := reopen_points t2 [:: k] [:: k'] (crand c) in
     commit_G2 (R := list_rng) (k' *: g2_gen crs) crs (flatten r) = Ok (mkCommit (coms c) r, [::])) /\
  (forall K K' c, size K' = size K -> batch_commit_G2 [seq k *: g2_gen crs | k <- K] crs s = Ok (c, s') -> let r := reopen_points t2 K K' (crand c) in
     batch_commit_G2 (R := list_rng) [seq k *: g2_gen crs | k <- K'] crs (flatten r) = Ok (mkCommit (coms c) r, [::])).
Proof.
move=> E R crs a1 a2 t1 t2 s s' hh; have [hu hv _] := hh.
split=> [k k' c|K K' c hs].
  rewrite commit_G2_total => e; have [h1 h2] := reopen_val_G2 (fun i l => drawn s (2 * i + l)%N) hh (erefl : size [:: k'] = size [:: k]).
  move: e; rewrite /checked; case ef : (first_failed _) => [//|] -[<- _].
  rewrite [crand _]/= commit_G2_total /checked ef; apply: congr2_ok; [exact: h1 | exact: h2].
rewrite batch_commit_G2_total => e; have [h1 h2] := reopen_val_G2 (fun i l => drawn s (2 * i + l)%N) hh hs.
move: e; rewrite /checked !size_map; case ef : (first_failed _) => [//|] -[<- _].
rewrite [crand _]/= !size_map batch_commit_G2_total /checked !size_map hs ef; apply: congr2_ok; [exact: h1 | exact: h2].
Qed.

Lemma reopen_val_B1 (E : pairing) (crs : CRS E) a1 a2 t1 t2 (K K' : seq (Fr E)) (r : nat -> nat -> Fr E) :
  hiding_crs_with crs a1 a2 t1 t2 -> size K' = size K ->
  let t : rst (@list_rng E) := flatten (reopen_scalars t1 K K' (table (size K) 1 r)) in
  commit_value 1 (crs_u crs) [seq k1 crs x | x <- K'] (fun i l => drawn t i)
  = mkCommit (coms (commit_value 1 (crs_u crs) [seq k1 crs x | x <- K] r)) (reopen_scalars t1 K K' (table (size K) 1 r))
  /\ after (size K) t = [::].
Proof.
move=> [hu hv _] hs; set rr := reopen_scalars _ _ _ _; move=> t.
have hsz : all (fun x => size x == 1%N) rr by apply/allP => x /mapP [i _ ->].
have hn i l : (l < 1)%N -> (i < size K)%N -> drawn t (1 * i + l)%N = nth 0 (nth [::] rr i) l by move=> hl hi; rewrite list_drawn (nth_flat _ _ hsz).
split; last by rewrite list_after drop_oversize // (size_flat hsz) size_mkseq ?mul1n.
have hat i l : (l < 1)%N -> (i < size K)%N -> nth 0 (nth [::] (table (size K) 1 r) i) l = r i l by move=> hl hi; rewrite /table !nth_mkseq.
rewrite /commit_value !size_map hs; congr mkCommit; apply: eq_mkseq_lt => i hi; last first.
  have h0 := hn i 0%N isT hi; rewrite mul1n addn0 in h0.
  
  by rewrite /mkseq /= ?addn0 h0 /rr !nth_mkseq.
rewrite !(nth_map 0) ?size_map ?hs //.
rewrite !big_ord_recl !big_ord0 /= /bump /= ?addn0 ?addr0.
have := hn i 0%N isT hi; rewrite mul1n addn0 => ->.

rewrite /rr /reopen_scalars nth_mkseq //= !hat //.
have key : (0, g1_gen crs) = t1 *: nth 0 (crs_u crs) 0 - nth 0 (crs_u crs) 1 :> com _.
  by rewrite hu /=; congr pair; rewrite /= ?subrr // opprB addrC subrK.

symmetry; exact: scalar_id key.
Qed.

Lemma trap_C76_B1 : forall (E : pairing) (R : rng E) (crs : CRS E) (a1 a2 t1 t2 : Fr E) (s s' : rst R),
  hiding_crs_with crs a1 a2 t1 t2 ->
  (forall k k' c, commit_scalar_to_B1 k crs s = Ok (c, s') -> let r := reopen_scalars t1 [:: k] [:: k'] (crand c) in
     commit_scalar_to_B1 (R := list_rng) k' crs (flatten r) = Ok (mkCommit (coms c) r, [::])) /\
  (forall K K' c, size K' = size K -> batch_commit_scalar_to_B1 K crs s = Ok (c, s') -> let r := reopen_scalars t1 K K' (crand c) in
     batch_commit_scalar_to_B1 (R := list_rng) K' crs (flatten r) = Ok (mkCommit (coms c) r, [::])).
Proof.
move=> E R crs a1 a2 t1 t2 s s' hh; have [hu hv _] := hh.
split=> [k k' c|K K' c hs].
  rewrite commit_scalar_to_B1_total => e; have [h1 h2] := reopen_val_B1 (fun i l => drawn s i) hh (erefl : size [:: k'] = size [:: k]).
  move: e; rewrite /checked; case ef : (first_failed _) => [//|] -[<- _].
  rewrite [crand _]/= commit_scalar_to_B1_total /checked ef; apply: congr2_ok; [exact: h1 | exact: h2].
rewrite batch_commit_scalar_to_B1_total => e; have [h1 h2] := reopen_val_B1 (fun i l => drawn s i) hh hs.
move: e; rewrite /checked ; case ef : (first_failed _) => [//|] -[<- _].
rewrite [crand _]/= !size_map batch_commit_scalar_to_B1_total /checked hs ef; apply: congr2_ok; [exact: h1 | exact: h2].
Qed.

Lemma reopen_val_B2 (E : pairing) (crs : CRS E) a1 a2 t1 t2 (K K' : seq (Fr E)) (r : nat -> nat -> Fr E) :
  hiding_crs_with crs a1 a2 t1 t2 -> size K' = size K ->
  let t : rst (@list_rng E) := flatten (reopen_scalars t2 K K' (table (size K) 1 r)) in
  commit_value 1 (crs_v crs) [seq k2 crs x | x <- K'] (fun i l => drawn t i)
  = mkCommit (coms (commit_value 1 (crs_v crs) [seq k2 crs x | x <- K] r)) (reopen_scalars t2 K K' (table (size K) 1 r))
  /\ after (size K) t = [::].
Proof.
move=> [hu hv _] hs; set rr := reopen_scalars _ _ _ _; move=> t.
have hsz : all (fun x => size x == 1%N) rr by apply/allP => x /mapP [i _ ->].
have hn i l : (l < 1)%N -> (i < size K)%N -> drawn t (1 * i + l)%N = nth 0 (nth [::] rr i) l by move=> hl hi; rewrite list_drawn (nth_flat _ _ hsz).
split; last by rewrite list_after drop_oversize // (size_flat hsz) size_mkseq ?mul1n.
have hat i l : (l < 1)%N -> (i < size K)%N -> nth 0 (nth [::] (table (size K) 1 r) i) l = r i l by move=> hl hi; rewrite /table !nth_mkseq.
rewrite /commit_value !size_map hs; congr mkCommit; apply: eq_mkseq_lt => i hi; last first.
  have h0 := hn i 0%N isT hi; rewrite mul1n addn0 in h0.
  
  by rewrite /mkseq /= ?addn0 h0 /rr !nth_mkseq.
rewrite !(nth_map 0) ?size_map ?hs //.
rewrite !big_ord_recl !big_ord0 /= /bump /= ?addn0 ?addr0.
have := hn i 0%N isT hi; rewrite mul1n addn0 => ->.

rewrite /rr /reopen_scalars nth_mkseq //= !hat //.
have key : (0, g2_gen crs) = t2 *: nth 0 (crs_v crs) 0 - nth 0 (crs_v crs) 1 :> com _.
  by rewrite hv /=; congr pair; rewrite /= ?subrr // opprB addrC subrK.

symmetry; exact: scalar_id key.
Qed.

Lemma trap_C76_B2 : forall (E : pairing) (R : rng E) (crs : CRS E) (a1 a2 t1 t2 : Fr E) (s s' : rst R),
  hiding_crs_with crs a1 a2 t1 t2 ->
  (forall k k' c, commit_scalar_to_B2 k crs s = Ok (c, s') -> let r := reopen_scalars t2 [:: k] [:: k'] (crand c) in
     commit_scalar_to_B2 (R := list_rng) k' crs (flatten r) = Ok (mkCommit (coms c) r, [::])) /\
  (forall K K' c, size K' = size K -> batch_commit_scalar_to_B2 K crs s = Ok (c, s') -> let r := reopen_scalars t2 K K' (crand c) in
     batch_commit_scalar_to_B2 (R := list_rng) K' crs (flatten r) = Ok (mkCommit (coms c) r, [::])).
Proof.
move=> E R crs a1 a2 t1 t2 s s' hh; have [hu hv _] := hh.
split=> [k k' c|K K' c hs].
  rewrite commit_scalar_to_B2_total => e; have [h1 h2] := reopen_val_B2 (fun i l => drawn s i) hh (erefl : size [:: k'] = size [:: k]).
  move: e; rewrite /checked; case ef : (first_failed _) => [//|] -[<- _].
  rewrite [crand _]/= commit_scalar_to_B2_total /checked ef; apply: congr2_ok; [exact: h1 | exact: h2].
rewrite batch_commit_scalar_to_B2_total => e; have [h1 h2] := reopen_val_B2 (fun i l => drawn s i) hh hs.
move: e; rewrite /checked ; case ef : (first_failed _) => [//|] -[<- _].
rewrite [crand _]/= !size_map batch_commit_scalar_to_B2_total /checked hs ef; apply: congr2_ok; [exact: h1 | exact: h2].
Qed.

Lemma trap_C76_ppe : forall (E : pairing) (R R1 R2 : rng E) (sch sch' : sched) (crs : CRS E) (a1 a2 t1 t2 : Fr E) (s : rst R) (s1 s1' : rst R1) (s2 s2' : rst R2)
  (q : PPE E) (K K' L L' : seq (Fr E)) cx cy,
  bilinear E -> valid_sched sch -> valid_sched sch' -> hiding_crs_with crs a1 a2 t1 t2 ->
  batch_commit_G1 [seq k *: g1_gen crs | k <- K] crs s1 = Ok (cx, s1') -> batch_commit_G2 [seq k *: g2_gen crs | k <- L] crs s2 = Ok (cy, s2') ->
  size K' = size K -> size L' = size L -> ppe_wf q (size K) (size L) -> ppe_holds q [seq k *: g1_gen crs | k <- K'] [seq k *: g2_gen crs | k <- L'] ->
  exists pf s', ppe_prove sch q [seq k *: g1_gen crs | k <- K'] [seq k *: g2_gen crs | k <- L'] (mkCommit (coms cx) (reopen_points t1 K K' (crand cx))) (mkCommit (coms cy) (reopen_points t2 L L' (crand cy))) crs s = Ok (pf, s') /\
    ppe_verify sch' q (mkCProof cx cy [:: pf]) crs = Ok true.
Proof.
move=> E R R1 R2 sch sch' crs a1 a2 t1 t2 s s1 s1' s2 s2' q K K' L L' cx cy hb vs vs' hh hx hy hk hl wf hq.
have [hu hv _] := hh; have tk : two_keys crs by split; rewrite ?hu ?hv.
have [_ bx] := trap_C76_G1 s1 s1' hh; have hx' := bx K K' cx hk hx.
have [_ by'] := trap_C76_G2 s2 s2' hh; have hy' := by' L L' cy hl hy.
have pos m x k : checked (batch_checks k m) x = Ok (cx, s1') -> (0 < m)%N by rewrite /checked; case: m => //=; rewrite ?orbT.
have pos' m x k : checked (batch_checks k m) x = Ok (cy, s2') -> (0 < m)%N by rewrite /checked; case: m => //=; rewrite ?orbT.
have nx : (0 < size K)%N by move: hx; rewrite batch_commit_G1_total => /pos; rewrite ?size_map.
have ny : (0 < size L)%N by move: hy; rewrite batch_commit_G2_total => /pos'; rewrite ?size_map.
have [||||pf [s' [e1 e2]]] := @ppe_built_complete E R sch sch' q [seq k *: g1_gen crs | k <- K'] [seq k *: g2_gen crs | k <- L'] (mkCommit (coms cx) (reopen_points t1 K K' (crand cx))) (mkCommit (coms cy) (reopen_points t2 L L' (crand cy))) crs s hb vs vs' tk
  (Built1_batch_G hx') (Built2_batch_G hy'); rewrite ?size_map ?hk ?hl //.
exists pf, s'; split=> //; rewrite -e2; exact: k_C33_ppe_randomness.
Qed.

Lemma trap_C76_ms1 : forall (E : pairing) (R R1 R2 : rng E) (sch sch' : sched) (crs : CRS E) (a1 a2 t1 t2 : Fr E) (s : rst R) (s1 s1' : rst R1) (s2 s2' : rst R2)
  (q : MSMEG1 E) (K K' L L' : seq (Fr E)) cx cy,
  bilinear E -> valid_sched sch -> valid_sched sch' -> hiding_crs_with crs a1 a2 t1 t2 ->
  batch_commit_G1 [seq k *: g1_gen crs | k <- K] crs s1 = Ok (cx, s1') -> batch_commit_scalar_to_B2 L crs s2 = Ok (cy, s2') ->
  size K' = size K -> size L' = size L -> ms1_wf q (size K) (size L) -> ms1_holds q [seq k *: g1_gen crs | k <- K'] L' ->
  exists pf s', ms1_prove sch q [seq k *: g1_gen crs | k <- K'] L' (mkCommit (coms cx) (reopen_points t1 K K' (crand cx))) (mkCommit (coms cy) (reopen_scalars t2 L L' (crand cy))) crs s = Ok (pf, s') /\
    ms1_verify sch' q (mkCProof cx cy [:: pf]) crs = Ok true.
Proof.
move=> E R R1 R2 sch sch' crs a1 a2 t1 t2 s s1 s1' s2 s2' q K K' L L' cx cy hb vs vs' hh hx hy hk hl wf hq.
have [hu hv _] := hh; have tk : two_keys crs by split; rewrite ?hu ?hv.
have [_ bx] := trap_C76_G1 s1 s1' hh; have hx' := bx K K' cx hk hx.
have [_ by'] := trap_C76_B2 s2 s2' hh; have hy' := by' L L' cy hl hy.
have pos m x k : checked (batch_checks k m) x = Ok (cx, s1') -> (0 < m)%N by rewrite /checked; case: m => //=; rewrite ?orbT.
have pos' m x k : checked (batch_scalar_checks k m) x = Ok (cy, s2') -> (0 < m)%N by rewrite /checked; case: m => //=; rewrite ?orbT.
have nx : (0 < size K)%N by move: hx; rewrite batch_commit_G1_total => /pos; rewrite ?size_map.
have ny : (0 < size L)%N by move: hy; rewrite batch_commit_scalar_to_B2_total => /pos'; rewrite ?size_map.
have [||||pf [s' [e1 e2]]] := @ms1_built_complete E R sch sch' q [seq k *: g1_gen crs | k <- K'] L' (mkCommit (coms cx) (reopen_points t1 K K' (crand cx))) (mkCommit (coms cy) (reopen_scalars t2 L L' (crand cy))) crs s hb vs vs' tk
  (Built1_batch_G hx') (Built2_batch_B hy'); rewrite ?size_map ?hk ?hl //.
exists pf, s'; split=> //; rewrite -e2; exact: k_C33_ms1_randomness.
Qed.

Lemma trap_C76_ms2 : forall (E : pairing) (R R1 R2 : rng E) (sch sch' : sched) (crs : CRS E) (a1 a2 t1 t2 : Fr E) (s : rst R) (s1 s1' : rst R1) (s2 s2' : rst R2)
  (q : MSMEG2 E) (K K' L L' : seq (Fr E)) cx cy,
  bilinear E -> valid_sched sch -> valid_sched sch' -> hiding_crs_with crs a1 a2 t1 t2 ->
  batch_commit_scalar_to_B1 K crs s1 = Ok (cx, s1') -> batch_commit_G2 [seq k *: g2_gen crs | k <- L] crs s2 = Ok (cy, s2') ->
  size K' = size K -> size L' = size L -> ms2_wf q (size K) (size L) -> ms2_holds q K' [seq k *: g2_gen crs | k <- L'] ->
  exists pf s', ms2_prove sch q K' [seq k *: g2_gen crs | k <- L'] (mkCommit (coms cx) (reopen_scalars t1 K K' (crand cx))) (mkCommit (coms cy) (reopen_points t2 L L' (crand cy))) crs s = Ok (pf, s') /\
    ms2_verify sch' q (mkCProof cx cy [:: pf]) crs = Ok true.
Proof.
move=> E R R1 R2 sch sch' crs a1 a2 t1 t2 s s1 s1' s2 s2' q K K' L L' cx cy hb vs vs' hh hx hy hk hl wf hq.
have [hu hv _] := hh; have tk : two_keys crs by split; rewrite ?hu ?hv.
have [_ bx] := trap_C76_B1 s1 s1' hh; have hx' := bx K K' cx hk hx.
have [_ by'] := trap_C76_G2 s2 s2' hh; have hy' := by' L L' cy hl hy.
have pos m x k : checked (batch_scalar_checks k m) x = Ok (cx, s1') -> (0 < m)%N by rewrite /checked; case: m => //=; rewrite ?orbT.
have pos' m x k : checked (batch_checks k m) x = Ok (cy, s2') -> (0 < m)%N by rewrite /checked; case: m => //=; rewrite ?orbT.
have nx : (0 < size K)%N by move: hx; rewrite batch_commit_scalar_to_B1_total => /pos; rewrite ?size_map.
have ny : (0 < size L)%N by move: hy; rewrite batch_commit_G2_total => /pos'; rewrite ?size_map.
have [||||pf [s' [e1 e2]]] := @ms2_built_complete E R sch sch' q K' [seq k *: g2_gen crs | k <- L'] (mkCommit (coms cx) (reopen_scalars t1 K K' (crand cx))) (mkCommit (coms cy) (reopen_points t2 L L' (crand cy))) crs s hb vs vs' tk
  (Built1_batch_B hx') (Built2_batch_G hy'); rewrite ?size_map ?hk ?hl //.
exists pf, s'; split=> //; rewrite -e2; exact: k_C33_ms2_randomness.
Qed.

Lemma trap_C76_quad : forall (E : pairing) (R R1 R2 : rng E) (sch sch' : sched) (crs : CRS E) (a1 a2 t1 t2 : Fr E) (s : rst R) (s1 s1' : rst R1) (s2 s2' : rst R2)
  (q : QuadEqu E) (K K' L L' : seq (Fr E)) cx cy,
  bilinear E -> valid_sched sch -> valid_sched sch' -> hiding_crs_with crs a1 a2 t1 t2 ->
  batch_commit_scalar_to_B1 K crs s1 = Ok (cx, s1') -> batch_commit_scalar_to_B2 L crs s2 = Ok (cy, s2') ->
  size K' = size K -> size L' = size L -> quad_wf q (size K) (size L) -> quad_holds q K' L' ->
  exists pf s', quad_prove sch q K' L' (mkCommit (coms cx) (reopen_scalars t1 K K' (crand cx))) (mkCommit (coms cy) (reopen_scalars t2 L L' (crand cy))) crs s = Ok (pf, s') /\
    quad_verify sch' q (mkCProof cx cy [:: pf]) crs = Ok true.
Proof.
move=> E R R1 R2 sch sch' crs a1 a2 t1 t2 s s1 s1' s2 s2' q K K' L L' cx cy hb vs vs' hh hx hy hk hl wf hq.
have [hu hv _] := hh; have tk : two_keys crs by split; rewrite ?hu ?hv.
have [_ bx] := trap_C76_B1 s1 s1' hh; have hx' := bx K K' cx hk hx.
have [_ by'] := trap_C76_B2 s2 s2' hh; have hy' := by' L L' cy hl hy.
have pos m x k : checked (batch_scalar_checks k m) x = Ok (cx, s1') -> (0 < m)%N by rewrite /checked; case: m => //=; rewrite ?orbT.
have pos' m x k : checked (batch_scalar_checks k m) x = Ok (cy, s2') -> (0 < m)%N by rewrite /checked; case: m => //=; rewrite ?orbT.
have nx : (0 < size K)%N by move: hx; rewrite batch_commit_scalar_to_B1_total => /pos; rewrite ?size_map.
have ny : (0 < size L)%N by move: hy; rewrite batch_commit_scalar_to_B2_total => /pos'; rewrite ?size_map.
have [||||pf [s' [e1 e2]]] := @quad_built_complete E R sch sch' q K' L' (mkCommit (coms cx) (reopen_scalars t1 K K' (crand cx))) (mkCommit (coms cy) (reopen_scalars t2 L L' (crand cy))) crs s hb vs vs' tk
  (Built1_batch_B hx') (Built2_batch_B hy'); rewrite ?size_map ?hk ?hl //.
exists pf, s'; split=> //; rewrite -e2; exact: k_C33_quad_randomness.
Qed.

