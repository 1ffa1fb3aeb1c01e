(** Histories, recovery of committed values, sums of commitments. *)
From mathcomp Require Import all_ssreflect all_algebra.
From Verif Require Import Base BaseLemmas Group DataStructures MatLemmas CoreAlg ComLemmas.
From Verif Require Import Generator Commit Statement Prove Verify Spec SpecApi ProveLemmas CommitLemmas.
From Verif Require Import VerifyLemmas Holds Complete Sound Main CapLemmas Draws CommitProps.
Set Implicit Arguments.
Unset Strict Implicit.
Unset Printing Implicit Defensive.
Import GRing.Theory.
Local Open Scope ring_scope.

Section Append.
Context {F : fieldType} {G : lmodType F}.
Implicit Types (a b : commit G).

Lemma append_returns a b a' b' :
  commit_append_mut a b = (Ok tt, (a', b')) <->
  [/\ size (coms a) = size (crand a), size (coms b) = size (crand b)
    & [/\ coms a' = coms a ++ coms b, crand a' = crand a ++ crand b,
          coms b' = [::] & crand b' = [::]]].
Proof.
rewrite /commit_append_mut /assert_eq; case: eqP => h1; last by split=> // -[].
case: eqP => h2; last by split=> // -[].
split=> [[<- <-]|[_ _ []]] //; case: a' => ? ?; case: b' => ? ? /= -> -> -> ->.
by [].
Qed.

Lemma append_panics a b :
  (exists p st, commit_append_mut a b = (Panic p, st)) <->
  size (coms a) <> size (crand a) \/ size (coms b) <> size (crand b).
Proof.
rewrite /commit_append_mut /assert_eq; case: eqP => h1; last first.
  by split=> _; [left | exists AssertFailed, (a, b)].
case: eqP => h2; last first.
  by split=> _; [right | exists AssertFailed, (a, b)].
by split=> [[p [st []]]|[]].
Qed.

Lemma append_panic_unchanged a b p st : commit_append_mut a b = (Panic p, st) -> st = (a, b).
Proof.
rewrite /commit_append_mut; case: (assert_eq _ _) => [?|q]; last by case.
by case: (assert_eq _ _) => [?|q]; case.
Qed.

Lemma append_assoc a b c ab ab' abc abc' bc bc' r r' :
  commit_append a b = Ok (ab, ab') -> commit_append ab c = Ok (abc, abc') ->
  commit_append b c = Ok (bc, bc') -> commit_append a bc = Ok (r, r') -> r = abc.
Proof.
rewrite !commit_appendE => /bind_ok[? _] /bind_ok[? _] [<- _] /bind_ok[? _] /bind_ok[? _] [<- _].
move=> /bind_ok[? _] /bind_ok[? _] [<- _] /bind_ok[? _] /bind_ok[? _] [<- _] /=.
by rewrite !catA.
Qed.
End Append.

Section Made.
Context {F : fieldType} {G : lmodType F} {K V W : Type}.
Lemma made_map (cm : K -> V -> seq F -> com G -> Prop) (cm' : K -> W -> seq F -> com G -> Prop)
  dv dw (h : V -> W) crs X c : (forall x r c, cm crs x r c -> cm' crs (h x) r c) ->
  made_of cm dv crs X c -> made_of cm' dw crs [seq h x | x <- X] c.
Proof.
move=> hc [h1 h2 h3]; split; rewrite ?size_map // => i hi.
by rewrite (nth_map dv) //; apply: hc; exact: h3.
Qed.
End Made.

Lemma nth_addz (V : zmodType) (X Y : seq V) i : size X = size Y ->
  nth 0 (addz X Y) i = nth 0 X i + nth 0 Y i.
Proof.
move=> h; case: (ltnP i (size X)) => hi; last first.
  by rewrite !nth_default -?h // ?addr0 // size_map size_zip -h minnn.
by rewrite (nth_map (0, 0)) ?size_zip -?h ?minnn // nth_zip.
Qed.
Lemma size_addz (V : zmodType) (X Y : seq V) : size X = size Y -> size (addz X Y) = size X.
Proof. by move=> h; rewrite size_map size_zip h minnn. Qed.

Section ApiLemmas.
Context {E : pairing}.
Implicit Types (crs : CRS E).

Lemma built1_made crs X c : built1 crs X c -> made_val1 crs X c.
Proof.
elim=> {X c} [R s s' x c h|R s s' X c h|R s s' x c h|R s s' X c h|X a a' Y b b' _ h1 _ h2 e|X a a' Y b b' _ h1 _ h2 e].
- exact: (@made_map _ _ _ _ _ com_G1 com_val1 0 (inl 0) inl crs [:: x] c (fun _ _ _ h => h) (commit_made_G1 h)).
- exact: (@made_map _ _ _ _ _ com_G1 com_val1 0 (inl 0) inl crs X c (fun _ _ _ h => h) (batch_made_G1 h)).
- exact: (@made_map _ _ _ _ _ com_B1 com_val1 0 (inl 0) inr crs [:: x] c (fun _ _ _ h => h) (commit_made_B1 h)).
- exact: (@made_map _ _ _ _ _ com_B1 com_val1 0 (inl 0) inr crs X c (fun _ _ _ h => h) (batch_made_B1 h)).
- exact: append_made h1 h2 e.
- by move: e; rewrite (append_Ok h1 h2) => -[_ <-].
Qed.

Lemma built1_append crs X a Y b : built1 crs X a -> built1 crs Y b ->
  exists a' b', [/\ commit_append a b = Ok (a', b'), built1 crs (X ++ Y) a', built1 crs [::] b'
    & coms b' = [::]].
Proof.
move=> h1 h2; have e := append_Ok (built1_made h1) (built1_made h2).
exists (mkCommit (coms a ++ coms b) (crand a ++ crand b)), (mkCommit [::] [::]); split=> //.
  exact: Built1_append h1 h2 e.
exact: Built1_drained h1 h2 e.
Qed.

Lemma made_recover1 crs X c : made_G1 crs X c -> recover1 crs c = X.
Proof.
case=> h1 h2 h3; have hs : size (recover1 crs c) = size X.
  by rewrite size_map size_zip h1 h2 minnn.
apply: (@eq_from_nth _ 0) => // j; rewrite hs => hj.
rewrite (nth_map (0, [::])) ?size_zip ?h1 ?h2 ?minnn // nth_zip ?h1 ?h2 //=.
have [r1 [r2 [-> ->]]] := h3 j hj; rewrite /=.
by rewrite addrAC addrK addrK.
Qed.

Lemma made_B1_determined crs X X' c : u2 crs + (0, g1_gen crs) != 0 ->
  made_B1 crs X c -> made_B1 crs X' c -> X = X'.
Proof.
move=> hw [h1 h2 h3] [h1' h2' h3']; have hs : size X = size X' by rewrite -h1 -h1'.
apply: (@eq_from_nth _ 0) => // j hj.
have [r1 [e1 ec]] := h3 j hj; have [r2 [e2]] := h3' j (eq_ind _ (fun n => (j < n)%N) hj _ hs).
have e : r1 = r2 by move: e2; rewrite e1 => -[].
by rewrite ec e => /addIr/scaleI; apply.
Qed.

Lemma built2_made crs X c : built2 crs X c -> made_val2 crs X c.
Proof.
elim=> {X c} [R s s' x c h|R s s' X c h|R s s' x c h|R s s' X c h|X a a' Y b b' _ h1 _ h2 e|X a a' Y b b' _ h1 _ h2 e].
- exact: (@made_map _ _ _ _ _ com_G2 com_val2 0 (inl 0) inl crs [:: x] c (fun _ _ _ h => h) (commit_made_G2 h)).
- exact: (@made_map _ _ _ _ _ com_G2 com_val2 0 (inl 0) inl crs X c (fun _ _ _ h => h) (batch_made_G2 h)).
- exact: (@made_map _ _ _ _ _ com_B2 com_val2 0 (inl 0) inr crs [:: x] c (fun _ _ _ h => h) (commit_made_B2 h)).
- exact: (@made_map _ _ _ _ _ com_B2 com_val2 0 (inl 0) inr crs X c (fun _ _ _ h => h) (batch_made_B2 h)).
- exact: append_made h1 h2 e.
- by move: e; rewrite (append_Ok h1 h2) => -[_ <-].
Qed.

Lemma built2_append crs X a Y b : built2 crs X a -> built2 crs Y b ->
  exists a' b', [/\ commit_append a b = Ok (a', b'), built2 crs (X ++ Y) a', built2 crs [::] b'
    & coms b' = [::]].
Proof.
move=> h1 h2; have e := append_Ok (built2_made h1) (built2_made h2).
exists (mkCommit (coms a ++ coms b) (crand a ++ crand b)), (mkCommit [::] [::]); split=> //.
  exact: Built2_append h1 h2 e.
exact: Built2_drained h1 h2 e.
Qed.

Lemma made_recover2 crs X c : made_G2 crs X c -> recover2 crs c = X.
Proof.
case=> h1 h2 h3; have hs : size (recover2 crs c) = size X.
  by rewrite size_map size_zip h1 h2 minnn.
apply: (@eq_from_nth _ 0) => // j; rewrite hs => hj.
rewrite (nth_map (0, [::])) ?size_zip ?h1 ?h2 ?minnn // nth_zip ?h1 ?h2 //=.
have [r1 [r2 [-> ->]]] := h3 j hj; rewrite /=.
by rewrite addrAC addrK addrK.
Qed.

Lemma made_B2_determined crs X X' c : v2 crs + (0, g2_gen crs) != 0 ->
  made_B2 crs X c -> made_B2 crs X' c -> X = X'.
Proof.
move=> hw [h1 h2 h3] [h1' h2' h3']; have hs : size X = size X' by rewrite -h1 -h1'.
apply: (@eq_from_nth _ 0) => // j hj.
have [r1 [e1 ec]] := h3 j hj; have [r2 [e2]] := h3' j (eq_ind _ (fun n => (j < n)%N) hj _ hs).
have e : r1 = r2 by move: e2; rewrite e1 => -[].
by rewrite ec e => /addIr/scaleI; apply.
Qed.

Lemma G1_batch_hom (R R' R'' : rng E) (s s1 : rst R) (z z1 : rst R') (t : rst R'') crs X X' c c' :
  size X = size X' ->
  batch_commit_G1 X crs s = Ok (c, s1) -> batch_commit_G1 X' crs z = Ok (c', z1) ->
  sum_draws (2 * size X) s z t ->
  batch_commit_G1 (addz X X') crs t
  = Ok (mkCommit (addz (coms c) (coms c')) (addzz (crand c) (crand c')), after (2 * size X) t).
Proof.
move=> hs hc; have := isok_batch_commit_G1 X crs s; rewrite hc => /esym/andP[hX /eqP hk] hc' hd.
have hX' : (0 < size X')%N by rewrite -hs.
have hsz : size (addz X X') = size X by exact: size_addz.
move: hc hc'; rewrite !batch_commit_G1_Ok ?hsz // => -[<- _] [<- _].
congr (Ok (mkCommit _ _, _)).
- apply: (@eq_from_nth _ 0); rewrite size_mkseq.
    by rewrite size_map size_zip !size_mkseq -hs minnn.
  move=> i hi; rewrite nth_addz ?size_mkseq // !nth_mkseq -?hs // !gs_c2.
  rewrite !nth_lin1 nth_addz // lin1D !hd ?lt_row2 // !scalerDl.
  by rewrite [RHS]addrACA; congr (_ + _); rewrite addrACA.
- apply: (@eq_from_nth _ [::]); rewrite /mkmat size_mkseq.
    by rewrite size_map size_zip !size_mkseq -hs minnn.
  move=> i hi; rewrite nth_mkseq // (nth_map ([::], [::])) ?size_zip ?size_mkseq -?hs ?minnn //.
  rewrite nth_zip ?size_mkseq //= !nth_mkseq -?hs // /mkseq /= /addz /= !hd ?lt_row2 //.
Qed.

Lemma G1_hom (R R' R'' : rng E) (s s1 : rst R) (z z1 : rst R') (t : rst R'') crs x x' c c' :
  commit_G1 x crs s = Ok (c, s1) -> commit_G1 x' crs z = Ok (c', z1) ->
  sum_draws 2 s z t ->
  commit_G1 (x + x') crs t
  = Ok (mkCommit (addz (coms c) (coms c')) (addzz (crand c) (crand c')), after 2 t).
Proof.
move=> hc; have := isok_commit_G1 x crs s; rewrite hc => /esym hk hc' hd.
move: hc hc'; rewrite !commit_G1_Ok // => -[<- _] [<- _].
congr (Ok (mkCommit [:: _] _, _)); last by rewrite !hd.
rewrite /= lin1D !hd // !scalerDl.
by rewrite [RHS]addrACA; congr (_ + _); rewrite addrACA.
Qed.

Lemma G2_batch_hom (R R' R'' : rng E) (s s1 : rst R) (z z1 : rst R') (t : rst R'') crs X X' c c' :
  size X = size X' ->
  batch_commit_G2 X crs s = Ok (c, s1) -> batch_commit_G2 X' crs z = Ok (c', z1) ->
  sum_draws (2 * size X) s z t ->
  batch_commit_G2 (addz X X') crs t
  = Ok (mkCommit (addz (coms c) (coms c')) (addzz (crand c) (crand c')), after (2 * size X) t).
Proof.
move=> hs hc; have := isok_batch_commit_G2 X crs s; rewrite hc => /esym/andP[hX /eqP hk] hc' hd.
have hX' : (0 < size X')%N by rewrite -hs.
have hsz : size (addz X X') = size X by exact: size_addz.
move: hc hc'; rewrite !batch_commit_G2_Ok ?hsz // => -[<- _] [<- _].
congr (Ok (mkCommit _ _, _)).
- apply: (@eq_from_nth _ 0); rewrite size_mkseq.
    by rewrite size_map size_zip !size_mkseq -hs minnn.
  move=> i hi; rewrite nth_addz ?size_mkseq // !nth_mkseq -?hs // !gs_c2.
  rewrite !nth_lin2 nth_addz // lin2D !hd ?lt_row2 // !scalerDl.
  by rewrite [RHS]addrACA; congr (_ + _); rewrite addrACA.
- apply: (@eq_from_nth _ [::]); rewrite /mkmat size_mkseq.
    by rewrite size_map size_zip !size_mkseq -hs minnn.
  move=> i hi; rewrite nth_mkseq // (nth_map ([::], [::])) ?size_zip ?size_mkseq -?hs ?minnn //.
  rewrite nth_zip ?size_mkseq //= !nth_mkseq -?hs // /mkseq /= /addz /= !hd ?lt_row2 //.
Qed.

Lemma G2_hom (R R' R'' : rng E) (s s1 : rst R) (z z1 : rst R') (t : rst R'') crs x x' c c' :
  commit_G2 x crs s = Ok (c, s1) -> commit_G2 x' crs z = Ok (c', z1) ->
  sum_draws 2 s z t ->
  commit_G2 (x + x') crs t
  = Ok (mkCommit (addz (coms c) (coms c')) (addzz (crand c) (crand c')), after 2 t).
Proof.
move=> hc; have := isok_commit_G2 x crs s; rewrite hc => /esym hk hc' hd.
move: hc hc'; rewrite !commit_G2_Ok // => -[<- _] [<- _].
congr (Ok (mkCommit [:: _] _, _)); last by rewrite !hd.
rewrite /= lin2D !hd // !scalerDl.
by rewrite [RHS]addrACA; congr (_ + _); rewrite addrACA.
Qed.

Lemma B1_batch_hom (R R' R'' : rng E) (s s1 : rst R) (z z1 : rst R') (t : rst R'') crs X X' c c' :
  size X = size X' ->
  batch_commit_scalar_to_B1 X crs s = Ok (c, s1) -> batch_commit_scalar_to_B1 X' crs z = Ok (c', z1) ->
  sum_draws (size X) s z t ->
  batch_commit_scalar_to_B1 (addz X X') crs t
  = Ok (mkCommit (addz (coms c) (coms c')) (addzz (crand c) (crand c')), after (size X) t).
Proof.
move=> hs hc; have := isok_batch_commit_B1 X crs s; rewrite hc => /esym/andP[hX hk] hc' hd.
have hX' : (0 < size X')%N by rewrite -hs.
have hsz : size (addz X X') = size X by exact: size_addz.
move: hc hc'; rewrite !batch_commit_B1_Ok ?hsz // => -[<- _] [<- _].
congr (Ok (mkCommit _ _, _)).
- apply: (@eq_from_nth _ 0); rewrite size_mkseq.
    by rewrite size_map size_zip !size_mkseq -hs minnn.
  move=> i hi; rewrite nth_addz ?size_mkseq // !nth_mkseq -?hs // !gs_c1.
  rewrite !nth_s1 nth_addz // /s1map scalerDl !hd  // !scalerDl.
  by rewrite addrACA.
- apply: (@eq_from_nth _ [::]); rewrite /mkmat size_mkseq.
    by rewrite size_map size_zip !size_mkseq -hs minnn.
  move=> i hi; rewrite nth_mkseq // (nth_map ([::], [::])) ?size_zip ?size_mkseq -?hs ?minnn //.
  rewrite nth_zip ?size_mkseq //= !nth_mkseq -?hs // /mkseq /= /addz /= hd //.
Qed.

Lemma B1_hom (R R' R'' : rng E) (s s1 : rst R) (z z1 : rst R') (t : rst R'') crs x x' c c' :
  commit_scalar_to_B1 x crs s = Ok (c, s1) -> commit_scalar_to_B1 x' crs z = Ok (c', z1) ->
  sum_draws 1 s z t ->
  commit_scalar_to_B1 (x + x') crs t
  = Ok (mkCommit (addz (coms c) (coms c')) (addzz (crand c) (crand c')), after 1 t).
Proof.
move=> hc; have := isok_commit_B1 x crs s; rewrite hc => /esym hk hc' hd.
move: hc hc'; rewrite !commit_B1_Ok // => -[<- _] [<- _].
congr (Ok (mkCommit [:: _] _, _)); last by rewrite !hd.
rewrite /= /s1map scalerDl !hd // !scalerDl.
by rewrite addrACA.
Qed.

Lemma B2_batch_hom (R R' R'' : rng E) (s s1 : rst R) (z z1 : rst R') (t : rst R'') crs X X' c c' :
  size X = size X' ->
  batch_commit_scalar_to_B2 X crs s = Ok (c, s1) -> batch_commit_scalar_to_B2 X' crs z = Ok (c', z1) ->
  sum_draws (size X) s z t ->
  batch_commit_scalar_to_B2 (addz X X') crs t
  = Ok (mkCommit (addz (coms c) (coms c')) (addzz (crand c) (crand c')), after (size X) t).
Proof.
move=> hs hc; have := isok_batch_commit_B2 X crs s; rewrite hc => /esym/andP[hX hk] hc' hd.
have hX' : (0 < size X')%N by rewrite -hs.
have hsz : size (addz X X') = size X by exact: size_addz.
move: hc hc'; rewrite !batch_commit_B2_Ok ?hsz // => -[<- _] [<- _].
congr (Ok (mkCommit _ _, _)).
- apply: (@eq_from_nth _ 0); rewrite size_mkseq.
    by rewrite size_map size_zip !size_mkseq -hs minnn.
  move=> i hi; rewrite nth_addz ?size_mkseq // !nth_mkseq -?hs // !gs_c1.
  rewrite !nth_s2 nth_addz // /s2map scalerDl !hd  // !scalerDl.
  by rewrite addrACA.
- apply: (@eq_from_nth _ [::]); rewrite /mkmat size_mkseq.
    by rewrite size_map size_zip !size_mkseq -hs minnn.
  move=> i hi; rewrite nth_mkseq // (nth_map ([::], [::])) ?size_zip ?size_mkseq -?hs ?minnn //.
  rewrite nth_zip ?size_mkseq //= !nth_mkseq -?hs // /mkseq /= /addz /= hd //.
Qed.

Lemma B2_hom (R R' R'' : rng E) (s s1 : rst R) (z z1 : rst R') (t : rst R'') crs x x' c c' :
  commit_scalar_to_B2 x crs s = Ok (c, s1) -> commit_scalar_to_B2 x' crs z = Ok (c', z1) ->
  sum_draws 1 s z t ->
  commit_scalar_to_B2 (x + x') crs t
  = Ok (mkCommit (addz (coms c) (coms c')) (addzz (crand c) (crand c')), after 1 t).
Proof.
move=> hc; have := isok_commit_B2 x crs s; rewrite hc => /esym hk hc' hd.
move: hc hc'; rewrite !commit_B2_Ok // => -[<- _] [<- _].
congr (Ok (mkCommit [:: _] _, _)); last by rewrite !hd.
rewrite /= /s2map scalerDl !hd // !scalerDl.
by rewrite addrACA.
Qed.

Lemma ppe_cap_made sch (R : rng E) (s s' : rst R) (q : PPE E) X Y crs p :
  ppe_commit_and_prove sch q X Y crs s = Ok (p, s') -> made_G1 crs X (xcoms p) /\ made_G2 crs Y (ycoms p).
Proof.
by move=> /ppe_cap_steps[s1 [s2 [pf [/batch_made_G1 hx /batch_made_G2 hy _ _]]]].
Qed.
Lemma ms1_cap_made sch (R : rng E) (s s' : rst R) (q : MSMEG1 E) X Y crs p :
  ms1_commit_and_prove sch q X Y crs s = Ok (p, s') -> made_G1 crs X (xcoms p) /\ made_B2 crs Y (ycoms p).
Proof.
by move=> /ms1_cap_steps[s1 [s2 [pf [/batch_made_G1 hx /batch_made_B2 hy _ _]]]].
Qed.
Lemma ms2_cap_made sch (R : rng E) (s s' : rst R) (q : MSMEG2 E) X Y crs p :
  ms2_commit_and_prove sch q X Y crs s = Ok (p, s') -> made_B1 crs X (xcoms p) /\ made_G2 crs Y (ycoms p).
Proof.
by move=> /ms2_cap_steps[s1 [s2 [pf [/batch_made_B1 hx /batch_made_G2 hy _ _]]]].
Qed.
Lemma quad_cap_made sch (R : rng E) (s s' : rst R) (q : QuadEqu E) X Y crs p :
  quad_commit_and_prove sch q X Y crs s = Ok (p, s') -> made_B1 crs X (xcoms p) /\ made_B2 crs Y (ycoms p).
Proof.
by move=> /quad_cap_steps[s1 [s2 [pf [/batch_made_B1 hx /batch_made_B2 hy _ _]]]].
Qed.
Lemma G1_recovers : exists recover : CRS E -> Commit1 E -> seq (G1 E),
  forall (R : rng E) (s s' : rst R) crs c,
    (forall x, commit_G1 x crs s = Ok (c, s') -> recover crs c = [:: x]) /\
    (forall X, batch_commit_G1 X crs s = Ok (c, s') -> recover crs c = X).
Proof.
exists (@recover1 E) => R s s' crs c.
by split=> [x /commit_made_G1|X /batch_made_G1]; exact: made_recover1.
Qed.
Lemma B1_batch_determined (R R' : rng E) (s s' : rst R) (z z' : rst R') crs X X' c :
  u2 crs + (0, g1_gen crs) != 0 ->
  batch_commit_scalar_to_B1 X crs s = Ok (c, s') -> batch_commit_scalar_to_B1 X' crs z = Ok (c, z') -> X = X'.
Proof. by move=> hw /batch_made_B1 h /batch_made_B1; exact: made_B1_determined. Qed.
Lemma B1_determined (R R' : rng E) (s s' : rst R) (z z' : rst R') crs x x' c :
  u2 crs + (0, g1_gen crs) != 0 ->
  commit_scalar_to_B1 x crs s = Ok (c, s') -> commit_scalar_to_B1 x' crs z = Ok (c, z') -> x = x'.
Proof. by move=> hw /commit_made_B1 h /commit_made_B1 /(made_B1_determined hw h)[]. Qed.
Lemma G2_recovers : exists recover : CRS E -> Commit2 E -> seq (G2 E),
  forall (R : rng E) (s s' : rst R) crs c,
    (forall x, commit_G2 x crs s = Ok (c, s') -> recover crs c = [:: x]) /\
    (forall X, batch_commit_G2 X crs s = Ok (c, s') -> recover crs c = X).
Proof.
exists (@recover2 E) => R s s' crs c.
by split=> [x /commit_made_G2|X /batch_made_G2]; exact: made_recover2.
Qed.
Lemma B2_batch_determined (R R' : rng E) (s s' : rst R) (z z' : rst R') crs X X' c :
  v2 crs + (0, g2_gen crs) != 0 ->
  batch_commit_scalar_to_B2 X crs s = Ok (c, s') -> batch_commit_scalar_to_B2 X' crs z = Ok (c, z') -> X = X'.
Proof. by move=> hw /batch_made_B2 h /batch_made_B2; exact: made_B2_determined. Qed.
Lemma B2_determined (R R' : rng E) (s s' : rst R) (z z' : rst R') crs x x' c :
  v2 crs + (0, g2_gen crs) != 0 ->
  commit_scalar_to_B2 x crs s = Ok (c, s') -> commit_scalar_to_B2 x' crs z = Ok (c, z') -> x = x'.
Proof. by move=> hw /commit_made_B2 h /commit_made_B2 /(made_B2_determined hw h)[]. Qed.
Lemma ppe_cap_recover sch (R : rng E) (s s' : rst R) (q : PPE E) X Y crs p :
  ppe_commit_and_prove sch q X Y crs s = Ok (p, s') -> recover1 crs (xcoms p) = X /\ recover2 crs (ycoms p) = Y.
Proof. by move=> /ppe_cap_made h; rewrite (made_recover1 (proj1 h)) (made_recover2 (proj2 h)). Qed.
Lemma ms1_cap_recover sch (R : rng E) (s s' : rst R) (q : MSMEG1 E) X Y crs p :
  ms1_commit_and_prove sch q X Y crs s = Ok (p, s') -> recover1 crs (xcoms p) = X.
Proof. by move=> /ms1_cap_made h; rewrite (made_recover1 (proj1 h)). Qed.
Lemma ms2_cap_recover sch (R : rng E) (s s' : rst R) (q : MSMEG2 E) X Y crs p :
  ms2_commit_and_prove sch q X Y crs s = Ok (p, s') -> recover2 crs (ycoms p) = Y.
Proof. by move=> /ms2_cap_made h; rewrite (made_recover2 (proj2 h)). Qed.
Lemma ms1_cap_scalars : forall sch sch' (R R' : rng E) (s s' : rst R) (z z' : rst R') (q q' : MSMEG1 E) X X' Y Y' crs p,
  v2 crs + (0, g2_gen crs) != 0 ->
  ms1_commit_and_prove sch q X Y crs s = Ok (p, s') -> ms1_commit_and_prove sch' q' X' Y' crs z = Ok (p, z') -> Y = Y'.
Proof. move=> sch sch' R R' s s' z z' q q' X X' Y Y' crs p hw2 /ms1_cap_made h /ms1_cap_made h'. exact (made_B2_determined hw2 (proj2 h) (proj2 h')). Qed.
Lemma ms2_cap_scalars : forall sch sch' (R R' : rng E) (s s' : rst R) (z z' : rst R') (q q' : MSMEG2 E) X X' Y Y' crs p,
  u2 crs + (0, g1_gen crs) != 0 ->
  ms2_commit_and_prove sch q X Y crs s = Ok (p, s') -> ms2_commit_and_prove sch' q' X' Y' crs z = Ok (p, z') -> X = X'.
Proof. move=> sch sch' R R' s s' z z' q q' X X' Y Y' crs p hw1 /ms2_cap_made h /ms2_cap_made h'. exact (made_B1_determined hw1 (proj1 h) (proj1 h')). Qed.
Lemma quad_cap_scalars : forall sch sch' (R R' : rng E) (s s' : rst R) (z z' : rst R') (q q' : QuadEqu E) X X' Y Y' crs p,
  u2 crs + (0, g1_gen crs) != 0 -> v2 crs + (0, g2_gen crs) != 0 ->
  quad_commit_and_prove sch q X Y crs s = Ok (p, s') -> quad_commit_and_prove sch' q' X' Y' crs z = Ok (p, z') -> X = X' /\ Y = Y'.
Proof. move=> sch sch' R R' s s' z z' q q' X X' Y Y' crs p hw1 hw2 /quad_cap_made h /quad_cap_made h'. exact (conj (made_B1_determined hw1 (proj1 h) (proj1 h')) (made_B2_determined hw2 (proj2 h) (proj2 h'))). Qed.
End ApiLemmas.
