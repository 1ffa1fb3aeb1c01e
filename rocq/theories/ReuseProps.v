(** Lemmas about two runs from the same state of the generator. *)
From mathcomp Require Import all_ssreflect all_algebra.
From Verif Require Import Base BaseLemmas Group DataStructures MatLemmas Generator Commit Statement Prove Verify Draws Spec SpecMat SpecVerify SpecPanic SpecFormula FormulaLemmas FormulaProps SpecReuse.
Set Implicit Arguments.
Unset Strict Implicit.
Unset Printing Implicit Defensive.
Import GRing.Theory.
Local Open Scope ring_scope.

Lemma checked_ok2 A B cs (v a : A) (w b : B) : checked cs (v, w) = Ok (a, b) -> a = v /\ b = w.
Proof. by move=> h; have [-> ->] := checked_ok h. Qed.
Lemma minus_nil (V : zmodType) (s t : seq V) : size s = size t -> (minus s t = nseq (size s) 0 <-> s = t).
Proof.
rewrite /minus; elim: s t => [|x s IH] [|y t] //= [/IH h]; split=> [|[-> e]]; last by rewrite subrr; congr cons; apply/h.
by case=> /eqP; rewrite subr_eq0 => /eqP -> /h ->.
Qed.
Lemma minus_map (V W : zmodType) (f : V -> W) (s t : seq V) : (forall a b, f a - f b = f (a - b)) ->
  minus (map f s) (map f t) = map f (minus s t).
Proof. by move=> hf; rewrite /minus; elim: s t => [|x s IH] [|y t] //=; rewrite hf IH. Qed.
Lemma minus_mkseq (V : zmodType) (l l' : seq V) (r : nat -> V) : size l = size l' ->
  minus (mkseq (fun i => nth 0 l i + r i) (size l)) (mkseq (fun i => nth 0 l' i + r i) (size l')) = minus l l'.
Proof.
move=> e; have sz : size (minus l l') = size l by rewrite /minus size_map size_zip e minnn.
have sz' : size (minus (mkseq (fun i => nth 0 l i + r i) (size l)) (mkseq (fun i => nth 0 l' i + r i) (size l'))) = size l.
  by rewrite /minus size_map size_zip !size_mkseq e minnn.
apply: (@eq_from_nth _ 0); first by rewrite sz sz'.
move=> i; rewrite sz' => hi; rewrite /minus.
rewrite (nth_map (0, 0)) ?size_zip ?size_mkseq -?e ?minnn // nth_zip ?size_mkseq //=.
rewrite !nth_mkseq -?e // [RHS](nth_map (0, 0)) ?size_zip -?e ?minnn // nth_zip //=.
by rewrite opprD addrACA subrr addr0.
Qed.
Section Reuse.
Context {E : pairing} {G : lmodType (Fr E)}.
Lemma commit_value_minus k key (l l' : seq (com G)) r : size l = size l' ->
  minus (coms (commit_value k key l r)) (coms (commit_value k key l' r)) = minus l l'.
Proof. by move=> e; apply: (minus_mkseq (fun i => \sum_(j < k) r i j *: nth 0 key j)). Qed.
Lemma commit_value_rand k key (l l' : seq (com G)) r : size l = size l' ->
  crand (commit_value k key l r) = crand (commit_value k key l' r).
Proof. by move=> e; rewrite /commit_value /= e. Qed.
Lemma commit_value_size k key (l : seq (com G)) r : size (coms (commit_value k key l r)) = size l.
Proof. by rewrite size_mkseq. Qed.
End Reuse.
Lemma map_inj_iff (S T : eqType) (f : S -> T) (s t : seq S) : injective f -> (map f s = map f t <-> s = t).
Proof. by move=> h; split=> [/(inj_map h)|->]. Qed.
Lemma i1_sub (E : pairing) (a b : G1 E) : @i1 E a - i1 b = i1 (a - b).
Proof. by rewrite /i1; congr pair; rewrite /= subrr. Qed.
Lemma i2_sub (E : pairing) (a b : G2 E) : @i2 E a - i2 b = i2 (a - b).
Proof. by rewrite /i2; congr pair; rewrite /= subrr. Qed.
Lemma k1_sub (E : pairing) (crs : CRS E) a b : k1 crs a - k1 crs b = k1 crs (a - b).
Proof. by rewrite /k1 scalerBl. Qed.
Lemma k2_sub (E : pairing) (crs : CRS E) a b : k2 crs a - k2 crs b = k2 crs (a - b).
Proof. by rewrite /k2 scalerBl. Qed.
Lemma i1_inj (E : pairing) : injective (@i1 E). Proof. by move=> a b []. Qed.
Lemma i2_inj (E : pairing) : injective (@i2 E). Proof. by move=> a b []. Qed.
Lemma k1_inj (E : pairing) (crs : CRS E) : one1 crs != 0 -> injective (k1 crs).
Proof. by move=> h a b /eqP; rewrite -subr_eq0 k1_sub scaler_eq0 (negbTE h) orbF subr_eq0 => /eqP. Qed.
Lemma k2_inj (E : pairing) (crs : CRS E) : one2 crs != 0 -> injective (k2 crs).
Proof. by move=> h a b /eqP; rewrite -subr_eq0 k2_sub scaler_eq0 (negbTE h) orbF subr_eq0 => /eqP. Qed.

(** What the commitments made from one state tell. *)
Lemma told (E : pairing) (G : lmodType (Fr E)) (V : zmodType) (f : V -> com G) k key (X X' : seq V) r :
  (forall a b, f a - f b = f (a - b)) -> size X = size X' ->
  minus (coms (commit_value k key (map f X) r)) (coms (commit_value k key (map f X') r)) = map f (minus X X').
Proof. by move=> hf e; rewrite commit_value_minus ?size_map // (minus_map _ _ hf). Qed.
Lemma told_eq (E : pairing) (G : lmodType (Fr E)) (V : zmodType) (f : V -> com G) k key (X X' : seq V) r :
  (forall a b, f a - f b = f (a - b)) -> injective f -> size X = size X' ->
  (coms (commit_value k key (map f X) r) = coms (commit_value k key (map f X') r) <-> X = X').
Proof.
move=> hf hi e; split=> [h|-> //].
have : minus (coms (commit_value k key (map f X) r)) (coms (commit_value k key (map f X') r)) = map f (minus X X') by apply: told.
rewrite h; set c := coms _; have -> : minus c c = nseq (size c) 0 by apply/minus_nil.
rewrite commit_value_size size_map => h0.
have f0 : f 0 = 0 by rewrite -[0 in LHS](subrr 0) -hf subrr.
have : map f (minus X X') = map f (nseq (size X) 0) by rewrite -h0 map_nseq f0 e.
by move/(inj_map hi) => h1; apply/(minus_nil e).
Qed.

(** Statements of P_Reuse.v. *)
Lemma k_batch_commit_G1 :
  forall (E : pairing) (R : rng E) (X X' : seq (G1 E)) (crs : CRS E) (s : rst R) c c' t t', size X = size X' ->
  batch_commit_G1 X crs s = Ok (c, t) -> batch_commit_G1 X' crs s = Ok (c', t') ->
  [/\ minus (coms c) (coms c') = [seq (0, x) | x <- minus X X'], crand c = crand c' & t = t'].
Proof.
move=> E R X X' crs s c c' t t' e; rewrite !batch_commit_G1_total => h h'; have [-> ->] := checked_ok2 h; have [-> ->] := checked_ok2 h'; clear h h'.
by split; [apply: (told _ _ _ (i1_sub (E := E))) | apply: commit_value_rand; rewrite !size_map | rewrite e].
Qed.
Lemma k_batch_commit_G1_same :
  forall (E : pairing) (R : rng E) (X X' : seq (G1 E)) (crs : CRS E) (s : rst R) c c' t t', size X = size X' ->
  batch_commit_G1 X crs s = Ok (c, t) -> batch_commit_G1 X' crs s = Ok (c', t') -> (coms c = coms c' <-> X = X').
Proof.
move=> E R X X' crs s c c' t t' e; rewrite !batch_commit_G1_total => h h'; have [-> _] := checked_ok2 h; have [-> _] := checked_ok2 h'; clear h h'.
exact: (told_eq _ _ _ (i1_sub (E := E)) (@i1_inj E) e).
Qed.
Lemma k_commit_G1 :
  forall (E : pairing) (R : rng E) (x x' : G1 E) (crs : CRS E) (s : rst R) c c' t t',
  commit_G1 x crs s = Ok (c, t) -> commit_G1 x' crs s = Ok (c', t') ->
  [/\ minus (coms c) (coms c') = [:: (0, x - x')], crand c = crand c' & t = t'].
Proof.
move=> E R x x' crs s c c' t t'; rewrite !commit_G1_total => h h'; have [-> ->] := checked_ok2 h; have [-> ->] := checked_ok2 h'; clear h h'.
by split=> //; exact: (@told E _ _ (i1) _ _ [:: x] [:: x'] _ (i1_sub (E := E)) erefl).
Qed.
Lemma k_batch_commit_scalar_to_B1 :
  forall (E : pairing) (R : rng E) (X X' : seq (Fr E)) (crs : CRS E) (s : rst R) c c' t t', size X = size X' ->
  batch_commit_scalar_to_B1 X crs s = Ok (c, t) -> batch_commit_scalar_to_B1 X' crs s = Ok (c', t') ->
  [/\ minus (coms c) (coms c') = [seq x *: one1 crs | x <- minus X X'], crand c = crand c' & t = t'].
Proof.
move=> E R X X' crs s c c' t t' e; rewrite !batch_commit_scalar_to_B1_total => h h'; have [-> ->] := checked_ok2 h; have [-> ->] := checked_ok2 h'; clear h h'.
by split; [apply: (told _ _ _ (k1_sub crs)) | apply: commit_value_rand; rewrite !size_map | rewrite e].
Qed.
Lemma k_batch_commit_scalar_to_B1_same :
  forall (E : pairing) (R : rng E) (X X' : seq (Fr E)) (crs : CRS E) (s : rst R) c c' t t', one1 crs != 0 -> size X = size X' ->
  batch_commit_scalar_to_B1 X crs s = Ok (c, t) -> batch_commit_scalar_to_B1 X' crs s = Ok (c', t') -> (coms c = coms c' <-> X = X').
Proof.
move=> E R X X' crs s c c' t t' h1 e; rewrite !batch_commit_scalar_to_B1_total => h h'; have [-> _] := checked_ok2 h; have [-> _] := checked_ok2 h'; clear h h'.
exact: (told_eq _ _ _ (k1_sub crs) (k1_inj h1) e).
Qed.
Lemma k_commit_scalar_to_B1 :
  forall (E : pairing) (R : rng E) (x x' : Fr E) (crs : CRS E) (s : rst R) c c' t t',
  commit_scalar_to_B1 x crs s = Ok (c, t) -> commit_scalar_to_B1 x' crs s = Ok (c', t') ->
  [/\ minus (coms c) (coms c') = [:: (x - x') *: one1 crs], crand c = crand c' & t = t'].
Proof.
move=> E R x x' crs s c c' t t'; rewrite !commit_scalar_to_B1_total => h h'; have [-> ->] := checked_ok2 h; have [-> ->] := checked_ok2 h'; clear h h'.
by split=> //; exact: (@told E _ _ (k1 crs) _ _ [:: x] [:: x'] _ (k1_sub crs) erefl).
Qed.
Lemma k_batch_commit_G2 :
  forall (E : pairing) (R : rng E) (X X' : seq (G2 E)) (crs : CRS E) (s : rst R) c c' t t', size X = size X' ->
  batch_commit_G2 X crs s = Ok (c, t) -> batch_commit_G2 X' crs s = Ok (c', t') ->
  [/\ minus (coms c) (coms c') = [seq (0, x) | x <- minus X X'], crand c = crand c' & t = t'].
Proof.
move=> E R X X' crs s c c' t t' e; rewrite !batch_commit_G2_total => h h'; have [-> ->] := checked_ok2 h; have [-> ->] := checked_ok2 h'; clear h h'.
by split; [apply: (told _ _ _ (i2_sub (E := E))) | apply: commit_value_rand; rewrite !size_map | rewrite e].
Qed.
Lemma k_batch_commit_G2_same :
  forall (E : pairing) (R : rng E) (X X' : seq (G2 E)) (crs : CRS E) (s : rst R) c c' t t', size X = size X' ->
  batch_commit_G2 X crs s = Ok (c, t) -> batch_commit_G2 X' crs s = Ok (c', t') -> (coms c = coms c' <-> X = X').
Proof.
move=> E R X X' crs s c c' t t' e; rewrite !batch_commit_G2_total => h h'; have [-> _] := checked_ok2 h; have [-> _] := checked_ok2 h'; clear h h'.
exact: (told_eq _ _ _ (i2_sub (E := E)) (@i2_inj E) e).
Qed.
Lemma k_commit_G2 :
  forall (E : pairing) (R : rng E) (x x' : G2 E) (crs : CRS E) (s : rst R) c c' t t',
  commit_G2 x crs s = Ok (c, t) -> commit_G2 x' crs s = Ok (c', t') ->
  [/\ minus (coms c) (coms c') = [:: (0, x - x')], crand c = crand c' & t = t'].
Proof.
move=> E R x x' crs s c c' t t'; rewrite !commit_G2_total => h h'; have [-> ->] := checked_ok2 h; have [-> ->] := checked_ok2 h'; clear h h'.
by split=> //; exact: (@told E _ _ (i2) _ _ [:: x] [:: x'] _ (i2_sub (E := E)) erefl).
Qed.
Lemma k_batch_commit_scalar_to_B2 :
  forall (E : pairing) (R : rng E) (X X' : seq (Fr E)) (crs : CRS E) (s : rst R) c c' t t', size X = size X' ->
  batch_commit_scalar_to_B2 X crs s = Ok (c, t) -> batch_commit_scalar_to_B2 X' crs s = Ok (c', t') ->
  [/\ minus (coms c) (coms c') = [seq x *: one2 crs | x <- minus X X'], crand c = crand c' & t = t'].
Proof.
move=> E R X X' crs s c c' t t' e; rewrite !batch_commit_scalar_to_B2_total => h h'; have [-> ->] := checked_ok2 h; have [-> ->] := checked_ok2 h'; clear h h'.
by split; [apply: (told _ _ _ (k2_sub crs)) | apply: commit_value_rand; rewrite !size_map | rewrite e].
Qed.
Lemma k_batch_commit_scalar_to_B2_same :
  forall (E : pairing) (R : rng E) (X X' : seq (Fr E)) (crs : CRS E) (s : rst R) c c' t t', one2 crs != 0 -> size X = size X' ->
  batch_commit_scalar_to_B2 X crs s = Ok (c, t) -> batch_commit_scalar_to_B2 X' crs s = Ok (c', t') -> (coms c = coms c' <-> X = X').
Proof.
move=> E R X X' crs s c c' t t' h1 e; rewrite !batch_commit_scalar_to_B2_total => h h'; have [-> _] := checked_ok2 h; have [-> _] := checked_ok2 h'; clear h h'.
exact: (told_eq _ _ _ (k2_sub crs) (k2_inj h1) e).
Qed.
Lemma k_commit_scalar_to_B2 :
  forall (E : pairing) (R : rng E) (x x' : Fr E) (crs : CRS E) (s : rst R) c c' t t',
  commit_scalar_to_B2 x crs s = Ok (c, t) -> commit_scalar_to_B2 x' crs s = Ok (c', t') ->
  [/\ minus (coms c) (coms c') = [:: (x - x') *: one2 crs], crand c = crand c' & t = t'].
Proof.
move=> E R x x' crs s c c' t t'; rewrite !commit_scalar_to_B2_total => h h'; have [-> ->] := checked_ok2 h; have [-> ->] := checked_ok2 h'; clear h h'.
by split=> //; exact: (@told E _ _ (k2 crs) _ _ [:: x] [:: x'] _ (k2_sub crs) erefl).
Qed.
Lemma k_ppe :
  forall (E : pairing) (R : rng E) (sch sch' : sched) (q q' : PPE E) (X X' : seq (G1 E)) (Y Y' : seq (G2 E)) (crs : CRS E) (s : rst R) p p' t t',
  valid_sched sch -> valid_sched sch' -> size X = size X' -> size Y = size Y' ->
  ppe_commit_and_prove sch q X Y crs s = Ok (p, t) -> ppe_commit_and_prove sch' q' X' Y' crs s = Ok (p', t') ->
  minus (coms (xcoms p)) (coms (xcoms p')) = [seq (0, x) | x <- minus X X'] /\
  minus (coms (ycoms p)) (coms (ycoms p')) = [seq (0, y) | y <- minus Y Y'].
Proof.
move=> E R sch sch' q q' X X' Y Y' crs s p p' t t' vs vs' e1 e2; rewrite !ppe_cap_total //; cbv zeta => h h'; have [-> _] := checked_ok2 h; have [-> _] := checked_ok2 h'; clear h h'.
by rewrite -e1; split; [exact: (told _ _ _ (i1_sub (E := E)) e1) | exact: (told _ _ _ (i2_sub (E := E)) e2)].
Qed.
Lemma k_ppe_same :
  forall (E : pairing) (R : rng E) (sch sch' : sched) (q q' : PPE E) (X X' : seq (G1 E)) (Y Y' : seq (G2 E)) (crs : CRS E) (s : rst R) p p' t t',
  valid_sched sch -> valid_sched sch' -> size X = size X' -> size Y = size Y' ->
  ppe_commit_and_prove sch q X Y crs s = Ok (p, t) -> ppe_commit_and_prove sch' q' X' Y' crs s = Ok (p', t') ->
  (coms (xcoms p) = coms (xcoms p') <-> X = X') /\ (coms (ycoms p) = coms (ycoms p') <-> Y = Y').
Proof.
move=> E R sch sch' q q' X X' Y Y' crs s p p' t t' vs vs' e1 e2; rewrite !ppe_cap_total //; cbv zeta => h h'; have [-> _] := checked_ok2 h; have [-> _] := checked_ok2 h'; clear h h'.
by rewrite -e1; split; [exact: (told_eq _ _ _ (i1_sub (E := E)) (@i1_inj E) e1) | exact: (told_eq _ _ _ (i2_sub (E := E)) (@i2_inj E) e2)].
Qed.
Lemma k_ms1 :
  forall (E : pairing) (R : rng E) (sch sch' : sched) (q q' : MSMEG1 E) (X X' : seq (G1 E)) (Y Y' : seq (Fr E)) (crs : CRS E) (s : rst R) p p' t t',
  valid_sched sch -> valid_sched sch' -> size X = size X' -> size Y = size Y' ->
  ms1_commit_and_prove sch q X Y crs s = Ok (p, t) -> ms1_commit_and_prove sch' q' X' Y' crs s = Ok (p', t') ->
  minus (coms (xcoms p)) (coms (xcoms p')) = [seq (0, x) | x <- minus X X'] /\
  minus (coms (ycoms p)) (coms (ycoms p')) = [seq y *: one2 crs | y <- minus Y Y'].
Proof.
move=> E R sch sch' q q' X X' Y Y' crs s p p' t t' vs vs' e1 e2; rewrite !ms1_cap_total //; cbv zeta => h h'; have [-> _] := checked_ok2 h; have [-> _] := checked_ok2 h'; clear h h'.
by rewrite -e1; split; [exact: (told _ _ _ (i1_sub (E := E)) e1) | exact: (told _ _ _ (k2_sub crs) e2)].
Qed.
Lemma k_ms1_same :
  forall (E : pairing) (R : rng E) (sch sch' : sched) (q q' : MSMEG1 E) (X X' : seq (G1 E)) (Y Y' : seq (Fr E)) (crs : CRS E) (s : rst R) p p' t t',
  valid_sched sch -> valid_sched sch' -> one2 crs != 0 -> size X = size X' -> size Y = size Y' ->
  ms1_commit_and_prove sch q X Y crs s = Ok (p, t) -> ms1_commit_and_prove sch' q' X' Y' crs s = Ok (p', t') ->
  (coms (xcoms p) = coms (xcoms p') <-> X = X') /\ (coms (ycoms p) = coms (ycoms p') <-> Y = Y').
Proof.
move=> E R sch sch' q q' X X' Y Y' crs s p p' t t' vs vs' h2 e1 e2; rewrite !ms1_cap_total //; cbv zeta => h h'; have [-> _] := checked_ok2 h; have [-> _] := checked_ok2 h'; clear h h'.
by rewrite -e1; split; [exact: (told_eq _ _ _ (i1_sub (E := E)) (@i1_inj E) e1) | exact: (told_eq _ _ _ (k2_sub crs) (k2_inj h2) e2)].
Qed.
Lemma k_ms2 :
  forall (E : pairing) (R : rng E) (sch sch' : sched) (q q' : MSMEG2 E) (X X' : seq (Fr E)) (Y Y' : seq (G2 E)) (crs : CRS E) (s : rst R) p p' t t',
  valid_sched sch -> valid_sched sch' -> size X = size X' -> size Y = size Y' ->
  ms2_commit_and_prove sch q X Y crs s = Ok (p, t) -> ms2_commit_and_prove sch' q' X' Y' crs s = Ok (p', t') ->
  minus (coms (xcoms p)) (coms (xcoms p')) = [seq x *: one1 crs | x <- minus X X'] /\
  minus (coms (ycoms p)) (coms (ycoms p')) = [seq (0, y) | y <- minus Y Y'].
Proof.
move=> E R sch sch' q q' X X' Y Y' crs s p p' t t' vs vs' e1 e2; rewrite !ms2_cap_total //; cbv zeta => h h'; have [-> _] := checked_ok2 h; have [-> _] := checked_ok2 h'; clear h h'.
by rewrite -e1; split; [exact: (told _ _ _ (k1_sub crs) e1) | exact: (told _ _ _ (i2_sub (E := E)) e2)].
Qed.
Lemma k_ms2_same :
  forall (E : pairing) (R : rng E) (sch sch' : sched) (q q' : MSMEG2 E) (X X' : seq (Fr E)) (Y Y' : seq (G2 E)) (crs : CRS E) (s : rst R) p p' t t',
  valid_sched sch -> valid_sched sch' -> one1 crs != 0 -> size X = size X' -> size Y = size Y' ->
  ms2_commit_and_prove sch q X Y crs s = Ok (p, t) -> ms2_commit_and_prove sch' q' X' Y' crs s = Ok (p', t') ->
  (coms (xcoms p) = coms (xcoms p') <-> X = X') /\ (coms (ycoms p) = coms (ycoms p') <-> Y = Y').
Proof.
move=> E R sch sch' q q' X X' Y Y' crs s p p' t t' vs vs' h1 e1 e2; rewrite !ms2_cap_total //; cbv zeta => h h'; have [-> _] := checked_ok2 h; have [-> _] := checked_ok2 h'; clear h h'.
by rewrite -e1; split; [exact: (told_eq _ _ _ (k1_sub crs) (k1_inj h1) e1) | exact: (told_eq _ _ _ (i2_sub (E := E)) (@i2_inj E) e2)].
Qed.
Lemma k_quad :
  forall (E : pairing) (R : rng E) (sch sch' : sched) (q q' : QuadEqu E) (X X' : seq (Fr E)) (Y Y' : seq (Fr E)) (crs : CRS E) (s : rst R) p p' t t',
  valid_sched sch -> valid_sched sch' -> size X = size X' -> size Y = size Y' ->
  quad_commit_and_prove sch q X Y crs s = Ok (p, t) -> quad_commit_and_prove sch' q' X' Y' crs s = Ok (p', t') ->
  minus (coms (xcoms p)) (coms (xcoms p')) = [seq x *: one1 crs | x <- minus X X'] /\
  minus (coms (ycoms p)) (coms (ycoms p')) = [seq y *: one2 crs | y <- minus Y Y'].
Proof.
move=> E R sch sch' q q' X X' Y Y' crs s p p' t t' vs vs' e1 e2; rewrite !quad_cap_total //; cbv zeta => h h'; have [-> _] := checked_ok2 h; have [-> _] := checked_ok2 h'; clear h h'.
by rewrite -e1; split; [exact: (told _ _ _ (k1_sub crs) e1) | exact: (told _ _ _ (k2_sub crs) e2)].
Qed.
Lemma k_quad_same :
  forall (E : pairing) (R : rng E) (sch sch' : sched) (q q' : QuadEqu E) (X X' : seq (Fr E)) (Y Y' : seq (Fr E)) (crs : CRS E) (s : rst R) p p' t t',
  valid_sched sch -> valid_sched sch' -> one1 crs != 0 -> one2 crs != 0 -> size X = size X' -> size Y = size Y' ->
  quad_commit_and_prove sch q X Y crs s = Ok (p, t) -> quad_commit_and_prove sch' q' X' Y' crs s = Ok (p', t') ->
  (coms (xcoms p) = coms (xcoms p') <-> X = X') /\ (coms (ycoms p) = coms (ycoms p') <-> Y = Y').
Proof.
move=> E R sch sch' q q' X X' Y Y' crs s p p' t t' vs vs' h1 h2 e1 e2; rewrite !quad_cap_total //; cbv zeta => h h'; have [-> _] := checked_ok2 h; have [-> _] := checked_ok2 h'; clear h h'.
by rewrite -e1; split; [exact: (told_eq _ _ _ (k1_sub crs) (k1_inj h1) e1) | exact: (told_eq _ _ _ (k2_sub crs) (k2_inj h2) e2)].
Qed.
