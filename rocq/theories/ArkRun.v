(** C98: whole runs of [commit_and_prove] over affine and projective points. *)
From mathcomp Require Import all_ssreflect all_algebra.
From Verif Require Import Base BaseLemmas Group DataStructures Generator Commit Statement Prove Verify Derived Spec SpecMat SpecVerify SpecHide Draws SpecRun RunThms.
From Verif Require Import Ark SpecArk ArkRel ArkLemmas ArkTransfer ArkBij SpecArkRun.
Set Implicit Arguments.
Unset Strict Implicit.
Unset Printing Implicit Defensive.
Import GRing.Theory.
Local Open Scope ring_scope.

Section ArkRun.
Context {E : pairing} {A : ark (Fr E)} {r1 : repr (G1 E) (C1 A)} {r2 : repr (G2 E) (C2 A)} {rt : GT E -> out A -> Prop}.
Hypothesis I : implements r1 r2 rt.

Lemma ark_drawnE (R : ark_rng A) (s : ark_rst R) i : ark_drawn s i = drawn (s : rst (scalars_of (E := E) 0 0 R)) i.
Proof.
rewrite /ark_drawn (ark_drawsE (E := E) 0 0) -[i in nth _ _ i]/(nat_of_ord (@Ordinal i.+1 i (ltnSn i))) -tnth_nth.
by rewrite tnth_mktuple.
Qed.

Lemma ark_movedE (R R' : ark_rng A) (s : ark_rst R) (z : ark_rst R') o n t k :
  moved (s : rst (scalars_of (E := E) 0 0 R)) (z : rst (scalars_of (E := E) 0 0 R')) o n t k <-> ark_moved s z o n t k.
Proof. by split=> h i hi; move: (h i hi); rewrite !ark_drawnE. Qed.

Lemma ark_sameE (R R' : ark_rng A) (s : ark_rst R) (z : ark_rst R') o n :
  same_from (s : rst (scalars_of (E := E) 0 0 R)) (z : rst (scalars_of (E := E) 0 0 R')) o n <-> ark_same_from s z o n.
Proof. by split=> h i hi; move: (h i hi); rewrite !ark_drawnE. Qed.

Lemma k_C98_ppe_run_ark (sch sch' : sched) (q : PPE E) f (X : seq (G1 E)) (Y : seq (G2 E)) a b (crs : CRS E) d a1 a2 t1 t2 (R R' : ark_rng A) (s s' : ark_rst R) (z z' : ark_rst R') p p' :
  canonical r1 -> canonical r2 -> rppe r1 r2 rt q f -> rseq (ra r1) X a -> rseq (ra r2) Y b -> rcrs r1 r2 rt crs d -> valid_sched sch -> valid_sched sch' -> binding_crs_with crs a1 a2 t1 t2 -> proper_crs crs ->
  ark_ppe_commit_and_prove sch f a b d s = Ok (p, s') -> ark_ppe_commit_and_prove sch' f a b d z = Ok (p', z') ->
  let m := size X in let n := size Y in
  (ark_public p' = ark_public p <-> exists (k l : nat -> Fr E) (c : Fr E),
    let o := (2 * m + 2 * n)%N in
    let e := \sum_(i < m) \sum_(j < n) k i * at_ (ppe_gamma q) i j * (ark_drawn s (2 * m + 2 * j) + t2 * ark_drawn s (2 * m + 2 * j).+1) in
    [/\ \sum_(i < m) k i *: (nth 0 (ppe_b q) i + \sum_(j < n) at_ (ppe_gamma q) i j *: nth 0 Y j) = 0,
        \sum_(j < n) l j *: (nth 0 (ppe_a q) j + \sum_(i < m) at_ (ppe_gamma q) i j *: nth 0 X i) = 0,
        ark_moved s z 0 m t1 k, ark_moved s z (2 * m) n t2 l &
        [/\ ark_drawn z o = ark_drawn s o + t1 * (t2 * c - e), ark_drawn z o.+1 = ark_drawn s o.+1 + e - t2 * c,
            ark_drawn z o.+2 = ark_drawn s o.+2 - t1 * c & ark_drawn z o.+3 = ark_drawn s o.+3 + c]]).
Proof.
move=> k1 k2 hq hx hy hK vs vs' h1 h2 hf hg.
move: (rppe_commit_and_prove I (@scalars_of_alike _ _ 0 0 R) sch hq hx hy hK (erefl s)).
rewrite hf; case ef: (ppe_commit_and_prove _ _ _ _ _ _) => [[c c']|//] [/= hc _].
move: (rppe_commit_and_prove I (@scalars_of_alike _ _ 0 0 R') sch' hq hx hy hK (erefl z)).
rewrite hg; case eg: (ppe_commit_and_prove _ _ _ _ _ _) => [[w w']|//] [/= hw _].
have hm (Q : Prop) : (public w = public c <-> Q) -> (ark_public p' = ark_public p <-> Q).
  move=> <-; split; [exact: rpublic_fun I _ _ _ _ hw hc | exact: rpublic_eq k1 k2 hw hc].
apply: hm; apply: (iff_trans (k_C98_ppe_run vs vs' h1 h2 ef eg)).
have ee (k : nat -> Fr E) : \sum_(i < size X) \sum_(j < size Y) k i * at_ (ppe_gamma q) i j * (ark_drawn s (2 * size X + 2 * j) + t2 * ark_drawn s (2 * size X + 2 * j).+1) = \sum_(i < size X) \sum_(j < size Y) k i * at_ (ppe_gamma q) i j * (drawn (s : rst (scalars_of (E := E) 0 0 R)) (2 * size X + 2 * j) + t2 * drawn (s : rst (scalars_of (E := E) 0 0 R)) (2 * size X + 2 * j).+1).
  by apply: eq_bigr => i _; apply: eq_bigr => j _; rewrite !ark_drawnE.
by split=> -[k [l [e [g1 g2 /ark_movedE g3 /ark_movedE g4 g5]]]]; exists k, l, e; split=> //; move: g5; rewrite ee !ark_drawnE.
Qed.

Lemma k_C98_ms1_run_ark (sch sch' : sched) (q : MSMEG1 E) f (X : seq (G1 E)) (Y : seq (Fr E)) a (crs : CRS E) d a1 a2 t1 t2 (R R' : ark_rng A) (s s' : ark_rst R) (z z' : ark_rst R') p p' :
  canonical r1 -> canonical r2 -> rms1 r1 q f -> rseq (ra r1) X a -> rcrs r1 r2 rt crs d -> valid_sched sch -> valid_sched sch' -> binding_crs_with crs a1 a2 t1 t2 -> proper_crs crs ->
  ark_ms1_commit_and_prove sch f a Y d s = Ok (p, s') -> ark_ms1_commit_and_prove sch' f a Y d z = Ok (p', z') ->
  let m := size X in let n := size Y in
  (ark_public p' = ark_public p <-> exists k : nat -> Fr E,
    let o := (2 * m + n)%N in
    let e := \sum_(i < m) \sum_(j < n) k i * at_ (ms1_gamma q) i j * ark_drawn s (2 * m + j) in
    [/\ \sum_(i < m) k i * (nth 0 (ms1_b q) i + \sum_(j < n) at_ (ms1_gamma q) i j * nth 0 Y j) = 0,
        ark_moved s z 0 m t1 k, ark_same_from s z (2 * m) n,
        ark_drawn z o = ark_drawn s o - t1 * e & ark_drawn z o.+1 = ark_drawn s o.+1 + e]).
Proof.
move=> k1 k2 hq hx hK vs vs' h1 h2 hf hg.
move: (rms1_commit_and_prove I (@scalars_of_alike _ _ 0 0 R) sch Y hq hx hK (erefl s)).
rewrite hf; case ef: (ms1_commit_and_prove _ _ _ _ _ _) => [[c c']|//] [/= hc _].
move: (rms1_commit_and_prove I (@scalars_of_alike _ _ 0 0 R') sch' Y hq hx hK (erefl z)).
rewrite hg; case eg: (ms1_commit_and_prove _ _ _ _ _ _) => [[w w']|//] [/= hw _].
have hm (Q : Prop) : (public w = public c <-> Q) -> (ark_public p' = ark_public p <-> Q).
  move=> <-; split; [exact: rpublic_fun I _ _ _ _ hw hc | exact: rpublic_eq k1 k2 hw hc].
apply: hm; apply: (iff_trans (k_C98_ms1_run vs vs' h1 h2 ef eg)).
have ee (k : nat -> Fr E) : \sum_(i < size X) \sum_(j < size Y) k i * at_ (ms1_gamma q) i j * ark_drawn s (2 * size X + j) = \sum_(i < size X) \sum_(j < size Y) k i * at_ (ms1_gamma q) i j * drawn (s : rst (scalars_of (E := E) 0 0 R)) (2 * size X + j).
  by apply: eq_bigr => i _; apply: eq_bigr => j _; rewrite !ark_drawnE.
by split=> -[k [g1 /ark_movedE g2 /ark_sameE g3 g4 g5]]; exists k; split=> //; move: g4 g5; rewrite ?ee !ark_drawnE.
Qed.

Lemma k_C98_ms2_run_ark (sch sch' : sched) (q : MSMEG2 E) f (X : seq (Fr E)) (Y : seq (G2 E)) b (crs : CRS E) d a1 a2 t1 t2 (R R' : ark_rng A) (s s' : ark_rst R) (z z' : ark_rst R') p p' :
  canonical r1 -> canonical r2 -> rms2 r2 q f -> rseq (ra r2) Y b -> rcrs r1 r2 rt crs d -> valid_sched sch -> valid_sched sch' -> binding_crs_with crs a1 a2 t1 t2 -> proper_crs crs ->
  ark_ms2_commit_and_prove sch f X b d s = Ok (p, s') -> ark_ms2_commit_and_prove sch' f X b d z = Ok (p', z') ->
  let m := size X in let n := size Y in
  (ark_public p' = ark_public p <-> exists l : nat -> Fr E,
    let o := (m + 2 * n)%N in
    [/\ \sum_(j < n) l j * (nth 0 (ms2_a q) j + \sum_(i < m) at_ (ms2_gamma q) i j * nth 0 X i) = 0,
        ark_same_from s z 0 m, ark_moved s z m n t2 l & ark_same_from s z o 2]).
Proof.
move=> k1 k2 hq hy hK vs vs' h1 h2 hf hg.
move: (rms2_commit_and_prove I (@scalars_of_alike _ _ 0 0 R) sch X hq hy hK (erefl s)).
rewrite hf; case ef: (ms2_commit_and_prove _ _ _ _ _ _) => [[c c']|//] [/= hc _].
move: (rms2_commit_and_prove I (@scalars_of_alike _ _ 0 0 R') sch' X hq hy hK (erefl z)).
rewrite hg; case eg: (ms2_commit_and_prove _ _ _ _ _ _) => [[w w']|//] [/= hw _].
have hm (Q : Prop) : (public w = public c <-> Q) -> (ark_public p' = ark_public p <-> Q).
  move=> <-; split; [exact: rpublic_fun I _ _ _ _ hw hc | exact: rpublic_eq k1 k2 hw hc].
apply: hm; apply: (iff_trans (k_C98_ms2_run vs vs' h1 h2 ef eg)).
by split=> -[l [g1 /ark_sameE g2 /ark_movedE g3 /ark_sameE g4]]; exists l.
Qed.

Lemma k_C98_quad_run_ark (sch sch' : sched) (q : QuadEqu E) f (X : seq (Fr E)) (Y : seq (Fr E)) (crs : CRS E) d (R R' : ark_rng A) (s s' : ark_rst R) (z z' : ark_rst R') p p' :
  canonical r1 -> canonical r2 -> rquad q f -> rcrs r1 r2 rt crs d -> valid_sched sch -> valid_sched sch' -> u1 crs != 0 -> v1 crs != 0 ->
  ark_quad_commit_and_prove sch f X Y d s = Ok (p, s') -> ark_quad_commit_and_prove sch' f X Y d z = Ok (p', z') ->
  (ark_public p' = ark_public p <-> ark_same_from s z 0 (size X + size Y + 1)).
Proof.
move=> k1 k2 hq hK vs vs' h1 h2 hf hg.
move: (rquad_commit_and_prove I (@scalars_of_alike _ _ 0 0 R) sch X Y hq hK (erefl s)).
rewrite hf; case ef: (quad_commit_and_prove _ _ _ _ _ _) => [[c c']|//] [/= hc _].
move: (rquad_commit_and_prove I (@scalars_of_alike _ _ 0 0 R') sch' X Y hq hK (erefl z)).
rewrite hg; case eg: (quad_commit_and_prove _ _ _ _ _ _) => [[w w']|//] [/= hw _].
have hm (Q : Prop) : (public w = public c <-> Q) -> (ark_public p' = ark_public p <-> Q).
  move=> <-; split; [exact: rpublic_fun I _ _ _ _ hw hc | exact: rpublic_eq k1 k2 hw hc].
apply: hm; apply: (iff_trans (k_C98_quad_run vs vs' h1 h2 ef eg)).
exact: ark_sameE.
Qed.
End ArkRun.
