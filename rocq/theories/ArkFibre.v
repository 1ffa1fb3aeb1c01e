(** C98: two runs of the commitment functions and of [prove] over affine and projective points. *)
From mathcomp Require Import all_ssreflect all_algebra.
From Verif Require Import Base BaseLemmas Group DataStructures Generator Commit Statement Prove Verify Derived Spec SpecMat SpecVerify SpecHide FibreProps FibreCom.
From Verif Require Import Ark SpecArk ArkRel ArkLemmas ArkTransfer ArkBij SpecArkRun  ArkRun.
Set Implicit Arguments.
Unset Strict Implicit.
Unset Printing Implicit Defensive.
Import GRing.Theory.
Local Open Scope ring_scope.

Section ArkFibre.
Context {E : pairing} {A : ark (Fr E)} {r1 : repr (G1 E) (C1 A)} {r2 : repr (G2 E) (C2 A)} {rt : GT E -> out A -> Prop}.
Hypothesis I : implements r1 r2 rt.

Lemma k_C98_G1_binding_ark (X : seq (G1 E)) a (crs : CRS E) crs' a1 a2 t1 t2 (R R' : ark_rng A) (s s' : ark_rst R) (z z' : ark_rst R') c d :
  canonical r1 -> rseq (ra r1) X a -> rcrs r1 r2 rt crs crs' ->
  binding_crs_with crs a1 a2 t1 t2 -> proper_crs crs ->
  ark_batch_commit_G1 a crs' s = Ok (c, s') -> ark_batch_commit_G1 a crs' z = Ok (d, z') ->
  (ark_coms d = ark_coms c <-> forall i, (i < size X)%N ->
     ark_drawn z (2 * i) + t1 * ark_drawn z (2 * i).+1 = ark_drawn s (2 * i) + t1 * ark_drawn s (2 * i).+1).
Proof.
move=> k1 hx hK h0 h1 hf hg.
move: (rbatch_commit_G1 I (@scalars_of_alike _ _ 0 0 R) hx hK (erefl s)).
rewrite hf; case ef: (batch_commit_G1 _ _ _) => [[x x']|//] [/= [hx1 _] _].
move: (rbatch_commit_G1 I (@scalars_of_alike _ _ 0 0 R') hx hK (erefl z)).
rewrite hg; case eg: (batch_commit_G1 _ _ _) => [[w w']|//] [/= [hw1 _] _].
have hm (Q : Prop) : (coms w = coms x <-> Q) -> (ark_coms d = ark_coms c <-> Q).
  move=> <-; split=> e.
    by apply: (rcoms_fun (ok_C1 I) hw1); rewrite e.
  by apply: (rcoms_canon k1 hw1); rewrite e.
apply: hm; apply: (iff_trans (k_C98_G1_binding h0 h1 ef eg)).
by split=> h i hi; move: (h i hi); rewrite !ark_drawnE.
Qed.

Lemma k_C98_G1_hiding_ark (X : seq (G1 E)) a (crs : CRS E) crs' (R R' : ark_rng A) (s s' : ark_rst R) (z z' : ark_rst R') c d :
  canonical r1 -> rseq (ra r1) X a -> rcrs r1 r2 rt crs crs' ->
  hiding_crs crs -> proper_crs crs ->
  ark_batch_commit_G1 a crs' s = Ok (c, s') -> ark_batch_commit_G1 a crs' z = Ok (d, z') ->
  (ark_coms d = ark_coms c <-> forall i, (i < 2 * size X)%N -> ark_drawn z i = ark_drawn s i).
Proof.
move=> k1 hx hK h0 h1 hf hg.
move: (rbatch_commit_G1 I (@scalars_of_alike _ _ 0 0 R) hx hK (erefl s)).
rewrite hf; case ef: (batch_commit_G1 _ _ _) => [[x x']|//] [/= [hx1 _] _].
move: (rbatch_commit_G1 I (@scalars_of_alike _ _ 0 0 R') hx hK (erefl z)).
rewrite hg; case eg: (batch_commit_G1 _ _ _) => [[w w']|//] [/= [hw1 _] _].
have hm (Q : Prop) : (coms w = coms x <-> Q) -> (ark_coms d = ark_coms c <-> Q).
  move=> <-; split=> e.
    by apply: (rcoms_fun (ok_C1 I) hw1); rewrite e.
  by apply: (rcoms_canon k1 hw1); rewrite e.
apply: hm; apply: (iff_trans (k_C98_G1_hiding h0 h1 ef eg)).
by split=> h i hi; move: (h i hi); rewrite !ark_drawnE.
Qed.

Lemma k_C98_B1_ark (X : seq (Fr E)) (crs : CRS E) crs' (R R' : ark_rng A) (s s' : ark_rst R) (z z' : ark_rst R') c d :
  canonical r1 -> rcrs r1 r2 rt crs crs' ->
  nth 0 (crs_u crs) 0 != 0 ->
  ark_batch_commit_scalar_to_B1 X crs' s = Ok (c, s') -> ark_batch_commit_scalar_to_B1 X crs' z = Ok (d, z') ->
  (ark_coms d = ark_coms c <-> forall i, (i < size X)%N -> ark_drawn z i = ark_drawn s i).
Proof.
move=> k1 hK h0 hf hg.
move: (rbatch_commit_scalar_to_B1 I (@scalars_of_alike _ _ 0 0 R) X hK (erefl s)).
rewrite hf; case ef: (batch_commit_scalar_to_B1 _ _ _) => [[x x']|//] [/= [hx1 _] _].
move: (rbatch_commit_scalar_to_B1 I (@scalars_of_alike _ _ 0 0 R') X hK (erefl z)).
rewrite hg; case eg: (batch_commit_scalar_to_B1 _ _ _) => [[w w']|//] [/= [hw1 _] _].
have hm (Q : Prop) : (coms w = coms x <-> Q) -> (ark_coms d = ark_coms c <-> Q).
  move=> <-; split=> e.
    by apply: (rcoms_fun (ok_C1 I) hw1); rewrite e.
  by apply: (rcoms_canon k1 hw1); rewrite e.
apply: hm; apply: (iff_trans (k_C98_B1 h0 ef eg)).
by split=> h i hi; move: (h i hi); rewrite !ark_drawnE.
Qed.

Lemma k_C98_G2_binding_ark (X : seq (G2 E)) a (crs : CRS E) crs' a1 a2 t1 t2 (R R' : ark_rng A) (s s' : ark_rst R) (z z' : ark_rst R') c d :
  canonical r2 -> rseq (ra r2) X a -> rcrs r1 r2 rt crs crs' ->
  binding_crs_with crs a1 a2 t1 t2 -> proper_crs crs ->
  ark_batch_commit_G2 a crs' s = Ok (c, s') -> ark_batch_commit_G2 a crs' z = Ok (d, z') ->
  (ark_coms d = ark_coms c <-> forall i, (i < size X)%N ->
     ark_drawn z (2 * i) + t2 * ark_drawn z (2 * i).+1 = ark_drawn s (2 * i) + t2 * ark_drawn s (2 * i).+1).
Proof.
move=> k1 hx hK h0 h1 hf hg.
move: (rbatch_commit_G2 I (@scalars_of_alike _ _ 0 0 R) hx hK (erefl s)).
rewrite hf; case ef: (batch_commit_G2 _ _ _) => [[x x']|//] [/= [hx1 _] _].
move: (rbatch_commit_G2 I (@scalars_of_alike _ _ 0 0 R') hx hK (erefl z)).
rewrite hg; case eg: (batch_commit_G2 _ _ _) => [[w w']|//] [/= [hw1 _] _].
have hm (Q : Prop) : (coms w = coms x <-> Q) -> (ark_coms d = ark_coms c <-> Q).
  move=> <-; split=> e.
    by apply: (rcoms_fun (ok_C2 I) hw1); rewrite e.
  by apply: (rcoms_canon k1 hw1); rewrite e.
apply: hm; apply: (iff_trans (k_C98_G2_binding h0 h1 ef eg)).
by split=> h i hi; move: (h i hi); rewrite !ark_drawnE.
Qed.

Lemma k_C98_G2_hiding_ark (X : seq (G2 E)) a (crs : CRS E) crs' (R R' : ark_rng A) (s s' : ark_rst R) (z z' : ark_rst R') c d :
  canonical r2 -> rseq (ra r2) X a -> rcrs r1 r2 rt crs crs' ->
  hiding_crs crs -> proper_crs crs ->
  ark_batch_commit_G2 a crs' s = Ok (c, s') -> ark_batch_commit_G2 a crs' z = Ok (d, z') ->
  (ark_coms d = ark_coms c <-> forall i, (i < 2 * size X)%N -> ark_drawn z i = ark_drawn s i).
Proof.
move=> k1 hx hK h0 h1 hf hg.
move: (rbatch_commit_G2 I (@scalars_of_alike _ _ 0 0 R) hx hK (erefl s)).
rewrite hf; case ef: (batch_commit_G2 _ _ _) => [[x x']|//] [/= [hx1 _] _].
move: (rbatch_commit_G2 I (@scalars_of_alike _ _ 0 0 R') hx hK (erefl z)).
rewrite hg; case eg: (batch_commit_G2 _ _ _) => [[w w']|//] [/= [hw1 _] _].
have hm (Q : Prop) : (coms w = coms x <-> Q) -> (ark_coms d = ark_coms c <-> Q).
  move=> <-; split=> e.
    by apply: (rcoms_fun (ok_C2 I) hw1); rewrite e.
  by apply: (rcoms_canon k1 hw1); rewrite e.
apply: hm; apply: (iff_trans (k_C98_G2_hiding h0 h1 ef eg)).
by split=> h i hi; move: (h i hi); rewrite !ark_drawnE.
Qed.

Lemma k_C98_B2_ark (X : seq (Fr E)) (crs : CRS E) crs' (R R' : ark_rng A) (s s' : ark_rst R) (z z' : ark_rst R') c d :
  canonical r2 -> rcrs r1 r2 rt crs crs' ->
  nth 0 (crs_v crs) 0 != 0 ->
  ark_batch_commit_scalar_to_B2 X crs' s = Ok (c, s') -> ark_batch_commit_scalar_to_B2 X crs' z = Ok (d, z') ->
  (ark_coms d = ark_coms c <-> forall i, (i < size X)%N -> ark_drawn z i = ark_drawn s i).
Proof.
move=> k1 hK h0 hf hg.
move: (rbatch_commit_scalar_to_B2 I (@scalars_of_alike _ _ 0 0 R) X hK (erefl s)).
rewrite hf; case ef: (batch_commit_scalar_to_B2 _ _ _) => [[x x']|//] [/= [hx1 _] _].
move: (rbatch_commit_scalar_to_B2 I (@scalars_of_alike _ _ 0 0 R') X hK (erefl z)).
rewrite hg; case eg: (batch_commit_scalar_to_B2 _ _ _) => [[w w']|//] [/= [hw1 _] _].
have hm (Q : Prop) : (coms w = coms x <-> Q) -> (ark_coms d = ark_coms c <-> Q).
  move=> <-; split=> e.
    by apply: (rcoms_fun (ok_C2 I) hw1); rewrite e.
  by apply: (rcoms_canon k1 hw1); rewrite e.
apply: hm; apply: (iff_trans (k_C98_B2 h0 ef eg)).
by split=> h i hi; move: (h i hi); rewrite !ark_drawnE.
Qed.

Lemma k_C98_ppe_ark (sch sch' : sched) (q : PPE E) q' (X : seq (G1 E)) (Y : seq (G2 E)) (cx : Commit1 E) (cy : Commit2 E) cx' cy' a b (crs : CRS E) crs' a1 a2 t1 t2 (R R' : ark_rng A) (s s' : ark_rst R) (z z' : ark_rst R') f g :
  canonical r1 -> canonical r2 -> rppe r1 r2 rt q q' -> rseq (ra r1) X a -> rseq (ra r2) Y b -> rcommit r1 cx cx' -> rcommit r2 cy cy' -> rcrs r1 r2 rt crs crs' ->
  valid_sched sch -> valid_sched sch' -> binding_crs_with crs a1 a2 t1 t2 -> proper_crs crs ->
  ark_ppe_prove sch q' a b cx' cy' crs' s = Ok (f, s') -> ark_ppe_prove sch' q' a b cx' cy' crs' z = Ok (g, z') ->
  ((ark_pi g, ark_theta g) = (ark_pi f, ark_theta f) <-> exists k, [/\ ark_drawn z 0 = ark_drawn s 0 + t1 * t2 * k, ark_drawn z 1 = ark_drawn s 1 - t2 * k, ark_drawn z 2 = ark_drawn s 2 - t1 * k & ark_drawn z 3 = ark_drawn s 3 + k]).
Proof.
move=> k1 k2 hq hx hy hcx hcy hK vs vs' h0 h1 hf hg.
move: (rppe_prove I (@scalars_of_alike _ _ 0 0 R) sch hq hx hy hcx hcy hK (erefl s)).
rewrite hf; case ef: (ppe_prove _ _ _ _ _ _ _ _) => [[x x']|//] [/= [g1 g2 _ _] _].
move: (rppe_prove I (@scalars_of_alike _ _ 0 0 R') sch' hq hx hy hcx hcy hK (erefl z)).
rewrite hg; case eg: (ppe_prove _ _ _ _ _ _ _ _) => [[w w']|//] [/= [j1 j2 _ _] _].
have hm (Q : Prop) : ((pi w, theta w) = (pi x, theta x) <-> Q) -> ((ark_pi g, ark_theta g) = (ark_pi f, ark_theta f) <-> Q).
  move=> <-; split=> -[e1 e2].
    by congr (_, _); [apply: (rcoms_fun (ok_C2 I) j1); rewrite e1 | apply: (rcoms_fun (ok_C1 I) j2); rewrite e2].
  by congr (_, _); [apply: (rcoms_canon k2 j1); rewrite e1 | apply: (rcoms_canon k1 j2); rewrite e2].
apply: hm; apply: (iff_trans (k_C98_ppe vs vs' h0 h1 ef eg)).
by split=> -[k [e1 e2 e3 e4]]; exists k; split; move: e1 e2 e3 e4; rewrite !ark_drawnE.
Qed.

Lemma k_C98_ms1_ark (sch sch' : sched) (q : MSMEG1 E) q' (X : seq (G1 E)) (Y : seq (Fr E)) (cx : Commit1 E) (cy : Commit2 E) cx' cy' a (crs : CRS E) crs' (R R' : ark_rng A) (s s' : ark_rst R) (z z' : ark_rst R') f g :
  canonical r1 -> canonical r2 -> rms1 r1 q q' -> rseq (ra r1) X a -> rcommit r1 cx cx' -> rcommit r2 cy cy' -> rcrs r1 r2 rt crs crs' ->
  valid_sched sch -> valid_sched sch' -> nth 0 (crs_v crs) 0 != 0 ->
  ark_ms1_prove sch q' a Y cx' cy' crs' s = Ok (f, s') -> ark_ms1_prove sch' q' a Y cx' cy' crs' z = Ok (g, z') ->
  ((ark_pi g, ark_theta g) = (ark_pi f, ark_theta f) <-> ark_drawn z 0 = ark_drawn s 0 /\ ark_drawn z 1 = ark_drawn s 1).
Proof.
move=> k1 k2 hq hx hcx hcy hK vs vs' h0 hf hg.
move: (rms1_prove I (@scalars_of_alike _ _ 0 0 R) sch Y hq hx hcx hcy hK (erefl s)).
rewrite hf; case ef: (ms1_prove _ _ _ _ _ _ _ _) => [[x x']|//] [/= [g1 g2 _ _] _].
move: (rms1_prove I (@scalars_of_alike _ _ 0 0 R') sch' Y hq hx hcx hcy hK (erefl z)).
rewrite hg; case eg: (ms1_prove _ _ _ _ _ _ _ _) => [[w w']|//] [/= [j1 j2 _ _] _].
have hm (Q : Prop) : ((pi w, theta w) = (pi x, theta x) <-> Q) -> ((ark_pi g, ark_theta g) = (ark_pi f, ark_theta f) <-> Q).
  move=> <-; split=> -[e1 e2].
    by congr (_, _); [apply: (rcoms_fun (ok_C2 I) j1); rewrite e1 | apply: (rcoms_fun (ok_C1 I) j2); rewrite e2].
  by congr (_, _); [apply: (rcoms_canon k2 j1); rewrite e1 | apply: (rcoms_canon k1 j2); rewrite e2].
apply: hm; apply: (iff_trans (k_C98_ms1 vs vs' h0 ef eg)).
by rewrite !ark_drawnE.
Qed.

Lemma k_C98_ms2_ark (sch sch' : sched) (q : MSMEG2 E) q' (X : seq (Fr E)) (Y : seq (G2 E)) (cx : Commit1 E) (cy : Commit2 E) cx' cy' b (crs : CRS E) crs' (R R' : ark_rng A) (s s' : ark_rst R) (z z' : ark_rst R') f g :
  canonical r1 -> canonical r2 -> rms2 r2 q q' -> rseq (ra r2) Y b -> rcommit r1 cx cx' -> rcommit r2 cy cy' -> rcrs r1 r2 rt crs crs' ->
  valid_sched sch -> valid_sched sch' -> nth 0 (crs_u crs) 0 != 0 ->
  ark_ms2_prove sch q' X b cx' cy' crs' s = Ok (f, s') -> ark_ms2_prove sch' q' X b cx' cy' crs' z = Ok (g, z') ->
  ((ark_pi g, ark_theta g) = (ark_pi f, ark_theta f) <-> ark_drawn z 0 = ark_drawn s 0 /\ ark_drawn z 1 = ark_drawn s 1).
Proof.
move=> k1 k2 hq hy hcx hcy hK vs vs' h0 hf hg.
move: (rms2_prove I (@scalars_of_alike _ _ 0 0 R) sch X hq hy hcx hcy hK (erefl s)).
rewrite hf; case ef: (ms2_prove _ _ _ _ _ _ _ _) => [[x x']|//] [/= [g1 g2 _ _] _].
move: (rms2_prove I (@scalars_of_alike _ _ 0 0 R') sch' X hq hy hcx hcy hK (erefl z)).
rewrite hg; case eg: (ms2_prove _ _ _ _ _ _ _ _) => [[w w']|//] [/= [j1 j2 _ _] _].
have hm (Q : Prop) : ((pi w, theta w) = (pi x, theta x) <-> Q) -> ((ark_pi g, ark_theta g) = (ark_pi f, ark_theta f) <-> Q).
  move=> <-; split=> -[e1 e2].
    by congr (_, _); [apply: (rcoms_fun (ok_C2 I) j1); rewrite e1 | apply: (rcoms_fun (ok_C1 I) j2); rewrite e2].
  by congr (_, _); [apply: (rcoms_canon k2 j1); rewrite e1 | apply: (rcoms_canon k1 j2); rewrite e2].
apply: hm; apply: (iff_trans (k_C98_ms2 vs vs' h0 ef eg)).
by rewrite !ark_drawnE.
Qed.

Lemma k_C98_quad_ark (sch sch' : sched) (q : QuadEqu E) q' (X : seq (Fr E)) (Y : seq (Fr E)) (cx : Commit1 E) (cy : Commit2 E) cx' cy' (crs : CRS E) crs' (R R' : ark_rng A) (s s' : ark_rst R) (z z' : ark_rst R') f g :
  canonical r1 -> canonical r2 -> rquad q q' -> rcommit r1 cx cx' -> rcommit r2 cy cy' -> rcrs r1 r2 rt crs crs' ->
  valid_sched sch -> valid_sched sch' -> nth 0 (crs_u crs) 0 != 0 \/ nth 0 (crs_v crs) 0 != 0 ->
  ark_quad_prove sch q' X Y cx' cy' crs' s = Ok (f, s') -> ark_quad_prove sch' q' X Y cx' cy' crs' z = Ok (g, z') ->
  ((ark_pi g, ark_theta g) = (ark_pi f, ark_theta f) <-> ark_drawn z 0 = ark_drawn s 0).
Proof.
move=> k1 k2 hq hcx hcy hK vs vs' h0 hf hg.
move: (rquad_prove I (@scalars_of_alike _ _ 0 0 R) sch X Y hq hcx hcy hK (erefl s)).
rewrite hf; case ef: (quad_prove _ _ _ _ _ _ _ _) => [[x x']|//] [/= [g1 g2 _ _] _].
move: (rquad_prove I (@scalars_of_alike _ _ 0 0 R') sch' X Y hq hcx hcy hK (erefl z)).
rewrite hg; case eg: (quad_prove _ _ _ _ _ _ _ _) => [[w w']|//] [/= [j1 j2 _ _] _].
have hm (Q : Prop) : ((pi w, theta w) = (pi x, theta x) <-> Q) -> ((ark_pi g, ark_theta g) = (ark_pi f, ark_theta f) <-> Q).
  move=> <-; split=> -[e1 e2].
    by congr (_, _); [apply: (rcoms_fun (ok_C2 I) j1); rewrite e1 | apply: (rcoms_fun (ok_C1 I) j2); rewrite e2].
  by congr (_, _); [apply: (rcoms_canon k2 j1); rewrite e1 | apply: (rcoms_canon k1 j2); rewrite e2].
apply: hm; apply: (iff_trans (k_C98_quad vs vs' h0 ef eg)).
by rewrite !ark_drawnE.
Qed.
End ArkFibre.
