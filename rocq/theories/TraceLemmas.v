(** Every function of [Ark.v] preserves a link that the operations of both
    runs preserve. *)
From mathcomp Require Import all_ssreflect all_algebra.
From Verif Require Import Base Group DataStructures Commit Statement Derived Verify.
From Verif Require Import Ark SpecArk ArkRel SpecTrace.
Set Implicit Arguments.
Unset Strict Implicit.
Unset Printing Implicit Defensive.
Import GRing.Theory.
Local Open Scope ring_scope.

(** Matrix code where the second factors differ as well. *)
Section Mat2.
Context {S T F F' : Type} (R : S -> T -> Prop) (Q : F -> F' -> Prop).
Variables (sz : S) (sa : S -> S -> S) (ss : S -> F -> S).
Variables (tz : T) (ta : T -> T -> T) (ts : T -> F' -> T).
Hypothesis hz : R sz tz.
Hypothesis ha : forall a b c d, R a b -> R c d -> R (sa a c) (ta b d).
Hypothesis hs : forall a b k l, R a b -> Q k l -> R (ss a k) (ts b l).

Lemma smat_scalar_mul M N k l : rmat R M N -> Q k l -> rres (rmat R) (mat_scalar_mul ss M k) (mat_scalar_mul ts N l).
Proof.
move=> h q; rewrite /mat_scalar_mul (rsize h); apply: rbind (ridx 0 h) _ => x y hxy.
rewrite (rsize hxy); apply: rmapMi => i; apply: rmapMi => j; apply: rbind (ridx i h) _ => u v huv.
by apply: rbind (ridx j huv) _ => p p' hp /=; apply: hs.
Qed.

Lemma smat_right_mul ord M N B B' par : rmat R M N -> rmat Q B B' ->
  rres (rmat R) (mat_right_mul sz sa ss ord M B par) (mat_right_mul tz ta ts ord N B' par).
Proof.
move=> h q; rewrite /mat_right_mul (rno_cells h) (rno_cells q) (rsize h) (rsize q).
case: ifP => // _; case: ifP => // _; apply: rbind (ridx 0 h) _ => a b hab; rewrite (rsize hab).
apply: rbind (rres_eq _) _ => _ _ _; apply: rbind (ridx 0 q) _ => r0 r0' hr; rewrite (rsize hr).
have hc i j : rres R
   (let! row := idx M i in let dim := size B' in sumM sz sa (fun k => let! x := idx row k in let! rk := idx B k in let! c := idx rk j in Ok (ss x c)) (iota 0 dim))
   (let! row := idx N i in let dim := size B' in sumM tz ta (fun k => let! x := idx row k in let! rk := idx B' k in let! c := idx rk j in Ok (ts x c)) (iota 0 dim)).
  apply: rbind (ridx i h) _ => x y hxy; apply: rsumM => // k.
  apply: rbind (ridx k hxy) _ => u v huv; apply: rbind (ridx k q) _ => rk rk' hk.
  by apply: rbind (ridx j hk) _ => c c' hcc /=; apply: hs.
case: par; first exact: rpar_collect.
by apply: rmapMi => i; apply: rmapMi => j.
Qed.

Lemma smat_left_mul ord M N B B' par : rmat R M N -> rmat Q B B' ->
  rres (rmat R) (mat_left_mul sz sa ss ord M B par) (mat_left_mul tz ta ts ord N B' par).
Proof.
move=> h q; rewrite /mat_left_mul (rno_cells h) (rno_cells q) (rsize h) (rsize q).
case: ifP => // _; case: ifP => // _; apply: rbind (ridx 0 q) _ => l0 l0' hl; rewrite (rsize hl).
apply: rbind (rres_eq _) _ => _ _ _; apply: rbind (ridx 0 h) _ => a b hab; rewrite (rsize hab).
have hc i j : rres R
   (let! row := idx B i in let dim := size N in sumM sz sa (fun k => let! sk := idx M k in let! x := idx sk j in let! c := idx row k in Ok (ss x c)) (iota 0 dim))
   (let! row := idx B' i in let dim := size N in sumM tz ta (fun k => let! sk := idx N k in let! x := idx sk j in let! c := idx row k in Ok (ts x c)) (iota 0 dim)).
  apply: rbind (ridx i q) _ => row row' hrow; apply: rsumM => // k.
  apply: rbind (ridx k h) _ => u v huv; apply: rbind (ridx j huv) _ => x y hxy.
  by apply: rbind (ridx k hrow) _ => c c' hcc /=; apply: hs.
case: par; first exact: rpar_collect.
by apply: rmapMi => i; apply: rmapMi => j.
Qed.
End Mat2.

(** The scalar operations of two fields preserve a relation. *)
Record scal_ok (F F' : fieldType) (Q : F -> F' -> Prop) : Prop := ScalOk {
  sk_zero : Q 0 0; sk_one : Q 1 1;
  sk_add : forall a b c d, Q a b -> Q c d -> Q (a + c) (b + d);
  sk_opp : forall a b, Q a b -> Q (- a) (- b);
  sk_mul : forall a b c d, Q a b -> Q c d -> Q (a * c) (b * d)
}.

Section Scal.
Context {F F' : fieldType} (Q : F -> F' -> Prop) (K : scal_ok Q).
Lemma sfmat_add M N M' N' : rmat Q M N -> rmat Q M' N' -> rres (rmat Q) (fmat_add M M') (fmat_add N N').
Proof. move=> h h'; exact: (rmat_add (sk_add K) h h'). Qed.
Lemma sfmat_neg M N : rmat Q M N -> rres (rmat Q) (fmat_neg M) (fmat_neg N).
Proof. move=> h; exact: (rmat_neg (sk_opp K) h). Qed.
Lemma sfmat_transpose M N : rmat Q M N -> rres (rmat Q) (fmat_transpose M) (fmat_transpose N).
Proof. move=> h; exact: (rmat_transpose h). Qed.
Lemma sfmat_right_mul ord M N B B' par : rmat Q M N -> rmat Q B B' ->
  rres (rmat Q) (fmat_right_mul ord M B par) (fmat_right_mul ord N B' par).
Proof. move=> h h'; exact: (smat_right_mul (sk_zero K) (sk_add K) (sk_mul K) ord par h h'). Qed.
End Scal.

(** The operations of two curves preserve relations on affine and projective points. *)
Record pts_ok (F F' : fieldType) (C : curve F) (C' : curve F') (Q : F -> F' -> Prop)
  (qa : aff C -> aff C' -> Prop) (qp : prj C -> prj C' -> Prop) : Prop := PtsOk {
  pk_aff_zero : qa (aff_zero C) (aff_zero C');
  pk_aff_add : forall a b c d, qa a b -> qa c d -> qp (aff_add a c) (aff_add b d);
  pk_into_group : forall a b, qa a b -> qp (into_group a) (into_group b);
  pk_prj_zero : qp (prj_zero C) (prj_zero C');
  pk_prj_neg : forall a b, qp a b -> qp (prj_neg a) (prj_neg b);
  pk_prj_sub : forall a b c d, qp a b -> qp c d -> qp (prj_sub a c) (prj_sub b d);
  pk_prj_mul : forall a b k l, qp a b -> Q k l -> qp (prj_mul a k) (prj_mul b l);
  pk_into_affine : forall a b, qp a b -> qa (into_affine a) (into_affine b)
}.

Section Curve.
Context {F F' : fieldType} {C : curve F} {C' : curve F'} {Q : F -> F' -> Prop}.
Context {qa : aff C -> aff C' -> Prop} {qp : prj C -> prj C' -> Prop}.
Hypothesis K : pts_ok Q qa qp.
Definition qcom (c : ark_com C) (d : ark_com C') : Prop := qa c.1 d.1 /\ qa c.2 d.2.

Lemma scom_add x a y b : qcom x a -> qcom y b -> qcom (ark_com_add x y) (ark_com_add a b).
Proof. by case=> h1 h2 [h3 h4]; split=> /=; apply: (pk_into_affine K); apply: (pk_aff_add K). Qed.
Lemma scom_neg x a : qcom x a -> qcom (ark_com_neg x) (ark_com_neg a).
Proof.
by case=> h1 h2; split=> /=; apply: (pk_into_affine K); apply: (pk_prj_neg K); apply: (pk_into_group K).
Qed.
Lemma scom_zero : qcom ark_com_zero ark_com_zero.
Proof. by split; apply: (pk_aff_zero K). Qed.
Lemma scom_scalar_mul x a k l : qcom x a -> Q k l -> qcom (ark_com_scalar_mul x k) (ark_com_scalar_mul a l).
Proof.
case=> h1 h2 q; split=> /=; apply: (pk_into_affine K); (apply: (pk_prj_mul K); last exact: q);
  exact: (pk_into_group K).
Qed.
Lemma scmat_add M N M' N' : rmat qcom M N -> rmat qcom M' N' ->
  rres (rmat qcom) (ark_cmat_add M M') (ark_cmat_add N N').
Proof. move=> h h'; exact: (rmat_add scom_add h h'). Qed.
Lemma scmat_neg M N : rmat qcom M N -> rres (rmat qcom) (ark_cmat_neg M) (ark_cmat_neg N).
Proof. move=> h; exact: (rmat_neg scom_neg h). Qed.
Lemma scmat_scalar_mul M N k l : rmat qcom M N -> Q k l ->
  rres (rmat qcom) (ark_cmat_scalar_mul M k) (ark_cmat_scalar_mul N l).
Proof. move=> h q; exact: (smat_scalar_mul scom_scalar_mul h q). Qed.
Lemma scmat_transpose M N : rmat qcom M N -> rres (rmat qcom) (ark_cmat_transpose M) (ark_cmat_transpose N).
Proof. exact: rmat_transpose. Qed.
Lemma scmat_right_mul ord M N B B' par : rmat qcom M N -> rmat Q B B' ->
  rres (rmat qcom) (ark_cmat_right_mul ord M B par) (ark_cmat_right_mul ord N B' par).
Proof. move=> h h'; exact: (smat_right_mul scom_zero scom_add scom_scalar_mul ord par h h'). Qed.
Lemma scmat_left_mul ord M N B B' par : rmat qcom M N -> rmat Q B B' ->
  rres (rmat qcom) (ark_cmat_left_mul ord M B par) (ark_cmat_left_mul ord N B' par).
Proof. move=> h h'; exact: (smat_left_mul scom_zero scom_add scom_scalar_mul ord par h h'). Qed.
End Curve.

(** The same for a link between two pairings. *)
Record link_ok (F F' : fieldType) (A : ark F) (A' : ark F') (L : link A A')
  (lp1 : prj (C1 A) -> prj (C1 A') -> Prop) (lp2 : prj (C2 A) -> prj (C2 A') -> Prop) : Prop := LinkOk {
  lk_scal : scal_ok (lf L);
  lk_C1 : pts_ok (lf L) (la1 L) lp1;
  lk_C2 : pts_ok (lf L) (la2 L) lp2;
  lk_out_zero : lo L (out_zero A) (out_zero A');
  lk_out_add : forall a b c d, lo L a b -> lo L c d -> lo L (out_add a c) (out_add b d);
  lk_pairing : forall a b c d, la1 L a b -> la2 L c d -> lo L (a_pairing a c) (a_pairing b d);
  lk_multi_pairing : forall s t s' t', rseq (la1 L) s t -> rseq (la2 L) s' t' ->
    lo L (a_multi_pairing s s') (a_multi_pairing t t')
}.

Section Pairing.
Context {F F' : fieldType} {A : ark F} {A' : ark F'} {L : link A A'}.
Context {lp1 : prj (C1 A) -> prj (C1 A') -> Prop} {lp2 : prj (C2 A) -> prj (C2 A') -> Prop}.
Hypothesis I : link_ok L lp1 lp2.
Let KF := lk_scal I.
Let K1 := lk_C1 I.
Let K2 := lk_C2 I.
Local Notation Q := (lf L).
Local Notation q1 := (la1 L).
Local Notation q2 := (la2 L).
Local Notation qt := (lo L).
Local Notation qc1 := (lcom1 L).
Local Notation qc2 := (lcom2 L).
Local Notation qT := (lcomT L).
Local Notation qK := (lcrs L).

Lemma s1com_add x y a b : qc1 x a -> qc1 y b -> qc1 (ark_com_add x y) (ark_com_add a b).
Proof. exact: (scom_add K1). Qed.
Lemma s2com_add x y a b : qc2 x a -> qc2 y b -> qc2 (ark_com_add x y) (ark_com_add a b).
Proof. exact: (scom_add K2). Qed.
Lemma s1com_scalar_mul x a k l : qc1 x a -> Q k l -> qc1 (ark_com_scalar_mul x k) (ark_com_scalar_mul a l).
Proof. exact: (scom_scalar_mul K1). Qed.
Lemma s2com_scalar_mul x a k l : qc2 x a -> Q k l -> qc2 (ark_com_scalar_mul x k) (ark_com_scalar_mul a l).
Proof. exact: (scom_scalar_mul K2). Qed.
Lemma s1cmat_add M N M' N' : rmat qc1 M N -> rmat qc1 M' N' -> rres (rmat qc1) (ark_cmat_add M M') (ark_cmat_add N N').
Proof. exact: (scmat_add K1). Qed.
Lemma s2cmat_add M N M' N' : rmat qc2 M N -> rmat qc2 M' N' -> rres (rmat qc2) (ark_cmat_add M M') (ark_cmat_add N N').
Proof. exact: (scmat_add K2). Qed.
Lemma s1cmat_left_mul ord M N B B' par : rmat qc1 M N -> rmat Q B B' ->
  rres (rmat qc1) (ark_cmat_left_mul ord M B par) (ark_cmat_left_mul ord N B' par).
Proof. exact: (scmat_left_mul K1). Qed.
Lemma s2cmat_left_mul ord M N B B' par : rmat qc2 M N -> rmat Q B B' ->
  rres (rmat qc2) (ark_cmat_left_mul ord M B par) (ark_cmat_left_mul ord N B' par).
Proof. exact: (scmat_left_mul K2). Qed.

Lemma scomT_mk a b c d a' b' c' d' : qt a a' -> qt b b' -> qt c c' -> qt d d' ->
  qT (ark_mkComT a b c d) (ark_mkComT a' b' c' d').
Proof. by move=> h1 h2 h3 h4; split. Qed.
Lemma scomT_add x y a b : qT x a -> qT y b -> qT (ark_comT_add x y) (ark_comT_add a b).
Proof. by case=> h1 h2 h3 h4 [k1 k2 k3 k4]; apply: scomT_mk; apply: (lk_out_add I). Qed.
Lemma scomT_zero : qT ark_comT_zero ark_comT_zero.
Proof. by apply: scomT_mk; apply: (lk_out_zero I). Qed.
Lemma scomT_pairing x y a b : qc1 x a -> qc2 y b -> qT (ark_comT_pairing x y) (ark_comT_pairing a b).
Proof. by case=> h1 h2 [h3 h4]; apply: scomT_mk; apply: (lk_pairing I). Qed.
Lemma scomT_pairing_sum xs ys s t : rseq qc1 xs s -> rseq qc2 ys t ->
  rres qT (ark_comT_pairing_sum xs ys) (ark_comT_pairing_sum s t).
Proof.
move=> h h'; rewrite /ark_comT_pairing_sum (rsize h) (rsize h').
have f1 : rseq q1 [seq x.1 | x <- xs] [seq x.1 | x <- s] by apply: rmap h => x y [].
have f2 : rseq q1 [seq x.2 | x <- xs] [seq x.2 | x <- s] by apply: rmap h => x y [].
have f3 : rseq q2 [seq x.1 | x <- ys] [seq x.1 | x <- t] by apply: rmap h' => x y [].
have f4 : rseq q2 [seq x.2 | x <- ys] [seq x.2 | x <- t] by apply: rmap h' => x y [].
by apply: rbind (rres_eq _) _ => _ _ _; apply: scomT_mk; apply: (lk_multi_pairing I).
Qed.

Lemma scom1_linear_map x a : q1 x a -> qc1 (ark_com1_linear_map x) (ark_com1_linear_map a).
Proof. by move=> h; split=> //; apply: (pk_aff_zero K1). Qed.
Lemma scom2_linear_map x a : q2 x a -> qc2 (ark_com2_linear_map x) (ark_com2_linear_map a).
Proof. by move=> h; split=> //; apply: (pk_aff_zero K2). Qed.
Lemma scom1_batch_linear_map s t : rseq q1 s t ->
  rseq qc1 (ark_com1_batch_linear_map s) (ark_com1_batch_linear_map t).
Proof. by move=> h; apply: rmap h => x y; apply: scom1_linear_map. Qed.
Lemma scom2_batch_linear_map s t : rseq q2 s t ->
  rseq qc2 (ark_com2_batch_linear_map s) (ark_com2_batch_linear_map t).
Proof. by move=> h; apply: rmap h => x y; apply: scom2_linear_map. Qed.
Lemma scom1_scalar_linear_map k l c d : Q k l -> qK c d ->
  rres qc1 (ark_com1_scalar_linear_map k c) (ark_com1_scalar_linear_map l d).
Proof.
move=> q [hu _ hg _ _]; apply: rbind (ridx 1 hu) _ => u v huv; apply: s1com_scalar_mul => //.
by apply: s1com_add => //; apply: scom1_linear_map.
Qed.
Lemma scom2_scalar_linear_map k l c d : Q k l -> qK c d ->
  rres qc2 (ark_com2_scalar_linear_map k c) (ark_com2_scalar_linear_map l d).
Proof.
move=> q [_ hv _ hg _]; apply: rbind (ridx 1 hv) _ => u v huv; apply: s2com_scalar_mul => //.
by apply: s2com_add => //; apply: scom2_linear_map.
Qed.
Lemma scom1_batch_scalar_linear_map ks ls c d : rseq Q ks ls -> qK c d ->
  rres (rseq qc1) (ark_com1_batch_scalar_linear_map ks c) (ark_com1_batch_scalar_linear_map ls d).
Proof. by move=> q h; apply: rmapM q => k l kl; apply: scom1_scalar_linear_map. Qed.
Lemma scom2_batch_scalar_linear_map ks ls c d : rseq Q ks ls -> qK c d ->
  rres (rseq qc2) (ark_com2_batch_scalar_linear_map ks c) (ark_com2_batch_scalar_linear_map ls d).
Proof. by move=> q h; apply: rmapM q => k l kl; apply: scom2_scalar_linear_map. Qed.
Lemma slinear_map_PPE z a : qt z a -> qT (ark_linear_map_PPE z) (ark_linear_map_PPE a).
Proof. by move=> h; apply: scomT_mk => //; apply: (lk_out_zero I). Qed.
Lemma slinear_map_MSMEG1 z a c d : q1 z a -> qK c d ->
  rres qT (ark_linear_map_MSMEG1 z c) (ark_linear_map_MSMEG1 a d).
Proof.
move=> h k; apply: rbind (scom2_scalar_linear_map (sk_one KF) k) _ => x y hxy.
by apply: scomT_pairing => //; apply: scom1_linear_map.
Qed.
Lemma slinear_map_MSMEG2 z a c d : q2 z a -> qK c d ->
  rres qT (ark_linear_map_MSMEG2 z c) (ark_linear_map_MSMEG2 a d).
Proof.
move=> h k; apply: rbind (scom1_scalar_linear_map (sk_one KF) k) _ => x y hxy.
by apply: scomT_pairing => //; apply: scom2_linear_map.
Qed.
Lemma slinear_map_quad z a c d : Q z a -> qK c d -> rres qT (ark_linear_map_quad z c) (ark_linear_map_quad a d).
Proof.
move=> h k; apply: rbind (scom1_scalar_linear_map (sk_one KF) k) _ => x y hxy.
apply: rbind (scom2_scalar_linear_map (sk_one KF) k) _ => x' y' hxy'.
by apply: scomT_pairing => //; apply: s2com_scalar_mul.
Qed.

(** ** Generator and commitments *)
Section Rng.
Context {R : ark_rng A} {R' : ark_rng A'} {qs : ark_rst R -> ark_rst R' -> Prop}.
Hypothesis D : forall s t, qs s t -> rpair Q qs (ark_rand_fr s) (ark_rand_fr t).
Hypothesis D1 : forall s t, qs s t -> rpair lp1 qs (ark_rand_g1 s) (ark_rand_g1 t).
Hypothesis D2 : forall s t, qs s t -> rpair lp2 qs (ark_rand_g2 s) (ark_rand_g2 t).

Lemma sgenerate_crs s t : qs s t -> rpair qK qs (ark_generate_crs s) (ark_generate_crs t).
Proof.
move=> h; rewrite /ark_generate_crs.
move: (D1 h); case: (ark_rand_g1 s) => p1 {h}s; case: (ark_rand_g1 t) => p1' {}t [/= h1 h].
move: (D2 h); case: (ark_rand_g2 s) => p2 {h}s; case: (ark_rand_g2 t) => p2' {}t [/= h2 h].
move: (D h); case: (ark_rand_fr s) => a1 {h}s; case: (ark_rand_fr t) => a1' {}t [/= ha1 h].
move: (D h); case: (ark_rand_fr s) => a2 {h}s; case: (ark_rand_fr t) => a2' {}t [/= ha2 h].
move: (D h); case: (ark_rand_fr s) => b1 {h}s; case: (ark_rand_fr t) => b1' {}t [/= hb1 h].
move: (D h); case: (ark_rand_fr s) => b2 {h}s; case: (ark_rand_fr t) => b2' {}t [/= hb2 h].
have hq1 := pk_prj_mul K1 h1 ha1; have hq2 := pk_prj_mul K2 h2 ha2.
have hu1 := pk_prj_mul K1 h1 hb1; have hu2 := pk_prj_mul K2 h2 hb2.
have hw1 := pk_prj_sub K1 (pk_prj_mul K1 hq1 hb1) (pk_prj_zero K1).
have hw2 := pk_prj_sub K2 (pk_prj_mul K2 hq2 hb2) (pk_prj_zero K2).
have i1 := pk_into_affine K1; have i2 := pk_into_affine K2.
split=> //; split=> /=.
- by split; [split | split=> //; split]; apply: i1.
- by split; [split | split=> //; split]; apply: i2.
- exact: i1.
- exact: i2.
- by apply: (lk_pairing I); [apply: i1 | apply: i2].
Qed.

Lemma skey_at T S (P : T -> S -> Prop) s t i : rseq P s t -> rres P (key_at s i) (key_at t i).
Proof. by move=> h; apply: rbind (ridx i (rvec_to_col_vec h)) _ => a b hab; apply: ridx. Qed.

Ltac szs := repeat match goal with
  | H : rseq _ ?a ?b |- context [size ?a] => rewrite (rsize H)
  | H : rmat _ ?a ?b |- context [size ?a] => rewrite (rsize H)
  end.
Ltac side := lazymatch goal with
  | |- rres _ (assert_eq _ _) (assert_eq _ _) => szs; exact: rres_eq
  | |- rres _ (assert_type _ _) (assert_type _ _) => exact: rres_eq
  | |- rres _ (idx _ _) _ => eapply ridx; side
  | |- rres _ (key_at _ _) _ => eapply skey_at; side
  | |- rres _ (col_vec_to_vec _) _ => eapply rcol_vec_to_vec; side
  | |- rres _ (fmat_transpose _) _ => eapply sfmat_transpose; side
  | |- rres _ (fmat_right_mul _ _ _ _) _ => eapply (sfmat_right_mul KF); side
  | |- rres _ (fmat_neg _) _ => eapply (sfmat_neg KF); side
  | |- rres _ (fmat_add _ _) _ => eapply (sfmat_add KF); side
  | |- rres _ (@ark_cmat_add _ (C1 A) _ _ ) _ => eapply s1cmat_add; side
  | |- rres _ (@ark_cmat_add _ (C2 A) _ _ ) _ => eapply s2cmat_add; side
  | |- rres _ (@ark_cmat_left_mul _ (C1 A) _ _ _ _ ) _ => eapply s1cmat_left_mul; side
  | |- rres _ (@ark_cmat_left_mul _ (C2 A) _ _ _ _ ) _ => eapply s2cmat_left_mul; side
  | |- rres _ (ark_com1_scalar_linear_map _ _ ) _ => eapply scom1_scalar_linear_map; side
  | |- rres _ (ark_com2_scalar_linear_map _ _ ) _ => eapply scom2_scalar_linear_map; side
  | |- rres _ (ark_com1_batch_scalar_linear_map _ _ ) _ => eapply scom1_batch_scalar_linear_map; side
  | |- rres _ (ark_com2_batch_scalar_linear_map _ _ ) _ => eapply scom2_batch_scalar_linear_map; side
  | |- rres _ (ark_comT_pairing_sum _ _ ) _ => eapply scomT_pairing_sum; side
  | |- rres _ (ark_linear_map_MSMEG1 _ _ ) _ => eapply slinear_map_MSMEG1; side
  | |- rres _ (ark_linear_map_MSMEG2 _ _ ) _ => eapply slinear_map_MSMEG2; side
  | |- rres _ (ark_linear_map_quad _ _ ) _ => eapply slinear_map_quad; side
  | |- lcom1 L (ark_com_add _ _ ) _ => eapply s1com_add; side
  | |- lcom1 L (ark_com_scalar_mul _ _ ) _ => eapply s1com_scalar_mul; side
  | |- lcom1 L (ark_com1_linear_map _) _ => eapply scom1_linear_map; side
  | |- lcom2 L (ark_com_add _ _ ) _ => eapply s2com_add; side
  | |- lcom2 L (ark_com_scalar_mul _ _ ) _ => eapply s2com_scalar_mul; side
  | |- lcom2 L (ark_com2_linear_map _) _ => eapply scom2_linear_map; side
  | |- lcomT _ (ark_comT_add _ _) _ => eapply scomT_add; side
  | |- lcomT _ (ark_comT_pairing _ _) _ => eapply scomT_pairing; side
  | |- lcomT _ (ark_linear_map_PPE _) _ => eapply slinear_map_PPE; side
  | |- rmat _ (_ :: _) (_ :: _) => split; [side | side]
  | |- rseq _ (_ :: _) (_ :: _) => split; [side | side]
  | |- rseq _ [::] [::] => exact Logic.I
  | |- rmat _ [::] [::] => exact Logic.I
  | |- _ _ (vec_to_col_vec _) _ => eapply rvec_to_col_vec; side
  | |- _ _ (ark_com1_batch_linear_map _) _ => eapply scom1_batch_linear_map; side
  | |- _ _ (ark_com2_batch_linear_map _) _ => eapply scom2_batch_linear_map; side
  | |- lf _ (- _) (- _) => eapply (sk_opp KF); side
  | |- ?x = ?x => reflexivity
  | |- _ => eassumption
  end.
Ltac fin := repeat (match goal with
  | |- rres _ (Ok _) (Ok _) => cbv beta iota delta [rres]
  | |- rpair _ _ _ _ => split
  | |- lcommit1 _ _ _ => split
  | |- lcommit2 _ _ _ => split
  | |- lequproof _ _ _ => split
  | |- lcproof _ _ _ => split
  end; cbv beta iota zeta delta [ark_coms ark_crand ark_pi ark_theta ark_pf_rand ark_equ_type
    ark_xcoms ark_ycoms ark_equ_proofs fst snd]).
Ltac rstep :=
  lazymatch goal with
  | h : qs ?s ?t |- rres _ (let (_, _) := ark_rand_fr ?s in _) (let (_, _) := ark_rand_fr ?t in _) =>
      move: (D h); clear h; case: (ark_rand_fr s) => ? ?; case: (ark_rand_fr t) => ? ? [/= ? ?]
  | |- rres _ (bind _ _) (bind _ _) => eapply rbind; [side | intros ? ? ?]
  end; cbv beta iota zeta.

Lemma sdraw_rows2 m s t : qs s t -> rpair (rmat Q) qs (ark_draw_rows2 m s) (ark_draw_rows2 m t).
Proof.
elim: m s t => [|m IH] s t h //=.
move: (D h); case: (ark_rand_fr s) => a1 {h}s; case: (ark_rand_fr t) => a1' {}t [/= ? h].
move: (D h); case: (ark_rand_fr s) => a2 {h}s; case: (ark_rand_fr t) => a2' {}t [/= ? h].
by move: (IH _ _ h); case: (ark_draw_rows2 _ _) => ? ?; case: (ark_draw_rows2 _ _) => ? ? [/= ? ?].
Qed.
Lemma sdraw_rows1 m s t : qs s t -> rpair (rmat Q) qs (ark_draw_rows1 m s) (ark_draw_rows1 m t).
Proof.
elim: m s t => [|m IH] s t h //=.
move: (D h); case: (ark_rand_fr s) => a1 {h}s; case: (ark_rand_fr t) => a1' {}t [/= ? h].
by move: (IH _ _ h); case: (ark_draw_rows1 _ _) => ? ?; case: (ark_draw_rows1 _ _) => ? ? [/= ? ?].
Qed.

Lemma scommit_G1 x a c d s t : q1 x a -> qK c d -> qs s t ->
  rres (rpair (lcommit1 L) qs) (ark_commit_G1 x c s) (ark_commit_G1 a d t).
Proof.
move=> h [hu hv h1 h2 h3] hs; rewrite /ark_commit_G1; do 4 rstep.
fin; side.
Qed.
Lemma sbatch_commit_G1 xs a c d s t : rseq q1 xs a -> qK c d -> qs s t ->
  rres (rpair (lcommit1 L) qs) (ark_batch_commit_G1 xs c s) (ark_batch_commit_G1 a d t).
Proof.
move=> h [hu hv h1 h2 h3] hs; rewrite /ark_batch_commit_G1 (rsize h).
move: (sdraw_rows2 (size a) hs); case: (ark_draw_rows2 _ _) => rr ?; case: (ark_draw_rows2 _ _) => ? ? [/= ? ?].
by repeat rstep; fin; side.
Qed.
Lemma scommit_scalar_to_B1 x y c d s t : Q x y -> qK c d -> qs s t ->
  rres (rpair (lcommit1 L) qs) (ark_commit_scalar_to_B1 x c s) (ark_commit_scalar_to_B1 y d t).
Proof.
move=> q h hs; rewrite /ark_commit_scalar_to_B1; do 2 rstep.
case: h => hu hv h1 h2 h3; rstep.
fin; side.
Qed.
Lemma sbatch_commit_scalar_to_B1 xs ys c d s t : rseq Q xs ys -> qK c d -> qs s t ->
  rres (rpair (lcommit1 L) qs) (ark_batch_commit_scalar_to_B1 xs c s) (ark_batch_commit_scalar_to_B1 ys d t).
Proof.
move=> q h hs; rewrite /ark_batch_commit_scalar_to_B1 (rsize q).
move: (sdraw_rows1 (size ys) hs); case: (ark_draw_rows1 _ _) => rr ?; case: (ark_draw_rows1 _ _) => ? ? [/= ? ?].
rstep; eapply rbind; first by side. move=> rv rv' hrv; apply: (rbind (R := rseq qc1)).
  apply: rmapM hrv => k l kl; have [hu hv _ _ _] := h; apply: rbind (skey_at 0 hu) _ => ? ? ? /=; side.
move=> ? ? ?; repeat rstep; by fin; side.
Qed.

Lemma scommit_G2 x a c d s t : q2 x a -> qK c d -> qs s t ->
  rres (rpair (lcommit2 L) qs) (ark_commit_G2 x c s) (ark_commit_G2 a d t).
Proof.
move=> h [hu hv h1 h2 h3] hs; rewrite /ark_commit_G2; do 4 rstep.
fin; side.
Qed.
Lemma sbatch_commit_G2 xs a c d s t : rseq q2 xs a -> qK c d -> qs s t ->
  rres (rpair (lcommit2 L) qs) (ark_batch_commit_G2 xs c s) (ark_batch_commit_G2 a d t).
Proof.
move=> h [hu hv h1 h2 h3] hs; rewrite /ark_batch_commit_G2 (rsize h).
move: (sdraw_rows2 (size a) hs); case: (ark_draw_rows2 _ _) => rr ?; case: (ark_draw_rows2 _ _) => ? ? [/= ? ?].
by repeat rstep; fin; side.
Qed.
Lemma scommit_scalar_to_B2 x y c d s t : Q x y -> qK c d -> qs s t ->
  rres (rpair (lcommit2 L) qs) (ark_commit_scalar_to_B2 x c s) (ark_commit_scalar_to_B2 y d t).
Proof.
move=> q h hs; rewrite /ark_commit_scalar_to_B2; do 2 rstep.
case: h => hu hv h1 h2 h3; rstep.
fin; side.
Qed.
Lemma sbatch_commit_scalar_to_B2 xs ys c d s t : rseq Q xs ys -> qK c d -> qs s t ->
  rres (rpair (lcommit2 L) qs) (ark_batch_commit_scalar_to_B2 xs c s) (ark_batch_commit_scalar_to_B2 ys d t).
Proof.
move=> q h hs; rewrite /ark_batch_commit_scalar_to_B2 (rsize q).
move: (sdraw_rows1 (size ys) hs); case: (ark_draw_rows1 _ _) => rr ?; case: (ark_draw_rows1 _ _) => ? ? [/= ? ?].
rstep; eapply rbind; first by side. move=> rv rv' hrv; apply: (rbind (R := rseq qc2)).
  apply: rmapM hrv => k l kl; have [hu hv _ _ _] := h; apply: rbind (skey_at 0 hv) _ => ? ? ? /=; side.
move=> ? ? ?; repeat rstep; by fin; side.
Qed.

Lemma sppe_prove sch e f xs a ys b x x' y y' c d s t :
  lppe L e f -> rseq q1 xs a -> rseq q2 ys b -> lcommit1 L x x' -> lcommit2 L y y' -> qK c d -> qs s t ->
  rres (rpair (lequproof L) qs) (ark_ppe_prove sch e xs ys x y c s) (ark_ppe_prove sch f a b x' y' d t).
Proof.
case: e f x x' y y' => ea eb eg et [fa fb fg ft] [xc xr] [xc' xr'] [yc yr] [yc' yr'].
rewrite /lppe /lcommit1 /lcommit2 /= => -[he1 he2 he3 he4] hx hy [hxc hxr] [hyc hyr] hc hs.
have [hu hv _ _ _] := hc; rewrite /ark_ppe_prove /=.
by repeat rstep; fin; side.
Qed.
Lemma sppe_commit_and_prove sch e f xs a ys b c d s t :
  lppe L e f -> rseq q1 xs a -> rseq q2 ys b -> qK c d -> qs s t ->
  rres (rpair (lcproof L) qs) (ark_ppe_commit_and_prove sch e xs ys c s) (ark_ppe_commit_and_prove sch f a b d t).
Proof.
move=> he hx hy hc hs; rewrite /ark_ppe_commit_and_prove.
apply: (rbind (sbatch_commit_G1 hx hc hs)) => -[x s1] [x' t1] [/= hcx hs1].
apply: (rbind (sbatch_commit_G2 hy hc hs1)) => -[y s2] [y' t2] [/= hcy hs2].
apply: (rbind (sppe_prove sch he hx hy hcx hcy hc hs2)) => -[p s3] [p' t3] [/= hp' hs3].
by split; last by []; split.
Qed.

Lemma sms1_prove sch e f xs a ys b x x' y y' c d s t :
  lms1 L e f -> rseq q1 xs a -> rseq Q ys b -> lcommit1 L x x' -> lcommit2 L y y' -> qK c d -> qs s t ->
  rres (rpair (lequproof L) qs) (ark_ms1_prove sch e xs ys x y c s) (ark_ms1_prove sch f a b x' y' d t).
Proof.
case: e f x x' y y' => ea eb eg et [fa fb fg ft] [xc xr] [xc' xr'] [yc yr] [yc' yr'].
rewrite /lms1 /lcommit1 /lcommit2 /= => -[he1 he2 he3 he4] hx hy [hxc hxr] [hyc hyr] hc hs.
have [hu hv _ _ _] := hc; rewrite /ark_ms1_prove /=.
by repeat rstep; fin; side.
Qed.
Lemma sms1_commit_and_prove sch e f xs a ys b c d s t :
  lms1 L e f -> rseq q1 xs a -> rseq Q ys b -> qK c d -> qs s t ->
  rres (rpair (lcproof L) qs) (ark_ms1_commit_and_prove sch e xs ys c s) (ark_ms1_commit_and_prove sch f a b d t).
Proof.
move=> he hx hy hc hs; rewrite /ark_ms1_commit_and_prove.
apply: (rbind (sbatch_commit_G1 hx hc hs)) => -[x s1] [x' t1] [/= hcx hs1].
apply: (rbind (sbatch_commit_scalar_to_B2 hy hc hs1)) => -[y s2] [y' t2] [/= hcy hs2].
apply: (rbind (sms1_prove sch he hx hy hcx hcy hc hs2)) => -[p s3] [p' t3] [/= hp' hs3].
by split; last by []; split.
Qed.

Lemma sms2_prove sch e f xs a ys b x x' y y' c d s t :
  lms2 L e f -> rseq Q xs a -> rseq q2 ys b -> lcommit1 L x x' -> lcommit2 L y y' -> qK c d -> qs s t ->
  rres (rpair (lequproof L) qs) (ark_ms2_prove sch e xs ys x y c s) (ark_ms2_prove sch f a b x' y' d t).
Proof.
case: e f x x' y y' => ea eb eg et [fa fb fg ft] [xc xr] [xc' xr'] [yc yr] [yc' yr'].
rewrite /lms2 /lcommit1 /lcommit2 /= => -[he1 he2 he3 he4] hx hy [hxc hxr] [hyc hyr] hc hs.
have [hu hv _ _ _] := hc; rewrite /ark_ms2_prove /=.
by repeat rstep; fin; side.
Qed.
Lemma sms2_commit_and_prove sch e f xs a ys b c d s t :
  lms2 L e f -> rseq Q xs a -> rseq q2 ys b -> qK c d -> qs s t ->
  rres (rpair (lcproof L) qs) (ark_ms2_commit_and_prove sch e xs ys c s) (ark_ms2_commit_and_prove sch f a b d t).
Proof.
move=> he hx hy hc hs; rewrite /ark_ms2_commit_and_prove.
apply: (rbind (sbatch_commit_scalar_to_B1 hx hc hs)) => -[x s1] [x' t1] [/= hcx hs1].
apply: (rbind (sbatch_commit_G2 hy hc hs1)) => -[y s2] [y' t2] [/= hcy hs2].
apply: (rbind (sms2_prove sch he hx hy hcx hcy hc hs2)) => -[p s3] [p' t3] [/= hp' hs3].
by split; last by []; split.
Qed.

Lemma squad_prove sch e f xs a ys b x x' y y' c d s t :
  lquad L e f -> rseq Q xs a -> rseq Q ys b -> lcommit1 L x x' -> lcommit2 L y y' -> qK c d -> qs s t ->
  rres (rpair (lequproof L) qs) (ark_quad_prove sch e xs ys x y c s) (ark_quad_prove sch f a b x' y' d t).
Proof.
case: e f x x' y y' => ea eb eg et [fa fb fg ft] [xc xr] [xc' xr'] [yc yr] [yc' yr'].
rewrite /lquad /lcommit1 /lcommit2 /= => -[he1 he2 he3 he4] hx hy [hxc hxr] [hyc hyr] hc hs.
have [hu hv _ _ _] := hc; rewrite /ark_quad_prove /=.
by repeat rstep; fin; side.
Qed.
Lemma squad_commit_and_prove sch e f xs a ys b c d s t :
  lquad L e f -> rseq Q xs a -> rseq Q ys b -> qK c d -> qs s t ->
  rres (rpair (lcproof L) qs) (ark_quad_commit_and_prove sch e xs ys c s) (ark_quad_commit_and_prove sch f a b d t).
Proof.
move=> he hx hy hc hs; rewrite /ark_quad_commit_and_prove.
apply: (rbind (sbatch_commit_scalar_to_B1 hx hc hs)) => -[x s1] [x' t1] [/= hcx hs1].
apply: (rbind (sbatch_commit_scalar_to_B2 hy hc hs1)) => -[y s2] [y' t2] [/= hcy hs2].
apply: (rbind (squad_prove sch he hx hy hcx hcy hc hs2)) => -[p s3] [p' t3] [/= hp' hs3].
by split; last by []; split.
Qed.

(** Where the comparison of outputs gives the same answers. *)
Hypothesis DT : forall a b c d, qt a b -> qt c d -> out_eq a c = out_eq b d.
Lemma scomT_eq x y a b : qT x a -> qT y b -> ark_comT_eq x y = ark_comT_eq a b.
Proof.
case=> h1 h2 h3 h4 [k1 k2 k3 k4]; rewrite /ark_comT_eq.
by rewrite (DT h1 k1) (DT h2 k2) (DT h3 k3) (DT h4 k4).
Qed.

Lemma sppe_verify sch e f p q c d : lppe L e f -> lcproof L p q -> qK c d ->
  ark_ppe_verify sch e p c = ark_ppe_verify sch f q d.
Proof.
case: e f p q => ea eb eg et [fa fb fg ft] [[xc xr] [yc yr] ps] [[xc' xr'] [yc' yr'] qs'].
rewrite /lppe /lcproof /lcommit1 /lcommit2 /= => -[he1 he2 he3 he4] [[hxc hxr] [hyc hyr] hps] hc.
have [hu hv _ _ _] := hc; apply/rres_eqE; rewrite /ark_ppe_verify /=.
rstep; eapply rbind; [side | move=> [pp pt pty pr] [qp qt' qty qr] [/= hp1 hp2 <- _]].
rewrite /ark_ppe_get_type.
by repeat rstep; apply: scomT_eq; side.
Qed.

Lemma sms1_verify sch e f p q c d : lms1 L e f -> lcproof L p q -> qK c d ->
  ark_ms1_verify sch e p c = ark_ms1_verify sch f q d.
Proof.
case: e f p q => ea eb eg et [fa fb fg ft] [[xc xr] [yc yr] ps] [[xc' xr'] [yc' yr'] qs'].
rewrite /lms1 /lcproof /lcommit1 /lcommit2 /= => -[he1 he2 he3 he4] [[hxc hxr] [hyc hyr] hps] hc.
have [hu hv _ _ _] := hc; apply/rres_eqE; rewrite /ark_ms1_verify /=.
rstep; eapply rbind; [side | move=> [pp pt pty pr] [qp qt' qty qr] [/= hp1 hp2 <- _]].
rewrite /ark_ms1_get_type.
by repeat rstep; apply: scomT_eq; side.
Qed.

Lemma sms2_verify sch e f p q c d : lms2 L e f -> lcproof L p q -> qK c d ->
  ark_ms2_verify sch e p c = ark_ms2_verify sch f q d.
Proof.
case: e f p q => ea eb eg et [fa fb fg ft] [[xc xr] [yc yr] ps] [[xc' xr'] [yc' yr'] qs'].
rewrite /lms2 /lcproof /lcommit1 /lcommit2 /= => -[he1 he2 he3 he4] [[hxc hxr] [hyc hyr] hps] hc.
have [hu hv _ _ _] := hc; apply/rres_eqE; rewrite /ark_ms2_verify /=.
rstep; eapply rbind; [side | move=> [pp pt pty pr] [qp qt' qty qr] [/= hp1 hp2 <- _]].
rewrite /ark_ms2_get_type.
by repeat rstep; apply: scomT_eq; side.
Qed.

Lemma squad_verify sch e f p q c d : lquad L e f -> lcproof L p q -> qK c d ->
  ark_quad_verify sch e p c = ark_quad_verify sch f q d.
Proof.
case: e f p q => ea eb eg et [fa fb fg ft] [[xc xr] [yc yr] ps] [[xc' xr'] [yc' yr'] qs'].
rewrite /lquad /lcproof /lcommit1 /lcommit2 /= => -[he1 he2 he3 he4] [[hxc hxr] [hyc hyr] hps] hc.
have [hu hv _ _ _] := hc; apply/rres_eqE; rewrite /ark_quad_verify /=.
rstep; eapply rbind; [side | move=> [pp pt pty pr] [qp qt' qty qr] [/= hp1 hp2 <- _]].
rewrite /ark_quad_get_type.
by repeat rstep; apply: scomT_eq; side.
Qed.
End Rng.
End Pairing.
