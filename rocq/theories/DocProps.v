(** The example equations of the documentation of the equation types. *)
From mathcomp Require Import all_ssreflect all_algebra.
From Verif Require Import Base BaseLemmas Group DataStructures CoreAlg ComLemmas Generator Commit Statement Prove Verify Spec SpecVerify SpecHide Main CapLemmas Concrete.
Set Implicit Arguments.
Unset Strict Implicit.
Unset Printing Implicit Defensive.
Import GRing.Theory.
Local Open Scope ring_scope.

Lemma doc_dims (F : Type) (a b : F) : dims 2 1 [:: [:: a]; [:: b]]. Proof. by split=> // -[|[|]]. Qed.

Lemma k_C61_ppe : forall (E : pairing) (R : rng E) (sch sch' : sched) (U W : G1 E) (V N : G2 E) (t : GT E) (crs : CRS E) (s : rst R),
  bilinear E -> valid_sched sch -> valid_sched sch' -> two_keys crs ->
  let q := mkPPE [:: 0] [:: 0; N] [:: [:: 5%:R]; [:: 0]] t in
  exists p s' b, [/\ ppe_commit_and_prove sch q [:: U; W] [:: V] crs s = Ok (p, s'), ppe_verify sch' q p crs = Ok b
    & b <-> pair_e W N + 5%:R *: pair_e U V = t].
Proof.
move=> E R sch sch' U W V N t crs s hb vs vs' tk q.
have wf : ppe_wf q 2 1 by split=> //; exact: doc_dims.
have [p [s' [b [h1 h2 h3]]]] := ppe_cap_dec vs vs' hb s (isT : (0 < size [:: U; W])%N) (isT : (0 < size [:: V])%N) wf tk.
exists p, s', b; split=> //; apply: (iff_trans h3).
rewrite /ppe_holds /= !big_ord_recl !big_ord0 /= /entry /= !(bil0l (pair_bilin hb)) (bil0r (pair_bilin hb)) scale0r !addr0 !add0r.
by split=> <-.
Qed.
Lemma k_C61_ms1 : forall (E : pairing) (R : rng E) (sch sch' : sched) (U W : G1 E) (v n : Fr E) (t : G1 E) (crs : CRS E) (s : rst R),
  bilinear E -> nondegenerate E -> valid_sched sch -> valid_sched sch' -> two_keys crs -> v2 crs + (0, g2_gen crs) != 0 ->
  let q := mkMSMEG1 [:: 0] [:: 0; n] [:: [:: 5%:R]; [:: 0]] t in
  exists p s' b, [/\ ms1_commit_and_prove sch q [:: U; W] [:: v] crs s = Ok (p, s'), ms1_verify sch' q p crs = Ok b
    & b <-> n *: W + 5%:R *: (v *: U) = t].
Proof.
move=> E R sch sch' U W v n t crs s hb hn vs vs' tk hk q.
have wf : ms1_wf q 2 1 by split=> //; exact: doc_dims.
have [p [s' [b [h1 h2 h3]]]] := ms1_cap_dec vs vs' hb hn s (isT : (0 < size [:: U; W])%N) (isT : (0 < size [:: v])%N) wf tk hk.
exists p, s', b; split=> //; apply: (iff_trans h3).
rewrite /ms1_holds /= !big_ord_recl !big_ord0 /= /entry /= ?mul0r !scaler0 !scale0r !addr0 !add0r ?scalerA.
by split=> <-.
Qed.
Lemma k_C61_ms2 : forall (E : pairing) (R : rng E) (sch sch' : sched) (u w : Fr E) (V N : G2 E) (t : G2 E) (crs : CRS E) (s : rst R),
  bilinear E -> nondegenerate E -> valid_sched sch -> valid_sched sch' -> two_keys crs -> u2 crs + (0, g1_gen crs) != 0 ->
  let q := mkMSMEG2 [:: 0] [:: 0; N] [:: [:: 5%:R]; [:: 0]] t in
  exists p s' b, [/\ ms2_commit_and_prove sch q [:: u; w] [:: V] crs s = Ok (p, s'), ms2_verify sch' q p crs = Ok b
    & b <-> w *: N + 5%:R *: (u *: V) = t].
Proof.
move=> E R sch sch' u w V N t crs s hb hn vs vs' tk hk q.
have wf : ms2_wf q 2 1 by split=> //; exact: doc_dims.
have [p [s' [b [h1 h2 h3]]]] := ms2_cap_dec vs vs' hb hn s (isT : (0 < size [:: u; w])%N) (isT : (0 < size [:: V])%N) wf tk hk.
exists p, s', b; split=> //; apply: (iff_trans h3).
rewrite /ms2_holds /= !big_ord_recl !big_ord0 /= /entry /= ?mul0r !scaler0 !scale0r !addr0 !add0r ?scalerA.
by split=> <-.
Qed.
Lemma k_C61_quad : forall (E : pairing) (R : rng E) (sch sch' : sched) (u w v n t : Fr E) (crs : CRS E) (s : rst R),
  bilinear E -> nondegenerate E -> valid_sched sch -> valid_sched sch' -> two_keys crs -> u2 crs + (0, g1_gen crs) != 0 -> v2 crs + (0, g2_gen crs) != 0 ->
  let q := mkQuadEqu [:: 0] [:: 0; n] [:: [:: 5%:R]; [:: 0]] t in
  exists p s' b, [/\ quad_commit_and_prove sch q [:: u; w] [:: v] crs s = Ok (p, s'), quad_verify sch' q p crs = Ok b
    & b <-> w * n + 5%:R * (u * v) = t].
Proof.
move=> E R sch sch' u w v n t crs s hb hn vs vs' tk hk hk2 q.
have wf : quad_wf q 2 1 by split=> //; exact: doc_dims.
have [p [s' [b [h1 h2 h3]]]] := quad_cap_dec vs vs' hb hn s (isT : (0 < size [:: u; w])%N) (isT : (0 < size [:: v])%N) wf tk hk hk2.
exists p, s', b; split=> //; apply: (iff_trans h3).
rewrite /quad_holds /= !big_ord_recl !big_ord0 /= /entry /= ?mul0r ?mulr0 !addr0 !add0r ?mulrA.
by split=> <-.
Qed.
Lemma k_C61_literal : exists (E : pairing) (R : rng E) (u w v n t : Fr E) (crs : CRS E) (s s' : rst R) p,
  let q := mkQuadEqu [:: 0] [:: 0; n] [:: [:: 5%:R]; [:: 0]] t in
  [/\ quad_commit_and_prove fwd q [:: u; w] [:: v] crs s = Ok (p, s'), quad_verify fwd q p crs = Ok true
    & w * n + (u * v) ^+ 5 <> t].
Proof.
have := k_C61_quad (E := toy) (n7 1) (n7 2) (n7 2) (n7 3) (n7 2) (6%N : rst ctr) toy_bilinear toy_nondegenerate fwd_valid fwd_valid crs0_two.
case=> [//|//|p [s' [b [h1 h2 h3]]]].
exists toy, ctr, (n7 1), (n7 2), (n7 2), (n7 3), (n7 2), crs0, 6%N, s', p; split=> //.
by move: h2; have -> : b by apply/h3; apply/eqP; vm_compute.
Qed.
