(** Properties C31, C32: generated and hiding keys. *)
From mathcomp Require Import all_ssreflect all_algebra.
From Verif Require Import Base BaseLemmas Group DataStructures Generator Spec SpecGen Concrete Concrete7 GenProps GenInv.
From Verif Require Import Concrete25.
Set Implicit Arguments.
Unset Strict Implicit.
Unset Printing Implicit Defensive.
Import GRing.Theory.
Local Open Scope ring_scope.

(** C31: [generate_crs] is total; what it returns in terms of the six values drawn. *)
Theorem C31_shape : forall (E : pairing) (R : rng E) (s : rst R),
  let (p1, s1) := rand_g1 s in let (p2, s2) := rand_g2 s1 in
  let (a1, s3) := rand_fr s2 in let (a2, s4) := rand_fr s3 in
  let (t1, s5) := rand_fr s4 in let (t2, s6) := rand_fr s5 in
  exists crs, [/\ generate_crs s = (crs, s6), binding_crs_with crs a1 a2 t1 t2, g1_gen crs = p1 & g2_gen crs = p2].
Proof. exact: @generate_shape. Qed.
Print Assumptions C31_shape.

Theorem C31_gt : forall (E : pairing) (R : rng E) (s s' : rst R) crs, bilinear E -> nondegenerate E ->
  generate_crs s = (crs, s') -> (gt_gen crs != 0) = (g1_gen crs != 0) && (g2_gen crs != 0).
Proof. exact: @generate_gt. Qed.
Print Assumptions C31_gt.

Example C31_case : bilinear toy /\ nondegenerate toy /\ generate_crs (R := ctr) 0%N = (crs0, 6%N) /\
  gt_gen crs0 != 0 /\ gt_gen (generate_crs (R := zeros) tt).1 == 0.
Proof. by split; [exact: toy_bilinear | split; [exact: toy_nondegenerate |]]. Qed.

(** The drawn values can be read off the key, and every binding key can be drawn. *)
Theorem C31_one_key : forall (E : pairing) (R R' : rng E) (s s' : rst R) (z z' : rst R') (crs : CRS E),
  generate_crs s = (crs, s') -> generate_crs z = (crs, z') -> proper_crs crs -> crs_draws s = crs_draws z.
Proof. exact: k_C31_one_key. Qed.
Print Assumptions C31_one_key.

Theorem C31_every_key : forall (E : pairing) (crs : CRS E), binding_crs crs ->
  exists (R : rng E) (s s' : rst R), generate_crs s = (crs, s').
Proof. exact: k_C31_every_key. Qed.
Print Assumptions C31_every_key.

Example C31_one_key_case : generate_crs (R := ctr) 0%N = (crs0, 6%N) /\ proper_crs crs0 /\ binding_crs crs0 /\
  crs_draws (R := ctr) 1%N != crs_draws (R := ctr) 0%N.
Proof. by split; [| split; [exact: crs0_prop | split; [exact: crs0_bind |]]]. Qed.

(** C32: the keys of [prepare_real_binding_key] and [prepare_simulated_hinding_key]
    on the same values, put into reference strings as in [generate_crs]. *)
Theorem C32_difference : forall (E : pairing) (p1 : G1 E) (p2 : G2 E) a1 a2 t1 t2 gt,
  let key (k : G1 E * G2 E) := mkCRS [:: (p1, a1 *: p1); (t1 *: p1, k.1)] [:: (p2, a2 *: p2); (t2 *: p2, k.2)] p1 p2 gt in
  let b := prepare_real_binding_key p1 p2 (a1 *: p1) t1 (a2 *: p2) t2 in
  let h := prepare_simulated_hinding_key p1 p2 (a1 *: p1) t1 (a2 *: p2) t2 in
  gt = pair_e p1 p2 ->
  [/\ binding_crs_with (key b) a1 a2 t1 t2, hiding_crs_with (key h) a1 a2 t1 t2, h.1 = b.1 - p1 & h.2 = b.2 - p2].
Proof. exact: @keys_differ. Qed.
Print Assumptions C32_difference.

Example C32_difference_case := @C32_difference toy (n7 3) (n7 5) (n7 2) (n7 3) (n7 4) (n7 5) (n7 3 * n7 5) erefl.

Theorem C32_hiding_spans : forall (E : pairing) (crs : CRS E),
  hiding_crs crs -> proper_crs crs -> cyclic (G1 E) -> cyclic (G2 E) ->
  (forall c : Com1 E, exists r1 r2, c = r1 *: u1 crs + r2 *: u2 crs) /\
  (forall c : Com2 E, exists r1 r2, c = r1 *: v1 crs + r2 *: v2 crs).
Proof. exact: @hiding_crs_span. Qed.
Print Assumptions C32_hiding_spans.

Example C32_hiding_spans_case := @C32_hiding_spans toy crsh crsh_hides crsh_proper toy_cyclic toy_cyclic.

(** The combination is unique. *)
Theorem C32_hiding_independent : forall (E : pairing) (crs : CRS E), hiding_crs crs -> proper_crs crs ->
  forall r1 r2 r1' r2',
  (r1 *: u1 crs + r2 *: u2 crs = r1' *: u1 crs + r2' *: u2 crs -> r1 = r1' /\ r2 = r2') /\
  (r1 *: v1 crs + r2 *: v2 crs = r1' *: v1 crs + r2' *: v2 crs -> r1 = r1' /\ r2 = r2').
Proof. exact: @hiding_crs_inj. Qed.
Print Assumptions C32_hiding_independent.

Example C32_hiding_independent_case := @C32_hiding_independent toy crsh crsh_hides crsh_proper (n7 1) (n7 2) (n7 3) (n7 4).

Theorem C32_binding_does_not_span : forall (E : pairing) (crs : CRS E), binding_crs crs -> proper_crs crs ->
  (exists c : Com1 E, forall r1 r2, c <> r1 *: u1 crs + r2 *: u2 crs) /\
  (exists c : Com2 E, forall r1 r2, c <> r1 *: v1 crs + r2 *: v2 crs).
Proof. exact: @binding_crs_span. Qed.
Print Assumptions C32_binding_does_not_span.

Example C32_case : hiding_crs crsh /\ proper_crs crsh /\ binding_crs crs0 /\ proper_crs crs0 /\
  cyclic (G1 toy) /\ cyclic (G2 toy) /\ u2 crsh = u2 crs0 - (0, g1_gen crs0).
Proof.
split; first by exists (n7 2), (n7 3), (n7 4), (n7 5); exact: crsh_hiding.
split; first by [].
split; last by do !split; try exact: toy_cyclic; apply/eqP; vm_compute.
by exists (n7 2), (n7 3), (n7 4), (n7 5); split; apply/eqP; vm_compute.
Qed.
