(** Model of /repo/src/generator.rs. *)
From mathcomp Require Import all_ssreflect all_algebra.
From Verif Require Import Base Group DataStructures.
Set Implicit Arguments.
Unset Strict Implicit.
Unset Printing Implicit Defensive.
Import GRing.Theory.
Local Open Scope ring_scope.

Section Generator.
Context {E : pairing}.

(** [CRS::prepare_real_binding_key], generator.rs:44-60. *)
Definition prepare_real_binding_key (g1 : G1 E) (g2 : G2 E) (q1 : G1 E)
  (t1 : Fr E) (q2 : G2 E) (t2 : Fr E) : G1 E * G2 E :=
  let v1 := t1 *: q1 - 0 in
  let v2 := t2 *: q2 - 0 in
  (v1, v2).

(** [CRS::prepare_simulated_hinding_key], generator.rs:62-77 (dead code). *)
Definition prepare_simulated_hinding_key (g1 : G1 E) (g2 : G2 E) (q1 : G1 E)
  (t1 : Fr E) (q2 : G2 E) (t2 : Fr E) : G1 E * G2 E :=
  let v1 := t1 *: q1 - g1 in
  let v2 := t2 *: q2 - g2 in
  (v1, v2).

(** [CRS::generate_crs], generator.rs:81-118. *)
Definition generate_crs (R : rng E) (s : rst R) : CRS E * rst R :=
  let (p1, s) := rand_g1 s in
  let (p2, s) := rand_g2 s in
  let (a1, s) := rand_fr s in
  let (a2, s) := rand_fr s in
  let (t1, s) := rand_fr s in
  let (t2, s) := rand_fr s in
  let q1 := a1 *: p1 in
  let q2 := a2 *: p2 in
  let u1 := t1 *: p1 in
  let u2 := t2 *: p2 in
  let (v1, v2) := prepare_real_binding_key p1 p2 q1 t1 q2 t2 in
  let u11 : Com1 E := (p1, q1) in
  let u12 : Com1 E := (u1, v1) in
  let u21 : Com2 E := (p2, q2) in
  let u22 : Com2 E := (u2, v2) in
  (mkCRS [:: u11; u12] [:: u21; u22] p1 p2 (pair_e p1 p2), s).
End Generator.
