(** What [generate_crs] draws, for C31. *)
From mathcomp Require Import all_ssreflect all_algebra.
From Verif Require Import Base Group.
Set Implicit Arguments.
Unset Strict Implicit.
Unset Printing Implicit Defensive.
Local Open Scope ring_scope.

(** Two points and four scalars, in this order. *)
Definition crs_draws {E : pairing} {R : rng E} (s : rst R) : G1 E * G2 E * (Fr E * Fr E * (Fr E * Fr E)) :=
  let (p1, s1) := rand_g1 s in let (p2, s2) := rand_g2 s1 in
  let (a1, s3) := rand_fr s2 in let (a2, s4) := rand_fr s3 in
  let (t1, s5) := rand_fr s4 in let (t2, s6) := rand_fr s5 in
  (p1, p2, (a1, a2, (t1, t2))).
