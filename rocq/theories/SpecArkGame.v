(** The games of [SpecSxdh.v] over affine and projective points. *)
From mathcomp Require Import all_ssreflect all_algebra.
From Verif Require Import Base Group DataStructures Generator Commit Statement Prove Spec SpecSxdh Ark SpecArk.
Set Implicit Arguments.
Unset Strict Implicit.
Unset Printing Implicit Defensive.
Import Order.Theory GRing.Theory Num.Theory.
Local Open Scope ring_scope.

(** ** Decisional Diffie-Hellman
    The base point is the projective point [s o] for uniform [o]; the
    distinguisher sees affine points. *)
Section DDH.
Context {F : finFieldType} {C : curve F} {O : finType} (s : O -> prj C).
Context {W : finType} (D : W -> aff C -> aff C -> aff C -> aff C -> bool).
Definition ark_ddh_real : rat := Pr (fun x : W * (O * F * F) =>
  let: (w, (o, a, t)) := x in
  D w (into_affine (s o)) (into_affine (prj_mul (s o) a)) (into_affine (prj_mul (s o) t)) (into_affine (prj_mul (s o) (a * t)))).
Definition ark_ddh_random : rat := Pr (fun x : W * (O * F * F * F) =>
  let: (w, (o, a, t, r)) := x in
  D w (into_affine (s o)) (into_affine (prj_mul (s o) a)) (into_affine (prj_mul (s o) t)) (into_affine (prj_mul (s o) r))).
Definition ark_ddh_adv : rat := `|ark_ddh_real - ark_ddh_random|.
End DDH.

(** ** Games about reference strings and proofs *)
Section Games.
Context {F : finFieldType} {A : ark F}.

(** An RNG that hands out given points and scalars. *)
Definition ark_queue : ark_rng A :=
  @ArkRng F A (seq (prj (C1 A)) * seq (prj (C2 A)) * seq F) (fun s => (head 0 s.2, (s.1, behead s.2)))
    (fun s => (head (prj_zero (C1 A)) s.1.1, ((behead s.1.1, s.1.2), s.2)))
    (fun s => (head (prj_zero (C2 A)) s.1.2, ((s.1.1, behead s.1.2), s.2))).
(** The output of [generate_crs] on these choices. *)
Definition ark_real_crs (p1 : prj (C1 A)) (p2 : prj (C2 A)) (a1 a2 t1 t2 : F) : ark_CRS A :=
  (ark_generate_crs (R := ark_queue) ([:: p1], [:: p2], [:: a1; a2; t1; t2])).1.
(** An RNG that reads a tape of scalars; it draws no points. *)
Definition ark_tape : ark_rng A :=
  @ArkRng F A (seq F) (fun t => (head 0 t, behead t)) (fun t => (prj_zero (C1 A), t)) (fun t => (prj_zero (C2 A), t)).

(** The probability that the test [D] holds of a generated reference string. *)
Context {O1 O2 : finType} (s1 : O1 -> prj (C1 A)) (s2 : O2 -> prj (C2 A)).
Definition ark_game {W : finType} (D : W -> pred (ark_CRS A)) : rat :=
  Pr (fun x : W * (O1 * O2 * (F * F * F * F)) =>
    let: (w, (o1, o2, (a1, a2, t1, t2))) := x in D w (ark_real_crs (s1 o1) (s2 o2) a1 a2 t1 t2)).
(** The probability that some base point is the identity. *)
Definition ark_bad_point : rat := Pr (fun o : O1 * O2 =>
  aff_eq (into_affine (s1 o.1)) (aff_zero (C1 A)) || aff_eq (into_affine (s2 o.2)) (aff_zero (C2 A))).

(** A test of reference strings and published proofs as a test of reference strings. *)
Definition ark_proof_test {W : finType} (N : nat) (D : W -> ark_CRS A -> pred (res _))
  (f : W -> ark_CRS A -> forall R : ark_rng A, ark_rst R -> res (ark_CProof A * ark_rst R))
  (x : W * N.-tuple F) (d : ark_CRS A) : bool :=
  D x.1 d (ark_seen (f x.1 d ark_tape (tval x.2 : seq F))).

(** Distinguishers made from a test of reference strings, as in [SpecSxdh.v]. *)
Context {W : finType} (D : W -> pred (ark_CRS A)).
Definition minus (C : curve F) (a b : aff C) : aff C := into_affine (prj_sub (into_group a) (into_group b)).
Definition ark_ddh1 (x : W * (O2 * F * F)) (P Q U Z : aff (C1 A)) : bool :=
  let: (w, (o, a, t)) := x in let p := s2 o in let q := prj_mul p a in
  D w (ark_mkCRS [:: (P, Q); (U, Z)] [:: (into_affine p, into_affine q); (into_affine (prj_mul p t), into_affine (prj_mul q t))]
         P (into_affine p) (a_pairing P (into_affine p))).
Definition ark_ddh2 (x : W * (O2 * F * F)) (P Q U Z : aff (C1 A)) : bool := ark_ddh1 x P Q U (minus Z P).
Definition ark_ddh3 (x : W * (O1 * F * F)) (P Q U Z : aff (C2 A)) : bool :=
  let: (w, (o, a, t)) := x in let p := s1 o in let q := prj_mul p a in
  D w (ark_mkCRS [:: (into_affine p, into_affine q); (into_affine (prj_mul p t), into_affine (prj_sub (prj_mul q t) p))] [:: (P, Q); (U, Z)]
         (into_affine p) P (a_pairing (into_affine p) P)).
Definition ark_ddh4 (x : W * (O1 * F * F)) (P Q U Z : aff (C2 A)) : bool := ark_ddh3 x P Q U (minus Z P).
End Games.

(** Every group element has exactly one affine representation, given by the
    functions [f1], [f2] and [ft]; [s1], [s2] draw representations of the points that [z1], [z2] draw. *)
Record faithful (F : finFieldType) (G H T : lmodType F) (e : G -> H -> T) (A : ark F)
  (r1 : repr G (C1 A)) (r2 : repr H (C2 A)) (rt : T -> out A -> Prop)
  (f1 : G -> aff (C1 A)) (f2 : H -> aff (C2 A)) (ft : T -> out A) : Prop := Faithful {
  ff_impl : implements (E := Pairing e) r1 r2 rt;
  ff_1 : forall x a, ra r1 x a <-> a = f1 x;
  ff_2 : forall x a, ra r2 x a <-> a = f2 x;
  ff_t : forall x a, rt x a <-> a = ft x
}.
