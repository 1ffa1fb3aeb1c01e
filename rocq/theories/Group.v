(** The type parameter [E: ark_ec::pairing::Pairing] of all of /repo/src. *)
From mathcomp Require Import all_ssreflect all_algebra.
Set Implicit Arguments.
Unset Strict Implicit.
Unset Printing Implicit Defensive.
Import GRing.Theory.
Local Open Scope ring_scope.

(** data_structures.rs:23, 51-79: [E::ScalarField], [E::G1] / [E::G1Affine], [E::G2] / [E::G2Affine],
    [PairingOutput<E>] and [E::pairing]. Simplification: affine and projective
    representations of a point are the same element; groups are written
    additively, as in the code, [k *: x] is [x.mul(k)]. *)
Record pairing := Pairing {
  Fr : fieldType;
  G1 : lmodType Fr;
  G2 : lmodType Fr;
  GT : lmodType Fr;
  pair_e : G1 -> G2 -> GT
}.

(** The laws of a pairing. They are not part of the record: each theorem that
    needs one has it as a hypothesis. The trait [Pairing] that data_structures.rs:23
    imports asks for them. *)
Definition bilinear (E : pairing) : Prop :=
  [/\ forall (x x' : G1 E) (y : G2 E), pair_e (x + x') y = pair_e x y + pair_e x' y,
      forall (x : G1 E) (y y' : G2 E), pair_e x (y + y') = pair_e x y + pair_e x y',
      forall (k : Fr E) (x : G1 E) (y : G2 E), pair_e (k *: x) y = k *: pair_e x y
    & forall (k : Fr E) (x : G1 E) (y : G2 E), pair_e x (k *: y) = k *: pair_e x y].

(** In groups of prime order a non-degenerate pairing has no zero divisors;
    the code counts on it at generator.rs:145-148. *)
Definition nondegenerate (E : pairing) : Prop :=
  forall (x : G1 E) (y : G2 E), pair_e x y = 0 -> x = 0 \/ y = 0.

(** Groups of prime order: every non-identity element is a generator,
    as generator.rs:85-87 takes a random element for one. *)
Definition cyclic (F : fieldType) (G : lmodType F) : Prop :=
  forall P Q : G, P != 0 -> exists k : F, Q = k *: P.

(** [E::multi_pairing]: the sum of the pairings of the zipped inputs
    (arkworks; called at data_structures.rs:497-500). *)
Definition multi_pairing (E : pairing) (xs : seq (G1 E)) (ys : seq (G2 E)) : GT E :=
  foldl (fun acc xy => acc + pair_e xy.1 xy.2) 0 (zip xs ys).

(** [R: ark_std::rand::Rng] with [UniformRand::rand] for the three types that
    are sampled (generator.rs:86-93, for instance): an arbitrary state machine. *)
Record rng (E : pairing) := Rng {
  rst : Type;
  rand_fr : rst -> Fr E * rst;
  rand_g1 : rst -> G1 E * rst;
  rand_g2 : rst -> G2 E * rst
}.
