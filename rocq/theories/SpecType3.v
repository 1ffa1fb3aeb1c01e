(** Specifications for pairings with a map between the groups: the tests that such a map allows. *)
From mathcomp Require Import all_ssreflect all_algebra.
From Verif Require Import Base Group DataStructures Generator Commit Spec.
Set Implicit Arguments.
Unset Strict Implicit.
Unset Printing Implicit Defensive.
Import Order.Theory GRing.Theory Num.Theory.
Local Open Scope ring_scope.

(** A one-to-one homomorphism. *)
Definition embedding {F : fieldType} {A B : lmodType F} (phi : A -> B) : Prop :=
  [/\ forall x y, phi (x + y) = phi x + phi y, forall k x, phi (k *: x) = k *: phi x & injective phi].

Section Type3.
Context {E : pairing}.

(** Whether [cs] are commitments to [X], tested with the key, the pairing and a
    map from G1 to G2... *)
Definition opens1 (phi : G1 E -> G2 E) (crs : CRS E) (cs : seq (Com1 E)) (X : seq (G1 E)) : bool :=
  (size cs == size X) &&
  all (fun i => pair_e (nth 0 cs i).1 (phi (u1 crs).2) == pair_e ((nth 0 cs i).2 - nth 0 X i) (phi (u1 crs).1)) (iota 0 (size cs)).
(** ... or from G2 to G1. *)
Definition opens2 (psi : G2 E -> G1 E) (crs : CRS E) (cs : seq (Com2 E)) (Y : seq (G2 E)) : bool :=
  (size cs == size Y) &&
  all (fun i => pair_e (psi (v1 crs).2) (nth 0 cs i).1 == pair_e (psi (v1 crs).1) ((nth 0 cs i).2 - nth 0 Y i)) (iota 0 (size cs)).

(** Whether the second key is a multiple of the first. *)
Definition key_test1 (phi : G1 E -> G2 E) (crs : CRS E) : bool := opens1 phi crs [:: u2 crs] [:: 0].
Definition key_test2 (psi : G2 E -> G1 E) (crs : CRS E) : bool := opens2 psi crs [:: v2 crs] [:: 0].
End Type3.
