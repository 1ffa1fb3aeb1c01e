(** Specifications for the trapdoors of the two kinds of keys: decryption and reopening of commitments. *)
From mathcomp Require Import all_ssreflect all_algebra.
From Verif Require Import Base Group DataStructures Generator Commit Statement Spec.
Set Implicit Arguments.
Unset Strict Implicit.
Unset Printing Implicit Defensive.
Import GRing.Theory.
Local Open Scope ring_scope.

Section SpecTrap.
Context {E : pairing}.

(** ElGamal decryption with the secret key [a]. *)
Definition decrypt {G : lmodType (Fr E)} (a : Fr E) (c : com G) : G := c.2 - a *: c.1.

(** [a1], [a2] are secret keys for [u1], [v1]. *)
Definition secret_keys (crs : CRS E) (a1 a2 : Fr E) : Prop :=
  (u1 crs).2 = a1 *: g1_gen crs /\ (v1 crs).2 = a2 *: g2_gen crs.

(** The equations with scalars replaced by multiples of the generators. *)
Definition ms1_lifted (q : MSMEG1 E) (crs : CRS E) : PPE E :=
  mkPPE (ms1_a q) [seq b *: g2_gen crs | b <- ms1_b q] (ms1_gamma q) (pair_e (ms1_target q) (g2_gen crs)).
Definition ms2_lifted (q : MSMEG2 E) (crs : CRS E) : PPE E :=
  mkPPE [seq a *: g1_gen crs | a <- ms2_a q] (ms2_b q) (ms2_gamma q) (pair_e (g1_gen crs) (ms2_target q)).
Definition quad_lifted (q : QuadEqu E) (crs : CRS E) : PPE E :=
  mkPPE [seq a *: g1_gen crs | a <- quad_a q] [seq b *: g2_gen crs | b <- quad_b q] (quad_gamma q)
    (quad_target q *: pair_e (g1_gen crs) (g2_gen crs)).

(** The scalars that [generate_crs] draws after its two points. *)
Definition drawn_keys {R : rng E} (s : rst R) : Fr E * Fr E :=
  let s2 := (rand_g2 (rand_g1 s).2).2 in (drawn s2 0, drawn s2 1).

(** Commitments to the multiples [K] of a generator, or to the scalars [K],
    made with randomness [r]: the randomness that opens them to [K'], if the
    key is hiding with trapdoor [t]. *)
Definition reopen_points (t : Fr E) (K K' : seq (Fr E)) (r : matrix (Fr E)) : matrix (Fr E) :=
  mkseq (fun i => let d := nth 0 K i - nth 0 K' i in [:: nth 0 (nth [::] r i) 0 + d * t; nth 0 (nth [::] r i) 1 - d]) (size K).
Definition reopen_scalars (t : Fr E) (K K' : seq (Fr E)) (r : matrix (Fr E)) : matrix (Fr E) :=
  mkseq (fun i => [:: nth 0 (nth [::] r i) 0 + (nth 0 K i - nth 0 K' i) * t]) (size K).

(** An RNG that draws the scalars of a list. *)
Definition list_rng : rng E := @Rng E (seq (Fr E)) (fun t => (head 0 t, behead t)) (fun t => (0, t)) (fun t => (0, t)).
End SpecTrap.
