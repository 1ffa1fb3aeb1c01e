(** Specifications for the verifier: the equation it checks, the shapes it accepts, the part of a proof it reads. *)
From mathcomp Require Import all_ssreflect all_algebra.
From Verif Require Import Base Group DataStructures Commit Statement Spec SpecMat.
Set Implicit Arguments.
Unset Strict Implicit.
Unset Printing Implicit Defensive.
Import GRing.Theory.
Local Open Scope ring_scope.

Section SpecVerify.
Context {E : pairing}.

(** What the prover publishes: the commitments, pi, theta and the type. *)
Definition public (p : CProof E) :=
  (coms (xcoms p), coms (ycoms p), [seq (pi f, theta f, equ_type f) | f <- equ_proofs p]).

(** The shapes of [gamma] accepted with [m] and [n] commitments. *)
Definition gamma_fits (m n : nat) (G : matrix (Fr E)) : Prop :=
  ((G = [::] \/ mrow G 0 = [::] \/ n = 0%N) /\ m = 0%N) \/
  [/\ (0 < m)%N, (0 < n)%N, size G = m, size (mrow G 0) = n
    & forall i, (i < m)%N -> (n <= size (mrow G i))%N].

(** The pairing of two commitments: all four pairings of their components. *)
Definition pairT (x : Com1 E) (y : Com2 E) : ComT E :=
  ((pair_e x.1 y.1, pair_e x.1 y.2), (pair_e x.2 y.1, pair_e x.2 y.2)).

(** The image of [1] under the scalar maps. *)
Definition one1 (crs : CRS E) : Com1 E := u2 crs + (0, g1_gen crs).
Definition one2 (crs : CRS E) : Com2 E := v2 crs + (0, g2_gen crs).

(** The Groth-Sahai verification equation with constants [A], [B], commitments
    [c], [d], target [t]; [kx] elements of [pi] and [ky] of [theta] take part. *)
Definition gs_check (A : seq (Com1 E)) (B : seq (Com2 E)) (G : matrix (Fr E))
  (c : seq (Com1 E)) (d : seq (Com2 E)) (t : ComT E) (crs : CRS E) (pf : EquProof E) (kx ky : nat) : Prop :=
  \sum_(j < size d) pairT (nth 0 A j) (nth 0 d j)
  + \sum_(i < size c) pairT (nth 0 c i) (nth 0 B i)
  + \sum_(i < size c) \sum_(j < size d) entry G i j *: pairT (nth 0 c i) (nth 0 d j)
  = t + \sum_(i < kx) pairT (nth 0 (crs_u crs) i) (nth 0 (pi pf) i)
      + \sum_(l < ky) pairT (nth 0 (theta pf) l) (nth 0 (crs_v crs) l).

(** The proof [pf] shifted by [T]: [pi - T^T v], [theta + T u]. *)
Definition shift_proof (T : nat -> nat -> Fr E) (crs : CRS E) (kx ky : nat) (pf : EquProof E) : EquProof E :=
  mkEquProof
    (mkseq (fun i => nth 0 (pi pf) i - \sum_(l < ky) T l i *: nth 0 (crs_v crs) l) (size (pi pf)))
    (mkseq (fun l => nth 0 (theta pf) l + \sum_(i < kx) T l i *: nth 0 (crs_u crs) i) (size (theta pf)))
    (equ_type pf) (pf_rand pf).

(** [pf] with more elements in [pi] and [theta]. *)
Definition longer (pf : EquProof E) (p : seq (Com2 E)) (th : seq (Com1 E)) : EquProof E :=
  mkEquProof (pi pf ++ p) (theta pf ++ th) (equ_type pf) (pf_rand pf).

(** [G] and [G'] differ only beyond the length of their common first row. *)
Definition same_visible (G G' : matrix (Fr E)) : Prop :=
  [/\ size G = size G', mrow G 0 = mrow G' 0
    & forall i, take (size (mrow G 0)) (mrow G i) = take (size (mrow G 0)) (mrow G' i)].
End SpecVerify.
