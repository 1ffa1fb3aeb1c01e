(** The two groups in the other order: the mirror image of a pairing, and of everything built over it. *)
From mathcomp Require Import all_ssreflect all_algebra.
From Verif Require Import Base Group DataStructures Commit Statement Spec.
Set Implicit Arguments.
Unset Strict Implicit.
Unset Printing Implicit Defensive.
Import GRing.Theory.
Local Open Scope ring_scope.

Section Mirror.
Variable E : pairing.

(** The pairing with its two groups exchanged. *)
Definition mirror : pairing := @Pairing (Fr E) (G2 E) (G1 E) (GT E) (fun y x => pair_e x y).

(** The reference string with its two keys exchanged. *)
Definition mirror_crs (crs : CRS E) : CRS mirror :=
  @mkCRS mirror (crs_v crs) (crs_u crs) (g2_gen crs) (g1_gen crs) (gt_gen crs).

(** The [m] by [n] matrix [G] as an [n] by [m] matrix. *)
Definition turned (m n : nat) (G : matrix (Fr E)) : matrix (Fr E) :=
  mkseq (fun j => mkseq (fun i => entry G i j) m) n.

(** The same equation with the left and the right variables exchanged. *)
Definition mirror_ppe (q : PPE E) : PPE mirror :=
  @mkPPE mirror (ppe_b q) (ppe_a q) (turned (size (ppe_b q)) (size (ppe_a q)) (ppe_gamma q)) (ppe_target q).
Definition mirror_ms1 (q : MSMEG1 E) : MSMEG2 mirror :=
  @mkMSMEG2 mirror (ms1_b q) (ms1_a q) (turned (size (ms1_b q)) (size (ms1_a q)) (ms1_gamma q)) (ms1_target q).
Definition mirror_ms2 (q : MSMEG2 E) : MSMEG1 mirror :=
  @mkMSMEG1 mirror (ms2_b q) (ms2_a q) (turned (size (ms2_b q)) (size (ms2_a q)) (ms2_gamma q)) (ms2_target q).
Definition mirror_quad (q : QuadEqu E) : QuadEqu mirror :=
  @mkQuadEqu mirror (quad_b q) (quad_a q) (turned (size (quad_b q)) (size (quad_a q)) (quad_gamma q)) (quad_target q).

(** The two kinds of multi-scalar equations change places. *)
Definition mirror_type (t : EquType) : EquType :=
  match t with MultiScalarG1 => MultiScalarG2 | MultiScalarG2 => MultiScalarG1 | _ => t end.

(** [pi] and [theta], and the two lists of commitments, change places. *)
Definition mirror_pf (f : EquProof E) : EquProof mirror :=
  @mkEquProof mirror (theta f) (pi f) (mirror_type (equ_type f)) (pf_rand f).
Definition mirror_proof (p : CProof E) : CProof mirror :=
  @mkCProof mirror (ycoms p) (xcoms p) [seq mirror_pf f | f <- equ_proofs p].

(** The same source of randomness. *)
Definition mirror_rng (R : rng E) : rng mirror := @Rng mirror (rst R) (@rand_fr E R) (@rand_g2 E R) (@rand_g1 E R).
End Mirror.
