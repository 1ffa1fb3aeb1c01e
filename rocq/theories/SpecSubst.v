(** Equations about linear combinations of values, as equations about the values. *)
From mathcomp Require Import all_ssreflect all_algebra.
From Verif Require Import Base Group DataStructures Commit Statement Spec.
Set Implicit Arguments.
Unset Strict Implicit.
Unset Printing Implicit Defensive.
Import GRing.Theory.
Local Open Scope ring_scope.

Section Subst.
Context {E : pairing}.
Implicit Types (L K : matrix (Fr E)).

(** The [m] combinations of the values [X] with the coefficients in the rows of [L]; of
    elements, and of scalars. *)
Definition comb {V : lmodType (Fr E)} (m : nat) L (X : seq V) : seq V :=
  mkseq (fun i => \sum_(h < size X) entry L i h *: nth 0 X h) m.
Definition combs (m : nat) L (X : seq (Fr E)) : seq (Fr E) :=
  mkseq (fun i => \sum_(h < size X) entry L i h * nth 0 X h) m.

(** The same combinations of commitments, and of their rows of [k] random scalars. *)
Definition comb_com {G : lmodType (Fr E)} (k m : nat) L (c : commit G) : commit G :=
  mkCommit (comb m L (coms c))
    (mkseq (fun i => mkseq (fun l => \sum_(h < size (crand c)) entry L i h * entry (crand c) h l) k) m).
Definition comb_proof (kx ky m n : nat) L K (p : CProof E) : CProof E :=
  mkCProof (comb_com kx m L (xcoms p)) (comb_com ky n K (ycoms p)) (equ_proofs p).

(** [L^T G K], [m'] by [n']. *)
Definition subst_gamma (m n m' n' : nat) L K (G : matrix (Fr E)) : matrix (Fr E) :=
  mkseq (fun h => mkseq (fun k => \sum_(i < m) \sum_(j < n) entry L i h * entry G i j * entry K j k) n') m'.

(** The equation about [m'] and [n'] values that says of their combinations [L] and [K] what
    the given equation says: the constants are [K^T a] and [L^T b]. *)
Definition subst_ppe (m' n' : nat) L K (q : PPE E) : PPE E :=
  let m := size (ppe_b q) in let n := size (ppe_a q) in
  mkPPE (mkseq (fun k => \sum_(j < n) entry K j k *: nth 0 (ppe_a q) j) n')
    (mkseq (fun h => \sum_(i < m) entry L i h *: nth 0 (ppe_b q) i) m')
    (subst_gamma m n m' n' L K (ppe_gamma q)) (ppe_target q).
Definition subst_ms1 (m' n' : nat) L K (q : MSMEG1 E) : MSMEG1 E :=
  let m := size (ms1_b q) in let n := size (ms1_a q) in
  mkMSMEG1 (mkseq (fun k => \sum_(j < n) entry K j k *: nth 0 (ms1_a q) j) n')
    (mkseq (fun h => \sum_(i < m) entry L i h * nth 0 (ms1_b q) i) m')
    (subst_gamma m n m' n' L K (ms1_gamma q)) (ms1_target q).
Definition subst_ms2 (m' n' : nat) L K (q : MSMEG2 E) : MSMEG2 E :=
  let m := size (ms2_b q) in let n := size (ms2_a q) in
  mkMSMEG2 (mkseq (fun k => \sum_(j < n) entry K j k * nth 0 (ms2_a q) j) n')
    (mkseq (fun h => \sum_(i < m) entry L i h *: nth 0 (ms2_b q) i) m')
    (subst_gamma m n m' n' L K (ms2_gamma q)) (ms2_target q).
Definition subst_quad (m' n' : nat) L K (q : QuadEqu E) : QuadEqu E :=
  let m := size (quad_b q) in let n := size (quad_a q) in
  mkQuadEqu (mkseq (fun k => \sum_(j < n) entry K j k * nth 0 (quad_a q) j) n')
    (mkseq (fun h => \sum_(i < m) entry L i h * nth 0 (quad_b q) i) m')
    (subst_gamma m n m' n' L K (quad_gamma q)) (quad_target q).
End Subst.
