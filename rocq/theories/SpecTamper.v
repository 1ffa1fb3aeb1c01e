(** Specifications: an equation, a proof or a reference string of which one element is replaced. *)
From mathcomp Require Import all_ssreflect all_algebra.
From Verif Require Import Base Group DataStructures Commit Statement Spec SpecMat SpecVerify.
Set Implicit Arguments.
Unset Strict Implicit.
Unset Printing Implicit Defensive.
Import GRing.Theory.
Local Open Scope ring_scope.

(** [s] with [x] at position [i]. *)
Definition put {T : zmodType} (i : nat) (x : T) (s : seq T) : seq T :=
  [seq if k == i then x else nth 0 s k | k <- iota 0 (size s)].
(** [G] with [x] at position [i], [j]. *)
Definition put_entry {T : zmodType} (i j : nat) (x : T) (G : matrix T) : matrix T :=
  [seq if k == i then put j x (nth [::] G k) else nth [::] G k | k <- iota 0 (size G)].

Section SpecTamper.
Context {E : pairing}.

(** Another commitment to the [i]-th variable of [X], of [Y]. *)
Definition alter_x (i : nat) (c : Com1 E) (p : CProof E) : CProof E :=
  mkCProof (mkCommit (put i c (coms (xcoms p))) (crand (xcoms p))) (ycoms p) (equ_proofs p).
Definition alter_y (j : nat) (d : Com2 E) (p : CProof E) : CProof E :=
  mkCProof (xcoms p) (mkCommit (put j d (coms (ycoms p))) (crand (ycoms p))) (equ_proofs p).
(** Another element of [pi], of [theta]. *)
Definition alter_pi (i : nat) (x : Com2 E) (p : CProof E) : CProof E :=
  mkCProof (xcoms p) (ycoms p) [seq mkEquProof (put i x (pi f)) (theta f) (equ_type f) (pf_rand f) | f <- equ_proofs p].
Definition alter_theta (l : nat) (x : Com1 E) (p : CProof E) : CProof E :=
  mkCProof (xcoms p) (ycoms p) [seq mkEquProof (pi f) (put l x (theta f)) (equ_type f) (pf_rand f) | f <- equ_proofs p].

(** What multiplies the [i]-th variable of [X] in the verification equation, with constants [B] and commitments [d]; likewise of [Y]. *)
Definition factor_x (B : seq (Com2 E)) (G : matrix (Fr E)) (d : seq (Com2 E)) (i : nat) : Com2 E :=
  nth 0 B i + \sum_(j < size d) entry G i j *: nth 0 d j.
Definition factor_y (A : seq (Com1 E)) (G : matrix (Fr E)) (c : seq (Com1 E)) (j : nat) : Com1 E :=
  nth 0 A j + \sum_(i < size c) entry G i j *: nth 0 c i.

(** [r] returns, and the answer is yes exactly if [P]. *)
Definition answers (r : res bool) (P : Prop) : Prop := exists2 b, r = Ok b & b <-> P.
End SpecTamper.
