(** The last left, or the last right, variable of an equation is known: the equation about the others. *)
From mathcomp Require Import all_ssreflect all_algebra.
From Verif Require Import Base Group DataStructures Commit Statement Spec.
Set Implicit Arguments.
Unset Strict Implicit.
Unset Printing Implicit Defensive.
Import GRing.Theory.
Local Open Scope ring_scope.

Section Known.
Context {E : pairing}.

(** The terms with the known value [x] of the last left variable become part of the constants
    of the right variables and of the target. *)
Definition known_ppe (q : PPE E) (x : G1 E) : PPE E :=
  let m := (size (ppe_b q)).-1 in
  mkPPE (mkseq (fun j => nth 0 (ppe_a q) j + entry (ppe_gamma q) m j *: x) (size (ppe_a q)))
    (take m (ppe_b q)) (take m (ppe_gamma q)) (ppe_target q - pair_e x (nth 0 (ppe_b q) m)).
Definition known_ms1 (q : MSMEG1 E) (x : G1 E) : MSMEG1 E :=
  let m := (size (ms1_b q)).-1 in
  mkMSMEG1 (mkseq (fun j => nth 0 (ms1_a q) j + entry (ms1_gamma q) m j *: x) (size (ms1_a q)))
    (take m (ms1_b q)) (take m (ms1_gamma q)) (ms1_target q - nth 0 (ms1_b q) m *: x).
Definition known_ms2 (q : MSMEG2 E) (x : Fr E) : MSMEG2 E :=
  let m := (size (ms2_b q)).-1 in
  mkMSMEG2 (mkseq (fun j => nth 0 (ms2_a q) j + entry (ms2_gamma q) m j * x) (size (ms2_a q)))
    (take m (ms2_b q)) (take m (ms2_gamma q)) (ms2_target q - x *: nth 0 (ms2_b q) m).
Definition known_quad (q : QuadEqu E) (x : Fr E) : QuadEqu E :=
  let m := (size (quad_b q)).-1 in
  mkQuadEqu (mkseq (fun j => nth 0 (quad_a q) j + entry (quad_gamma q) m j * x) (size (quad_a q)))
    (take m (quad_b q)) (take m (quad_gamma q)) (quad_target q - x * nth 0 (quad_b q) m).

(** Commitments and, at the end, the value [z] itself, which is its commitment with the [k]
    random scalars zero. *)
Definition and_known (k : nat) (c : Commit1 E) (z : Com1 E) : Commit1 E :=
  mkCommit (rcons (coms c) z) (rcons (crand c) (nseq k 0)).
Definition with_known (k : nat) (p : CProof E) (z : Com1 E) : CProof E :=
  mkCProof (and_known k (xcoms p) z) (ycoms p) (equ_proofs p).

(** The same for the last right variable. *)
Definition known_y_ppe (q : PPE E) (y : G2 E) : PPE E :=
  let n := (size (ppe_a q)).-1 in
  mkPPE (take n (ppe_a q)) (mkseq (fun i => nth 0 (ppe_b q) i + entry (ppe_gamma q) i n *: y) (size (ppe_b q)))
    [seq take n r | r <- ppe_gamma q] (ppe_target q - pair_e (nth 0 (ppe_a q) n) y).
Definition known_y_ms1 (q : MSMEG1 E) (y : Fr E) : MSMEG1 E :=
  let n := (size (ms1_a q)).-1 in
  mkMSMEG1 (take n (ms1_a q)) (mkseq (fun i => nth 0 (ms1_b q) i + entry (ms1_gamma q) i n * y) (size (ms1_b q)))
    [seq take n r | r <- ms1_gamma q] (ms1_target q - y *: nth 0 (ms1_a q) n).
Definition known_y_ms2 (q : MSMEG2 E) (y : G2 E) : MSMEG2 E :=
  let n := (size (ms2_a q)).-1 in
  mkMSMEG2 (take n (ms2_a q)) (mkseq (fun i => nth 0 (ms2_b q) i + entry (ms2_gamma q) i n *: y) (size (ms2_b q)))
    [seq take n r | r <- ms2_gamma q] (ms2_target q - nth 0 (ms2_a q) n *: y).
Definition known_y_quad (q : QuadEqu E) (y : Fr E) : QuadEqu E :=
  let n := (size (quad_a q)).-1 in
  mkQuadEqu (take n (quad_a q)) (mkseq (fun i => nth 0 (quad_b q) i + entry (quad_gamma q) i n * y) (size (quad_b q)))
    [seq take n r | r <- quad_gamma q] (quad_target q - nth 0 (quad_a q) n * y).
Definition and_known_y (k : nat) (c : Commit2 E) (z : Com2 E) : Commit2 E :=
  mkCommit (rcons (coms c) z) (rcons (crand c) (nseq k 0)).
Definition with_known_y (k : nat) (p : CProof E) (z : Com2 E) : CProof E :=
  mkCProof (xcoms p) (and_known_y k (ycoms p) z) (equ_proofs p).
End Known.
