(** Re-randomization of commitments and proofs, combinations of equations and proofs.
    Specifications: nothing here is part of /repo. *)
From mathcomp Require Import all_ssreflect all_algebra.
From Verif Require Import Base Group DataStructures Commit Statement Spec SpecVerify SpecHide.
Set Implicit Arguments.
Unset Strict Implicit.
Unset Printing Implicit Defensive.
Import GRing.Theory.
Local Open Scope ring_scope.

Section SpecRerand.
Context {E : pairing}.

(** ** Re-randomization, without a witness *)

(** Commitments with fresh multiples of the first [k] key elements added. *)
Definition fresh_c (k : nat) (crs : CRS E) (R : nat -> nat -> Fr E) (c : seq (Com1 E)) : seq (Com1 E) :=
  mkseq (fun i => nth 0 c i + \sum_(a < k) R i a *: nth 0 (crs_u crs) a) (size c).
Definition fresh_d (k : nat) (crs : CRS E) (S : nat -> nat -> Fr E) (d : seq (Com2 E)) : seq (Com2 E) :=
  mkseq (fun j => nth 0 d j + \sum_(b < k) S j b *: nth 0 (crs_v crs) b) (size d).

(** The proof [p] for an equation with constants [A], [B] and matrix [G], carried over
    to the new commitments. *)
Definition rerand (A : seq (Com1 E)) (B : seq (Com2 E)) (G : matrix (Fr E)) (kx ky : nat) (crs : CRS E)
  (R S T : nat -> nat -> Fr E) (p : CProof E) : CProof E :=
  let c := coms (xcoms p) in let d := coms (ycoms p) in
  let c' := fresh_c kx crs R c in let d' := fresh_d ky crs S d in
  mkCProof (mkCommit c' [::]) (mkCommit d' [::])
    [seq mkEquProof
       (mkseq (fun a => nth 0 (pi f) a
          + \sum_(i < size c) R i a *: (nth 0 B i + \sum_(j < size d) entry G i j *: nth 0 d' j)
          - \sum_(b < ky) T b a *: nth 0 (crs_v crs) b) (size (pi f)))
       (mkseq (fun b => nth 0 (theta f) b
          + \sum_(j < size d) S j b *: (nth 0 A j + \sum_(i < size c) entry G i j *: nth 0 c i)
          + \sum_(a < kx) T b a *: nth 0 (crs_u crs) a) (size (theta f)))
       (equ_type f) [::] | f <- equ_proofs p].

Definition ppe_rerand (q : PPE E) (crs : CRS E) :=
  rerand [seq (0, x) | x <- ppe_a q] [seq (0, y) | y <- ppe_b q] (ppe_gamma q)
    (size (crs_u crs)) (size (crs_v crs)) crs.
Definition ms1_rerand (q : MSMEG1 E) (crs : CRS E) :=
  rerand [seq (0, x) | x <- ms1_a q] [seq y *: one2 crs | y <- ms1_b q] (ms1_gamma q)
    (size (crs_u crs)) 1 crs.
Definition ms2_rerand (q : MSMEG2 E) (crs : CRS E) :=
  rerand [seq x *: one1 crs | x <- ms2_a q] [seq (0, y) | y <- ms2_b q] (ms2_gamma q)
    1 (size (crs_v crs)) crs.
Definition quad_rerand (q : QuadEqu E) (crs : CRS E) :=
  rerand [seq x *: one1 crs | x <- quad_a q] [seq y *: one2 crs | y <- quad_b q] (quad_gamma q)
    1 1 crs.

(** [R], [S] and [T] read off a sequence of scalars, for [m] and [n] variables with [kx]
    and [ky] random scalars each. *)
Definition part_R (kx : nat) (t : seq (Fr E)) (i a : nat) : Fr E := nth 0 t (kx * i + a).
Definition part_S (m kx ky : nat) (t : seq (Fr E)) (j b : nat) : Fr E := nth 0 t (kx * m + (ky * j + b)).
Definition part_T (m n kx ky : nat) (t : seq (Fr E)) (b a : nat) : Fr E := nth 0 t (kx * m + (ky * n + (kx * b + a))).

(** Re-randomization with the scalars [t] of a tape. *)
Definition refresh (kx ky : nat) (rr : (nat -> nat -> Fr E) -> (nat -> nat -> Fr E) -> (nat -> nat -> Fr E) -> CProof E -> CProof E)
  (p : CProof E) (t : seq (Fr E)) : CProof E :=
  let m := size (coms (xcoms p)) in let n := size (coms (ycoms p)) in
  rr (part_R kx t) (part_S m kx ky t) (part_T m n kx ky t) p.
Definition ppe_refresh (q : PPE E) (crs : CRS E) := refresh 2 2 (ppe_rerand q crs).
Definition ms1_refresh (q : MSMEG1 E) (crs : CRS E) := refresh 2 1 (ms1_rerand q crs).
Definition ms2_refresh (q : MSMEG2 E) (crs : CRS E) := refresh 1 2 (ms2_rerand q crs).
Definition quad_refresh (q : QuadEqu E) (crs : CRS E) := refresh 1 1 (quad_rerand q crs).

(** The program that draws [N] scalars and applies [f] to them. *)
Definition with_draws {T : Type} (N : nat) (f : seq (Fr E) -> T) (R : rng E) (s : rst R) : res (T * rst R) :=
  Ok (f (draws N s), after N s).

(** ** Combinations *)

(** [x + k y], entry by entry. *)
Definition comb {V : lmodType (Fr E)} (k : Fr E) (x y : seq V) : seq V :=
  mkseq (fun i => nth 0 x i + k *: nth 0 y i) (size x).
Definition combf (k : Fr E) (x y : seq (Fr E)) : seq (Fr E) :=
  mkseq (fun i => nth 0 x i + k * nth 0 y i) (size x).
Definition combm (k : Fr E) (G H : matrix (Fr E)) : matrix (Fr E) :=
  mkseq (fun i => combf k (nth [::] G i) (nth [::] H i)) (size G).

(** Equations: the first plus [k] times the second. *)
Definition ppe_comb (k : Fr E) (q q' : PPE E) : PPE E :=
  mkPPE (comb k (ppe_a q) (ppe_a q')) (comb k (ppe_b q) (ppe_b q')) (combm k (ppe_gamma q) (ppe_gamma q'))
    (ppe_target q + k *: ppe_target q').
Definition ms1_comb (k : Fr E) (q q' : MSMEG1 E) : MSMEG1 E :=
  mkMSMEG1 (comb k (ms1_a q) (ms1_a q')) (combf k (ms1_b q) (ms1_b q')) (combm k (ms1_gamma q) (ms1_gamma q'))
    (ms1_target q + k *: ms1_target q').
Definition ms2_comb (k : Fr E) (q q' : MSMEG2 E) : MSMEG2 E :=
  mkMSMEG2 (combf k (ms2_a q) (ms2_a q')) (comb k (ms2_b q) (ms2_b q')) (combm k (ms2_gamma q) (ms2_gamma q'))
    (ms2_target q + k *: ms2_target q').
Definition quad_comb (k : Fr E) (q q' : QuadEqu E) : QuadEqu E :=
  mkQuadEqu (combf k (quad_a q) (quad_a q')) (combf k (quad_b q) (quad_b q')) (combm k (quad_gamma q) (quad_gamma q'))
    (quad_target q + k * quad_target q').

(** Proofs. *)
Definition pf_comb (k : Fr E) (f f' : EquProof E) : EquProof E :=
  mkEquProof (comb k (pi f) (pi f')) (comb k (theta f) (theta f')) (equ_type f) [::].

(** Equations that differ in the target only and have no products of variables. *)
Definition ppe_linear (q q' : PPE E) : Prop :=
  [/\ ppe_a q = ppe_a q', ppe_b q = ppe_b q', ppe_gamma q = ppe_gamma q' & forall i j, entry (ppe_gamma q) i j = 0].
Definition ms1_linear (q q' : MSMEG1 E) : Prop :=
  [/\ ms1_a q = ms1_a q', ms1_b q = ms1_b q', ms1_gamma q = ms1_gamma q' & forall i j, entry (ms1_gamma q) i j = 0].
Definition ms2_linear (q q' : MSMEG2 E) : Prop :=
  [/\ ms2_a q = ms2_a q', ms2_b q = ms2_b q', ms2_gamma q = ms2_gamma q' & forall i j, entry (ms2_gamma q) i j = 0].
Definition quad_linear (q q' : QuadEqu E) : Prop :=
  [/\ quad_a q = quad_a q', quad_b q = quad_b q', quad_gamma q = quad_gamma q' & forall i j, entry (quad_gamma q) i j = 0].
(** Such an equation with the first target plus [k] times the second. *)
Definition ppe_sum (k : Fr E) (q q' : PPE E) : PPE E := mkPPE (ppe_a q) (ppe_b q) (ppe_gamma q) (ppe_target q + k *: ppe_target q').
Definition ms1_sum (k : Fr E) (q q' : MSMEG1 E) : MSMEG1 E := mkMSMEG1 (ms1_a q) (ms1_b q) (ms1_gamma q) (ms1_target q + k *: ms1_target q').
Definition ms2_sum (k : Fr E) (q q' : MSMEG2 E) : MSMEG2 E := mkMSMEG2 (ms2_a q) (ms2_b q) (ms2_gamma q) (ms2_target q + k *: ms2_target q').
Definition quad_sum (k : Fr E) (q q' : QuadEqu E) : QuadEqu E := mkQuadEqu (quad_a q) (quad_b q) (quad_gamma q) (quad_target q + k * quad_target q').
End SpecRerand.

(** [pf] is what [f] computes from the [N] random scalars [t]. *)
Definition yields {E : pairing} (N : nat) (f : forall R : rng E, rst R -> res (EquProof E * rst R)) (pf : EquProof E)
  (t : N.-tuple (Fr E)) : Prop :=
  forall (R : rng E) (s : rst R), draws N s = t -> seen (fun g => (pi g, theta g)) (f R s) = Ok (pi pf, theta pf).
