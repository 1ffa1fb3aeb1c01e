(** Specification of every function in closed form: the checks it runs, and the value it
    returns if they pass. *)
From mathcomp Require Import all_ssreflect all_algebra.
From Verif Require Import Base Group DataStructures Commit Statement Spec SpecMat SpecVerify SpecPanic.
Set Implicit Arguments.
Unset Strict Implicit.
Unset Printing Implicit Defensive.
Import GRing.Theory.
Local Open Scope ring_scope.

(** Panic with the first check that fails; return [a] if there is none. *)
Definition checked {A} (cs : seq check) (a : A) : res A :=
  if first_failed cs is Some p then Panic p else Ok a.

(** The [m] by [n] matrix with entries [f i j]. *)
Definition table {T} (m n : nat) (f : nat -> nat -> T) : matrix T := mkseq (fun i => mkseq (f i) n) m.

(** ** Matrices *)
Section Additive.
Context {V : zmodType}.
Implicit Types (A B : matrix V).
Definition sum_value A B : matrix V := table (size A) (width A) (fun i j => at_ A i j + at_ B i j).
Definition neg_value A : matrix V := [seq [seq - x | x <- r] | r <- A].
(** Column [j] has an entry for each row that is longer than [j]. *)
Definition transposed_value A : matrix V :=
  mkseq (fun j => [seq nth 0 r j | r <- A & (j < size r)%N]) (width A).
End Additive.

(** Scalar multiples and products [A * L], [L * A]; no row if a factor has no cell. *)
Section Scalars.
Context {F : fieldType}.
Implicit Types (A L : matrix F).
Definition fscaled_value A (k : F) : matrix F := table (size A) (width A) (fun i j => at_ A i j * k).
Definition fright_value A L : matrix F :=
  if void A || void L then [::]
  else table (size A) (width L) (fun i j => \sum_(k < size L) at_ A i k * at_ L k j).
Definition fleft_value A L : matrix F :=
  if void A || void L then [::]
  else table (size L) (width A) (fun i j => \sum_(k < size A) at_ L i k * at_ A k j).
End Scalars.

Section Module.
Context {F : fieldType} {V : lmodType F}.
Implicit Types (A : matrix V) (L : matrix F).
Definition scaled_value A (k : F) : matrix V := table (size A) (width A) (fun i j => k *: at_ A i j).
Definition right_value A L : matrix V :=
  if void A || void L then [::]
  else table (size A) (width L) (fun i j => \sum_(k < size L) at_ L k j *: at_ A i k).
Definition left_value A L : matrix V :=
  if void A || void L then [::]
  else table (size L) (width A) (fun i j => \sum_(k < size A) at_ L i k *: at_ A k j).
End Module.

(** The entries of a row or of a column. *)
Definition flat_value {T} (A : matrix T) : seq T :=
  if A is [:: r] then r else flatten [seq take 1 r | r <- A].

Section Curve.
Context {E : pairing}.
Implicit Types (crs : CRS E).

(** The images of group elements and scalars. *)
Definition i1 (x : G1 E) : Com1 E := (0, x).
Definition i2 (y : G2 E) : Com2 E := (0, y).
Definition k1 crs (x : Fr E) : Com1 E := x *: one1 crs.
Definition k2 crs (y : Fr E) : Com2 E := y *: one2 crs.

(** ** Commitments: [x + r_0 u_0 + ... + r_{k-1} u_{k-1}] for each value [x] *)
Definition commit_value {G : lmodType (Fr E)} (k : nat) (key : seq (com G)) (lin : seq (com G)) (r : nat -> nat -> Fr E) : commit G :=
  mkCommit (mkseq (fun i => nth 0 lin i + \sum_(l < k) r i l *: nth 0 key l) (size lin))
           (table (size lin) k r).

(** ** Verification: whether the two sides are equal *)
Definition verify_value (A : seq (Com1 E)) (B : seq (Com2 E)) (G : matrix (Fr E)) (p : CProof E)
  (t : ComT E) crs (pf : EquProof E) (kx ky : nat) : bool :=
  let c := coms (xcoms p) in let d := coms (ycoms p) in
  \sum_(j < size d) pairT (nth 0 A j) (nth 0 d j)
  + \sum_(i < size c) pairT (nth 0 c i) (nth 0 B i)
  + \sum_(i < size c) pairT (nth 0 c i) (\sum_(j < size d) at_ G i j *: nth 0 d j)
  == t + \sum_(k < kx) pairT (nth 0 (crs_u crs) k) (nth 0 (pi pf) k)
       + \sum_(l < ky) pairT (nth 0 (theta pf) l) (nth 0 (crs_v crs) l).

(** ** Proofs: with [m] and [n] values, randomness [R] and [S] of their commitments, images
    [A], [X], [B], [Y] of the constants and values, and fresh [T], [kx] and [ky] elements:
    [pi = R^T B + R^T G Y + (R^T G S - T^T) v] and [theta = S^T A + S^T G^T X + T u]. *)
Definition prove_value (m n kx ky : nat) (A X : seq (Com1 E)) (B Y : seq (Com2 E))
  (G R S T : matrix (Fr E)) crs (t : EquType) : EquProof E :=
  let RG k j := \sum_(i < m) at_ R i k * at_ G i j in
  mkEquProof
    (mkseq (fun k => \sum_(i < m) at_ R i k *: nth 0 B i
                     + \sum_(j < n) RG k j *: nth 0 Y j
                     + \sum_(l < ky) (\sum_(j < n) RG k j * at_ S j l - at_ T l k) *: nth 0 (crs_v crs) l) kx)
    (mkseq (fun l => \sum_(j < n) at_ S j l *: nth 0 A j
                     + \sum_(i < m) (\sum_(j < n) at_ S j l * at_ G i j) *: nth 0 X i
                     + \sum_(k < kx) at_ T l k *: nth 0 (crs_u crs) k) ky)
    t T.
End Curve.
