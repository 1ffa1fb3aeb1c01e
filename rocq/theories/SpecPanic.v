(** Specification of the ways in which calls panic: each function runs a list of
    checks, in program order, and panics with the kind of the first one that fails. *)
From mathcomp Require Import all_ssreflect all_algebra.
From Verif Require Import Base Group DataStructures Commit Statement.
Set Implicit Arguments.
Unset Strict Implicit.
Unset Printing Implicit Defensive.
Import GRing.Theory.

(** How a call ends: [None] if it returns. *)
Definition outcome {A} (r : res A) : option panic :=
  match r with Ok _ => None | Panic p => Some p end.

(** A condition and the panic raised if it does not hold. *)
Definition check := (bool * panic)%type.
(** A failed [assert_eq!]. *)
Definition asserts (b : bool) : check := (b, AssertFailed).
(** An index out of bounds. *)
Definition reads (b : bool) : check := (b, IndexOutOfBounds).

(** The first check that fails. *)
Fixpoint first_failed (cs : seq check) : option panic :=
  match cs with
  | [::] => None
  | (b, p) :: cs' => if b then first_failed cs' else Some p
  end.

(** Length of the first row, and bounds on the lengths of all rows. *)
Definition width {T} (M : matrix T) : nat := if M is r :: _ then size r else 0.
Definition wide {T} (n : nat) (M : matrix T) : bool := all (fun r => n <= size r) M.
Definition narrow {T} (n : nat) (M : matrix T) : bool := all (fun r => size r <= n) M.
(** Number of rows with at least [k] entries. *)
Definition reach {T} (k : nat) (M : matrix T) : nat := count (fun r => k <= size r) M.
(** No row, or an empty first row. *)
Definition void {T} (M : matrix T) : bool := (size M == 0) || (width M == 0).

(** ** Matrices *)
Section Matrices.
Context {T S : Type}.
Implicit Types (A B : matrix T) (L : matrix S).
Definition add_checks A B : seq check :=
  [:: asserts (size A == size B); reads (0 < size A); asserts (width A == width B);
      reads (wide (width A) A && wide (width A) B)].
Definition scalar_mul_checks A : seq check :=
  [:: reads (0 < size A); reads (wide (width A) A)].
Definition transpose_checks A : seq check :=
  [:: reads (0 < size A); reads (narrow (width A) A)].
(** [A.right_mul(L)] *)
Definition right_mul_checks A L : seq check :=
  if void A || void L then [::] else
  [:: asserts (width A == size L); reads (wide (size L) A && wide (width L) L)].
(** [A.left_mul(L)] *)
Definition left_mul_checks A L : seq check :=
  if void A || void L then [::] else
  [:: asserts (width L == size A); reads (wide (size A) L && wide (width A) A)].
Definition flatten_checks A : seq check :=
  if size A == 1 then [::] else [:: reads (wide 1 A)].
(** An [r] by [c] matrix built from a [Vec<Vec<_>>] (Com1, Com2: 2 by 1; ComT: 2 by 2). *)
Definition from_checks (c : nat) A : seq check :=
  [:: asserts (size A == 2); asserts (width A == c); asserts (width (behead A) == c)].
End Matrices.

(** ** Commitments

    [k] is the number of key elements, [m] the number of committed values. *)
Definition commit_checks (k : nat) : seq check := [:: reads (1 < k)].
Definition batch_checks (k m : nat) : seq check :=
  [:: asserts ((m == 0) || (k == 2)); reads (0 < m)].
Definition batch_scalar_checks (k m : nat) : seq check :=
  [:: reads ((m == 0) || (1 < k)); reads (0 < m)].
Definition append_checks {F : fieldType} {G : lmodType F} (c c' : commit G) : seq check :=
  [:: asserts (size (coms c) == size (crand c)); asserts (size (coms c') == size (crand c'))].

Section Equations.
Context {E : pairing}.

(** ** Verification

    The products of the commitments with the matrix of the equation
    (verifier.rs:39-42, 73-76, 107-110, 141-144). *)
Definition gamma_checks (G : matrix (Fr E)) (m n : nat) : seq check :=
  let skip := void G || (n == 0) in
  [:: asserts (skip || (width G == n)); reads (skip || wide n G);
      asserts (m == if skip then 0 else size G)].

(** verifier.rs:24-54, for one proof [pf]; [m] and [n] are the numbers of commitments. *)
Definition ppe_verify_checks (q : PPE E) (m n : nat) (pf : EquProof E) (crs : CRS E) : seq check :=
  [:: asserts (if equ_type pf is PairingProduct then true else false);
      asserts (size (ppe_a q) == n);
      asserts (m == size (ppe_b q))] ++
  gamma_checks (ppe_gamma q) m n ++
  [:: asserts (size (crs_u crs) == size (pi pf)); asserts (size (theta pf) == size (crs_v crs))].

(** verifier.rs:58-88, for one proof [pf]; [m] and [n] are the numbers of commitments. *)
Definition ms1_verify_checks (q : MSMEG1 E) (m n : nat) (pf : EquProof E) (crs : CRS E) : seq check :=
  [:: asserts (if equ_type pf is MultiScalarG1 then true else false);
      asserts (size (ms1_a q) == n);
      reads (nilp (ms1_b q) || (1 < size (crs_v crs)));
      asserts (m == size (ms1_b q))] ++
  gamma_checks (ms1_gamma q) m n ++
  [:: reads (1 < size (crs_v crs)); asserts (size (crs_u crs) == size (pi pf)); reads (0 < size (theta pf))].

(** verifier.rs:92-122, for one proof [pf]; [m] and [n] are the numbers of commitments. *)
Definition ms2_verify_checks (q : MSMEG2 E) (m n : nat) (pf : EquProof E) (crs : CRS E) : seq check :=
  [:: asserts (if equ_type pf is MultiScalarG2 then true else false);
      reads (nilp (ms2_a q) || (1 < size (crs_u crs)));
      asserts (size (ms2_a q) == n);
      asserts (m == size (ms2_b q))] ++
  gamma_checks (ms2_gamma q) m n ++
  [:: reads (1 < size (crs_u crs)); reads (0 < size (pi pf)); asserts (size (theta pf) == size (crs_v crs))].

(** verifier.rs:126-156, for one proof [pf]; [m] and [n] are the numbers of commitments. *)
Definition quad_verify_checks (q : QuadEqu E) (m n : nat) (pf : EquProof E) (crs : CRS E) : seq check :=
  [:: asserts (if equ_type pf is Quadratic then true else false);
      reads (nilp (quad_a q) || (1 < size (crs_u crs)));
      asserts (size (quad_a q) == n);
      reads (nilp (quad_b q) || (1 < size (crs_v crs)));
      asserts (m == size (quad_b q))] ++
  gamma_checks (quad_gamma q) m n ++
  [:: reads (1 < size (crs_u crs)); reads (1 < size (crs_v crs)); reads (0 < size (pi pf)); reads (0 < size (theta pf))].

(** ** Proving

    [m], [n]: numbers of values; [rx], [ry]: the randomness of the commitments. *)
(** prove.rs:92-171. *)
Definition ppe_prove_checks (q : PPE E) (m n : nat) (rx ry : matrix (Fr E)) (crs : CRS E) : seq check :=
  [:: asserts (m == size rx);
      asserts (size (ppe_gamma q) == size rx);
      reads (0 < size rx);
      asserts (width rx == 2);
      asserts (n == size ry);
      asserts (width (ppe_gamma q) == size ry);
      reads (0 < size ry);
      asserts (width ry == 2);
      reads (narrow 2 rx);
      reads (narrow 2 ry);
      asserts (nilp (ppe_b q) || (reach 1 rx == size (ppe_b q)));
      reads (nilp (ppe_b q) || (size (ppe_b q) <= reach 2 rx));
      asserts (reach 1 rx == size rx);
      reads (wide 2 rx);
      reads (wide n (ppe_gamma q));
      reads (wide 2 ry);
      asserts (nilp (crs_v crs) || (size (crs_v crs) == 2));
      asserts (~~ nilp (ppe_b q));
      asserts (~~ nilp (crs_v crs));
      asserts (nilp (ppe_a q) || (n == size (ppe_a q)));
      reads (narrow n (ppe_gamma q));
      asserts (nilp (crs_u crs) || (size (crs_u crs) == 2));
      asserts (~~ nilp (ppe_a q));
      asserts (~~ nilp (crs_u crs))].

(** prove.rs:195-274. *)
Definition ms1_prove_checks (q : MSMEG1 E) (m n : nat) (rx ry : matrix (Fr E)) (crs : CRS E) : seq check :=
  [:: asserts (m == size rx);
      asserts (size (ms1_gamma q) == size rx);
      reads (0 < size rx);
      asserts (width rx == 2);
      asserts (n == size ry);
      asserts (width (ms1_gamma q) == size ry);
      reads (0 < size ry);
      asserts (width ry == 1);
      reads (narrow 2 rx);
      reads (narrow 1 ry);
      reads (nilp (ms1_b q) || (1 < size (crs_v crs)));
      asserts (nilp (ms1_b q) || (reach 1 rx == size (ms1_b q)));
      reads (nilp (ms1_b q) || (size (ms1_b q) <= reach 2 rx));
      asserts (reach 1 rx == size rx);
      reads (wide 2 rx);
      reads (wide n (ms1_gamma q));
      reads (1 < size (crs_v crs));
      reads (wide 1 ry);
      asserts (~~ nilp (ms1_b q));
      asserts (nilp (ms1_a q) || (n == size (ms1_a q)));
      reads (narrow n (ms1_gamma q));
      asserts (nilp (crs_u crs) || (size (crs_u crs) == 2));
      asserts (~~ nilp (ms1_a q));
      asserts (~~ nilp (crs_u crs))].

(** prove.rs:298-379. *)
Definition ms2_prove_checks (q : MSMEG2 E) (m n : nat) (rx ry : matrix (Fr E)) (crs : CRS E) : seq check :=
  [:: asserts (m == size rx);
      asserts (size (ms2_gamma q) == size rx);
      reads (0 < size rx);
      asserts (width rx == 1);
      asserts (n == size ry);
      asserts (width (ms2_gamma q) == size ry);
      reads (0 < size ry);
      asserts (width ry == 2);
      reads (narrow 1 rx);
      reads (narrow 2 ry);
      asserts (nilp (ms2_b q) || (reach 1 rx == size (ms2_b q)));
      asserts (reach 1 rx == size rx);
      reads (wide n (ms2_gamma q));
      reads (wide 2 ry);
      asserts (nilp (crs_v crs) || (size (crs_v crs) == 2));
      asserts (~~ nilp (ms2_b q));
      asserts (~~ nilp (crs_v crs));
      reads (nilp (ms2_a q) || (1 < size (crs_u crs)));
      asserts (nilp (ms2_a q) || (n == size (ms2_a q)));
      reads (narrow n (ms2_gamma q));
      reads (1 < size (crs_u crs));
      asserts (~~ nilp (ms2_a q))].

(** prove.rs:409-488. *)
Definition quad_prove_checks (q : QuadEqu E) (m n : nat) (rx ry : matrix (Fr E)) (crs : CRS E) : seq check :=
  [:: asserts (m == size rx);
      asserts (size (quad_gamma q) == size rx);
      reads (0 < size rx);
      asserts (width rx == 1);
      asserts (n == size ry);
      asserts (width (quad_gamma q) == size ry);
      reads (0 < size ry);
      asserts (width ry == 1);
      reads (narrow 1 rx);
      reads (narrow 1 ry);
      reads (nilp (quad_b q) || (1 < size (crs_v crs)));
      asserts (nilp (quad_b q) || (reach 1 rx == size (quad_b q)));
      asserts (reach 1 rx == size rx);
      reads (wide n (quad_gamma q));
      reads (1 < size (crs_v crs));
      reads (wide 1 ry);
      asserts (~~ nilp (quad_b q));
      reads (nilp (quad_a q) || (1 < size (crs_u crs)));
      asserts (nilp (quad_a q) || (n == size (quad_a q)));
      reads (narrow n (quad_gamma q));
      reads (1 < size (crs_u crs));
      asserts (~~ nilp (quad_a q))].

(** Committing and proving in one call. *)
(** prove.rs:72-90. *)
Definition ppe_cap_checks (q : PPE E) (m n : nat) (crs : CRS E) : seq check :=
  batch_checks (size (crs_u crs)) m ++ batch_checks (size (crs_v crs)) n ++
  [:: asserts (size (ppe_gamma q) == m);
      asserts (width (ppe_gamma q) == n);
      asserts (nilp (ppe_b q) || (m == size (ppe_b q)));
      reads (wide n (ppe_gamma q));
      asserts (~~ nilp (ppe_b q));
      asserts (nilp (ppe_a q) || (n == size (ppe_a q)));
      reads (narrow n (ppe_gamma q));
      asserts (~~ nilp (ppe_a q))].

(** prove.rs:175-193. *)
Definition ms1_cap_checks (q : MSMEG1 E) (m n : nat) (crs : CRS E) : seq check :=
  batch_checks (size (crs_u crs)) m ++ batch_scalar_checks (size (crs_v crs)) n ++
  [:: asserts (size (ms1_gamma q) == m);
      asserts (width (ms1_gamma q) == n);
      asserts (nilp (ms1_b q) || (m == size (ms1_b q)));
      reads (wide n (ms1_gamma q));
      asserts (~~ nilp (ms1_b q));
      asserts (nilp (ms1_a q) || (n == size (ms1_a q)));
      reads (narrow n (ms1_gamma q));
      asserts (~~ nilp (ms1_a q))].

(** prove.rs:278-296. *)
Definition ms2_cap_checks (q : MSMEG2 E) (m n : nat) (crs : CRS E) : seq check :=
  batch_scalar_checks (size (crs_u crs)) m ++ batch_checks (size (crs_v crs)) n ++
  [:: asserts (size (ms2_gamma q) == m);
      asserts (width (ms2_gamma q) == n);
      asserts (nilp (ms2_b q) || (m == size (ms2_b q)));
      reads (wide n (ms2_gamma q));
      asserts (~~ nilp (ms2_b q));
      asserts (nilp (ms2_a q) || (n == size (ms2_a q)));
      reads (narrow n (ms2_gamma q));
      asserts (~~ nilp (ms2_a q))].

(** prove.rs:383-408. *)
Definition quad_cap_checks (q : QuadEqu E) (m n : nat) (crs : CRS E) : seq check :=
  batch_scalar_checks (size (crs_u crs)) m ++ batch_scalar_checks (size (crs_v crs)) n ++
  [:: asserts (size (quad_gamma q) == m);
      asserts (width (quad_gamma q) == n);
      asserts (nilp (quad_b q) || (m == size (quad_b q)));
      reads (wide n (quad_gamma q));
      asserts (~~ nilp (quad_b q));
      asserts (nilp (quad_a q) || (n == size (quad_a q)));
      reads (narrow n (quad_gamma q));
      asserts (~~ nilp (quad_a q))].

End Equations.
