(** Specifications for serialization. *)
From mathcomp Require Import all_ssreflect all_algebra.
From Coq Require Import Strings.Byte.
From Verif Require Import Base Group DataStructures Commit Statement Codec Prove Verify.
Set Implicit Arguments.
Unset Strict Implicit.
Unset Printing Implicit Defensive.
Import GRing.Theory.
Local Open Scope ring_scope.

(** Reading what was written gives the value back, and leaves what follows it. *)
Definition reads_back {T} (D : T -> Prop) (c : codec T) : Prop :=
  forall m v x rest, D x -> de c m v (ser c m x ++ rest) = DOk x rest.

(** Only the serialization of [x] is read as [x]. *)
Definition canonical {T} (c : codec T) : Prop :=
  forall m v bs x rest, de c m v bs = DOk x rest -> bs = ser c m x ++ rest.

(** No two byte strings are read, to the end, as the same value. *)
Definition one_encoding {T} (c : codec T) : Prop :=
  forall m v v' bs bs' x, de c m v bs = DOk x [::] -> de c m v' bs' = DOk x [::] -> bs = bs'.

(** No proper prefix of a serialization can be read. *)
Definition prefix_free {T} (D : T -> Prop) (c : codec T) : Prop :=
  forall m v x p t y r, D x -> ser c m x = p ++ t -> de c m v p = DOk y r -> t = [::] /\ y = x.

(** Only values satisfying [D] are read. *)
Definition yields {T} (D : T -> Prop) (c : codec T) : Prop :=
  forall m v bs x rest, de c m v bs = DOk x rest -> D x.

(** The announced size is the number of bytes written. *)
Definition size_exact {T} (c : codec T) : Prop := forall m x, ssize c m x = size (ser c m x).

(** Batch checks accept all elements satisfying [D]. *)
Definition accepts {T} (D : T -> Prop) (c : codec T) : Prop := forall s, List.Forall D s -> bchk c s = None.

(** Checks accept only elements satisfying [P], and so does reading with validation. *)
Definition validates {T} (P : T -> Prop) (c : codec T) : Prop :=
  (forall m bs x r, de c m VYes bs = DOk x r -> P x) /\
  (forall s, bchk c s = None -> List.Forall P s).

(** A number of elements that a [u64] can hold. *)
Definition short {T} (s : seq T) : Prop := (size s < 2 ^ 64)%N.
Definition short_mat {T} (M : matrix T) : Prop := short M /\ List.Forall short M.

(** Laws of the four element codecs. *)
Definition any {T : Type} (x : T) : Prop := True.
Definition elements_ok {E} (cs : codecs E) (law : forall T : Type, codec T -> Prop) : Prop :=
  [/\ law (Fr E : Type) (c_fr cs), law (G1 E : Type) (c_g1 cs), law (G2 E : Type) (c_g2 cs) & law (GT E : Type) (c_gt cs)].

(** What is needed to read back: unvalidated and validated. *)
Definition good_codec (T : Type) (c : codec T) : Prop := reads_back any c /\ accepts any c.

Section Structs.
Context {E : pairing}.
(** The vectors of a value are short. *)
Definition crs_fits (x : CRS E) : Prop := short (crs_u x) /\ short (crs_v x).
Definition commit1_fits (x : Commit1 E) : Prop := short (coms x) /\ short_mat (crand x).
Definition commit2_fits (x : Commit2 E) : Prop := short (coms x) /\ short_mat (crand x).
Definition equproof_fits (x : EquProof E) : Prop := short (pi x) /\ short (theta x) /\ short_mat (pf_rand x).
Definition ppe_fits (x : PPE E) : Prop := short (ppe_a x) /\ short (ppe_b x) /\ short_mat (ppe_gamma x).
Definition ms1_fits (x : MSMEG1 E) : Prop := short (ms1_a x) /\ short (ms1_b x) /\ short_mat (ms1_gamma x).
Definition ms2_fits (x : MSMEG2 E) : Prop := short (ms2_a x) /\ short (ms2_b x) /\ short_mat (ms2_gamma x).
Definition quad_fits (x : QuadEqu E) : Prop := short (quad_a x) /\ short (quad_b x) /\ short_mat (quad_gamma x).

(** All elements of a value satisfy [P1], [P2], [PT], [PF]. *)
Variables (PF : Fr E -> Prop) (P1 : G1 E -> Prop) (P2 : G2 E -> Prop) (PT : GT E -> Prop).
Definition com1_all (x : Com1 E) : Prop := P1 (x.1) /\ P1 (x.2).
Definition com2_all (x : Com2 E) : Prop := P2 (x.1) /\ P2 (x.2).
Definition crs_all (x : CRS E) : Prop := List.Forall com1_all (crs_u x) /\ List.Forall com2_all (crs_v x) /\ P1 (g1_gen x) /\ P2 (g2_gen x) /\ PT (gt_gen x).
Definition commit1_all (x : Commit1 E) : Prop := List.Forall com1_all (coms x) /\ List.Forall (List.Forall PF) (crand x).
Definition commit2_all (x : Commit2 E) : Prop := List.Forall com2_all (coms x) /\ List.Forall (List.Forall PF) (crand x).
Definition equproof_all (x : EquProof E) : Prop := List.Forall com2_all (pi x) /\ List.Forall com1_all (theta x) /\ List.Forall (List.Forall PF) (pf_rand x).
Definition ppe_all (x : PPE E) : Prop := List.Forall P1 (ppe_a x) /\ List.Forall P2 (ppe_b x) /\ List.Forall (List.Forall PF) (ppe_gamma x) /\ PT (ppe_target x).
Definition ms1_all (x : MSMEG1 E) : Prop := List.Forall P1 (ms1_a x) /\ List.Forall PF (ms1_b x) /\ List.Forall (List.Forall PF) (ms1_gamma x) /\ P1 (ms1_target x).
Definition ms2_all (x : MSMEG2 E) : Prop := List.Forall PF (ms2_a x) /\ List.Forall P2 (ms2_b x) /\ List.Forall (List.Forall PF) (ms2_gamma x) /\ P2 (ms2_target x).
Definition quad_all (x : QuadEqu E) : Prop := List.Forall PF (quad_a x) /\ List.Forall PF (quad_b x) /\ List.Forall (List.Forall PF) (quad_gamma x) /\ PF (quad_target x).
End Structs.

(** A receiver reads an equation, a reference string, commitments and a proof
    from one stream, then verifies. *)
Definition receive {E Q} (cs : codecs E) (cq : codec Q) (verify : Q -> CProof E -> CRS E -> res bool)
  (m : Compress) (v : Validate) (bs : seq byte) : dres (res bool) :=
  dbind (de cq m v bs) (fun q r =>
  dbind (de (crs_codec cs) m v r) (fun crs r =>
  dbind (de (commit1_codec cs) m v r) (fun cx r =>
  dbind (de (commit2_codec cs) m v r) (fun cy r =>
  dbind (de (equproof_codec cs) m v r) (fun pf r =>
  DOk (verify q (mkCProof cx cy [:: pf]) crs) r))))).

(** What the sender writes. *)
Definition sent {E Q} (cs : codecs E) (cq : codec Q) (m : Compress) (q : Q) (crs : CRS E)
  (cx : Commit1 E) (cy : Commit2 E) (pf : EquProof E) : seq byte :=
  ser cq m q ++ ser (crs_codec cs) m crs ++ ser (commit1_codec cs) m cx ++ ser (commit2_codec cs) m cy
  ++ ser (equproof_codec cs) m pf.

(** The layout of the bytes: eight little-endian bytes for a length, items
    one after the other, fields in order. *)
Definition byte_at (n : nat) : byte := odflt x00 (of_nat n).
Definition le64 (n : nat) : seq byte := [seq byte_at ((n %/ 256 ^ i) %% 256)%N | i <- iota 0 8].
Definition lay_vec {T} (el : T -> seq byte) (s : seq T) : seq byte := le64 (size s) ++ flatten (map el s).
Definition lay_mat {T} (el : T -> seq byte) (M : matrix T) : seq byte := lay_vec (lay_vec el) M.
Definition lay_com {T} (el : T -> seq byte) (x : T * T) : seq byte := el x.1 ++ el x.2.
Definition lay_tag (t : EquType) : seq byte :=
  [:: match t with PairingProduct => x00 | MultiScalarG1 => x01 | MultiScalarG2 => x02 | Quadratic => x03 end].
