(** Specifications for reading with allocation. *)
From mathcomp Require Import all_ssreflect all_algebra.
From Coq Require Import Strings.Byte.
From Verif Require Import Base Group DataStructures Generator Commit Statement Prove Verify Codec SpecCodec CodecAlloc.
Set Implicit Arguments.
Unset Strict Implicit.
Unset Printing Implicit Defensive.

(** Whatever is returned is what is returned when there is room for everything. *)
Definition agrees {T} (c : codec T) (rd : reader T) : Prop :=
  forall m v bs y, rd m v bs = Some y -> y = de c m v bs.

(** There is room for every length that can be announced. *)
Definition all_lengths (ok : pred nat) : Prop := forall n, n < 2 ^ 64 -> ok n.

(** Some request is refused. *)
Definition refuses (oks : seq (pred nat)) (n : nat) : bool := has (fun ok => ~~ ok n) oks.

(** When reading ends without a result, eight bytes of the input announce a length for
    which there is no room. *)
Definition blames {T} (oks : seq (pred nat)) (rd : reader T) : Prop :=
  forall m v bs, rd m v bs = None -> exists a n b, bs = a ++ le64 n ++ b /\ refuses oks n.

(** There is room for as many items as the input has bytes. *)
Definition roomy (oks : seq (pred nat)) (bs : seq byte) : Prop :=
  forall n, n <= size bs -> ~~ refuses oks n.

(** When there is room for as many items as there are bytes, only inputs that
    are errors end the reading without a result. *)
Definition only_errors {T} (oks : seq (pred nat)) (c : codec T) (rd : reader T) : Prop :=
  forall m v bs, roomy oks bs -> rd m v bs = None -> exists e, de c m v bs = DErr e.

(** Reading uses up some of the input, from its beginning. *)
Definition eats (T : Type) (c : codec T) : Prop :=
  forall m v bs x r, de c m v bs = DOk x r -> exists2 a, a <> [::] & bs = a ++ r.

(** What was written is read back. *)
Definition gets_back {T} (D : T -> Prop) (c : codec T) (rd : reader T) : Prop :=
  forall m v x rest, D x -> rd m v (ser c m x ++ rest) = Some (DOk x rest).

(** An input that starts with a length for which there is no room. *)
Definition falls_to {T} (ok : pred nat) (rd : reader T) : Prop :=
  forall m v n rest, n < 2 ^ 64 -> ~~ ok n -> rd m v (le64 n ++ rest) = None.
(** Without allocation, a positive length and nothing else is an error. *)
Definition harmless {T} (c : codec T) : Prop :=
  forall m v n, 0 < n < 2 ^ 64 -> exists e, de c m v (le64 n) = DErr e.

(** [Vec::with_capacity] for items of [sz] bytes: at most [isize::MAX] bytes. *)
Definition capacity (sz n : nat) : bool := n * sz < 2 ^ 63.

Section Structs.
Context {E : pairing} (p : room).
(** There is room for the vectors of a value. *)
Definition mat_room {T} (M : matrix T) : bool := r_row p (size M) && all (fun row => r_fr p (size row)) M.
Definition crs_room (x : CRS E) : bool := r_com1 p (size (crs_u x)) && r_com2 p (size (crs_v x)).
Definition commit1_room (x : Commit1 E) : bool := r_com1 p (size (coms x)) && mat_room (crand x).
Definition commit2_room (x : Commit2 E) : bool := r_com2 p (size (coms x)) && mat_room (crand x).
Definition equproof_room (x : EquProof E) : bool :=
  [&& r_com2 p (size (pi x)), r_com1 p (size (theta x)) & mat_room (pf_rand x)].
Definition ppe_room (x : PPE E) : bool :=
  [&& r_g1 p (size (ppe_a x)), r_g2 p (size (ppe_b x)) & mat_room (ppe_gamma x)].
Definition ms1_room (x : MSMEG1 E) : bool :=
  [&& r_g1 p (size (ms1_a x)), r_fr p (size (ms1_b x)) & mat_room (ms1_gamma x)].
Definition ms2_room (x : MSMEG2 E) : bool :=
  [&& r_fr p (size (ms2_a x)), r_g2 p (size (ms2_b x)) & mat_room (ms2_gamma x)].
Definition quad_room (x : QuadEqu E) : bool :=
  [&& r_fr p (size (quad_a x)), r_fr p (size (quad_b x)) & mat_room (quad_gamma x)].

(** The receiver of SpecCodec.v, with allocation. *)
Definition receive_rd {Q} (cs : codecs E) (rq : reader Q) (verify : Q -> CProof E -> CRS E -> res bool)
  (m : Compress) (v : Validate) (bs : seq byte) : option (dres (res bool)) :=
  rbind (rq m v bs) (fun q r =>
  rbind (crs_rd cs p m v r) (fun crs r =>
  rbind (commit1_rd cs p m v r) (fun cx r =>
  rbind (commit2_rd cs p m v r) (fun cy r =>
  rbind (equproof_rd cs p m v r) (fun pf r =>
  Some (DOk (verify q (mkCProof cx cy [:: pf]) crs) r)))))).
End Structs.

(** All six. *)
Definition all_rooms (p : room) (P : pred nat -> Prop) : Prop :=
  [/\ P (r_com1 p), P (r_com2 p) & [/\ P (r_g1 p), P (r_g2 p), P (r_fr p) & P (r_row p)]].
