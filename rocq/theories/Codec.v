(** Model of serialization: the hand-written impls of /repo/src/statement.rs
    and the code that [#[derive(CanonicalSerialize, CanonicalDeserialize)]]
    and [Vec] of ark-serialize provide for the types of /repo/src. *)
From mathcomp Require Import all_ssreflect all_algebra.
From Coq Require Import Strings.Byte.
From Verif Require Import Base Group DataStructures Commit Statement.
Set Implicit Arguments.
Unset Strict Implicit.
Unset Printing Implicit Defensive.

(** [ark_serialize::SerializationError], used at statement.rs:52-97. *)
Inductive serr := NotEnoughSpace | InvalidData | UnexpectedFlags | IoError.

(** [Result<T, SerializationError>] of a read, with the input that is left; statement.rs:84-88. *)
Inductive dres (T : Type) := DOk of T & seq byte | DErr of serr.
Arguments DOk {T}.
Arguments DErr {T}.

(** The [?] operator on a read, statement.rs:89. *)
Definition dbind {A B} (m : dres A) (k : A -> seq byte -> dres B) : dres B :=
  match m with DOk a r => k a r | DErr e => DErr e end.
(** The [?] operator on a check, in the code derived at e.g. statement.rs:117. *)
Definition obind_err (o : option serr) (o' : option serr) : option serr :=
  if o is Some e then Some e else o'.

(** [ark_serialize::Compress], [ark_serialize::Validate]; statement.rs:86-87. *)
Inductive Compress := Yes | No.
Inductive Validate := VYes | VNo.

(** An implementation of [CanonicalSerialize], [CanonicalDeserialize] and
    [Valid]: [serialize_with_mode], [deserialize_with_mode],
    [serialized_size], [check], [batch_check]. Simplification: writing does
    not fail, as for a [Vec<u8>] (statement.rs:221). [None] is [Ok(())]. The
    traits are those that statement.rs:52-97 implements. *)
Record codec (T : Type) := Codec {
  ser : Compress -> T -> seq byte;
  de : Compress -> Validate -> seq byte -> dres T;
  ssize : Compress -> T -> nat;
  chk : T -> option serr;
  bchk : seq T -> option serr
}.

(** The default [Valid::batch_check], which statement.rs:52-56 leaves in place:
    every item in turn. *)
Fixpoint each_check {T} (ck : T -> option serr) (s : seq T) : option serr :=
  if s is x :: s' then obind_err (ck x) (each_check ck s') else None.

(** [u8] of ark-serialize, used at statement.rs:74, 89. *)
Definition u8_ser (b : byte) : seq byte := [:: b].
Definition u8_de (bs : seq byte) : dres byte :=
  if bs is b :: r then DOk b r else DErr IoError.

(** [EquType::serialize_with_mode], statement.rs:61-76. *)
Definition equtype_ser (_ : Compress) (self : EquType) : seq byte :=
  let b := match self with
    | PairingProduct => x00 | MultiScalarG1 => x01
    | MultiScalarG2 => x02 | Quadratic => x03 end in
  u8_ser b.
(** [EquType::serialized_size], statement.rs:78-80. *)
Definition equtype_ssize (_ : Compress) (_ : EquType) : nat := 1.
(** [EquType::deserialize_with_mode], statement.rs:83-97. *)
Definition equtype_de (_ : Compress) (_ : Validate) (reader : seq byte) : dres EquType :=
  dbind (u8_de reader) (fun b r =>
    match b with
    | x00 => DOk PairingProduct r | x01 => DOk MultiScalarG1 r
    | x02 => DOk MultiScalarG2 r | x03 => DOk Quadratic r
    | _ => DErr InvalidData end).
(** [EquType::check], statement.rs:52-56. *)
Definition equtype_check (_ : EquType) : option serr := None.
(** The impls of statement.rs:52-97 together. *)
Definition equtype_codec : codec EquType :=
  Codec equtype_ser equtype_de equtype_ssize equtype_check (each_check equtype_check).

(** The byte of a number, modulo 256: the cast [as u8] of arkworks, for the
    lengths of the fields of e.g. statement.rs:118-123. *)
Definition byte_of (n : nat) : byte := if of_nat (n %% 256) is Some b then b else x00.

(** [u64::to_le_bytes] and [from_le_bytes], for any number of bytes; for the
    lengths of the fields of e.g. statement.rs:118-123. *)
Fixpoint le_bytes (k n : nat) : seq byte :=
  if k is k'.+1 then byte_of n :: le_bytes k' (n %/ 256) else [::].
Fixpoint le_val (bs : seq byte) : nat :=
  if bs is b :: r then to_nat b + le_val r * 256 else 0.

(** [u64] of ark-serialize: 8 bytes, little endian; the length of a [Vec], e.g.
    generator.rs:37-38. *)
Definition u64_ser (n : nat) : seq byte := le_bytes 8 n.
Definition u64_de (bs : seq byte) : dres nat :=
  if 8 <= size bs then DOk (le_val (take 8 bs)) (drop 8 bs) else DErr IoError.

(** [Vec<T>] of ark-serialize: the length as [u64], then the items. Items are
    read with [Validate::No] and checked together at the end. Simplifications:
    [usize] has 64 bits, allocation does not fail (it may in CodecAlloc.v).
    Fields of type [Vec]: generator.rs:37-38, commit.rs:20-21, prove.rs:57-60,
    statement.rs:119-121. *)
Section Vec.
Context {T : Type} (c : codec T).
(** [for _ in 0..len { values.push(T::deserialize_with_mode(..)?) }] of
    ark-serialize, for the fields at e.g. generator.rs:37-38. *)
Fixpoint de_items (m : Compress) (n : nat) (bs : seq byte) : dres (seq T) :=
  if n is n'.+1 then
    dbind (de c m VNo bs) (fun x r => dbind (de_items m n' r) (fun xs r => DOk (x :: xs) r))
  else DOk [::] bs.
(** See above; the fields at e.g. generator.rs:37-38. *)
Definition vec_de (m : Compress) (v : Validate) (bs : seq byte) : dres (seq T) :=
  dbind (u64_de bs) (fun n r => dbind (de_items m n r) (fun xs r =>
    match v with
    | VYes => if bchk c xs is Some e then DErr e else DOk xs r
    | VNo => DOk xs r end)).
(** See above; the fields at e.g. generator.rs:37-38. *)
Definition vec_codec : codec (seq T) :=
  Codec (fun m s => u64_ser (size s) ++ flatten [seq ser c m x | x <- s])
        vec_de
        (fun m s => 8 + sumn [seq ssize c m x | x <- s])
        (fun s => bchk c s)
        (fun ss => bchk c (flatten ss)).
End Vec.

(** [Matrix<F> = Vec<Vec<F>>], data_structures.rs:48. *)
Definition mat_codec {T} (c : codec T) : codec (matrix T) := vec_codec (vec_codec c).

(** The derive macros: the fields in order of declaration. A struct of more
    than two fields is a nested pair; data_structures.rs:128-133,
    generator.rs:35-42, statement.rs:117-185... *)
Definition pair_codec {A B} (ca : codec A) (cb : codec B) : codec (A * B) :=
  Codec (fun m p => ser ca m p.1 ++ ser cb m p.2)
        (fun m v bs => dbind (de ca m v bs) (fun a r => dbind (de cb m v r) (fun b r => DOk (a, b) r)))
        (fun m p => ssize ca m p.1 + ssize cb m p.2)
        (fun p => obind_err (chk ca p.1) (chk cb p.2))
        (fun ps => obind_err (bchk ca (unzip1 ps)) (bchk cb (unzip2 ps))).
(** ... and a struct is its fields, e.g. generator.rs:35-42. *)
Definition struct_codec {A S} (ca : codec A) (of_fields : A -> S) (fields : S -> A) : codec S :=
  Codec (fun m x => ser ca m (fields x))
        (fun m v bs => dbind (de ca m v bs) (fun a r => DOk (of_fields a) r))
        (fun m x => ssize ca m (fields x))
        (fun x => chk ca (fields x))
        (fun xs => bchk ca (map fields xs)).

(** The impls for [E::ScalarField], [E::G1Affine], [E::G2Affine] and
    [PairingOutput<E>]: arbitrary. Simplification: decoding a point outside of
    the group, possible with [Validate::No] only, is not represented here but in
    ArkCodec.v. They are the types of the fields at data_structures.rs:129, 133,
    generator.rs:39-41, statement.rs:119-122. *)
Record codecs (E : pairing) := Codecs {
  c_fr : codec (Fr E); c_g1 : codec (G1 E); c_g2 : codec (G2 E); c_gt : codec (GT E) }.

Section Structs.
Context {E : pairing} (cs : codecs E).

(** [Com1], data_structures.rs:128-129. *)
Definition com1_codec : codec (Com1 E) :=
  struct_codec (pair_codec (c_g1 cs) (c_g1 cs)) (fun f => (f.1, f.2)) (fun x => (x.1, x.2)).
(** [Com2], data_structures.rs:132-133. *)
Definition com2_codec : codec (Com2 E) :=
  struct_codec (pair_codec (c_g2 cs) (c_g2 cs)) (fun f => (f.1, f.2)) (fun x => (x.1, x.2)).

(** [CRS], generator.rs:35-42. *)
Definition crs_codec : codec (CRS E) :=
  struct_codec
    (pair_codec (vec_codec com1_codec) (pair_codec (vec_codec com2_codec)
      (pair_codec (c_g1 cs) (pair_codec (c_g2 cs) (c_gt cs)))))
    (fun f => let: (u, (v, (g1, (g2, gt)))) := f in mkCRS u v g1 g2 gt)
    (fun x => (crs_u x, (crs_v x, (g1_gen x, (g2_gen x, gt_gen x))))).

(** [Commit1], commit.rs:18-22. *)
Definition commit1_codec : codec (Commit1 E) :=
  struct_codec (pair_codec (vec_codec com1_codec) (mat_codec (c_fr cs)))
    (fun f => mkCommit f.1 f.2) (fun x => (coms x, crand x)).
(** [Commit2], commit.rs:24-28. *)
Definition commit2_codec : codec (Commit2 E) :=
  struct_codec (pair_codec (vec_codec com2_codec) (mat_codec (c_fr cs)))
    (fun f => mkCommit f.1 f.2) (fun x => (coms x, crand x)).

(** [EquProof], prove.rs:55-61. *)
Definition equproof_codec : codec (EquProof E) :=
  struct_codec
    (pair_codec (vec_codec com2_codec) (pair_codec (vec_codec com1_codec)
      (pair_codec equtype_codec (mat_codec (c_fr cs)))))
    (fun f => let: (p, (th, (ty, r))) := f in mkEquProof p th ty r)
    (fun x => (pi x, (theta x, (equ_type x, pf_rand x)))).

(** [PPE], statement.rs:117-123. *)
Definition ppe_codec : codec (PPE E) :=
  struct_codec
    (pair_codec (vec_codec (c_g1 cs)) (pair_codec (vec_codec (c_g2 cs))
      (pair_codec (mat_codec (c_fr cs)) (c_gt cs))))
    (fun f => let: (a, (b, (g, t))) := f in mkPPE a b g t)
    (fun x => (ppe_a x, (ppe_b x, (ppe_gamma x, ppe_target x)))).
(** [MSMEG1], statement.rs:138-144. *)
Definition ms1_codec : codec (MSMEG1 E) :=
  struct_codec
    (pair_codec (vec_codec (c_g1 cs)) (pair_codec (vec_codec (c_fr cs))
      (pair_codec (mat_codec (c_fr cs)) (c_g1 cs))))
    (fun f => let: (a, (b, (g, t))) := f in mkMSMEG1 a b g t)
    (fun x => (ms1_a x, (ms1_b x, (ms1_gamma x, ms1_target x)))).
(** [MSMEG2], statement.rs:159-165. *)
Definition ms2_codec : codec (MSMEG2 E) :=
  struct_codec
    (pair_codec (vec_codec (c_fr cs)) (pair_codec (vec_codec (c_g2 cs))
      (pair_codec (mat_codec (c_fr cs)) (c_g2 cs))))
    (fun f => let: (a, (b, (g, t))) := f in mkMSMEG2 a b g t)
    (fun x => (ms2_a x, (ms2_b x, (ms2_gamma x, ms2_target x)))).
(** [QuadEqu], statement.rs:179-185. *)
Definition quad_codec : codec (QuadEqu E) :=
  struct_codec
    (pair_codec (vec_codec (c_fr cs)) (pair_codec (vec_codec (c_fr cs))
      (pair_codec (mat_codec (c_fr cs)) (c_fr cs))))
    (fun f => let: (a, (b, (g, t))) := f in mkQuadEqu a b g t)
    (fun x => (quad_a x, (quad_b x, (quad_gamma x, quad_target x)))).
End Structs.
