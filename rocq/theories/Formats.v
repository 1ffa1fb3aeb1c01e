(** The formats in which ark-ff and ark-ec (Cargo.toml:17-21) write field elements and points of short
    Weierstrass curves: the impls behind [E::ScalarField], [E::G1Affine], [E::G2Affine] in the derived
    serialization of /repo/src (data_structures.rs:128-133, commit.rs:18-28, prove.rs:55-61,
    generator.rs:35-42, statement.rs:117-185). The sources of ark-ff and ark-ec are not in /repo: this file is
    written from their documentation, and only C94 depends on it. Curves with a format of their own
    (ark-bls12-381) are not represented. *)
From mathcomp Require Import all_ssreflect all_algebra.
From Coq Require Import Strings.Byte.
From Verif Require Import Base Codec Ark ArkCodec.
Set Implicit Arguments.
Unset Strict Implicit.
Unset Printing Implicit Defensive.
Import GRing.Theory.
Local Open Scope ring_scope.

(** The integer of a field element ([into_bigint]), the element of an integer below the modulus
    ([from_bigint]), and the numbers of bytes without and with two bits for flags. Used for
    [E::ScalarField] at commit.rs:20 and for the coordinates of points at data_structures.rs:128-133. *)
Record numbering (K : Type) := Numbering {
  num : K -> nat; unnum : nat -> option K; plain_len : nat; flag_len : nat }.

(** A prime field: the integers below [p]; [n0] and [n] bytes. Scalars, commit.rs:20. *)
Definition fp_numbering (p n0 n : nat) : numbering 'F_p :=
  Numbering (fun x : 'F_p => val x) (fun k => if (k < p)%N then Some (k%:R : 'F_p) else None) n0 n.
(** A quadratic extension, the coordinates of [E::G2Affine] (data_structures.rs:132-133): the
    coefficients one after the other, the flags in the second. Elements are compared by the second
    coefficient first, that is, as numbers. Simplification: on input that is both malformed and too
    short the model reports the latter. *)
Definition ext_numbering (K L : Type) (coefs : L -> K * K) (of_coefs : K * K -> L) (N : numbering K) : numbering L :=
  Numbering (fun z => num N (coefs z).1 + 256 ^ plain_len N * num N (coefs z).2)%N
    (fun k => if unnum N (k %% 256 ^ plain_len N)%N is Some x then
                if unnum N (k %/ 256 ^ plain_len N)%N is Some y then Some (of_coefs (x, y)) else None
              else None)
    (plain_len N + plain_len N)%N (plain_len N + flag_len N)%N.

Section Field.
Context {K : Type} (N : numbering K).

(** Field elements without flags, commit.rs:20: little endian, the integer must be below the modulus. *)
Definition fp_ser (x : K) : seq byte := le_bytes (plain_len N) (num N x).
Definition fp_de (bs : seq byte) : dres K :=
  if (size bs < plain_len N)%N then DErr IoError
  else if unnum N (le_val (take (plain_len N) bs)) is Some x then DOk x (drop (plain_len N) bs)
  else DErr InvalidData.
(** [ok] is the check: none for scalars (commit.rs:20), the order of the element for
    [PairingOutput<E>] (generator.rs:41). *)
Definition fp_codec (ok : K -> bool) : codec K :=
  let ck x := if ok x then None else Some InvalidData in
  Codec (fun _ => fp_ser)
    (fun _ v bs => dbind (fp_de bs) (fun x r => if v is VYes then (if ck x is Some e then DErr e else DOk x r) else DOk x r))
    (fun _ _ => plain_len N) ck (each_check ck).

(** [SWFlags], in the two highest bits of the last byte of a point, data_structures.rs:128-133. *)
Inductive SWFlags := YIsPositive | PointAtInfinity | YIsNegative.
Definition flag_bits (f : SWFlags) : nat := match f with YIsPositive => 0 | PointAtInfinity => 1 | YIsNegative => 2 end.
Definition flag_unit : nat := (64 * 256 ^ (flag_len N).-1)%N.
Definition fpf_ser (x : K) (f : SWFlags) : seq byte := le_bytes (flag_len N) (num N x + flag_bits f * flag_unit)%N.
Definition fpf_de (bs : seq byte) : dres (K * SWFlags) :=
  if (size bs < flag_len N)%N then DErr IoError
  else let n := le_val (take (flag_len N) bs) in
  let rd f := if unnum N (n %% flag_unit)%N is Some x then DOk (x, f) (drop (flag_len N) bs) else DErr InvalidData in
  match (n %/ flag_unit)%N with
  | 0 => rd YIsPositive | 1 => rd PointAtInfinity | 2 => rd YIsNegative | _ => DErr UnexpectedFlags end.
End Field.

(** A curve [y^2 = x^3 + a x + b] with the square root and the subgroup test that are used for it. *)
Record sw (K : fieldType) := Sw { sw_a : K; sw_b : K; sw_sqrt : K -> option K; sw_in : K -> K -> bool }.

Section Points.
Context {K : fieldType} (N : numbering K) (C : sw K).

(** [Affine]: [None] is the point at infinity. The component of [Com1], data_structures.rs:129. *)
Definition point : Type := option (K * K).
(** [to_flags]: [y <= -y]; for the points of data_structures.rs:129. *)
Definition y_flag (y : K) : SWFlags := if (num N y <= num N (- y)%R)%N then YIsPositive else YIsNegative.
(** [get_ys_from_x_unchecked]: the smaller and the larger [y]; for the points of
    data_structures.rs:129. *)
Definition get_ys (x : K) : option (K * K) :=
  if sw_sqrt C (x * x * x + sw_a C * x + sw_b C) is Some y then
    Some (if (num N y < num N (- y)%R)%N then (y, - y) else (- y, y))
  else None.
(** [check]: on the curve and in the subgroup; for the points of data_structures.rs:129. *)
Definition sw_chk (P : point) : option serr :=
  if P is Some (x, y) then
    if (y * y == x * x * x + sw_a C * x + sw_b C) && sw_in C x y then None else Some InvalidData
  else None.
(** [serialize_with_mode]; for the points of data_structures.rs:129. *)
Definition sw_ser (m : Compress) (P : point) : seq byte :=
  let '(x, y, f) := if P is Some (x, y) then (x, y, y_flag y) else (0, 0, PointAtInfinity) in
  match m with Yes => fpf_ser N x f | No => fp_ser N x ++ fpf_ser N y f end.
(** [deserialize_with_mode]; for the points of data_structures.rs:129. *)
Definition sw_de (m : Compress) (v : Validate) (bs : seq byte) : dres point :=
  let finish x y f r :=
    if f is PointAtInfinity then DOk None r
    else let P := Some (x, y) in
      if v is VYes then (if sw_chk P is Some e then DErr e else DOk P r) else DOk P r in
  match m with
  | Yes => dbind (fpf_de N bs) (fun '(x, f) r =>
      match f with
      | PointAtInfinity => finish 0 0 f r
      | _ => if get_ys x is Some (y, y') then finish x (if f is YIsPositive then y else y') f r else DErr InvalidData
      end)
  | No => dbind (fp_de N bs) (fun x r => dbind (fpf_de N r) (fun '(y, f) r => finish x y f r))
  end.
(** The impls above together; data_structures.rs:129. *)
Definition sw_codec : codec point :=
  Codec sw_ser sw_de (fun m _ => match m with Yes => flag_len N | No => (plain_len N + flag_len N)%N end) sw_chk (each_check sw_chk).
End Points.

(** The four element types of a pairing-friendly curve in these formats: [E::ScalarField], [E::G1Affine],
    [E::G2Affine] and [PairingOutput<E>] (commit.rs:20, data_structures.rs:128-133, generator.rs:41).
    [to1] and [to2] give the coordinates of affine points. *)
Record standard (F : fieldType) (A : ark F) := Standard {
  st_K1 : fieldType; st_K2 : fieldType;
  st_N1 : numbering st_K1; st_N2 : numbering st_K2; st_NF : numbering F; st_NT : numbering (out A);
  st_S1 : sw st_K1; st_S2 : sw st_K2;
  to1 : aff (C1 A) -> @point st_K1; of1 : @point st_K1 -> aff (C1 A);
  to2 : aff (C2 A) -> @point st_K2; of2 : @point st_K2 -> aff (C2 A);
  st_ok : out A -> bool }.
(** See above. *)
Definition standard_codecs (F : fieldType) (A : ark F) (X : standard A) : ark_codecs A :=
  ArkCodecs (fp_codec (st_NF X) (fun _ => true))
    (struct_codec (sw_codec (st_N1 X) (st_S1 X)) (@of1 _ _ X) (@to1 _ _ X))
    (struct_codec (sw_codec (st_N2 X) (st_S2 X)) (@of2 _ _ X) (@to2 _ _ X))
    (fp_codec (st_NT X) (st_ok X)).
