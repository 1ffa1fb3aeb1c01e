(** Specifications for the formats of field elements and points. *)
From mathcomp Require Import all_ssreflect all_algebra.
From Coq Require Import Strings.Byte.
From Verif Require Import Base Group Codec SpecCodec Ark SpecArk ArkCodec Formats.
Set Implicit Arguments.
Unset Strict Implicit.
Unset Printing Implicit Defensive.
Import GRing.Theory.
Local Open Scope ring_scope.

(** Different elements have different numbers, which fit into the bytes, leaving two bits free. *)
Record good_numbering (K : Type) (N : numbering K) : Prop := GoodNumbering {
  gn_back : forall x, unnum N (num N x) = Some x;
  gn_only : forall k x, unnum N k = Some x -> k = num N x;
  gn_plain : forall x, (num N x < 256 ^ plain_len N)%N;
  gn_len : (0 < flag_len N)%N;
  gn_flag : forall x, (4 * num N x < 256 ^ flag_len N)%N
}.

Section Curve.
Context {K : fieldType} (C : sw K).
(** Points of the curve, and of the group. *)
Definition on_curve (P : point) : Prop := if P is Some (x, y) then y ^+ 2 = x ^+ 3 + sw_a C * x + sw_b C else True.
Definition in_group (P : point) : Prop := if P is Some (x, y) then on_curve P /\ sw_in C x y else True.
(** The square root is one if there is one. *)
Definition good_sqrt : Prop :=
  forall z, match sw_sqrt C z with Some y => y ^+ 2 = z | None => forall y, y ^+ 2 <> z end.
(** Points that are not their own negative. *)
Definition two_valued (P : option (K * K)) : Prop := if P is Some (x, y) then y <> - y else False.
End Curve.

(** The parts behave as they should. *)
Record good_standard (F : fieldType) (A : ark F) (X : standard A) : Prop := GoodStandard {
  gs_N1 : good_numbering (st_N1 X); gs_N2 : good_numbering (st_N2 X);
  gs_NF : good_numbering (st_NF X); gs_NT : good_numbering (st_NT X);
  gs_S1 : good_sqrt (st_S1 X); gs_S2 : good_sqrt (st_S2 X);
  gs_1 : cancel (@to1 _ _ X) (@of1 _ _ X); gs_1' : cancel (@of1 _ _ X) (@to1 _ _ X);
  gs_2 : cancel (@to2 _ _ X) (@of2 _ _ X); gs_2' : cancel (@of2 _ _ X) (@to2 _ _ X)
}.

Section Standard.
Context {F : fieldType} {A : ark F} (X : standard A).
(** Points of the two groups; points that are not their own negative. *)
Definition member1 (a : aff (C1 A)) : Prop := in_group (st_S1 X) (to1 X a).
Definition member2 (a : aff (C2 A)) : Prop := in_group (st_S2 X) (to2 X a).
Definition regular1 (a : aff (C1 A)) : Prop := two_valued (to1 X a).
Definition regular2 (a : aff (C2 A)) : Prop := two_valued (to2 X a).
End Standard.
