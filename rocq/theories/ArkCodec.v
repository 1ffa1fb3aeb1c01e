(** The derived serialization of /repo/src over affine points, with the
    combinators of [Codec.v]. Unlike there, points outside the group exist. *)
From mathcomp Require Import all_ssreflect all_algebra.
From Coq Require Import Strings.Byte.
From Verif Require Import Base Group DataStructures Generator Commit Statement Prove Verify Spec Codec SpecCodec Ark SpecArk.
Set Implicit Arguments.
Unset Strict Implicit.
Unset Printing Implicit Defensive.
Import GRing.Theory.
Local Open Scope ring_scope.

(** The impls for [E::ScalarField], [E::G1Affine], [E::G2Affine] and
    [PairingOutput<E>]: arbitrary. Fields: data_structures.rs:129, 133,
    generator.rs:39-41, statement.rs:119-122. *)
Record ark_codecs (F : fieldType) (A : ark F) := ArkCodecs {
  ac_fr : codec F; ac_c1 : codec (aff (C1 A)); ac_c2 : codec (aff (C2 A)); ac_out : codec (out A) }.

Section Structs.
Context {F : fieldType} {A : ark F} (cs : ark_codecs A).

(** [Com1], data_structures.rs:128-129. *)
Definition ark_com1_codec : codec (ark_Com1 A) :=
  struct_codec (pair_codec (ac_c1 cs) (ac_c1 cs)) (fun f => (f.1, f.2)) (fun x => (x.1, x.2)).
(** [Com2], data_structures.rs:132-133. *)
Definition ark_com2_codec : codec (ark_Com2 A) :=
  struct_codec (pair_codec (ac_c2 cs) (ac_c2 cs)) (fun f => (f.1, f.2)) (fun x => (x.1, x.2)).

(** [CRS], generator.rs:35-42. *)
Definition ark_crs_codec : codec (ark_CRS A) :=
  struct_codec
    (pair_codec (vec_codec ark_com1_codec) (pair_codec (vec_codec ark_com2_codec) (pair_codec (ac_c1 cs) (pair_codec (ac_c2 cs) (ac_out cs)))))
    (fun f => let: (f0, (f1, (f2, (f3, f4)))) := f in ark_mkCRS f0 f1 f2 f3 f4)
    (fun x => (ark_crs_u x, (ark_crs_v x, (ark_g1_gen x, (ark_g2_gen x, ark_gt_gen x))))).

(** [Commit1], commit.rs:18-22. *)
Definition ark_commit1_codec : codec (ark_Commit1 A) :=
  struct_codec
    (pair_codec (vec_codec ark_com1_codec) (mat_codec (ac_fr cs)))
    (fun f => let: (f0, f1) := f in ark_mkCommit f0 f1)
    (fun x => (ark_coms x, ark_crand x)).

(** [Commit2], commit.rs:24-28. *)
Definition ark_commit2_codec : codec (ark_Commit2 A) :=
  struct_codec
    (pair_codec (vec_codec ark_com2_codec) (mat_codec (ac_fr cs)))
    (fun f => let: (f0, f1) := f in ark_mkCommit f0 f1)
    (fun x => (ark_coms x, ark_crand x)).

(** [EquProof], prove.rs:55-61. *)
Definition ark_equproof_codec : codec (ark_EquProof A) :=
  struct_codec
    (pair_codec (vec_codec ark_com2_codec) (pair_codec (vec_codec ark_com1_codec) (pair_codec equtype_codec (mat_codec (ac_fr cs)))))
    (fun f => let: (f0, (f1, (f2, f3))) := f in ark_mkEquProof f0 f1 f2 f3)
    (fun x => (ark_pi x, (ark_theta x, (ark_equ_type x, ark_pf_rand x)))).

(** [PPE], statement.rs:117-123. *)
Definition ark_ppe_codec : codec (ark_PPE A) :=
  struct_codec
    (pair_codec (vec_codec (ac_c1 cs)) (pair_codec (vec_codec (ac_c2 cs)) (pair_codec (mat_codec (ac_fr cs)) (ac_out cs))))
    (fun f => let: (f0, (f1, (f2, f3))) := f in ark_mkPPE f0 f1 f2 f3)
    (fun x => (ark_ppe_a x, (ark_ppe_b x, (ark_ppe_gamma x, ark_ppe_target x)))).

(** [MSMEG1], statement.rs:138-144. *)
Definition ark_ms1_codec : codec (ark_MSMEG1 A) :=
  struct_codec
    (pair_codec (vec_codec (ac_c1 cs)) (pair_codec (vec_codec (ac_fr cs)) (pair_codec (mat_codec (ac_fr cs)) (ac_c1 cs))))
    (fun f => let: (f0, (f1, (f2, f3))) := f in ark_mkMSMEG1 f0 f1 f2 f3)
    (fun x => (ark_ms1_a x, (ark_ms1_b x, (ark_ms1_gamma x, ark_ms1_target x)))).

(** [MSMEG2], statement.rs:159-165. *)
Definition ark_ms2_codec : codec (ark_MSMEG2 A) :=
  struct_codec
    (pair_codec (vec_codec (ac_fr cs)) (pair_codec (vec_codec (ac_c2 cs)) (pair_codec (mat_codec (ac_fr cs)) (ac_c2 cs))))
    (fun f => let: (f0, (f1, (f2, f3))) := f in ark_mkMSMEG2 f0 f1 f2 f3)
    (fun x => (ark_ms2_a x, (ark_ms2_b x, (ark_ms2_gamma x, ark_ms2_target x)))).

(** [QuadEqu], statement.rs:179-185. *)
Definition ark_quad_codec : codec (ark_QuadEqu F) :=
  struct_codec
    (pair_codec (vec_codec (ac_fr cs)) (pair_codec (vec_codec (ac_fr cs)) (pair_codec (mat_codec (ac_fr cs)) (ac_fr cs))))
    (fun f => let: (f0, (f1, (f2, f3))) := f in ark_mkQuadEqu f0 f1 f2 f3)
    (fun x => (ark_quad_a x, (ark_quad_b x, (ark_quad_gamma x, ark_quad_target x)))).
End Structs.
