(** Specifications for values that have more than one encoding. *)
From mathcomp Require Import all_ssreflect all_algebra.
From Coq Require Import Strings.Byte.
From Verif Require Import Base Group DataStructures Generator Commit Statement Prove Verify Spec Codec SpecCodec Ark SpecArk ArkCodec SpecWire.
Set Implicit Arguments.
Unset Strict Implicit.
Unset Printing Implicit Defensive.
Import GRing.Theory.
Local Open Scope ring_scope.

(** In mode [m], only the serialization of a value satisfying [P] is read as that value. *)
Definition one_at {T} (m : Compress) (P : T -> Prop) (c : codec T) : Prop :=
  forall v bs x rest, P x -> de c m v bs = DOk x rest -> bs = ser c m x ++ rest.

(** Bytes other than the serialization of [x] are read as [x], with and without validation. *)
Definition other {T} (m : Compress) (c : codec T) (x : T) : Prop :=
  exists2 bs, bs <> ser c m x & forall v rest, de c m v (bs ++ rest) = DOk x rest.

Section Elements.
Context {F : fieldType} {A : ark F} (PF : F -> Prop) (P1 : aff (C1 A) -> Prop) (P2 : aff (C2 A) -> Prop) (PT : out A -> Prop).
(** All elements of a value satisfy [PF], [P1], [P2], [PT]; some element does. *)
Definition ark_com1_all (x : ark_Com1 A) : Prop := P1 x.1 /\ P1 x.2.
Definition ark_com1_some (x : ark_Com1 A) : Prop := P1 x.1 \/ P1 x.2.
Definition ark_com2_all (x : ark_Com2 A) : Prop := P2 x.1 /\ P2 x.2.
Definition ark_com2_some (x : ark_Com2 A) : Prop := P2 x.1 \/ P2 x.2.
Definition ark_crs_all (x : ark_CRS A) : Prop := List.Forall ark_com1_all (ark_crs_u x) /\ List.Forall ark_com2_all (ark_crs_v x) /\ P1 (ark_g1_gen x) /\ P2 (ark_g2_gen x) /\ PT (ark_gt_gen x).
Definition ark_crs_some (x : ark_CRS A) : Prop := List.Exists ark_com1_some (ark_crs_u x) \/ List.Exists ark_com2_some (ark_crs_v x) \/ P1 (ark_g1_gen x) \/ P2 (ark_g2_gen x) \/ PT (ark_gt_gen x).
Definition ark_commit1_all (x : ark_Commit1 A) : Prop := List.Forall ark_com1_all (ark_coms x) /\ List.Forall (List.Forall PF) (ark_crand x).
Definition ark_commit1_some (x : ark_Commit1 A) : Prop := List.Exists ark_com1_some (ark_coms x) \/ List.Exists (List.Exists PF) (ark_crand x).
Definition ark_commit2_all (x : ark_Commit2 A) : Prop := List.Forall ark_com2_all (ark_coms x) /\ List.Forall (List.Forall PF) (ark_crand x).
Definition ark_commit2_some (x : ark_Commit2 A) : Prop := List.Exists ark_com2_some (ark_coms x) \/ List.Exists (List.Exists PF) (ark_crand x).
Definition ark_equproof_all (x : ark_EquProof A) : Prop := List.Forall ark_com2_all (ark_pi x) /\ List.Forall ark_com1_all (ark_theta x) /\ List.Forall (List.Forall PF) (ark_pf_rand x).
Definition ark_equproof_some (x : ark_EquProof A) : Prop := List.Exists ark_com2_some (ark_pi x) \/ List.Exists ark_com1_some (ark_theta x) \/ List.Exists (List.Exists PF) (ark_pf_rand x).
Definition ark_ppe_all (x : ark_PPE A) : Prop := List.Forall P1 (ark_ppe_a x) /\ List.Forall P2 (ark_ppe_b x) /\ List.Forall (List.Forall PF) (ark_ppe_gamma x) /\ PT (ark_ppe_target x).
Definition ark_ppe_some (x : ark_PPE A) : Prop := List.Exists P1 (ark_ppe_a x) \/ List.Exists P2 (ark_ppe_b x) \/ List.Exists (List.Exists PF) (ark_ppe_gamma x) \/ PT (ark_ppe_target x).
Definition ark_ms1_all (x : ark_MSMEG1 A) : Prop := List.Forall P1 (ark_ms1_a x) /\ List.Forall PF (ark_ms1_b x) /\ List.Forall (List.Forall PF) (ark_ms1_gamma x) /\ P1 (ark_ms1_target x).
Definition ark_ms1_some (x : ark_MSMEG1 A) : Prop := List.Exists P1 (ark_ms1_a x) \/ List.Exists PF (ark_ms1_b x) \/ List.Exists (List.Exists PF) (ark_ms1_gamma x) \/ P1 (ark_ms1_target x).
Definition ark_ms2_all (x : ark_MSMEG2 A) : Prop := List.Forall PF (ark_ms2_a x) /\ List.Forall P2 (ark_ms2_b x) /\ List.Forall (List.Forall PF) (ark_ms2_gamma x) /\ P2 (ark_ms2_target x).
Definition ark_ms2_some (x : ark_MSMEG2 A) : Prop := List.Exists PF (ark_ms2_a x) \/ List.Exists P2 (ark_ms2_b x) \/ List.Exists (List.Exists PF) (ark_ms2_gamma x) \/ P2 (ark_ms2_target x).
Definition ark_quad_all (x : ark_QuadEqu F) : Prop := List.Forall PF (ark_quad_a x) /\ List.Forall PF (ark_quad_b x) /\ List.Forall (List.Forall PF) (ark_quad_gamma x) /\ PF (ark_quad_target x).
Definition ark_quad_some (x : ark_QuadEqu F) : Prop := List.Exists PF (ark_quad_a x) \/ List.Exists PF (ark_quad_b x) \/ List.Exists (List.Exists PF) (ark_quad_gamma x) \/ PF (ark_quad_target x).
End Elements.

(** Elements satisfying [DF], [D1], [D2], [DT] are read back and pass validation. *)
Definition elements_read (F : fieldType) (A : ark F) (cs : ark_codecs A) (DF : F -> Prop) (D1 : aff (C1 A) -> Prop)
  (D2 : aff (C2 A) -> Prop) (DT : out A -> Prop) : Prop :=
  [/\ reads_back DF (ac_fr cs) /\ accepts DF (ac_fr cs), reads_back D1 (ac_c1 cs) /\ accepts D1 (ac_c1 cs),
      reads_back D2 (ac_c2 cs) /\ accepts D2 (ac_c2 cs) & reads_back DT (ac_out cs) /\ accepts DT (ac_out cs)].
