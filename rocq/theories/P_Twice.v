(** C93: values with one encoding, and with several. *)
From mathcomp Require Import all_ssreflect all_algebra.
From Coq Require Import Strings.Byte.
From Verif Require Import Base Group DataStructures Generator Commit Statement Prove Verify Spec Concrete Codec SpecCodec SpecCodec2 Ark SpecArk ArkCodec SpecWire SpecTwice TwiceProps Formats SpecFormats FormatsProps Concrete22 Concrete23.
Set Implicit Arguments.
Unset Strict Implicit.
Unset Printing Implicit Defensive.
Import GRing.Theory.
Local Open Scope ring_scope.

(** [Com1] *)
Theorem C93_com1_one :
  forall (F : fieldType) (A : ark F) (cs : ark_codecs A) (m : Compress) (P : aff (C1 A) -> Prop),
  one_at m P (ac_c1 cs) -> one_at m (ark_com1_all P) (ark_com1_codec cs).
Proof. exact k_com1_one. Qed.
Print Assumptions C93_com1_one.

Example C93_com1_one_case :
  one_at Yes (ark_com1_all (regular1 sstd)) (ark_com1_codec (standard_codecs sstd)) /\ ark_com1_all (regular1 sstd) s_com1.
Proof. split; [exact: (C93_com1_one (std_one1 sstd_good)) | each]. Qed.

(** Some component has another encoding. *)
Theorem C93_com1_other :
  forall (F : fieldType) (A : ark F) (cs : ark_codecs A) (m : Compress) (D : aff (C1 A) -> Prop) x,
  reads_back D (ac_c1 cs) -> ark_com1_all D x -> ark_com1_some (other m (ac_c1 cs)) x -> other m (ark_com1_codec cs) x.
Proof. exact k_com1_other. Qed.
Print Assumptions C93_com1_other.

Example C93_com1_other_case :
  other No (ark_com1_codec (standard_codecs sstd)) s_com1.
Proof. have [b _] : reads_back (member1 sstd) (ac_c1 (standard_codecs sstd)) /\ True by case: (std_1 sstd_good).
apply: (C93_com1_other b); [each | left; apply: (std_other1 sstd_good); each]. Qed.

(** [Com2] *)
Theorem C93_com2_one :
  forall (F : fieldType) (A : ark F) (cs : ark_codecs A) (m : Compress) (P : aff (C2 A) -> Prop),
  one_at m P (ac_c2 cs) -> one_at m (ark_com2_all P) (ark_com2_codec cs).
Proof. exact k_com2_one. Qed.
Print Assumptions C93_com2_one.

Example C93_com2_one_case :
  one_at Yes (ark_com2_all (regular2 sstd)) (ark_com2_codec (standard_codecs sstd)) /\ ark_com2_all (regular2 sstd) s_com1.
Proof. split; [exact: (C93_com2_one (std_one2 sstd_good)) | each]. Qed.

(** Some component has another encoding. *)
Theorem C93_com2_other :
  forall (F : fieldType) (A : ark F) (cs : ark_codecs A) (m : Compress) (D : aff (C2 A) -> Prop) x,
  reads_back D (ac_c2 cs) -> ark_com2_all D x -> ark_com2_some (other m (ac_c2 cs)) x -> other m (ark_com2_codec cs) x.
Proof. exact k_com2_other. Qed.
Print Assumptions C93_com2_other.

Example C93_com2_other_case :
  other No (ark_com2_codec (standard_codecs sstd)) s_com1.
Proof. have [b _] : reads_back (member2 sstd) (ac_c2 (standard_codecs sstd)) /\ True by case: (std_2 sstd_good).
apply: (C93_com2_other b); [each | left; apply: (std_other2 sstd_good); each]. Qed.

(** [CRS]. *)
Theorem C93_crs_one :
  forall (F : fieldType) (A : ark F) (cs : ark_codecs A) (m : Compress) (PF : F -> Prop) (P1 : aff (C1 A) -> Prop) (P2 : aff (C2 A) -> Prop) (PT : out A -> Prop),
  one_at m PF (ac_fr cs) -> one_at m P1 (ac_c1 cs) -> one_at m P2 (ac_c2 cs) -> one_at m PT (ac_out cs) ->
  one_at m (ark_crs_all (A := A) P1 P2 PT) (ark_crs_codec cs).
Proof. exact k_crs_one. Qed.
Print Assumptions C93_crs_one.

Example C93_crs_one_case :
  one_at Yes (ark_crs_all (A := sark) (regular1 sstd) (regular2 sstd) any) (ark_crs_codec (standard_codecs sstd)) /\ ark_crs_all (A := sark) (regular1 sstd) (regular2 sstd) any s_crs.
Proof. split; [exact: (C93_crs_one s_oneF (std_one1 sstd_good) (std_one2 sstd_good) s_oneT) | exact: s_crs_reg]. Qed.

(** Some element of it has another encoding. *)
Theorem C93_crs_other :
  forall (F : fieldType) (A : ark F) (cs : ark_codecs A) (m : Compress) (DF : F -> Prop) (D1 : aff (C1 A) -> Prop) (D2 : aff (C2 A) -> Prop) (DT : out A -> Prop),
  elements_read cs DF D1 D2 DT ->
  forall x, ark_crs_all D1 D2 DT x -> ark_crs_fits x -> ark_crs_some (other m (ac_c1 cs)) (other m (ac_c2 cs)) (other m (ac_out cs)) x -> other m (ark_crs_codec cs) x.
Proof. exact k_crs_other. Qed.
Print Assumptions C93_crs_other.

Example C93_crs_other_case :
  other No (ark_crs_codec (standard_codecs sstd)) s_crs.
Proof. apply: (C93_crs_other (std_read sstd_good) s_crs_mem s_crs_fits); left; constructor; left; apply: (std_other1 sstd_good); each. Qed.

(** [Commit1]. *)
Theorem C93_commit1_one :
  forall (F : fieldType) (A : ark F) (cs : ark_codecs A) (m : Compress) (PF : F -> Prop) (P1 : aff (C1 A) -> Prop) (P2 : aff (C2 A) -> Prop) (PT : out A -> Prop),
  one_at m PF (ac_fr cs) -> one_at m P1 (ac_c1 cs) -> one_at m P2 (ac_c2 cs) -> one_at m PT (ac_out cs) ->
  one_at m (ark_commit1_all (A := A) PF P1) (ark_commit1_codec cs).
Proof. exact k_commit1_one. Qed.
Print Assumptions C93_commit1_one.

Example C93_commit1_one_case :
  one_at Yes (ark_commit1_all (A := sark) any (regular1 sstd)) (ark_commit1_codec (standard_codecs sstd)) /\ ark_commit1_all (A := sark) any (regular1 sstd) s_commit1.
Proof. split; [exact: (C93_commit1_one s_oneF (std_one1 sstd_good) (std_one2 sstd_good) s_oneT) | exact: s_commit1_reg]. Qed.

(** Some element of it has another encoding. *)
Theorem C93_commit1_other :
  forall (F : fieldType) (A : ark F) (cs : ark_codecs A) (m : Compress) (DF : F -> Prop) (D1 : aff (C1 A) -> Prop) (D2 : aff (C2 A) -> Prop) (DT : out A -> Prop),
  elements_read cs DF D1 D2 DT ->
  forall x, ark_commit1_all DF D1 x -> ark_commit1_fits x -> ark_commit1_some (other m (ac_fr cs)) (other m (ac_c1 cs)) x -> other m (ark_commit1_codec cs) x.
Proof. exact k_commit1_other. Qed.
Print Assumptions C93_commit1_other.

Example C93_commit1_other_case :
  other No (ark_commit1_codec (standard_codecs sstd)) s_commit1.
Proof. apply: (C93_commit1_other (std_read sstd_good) s_commit1_mem s_commit1_fits); left; constructor; left; apply: (std_other1 sstd_good); each. Qed.

(** [Commit2]. *)
Theorem C93_commit2_one :
  forall (F : fieldType) (A : ark F) (cs : ark_codecs A) (m : Compress) (PF : F -> Prop) (P1 : aff (C1 A) -> Prop) (P2 : aff (C2 A) -> Prop) (PT : out A -> Prop),
  one_at m PF (ac_fr cs) -> one_at m P1 (ac_c1 cs) -> one_at m P2 (ac_c2 cs) -> one_at m PT (ac_out cs) ->
  one_at m (ark_commit2_all (A := A) PF P2) (ark_commit2_codec cs).
Proof. exact k_commit2_one. Qed.
Print Assumptions C93_commit2_one.

Example C93_commit2_one_case :
  one_at Yes (ark_commit2_all (A := sark) any (regular2 sstd)) (ark_commit2_codec (standard_codecs sstd)) /\ ark_commit2_all (A := sark) any (regular2 sstd) s_commit2.
Proof. split; [exact: (C93_commit2_one s_oneF (std_one1 sstd_good) (std_one2 sstd_good) s_oneT) | exact: s_commit2_reg]. Qed.

(** Some element of it has another encoding. *)
Theorem C93_commit2_other :
  forall (F : fieldType) (A : ark F) (cs : ark_codecs A) (m : Compress) (DF : F -> Prop) (D1 : aff (C1 A) -> Prop) (D2 : aff (C2 A) -> Prop) (DT : out A -> Prop),
  elements_read cs DF D1 D2 DT ->
  forall x, ark_commit2_all DF D2 x -> ark_commit2_fits x -> ark_commit2_some (other m (ac_fr cs)) (other m (ac_c2 cs)) x -> other m (ark_commit2_codec cs) x.
Proof. exact k_commit2_other. Qed.
Print Assumptions C93_commit2_other.

Example C93_commit2_other_case :
  other No (ark_commit2_codec (standard_codecs sstd)) s_commit2.
Proof. apply: (C93_commit2_other (std_read sstd_good) s_commit2_mem s_commit2_fits); left; constructor; left; apply: (std_other2 sstd_good); each. Qed.

(** [EquProof]. *)
Theorem C93_equproof_one :
  forall (F : fieldType) (A : ark F) (cs : ark_codecs A) (m : Compress) (PF : F -> Prop) (P1 : aff (C1 A) -> Prop) (P2 : aff (C2 A) -> Prop) (PT : out A -> Prop),
  one_at m PF (ac_fr cs) -> one_at m P1 (ac_c1 cs) -> one_at m P2 (ac_c2 cs) -> one_at m PT (ac_out cs) ->
  one_at m (ark_equproof_all (A := A) PF P1 P2) (ark_equproof_codec cs).
Proof. exact k_equproof_one. Qed.
Print Assumptions C93_equproof_one.

Example C93_equproof_one_case :
  one_at Yes (ark_equproof_all (A := sark) any (regular1 sstd) (regular2 sstd)) (ark_equproof_codec (standard_codecs sstd)) /\ ark_equproof_all (A := sark) any (regular1 sstd) (regular2 sstd) s_equproof.
Proof. split; [exact: (C93_equproof_one s_oneF (std_one1 sstd_good) (std_one2 sstd_good) s_oneT) | exact: s_equproof_reg]. Qed.

(** Some element of it has another encoding. *)
Theorem C93_equproof_other :
  forall (F : fieldType) (A : ark F) (cs : ark_codecs A) (m : Compress) (DF : F -> Prop) (D1 : aff (C1 A) -> Prop) (D2 : aff (C2 A) -> Prop) (DT : out A -> Prop),
  elements_read cs DF D1 D2 DT ->
  forall x, ark_equproof_all DF D1 D2 x -> ark_equproof_fits x -> ark_equproof_some (other m (ac_fr cs)) (other m (ac_c1 cs)) (other m (ac_c2 cs)) x -> other m (ark_equproof_codec cs) x.
Proof. exact k_equproof_other. Qed.
Print Assumptions C93_equproof_other.

Example C93_equproof_other_case :
  other No (ark_equproof_codec (standard_codecs sstd)) s_equproof.
Proof. apply: (C93_equproof_other (std_read sstd_good) s_equproof_mem s_equproof_fits); right; left; constructor; left; apply: (std_other1 sstd_good); each. Qed.

(** [PPE]. *)
Theorem C93_ppe_one :
  forall (F : fieldType) (A : ark F) (cs : ark_codecs A) (m : Compress) (PF : F -> Prop) (P1 : aff (C1 A) -> Prop) (P2 : aff (C2 A) -> Prop) (PT : out A -> Prop),
  one_at m PF (ac_fr cs) -> one_at m P1 (ac_c1 cs) -> one_at m P2 (ac_c2 cs) -> one_at m PT (ac_out cs) ->
  one_at m (ark_ppe_all (A := A) PF P1 P2 PT) (ark_ppe_codec cs).
Proof. exact k_ppe_one. Qed.
Print Assumptions C93_ppe_one.

Example C93_ppe_one_case :
  one_at Yes (ark_ppe_all (A := sark) any (regular1 sstd) (regular2 sstd) any) (ark_ppe_codec (standard_codecs sstd)) /\ ark_ppe_all (A := sark) any (regular1 sstd) (regular2 sstd) any s_ppe.
Proof. split; [exact: (C93_ppe_one s_oneF (std_one1 sstd_good) (std_one2 sstd_good) s_oneT) | exact: s_ppe_reg]. Qed.

(** Some element of it has another encoding. *)
Theorem C93_ppe_other :
  forall (F : fieldType) (A : ark F) (cs : ark_codecs A) (m : Compress) (DF : F -> Prop) (D1 : aff (C1 A) -> Prop) (D2 : aff (C2 A) -> Prop) (DT : out A -> Prop),
  elements_read cs DF D1 D2 DT ->
  forall x, ark_ppe_all DF D1 D2 DT x -> ark_ppe_fits x -> ark_ppe_some (other m (ac_fr cs)) (other m (ac_c1 cs)) (other m (ac_c2 cs)) (other m (ac_out cs)) x -> other m (ark_ppe_codec cs) x.
Proof. exact k_ppe_other. Qed.
Print Assumptions C93_ppe_other.

Example C93_ppe_other_case :
  other No (ark_ppe_codec (standard_codecs sstd)) s_ppe.
Proof. apply: (C93_ppe_other (std_read sstd_good) s_ppe_mem s_ppe_fits); right; left; do 2 constructor; apply: (std_other2 sstd_good); each. Qed.

(** [MSMEG1]. *)
Theorem C93_ms1_one :
  forall (F : fieldType) (A : ark F) (cs : ark_codecs A) (m : Compress) (PF : F -> Prop) (P1 : aff (C1 A) -> Prop) (P2 : aff (C2 A) -> Prop) (PT : out A -> Prop),
  one_at m PF (ac_fr cs) -> one_at m P1 (ac_c1 cs) -> one_at m P2 (ac_c2 cs) -> one_at m PT (ac_out cs) ->
  one_at m (ark_ms1_all (A := A) PF P1) (ark_ms1_codec cs).
Proof. exact k_ms1_one. Qed.
Print Assumptions C93_ms1_one.

Example C93_ms1_one_case :
  one_at Yes (ark_ms1_all (A := sark) any (regular1 sstd)) (ark_ms1_codec (standard_codecs sstd)) /\ ark_ms1_all (A := sark) any (regular1 sstd) s_ms1.
Proof. split; [exact: (C93_ms1_one s_oneF (std_one1 sstd_good) (std_one2 sstd_good) s_oneT) | exact: s_ms1_reg]. Qed.

(** Some element of it has another encoding. *)
Theorem C93_ms1_other :
  forall (F : fieldType) (A : ark F) (cs : ark_codecs A) (m : Compress) (DF : F -> Prop) (D1 : aff (C1 A) -> Prop) (D2 : aff (C2 A) -> Prop) (DT : out A -> Prop),
  elements_read cs DF D1 D2 DT ->
  forall x, ark_ms1_all DF D1 x -> ark_ms1_fits x -> ark_ms1_some (other m (ac_fr cs)) (other m (ac_c1 cs)) x -> other m (ark_ms1_codec cs) x.
Proof. exact k_ms1_other. Qed.
Print Assumptions C93_ms1_other.

Example C93_ms1_other_case :
  other No (ark_ms1_codec (standard_codecs sstd)) s_ms1.
Proof. apply: (C93_ms1_other (std_read sstd_good) s_ms1_mem s_ms1_fits); do 3 right; apply: (std_other1 sstd_good); each. Qed.

(** [MSMEG2]. *)
Theorem C93_ms2_one :
  forall (F : fieldType) (A : ark F) (cs : ark_codecs A) (m : Compress) (PF : F -> Prop) (P1 : aff (C1 A) -> Prop) (P2 : aff (C2 A) -> Prop) (PT : out A -> Prop),
  one_at m PF (ac_fr cs) -> one_at m P1 (ac_c1 cs) -> one_at m P2 (ac_c2 cs) -> one_at m PT (ac_out cs) ->
  one_at m (ark_ms2_all (A := A) PF P2) (ark_ms2_codec cs).
Proof. exact k_ms2_one. Qed.
Print Assumptions C93_ms2_one.

Example C93_ms2_one_case :
  one_at Yes (ark_ms2_all (A := sark) any (regular2 sstd)) (ark_ms2_codec (standard_codecs sstd)) /\ ark_ms2_all (A := sark) any (regular2 sstd) s_ms2.
Proof. split; [exact: (C93_ms2_one s_oneF (std_one1 sstd_good) (std_one2 sstd_good) s_oneT) | exact: s_ms2_reg]. Qed.

(** Some element of it has another encoding. *)
Theorem C93_ms2_other :
  forall (F : fieldType) (A : ark F) (cs : ark_codecs A) (m : Compress) (DF : F -> Prop) (D1 : aff (C1 A) -> Prop) (D2 : aff (C2 A) -> Prop) (DT : out A -> Prop),
  elements_read cs DF D1 D2 DT ->
  forall x, ark_ms2_all DF D2 x -> ark_ms2_fits x -> ark_ms2_some (other m (ac_fr cs)) (other m (ac_c2 cs)) x -> other m (ark_ms2_codec cs) x.
Proof. exact k_ms2_other. Qed.
Print Assumptions C93_ms2_other.

Example C93_ms2_other_case :
  other No (ark_ms2_codec (standard_codecs sstd)) s_ms2.
Proof. apply: (C93_ms2_other (std_read sstd_good) s_ms2_mem s_ms2_fits); right; left; constructor; apply: (std_other2 sstd_good); each. Qed.

(** [QuadEqu]. *)
Theorem C93_quad_one :
  forall (F : fieldType) (A : ark F) (cs : ark_codecs A) (m : Compress) (PF : F -> Prop) (P1 : aff (C1 A) -> Prop) (P2 : aff (C2 A) -> Prop) (PT : out A -> Prop),
  one_at m PF (ac_fr cs) -> one_at m P1 (ac_c1 cs) -> one_at m P2 (ac_c2 cs) -> one_at m PT (ac_out cs) ->
  one_at m (ark_quad_all PF) (ark_quad_codec cs).
Proof. exact k_quad_one. Qed.
Print Assumptions C93_quad_one.

Example C93_quad_one_case :
  one_at Yes (ark_quad_all any) (ark_quad_codec (standard_codecs sstd)) /\ ark_quad_all any s_quad.
Proof. split; [exact: (C93_quad_one s_oneF (std_one1 sstd_good) (std_one2 sstd_good) s_oneT) | exact: s_quad_reg]. Qed.

(** Some element of it has another encoding. *)
Theorem C93_quad_other :
  forall (F : fieldType) (A : ark F) (cs : ark_codecs A) (m : Compress) (DF : F -> Prop) (D1 : aff (C1 A) -> Prop) (D2 : aff (C2 A) -> Prop) (DT : out A -> Prop),
  elements_read cs DF D1 D2 DT ->
  forall x, ark_quad_all DF x -> ark_quad_fits x -> ark_quad_some (other m (ac_fr cs)) x -> other m (ark_quad_codec cs) x.
Proof. exact k_quad_other. Qed.
Print Assumptions C93_quad_other.

Example C93_quad_other_case :
  other No (ark_quad_codec loose_codecs) s_quad.
Proof. apply: (C93_quad_other loose_read s_quad_mem s_quad_fits); do 2 right; left; constructor; constructor; exact: loose_other. Qed.

