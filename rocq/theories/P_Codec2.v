(** Properties C70 and C71: checks and validation; truncated input and errors. *)
From mathcomp Require Import all_ssreflect all_algebra.
From Coq Require Import Strings.Byte.
From Verif Require Import Base Group DataStructures Generator Commit Statement Prove Verify Codec SpecCodec SpecCodec2 Codec2Lemmas Concrete Concrete2 Concrete3 Concrete9.
Set Implicit Arguments.
Unset Strict Implicit.
Unset Printing Implicit Defensive.
Import GRing.Theory.

(** C70: validation accepts exactly the values that pass [check], which accepts exactly
    the values all of whose elements pass it. *)
Theorem C70_equtype : lawful any equtype_codec /\ forall t, passes equtype_codec t.
Proof. split=> //; exact: equtype_lawful. Qed.
Print Assumptions C70_equtype.

Theorem C70_com1 : forall (E : pairing) (cs : codecs E), lawful_element (c_g1 cs) -> lawful any (com1_codec cs).
Proof. exact: @com1_lawful. Qed.
Print Assumptions C70_com1.

Theorem C70_com1_check : forall (E : pairing) (cs : codecs E) (x : Com1 E),
  passes (com1_codec cs) x <-> com1_all (passes (c_g1 cs)) x.
Proof. exact: @com1_passes. Qed.
Print Assumptions C70_com1_check.

Example C70_com1_case : elements_ok (toys nonzero) lawful_element /\
  chk (com1_codec (toys nonzero)) ((n7 3, n7 6) : Com1 toy) = None /\ chk (com1_codec (toys nonzero)) ((n7 3, n7 0) : Com1 toy) = Some InvalidData /\
  (if de (com1_codec (toys nonzero)) No VYes (ser (com1_codec (toys nonzero)) No ((n7 3, n7 6) : Com1 toy)) is DErr e then Some e else None) = None /\
  (if de (com1_codec (toys nonzero)) No VYes (ser (com1_codec (toys nonzero)) No ((n7 3, n7 0) : Com1 toy)) is DErr e then Some e else None) = Some InvalidData /\
  (if de (com1_codec (toys nonzero)) No VNo (ser (com1_codec (toys nonzero)) No ((n7 3, n7 0) : Com1 toy)) is DErr e then Some e else None) = None.
Proof. by split; first exact: toys_lawful. Qed.

Theorem C70_com2 : forall (E : pairing) (cs : codecs E), lawful_element (c_g2 cs) -> lawful any (com2_codec cs).
Proof. exact: @com2_lawful. Qed.
Print Assumptions C70_com2.

Theorem C70_com2_check : forall (E : pairing) (cs : codecs E) (x : Com2 E),
  passes (com2_codec cs) x <-> com2_all (passes (c_g2 cs)) x.
Proof. exact: @com2_passes. Qed.
Print Assumptions C70_com2_check.

Example C70_com2_case : elements_ok (toys nonzero) lawful_element /\
  chk (com2_codec (toys nonzero)) ((n7 6, n7 4) : Com2 toy) = None /\ chk (com2_codec (toys nonzero)) ((n7 0, n7 4) : Com2 toy) = Some InvalidData /\
  (if de (com2_codec (toys nonzero)) No VYes (ser (com2_codec (toys nonzero)) No ((n7 6, n7 4) : Com2 toy)) is DErr e then Some e else None) = None /\
  (if de (com2_codec (toys nonzero)) No VYes (ser (com2_codec (toys nonzero)) No ((n7 0, n7 4) : Com2 toy)) is DErr e then Some e else None) = Some InvalidData /\
  (if de (com2_codec (toys nonzero)) No VNo (ser (com2_codec (toys nonzero)) No ((n7 0, n7 4) : Com2 toy)) is DErr e then Some e else None) = None.
Proof. by split; first exact: toys_lawful. Qed.

Theorem C70_crs : forall (E : pairing) (cs : codecs E), elements_ok cs lawful_element -> lawful crs_fits (crs_codec cs).
Proof. exact: @crs_lawful. Qed.
Print Assumptions C70_crs.

Theorem C70_crs_check : forall (E : pairing) (cs : codecs E) (x : CRS E), elements_ok cs lawful_element ->
  (passes (crs_codec cs) x <-> crs_all (passes (c_g1 cs)) (passes (c_g2 cs)) (passes (c_gt cs)) x).
Proof. exact: @crs_passes. Qed.
Print Assumptions C70_crs_check.

Example C70_crs_case : elements_ok (toys nonzero) lawful_element /\
  chk (crs_codec (toys nonzero)) (mkCRS (E := toy) [:: (n7 1, n7 2)] [:: (n7 3, n7 6)] (n7 1) (n7 2) (n7 2)) = None /\ chk (crs_codec (toys nonzero)) (mkCRS (E := toy) [:: (n7 1, n7 2)] [:: (n7 3, n7 0)] (n7 1) (n7 2) (n7 2)) = Some InvalidData /\
  (if de (crs_codec (toys nonzero)) No VYes (ser (crs_codec (toys nonzero)) No (mkCRS (E := toy) [:: (n7 1, n7 2)] [:: (n7 3, n7 6)] (n7 1) (n7 2) (n7 2))) is DErr e then Some e else None) = None /\
  (if de (crs_codec (toys nonzero)) No VYes (ser (crs_codec (toys nonzero)) No (mkCRS (E := toy) [:: (n7 1, n7 2)] [:: (n7 3, n7 0)] (n7 1) (n7 2) (n7 2))) is DErr e then Some e else None) = Some InvalidData /\
  (if de (crs_codec (toys nonzero)) No VNo (ser (crs_codec (toys nonzero)) No (mkCRS (E := toy) [:: (n7 1, n7 2)] [:: (n7 3, n7 0)] (n7 1) (n7 2) (n7 2))) is DErr e then Some e else None) = None.
Proof. by split; first exact: toys_lawful. Qed.

Theorem C70_commit1 : forall (E : pairing) (cs : codecs E), elements_ok cs lawful_element -> lawful commit1_fits (commit1_codec cs).
Proof. exact: @commit1_lawful. Qed.
Print Assumptions C70_commit1.

Theorem C70_commit1_check : forall (E : pairing) (cs : codecs E) (x : Commit1 E), elements_ok cs lawful_element ->
  (passes (commit1_codec cs) x <-> commit1_all (passes (c_fr cs)) (passes (c_g1 cs)) x).
Proof. exact: @commit1_passes. Qed.
Print Assumptions C70_commit1_check.

Example C70_commit1_case : elements_ok (toys nonzero) lawful_element /\
  chk (commit1_codec (toys nonzero)) (mkCommit ([:: (n7 1, n7 2)] : seq (com F7o)) [:: [:: n7 3; n7 6]] : Commit1 toy) = None /\ chk (commit1_codec (toys nonzero)) (mkCommit ([:: (n7 1, n7 2)] : seq (com F7o)) [:: [:: n7 3; n7 0]] : Commit1 toy) = Some InvalidData /\
  (if de (commit1_codec (toys nonzero)) No VYes (ser (commit1_codec (toys nonzero)) No (mkCommit ([:: (n7 1, n7 2)] : seq (com F7o)) [:: [:: n7 3; n7 6]] : Commit1 toy)) is DErr e then Some e else None) = None /\
  (if de (commit1_codec (toys nonzero)) No VYes (ser (commit1_codec (toys nonzero)) No (mkCommit ([:: (n7 1, n7 2)] : seq (com F7o)) [:: [:: n7 3; n7 0]] : Commit1 toy)) is DErr e then Some e else None) = Some InvalidData /\
  (if de (commit1_codec (toys nonzero)) No VNo (ser (commit1_codec (toys nonzero)) No (mkCommit ([:: (n7 1, n7 2)] : seq (com F7o)) [:: [:: n7 3; n7 0]] : Commit1 toy)) is DErr e then Some e else None) = None.
Proof. by split; first exact: toys_lawful. Qed.

Theorem C70_commit2 : forall (E : pairing) (cs : codecs E), elements_ok cs lawful_element -> lawful commit2_fits (commit2_codec cs).
Proof. exact: @commit2_lawful. Qed.
Print Assumptions C70_commit2.

Theorem C70_commit2_check : forall (E : pairing) (cs : codecs E) (x : Commit2 E), elements_ok cs lawful_element ->
  (passes (commit2_codec cs) x <-> commit2_all (passes (c_fr cs)) (passes (c_g2 cs)) x).
Proof. exact: @commit2_passes. Qed.
Print Assumptions C70_commit2_check.

Example C70_commit2_case : elements_ok (toys nonzero) lawful_element /\
  chk (commit2_codec (toys nonzero)) (mkCommit ([:: (n7 1, n7 6)] : seq (com F7o)) [:: [:: n7 3]] : Commit2 toy) = None /\ chk (commit2_codec (toys nonzero)) (mkCommit ([:: (n7 1, n7 0)] : seq (com F7o)) [:: [:: n7 3]] : Commit2 toy) = Some InvalidData /\
  (if de (commit2_codec (toys nonzero)) No VYes (ser (commit2_codec (toys nonzero)) No (mkCommit ([:: (n7 1, n7 6)] : seq (com F7o)) [:: [:: n7 3]] : Commit2 toy)) is DErr e then Some e else None) = None /\
  (if de (commit2_codec (toys nonzero)) No VYes (ser (commit2_codec (toys nonzero)) No (mkCommit ([:: (n7 1, n7 0)] : seq (com F7o)) [:: [:: n7 3]] : Commit2 toy)) is DErr e then Some e else None) = Some InvalidData /\
  (if de (commit2_codec (toys nonzero)) No VNo (ser (commit2_codec (toys nonzero)) No (mkCommit ([:: (n7 1, n7 0)] : seq (com F7o)) [:: [:: n7 3]] : Commit2 toy)) is DErr e then Some e else None) = None.
Proof. by split; first exact: toys_lawful. Qed.

Theorem C70_equproof : forall (E : pairing) (cs : codecs E), elements_ok cs lawful_element -> lawful equproof_fits (equproof_codec cs).
Proof. exact: @equproof_lawful. Qed.
Print Assumptions C70_equproof.

Theorem C70_equproof_check : forall (E : pairing) (cs : codecs E) (x : EquProof E), elements_ok cs lawful_element ->
  (passes (equproof_codec cs) x <-> equproof_all (passes (c_fr cs)) (passes (c_g1 cs)) (passes (c_g2 cs)) x).
Proof. exact: @equproof_passes. Qed.
Print Assumptions C70_equproof_check.

Example C70_equproof_case : elements_ok (toys nonzero) lawful_element /\
  chk (equproof_codec (toys nonzero)) (mkEquProof (E := toy) [:: (n7 1, n7 2)] [:: (n7 3, n7 4)] Quadratic [:: [:: n7 6]]) = None /\ chk (equproof_codec (toys nonzero)) (mkEquProof (E := toy) [:: (n7 1, n7 2)] [:: (n7 3, n7 4)] Quadratic [:: [:: n7 0]]) = Some InvalidData /\
  (if de (equproof_codec (toys nonzero)) No VYes (ser (equproof_codec (toys nonzero)) No (mkEquProof (E := toy) [:: (n7 1, n7 2)] [:: (n7 3, n7 4)] Quadratic [:: [:: n7 6]])) is DErr e then Some e else None) = None /\
  (if de (equproof_codec (toys nonzero)) No VYes (ser (equproof_codec (toys nonzero)) No (mkEquProof (E := toy) [:: (n7 1, n7 2)] [:: (n7 3, n7 4)] Quadratic [:: [:: n7 0]])) is DErr e then Some e else None) = Some InvalidData /\
  (if de (equproof_codec (toys nonzero)) No VNo (ser (equproof_codec (toys nonzero)) No (mkEquProof (E := toy) [:: (n7 1, n7 2)] [:: (n7 3, n7 4)] Quadratic [:: [:: n7 0]])) is DErr e then Some e else None) = None.
Proof. by split; first exact: toys_lawful. Qed.

Theorem C70_ppe : forall (E : pairing) (cs : codecs E), elements_ok cs lawful_element -> lawful ppe_fits (ppe_codec cs).
Proof. exact: @ppe_lawful. Qed.
Print Assumptions C70_ppe.

Theorem C70_ppe_check : forall (E : pairing) (cs : codecs E) (x : PPE E), elements_ok cs lawful_element ->
  (passes (ppe_codec cs) x <-> ppe_all (passes (c_fr cs)) (passes (c_g1 cs)) (passes (c_g2 cs)) (passes (c_gt cs)) x).
Proof. exact: @ppe_passes. Qed.
Print Assumptions C70_ppe_check.

Example C70_ppe_case : elements_ok (toys nonzero) lawful_element /\
  chk (ppe_codec (toys nonzero)) (mkPPE (E := toy) [:: n7 1] [:: n7 2; n7 6] [::] (n7 1)) = None /\ chk (ppe_codec (toys nonzero)) (mkPPE (E := toy) [:: n7 1] [:: n7 2; n7 0] [::] (n7 1)) = Some InvalidData /\
  (if de (ppe_codec (toys nonzero)) No VYes (ser (ppe_codec (toys nonzero)) No (mkPPE (E := toy) [:: n7 1] [:: n7 2; n7 6] [::] (n7 1))) is DErr e then Some e else None) = None /\
  (if de (ppe_codec (toys nonzero)) No VYes (ser (ppe_codec (toys nonzero)) No (mkPPE (E := toy) [:: n7 1] [:: n7 2; n7 0] [::] (n7 1))) is DErr e then Some e else None) = Some InvalidData /\
  (if de (ppe_codec (toys nonzero)) No VNo (ser (ppe_codec (toys nonzero)) No (mkPPE (E := toy) [:: n7 1] [:: n7 2; n7 0] [::] (n7 1))) is DErr e then Some e else None) = None.
Proof. by split; first exact: toys_lawful. Qed.

Theorem C70_ms1 : forall (E : pairing) (cs : codecs E), elements_ok cs lawful_element -> lawful ms1_fits (ms1_codec cs).
Proof. exact: @ms1_lawful. Qed.
Print Assumptions C70_ms1.

Theorem C70_ms1_check : forall (E : pairing) (cs : codecs E) (x : MSMEG1 E), elements_ok cs lawful_element ->
  (passes (ms1_codec cs) x <-> ms1_all (passes (c_fr cs)) (passes (c_g1 cs)) x).
Proof. exact: @ms1_passes. Qed.
Print Assumptions C70_ms1_check.

Example C70_ms1_case : elements_ok (toys nonzero) lawful_element /\
  chk (ms1_codec (toys nonzero)) (mkMSMEG1 (E := toy) [:: n7 1] [:: n7 2] [::] (n7 6)) = None /\ chk (ms1_codec (toys nonzero)) (mkMSMEG1 (E := toy) [:: n7 1] [:: n7 2] [::] (n7 0)) = Some InvalidData /\
  (if de (ms1_codec (toys nonzero)) No VYes (ser (ms1_codec (toys nonzero)) No (mkMSMEG1 (E := toy) [:: n7 1] [:: n7 2] [::] (n7 6))) is DErr e then Some e else None) = None /\
  (if de (ms1_codec (toys nonzero)) No VYes (ser (ms1_codec (toys nonzero)) No (mkMSMEG1 (E := toy) [:: n7 1] [:: n7 2] [::] (n7 0))) is DErr e then Some e else None) = Some InvalidData /\
  (if de (ms1_codec (toys nonzero)) No VNo (ser (ms1_codec (toys nonzero)) No (mkMSMEG1 (E := toy) [:: n7 1] [:: n7 2] [::] (n7 0))) is DErr e then Some e else None) = None.
Proof. by split; first exact: toys_lawful. Qed.

Theorem C70_ms2 : forall (E : pairing) (cs : codecs E), elements_ok cs lawful_element -> lawful ms2_fits (ms2_codec cs).
Proof. exact: @ms2_lawful. Qed.
Print Assumptions C70_ms2.

Theorem C70_ms2_check : forall (E : pairing) (cs : codecs E) (x : MSMEG2 E), elements_ok cs lawful_element ->
  (passes (ms2_codec cs) x <-> ms2_all (passes (c_fr cs)) (passes (c_g2 cs)) x).
Proof. exact: @ms2_passes. Qed.
Print Assumptions C70_ms2_check.

Example C70_ms2_case : elements_ok (toys nonzero) lawful_element /\
  chk (ms2_codec (toys nonzero)) (mkMSMEG2 (E := toy) [:: n7 6] [:: n7 2] [:: [:: n7 1]] (n7 1)) = None /\ chk (ms2_codec (toys nonzero)) (mkMSMEG2 (E := toy) [:: n7 0] [:: n7 2] [:: [:: n7 1]] (n7 1)) = Some InvalidData /\
  (if de (ms2_codec (toys nonzero)) No VYes (ser (ms2_codec (toys nonzero)) No (mkMSMEG2 (E := toy) [:: n7 6] [:: n7 2] [:: [:: n7 1]] (n7 1))) is DErr e then Some e else None) = None /\
  (if de (ms2_codec (toys nonzero)) No VYes (ser (ms2_codec (toys nonzero)) No (mkMSMEG2 (E := toy) [:: n7 0] [:: n7 2] [:: [:: n7 1]] (n7 1))) is DErr e then Some e else None) = Some InvalidData /\
  (if de (ms2_codec (toys nonzero)) No VNo (ser (ms2_codec (toys nonzero)) No (mkMSMEG2 (E := toy) [:: n7 0] [:: n7 2] [:: [:: n7 1]] (n7 1))) is DErr e then Some e else None) = None.
Proof. by split; first exact: toys_lawful. Qed.

Theorem C70_quad : forall (E : pairing) (cs : codecs E), elements_ok cs lawful_element -> lawful quad_fits (quad_codec cs).
Proof. exact: @quad_lawful. Qed.
Print Assumptions C70_quad.

Theorem C70_quad_check : forall (E : pairing) (cs : codecs E) (x : QuadEqu E), elements_ok cs lawful_element ->
  (passes (quad_codec cs) x <-> quad_all (passes (c_fr cs)) x).
Proof. exact: @quad_passes. Qed.
Print Assumptions C70_quad_check.

Example C70_quad_case : elements_ok (toys nonzero) lawful_element /\
  chk (quad_codec (toys nonzero)) (mkQuadEqu (E := toy) [:: n7 1] [:: n7 2] [:: [:: n7 5]; [:: n7 6]] (n7 1)) = None /\ chk (quad_codec (toys nonzero)) (mkQuadEqu (E := toy) [:: n7 1] [:: n7 2] [:: [:: n7 5]; [:: n7 0]] (n7 1)) = Some InvalidData /\
  (if de (quad_codec (toys nonzero)) No VYes (ser (quad_codec (toys nonzero)) No (mkQuadEqu (E := toy) [:: n7 1] [:: n7 2] [:: [:: n7 5]; [:: n7 6]] (n7 1))) is DErr e then Some e else None) = None /\
  (if de (quad_codec (toys nonzero)) No VYes (ser (quad_codec (toys nonzero)) No (mkQuadEqu (E := toy) [:: n7 1] [:: n7 2] [:: [:: n7 5]; [:: n7 0]] (n7 1))) is DErr e then Some e else None) = Some InvalidData /\
  (if de (quad_codec (toys nonzero)) No VNo (ser (quad_codec (toys nonzero)) No (mkQuadEqu (E := toy) [:: n7 1] [:: n7 2] [:: [:: n7 5]; [:: n7 0]] (n7 1))) is DErr e then Some e else None) = None.
Proof. by split; first exact: toys_lawful. Qed.

(** C71: a serialization of which the end is missing is rejected for lack of input; no
    errors arise besides those of the elements, lack of input and invalid type tags. *)
Theorem C71_equtype : cut_short any equtype_codec /\
  forall Q : serr -> Prop, Q IoError -> Q InvalidData -> errors_in Q equtype_codec.
Proof. split; [exact: equtype_cut | exact: equtype_errors]. Qed.
Print Assumptions C71_equtype.

Theorem C71_com1 : forall (E : pairing) (cs : codecs E), cuttable_element (c_g1 cs) -> cut_short any (com1_codec cs).
Proof. move=> E cs h; exact: (proj2 (com1_cuttable h)). Qed.
Print Assumptions C71_com1.

Theorem C71_com1_errors : forall (E : pairing) (cs : codecs E) (Q : serr -> Prop), errors_in Q (c_g1 cs) -> errors_in Q (com1_codec cs).
Proof. exact: @com1_errors. Qed.
Print Assumptions C71_com1_errors.

Example C71_com1_case : elements_ok (toys nonzero) cuttable_element /\
  elements_ok (toys nonzero) (fun _ c => errors_in (fun e => e = IoError \/ e = InvalidData) c) /\
  (if de (com1_codec (toys nonzero)) Yes VYes (take (size (ser (com1_codec (toys nonzero)) Yes ((n7 3, n7 6) : Com1 toy))).-1 (ser (com1_codec (toys nonzero)) Yes ((n7 3, n7 6) : Com1 toy))) is DErr e then Some e else None) = Some IoError.
Proof. by split; [exact: toys_cut | split; [exact: toys_errors|]]. Qed.

Theorem C71_com2 : forall (E : pairing) (cs : codecs E), cuttable_element (c_g2 cs) -> cut_short any (com2_codec cs).
Proof. move=> E cs h; exact: (proj2 (com2_cuttable h)). Qed.
Print Assumptions C71_com2.

Theorem C71_com2_errors : forall (E : pairing) (cs : codecs E) (Q : serr -> Prop), errors_in Q (c_g2 cs) -> errors_in Q (com2_codec cs).
Proof. exact: @com2_errors. Qed.
Print Assumptions C71_com2_errors.

Example C71_com2_case : elements_ok (toys nonzero) cuttable_element /\
  elements_ok (toys nonzero) (fun _ c => errors_in (fun e => e = IoError \/ e = InvalidData) c) /\
  (if de (com2_codec (toys nonzero)) Yes VYes (take (size (ser (com2_codec (toys nonzero)) Yes ((n7 6, n7 4) : Com2 toy))).-1 (ser (com2_codec (toys nonzero)) Yes ((n7 6, n7 4) : Com2 toy))) is DErr e then Some e else None) = Some IoError.
Proof. by split; [exact: toys_cut | split; [exact: toys_errors|]]. Qed.

Theorem C71_crs : forall (E : pairing) (cs : codecs E), elements_ok cs cuttable_element -> cut_short crs_fits (crs_codec cs).
Proof. exact: @crs_cut. Qed.
Print Assumptions C71_crs.

Theorem C71_crs_errors : forall (E : pairing) (cs : codecs E) (Q : serr -> Prop), Q IoError -> Q InvalidData ->
  elements_ok cs (fun _ c => errors_in Q c) -> errors_in Q (crs_codec cs).
Proof. exact: @crs_errors. Qed.
Print Assumptions C71_crs_errors.

Example C71_crs_case : elements_ok (toys nonzero) cuttable_element /\
  elements_ok (toys nonzero) (fun _ c => errors_in (fun e => e = IoError \/ e = InvalidData) c) /\
  (if de (crs_codec (toys nonzero)) Yes VYes (take (size (ser (crs_codec (toys nonzero)) Yes (mkCRS (E := toy) [:: (n7 1, n7 2)] [:: (n7 3, n7 6)] (n7 1) (n7 2) (n7 2)))).-1 (ser (crs_codec (toys nonzero)) Yes (mkCRS (E := toy) [:: (n7 1, n7 2)] [:: (n7 3, n7 6)] (n7 1) (n7 2) (n7 2)))) is DErr e then Some e else None) = Some IoError.
Proof. by split; [exact: toys_cut | split; [exact: toys_errors|]]. Qed.

Theorem C71_commit1 : forall (E : pairing) (cs : codecs E), elements_ok cs cuttable_element -> cut_short commit1_fits (commit1_codec cs).
Proof. exact: @commit1_cut. Qed.
Print Assumptions C71_commit1.

Theorem C71_commit1_errors : forall (E : pairing) (cs : codecs E) (Q : serr -> Prop), Q IoError -> Q InvalidData ->
  elements_ok cs (fun _ c => errors_in Q c) -> errors_in Q (commit1_codec cs).
Proof. exact: @commit1_errors. Qed.
Print Assumptions C71_commit1_errors.

Example C71_commit1_case : elements_ok (toys nonzero) cuttable_element /\
  elements_ok (toys nonzero) (fun _ c => errors_in (fun e => e = IoError \/ e = InvalidData) c) /\
  (if de (commit1_codec (toys nonzero)) Yes VYes (take (size (ser (commit1_codec (toys nonzero)) Yes (mkCommit ([:: (n7 1, n7 2)] : seq (com F7o)) [:: [:: n7 3; n7 6]] : Commit1 toy))).-1 (ser (commit1_codec (toys nonzero)) Yes (mkCommit ([:: (n7 1, n7 2)] : seq (com F7o)) [:: [:: n7 3; n7 6]] : Commit1 toy))) is DErr e then Some e else None) = Some IoError.
Proof. by split; [exact: toys_cut | split; [exact: toys_errors|]]. Qed.

Theorem C71_commit2 : forall (E : pairing) (cs : codecs E), elements_ok cs cuttable_element -> cut_short commit2_fits (commit2_codec cs).
Proof. exact: @commit2_cut. Qed.
Print Assumptions C71_commit2.

Theorem C71_commit2_errors : forall (E : pairing) (cs : codecs E) (Q : serr -> Prop), Q IoError -> Q InvalidData ->
  elements_ok cs (fun _ c => errors_in Q c) -> errors_in Q (commit2_codec cs).
Proof. exact: @commit2_errors. Qed.
Print Assumptions C71_commit2_errors.

Example C71_commit2_case : elements_ok (toys nonzero) cuttable_element /\
  elements_ok (toys nonzero) (fun _ c => errors_in (fun e => e = IoError \/ e = InvalidData) c) /\
  (if de (commit2_codec (toys nonzero)) Yes VYes (take (size (ser (commit2_codec (toys nonzero)) Yes (mkCommit ([:: (n7 1, n7 6)] : seq (com F7o)) [:: [:: n7 3]] : Commit2 toy))).-1 (ser (commit2_codec (toys nonzero)) Yes (mkCommit ([:: (n7 1, n7 6)] : seq (com F7o)) [:: [:: n7 3]] : Commit2 toy))) is DErr e then Some e else None) = Some IoError.
Proof. by split; [exact: toys_cut | split; [exact: toys_errors|]]. Qed.

Theorem C71_equproof : forall (E : pairing) (cs : codecs E), elements_ok cs cuttable_element -> cut_short equproof_fits (equproof_codec cs).
Proof. exact: @equproof_cut. Qed.
Print Assumptions C71_equproof.

Theorem C71_equproof_errors : forall (E : pairing) (cs : codecs E) (Q : serr -> Prop), Q IoError -> Q InvalidData ->
  elements_ok cs (fun _ c => errors_in Q c) -> errors_in Q (equproof_codec cs).
Proof. exact: @equproof_errors. Qed.
Print Assumptions C71_equproof_errors.

Example C71_equproof_case : elements_ok (toys nonzero) cuttable_element /\
  elements_ok (toys nonzero) (fun _ c => errors_in (fun e => e = IoError \/ e = InvalidData) c) /\
  (if de (equproof_codec (toys nonzero)) Yes VYes (take (size (ser (equproof_codec (toys nonzero)) Yes (mkEquProof (E := toy) [:: (n7 1, n7 2)] [:: (n7 3, n7 4)] Quadratic [:: [:: n7 6]]))).-1 (ser (equproof_codec (toys nonzero)) Yes (mkEquProof (E := toy) [:: (n7 1, n7 2)] [:: (n7 3, n7 4)] Quadratic [:: [:: n7 6]]))) is DErr e then Some e else None) = Some IoError.
Proof. by split; [exact: toys_cut | split; [exact: toys_errors|]]. Qed.

Theorem C71_ppe : forall (E : pairing) (cs : codecs E), elements_ok cs cuttable_element -> cut_short ppe_fits (ppe_codec cs).
Proof. exact: @ppe_cut. Qed.
Print Assumptions C71_ppe.

Theorem C71_ppe_errors : forall (E : pairing) (cs : codecs E) (Q : serr -> Prop), Q IoError -> Q InvalidData ->
  elements_ok cs (fun _ c => errors_in Q c) -> errors_in Q (ppe_codec cs).
Proof. exact: @ppe_errors. Qed.
Print Assumptions C71_ppe_errors.

Example C71_ppe_case : elements_ok (toys nonzero) cuttable_element /\
  elements_ok (toys nonzero) (fun _ c => errors_in (fun e => e = IoError \/ e = InvalidData) c) /\
  (if de (ppe_codec (toys nonzero)) Yes VYes (take (size (ser (ppe_codec (toys nonzero)) Yes (mkPPE (E := toy) [:: n7 1] [:: n7 2; n7 6] [::] (n7 1)))).-1 (ser (ppe_codec (toys nonzero)) Yes (mkPPE (E := toy) [:: n7 1] [:: n7 2; n7 6] [::] (n7 1)))) is DErr e then Some e else None) = Some IoError.
Proof. by split; [exact: toys_cut | split; [exact: toys_errors|]]. Qed.

Theorem C71_ms1 : forall (E : pairing) (cs : codecs E), elements_ok cs cuttable_element -> cut_short ms1_fits (ms1_codec cs).
Proof. exact: @ms1_cut. Qed.
Print Assumptions C71_ms1.

Theorem C71_ms1_errors : forall (E : pairing) (cs : codecs E) (Q : serr -> Prop), Q IoError -> Q InvalidData ->
  elements_ok cs (fun _ c => errors_in Q c) -> errors_in Q (ms1_codec cs).
Proof. exact: @ms1_errors. Qed.
Print Assumptions C71_ms1_errors.

Example C71_ms1_case : elements_ok (toys nonzero) cuttable_element /\
  elements_ok (toys nonzero) (fun _ c => errors_in (fun e => e = IoError \/ e = InvalidData) c) /\
  (if de (ms1_codec (toys nonzero)) Yes VYes (take (size (ser (ms1_codec (toys nonzero)) Yes (mkMSMEG1 (E := toy) [:: n7 1] [:: n7 2] [::] (n7 6)))).-1 (ser (ms1_codec (toys nonzero)) Yes (mkMSMEG1 (E := toy) [:: n7 1] [:: n7 2] [::] (n7 6)))) is DErr e then Some e else None) = Some IoError.
Proof. by split; [exact: toys_cut | split; [exact: toys_errors|]]. Qed.

Theorem C71_ms2 : forall (E : pairing) (cs : codecs E), elements_ok cs cuttable_element -> cut_short ms2_fits (ms2_codec cs).
Proof. exact: @ms2_cut. Qed.
Print Assumptions C71_ms2.

Theorem C71_ms2_errors : forall (E : pairing) (cs : codecs E) (Q : serr -> Prop), Q IoError -> Q InvalidData ->
  elements_ok cs (fun _ c => errors_in Q c) -> errors_in Q (ms2_codec cs).
Proof. exact: @ms2_errors. Qed.
Print Assumptions C71_ms2_errors.

Example C71_ms2_case : elements_ok (toys nonzero) cuttable_element /\
  elements_ok (toys nonzero) (fun _ c => errors_in (fun e => e = IoError \/ e = InvalidData) c) /\
  (if de (ms2_codec (toys nonzero)) Yes VYes (take (size (ser (ms2_codec (toys nonzero)) Yes (mkMSMEG2 (E := toy) [:: n7 6] [:: n7 2] [:: [:: n7 1]] (n7 1)))).-1 (ser (ms2_codec (toys nonzero)) Yes (mkMSMEG2 (E := toy) [:: n7 6] [:: n7 2] [:: [:: n7 1]] (n7 1)))) is DErr e then Some e else None) = Some IoError.
Proof. by split; [exact: toys_cut | split; [exact: toys_errors|]]. Qed.

Theorem C71_quad : forall (E : pairing) (cs : codecs E), elements_ok cs cuttable_element -> cut_short quad_fits (quad_codec cs).
Proof. exact: @quad_cut. Qed.
Print Assumptions C71_quad.

Theorem C71_quad_errors : forall (E : pairing) (cs : codecs E) (Q : serr -> Prop), Q IoError -> Q InvalidData ->
  elements_ok cs (fun _ c => errors_in Q c) -> errors_in Q (quad_codec cs).
Proof. exact: @quad_errors. Qed.
Print Assumptions C71_quad_errors.

Example C71_quad_case : elements_ok (toys nonzero) cuttable_element /\
  elements_ok (toys nonzero) (fun _ c => errors_in (fun e => e = IoError \/ e = InvalidData) c) /\
  (if de (quad_codec (toys nonzero)) Yes VYes (take (size (ser (quad_codec (toys nonzero)) Yes (mkQuadEqu (E := toy) [:: n7 1] [:: n7 2] [:: [:: n7 5]; [:: n7 6]] (n7 1)))).-1 (ser (quad_codec (toys nonzero)) Yes (mkQuadEqu (E := toy) [:: n7 1] [:: n7 2] [:: [:: n7 5]; [:: n7 6]] (n7 1)))) is DErr e then Some e else None) = Some IoError.
Proof. by split; [exact: toys_cut | split; [exact: toys_errors|]]. Qed.

