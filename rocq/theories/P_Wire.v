(** Property C82: proofs received as bytes. *)
From mathcomp Require Import all_ssreflect all_algebra.
From Coq Require Import Strings.Byte.
From Verif Require Import Base Group DataStructures Generator Commit Statement Prove Verify Spec.
From Verif Require Import SpecCodec Codec Concrete Concrete3 Concrete4 Ark SpecArk ArkRel Concrete13 ArkCodec SpecWire WireLemmas WireProps Concrete14 P_Ark.
Set Implicit Arguments.
Unset Strict Implicit.
Unset Printing Implicit Defensive.
Import GRing.Theory.
Local Open Scope ring_scope.

(** C82: a value that is read with validation represents a group-level value; such values survive the trip. *)
Theorem C82_crs_represent : forall (E : pairing) (A : ark (Fr E)) (r1 : repr (G1 E) (C1 A)) (r2 : repr (G2 E) (C2 A)) (rt : GT E -> out A -> Prop) cs, transports r1 r2 rt cs ->
  validates (fun d => exists c : CRS E, rcrs r1 r2 rt c d) (ark_crs_codec cs).
Proof. exact: @crs_represent. Qed.
Print Assumptions C82_crs_represent.

Example C82_crs_represent_case := @C82_crs_represent toy tark trepr trepr (fun x a => x = a) tcs tcs_transports.

Theorem C82_crs_roundtrip : forall (E : pairing) (A : ark (Fr E)) (r1 : repr (G1 E) (C1 A)) (r2 : repr (G2 E) (C2 A)) (rt : GT E -> out A -> Prop) cs, transports r1 r2 rt cs ->
  reads_back (fun d => (exists c : CRS E, rcrs r1 r2 rt c d) /\ ark_crs_fits d) (ark_crs_codec cs).
Proof. exact: @crs_roundtrip. Qed.
Print Assumptions C82_crs_roundtrip.

Example C82_crs_roundtrip_case := @C82_crs_roundtrip toy tark trepr trepr (fun x a => x = a) tcs tcs_transports.

Theorem C82_commit1_represent : forall (E : pairing) (A : ark (Fr E)) (r1 : repr (G1 E) (C1 A)) (r2 : repr (G2 E) (C2 A)) (rt : GT E -> out A -> Prop) cs, transports r1 r2 rt cs ->
  validates (fun d => exists c : Commit1 E, rcommit r1 c d) (ark_commit1_codec cs).
Proof. exact: @commit1_represent. Qed.
Print Assumptions C82_commit1_represent.

Example C82_commit1_represent_case := @C82_commit1_represent toy tark trepr trepr (fun x a => x = a) tcs tcs_transports.

Theorem C82_commit1_roundtrip : forall (E : pairing) (A : ark (Fr E)) (r1 : repr (G1 E) (C1 A)) (r2 : repr (G2 E) (C2 A)) (rt : GT E -> out A -> Prop) cs, transports r1 r2 rt cs ->
  reads_back (fun d => (exists c : Commit1 E, rcommit r1 c d) /\ ark_commit1_fits d) (ark_commit1_codec cs).
Proof. exact: @commit1_roundtrip. Qed.
Print Assumptions C82_commit1_roundtrip.

Example C82_commit1_roundtrip_case := @C82_commit1_roundtrip toy tark trepr trepr (fun x a => x = a) tcs tcs_transports.

Theorem C82_commit2_represent : forall (E : pairing) (A : ark (Fr E)) (r1 : repr (G1 E) (C1 A)) (r2 : repr (G2 E) (C2 A)) (rt : GT E -> out A -> Prop) cs, transports r1 r2 rt cs ->
  validates (fun d => exists c : Commit2 E, rcommit r2 c d) (ark_commit2_codec cs).
Proof. exact: @commit2_represent. Qed.
Print Assumptions C82_commit2_represent.

Example C82_commit2_represent_case := @C82_commit2_represent toy tark trepr trepr (fun x a => x = a) tcs tcs_transports.

Theorem C82_commit2_roundtrip : forall (E : pairing) (A : ark (Fr E)) (r1 : repr (G1 E) (C1 A)) (r2 : repr (G2 E) (C2 A)) (rt : GT E -> out A -> Prop) cs, transports r1 r2 rt cs ->
  reads_back (fun d => (exists c : Commit2 E, rcommit r2 c d) /\ ark_commit2_fits d) (ark_commit2_codec cs).
Proof. exact: @commit2_roundtrip. Qed.
Print Assumptions C82_commit2_roundtrip.

Example C82_commit2_roundtrip_case := @C82_commit2_roundtrip toy tark trepr trepr (fun x a => x = a) tcs tcs_transports.

Theorem C82_equproof_represent : forall (E : pairing) (A : ark (Fr E)) (r1 : repr (G1 E) (C1 A)) (r2 : repr (G2 E) (C2 A)) (rt : GT E -> out A -> Prop) cs, transports r1 r2 rt cs ->
  validates (fun d => exists c : EquProof E, requproof r1 r2 c d) (ark_equproof_codec cs).
Proof. exact: @equproof_represent. Qed.
Print Assumptions C82_equproof_represent.

Example C82_equproof_represent_case := @C82_equproof_represent toy tark trepr trepr (fun x a => x = a) tcs tcs_transports.

Theorem C82_equproof_roundtrip : forall (E : pairing) (A : ark (Fr E)) (r1 : repr (G1 E) (C1 A)) (r2 : repr (G2 E) (C2 A)) (rt : GT E -> out A -> Prop) cs, transports r1 r2 rt cs ->
  reads_back (fun d => (exists c : EquProof E, requproof r1 r2 c d) /\ ark_equproof_fits d) (ark_equproof_codec cs).
Proof. exact: @equproof_roundtrip. Qed.
Print Assumptions C82_equproof_roundtrip.

Example C82_equproof_roundtrip_case := @C82_equproof_roundtrip toy tark trepr trepr (fun x a => x = a) tcs tcs_transports.

Theorem C82_ppe_represent : forall (E : pairing) (A : ark (Fr E)) (r1 : repr (G1 E) (C1 A)) (r2 : repr (G2 E) (C2 A)) (rt : GT E -> out A -> Prop) cs, transports r1 r2 rt cs ->
  validates (fun d => exists c : PPE E, rppe r1 r2 rt c d) (ark_ppe_codec cs).
Proof. exact: @ppe_represent. Qed.
Print Assumptions C82_ppe_represent.

Example C82_ppe_represent_case := @C82_ppe_represent toy tark trepr trepr (fun x a => x = a) tcs tcs_transports.

Theorem C82_ppe_roundtrip : forall (E : pairing) (A : ark (Fr E)) (r1 : repr (G1 E) (C1 A)) (r2 : repr (G2 E) (C2 A)) (rt : GT E -> out A -> Prop) cs, transports r1 r2 rt cs ->
  reads_back (fun d => (exists c : PPE E, rppe r1 r2 rt c d) /\ ark_ppe_fits d) (ark_ppe_codec cs).
Proof. exact: @ppe_roundtrip. Qed.
Print Assumptions C82_ppe_roundtrip.

Example C82_ppe_roundtrip_case := @C82_ppe_roundtrip toy tark trepr trepr (fun x a => x = a) tcs tcs_transports.

Theorem C82_ms1_represent : forall (E : pairing) (A : ark (Fr E)) (r1 : repr (G1 E) (C1 A)) (r2 : repr (G2 E) (C2 A)) (rt : GT E -> out A -> Prop) cs, transports r1 r2 rt cs ->
  validates (fun d => exists c : MSMEG1 E, rms1 r1 c d) (ark_ms1_codec cs).
Proof. exact: @ms1_represent. Qed.
Print Assumptions C82_ms1_represent.

Example C82_ms1_represent_case := @C82_ms1_represent toy tark trepr trepr (fun x a => x = a) tcs tcs_transports.

Theorem C82_ms1_roundtrip : forall (E : pairing) (A : ark (Fr E)) (r1 : repr (G1 E) (C1 A)) (r2 : repr (G2 E) (C2 A)) (rt : GT E -> out A -> Prop) cs, transports r1 r2 rt cs ->
  reads_back (fun d => (exists c : MSMEG1 E, rms1 r1 c d) /\ ark_ms1_fits d) (ark_ms1_codec cs).
Proof. exact: @ms1_roundtrip. Qed.
Print Assumptions C82_ms1_roundtrip.

Example C82_ms1_roundtrip_case := @C82_ms1_roundtrip toy tark trepr trepr (fun x a => x = a) tcs tcs_transports.

Theorem C82_ms2_represent : forall (E : pairing) (A : ark (Fr E)) (r1 : repr (G1 E) (C1 A)) (r2 : repr (G2 E) (C2 A)) (rt : GT E -> out A -> Prop) cs, transports r1 r2 rt cs ->
  validates (fun d => exists c : MSMEG2 E, rms2 r2 c d) (ark_ms2_codec cs).
Proof. exact: @ms2_represent. Qed.
Print Assumptions C82_ms2_represent.

Example C82_ms2_represent_case := @C82_ms2_represent toy tark trepr trepr (fun x a => x = a) tcs tcs_transports.

Theorem C82_ms2_roundtrip : forall (E : pairing) (A : ark (Fr E)) (r1 : repr (G1 E) (C1 A)) (r2 : repr (G2 E) (C2 A)) (rt : GT E -> out A -> Prop) cs, transports r1 r2 rt cs ->
  reads_back (fun d => (exists c : MSMEG2 E, rms2 r2 c d) /\ ark_ms2_fits d) (ark_ms2_codec cs).
Proof. exact: @ms2_roundtrip. Qed.
Print Assumptions C82_ms2_roundtrip.

Example C82_ms2_roundtrip_case := @C82_ms2_roundtrip toy tark trepr trepr (fun x a => x = a) tcs tcs_transports.

Theorem C82_quad_represent : forall (E : pairing) (A : ark (Fr E)) (r1 : repr (G1 E) (C1 A)) (r2 : repr (G2 E) (C2 A)) (rt : GT E -> out A -> Prop) cs, transports r1 r2 rt cs ->
  validates (fun d => exists c : QuadEqu E, rquad c d) (ark_quad_codec cs).
Proof. exact: @quad_represent. Qed.
Print Assumptions C82_quad_represent.

Example C82_quad_represent_case := @C82_quad_represent toy tark trepr trepr (fun x a => x = a) tcs tcs_transports.

Theorem C82_quad_roundtrip : forall (E : pairing) (A : ark (Fr E)) (r1 : repr (G1 E) (C1 A)) (r2 : repr (G2 E) (C2 A)) (rt : GT E -> out A -> Prop) cs, transports r1 r2 rt cs ->
  reads_back (fun d => (exists c : QuadEqu E, rquad c d) /\ ark_quad_fits d) (ark_quad_codec cs).
Proof. exact: @quad_roundtrip. Qed.
Print Assumptions C82_quad_roundtrip.

Example C82_crs_case : forall rest, de (ark_crs_codec tcs) No VNo (ser (ark_crs_codec tcs) No tcrs ++ rest) = DOk tcrs rest.
Proof.
move=> rest; apply: (C82_crs_roundtrip tcs_transports); split; first by exists crs0; exact: tcrs_rel.
by split; apply: shortP; vm_compute.
Qed.
Example C82_quad_case : forall rest, de (ark_quad_codec tcs) Yes VYes (ser (ark_quad_codec tcs) Yes tquad ++ rest) = DOk tquad rest.
Proof.
move=> rest; apply: (C82_quad_roundtrip tcs_transports); split; first by exists quad0; exact: tquad_rel.
by split; [apply: shortP; vm_compute | split; [apply: shortP; vm_compute | apply: short_matP; vm_compute]].
Qed.

(** C82: so does a whole proof. *)
Theorem C82_read : forall (E : pairing) (A : ark (Fr E)) (r1 : repr (G1 E) (C1 A)) (r2 : repr (G2 E) (C2 A)) (rt : GT E -> out A -> Prop) cs m bs p' rest, transports r1 r2 rt cs ->
  ark_read cs m VYes bs = DOk p' rest -> exists p, rcproof r1 r2 p p'.
Proof. move=> E A r1 r2 rt cs m bs p' rest H; exact: (read_represent H). Qed.
Print Assumptions C82_read.
Theorem C82_send : forall (E : pairing) (A : ark (Fr E)) (r1 : repr (G1 E) (C1 A)) (r2 : repr (G2 E) (C2 A)) (rt : GT E -> out A -> Prop) cs m v p p', transports r1 r2 rt cs ->
  rcproof r1 r2 p p' -> size (ark_equ_proofs p') = 1%N ->
  ark_commit1_fits (ark_xcoms p') -> ark_commit2_fits (ark_ycoms p') -> List.Forall ark_equproof_fits (ark_equ_proofs p') ->
  ark_read cs m v (ark_send cs m p') = DOk p' [::].
Proof. move=> E A r1 r2 rt cs m v p p' H; exact: (read_send H). Qed.
Print Assumptions C82_send.

(** A proof with one commitment on each side, as bytes and back. *)
Example C82_send_case : let c := mkCommit [:: (n7 1 : F7o, n7 2 : F7o)] [:: [:: n7 3]] in
  let c' := ark_mkCommit (C := tcurve) [:: ((n7 1, false), (n7 2, false))] [:: [:: n7 3]] in
  let p := @mkCProof toy c c [:: @mkEquProof toy [:: (n7 4 : F7o, n7 5 : F7o)] [:: (n7 6 : F7o, n7 0 : F7o)] Quadratic [:: [:: n7 2]]] in
  let p' := @ark_mkCProof F7 tark c' c' [:: @ark_mkEquProof F7 tark [:: ((n7 4, false), (n7 5, false))] [:: ((n7 6, false), (n7 0, false))] Quadratic [:: [:: n7 2]]] in
  forall m v, ark_read tcs m v (ark_send tcs m p') = DOk p' [::] /\ exists p, rcproof (E := toy) (A := tark) trepr trepr p p'.
Proof.
move=> c c' p p' m v; have hp : rcproof (E := toy) (A := tark) trepr trepr p p' by split.
have h : forall v, ark_read tcs m v (ark_send tcs m p') = DOk p' [::].
  move=> w; apply: (@C82_send toy tark trepr trepr _ tcs m w p p' tcs_transports hp erefl).
  - by split; [apply: shortP; vm_compute | apply: short_matP; vm_compute].
  - by split; [apply: shortP; vm_compute | apply: short_matP; vm_compute].
  - constructor; last by constructor.
    by split; [apply: shortP; vm_compute | split; [apply: shortP; vm_compute | apply: short_matP; vm_compute]].
split; first exact: h.
exact: (@C82_read toy tark trepr trepr _ tcs m _ p' [::] tcs_transports (h VYes)).
Qed.

Theorem C82_ppe_decides : forall (E : pairing) (A : ark (Fr E)) (r1 : repr (G1 E) (C1 A)) (r2 : repr (G2 E) (C2 A)) (rt : GT E -> out A -> Prop)
  cs (R' : ark_rng A) sch sch' (q : PPE E) f (X : seq (G1 E)) (Y : seq (G2 E)) a b crs d (t : ark_rst R'), implements r1 r2 rt ->
  bilinear E -> valid_sched sch -> valid_sched sch' -> transports r1 r2 rt cs ->
  rppe r1 r2 rt q f -> rseq (ra r1) X a -> rseq (ra r2) Y b -> rcrs r1 r2 rt crs d ->
  (0 < size X)%N -> (0 < size Y)%N -> short X -> short Y -> ppe_wf q (size X) (size Y) -> two_keys crs -> 
  exists p t' o, [/\ ark_ppe_commit_and_prove sch f a b d t = Ok (p, t'),
    forall m v, ark_check cs (fun p => ark_ppe_verify sch' f p d) m v (ark_send cs m p) = Some (Ok o) & o <-> ppe_holds q X Y].
Proof. move=> E A r1 r2 rt cs R' sch sch' q f X Y a b crs d t I; exact: (ppe_wire_decides I). Qed.
Print Assumptions C82_ppe_decides.

Example C82_ppe_decides_case : forall m v, ark_check tcs (fun p => ark_ppe_verify fwd tppe p tcrs) m v (ark_send tcs m tp_ppe) = Some (Ok true).
Proof.
have [p [t' [o [h1 h2 h3]]]] := @C82_ppe_decides toy tark trepr trepr _ tcs tctr bwd fwd ppe0 tppe xs0 ys0 (lift xs0) (lift ys0) crs0 tcrs 6%N tark_ok
  toy_bilinear bwd_valid fwd_valid tcs_transports tppe_rel (lift_rel _) (lift_rel _) tcrs_rel isT isT (shortP (s := xs0) isT) (shortP (s := ys0) isT) ppe0_wf crs0_two .
rewrite /tp_ppe h1 [the_proof _]/= (h3.2 ppe0_holds) in h2 *; exact: h2.
Qed.

Theorem C82_ppe_sound : forall (E : pairing) (A : ark (Fr E)) (r1 : repr (G1 E) (C1 A)) (r2 : repr (G2 E) (C2 A)) (rt : GT E -> out A -> Prop)
  (R' : ark_rng A) sch (t t' : ark_rst R') d P1 P2, implements r1 r2 rt ->
  bilinear E -> valid_sched sch -> ark_generate_crs t = (d, t') ->
  rp r1 P1 (ark_rand_g1 t).1 -> rp r2 P2 (ark_rand_g2 (ark_rand_g1 t).2).1 -> 
  exists (ex1 : Com1 E -> G1 E) (ex2 : Com2 E -> G2 E),
  [/\ forall (R2 : ark_rng A) X a (z z' : ark_rst R2) c c', rseq (ra r1) X a -> ark_batch_commit_G1 a d z = Ok (c', z') ->
        rseq (rcom r1) c (ark_coms c') -> map ex1 c = X,
      forall (R2 : ark_rng A) Y b (z z' : ark_rst R2) c c', rseq (ra r2) Y b -> ark_batch_commit_G2 b d z = Ok (c', z') ->
        rseq (rcom r2) c (ark_coms c') -> map ex2 c = Y
    & forall cs q f m bs, transports r1 r2 rt cs -> rppe r1 r2 rt q f ->
        ark_check cs (fun p => ark_ppe_verify sch f p d) m VYes bs = Some (Ok true) ->
        exists p p', [/\ ark_read cs m VYes bs = DOk p' [::], rcproof r1 r2 p p'
          & ppe_holds q (map ex1 (coms (xcoms p))) (map ex2 (coms (ycoms p)))]].
Proof. move=> E A r1 r2 rt R' sch t t' d P1 P2 I; exact: (ppe_wire_sound I). Qed.
Print Assumptions C82_ppe_sound.

Example C82_ppe_sound_case : exists X Y, ppe_holds ppe0 X Y.
Proof.
have [ex1 [ex2 [_ _ h]]] := @C82_ppe_sound toy tark trepr trepr _ tctr fwd 0%N 6%N tcrs (n7 1) (n7 2) tark_ok toy_bilinear fwd_valid tcrsE
  (ok_rand_g1 tctr_alike (erefl 0%N)).1 (ok_rand_g2 tctr_alike (erefl 1%N)).1.
have [p [p' [_ _ hh]]] := h tcs ppe0 tppe Yes _ tcs_transports tppe_rel (C82_ppe_decides_case Yes VYes).
exact: ex_intro _ _ (ex_intro _ _ hh).
Qed.

(** Without validation, points outside the groups are accepted. *)
Theorem C82_ppe_unvalidated_refuted : ~ (forall (E : pairing) (A : ark (Fr E)) (r1 : repr (G1 E) (C1 A)) (r2 : repr (G2 E) (C2 A)) (rt : GT E -> out A -> Prop)
  cs sch (q : PPE E) f crs d m bs p', implements r1 r2 rt -> canonical r1 -> canonical r2 -> bilinear E -> nondegenerate E -> valid_sched sch ->
  transports r1 r2 rt cs -> rppe r1 r2 rt q f -> rcrs r1 r2 rt crs d ->
  ark_read cs m VNo bs = DOk p' [::] -> ark_ppe_verify sch f p' d = Ok true ->
  exists c, rseq (rcom r1) c (ark_coms (ark_xcoms p'))).
Proof.
move=> h; have [p' [h1 h2 h3]] := takenP out_ppe_taken; apply: h3.
exact: (h toy tark trepr trepr _ tcs fwd ppe0 tppe crs0 tcrs No _ p' tark_ok trepr_canonical trepr_canonical toy_bilinear toy_nondegenerate fwd_valid tcs_transports tppe_rel tcrs_rel h1 h2).
Qed.
Print Assumptions C82_ppe_unvalidated_refuted.

Example C82_ppe_unvalidated_case :
  taken (fun p => ark_ppe_verify fwd tppe p tcrs) (ark_read tcs No VNo (ark_send tcs No (out_proof tp_ppe))) /\
  ark_check tcs (fun p => ark_ppe_verify fwd tppe p tcrs) No VYes (ark_send tcs No (out_proof tp_ppe)) = None.
Proof. exact: conj out_ppe_taken out_ppe_refused. Qed.

Theorem C82_ms1_decides : forall (E : pairing) (A : ark (Fr E)) (r1 : repr (G1 E) (C1 A)) (r2 : repr (G2 E) (C2 A)) (rt : GT E -> out A -> Prop)
  cs (R' : ark_rng A) sch sch' (q : MSMEG1 E) f (X : seq (G1 E)) (Y : seq (Fr E)) a crs d (t : ark_rst R'), implements r1 r2 rt ->
  bilinear E -> nondegenerate E -> valid_sched sch -> valid_sched sch' -> transports r1 r2 rt cs ->
  rms1 r1 q f -> rseq (ra r1) X a -> rcrs r1 r2 rt crs d ->
  (0 < size X)%N -> (0 < size Y)%N -> short X -> short Y -> ms1_wf q (size X) (size Y) -> two_keys crs -> v2 crs + (0, g2_gen crs) != 0 ->
  exists p t' o, [/\ ark_ms1_commit_and_prove sch f a Y d t = Ok (p, t'),
    forall m v, ark_check cs (fun p => ark_ms1_verify sch' f p d) m v (ark_send cs m p) = Some (Ok o) & o <-> ms1_holds q X Y].
Proof. move=> E A r1 r2 rt cs R' sch sch' q f X Y a crs d t I; exact: (ms1_wire_decides I). Qed.
Print Assumptions C82_ms1_decides.

Example C82_ms1_decides_case : forall m v, ark_check tcs (fun p => ark_ms1_verify fwd tms1 p tcrs) m v (ark_send tcs m tp_ms1) = Some (Ok true).
Proof.
have [p [t' [o [h1 h2 h3]]]] := @C82_ms1_decides toy tark trepr trepr _ tcs tctr bwd fwd ms10 tms1 xs0 ys0 (lift xs0) crs0 tcrs 6%N tark_ok
  toy_bilinear toy_nondegenerate bwd_valid fwd_valid tcs_transports tms1_rel (lift_rel _) tcrs_rel isT isT (shortP (s := xs0) isT) (shortP (s := ys0) isT) ms10_wf crs0_two isT .
rewrite /tp_ms1 h1 [the_proof _]/= (h3.2 ms10_holds) in h2 *; exact: h2.
Qed.

Theorem C82_ms1_sound : forall (E : pairing) (A : ark (Fr E)) (r1 : repr (G1 E) (C1 A)) (r2 : repr (G2 E) (C2 A)) (rt : GT E -> out A -> Prop)
  (R' : ark_rng A) sch (t t' : ark_rst R') d P1 P2, implements r1 r2 rt ->
  bilinear E -> valid_sched sch -> ark_generate_crs t = (d, t') ->
  rp r1 P1 (ark_rand_g1 t).1 -> rp r2 P2 (ark_rand_g2 (ark_rand_g1 t).2).1 -> nondegenerate E -> cyclic (G2 E) -> P2 != 0 -> 
  exists (ex1 : Com1 E -> G1 E) (ex2 : Com2 E -> Fr E),
  [/\ forall (R2 : ark_rng A) X a (z z' : ark_rst R2) c c', rseq (ra r1) X a -> ark_batch_commit_G1 a d z = Ok (c', z') ->
        rseq (rcom r1) c (ark_coms c') -> map ex1 c = X,
      forall (R2 : ark_rng A) Y (z z' : ark_rst R2) c c', ark_batch_commit_scalar_to_B2 Y d z = Ok (c', z') ->
        rseq (rcom r2) c (ark_coms c') -> map ex2 c = Y
    & forall cs q f m bs, transports r1 r2 rt cs -> rms1 r1 q f ->
        ark_check cs (fun p => ark_ms1_verify sch f p d) m VYes bs = Some (Ok true) ->
        exists p p', [/\ ark_read cs m VYes bs = DOk p' [::], rcproof r1 r2 p p'
          & ms1_holds q (map ex1 (coms (xcoms p))) (map ex2 (coms (ycoms p)))]].
Proof. move=> E A r1 r2 rt R' sch t t' d P1 P2 I; exact: (ms1_wire_sound I). Qed.
Print Assumptions C82_ms1_sound.

Example C82_ms1_sound_case : exists X Y, ms1_holds ms10 X Y.
Proof.
have [ex1 [ex2 [_ _ h]]] := @C82_ms1_sound toy tark trepr trepr _ tctr fwd 0%N 6%N tcrs (n7 1) (n7 2) tark_ok toy_bilinear fwd_valid tcrsE
  (ok_rand_g1 tctr_alike (erefl 0%N)).1 (ok_rand_g2 tctr_alike (erefl 1%N)).1 toy_nondegenerate toy_cyclic isT.
have [p [p' [_ _ hh]]] := h tcs ms10 tms1 Yes _ tcs_transports tms1_rel (C82_ms1_decides_case Yes VYes).
exact: ex_intro _ _ (ex_intro _ _ hh).
Qed.

(** Without validation, points outside the groups are accepted. *)
Theorem C82_ms1_unvalidated_refuted : ~ (forall (E : pairing) (A : ark (Fr E)) (r1 : repr (G1 E) (C1 A)) (r2 : repr (G2 E) (C2 A)) (rt : GT E -> out A -> Prop)
  cs sch (q : MSMEG1 E) f crs d m bs p', implements r1 r2 rt -> canonical r1 -> canonical r2 -> bilinear E -> nondegenerate E -> valid_sched sch ->
  transports r1 r2 rt cs -> rms1 r1 q f -> rcrs r1 r2 rt crs d ->
  ark_read cs m VNo bs = DOk p' [::] -> ark_ms1_verify sch f p' d = Ok true ->
  exists c, rseq (rcom r1) c (ark_coms (ark_xcoms p'))).
Proof.
move=> h; have [p' [h1 h2 h3]] := takenP out_ms1_taken; apply: h3.
exact: (h toy tark trepr trepr _ tcs fwd ms10 tms1 crs0 tcrs No _ p' tark_ok trepr_canonical trepr_canonical toy_bilinear toy_nondegenerate fwd_valid tcs_transports tms1_rel tcrs_rel h1 h2).
Qed.
Print Assumptions C82_ms1_unvalidated_refuted.

Example C82_ms1_unvalidated_case :
  taken (fun p => ark_ms1_verify fwd tms1 p tcrs) (ark_read tcs No VNo (ark_send tcs No (out_proof tp_ms1))) /\
  ark_check tcs (fun p => ark_ms1_verify fwd tms1 p tcrs) No VYes (ark_send tcs No (out_proof tp_ms1)) = None.
Proof. exact: conj out_ms1_taken out_ms1_refused. Qed.

Theorem C82_ms2_decides : forall (E : pairing) (A : ark (Fr E)) (r1 : repr (G1 E) (C1 A)) (r2 : repr (G2 E) (C2 A)) (rt : GT E -> out A -> Prop)
  cs (R' : ark_rng A) sch sch' (q : MSMEG2 E) f (X : seq (Fr E)) (Y : seq (G2 E)) b crs d (t : ark_rst R'), implements r1 r2 rt ->
  bilinear E -> nondegenerate E -> valid_sched sch -> valid_sched sch' -> transports r1 r2 rt cs ->
  rms2 r2 q f -> rseq (ra r2) Y b -> rcrs r1 r2 rt crs d ->
  (0 < size X)%N -> (0 < size Y)%N -> short X -> short Y -> ms2_wf q (size X) (size Y) -> two_keys crs -> u2 crs + (0, g1_gen crs) != 0 ->
  exists p t' o, [/\ ark_ms2_commit_and_prove sch f X b d t = Ok (p, t'),
    forall m v, ark_check cs (fun p => ark_ms2_verify sch' f p d) m v (ark_send cs m p) = Some (Ok o) & o <-> ms2_holds q X Y].
Proof. move=> E A r1 r2 rt cs R' sch sch' q f X Y b crs d t I; exact: (ms2_wire_decides I). Qed.
Print Assumptions C82_ms2_decides.

Example C82_ms2_decides_case : forall m v, ark_check tcs (fun p => ark_ms2_verify fwd tms2 p tcrs) m v (ark_send tcs m tp_ms2) = Some (Ok true).
Proof.
have [p [t' [o [h1 h2 h3]]]] := @C82_ms2_decides toy tark trepr trepr _ tcs tctr bwd fwd ms20 tms2 xs0 ys0 (lift ys0) crs0 tcrs 6%N tark_ok
  toy_bilinear toy_nondegenerate bwd_valid fwd_valid tcs_transports tms2_rel (lift_rel _) tcrs_rel isT isT (shortP (s := xs0) isT) (shortP (s := ys0) isT) ms20_wf crs0_two isT .
rewrite /tp_ms2 h1 [the_proof _]/= (h3.2 ms20_holds) in h2 *; exact: h2.
Qed.

Theorem C82_ms2_sound : forall (E : pairing) (A : ark (Fr E)) (r1 : repr (G1 E) (C1 A)) (r2 : repr (G2 E) (C2 A)) (rt : GT E -> out A -> Prop)
  (R' : ark_rng A) sch (t t' : ark_rst R') d P1 P2, implements r1 r2 rt ->
  bilinear E -> valid_sched sch -> ark_generate_crs t = (d, t') ->
  rp r1 P1 (ark_rand_g1 t).1 -> rp r2 P2 (ark_rand_g2 (ark_rand_g1 t).2).1 -> nondegenerate E -> cyclic (G1 E) -> P1 != 0 -> 
  exists (ex1 : Com1 E -> Fr E) (ex2 : Com2 E -> G2 E),
  [/\ forall (R2 : ark_rng A) X (z z' : ark_rst R2) c c', ark_batch_commit_scalar_to_B1 X d z = Ok (c', z') ->
        rseq (rcom r1) c (ark_coms c') -> map ex1 c = X,
      forall (R2 : ark_rng A) Y b (z z' : ark_rst R2) c c', rseq (ra r2) Y b -> ark_batch_commit_G2 b d z = Ok (c', z') ->
        rseq (rcom r2) c (ark_coms c') -> map ex2 c = Y
    & forall cs q f m bs, transports r1 r2 rt cs -> rms2 r2 q f ->
        ark_check cs (fun p => ark_ms2_verify sch f p d) m VYes bs = Some (Ok true) ->
        exists p p', [/\ ark_read cs m VYes bs = DOk p' [::], rcproof r1 r2 p p'
          & ms2_holds q (map ex1 (coms (xcoms p))) (map ex2 (coms (ycoms p)))]].
Proof. move=> E A r1 r2 rt R' sch t t' d P1 P2 I; exact: (ms2_wire_sound I). Qed.
Print Assumptions C82_ms2_sound.

Example C82_ms2_sound_case : exists X Y, ms2_holds ms20 X Y.
Proof.
have [ex1 [ex2 [_ _ h]]] := @C82_ms2_sound toy tark trepr trepr _ tctr fwd 0%N 6%N tcrs (n7 1) (n7 2) tark_ok toy_bilinear fwd_valid tcrsE
  (ok_rand_g1 tctr_alike (erefl 0%N)).1 (ok_rand_g2 tctr_alike (erefl 1%N)).1 toy_nondegenerate toy_cyclic isT.
have [p [p' [_ _ hh]]] := h tcs ms20 tms2 Yes _ tcs_transports tms2_rel (C82_ms2_decides_case Yes VYes).
exact: ex_intro _ _ (ex_intro _ _ hh).
Qed.

(** Without validation, points outside the groups are accepted. *)
Theorem C82_ms2_unvalidated_refuted : ~ (forall (E : pairing) (A : ark (Fr E)) (r1 : repr (G1 E) (C1 A)) (r2 : repr (G2 E) (C2 A)) (rt : GT E -> out A -> Prop)
  cs sch (q : MSMEG2 E) f crs d m bs p', implements r1 r2 rt -> canonical r1 -> canonical r2 -> bilinear E -> nondegenerate E -> valid_sched sch ->
  transports r1 r2 rt cs -> rms2 r2 q f -> rcrs r1 r2 rt crs d ->
  ark_read cs m VNo bs = DOk p' [::] -> ark_ms2_verify sch f p' d = Ok true ->
  exists c, rseq (rcom r1) c (ark_coms (ark_xcoms p'))).
Proof.
move=> h; have [p' [h1 h2 h3]] := takenP out_ms2_taken; apply: h3.
exact: (h toy tark trepr trepr _ tcs fwd ms20 tms2 crs0 tcrs No _ p' tark_ok trepr_canonical trepr_canonical toy_bilinear toy_nondegenerate fwd_valid tcs_transports tms2_rel tcrs_rel h1 h2).
Qed.
Print Assumptions C82_ms2_unvalidated_refuted.

Example C82_ms2_unvalidated_case :
  taken (fun p => ark_ms2_verify fwd tms2 p tcrs) (ark_read tcs No VNo (ark_send tcs No (out_proof tp_ms2))) /\
  ark_check tcs (fun p => ark_ms2_verify fwd tms2 p tcrs) No VYes (ark_send tcs No (out_proof tp_ms2)) = None.
Proof. exact: conj out_ms2_taken out_ms2_refused. Qed.

Theorem C82_quad_decides : forall (E : pairing) (A : ark (Fr E)) (r1 : repr (G1 E) (C1 A)) (r2 : repr (G2 E) (C2 A)) (rt : GT E -> out A -> Prop)
  cs (R' : ark_rng A) sch sch' (q : QuadEqu E) f (X : seq (Fr E)) (Y : seq (Fr E)) crs d (t : ark_rst R'), implements r1 r2 rt ->
  bilinear E -> nondegenerate E -> valid_sched sch -> valid_sched sch' -> transports r1 r2 rt cs ->
  rquad q f -> rcrs r1 r2 rt crs d ->
  (0 < size X)%N -> (0 < size Y)%N -> short X -> short Y -> quad_wf q (size X) (size Y) -> two_keys crs -> u2 crs + (0, g1_gen crs) != 0 -> v2 crs + (0, g2_gen crs) != 0 ->
  exists p t' o, [/\ ark_quad_commit_and_prove sch f X Y d t = Ok (p, t'),
    forall m v, ark_check cs (fun p => ark_quad_verify sch' f p d) m v (ark_send cs m p) = Some (Ok o) & o <-> quad_holds q X Y].
Proof. move=> E A r1 r2 rt cs R' sch sch' q f X Y crs d t I; exact: (quad_wire_decides I). Qed.
Print Assumptions C82_quad_decides.

Example C82_quad_decides_case : forall m v, ark_check tcs (fun p => ark_quad_verify fwd tquad p tcrs) m v (ark_send tcs m tp_quad) = Some (Ok true).
Proof.
have [p [t' [o [h1 h2 h3]]]] := @C82_quad_decides toy tark trepr trepr _ tcs tctr bwd fwd quad0 tquad xs0 ys0 crs0 tcrs 6%N tark_ok
  toy_bilinear toy_nondegenerate bwd_valid fwd_valid tcs_transports tquad_rel tcrs_rel isT isT (shortP (s := xs0) isT) (shortP (s := ys0) isT) quad0_wf crs0_two isT isT .
rewrite /tp_quad h1 [the_proof _]/= (h3.2 quad0_holds) in h2 *; exact: h2.
Qed.

Theorem C82_quad_sound : forall (E : pairing) (A : ark (Fr E)) (r1 : repr (G1 E) (C1 A)) (r2 : repr (G2 E) (C2 A)) (rt : GT E -> out A -> Prop)
  (R' : ark_rng A) sch (t t' : ark_rst R') d P1 P2, implements r1 r2 rt ->
  bilinear E -> valid_sched sch -> ark_generate_crs t = (d, t') ->
  rp r1 P1 (ark_rand_g1 t).1 -> rp r2 P2 (ark_rand_g2 (ark_rand_g1 t).2).1 -> nondegenerate E -> cyclic (G1 E) -> cyclic (G2 E) -> P1 != 0 -> P2 != 0 -> 
  exists (ex1 : Com1 E -> Fr E) (ex2 : Com2 E -> Fr E),
  [/\ forall (R2 : ark_rng A) X (z z' : ark_rst R2) c c', ark_batch_commit_scalar_to_B1 X d z = Ok (c', z') ->
        rseq (rcom r1) c (ark_coms c') -> map ex1 c = X,
      forall (R2 : ark_rng A) Y (z z' : ark_rst R2) c c', ark_batch_commit_scalar_to_B2 Y d z = Ok (c', z') ->
        rseq (rcom r2) c (ark_coms c') -> map ex2 c = Y
    & forall cs q f m bs, transports r1 r2 rt cs -> rquad q f ->
        ark_check cs (fun p => ark_quad_verify sch f p d) m VYes bs = Some (Ok true) ->
        exists p p', [/\ ark_read cs m VYes bs = DOk p' [::], rcproof r1 r2 p p'
          & quad_holds q (map ex1 (coms (xcoms p))) (map ex2 (coms (ycoms p)))]].
Proof. move=> E A r1 r2 rt R' sch t t' d P1 P2 I; exact: (quad_wire_sound I). Qed.
Print Assumptions C82_quad_sound.

Example C82_quad_sound_case : exists X Y, quad_holds quad0 X Y.
Proof.
have [ex1 [ex2 [_ _ h]]] := @C82_quad_sound toy tark trepr trepr _ tctr fwd 0%N 6%N tcrs (n7 1) (n7 2) tark_ok toy_bilinear fwd_valid tcrsE
  (ok_rand_g1 tctr_alike (erefl 0%N)).1 (ok_rand_g2 tctr_alike (erefl 1%N)).1 toy_nondegenerate toy_cyclic toy_cyclic isT isT.
have [p [p' [_ _ hh]]] := h tcs quad0 tquad Yes _ tcs_transports tquad_rel (C82_quad_decides_case Yes VYes).
exact: ex_intro _ _ (ex_intro _ _ hh).
Qed.

(** Without validation, points outside the groups are accepted. *)
Theorem C82_quad_unvalidated_refuted : ~ (forall (E : pairing) (A : ark (Fr E)) (r1 : repr (G1 E) (C1 A)) (r2 : repr (G2 E) (C2 A)) (rt : GT E -> out A -> Prop)
  cs sch (q : QuadEqu E) f crs d m bs p', implements r1 r2 rt -> canonical r1 -> canonical r2 -> bilinear E -> nondegenerate E -> valid_sched sch ->
  transports r1 r2 rt cs -> rquad q f -> rcrs r1 r2 rt crs d ->
  ark_read cs m VNo bs = DOk p' [::] -> ark_quad_verify sch f p' d = Ok true ->
  exists c, rseq (rcom r1) c (ark_coms (ark_xcoms p'))).
Proof.
move=> h; have [p' [h1 h2 h3]] := takenP out_quad_taken; apply: h3.
exact: (h toy tark trepr trepr _ tcs fwd quad0 tquad crs0 tcrs No _ p' tark_ok trepr_canonical trepr_canonical toy_bilinear toy_nondegenerate fwd_valid tcs_transports tquad_rel tcrs_rel h1 h2).
Qed.
Print Assumptions C82_quad_unvalidated_refuted.

Example C82_quad_unvalidated_case :
  taken (fun p => ark_quad_verify fwd tquad p tcrs) (ark_read tcs No VNo (ark_send tcs No (out_proof tp_quad))) /\
  ark_check tcs (fun p => ark_quad_verify fwd tquad p tcrs) No VYes (ark_send tcs No (out_proof tp_quad)) = None.
Proof. exact: conj out_quad_taken out_quad_refused. Qed.
