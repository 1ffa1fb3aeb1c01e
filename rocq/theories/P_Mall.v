(** Property C96: all proofs accepted for the same commitments under a binding key. *)
From mathcomp Require Import all_ssreflect all_algebra.
From Verif Require Import Base BaseLemmas Group DataStructures Generator Commit Statement Prove Verify Spec SpecMat SpecVerify SpecHide SpecRerand SpecTamper Main Exist ExistProps MallProps Concrete Concrete2 Concrete4 Concrete7.
Set Implicit Arguments.
Unset Strict Implicit.
Unset Printing Implicit Defensive.
Import GRing.Theory.
Local Open Scope ring_scope.

Example crs0_binding_case : binding_crs_with crs0 (n7 2) (n7 3) (n7 4) (n7 5).
Proof. by split; apply/eqP; vm_compute. Qed.
Local Notation alt s := [:: (nth 0 s 0 : F7 * F7) - (n7 4, n7 8); (nth 0 s 1 : F7 * F7) + (n7 1, n7 2)].
Local Notation alt5 s := [:: (nth 0 s 0 : F7 * F7) - (n7 5, n7 10); (nth 0 s 1 : F7 * F7) + (n7 1, n7 2)].

(** C96: given one accepted proof, exactly which others are accepted. *)
Theorem C96_ppe : forall (E : pairing) (sch sch' : sched) (q : PPE E) (p : CProof E) (crs : CRS E) pf pf' a1 a2 t1 t2, bilinear E -> nondegenerate E -> cyclic (G2 E) -> valid_sched sch -> valid_sched sch' ->
  binding_crs_with crs a1 a2 t1 t2 -> proper_crs crs -> equ_proofs p = [:: pf] -> ppe_verify sch q p crs = Ok true ->
  equ_type pf' = PairingProduct -> size (pi pf') = 2%N -> size (theta pf') = 2%N ->
  answers (ppe_verify sch' q (mkCProof (xcoms p) (ycoms p) [:: pf']) crs)
    (exists k, nth 0 (pi pf') 0 + t1 *: nth 0 (pi pf') 1 = nth 0 (pi pf) 0 + t1 *: nth 0 (pi pf) 1 + k *: v1 crs /\ nth 0 (theta pf') 0 + t2 *: nth 0 (theta pf') 1 = nth 0 (theta pf) 0 + t2 *: nth 0 (theta pf) 1 - k *: u1 crs).
Proof. exact: @k_C96_ppe. Qed.
Print Assumptions C96_ppe.

(** Another accepted proof for the same commitments. *)
Example C96_ppe_case := @C96_ppe toy fwd bwd ppe0 ppe_p0 crs0 (pf_of ppe_p0) (mkEquProof (E := toy) (alt (pi (pf_of ppe_p0))) (theta (pf_of ppe_p0)) PairingProduct [::]) (n7 2) (n7 3) (n7 4) (n7 5) toy_bilinear toy_nondegenerate toy_cyclic fwd_valid bwd_valid crs0_binding_case (conj crs0_g1 crs0_g2) erefl ppe_p0_ok erefl erefl erefl.
Example C96_ppe_run_case : ppe_verify fwd ppe0 (mkCProof (xcoms ppe_p0) (ycoms ppe_p0) [:: (mkEquProof (E := toy) (alt (pi (pf_of ppe_p0))) (theta (pf_of ppe_p0)) PairingProduct [::])]) crs0 = Ok true.
Proof. by vm_compute. Qed.

(** C96: so C59 is false for these equations under a binding key: some accepted proof is not an output of [prove]. *)
Theorem C96_ppe_outputs_refuted : forall (E : pairing) (sch sch' : sched) (q : PPE E) (X : seq (G1 E)) (Y : seq (G2 E)) (cx : Commit1 E) (cy : Commit2 E) (crs : CRS E),
  bilinear E -> nondegenerate E -> cyclic (G2 E) -> valid_sched sch -> valid_sched sch' -> binding_crs crs -> proper_crs crs ->
  made_G1 crs X cx -> made_G2 crs Y cy -> (0 < size X)%N -> (0 < size Y)%N -> ppe_wf q (size X) (size Y) -> ppe_holds q X Y ->
  exists pf, [/\ equ_type pf = PairingProduct, size (pi pf) = 2%N, size (theta pf) = 2%N, ppe_verify sch' q (mkCProof cx cy [:: pf]) crs = Ok true &
    forall t : 4.-tuple (Fr E), ~ yields (fun R s => ppe_prove (R := R) sch q X Y cx cy crs s) pf t].
Proof. exact: @k_C96_ppe_outputs_refuted. Qed.
Print Assumptions C96_ppe_outputs_refuted.

Example C96_ppe_outputs_refuted_case : exists cx cy pf, ppe_verify fwd ppe0 (mkCProof cx cy [:: pf]) crs0 = Ok true /\
  (forall t : 4.-tuple (Fr toy), ~ yields (fun R s => ppe_prove (E := toy) (R := R) bwd ppe0 xs0 ys0 cx cy crs0 s) pf t).
Proof.
have [cx [cy [pf [s1 [s2 [mx my _ _]]]]]] := ppe_run (sch := fwd) fwd_valid (q := ppe0) (X := xs0) (Y := ys0) (6%N : rst ctr) isT isT ppe0_wf crs0_two.
have hk : binding_crs crs0 by exists (n7 2), (n7 3), (n7 4), (n7 5); exact: crs0_binding_case.
have [pf' [_ _ _ h1 h2]] := @C96_ppe_outputs_refuted toy bwd fwd ppe0 xs0 ys0 cx cy crs0 toy_bilinear toy_nondegenerate toy_cyclic bwd_valid fwd_valid hk (conj crs0_g1 crs0_g2) mx my isT isT ppe0_wf ppe0_holds.
by exists cx, cy, pf'.
Qed.

Theorem C96_ms1 : forall (E : pairing) (sch sch' : sched) (q : MSMEG1 E) (p : CProof E) (crs : CRS E) pf pf' a1 a2 t1 t2, bilinear E -> nondegenerate E -> cyclic (G2 E) -> valid_sched sch -> valid_sched sch' ->
  binding_crs_with crs a1 a2 t1 t2 -> proper_crs crs -> equ_proofs p = [:: pf] -> ms1_verify sch q p crs = Ok true ->
  equ_type pf' = MultiScalarG1 -> size (pi pf') = 2%N -> (0 < size (theta pf'))%N ->
  answers (ms1_verify sch' q (mkCProof (xcoms p) (ycoms p) [:: pf']) crs)
    (exists k, nth 0 (pi pf') 0 + t1 *: nth 0 (pi pf') 1 = nth 0 (pi pf) 0 + t1 *: nth 0 (pi pf) 1 + k *: v1 crs /\ nth 0 (theta pf') 0 = nth 0 (theta pf) 0 - k *: u1 crs).
Proof. exact: @k_C96_ms1. Qed.
Print Assumptions C96_ms1.

(** Another accepted proof for the same commitments. *)
Example C96_ms1_case := @C96_ms1 toy fwd bwd ms10 ms1_p0 crs0 (pf_of ms1_p0) (mkEquProof (E := toy) (alt (pi (pf_of ms1_p0))) (theta (pf_of ms1_p0)) MultiScalarG1 [::]) (n7 2) (n7 3) (n7 4) (n7 5) toy_bilinear toy_nondegenerate toy_cyclic fwd_valid bwd_valid crs0_binding_case (conj crs0_g1 crs0_g2) erefl ms1_p0_ok erefl erefl isT.
Example C96_ms1_run_case : ms1_verify fwd ms10 (mkCProof (xcoms ms1_p0) (ycoms ms1_p0) [:: (mkEquProof (E := toy) (alt (pi (pf_of ms1_p0))) (theta (pf_of ms1_p0)) MultiScalarG1 [::])]) crs0 = Ok true.
Proof. by vm_compute. Qed.

(** C96: so C59 is false for these equations under a binding key: some accepted proof is not an output of [prove]. *)
Theorem C96_ms1_outputs_refuted : forall (E : pairing) (sch sch' : sched) (q : MSMEG1 E) (X : seq (G1 E)) (Y : seq (Fr E)) (cx : Commit1 E) (cy : Commit2 E) (crs : CRS E),
  bilinear E -> nondegenerate E -> cyclic (G2 E) -> valid_sched sch -> valid_sched sch' -> binding_crs crs -> proper_crs crs ->
  made_G1 crs X cx -> made_B2 crs Y cy -> (0 < size X)%N -> (0 < size Y)%N -> ms1_wf q (size X) (size Y) -> ms1_holds q X Y ->
  exists pf, [/\ equ_type pf = MultiScalarG1, size (pi pf) = 2%N, size (theta pf) = 1%N, ms1_verify sch' q (mkCProof cx cy [:: pf]) crs = Ok true &
    forall t : 2.-tuple (Fr E), ~ yields (fun R s => ms1_prove (R := R) sch q X Y cx cy crs s) pf t].
Proof. exact: @k_C96_ms1_outputs_refuted. Qed.
Print Assumptions C96_ms1_outputs_refuted.

Example C96_ms1_outputs_refuted_case : exists cx cy pf, ms1_verify fwd ms10 (mkCProof cx cy [:: pf]) crs0 = Ok true /\
  (forall t : 2.-tuple (Fr toy), ~ yields (fun R s => ms1_prove (E := toy) (R := R) bwd ms10 xs0 ys0 cx cy crs0 s) pf t).
Proof.
have [cx [cy [pf [s1 [s2 [mx my _ _]]]]]] := ms1_run (sch := fwd) fwd_valid (q := ms10) (X := xs0) (Y := ys0) (6%N : rst ctr) isT isT ms10_wf crs0_two.
have hk : binding_crs crs0 by exists (n7 2), (n7 3), (n7 4), (n7 5); exact: crs0_binding_case.
have [pf' [_ _ _ h1 h2]] := @C96_ms1_outputs_refuted toy bwd fwd ms10 xs0 ys0 cx cy crs0 toy_bilinear toy_nondegenerate toy_cyclic bwd_valid fwd_valid hk (conj crs0_g1 crs0_g2) mx my isT isT ms10_wf ms10_holds.
by exists cx, cy, pf'.
Qed.

Theorem C96_ms2 : forall (E : pairing) (sch sch' : sched) (q : MSMEG2 E) (p : CProof E) (crs : CRS E) pf pf' a1 a2 t1 t2, bilinear E -> nondegenerate E -> cyclic (G2 E) -> valid_sched sch -> valid_sched sch' ->
  binding_crs_with crs a1 a2 t1 t2 -> proper_crs crs -> equ_proofs p = [:: pf] -> ms2_verify sch q p crs = Ok true ->
  equ_type pf' = MultiScalarG2 -> (0 < size (pi pf'))%N -> size (theta pf') = 2%N ->
  answers (ms2_verify sch' q (mkCProof (xcoms p) (ycoms p) [:: pf']) crs)
    (exists k, nth 0 (pi pf') 0 = nth 0 (pi pf) 0 + k *: v1 crs /\ nth 0 (theta pf') 0 + t2 *: nth 0 (theta pf') 1 = nth 0 (theta pf) 0 + t2 *: nth 0 (theta pf) 1 - k *: u1 crs).
Proof. exact: @k_C96_ms2. Qed.
Print Assumptions C96_ms2.

(** Another accepted proof for the same commitments. *)
Example C96_ms2_case := @C96_ms2 toy fwd bwd ms20 ms2_p0 crs0 (pf_of ms2_p0) (mkEquProof (E := toy) (pi (pf_of ms2_p0)) (alt5 (theta (pf_of ms2_p0))) MultiScalarG2 [::]) (n7 2) (n7 3) (n7 4) (n7 5) toy_bilinear toy_nondegenerate toy_cyclic fwd_valid bwd_valid crs0_binding_case (conj crs0_g1 crs0_g2) erefl ms2_p0_ok erefl isT erefl.
Example C96_ms2_run_case : ms2_verify fwd ms20 (mkCProof (xcoms ms2_p0) (ycoms ms2_p0) [:: (mkEquProof (E := toy) (pi (pf_of ms2_p0)) (alt5 (theta (pf_of ms2_p0))) MultiScalarG2 [::])]) crs0 = Ok true.
Proof. by vm_compute. Qed.

(** C96: so C59 is false for these equations under a binding key: some accepted proof is not an output of [prove]. *)
Theorem C96_ms2_outputs_refuted : forall (E : pairing) (sch sch' : sched) (q : MSMEG2 E) (X : seq (Fr E)) (Y : seq (G2 E)) (cx : Commit1 E) (cy : Commit2 E) (crs : CRS E),
  bilinear E -> nondegenerate E -> cyclic (G2 E) -> valid_sched sch -> valid_sched sch' -> binding_crs crs -> proper_crs crs ->
  made_B1 crs X cx -> made_G2 crs Y cy -> (0 < size X)%N -> (0 < size Y)%N -> ms2_wf q (size X) (size Y) -> ms2_holds q X Y ->
  exists pf, [/\ equ_type pf = MultiScalarG2, size (pi pf) = 1%N, size (theta pf) = 2%N, ms2_verify sch' q (mkCProof cx cy [:: pf]) crs = Ok true &
    forall t : 2.-tuple (Fr E), ~ yields (fun R s => ms2_prove (R := R) sch q X Y cx cy crs s) pf t].
Proof. exact: @k_C96_ms2_outputs_refuted. Qed.
Print Assumptions C96_ms2_outputs_refuted.

Example C96_ms2_outputs_refuted_case : exists cx cy pf, ms2_verify fwd ms20 (mkCProof cx cy [:: pf]) crs0 = Ok true /\
  (forall t : 2.-tuple (Fr toy), ~ yields (fun R s => ms2_prove (E := toy) (R := R) bwd ms20 xs0 ys0 cx cy crs0 s) pf t).
Proof.
have [cx [cy [pf [s1 [s2 [mx my _ _]]]]]] := ms2_run (sch := fwd) fwd_valid (q := ms20) (X := xs0) (Y := ys0) (6%N : rst ctr) isT isT ms20_wf crs0_two.
have hk : binding_crs crs0 by exists (n7 2), (n7 3), (n7 4), (n7 5); exact: crs0_binding_case.
have [pf' [_ _ _ h1 h2]] := @C96_ms2_outputs_refuted toy bwd fwd ms20 xs0 ys0 cx cy crs0 toy_bilinear toy_nondegenerate toy_cyclic bwd_valid fwd_valid hk (conj crs0_g1 crs0_g2) mx my isT isT ms20_wf ms20_holds.
by exists cx, cy, pf'.
Qed.

Theorem C96_quad : forall (E : pairing) (sch sch' : sched) (q : QuadEqu E) (p : CProof E) (crs : CRS E) pf pf' a1 a2 t1 t2, bilinear E -> nondegenerate E -> cyclic (G2 E) -> valid_sched sch -> valid_sched sch' ->
  binding_crs_with crs a1 a2 t1 t2 -> proper_crs crs -> equ_proofs p = [:: pf] -> quad_verify sch q p crs = Ok true ->
  equ_type pf' = Quadratic -> (0 < size (pi pf'))%N -> (0 < size (theta pf'))%N ->
  answers (quad_verify sch' q (mkCProof (xcoms p) (ycoms p) [:: pf']) crs)
    (exists k, nth 0 (pi pf') 0 = nth 0 (pi pf) 0 + k *: v1 crs /\ nth 0 (theta pf') 0 = nth 0 (theta pf) 0 - k *: u1 crs).
Proof. exact: @k_C96_quad. Qed.
Print Assumptions C96_quad.

(** Another accepted proof for the same commitments. *)
Example C96_quad_case := @C96_quad toy fwd bwd quad0 quad_p0 crs0 (pf_of quad_p0) (mkEquProof (E := toy) [:: (nth 0 (pi (pf_of quad_p0)) 0 : F7 * F7) + (n7 2, n7 6)] [:: (nth 0 (theta (pf_of quad_p0)) 0 : F7 * F7) - (n7 1, n7 2)] Quadratic [::]) (n7 2) (n7 3) (n7 4) (n7 5) toy_bilinear toy_nondegenerate toy_cyclic fwd_valid bwd_valid crs0_binding_case (conj crs0_g1 crs0_g2) erefl quad_p0_ok erefl isT isT.
Example C96_quad_run_case : quad_verify fwd quad0 (mkCProof (xcoms quad_p0) (ycoms quad_p0) [:: (mkEquProof (E := toy) [:: (nth 0 (pi (pf_of quad_p0)) 0 : F7 * F7) + (n7 2, n7 6)] [:: (nth 0 (theta (pf_of quad_p0)) 0 : F7 * F7) - (n7 1, n7 2)] Quadratic [::])]) crs0 = Ok true.
Proof. by vm_compute. Qed.
