(** Property C95: replacing one element of an accepted proof, of its equation or of the reference string. *)
From mathcomp Require Import all_ssreflect all_algebra.
From Verif Require Import Base BaseLemmas Group DataStructures Generator Commit Statement Prove Verify Spec SpecMat SpecVerify SpecTamper TamperProps Concrete Concrete2.
Set Implicit Arguments.
Unset Strict Implicit.
Unset Printing Implicit Defensive.
Import GRing.Theory.
Local Open Scope ring_scope.

Local Notation c11 := ((n7 1, n7 1) : F7 * F7).

(** C95: one element of [pi] is replaced in an accepted PPE proof: it stays accepted exactly if it is the same or is paired with a zero key. *)
Theorem C95_ppe_pi : forall (E : pairing) (sch sch' : sched) (q : PPE E) (p : CProof E) (crs : CRS E) pf (i : nat) (x : Com2 E), bilinear E -> nondegenerate E -> valid_sched sch -> valid_sched sch' ->
  equ_proofs p = [:: pf] -> ppe_verify sch q p crs = Ok true -> (i < size (crs_u crs))%N ->
  answers (ppe_verify sch' q (alter_pi i x p) crs) (nth 0 (crs_u crs) i = 0 \/ x = nth 0 (pi pf) i).
Proof. exact: @k_C95_ppe_pi. Qed.
Print Assumptions C95_ppe_pi.

Example C95_ppe_pi_case := @C95_ppe_pi toy fwd bwd ppe0 ppe_p0 crs0 (pf_of ppe_p0) 0%N c11 toy_bilinear toy_nondegenerate fwd_valid bwd_valid erefl ppe_p0_ok isT.
Example C95_ppe_pi_run_case : ppe_verify fwd ppe0 (alter_pi (E := toy) 0 c11 ppe_p0) crs0 = Ok false.
Proof. by vm_compute. Qed.

(** C95: one element of [theta]. *)
Theorem C95_ppe_theta : forall (E : pairing) (sch sch' : sched) (q : PPE E) (p : CProof E) (crs : CRS E) pf (l : nat) (x : Com1 E), bilinear E -> nondegenerate E -> valid_sched sch -> valid_sched sch' ->
  equ_proofs p = [:: pf] -> ppe_verify sch q p crs = Ok true -> (l < size (crs_v crs))%N ->
  answers (ppe_verify sch' q (alter_theta l x p) crs) (nth 0 (crs_v crs) l = 0 \/ x = nth 0 (theta pf) l).
Proof. exact: @k_C95_ppe_theta. Qed.
Print Assumptions C95_ppe_theta.

Example C95_ppe_theta_case := @C95_ppe_theta toy fwd bwd ppe0 ppe_p0 crs0 (pf_of ppe_p0) 1%N c11 toy_bilinear toy_nondegenerate fwd_valid bwd_valid erefl ppe_p0_ok isT.
Example C95_ppe_theta_run_case : ppe_verify fwd ppe0 (alter_theta (E := toy) 1 c11 ppe_p0) crs0 = Ok false.
Proof. by vm_compute. Qed.

(** C95: a commitment to a variable of [X]: it stays accepted exactly if it is the same or what multiplies the variable is zero. *)
Theorem C95_ppe_x : forall (E : pairing) (sch sch' : sched) (q : PPE E) (p : CProof E) (crs : CRS E) pf (i : nat) (c : Com1 E), bilinear E -> nondegenerate E -> valid_sched sch -> valid_sched sch' ->
  equ_proofs p = [:: pf] -> ppe_verify sch q p crs = Ok true -> (i < size (coms (xcoms p)))%N ->
  answers (ppe_verify sch' q (alter_x i c p) crs) (c = nth 0 (coms (xcoms p)) i \/ factor_x [seq (0, y) | y <- ppe_b q] (ppe_gamma q) (coms (ycoms p)) i = 0).
Proof. exact: @k_C95_ppe_x. Qed.
Print Assumptions C95_ppe_x.

Example C95_ppe_x_case := @C95_ppe_x toy fwd bwd ppe0 ppe_p0 crs0 (pf_of ppe_p0) 0%N c11 toy_bilinear toy_nondegenerate fwd_valid bwd_valid erefl ppe_p0_ok isT.
Example C95_ppe_x_run_case : ppe_verify fwd ppe0 (alter_x (E := toy) 0 c11 ppe_p0) crs0 = Ok false.
Proof. by vm_compute. Qed.

(** C95: a commitment to a variable of [Y]. *)
Theorem C95_ppe_y : forall (E : pairing) (sch sch' : sched) (q : PPE E) (p : CProof E) (crs : CRS E) pf (j : nat) (e : Com2 E), bilinear E -> nondegenerate E -> valid_sched sch -> valid_sched sch' ->
  equ_proofs p = [:: pf] -> ppe_verify sch q p crs = Ok true -> (j < size (coms (ycoms p)))%N ->
  answers (ppe_verify sch' q (alter_y j e p) crs) (factor_y [seq (0, x) | x <- ppe_a q] (ppe_gamma q) (coms (xcoms p)) j = 0 \/ e = nth 0 (coms (ycoms p)) j).
Proof. exact: @k_C95_ppe_y. Qed.
Print Assumptions C95_ppe_y.

Example C95_ppe_y_case := @C95_ppe_y toy fwd bwd ppe0 ppe_p0 crs0 (pf_of ppe_p0) 0%N c11 toy_bilinear toy_nondegenerate fwd_valid bwd_valid erefl ppe_p0_ok isT.
Example C95_ppe_y_run_case : ppe_verify fwd ppe0 (alter_y (E := toy) 0 c11 ppe_p0) crs0 = Ok false.
Proof. by vm_compute. Qed.

(** C95: a constant of [A]: the proof stays accepted exactly if it is the same or the commitment it is paired with is zero. *)
Theorem C95_ppe_a : forall (E : pairing) (sch sch' : sched) (q : PPE E) (p : CProof E) (crs : CRS E) pf (j : nat) (a : G1 E), bilinear E -> nondegenerate E -> valid_sched sch -> valid_sched sch' ->
  equ_proofs p = [:: pf] -> ppe_verify sch q p crs = Ok true -> (j < size (coms (ycoms p)))%N ->
  answers (ppe_verify sch' (mkPPE (put j a (ppe_a q)) (ppe_b q) (ppe_gamma q) (ppe_target q)) p crs) (a = nth 0 (ppe_a q) j \/ nth 0 (coms (ycoms p)) j = 0).
Proof. exact: @k_C95_ppe_a. Qed.
Print Assumptions C95_ppe_a.

Example C95_ppe_a_case := @C95_ppe_a toy fwd bwd ppe0 ppe_p0 crs0 (pf_of ppe_p0) 0%N (n7 5) toy_bilinear toy_nondegenerate fwd_valid bwd_valid erefl ppe_p0_ok isT.
Example C95_ppe_a_run_case : ppe_verify fwd (mkPPE (E := toy) (put (T := [zmodType of F7]) 0 (n7 5) (ppe_a ppe0)) (ppe_b ppe0) (ppe_gamma ppe0) (ppe_target ppe0)) ppe_p0 crs0 = Ok false.
Proof. by vm_compute. Qed.

(** C95: a constant of [B]. *)
Theorem C95_ppe_b : forall (E : pairing) (sch sch' : sched) (q : PPE E) (p : CProof E) (crs : CRS E) pf (i : nat) (b : G2 E), bilinear E -> nondegenerate E -> valid_sched sch -> valid_sched sch' ->
  equ_proofs p = [:: pf] -> ppe_verify sch q p crs = Ok true -> (i < size (coms (xcoms p)))%N ->
  answers (ppe_verify sch' (mkPPE (ppe_a q) (put i b (ppe_b q)) (ppe_gamma q) (ppe_target q)) p crs) (nth 0 (coms (xcoms p)) i = 0 \/ b = nth 0 (ppe_b q) i).
Proof. exact: @k_C95_ppe_b. Qed.
Print Assumptions C95_ppe_b.

Example C95_ppe_b_case := @C95_ppe_b toy fwd bwd ppe0 ppe_p0 crs0 (pf_of ppe_p0) 0%N (n7 5) toy_bilinear toy_nondegenerate fwd_valid bwd_valid erefl ppe_p0_ok isT.
Example C95_ppe_b_run_case : ppe_verify fwd (mkPPE (E := toy) (ppe_a ppe0) (put (T := [zmodType of F7]) 0 (n7 5) (ppe_b ppe0)) (ppe_gamma ppe0) (ppe_target ppe0)) ppe_p0 crs0 = Ok false.
Proof. by vm_compute. Qed.

(** C95: an entry of [gamma]. *)
Theorem C95_ppe_gamma : forall (E : pairing) (sch sch' : sched) (q : PPE E) (p : CProof E) (crs : CRS E) pf (i j : nat) (g : Fr E), bilinear E -> nondegenerate E -> valid_sched sch -> valid_sched sch' ->
  equ_proofs p = [:: pf] -> ppe_verify sch q p crs = Ok true -> (i < size (coms (xcoms p)))%N -> (j < size (coms (ycoms p)))%N ->
  answers (ppe_verify sch' (mkPPE (ppe_a q) (ppe_b q) (put_entry i j g (ppe_gamma q)) (ppe_target q)) p crs) (g = entry (ppe_gamma q) i j \/ nth 0 (coms (xcoms p)) i = 0 \/ nth 0 (coms (ycoms p)) j = 0).
Proof. exact: @k_C95_ppe_gamma. Qed.
Print Assumptions C95_ppe_gamma.

Example C95_ppe_gamma_case := @C95_ppe_gamma toy fwd bwd ppe0 ppe_p0 crs0 (pf_of ppe_p0) 0%N 0%N (n7 5) toy_bilinear toy_nondegenerate fwd_valid bwd_valid erefl ppe_p0_ok isT isT.
Example C95_ppe_gamma_run_case : ppe_verify fwd (mkPPE (E := toy) (ppe_a ppe0) (ppe_b ppe0) (put_entry (T := [zmodType of F7]) 0 0 (n7 5) (ppe_gamma ppe0)) (ppe_target ppe0)) ppe_p0 crs0 = Ok false.
Proof. by vm_compute. Qed.

(** C95: the target: a proof is accepted for one target only. *)
Theorem C95_ppe_target : forall (E : pairing) (sch sch' : sched) (q : PPE E) (p : CProof E) (crs : CRS E) pf (t : GT E), bilinear E -> nondegenerate E -> valid_sched sch -> valid_sched sch' ->
  equ_proofs p = [:: pf] -> ppe_verify sch q p crs = Ok true -> 
  answers (ppe_verify sch' (mkPPE (ppe_a q) (ppe_b q) (ppe_gamma q) t) p crs) (t = ppe_target q).
Proof. exact: @k_C95_ppe_target. Qed.
Print Assumptions C95_ppe_target.

Example C95_ppe_target_case := @C95_ppe_target toy fwd bwd ppe0 ppe_p0 crs0 (pf_of ppe_p0) (n7 5) toy_bilinear toy_nondegenerate fwd_valid bwd_valid erefl ppe_p0_ok.
Example C95_ppe_target_run_case : ppe_verify fwd (mkPPE (E := toy) (ppe_a ppe0) (ppe_b ppe0) (ppe_gamma ppe0) (n7 5)) ppe_p0 crs0 = Ok false.
Proof. by vm_compute. Qed.

(** C95: verified with another key for [G1]. *)
Theorem C95_ppe_u : forall (E : pairing) (sch sch' : sched) (q : PPE E) (p : CProof E) (crs : CRS E) pf (i : nat) (u : Com1 E), bilinear E -> nondegenerate E -> valid_sched sch -> valid_sched sch' ->
  equ_proofs p = [:: pf] -> ppe_verify sch q p crs = Ok true -> (i < size (crs_u crs))%N ->
  answers (ppe_verify sch' q p (mkCRS (put i u (crs_u crs)) (crs_v crs) (g1_gen crs) (g2_gen crs) (gt_gen crs))) (u = nth 0 (crs_u crs) i \/ nth 0 (pi pf) i = 0).
Proof. exact: @k_C95_ppe_u. Qed.
Print Assumptions C95_ppe_u.

Example C95_ppe_u_case := @C95_ppe_u toy fwd bwd ppe0 ppe_p0 crs0 (pf_of ppe_p0) 0%N c11 toy_bilinear toy_nondegenerate fwd_valid bwd_valid erefl ppe_p0_ok isT.
Example C95_ppe_u_run_case : ppe_verify fwd ppe0 ppe_p0 (mkCRS (E := toy) (put (T := [zmodType of F7 * F7]) 0 c11 (crs_u crs0)) (crs_v crs0) (g1_gen crs0) (g2_gen crs0) (gt_gen crs0)) = Ok false.
Proof. by vm_compute. Qed.

(** C95: verified with another key for [G2]. *)
Theorem C95_ppe_v : forall (E : pairing) (sch sch' : sched) (q : PPE E) (p : CProof E) (crs : CRS E) pf (l : nat) (v : Com2 E), bilinear E -> nondegenerate E -> valid_sched sch -> valid_sched sch' ->
  equ_proofs p = [:: pf] -> ppe_verify sch q p crs = Ok true -> (l < size (crs_v crs))%N ->
  answers (ppe_verify sch' q p (mkCRS (crs_u crs) (put l v (crs_v crs)) (g1_gen crs) (g2_gen crs) (gt_gen crs))) (nth 0 (theta pf) l = 0 \/ v = nth 0 (crs_v crs) l).
Proof. exact: @k_C95_ppe_v. Qed.
Print Assumptions C95_ppe_v.

Example C95_ppe_v_case := @C95_ppe_v toy fwd bwd ppe0 ppe_p0 crs0 (pf_of ppe_p0) 0%N c11 toy_bilinear toy_nondegenerate fwd_valid bwd_valid erefl ppe_p0_ok isT.
Example C95_ppe_v_run_case : ppe_verify fwd ppe0 ppe_p0 (mkCRS (E := toy) (crs_u crs0) (put (T := [zmodType of F7 * F7]) 0 c11 (crs_v crs0)) (g1_gen crs0) (g2_gen crs0) (gt_gen crs0)) = Ok false.
Proof. by vm_compute. Qed.

(** C95: one element of [pi] is replaced in an accepted MSMEG1 proof: it stays accepted exactly if it is the same or is paired with a zero key. *)
Theorem C95_ms1_pi : forall (E : pairing) (sch sch' : sched) (q : MSMEG1 E) (p : CProof E) (crs : CRS E) pf (i : nat) (x : Com2 E), bilinear E -> nondegenerate E -> valid_sched sch -> valid_sched sch' ->
  equ_proofs p = [:: pf] -> ms1_verify sch q p crs = Ok true -> (i < size (crs_u crs))%N ->
  answers (ms1_verify sch' q (alter_pi i x p) crs) (nth 0 (crs_u crs) i = 0 \/ x = nth 0 (pi pf) i).
Proof. exact: @k_C95_ms1_pi. Qed.
Print Assumptions C95_ms1_pi.

Example C95_ms1_pi_case := @C95_ms1_pi toy fwd bwd ms10 ms1_p0 crs0 (pf_of ms1_p0) 0%N c11 toy_bilinear toy_nondegenerate fwd_valid bwd_valid erefl ms1_p0_ok isT.
Example C95_ms1_pi_run_case : ms1_verify fwd ms10 (alter_pi (E := toy) 0 c11 ms1_p0) crs0 = Ok false.
Proof. by vm_compute. Qed.

(** C95: one element of [theta]. *)
Theorem C95_ms1_theta : forall (E : pairing) (sch sch' : sched) (q : MSMEG1 E) (p : CProof E) (crs : CRS E) pf (x : Com1 E), bilinear E -> nondegenerate E -> valid_sched sch -> valid_sched sch' ->
  equ_proofs p = [:: pf] -> ms1_verify sch q p crs = Ok true -> 
  answers (ms1_verify sch' q (alter_theta 0%N x p) crs) (nth 0 (crs_v crs) 0%N = 0 \/ x = nth 0 (theta pf) 0%N).
Proof. exact: @k_C95_ms1_theta. Qed.
Print Assumptions C95_ms1_theta.

Example C95_ms1_theta_case := @C95_ms1_theta toy fwd bwd ms10 ms1_p0 crs0 (pf_of ms1_p0) c11 toy_bilinear toy_nondegenerate fwd_valid bwd_valid erefl ms1_p0_ok.
Example C95_ms1_theta_run_case : ms1_verify fwd ms10 (alter_theta (E := toy) 0 c11 ms1_p0) crs0 = Ok false.
Proof. by vm_compute. Qed.

(** C95: a commitment to a variable of [X]: it stays accepted exactly if it is the same or what multiplies the variable is zero. *)
Theorem C95_ms1_x : forall (E : pairing) (sch sch' : sched) (q : MSMEG1 E) (p : CProof E) (crs : CRS E) pf (i : nat) (c : Com1 E), bilinear E -> nondegenerate E -> valid_sched sch -> valid_sched sch' ->
  equ_proofs p = [:: pf] -> ms1_verify sch q p crs = Ok true -> (i < size (coms (xcoms p)))%N ->
  answers (ms1_verify sch' q (alter_x i c p) crs) (c = nth 0 (coms (xcoms p)) i \/ factor_x [seq y *: one2 crs | y <- ms1_b q] (ms1_gamma q) (coms (ycoms p)) i = 0).
Proof. exact: @k_C95_ms1_x. Qed.
Print Assumptions C95_ms1_x.

Example C95_ms1_x_case := @C95_ms1_x toy fwd bwd ms10 ms1_p0 crs0 (pf_of ms1_p0) 0%N c11 toy_bilinear toy_nondegenerate fwd_valid bwd_valid erefl ms1_p0_ok isT.
Example C95_ms1_x_run_case : ms1_verify fwd ms10 (alter_x (E := toy) 0 c11 ms1_p0) crs0 = Ok false.
Proof. by vm_compute. Qed.

(** C95: a commitment to a variable of [Y]. *)
Theorem C95_ms1_y : forall (E : pairing) (sch sch' : sched) (q : MSMEG1 E) (p : CProof E) (crs : CRS E) pf (j : nat) (e : Com2 E), bilinear E -> nondegenerate E -> valid_sched sch -> valid_sched sch' ->
  equ_proofs p = [:: pf] -> ms1_verify sch q p crs = Ok true -> (j < size (coms (ycoms p)))%N ->
  answers (ms1_verify sch' q (alter_y j e p) crs) (factor_y [seq (0, x) | x <- ms1_a q] (ms1_gamma q) (coms (xcoms p)) j = 0 \/ e = nth 0 (coms (ycoms p)) j).
Proof. exact: @k_C95_ms1_y. Qed.
Print Assumptions C95_ms1_y.

Example C95_ms1_y_case := @C95_ms1_y toy fwd bwd ms10 ms1_p0 crs0 (pf_of ms1_p0) 0%N c11 toy_bilinear toy_nondegenerate fwd_valid bwd_valid erefl ms1_p0_ok isT.
Example C95_ms1_y_run_case : ms1_verify fwd ms10 (alter_y (E := toy) 0 c11 ms1_p0) crs0 = Ok false.
Proof. by vm_compute. Qed.

(** C95: a constant of [A]: the proof stays accepted exactly if it is the same or the commitment it is paired with is zero. *)
Theorem C95_ms1_a : forall (E : pairing) (sch sch' : sched) (q : MSMEG1 E) (p : CProof E) (crs : CRS E) pf (j : nat) (a : G1 E), bilinear E -> nondegenerate E -> valid_sched sch -> valid_sched sch' ->
  equ_proofs p = [:: pf] -> ms1_verify sch q p crs = Ok true -> (j < size (coms (ycoms p)))%N ->
  answers (ms1_verify sch' (mkMSMEG1 (put j a (ms1_a q)) (ms1_b q) (ms1_gamma q) (ms1_target q)) p crs) (a = nth 0 (ms1_a q) j \/ nth 0 (coms (ycoms p)) j = 0).
Proof. exact: @k_C95_ms1_a. Qed.
Print Assumptions C95_ms1_a.

Example C95_ms1_a_case := @C95_ms1_a toy fwd bwd ms10 ms1_p0 crs0 (pf_of ms1_p0) 0%N (n7 5) toy_bilinear toy_nondegenerate fwd_valid bwd_valid erefl ms1_p0_ok isT.
Example C95_ms1_a_run_case : ms1_verify fwd (mkMSMEG1 (E := toy) (put (T := [zmodType of F7]) 0 (n7 5) (ms1_a ms10)) (ms1_b ms10) (ms1_gamma ms10) (ms1_target ms10)) ms1_p0 crs0 = Ok false.
Proof. by vm_compute. Qed.

(** C95: a constant of [B]. *)
Theorem C95_ms1_b : forall (E : pairing) (sch sch' : sched) (q : MSMEG1 E) (p : CProof E) (crs : CRS E) pf (i : nat) (b : Fr E), bilinear E -> nondegenerate E -> valid_sched sch -> valid_sched sch' ->
  equ_proofs p = [:: pf] -> ms1_verify sch q p crs = Ok true -> (i < size (coms (xcoms p)))%N ->
  answers (ms1_verify sch' (mkMSMEG1 (ms1_a q) (put i b (ms1_b q)) (ms1_gamma q) (ms1_target q)) p crs) (nth 0 (coms (xcoms p)) i = 0 \/ b = nth 0 (ms1_b q) i \/ one2 crs = 0).
Proof. exact: @k_C95_ms1_b. Qed.
Print Assumptions C95_ms1_b.

Example C95_ms1_b_case := @C95_ms1_b toy fwd bwd ms10 ms1_p0 crs0 (pf_of ms1_p0) 0%N (n7 5) toy_bilinear toy_nondegenerate fwd_valid bwd_valid erefl ms1_p0_ok isT.
Example C95_ms1_b_run_case : ms1_verify fwd (mkMSMEG1 (E := toy) (ms1_a ms10) (put (T := [zmodType of F7]) 0 (n7 5) (ms1_b ms10)) (ms1_gamma ms10) (ms1_target ms10)) ms1_p0 crs0 = Ok false.
Proof. by vm_compute. Qed.

(** C95: an entry of [gamma]. *)
Theorem C95_ms1_gamma : forall (E : pairing) (sch sch' : sched) (q : MSMEG1 E) (p : CProof E) (crs : CRS E) pf (i j : nat) (g : Fr E), bilinear E -> nondegenerate E -> valid_sched sch -> valid_sched sch' ->
  equ_proofs p = [:: pf] -> ms1_verify sch q p crs = Ok true -> (i < size (coms (xcoms p)))%N -> (j < size (coms (ycoms p)))%N ->
  answers (ms1_verify sch' (mkMSMEG1 (ms1_a q) (ms1_b q) (put_entry i j g (ms1_gamma q)) (ms1_target q)) p crs) (g = entry (ms1_gamma q) i j \/ nth 0 (coms (xcoms p)) i = 0 \/ nth 0 (coms (ycoms p)) j = 0).
Proof. exact: @k_C95_ms1_gamma. Qed.
Print Assumptions C95_ms1_gamma.

Example C95_ms1_gamma_case := @C95_ms1_gamma toy fwd bwd ms10 ms1_p0 crs0 (pf_of ms1_p0) 0%N 0%N (n7 5) toy_bilinear toy_nondegenerate fwd_valid bwd_valid erefl ms1_p0_ok isT isT.
Example C95_ms1_gamma_run_case : ms1_verify fwd (mkMSMEG1 (E := toy) (ms1_a ms10) (ms1_b ms10) (put_entry (T := [zmodType of F7]) 0 0 (n7 5) (ms1_gamma ms10)) (ms1_target ms10)) ms1_p0 crs0 = Ok false.
Proof. by vm_compute. Qed.

(** C95: the target: a proof is accepted for one target only, unless the image of 1 is zero. *)
Theorem C95_ms1_target : forall (E : pairing) (sch sch' : sched) (q : MSMEG1 E) (p : CProof E) (crs : CRS E) pf (t : G1 E), bilinear E -> nondegenerate E -> valid_sched sch -> valid_sched sch' ->
  equ_proofs p = [:: pf] -> ms1_verify sch q p crs = Ok true -> 
  answers (ms1_verify sch' (mkMSMEG1 (ms1_a q) (ms1_b q) (ms1_gamma q) t) p crs) (t = ms1_target q \/ one2 crs = 0).
Proof. exact: @k_C95_ms1_target. Qed.
Print Assumptions C95_ms1_target.

Example C95_ms1_target_case := @C95_ms1_target toy fwd bwd ms10 ms1_p0 crs0 (pf_of ms1_p0) (n7 5) toy_bilinear toy_nondegenerate fwd_valid bwd_valid erefl ms1_p0_ok.
Example C95_ms1_target_run_case : ms1_verify fwd (mkMSMEG1 (E := toy) (ms1_a ms10) (ms1_b ms10) (ms1_gamma ms10) (n7 5)) ms1_p0 crs0 = Ok false.
Proof. by vm_compute. Qed.

(** C95: verified with another key for [G1]. *)
Theorem C95_ms1_u : forall (E : pairing) (sch sch' : sched) (q : MSMEG1 E) (p : CProof E) (crs : CRS E) pf (i : nat) (u : Com1 E), bilinear E -> nondegenerate E -> valid_sched sch -> valid_sched sch' ->
  equ_proofs p = [:: pf] -> ms1_verify sch q p crs = Ok true -> (i < size (crs_u crs))%N ->
  answers (ms1_verify sch' q p (mkCRS (put i u (crs_u crs)) (crs_v crs) (g1_gen crs) (g2_gen crs) (gt_gen crs))) (u = nth 0 (crs_u crs) i \/ nth 0 (pi pf) i = 0).
Proof. exact: @k_C95_ms1_u. Qed.
Print Assumptions C95_ms1_u.

Example C95_ms1_u_case := @C95_ms1_u toy fwd bwd ms10 ms1_p0 crs0 (pf_of ms1_p0) 0%N c11 toy_bilinear toy_nondegenerate fwd_valid bwd_valid erefl ms1_p0_ok isT.
Example C95_ms1_u_run_case : ms1_verify fwd ms10 ms1_p0 (mkCRS (E := toy) (put (T := [zmodType of F7 * F7]) 0 c11 (crs_u crs0)) (crs_v crs0) (g1_gen crs0) (g2_gen crs0) (gt_gen crs0)) = Ok false.
Proof. by vm_compute. Qed.

(** C95: one element of [pi] is replaced in an accepted MSMEG2 proof: it stays accepted exactly if it is the same or is paired with a zero key. *)
Theorem C95_ms2_pi : forall (E : pairing) (sch sch' : sched) (q : MSMEG2 E) (p : CProof E) (crs : CRS E) pf (x : Com2 E), bilinear E -> nondegenerate E -> valid_sched sch -> valid_sched sch' ->
  equ_proofs p = [:: pf] -> ms2_verify sch q p crs = Ok true -> 
  answers (ms2_verify sch' q (alter_pi 0%N x p) crs) (nth 0 (crs_u crs) 0%N = 0 \/ x = nth 0 (pi pf) 0%N).
Proof. exact: @k_C95_ms2_pi. Qed.
Print Assumptions C95_ms2_pi.

Example C95_ms2_pi_case := @C95_ms2_pi toy fwd bwd ms20 ms2_p0 crs0 (pf_of ms2_p0) c11 toy_bilinear toy_nondegenerate fwd_valid bwd_valid erefl ms2_p0_ok.
Example C95_ms2_pi_run_case : ms2_verify fwd ms20 (alter_pi (E := toy) 0 c11 ms2_p0) crs0 = Ok false.
Proof. by vm_compute. Qed.

(** C95: one element of [theta]. *)
Theorem C95_ms2_theta : forall (E : pairing) (sch sch' : sched) (q : MSMEG2 E) (p : CProof E) (crs : CRS E) pf (l : nat) (x : Com1 E), bilinear E -> nondegenerate E -> valid_sched sch -> valid_sched sch' ->
  equ_proofs p = [:: pf] -> ms2_verify sch q p crs = Ok true -> (l < size (crs_v crs))%N ->
  answers (ms2_verify sch' q (alter_theta l x p) crs) (nth 0 (crs_v crs) l = 0 \/ x = nth 0 (theta pf) l).
Proof. exact: @k_C95_ms2_theta. Qed.
Print Assumptions C95_ms2_theta.

Example C95_ms2_theta_case := @C95_ms2_theta toy fwd bwd ms20 ms2_p0 crs0 (pf_of ms2_p0) 1%N c11 toy_bilinear toy_nondegenerate fwd_valid bwd_valid erefl ms2_p0_ok isT.
Example C95_ms2_theta_run_case : ms2_verify fwd ms20 (alter_theta (E := toy) 1 c11 ms2_p0) crs0 = Ok false.
Proof. by vm_compute. Qed.

(** C95: a commitment to a variable of [X]: it stays accepted exactly if it is the same or what multiplies the variable is zero. *)
Theorem C95_ms2_x : forall (E : pairing) (sch sch' : sched) (q : MSMEG2 E) (p : CProof E) (crs : CRS E) pf (i : nat) (c : Com1 E), bilinear E -> nondegenerate E -> valid_sched sch -> valid_sched sch' ->
  equ_proofs p = [:: pf] -> ms2_verify sch q p crs = Ok true -> (i < size (coms (xcoms p)))%N ->
  answers (ms2_verify sch' q (alter_x i c p) crs) (c = nth 0 (coms (xcoms p)) i \/ factor_x [seq (0, y) | y <- ms2_b q] (ms2_gamma q) (coms (ycoms p)) i = 0).
Proof. exact: @k_C95_ms2_x. Qed.
Print Assumptions C95_ms2_x.

Example C95_ms2_x_case := @C95_ms2_x toy fwd bwd ms20 ms2_p0 crs0 (pf_of ms2_p0) 0%N c11 toy_bilinear toy_nondegenerate fwd_valid bwd_valid erefl ms2_p0_ok isT.
Example C95_ms2_x_run_case : ms2_verify fwd ms20 (alter_x (E := toy) 0 c11 ms2_p0) crs0 = Ok false.
Proof. by vm_compute. Qed.

(** C95: a commitment to a variable of [Y]. *)
Theorem C95_ms2_y : forall (E : pairing) (sch sch' : sched) (q : MSMEG2 E) (p : CProof E) (crs : CRS E) pf (j : nat) (e : Com2 E), bilinear E -> nondegenerate E -> valid_sched sch -> valid_sched sch' ->
  equ_proofs p = [:: pf] -> ms2_verify sch q p crs = Ok true -> (j < size (coms (ycoms p)))%N ->
  answers (ms2_verify sch' q (alter_y j e p) crs) (factor_y [seq x *: one1 crs | x <- ms2_a q] (ms2_gamma q) (coms (xcoms p)) j = 0 \/ e = nth 0 (coms (ycoms p)) j).
Proof. exact: @k_C95_ms2_y. Qed.
Print Assumptions C95_ms2_y.

Example C95_ms2_y_case := @C95_ms2_y toy fwd bwd ms20 ms2_p0 crs0 (pf_of ms2_p0) 0%N c11 toy_bilinear toy_nondegenerate fwd_valid bwd_valid erefl ms2_p0_ok isT.
Example C95_ms2_y_run_case : ms2_verify fwd ms20 (alter_y (E := toy) 0 c11 ms2_p0) crs0 = Ok false.
Proof. by vm_compute. Qed.

(** C95: a constant of [A]: the proof stays accepted exactly if it is the same or the commitment it is paired with is zero. *)
Theorem C95_ms2_a : forall (E : pairing) (sch sch' : sched) (q : MSMEG2 E) (p : CProof E) (crs : CRS E) pf (j : nat) (a : Fr E), bilinear E -> nondegenerate E -> valid_sched sch -> valid_sched sch' ->
  equ_proofs p = [:: pf] -> ms2_verify sch q p crs = Ok true -> (j < size (coms (ycoms p)))%N ->
  answers (ms2_verify sch' (mkMSMEG2 (put j a (ms2_a q)) (ms2_b q) (ms2_gamma q) (ms2_target q)) p crs) (a = nth 0 (ms2_a q) j \/ one1 crs = 0 \/ nth 0 (coms (ycoms p)) j = 0).
Proof. exact: @k_C95_ms2_a. Qed.
Print Assumptions C95_ms2_a.

Example C95_ms2_a_case := @C95_ms2_a toy fwd bwd ms20 ms2_p0 crs0 (pf_of ms2_p0) 0%N (n7 5) toy_bilinear toy_nondegenerate fwd_valid bwd_valid erefl ms2_p0_ok isT.
Example C95_ms2_a_run_case : ms2_verify fwd (mkMSMEG2 (E := toy) (put (T := [zmodType of F7]) 0 (n7 5) (ms2_a ms20)) (ms2_b ms20) (ms2_gamma ms20) (ms2_target ms20)) ms2_p0 crs0 = Ok false.
Proof. by vm_compute. Qed.

(** C95: a constant of [B]. *)
Theorem C95_ms2_b : forall (E : pairing) (sch sch' : sched) (q : MSMEG2 E) (p : CProof E) (crs : CRS E) pf (i : nat) (b : G2 E), bilinear E -> nondegenerate E -> valid_sched sch -> valid_sched sch' ->
  equ_proofs p = [:: pf] -> ms2_verify sch q p crs = Ok true -> (i < size (coms (xcoms p)))%N ->
  answers (ms2_verify sch' (mkMSMEG2 (ms2_a q) (put i b (ms2_b q)) (ms2_gamma q) (ms2_target q)) p crs) (nth 0 (coms (xcoms p)) i = 0 \/ b = nth 0 (ms2_b q) i).
Proof. exact: @k_C95_ms2_b. Qed.
Print Assumptions C95_ms2_b.

Example C95_ms2_b_case := @C95_ms2_b toy fwd bwd ms20 ms2_p0 crs0 (pf_of ms2_p0) 0%N (n7 5) toy_bilinear toy_nondegenerate fwd_valid bwd_valid erefl ms2_p0_ok isT.
Example C95_ms2_b_run_case : ms2_verify fwd (mkMSMEG2 (E := toy) (ms2_a ms20) (put (T := [zmodType of F7]) 0 (n7 5) (ms2_b ms20)) (ms2_gamma ms20) (ms2_target ms20)) ms2_p0 crs0 = Ok false.
Proof. by vm_compute. Qed.

(** C95: an entry of [gamma]. *)
Theorem C95_ms2_gamma : forall (E : pairing) (sch sch' : sched) (q : MSMEG2 E) (p : CProof E) (crs : CRS E) pf (i j : nat) (g : Fr E), bilinear E -> nondegenerate E -> valid_sched sch -> valid_sched sch' ->
  equ_proofs p = [:: pf] -> ms2_verify sch q p crs = Ok true -> (i < size (coms (xcoms p)))%N -> (j < size (coms (ycoms p)))%N ->
  answers (ms2_verify sch' (mkMSMEG2 (ms2_a q) (ms2_b q) (put_entry i j g (ms2_gamma q)) (ms2_target q)) p crs) (g = entry (ms2_gamma q) i j \/ nth 0 (coms (xcoms p)) i = 0 \/ nth 0 (coms (ycoms p)) j = 0).
Proof. exact: @k_C95_ms2_gamma. Qed.
Print Assumptions C95_ms2_gamma.

Example C95_ms2_gamma_case := @C95_ms2_gamma toy fwd bwd ms20 ms2_p0 crs0 (pf_of ms2_p0) 0%N 0%N (n7 5) toy_bilinear toy_nondegenerate fwd_valid bwd_valid erefl ms2_p0_ok isT isT.
Example C95_ms2_gamma_run_case : ms2_verify fwd (mkMSMEG2 (E := toy) (ms2_a ms20) (ms2_b ms20) (put_entry (T := [zmodType of F7]) 0 0 (n7 5) (ms2_gamma ms20)) (ms2_target ms20)) ms2_p0 crs0 = Ok false.
Proof. by vm_compute. Qed.

(** C95: the target: a proof is accepted for one target only, unless the image of 1 is zero. *)
Theorem C95_ms2_target : forall (E : pairing) (sch sch' : sched) (q : MSMEG2 E) (p : CProof E) (crs : CRS E) pf (t : G2 E), bilinear E -> nondegenerate E -> valid_sched sch -> valid_sched sch' ->
  equ_proofs p = [:: pf] -> ms2_verify sch q p crs = Ok true -> 
  answers (ms2_verify sch' (mkMSMEG2 (ms2_a q) (ms2_b q) (ms2_gamma q) t) p crs) (one1 crs = 0 \/ t = ms2_target q).
Proof. exact: @k_C95_ms2_target. Qed.
Print Assumptions C95_ms2_target.

Example C95_ms2_target_case := @C95_ms2_target toy fwd bwd ms20 ms2_p0 crs0 (pf_of ms2_p0) (n7 5) toy_bilinear toy_nondegenerate fwd_valid bwd_valid erefl ms2_p0_ok.
Example C95_ms2_target_run_case : ms2_verify fwd (mkMSMEG2 (E := toy) (ms2_a ms20) (ms2_b ms20) (ms2_gamma ms20) (n7 5)) ms2_p0 crs0 = Ok false.
Proof. by vm_compute. Qed.

(** C95: verified with another key for [G2]. *)
Theorem C95_ms2_v : forall (E : pairing) (sch sch' : sched) (q : MSMEG2 E) (p : CProof E) (crs : CRS E) pf (l : nat) (v : Com2 E), bilinear E -> nondegenerate E -> valid_sched sch -> valid_sched sch' ->
  equ_proofs p = [:: pf] -> ms2_verify sch q p crs = Ok true -> (l < size (crs_v crs))%N ->
  answers (ms2_verify sch' q p (mkCRS (crs_u crs) (put l v (crs_v crs)) (g1_gen crs) (g2_gen crs) (gt_gen crs))) (nth 0 (theta pf) l = 0 \/ v = nth 0 (crs_v crs) l).
Proof. exact: @k_C95_ms2_v. Qed.
Print Assumptions C95_ms2_v.

Example C95_ms2_v_case := @C95_ms2_v toy fwd bwd ms20 ms2_p0 crs0 (pf_of ms2_p0) 0%N c11 toy_bilinear toy_nondegenerate fwd_valid bwd_valid erefl ms2_p0_ok isT.
Example C95_ms2_v_run_case : ms2_verify fwd ms20 ms2_p0 (mkCRS (E := toy) (crs_u crs0) (put (T := [zmodType of F7 * F7]) 0 c11 (crs_v crs0)) (g1_gen crs0) (g2_gen crs0) (gt_gen crs0)) = Ok false.
Proof. by vm_compute. Qed.

(** C95: one element of [pi] is replaced in an accepted QuadEqu proof: it stays accepted exactly if it is the same or is paired with a zero key. *)
Theorem C95_quad_pi : forall (E : pairing) (sch sch' : sched) (q : QuadEqu E) (p : CProof E) (crs : CRS E) pf (x : Com2 E), bilinear E -> nondegenerate E -> valid_sched sch -> valid_sched sch' ->
  equ_proofs p = [:: pf] -> quad_verify sch q p crs = Ok true -> 
  answers (quad_verify sch' q (alter_pi 0%N x p) crs) (nth 0 (crs_u crs) 0%N = 0 \/ x = nth 0 (pi pf) 0%N).
Proof. exact: @k_C95_quad_pi. Qed.
Print Assumptions C95_quad_pi.

Example C95_quad_pi_case := @C95_quad_pi toy fwd bwd quad0 quad_p0 crs0 (pf_of quad_p0) c11 toy_bilinear toy_nondegenerate fwd_valid bwd_valid erefl quad_p0_ok.
Example C95_quad_pi_run_case : quad_verify fwd quad0 (alter_pi (E := toy) 0 c11 quad_p0) crs0 = Ok false.
Proof. by vm_compute. Qed.

(** C95: one element of [theta]. *)
Theorem C95_quad_theta : forall (E : pairing) (sch sch' : sched) (q : QuadEqu E) (p : CProof E) (crs : CRS E) pf (x : Com1 E), bilinear E -> nondegenerate E -> valid_sched sch -> valid_sched sch' ->
  equ_proofs p = [:: pf] -> quad_verify sch q p crs = Ok true -> 
  answers (quad_verify sch' q (alter_theta 0%N x p) crs) (nth 0 (crs_v crs) 0%N = 0 \/ x = nth 0 (theta pf) 0%N).
Proof. exact: @k_C95_quad_theta. Qed.
Print Assumptions C95_quad_theta.

Example C95_quad_theta_case := @C95_quad_theta toy fwd bwd quad0 quad_p0 crs0 (pf_of quad_p0) c11 toy_bilinear toy_nondegenerate fwd_valid bwd_valid erefl quad_p0_ok.
Example C95_quad_theta_run_case : quad_verify fwd quad0 (alter_theta (E := toy) 0 c11 quad_p0) crs0 = Ok false.
Proof. by vm_compute. Qed.

(** C95: a commitment to a variable of [X]: it stays accepted exactly if it is the same or what multiplies the variable is zero. *)
Theorem C95_quad_x : forall (E : pairing) (sch sch' : sched) (q : QuadEqu E) (p : CProof E) (crs : CRS E) pf (i : nat) (c : Com1 E), bilinear E -> nondegenerate E -> valid_sched sch -> valid_sched sch' ->
  equ_proofs p = [:: pf] -> quad_verify sch q p crs = Ok true -> (i < size (coms (xcoms p)))%N ->
  answers (quad_verify sch' q (alter_x i c p) crs) (c = nth 0 (coms (xcoms p)) i \/ factor_x [seq y *: one2 crs | y <- quad_b q] (quad_gamma q) (coms (ycoms p)) i = 0).
Proof. exact: @k_C95_quad_x. Qed.
Print Assumptions C95_quad_x.

Example C95_quad_x_case := @C95_quad_x toy fwd bwd quad0 quad_p0 crs0 (pf_of quad_p0) 0%N c11 toy_bilinear toy_nondegenerate fwd_valid bwd_valid erefl quad_p0_ok isT.
Example C95_quad_x_run_case : quad_verify fwd quad0 (alter_x (E := toy) 0 c11 quad_p0) crs0 = Ok false.
Proof. by vm_compute. Qed.

(** C95: a commitment to a variable of [Y]. *)
Theorem C95_quad_y : forall (E : pairing) (sch sch' : sched) (q : QuadEqu E) (p : CProof E) (crs : CRS E) pf (j : nat) (e : Com2 E), bilinear E -> nondegenerate E -> valid_sched sch -> valid_sched sch' ->
  equ_proofs p = [:: pf] -> quad_verify sch q p crs = Ok true -> (j < size (coms (ycoms p)))%N ->
  answers (quad_verify sch' q (alter_y j e p) crs) (factor_y [seq x *: one1 crs | x <- quad_a q] (quad_gamma q) (coms (xcoms p)) j = 0 \/ e = nth 0 (coms (ycoms p)) j).
Proof. exact: @k_C95_quad_y. Qed.
Print Assumptions C95_quad_y.

Example C95_quad_y_case := @C95_quad_y toy fwd bwd quad0 quad_p0 crs0 (pf_of quad_p0) 0%N c11 toy_bilinear toy_nondegenerate fwd_valid bwd_valid erefl quad_p0_ok isT.
Example C95_quad_y_run_case : quad_verify fwd quad0 (alter_y (E := toy) 0 c11 quad_p0) crs0 = Ok false.
Proof. by vm_compute. Qed.

(** C95: a constant of [A]: the proof stays accepted exactly if it is the same or the commitment it is paired with is zero. *)
Theorem C95_quad_a : forall (E : pairing) (sch sch' : sched) (q : QuadEqu E) (p : CProof E) (crs : CRS E) pf (j : nat) (a : Fr E), bilinear E -> nondegenerate E -> valid_sched sch -> valid_sched sch' ->
  equ_proofs p = [:: pf] -> quad_verify sch q p crs = Ok true -> (j < size (coms (ycoms p)))%N ->
  answers (quad_verify sch' (mkQuadEqu (put j a (quad_a q)) (quad_b q) (quad_gamma q) (quad_target q)) p crs) (a = nth 0 (quad_a q) j \/ one1 crs = 0 \/ nth 0 (coms (ycoms p)) j = 0).
Proof. exact: @k_C95_quad_a. Qed.
Print Assumptions C95_quad_a.

Example C95_quad_a_case := @C95_quad_a toy fwd bwd quad0 quad_p0 crs0 (pf_of quad_p0) 0%N (n7 5) toy_bilinear toy_nondegenerate fwd_valid bwd_valid erefl quad_p0_ok isT.
Example C95_quad_a_run_case : quad_verify fwd (mkQuadEqu (E := toy) (put (T := [zmodType of F7]) 0 (n7 5) (quad_a quad0)) (quad_b quad0) (quad_gamma quad0) (quad_target quad0)) quad_p0 crs0 = Ok false.
Proof. by vm_compute. Qed.

(** C95: a constant of [B]. *)
Theorem C95_quad_b : forall (E : pairing) (sch sch' : sched) (q : QuadEqu E) (p : CProof E) (crs : CRS E) pf (i : nat) (b : Fr E), bilinear E -> nondegenerate E -> valid_sched sch -> valid_sched sch' ->
  equ_proofs p = [:: pf] -> quad_verify sch q p crs = Ok true -> (i < size (coms (xcoms p)))%N ->
  answers (quad_verify sch' (mkQuadEqu (quad_a q) (put i b (quad_b q)) (quad_gamma q) (quad_target q)) p crs) (nth 0 (coms (xcoms p)) i = 0 \/ b = nth 0 (quad_b q) i \/ one2 crs = 0).
Proof. exact: @k_C95_quad_b. Qed.
Print Assumptions C95_quad_b.

Example C95_quad_b_case := @C95_quad_b toy fwd bwd quad0 quad_p0 crs0 (pf_of quad_p0) 0%N (n7 5) toy_bilinear toy_nondegenerate fwd_valid bwd_valid erefl quad_p0_ok isT.
Example C95_quad_b_run_case : quad_verify fwd (mkQuadEqu (E := toy) (quad_a quad0) (put (T := [zmodType of F7]) 0 (n7 5) (quad_b quad0)) (quad_gamma quad0) (quad_target quad0)) quad_p0 crs0 = Ok false.
Proof. by vm_compute. Qed.

(** C95: an entry of [gamma]. *)
Theorem C95_quad_gamma : forall (E : pairing) (sch sch' : sched) (q : QuadEqu E) (p : CProof E) (crs : CRS E) pf (i j : nat) (g : Fr E), bilinear E -> nondegenerate E -> valid_sched sch -> valid_sched sch' ->
  equ_proofs p = [:: pf] -> quad_verify sch q p crs = Ok true -> (i < size (coms (xcoms p)))%N -> (j < size (coms (ycoms p)))%N ->
  answers (quad_verify sch' (mkQuadEqu (quad_a q) (quad_b q) (put_entry i j g (quad_gamma q)) (quad_target q)) p crs) (g = entry (quad_gamma q) i j \/ nth 0 (coms (xcoms p)) i = 0 \/ nth 0 (coms (ycoms p)) j = 0).
Proof. exact: @k_C95_quad_gamma. Qed.
Print Assumptions C95_quad_gamma.

Example C95_quad_gamma_case := @C95_quad_gamma toy fwd bwd quad0 quad_p0 crs0 (pf_of quad_p0) 0%N 0%N (n7 5) toy_bilinear toy_nondegenerate fwd_valid bwd_valid erefl quad_p0_ok isT isT.
Example C95_quad_gamma_run_case : quad_verify fwd (mkQuadEqu (E := toy) (quad_a quad0) (quad_b quad0) (put_entry (T := [zmodType of F7]) 0 0 (n7 5) (quad_gamma quad0)) (quad_target quad0)) quad_p0 crs0 = Ok false.
Proof. by vm_compute. Qed.

(** C95: the target: a proof is accepted for one target only, unless the image of 1 is zero. *)
Theorem C95_quad_target : forall (E : pairing) (sch sch' : sched) (q : QuadEqu E) (p : CProof E) (crs : CRS E) pf (t : Fr E), bilinear E -> nondegenerate E -> valid_sched sch -> valid_sched sch' ->
  equ_proofs p = [:: pf] -> quad_verify sch q p crs = Ok true -> 
  answers (quad_verify sch' (mkQuadEqu (quad_a q) (quad_b q) (quad_gamma q) t) p crs) (t = quad_target q \/ one1 crs = 0 \/ one2 crs = 0).
Proof. exact: @k_C95_quad_target. Qed.
Print Assumptions C95_quad_target.

Example C95_quad_target_case := @C95_quad_target toy fwd bwd quad0 quad_p0 crs0 (pf_of quad_p0) (n7 5) toy_bilinear toy_nondegenerate fwd_valid bwd_valid erefl quad_p0_ok.
Example C95_quad_target_run_case : quad_verify fwd (mkQuadEqu (E := toy) (quad_a quad0) (quad_b quad0) (quad_gamma quad0) (n7 5)) quad_p0 crs0 = Ok false.
Proof. by vm_compute. Qed.

(** C95: the other elements of [pi] and [theta] of a scalar side are not read. *)
Theorem C95_ms1_theta_rest : forall (E : pairing) (sch sch' : sched) (q : MSMEG1 E) (p : CProof E) (crs : CRS E) pf l x, bilinear E -> valid_sched sch -> valid_sched sch' ->
  equ_proofs p = [:: pf] -> ms1_verify sch q p crs = Ok true -> (0 < l)%N -> ms1_verify sch' q (alter_theta l x p) crs = Ok true.
Proof. exact: @k_C95_ms1_theta_rest. Qed.
Print Assumptions C95_ms1_theta_rest.
Example C95_ms1_theta_rest_case := @C95_ms1_theta_rest toy fwd bwd ms10 ms1_p0 crs0 (pf_of ms1_p0) 1%N c11 toy_bilinear fwd_valid bwd_valid erefl ms1_p0_ok isT.
Theorem C95_ms2_pi_rest : forall (E : pairing) (sch sch' : sched) (q : MSMEG2 E) (p : CProof E) (crs : CRS E) pf i x, bilinear E -> valid_sched sch -> valid_sched sch' ->
  equ_proofs p = [:: pf] -> ms2_verify sch q p crs = Ok true -> (0 < i)%N -> ms2_verify sch' q (alter_pi i x p) crs = Ok true.
Proof. exact: @k_C95_ms2_pi_rest. Qed.
Print Assumptions C95_ms2_pi_rest.
Example C95_ms2_pi_rest_case := @C95_ms2_pi_rest toy fwd bwd ms20 ms2_p0 crs0 (pf_of ms2_p0) 1%N c11 toy_bilinear fwd_valid bwd_valid erefl ms2_p0_ok isT.
Theorem C95_quad_pi_rest : forall (E : pairing) (sch sch' : sched) (q : QuadEqu E) (p : CProof E) (crs : CRS E) pf i x, bilinear E -> valid_sched sch -> valid_sched sch' ->
  equ_proofs p = [:: pf] -> quad_verify sch q p crs = Ok true -> (0 < i)%N -> quad_verify sch' q (alter_pi i x p) crs = Ok true.
Proof. exact: @k_C95_quad_pi_rest. Qed.
Print Assumptions C95_quad_pi_rest.
Example C95_quad_pi_rest_case := @C95_quad_pi_rest toy fwd bwd quad0 quad_p0 crs0 (pf_of quad_p0) 1%N c11 toy_bilinear fwd_valid bwd_valid erefl quad_p0_ok isT.
Theorem C95_quad_theta_rest : forall (E : pairing) (sch sch' : sched) (q : QuadEqu E) (p : CProof E) (crs : CRS E) pf l x, bilinear E -> valid_sched sch -> valid_sched sch' ->
  equ_proofs p = [:: pf] -> quad_verify sch q p crs = Ok true -> (0 < l)%N -> quad_verify sch' q (alter_theta l x p) crs = Ok true.
Proof. exact: @k_C95_quad_theta_rest. Qed.
Print Assumptions C95_quad_theta_rest.
Example C95_quad_theta_rest_case := @C95_quad_theta_rest toy fwd bwd quad0 quad_p0 crs0 (pf_of quad_p0) 1%N c11 toy_bilinear fwd_valid bwd_valid erefl quad_p0_ok isT.

(** C95: which of the elements the conditions above speak of are zero, for a generated reference string and for the other key. *)
Theorem C95_binding_keys : forall (E : pairing) (crs : CRS E) a1 a2 t1 t2, binding_crs_with crs a1 a2 t1 t2 -> proper_crs crs ->
  [/\ u1 crs <> 0 /\ v1 crs <> 0, (u2 crs = 0 <-> t1 = 0) /\ (v2 crs = 0 <-> t2 = 0) & one1 crs <> 0 /\ one2 crs <> 0].
Proof. exact: @k_C95_binding_keys. Qed.
Print Assumptions C95_binding_keys.
Example C95_binding_keys_case : [/\ u1 crs0 <> 0 /\ v1 crs0 <> 0, (u2 crs0 = 0 <-> n7 4 = 0) /\ (v2 crs0 = 0 <-> n7 5 = 0) & one1 crs0 <> 0 /\ one2 crs0 <> 0].
Proof.
apply: (@C95_binding_keys toy crs0 (n7 2) (n7 3) (n7 4) (n7 5) _ (conj crs0_g1 crs0_g2)).
by split; apply/eqP; vm_compute.
Qed.
Theorem C95_hiding_keys : forall (E : pairing) (crs : CRS E) a1 a2 t1 t2, hiding_crs_with crs a1 a2 t1 t2 -> proper_crs crs ->
  [/\ u1 crs <> 0 /\ v1 crs <> 0, u2 crs <> 0 /\ v2 crs <> 0 & (one1 crs = 0 <-> t1 = 0) /\ (one2 crs = 0 <-> t2 = 0)].
Proof. exact: @k_C95_hiding_keys. Qed.
Print Assumptions C95_hiding_keys.
Example C95_hiding_keys_case := @C95_hiding_keys toy crsh _ _ _ _ crsh_hiding (conj crsh_g1 crsh_g2).
