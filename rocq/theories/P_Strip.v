(** Property C97: a proof sent without its randomness. *)
From mathcomp Require Import all_ssreflect all_algebra.
From Coq Require Import Strings.Byte.
From Verif Require Import Base Group DataStructures Generator Commit Statement Prove Verify Codec Spec SpecVerify SpecHide SpecSxdh SpecCodec SpecStrip StripProps.
From Verif Require Import Sxdh Concrete Concrete2 Concrete3 Concrete4 Concrete5 Concrete25 Concrete27 MatInst.
Set Implicit Arguments.
Unset Strict Implicit.
Unset Printing Implicit Defensive.
Import Order.Theory GRing.Theory Num.Theory.
Local Open Scope ring_scope.

Example fam_sizes_case (w : bool) (crs : CRS toy) : size (pick xs0 xs1 w crs) = 2%N /\ size (pick ys0 ys1 w crs) = 1%N.
Proof. by case: w. Qed.
Example ppe_fam_case (w : bool) (crs : CRS toy) : proper_crs crs -> ppe_wf ppe0 2 1 /\ ppe_holds ppe0 (pick xs0 xs1 w crs) (pick ys0 ys1 w crs).
Proof. by case/(ppe_fam w). Qed.
Example ms1_fam_case (w : bool) (crs : CRS toy) : proper_crs crs -> ms1_wf ms10 2 1 /\ ms1_holds ms10 (pick xs0 xs1 w crs) (pick ys0 ys1 w crs).
Proof. by case/(ms1_fam w). Qed.
Example ms2_fam_case (w : bool) (crs : CRS toy) : proper_crs crs -> ms2_wf ms20 2 1 /\ ms2_holds ms20 (pick xs0 xs1 w crs) (pick ys0 ys1 w crs).
Proof. by case/(ms2_fam w). Qed.
Example quad_fam_case (w : bool) (crs : CRS toy) : proper_crs crs -> quad_wf quad0 2 1 /\ quad_holds quad0 (pick xs0 xs1 w crs) (pick ys0 ys1 w crs).
Proof. by case/(quad_fam w). Qed.
Example ppe_split_case (w : bool) (crs : CRS toy) : proper_crs crs ->
  ppe_target ppe0 = toy_e (0 *: (g1_gen crs : F7o)) 0 + toy_e 1 ((ppe_target ppe0 / (g2_gen crs : F7) : F7) *: (g2_gen crs : F7o)).
Proof. by move=> [_ h2]; rewrite /toy_e /GRing.scale /= !mulr0 add0r mul1r divfK. Qed.
Example pair_case_ne : (xs0, ys0) <> (xs1, ys1).
Proof. by []. Qed.

(** C97: emptying the randomness keeps everything that is public. *)
Theorem C97_strip : forall (E : pairing) (p : CProof E), public (strip p) = public p /\ crand (xcoms (strip p)) = [::] /\ crand (ycoms (strip p)) = [::] /\ all (fun f => pf_rand f == [::]) (equ_proofs (strip p)).
Proof. exact: @k_C97_strip. Qed.
Print Assumptions C97_strip.

Example C97_strip_case : crand (xcoms ppe_p0) <> [::] /\ public (strip ppe_p0) = public ppe_p0.
Proof. by split; [|exact: (proj1 (C97_strip ppe_p0))]. Qed.

(** C97: the bytes of the emptied value depend on what is public only. *)
Theorem C97_bytes : forall (E : pairing) (cs : codecs E) (md : Compress) (p p' : CProof E), public p = public p' -> stripped cs md p = stripped cs md p'.
Proof. exact: @k_C97_bytes. Qed.
Print Assumptions C97_bytes.

Example C97_bytes_case := @C97_bytes toy (toys predT) Yes ppe_p0 (strip ppe_p0) (esym (proj1 (C97_strip ppe_p0))).

(** C97: these bytes are written from the public fields alone. *)
Theorem C97_built : forall (E : pairing) (cs : codecs E) (md : Compress) (p : CProof E), let no_rand := nseq 8 x00 in
  stripped cs md p = (ser (vec_codec (com1_codec cs)) md (coms (xcoms p)) ++ no_rand) ++ (ser (vec_codec (com2_codec cs)) md (coms (ycoms p)) ++ no_rand)
    ++ flatten [seq ser (vec_codec (com2_codec cs)) md (pi f) ++ ser (vec_codec (com1_codec cs)) md (theta f) ++ ser equtype_codec md (equ_type f) ++ no_rand | f <- equ_proofs p].
Proof. exact: @k_C97_built. Qed.
Print Assumptions C97_built.

Example C97_built_case := @C97_built toy (toys predT) No ppe_p0.

(** C97: and are read back as the emptied values. *)
Theorem C97_commit1_read : forall (E : pairing) (cs : codecs E) (md : Compress) (v : Validate) (c : seq (Com1 E)) (rest : seq byte), elements_ok cs good_codec -> short c ->
  de (commit1_codec cs) md v (ser (vec_codec (com1_codec cs)) md c ++ nseq 8 x00 ++ rest) = DOk (mkCommit c [::]) rest.
Proof. exact: @k_C97_commit1_read. Qed.
Print Assumptions C97_commit1_read.

Example C97_commit1_read_case := @C97_commit1_read toy (toys predT) No VYes (coms (xcoms ppe_p0)) [:: x03] toys_good (shortP (s := coms (xcoms ppe_p0)) isT).

Theorem C97_commit2_read : forall (E : pairing) (cs : codecs E) (md : Compress) (v : Validate) (c : seq (Com2 E)) (rest : seq byte), elements_ok cs good_codec -> short c ->
  de (commit2_codec cs) md v (ser (vec_codec (com2_codec cs)) md c ++ nseq 8 x00 ++ rest) = DOk (mkCommit c [::]) rest.
Proof. exact: @k_C97_commit2_read. Qed.
Print Assumptions C97_commit2_read.

Example C97_commit2_read_case := @C97_commit2_read toy (toys predT) No VYes (coms (ycoms ppe_p0)) [:: x03] toys_good (shortP (s := coms (ycoms ppe_p0)) isT).

Theorem C97_equproof_read : forall (E : pairing) (cs : codecs E) (md : Compress) (v : Validate) (p : seq (Com2 E)) (t : seq (Com1 E)) (ty : EquType) (rest : seq byte), elements_ok cs good_codec -> short p -> short t ->
  de (equproof_codec cs) md v (ser (vec_codec (com2_codec cs)) md p ++ ser (vec_codec (com1_codec cs)) md t ++ ser equtype_codec md ty ++ nseq 8 x00 ++ rest) = DOk (mkEquProof p t ty [::]) rest.
Proof. exact: @k_C97_equproof_read. Qed.
Print Assumptions C97_equproof_read.

Example C97_equproof_read_case := @C97_equproof_read toy (toys predT) No VYes (pi (pf_of ppe_p0)) (theta (pf_of ppe_p0)) PairingProduct [:: x03] toys_good (shortP (s := pi (pf_of ppe_p0)) isT) (shortP (s := theta (pf_of ppe_p0)) isT).

(** C97: [verify] answers the same, panics included, for every value. *)
Theorem C97_ppe_verdict : forall (E : pairing) (sch : sched) (q : PPE E) (p : CProof E) (crs : CRS E), ppe_verify sch q (strip p) crs = ppe_verify sch q p crs.
Proof. exact: @k_C97_ppe_verdict. Qed.
Print Assumptions C97_ppe_verdict.

Example C97_ppe_verdict_case : ppe_verify fwd ppe0 (strip ppe_p0) crs0 = Ok true.
Proof. rewrite C97_ppe_verdict; exact: ppe_p0_ok. Qed.

(** C97: sent as bytes with the equation and the reference string, the emptied proof gets the answer of the original. *)
Theorem C97_ppe_received : forall (E : pairing) (cs : codecs E) (sch : sched) (md : Compress) (v : Validate) (q : PPE E) (crs : CRS E) (p : CProof E) (pf : EquProof E),
  elements_ok cs good_codec -> ppe_fits q -> crs_fits crs -> short (coms (xcoms p)) -> short (coms (ycoms p)) -> short (pi pf) -> short (theta pf) -> equ_proofs p = [:: pf] ->
  receive cs (ppe_codec cs) (ppe_verify sch) md v (ser (ppe_codec cs) md q ++ ser (crs_codec cs) md crs ++ stripped cs md p) = DOk (ppe_verify sch q p crs) [::].
Proof. exact: @k_C97_ppe_received. Qed.
Print Assumptions C97_ppe_received.

Example C97_ppe_received_case : receive (toys predT) (ppe_codec (toys predT)) (ppe_verify fwd) No VYes
  (ser (ppe_codec (toys predT)) No ppe0 ++ ser (crs_codec (toys predT)) No crs0 ++ stripped (toys predT) No ppe_p0) = DOk (Ok true) [::].
Proof.
rewrite (@C97_ppe_received toy (toys predT) fwd No VYes _ _ _ (pf_of ppe_p0) toys_good ppe_case_fits crs_case_fits (shortP (s := coms (xcoms ppe_p0)) isT) (shortP (s := coms (ycoms ppe_p0)) isT) (shortP (s := pi (pf_of ppe_p0)) isT) (shortP (s := theta (pf_of ppe_p0)) isT) erefl).
by congr DOk; exact: ppe_p0_ok.
Qed.

(** C97: under a hiding key, the bytes for two witnesses have the same distribution, as a bijection of the random scalars and as counts. *)
Theorem C97_ppe_wi : forall (E : pairing) (cs : codecs E) (md : Compress) (sch sch' : sched) (q : PPE E) (X X' : seq (G1 E)) (Y Y' : seq (G2 E)) (crs : CRS E),
  bilinear E -> nondegenerate E -> cyclic (G1 E) -> cyclic (G2 E) -> valid_sched sch -> valid_sched sch' ->
  hiding_crs crs -> proper_crs crs ->
  (0 < size X)%N -> (0 < size Y)%N -> ppe_wf q (size X) (size Y) -> size X' = size X -> size Y' = size Y ->
  ppe_holds q X Y -> ppe_holds q X' Y' ->
  same_output (2 * size X + (2 * size Y + 4))%N (stripped cs md) (stripped cs md)
    (fun R s => ppe_commit_and_prove (R := R) sch q X Y crs s) (fun R s => ppe_commit_and_prove (R := R) sch' q X' Y' crs s).
Proof. exact: @k_C97_ppe_wi. Qed.
Print Assumptions C97_ppe_wi.

Example C97_ppe_wi_case : xs0 <> xs1 /\ ys0 <> ys1 /\
  same_output (2 * 2 + (2 * 1 + 4))%N (stripped (toys predT) Yes) (stripped (toys predT) Yes)
    (fun R s => ppe_commit_and_prove (E := toy) (R := R) fwd ppe0 xs0 ys0 crsh s) (fun R s => ppe_commit_and_prove (E := toy) (R := R) bwd ppe0 xs1 ys1 crsh s).
Proof.
split; first by []. split; first by [].
apply: (C97_ppe_wi (E := toy) (toys predT) Yes (X := xs0) (Y := ys0) toy_bilinear toy_nondegenerate toy_cyclic toy_cyclic fwd_valid bwd_valid crsh_hid crsh_prop) => //.
- exact: ppe0_wf.
- exact: ppe0_holds.
- exact: ppe0_holds1.
Qed.

Theorem C97_ppe_wi_counts : forall (F : finFieldType) (A B C : lmodType F) (e : A -> B -> C), let E := Pairing e in
  forall (cs : codecs E) (md : Compress) (sch sch' : sched) (q : PPE E) (X X' : seq (G1 E)) (Y Y' : seq (G2 E)) (crs : CRS E) D,
  bilinear E -> nondegenerate E -> cyclic (G1 E) -> cyclic (G2 E) -> valid_sched sch -> valid_sched sch' ->
  hiding_crs crs -> proper_crs crs ->
  (0 < size X)%N -> (0 < size Y)%N -> ppe_wf q (size X) (size Y) -> size X' = size X -> size Y' = size Y ->
  ppe_holds q X Y -> ppe_holds q X' Y' ->
  tapes (2 * size X + (2 * size Y + 4))%N (stripped cs md) (fun R s => ppe_commit_and_prove (R := R) sch q X Y crs s) D
  = tapes (2 * size X + (2 * size Y + 4))%N (stripped cs md) (fun R s => ppe_commit_and_prove (R := R) sch' q X' Y' crs s) D.
Proof. exact: @k_C97_ppe_wi_counts. Qed.
Print Assumptions C97_ppe_wi_counts.

Example C97_ppe_wi_counts_case D := @C97_ppe_wi_counts [finFieldType of F7] F7o F7o F7o (fun x y : F7 => x * y) (toys predT) Yes fwd bwd ppe0 xs0 xs1 ys0 ys1 crsh D toy_bilinear toy_nondegenerate toy_cyclic toy_cyclic fwd_valid bwd_valid crsh_hid crsh_prop isT isT ppe0_wf erefl erefl ppe0_holds ppe0_holds1.

(** C97: under a hiding key, the bytes are distributed like those of simulated proofs. *)
Theorem C97_ppe_zk : forall (E : pairing) (cs : codecs E) (md : Compress) (sch sch' : sched) (q : PPE E) (X : seq (G1 E)) (Y : seq (G2 E)) (crs : CRS E) (a1 a2 t1 t2 : Fr E) (k l : Fr E) (P : G1 E) (Q : G2 E),
  bilinear E -> nondegenerate E -> cyclic (G1 E) -> cyclic (G2 E) -> valid_sched sch -> valid_sched sch' ->
  hiding_crs_with crs a1 a2 t1 t2 -> proper_crs crs ->
  ppe_target q = pair_e (k *: g1_gen crs) Q + pair_e P (l *: g2_gen crs) ->
  (0 < size X)%N -> (0 < size Y)%N -> ppe_wf q (size X) (size Y) -> ppe_holds q X Y ->
  same_output (2 * size X + (2 * size Y + 4))%N (stripped cs md) (fun p => stripped cs md (ppe_fix t1 t2 k l P Q p))
    (fun R s => ppe_commit_and_prove (R := R) sch q X Y crs s)
    (fun R s => ppe_commit_and_prove (R := R) sch' q (nseq (size X) 0) (nseq (size Y) 0) crs s).
Proof. exact: @k_C97_ppe_zk. Qed.
Print Assumptions C97_ppe_zk.

Example C97_ppe_zk_case := @C97_ppe_zk toy (toys predT) Yes fwd bwd ppe0 xs0 ys0 crsh (n7 2) (n7 3) (n7 4) (n7 5) (n7 3) (n7 3) (n7 2) (n7 1) toy_bilinear toy_nondegenerate toy_cyclic toy_cyclic fwd_valid bwd_valid crsh_hiding crsh_proper ppe0_split isT isT ppe0_wf ppe0_holds.

Theorem C97_ppe_zk_counts : forall (F : finFieldType) (A B C : lmodType F) (e : A -> B -> C), let E := Pairing e in
  forall (cs : codecs E) (md : Compress) (sch sch' : sched) (q : PPE E) (X : seq (G1 E)) (Y : seq (G2 E)) (crs : CRS E) (a1 a2 t1 t2 : Fr E) (k l : Fr E) (P : G1 E) (Q : G2 E) D,
  bilinear E -> nondegenerate E -> cyclic (G1 E) -> cyclic (G2 E) -> valid_sched sch -> valid_sched sch' ->
  hiding_crs_with crs a1 a2 t1 t2 -> proper_crs crs ->
  ppe_target q = pair_e (k *: g1_gen crs) Q + pair_e P (l *: g2_gen crs) ->
  (0 < size X)%N -> (0 < size Y)%N -> ppe_wf q (size X) (size Y) -> ppe_holds q X Y ->
  tapes (2 * size X + (2 * size Y + 4))%N (stripped cs md) (fun R s => ppe_commit_and_prove (R := R) sch q X Y crs s) D
  = tapes (2 * size X + (2 * size Y + 4))%N (fun p => stripped cs md (ppe_fix t1 t2 k l P Q p)) (fun R s => ppe_commit_and_prove (R := R) sch' q (nseq (size X) 0) (nseq (size Y) 0) crs s) D.
Proof. exact: @k_C97_ppe_zk_counts. Qed.
Print Assumptions C97_ppe_zk_counts.

Example C97_ppe_zk_counts_case := @C97_ppe_zk_counts [finFieldType of F7] F7o F7o F7o (fun x y : F7 => x * y) (toys predT) Yes fwd bwd ppe0 xs0 ys0 crsh (n7 2) (n7 3) (n7 4) (n7 5) (n7 3) (n7 3) (n7 2) (n7 1) (fun r => if r is Ok c then size c == 3%N else false) toy_bilinear toy_nondegenerate toy_cyclic toy_cyclic fwd_valid bwd_valid crsh_hiding crsh_proper ppe0_split isT isT ppe0_wf ppe0_holds.

(** C97: under the keys of [generate_crs], the bytes for two witnesses are told apart only by solving DDH. *)
Theorem C97_ppe_wi_ddh : forall (F : finFieldType) (A B C : lmodType F) (e : A -> B -> C), let E := Pairing e in
  forall (cs : codecs E) (md : Compress) (O1 O2 W : finType) (s1 : O1 -> A) (s2 : O2 -> B) (D : W -> CRS E -> pred _) (sch sch' : sched) (m n : nat)
  (q : W -> CRS E -> PPE E) (X X' : W -> CRS E -> seq A) (Y Y' : W -> CRS E -> seq B),
  bilinear E -> nondegenerate E -> cyclic (G1 E) -> cyclic (G2 E) -> valid_sched sch -> valid_sched sch' -> (0 < m)%N -> (0 < n)%N ->
  (forall w crs, [/\ size (X w crs) = m, size (Y w crs) = n, size (X' w crs) = m & size (Y' w crs) = n]) ->
  (forall w crs, proper_crs crs -> [/\ ppe_wf (q w crs) m n, ppe_holds (q w crs) (X w crs) (Y w crs) & ppe_holds (q w crs) (X' w crs) (Y' w crs)]) ->
  let B1 := proof_test (N := (2 * m + (2 * n + 4))%N) D (stripped cs md) (fun w crs R s => ppe_commit_and_prove (R := R) sch (q w crs) (X w crs) (Y w crs) crs s) in
  let B2 := proof_test (N := (2 * m + (2 * n + 4))%N) D (stripped cs md) (fun w crs R s => ppe_commit_and_prove (R := R) sch' (q w crs) (X' w crs) (Y' w crs) crs s) in
  is_true (`|game s1 s2 real_crs B1 - game s1 s2 real_crs B2| <= 
  (ddh_adv s1 (ddh1 s2 B1) + ddh_adv s1 (ddh2 s2 B1) + ddh_adv s2 (ddh3 s1 B1) + ddh_adv s2 (ddh4 s1 B1))
  + (ddh_adv s1 (ddh1 s2 B2) + ddh_adv s1 (ddh2 s2 B2) + ddh_adv s2 (ddh3 s1 B2) + ddh_adv s2 (ddh4 s1 B2))
  + bad_point s1 s2).
Proof. exact: @k_C97_ppe_wi_ddh. Qed.
Print Assumptions C97_ppe_wi_ddh.

Example C97_ppe_wi_ddh_case D:= @C97_ppe_wi_ddh F7f F7o F7o F7o toy_e (toys predT) Yes [finType of bool] [finType of bool] [finType of bool] two_points two_points D fwd bwd 2 1 (fun _ _ => ppe0) (pick xs0 xs1) (pick xs1 xs1) (pick ys0 ys1) (pick ys1 ys1) toy_bilinear toy_nondegenerate toy_cyclic toy_cyclic fwd_valid bwd_valid isT isT fam_sizes ppe_fam.

(** C97: under the keys of [generate_crs], the bytes are told from simulated ones only by solving DDH. *)
Theorem C97_ppe_zk_ddh : forall (F : finFieldType) (A B C : lmodType F) (e : A -> B -> C), let E := Pairing e in
  forall (cs : codecs E) (md : Compress) (O1 O2 W : finType) (s1 : O1 -> A) (s2 : O2 -> B) (D : W -> CRS E -> pred _) (sch sch' : sched) (m n : nat)
  (q : W -> CRS E -> PPE E) (X : W -> CRS E -> seq A) (Y : W -> CRS E -> seq B) (k l : W -> CRS E -> F) (P : W -> CRS E -> A) (Q : W -> CRS E -> B),
  bilinear E -> nondegenerate E -> cyclic (G1 E) -> cyclic (G2 E) -> valid_sched sch -> valid_sched sch' -> (0 < m)%N -> (0 < n)%N ->
  (forall w crs, size (X w crs) = m /\ size (Y w crs) = n) ->
  (forall w crs, proper_crs crs -> ppe_wf (q w crs) m n /\ ppe_holds (q w crs) (X w crs) (Y w crs)) ->
  (forall w crs, proper_crs crs -> ppe_target (q w crs) = e (k w crs *: g1_gen crs) (Q w crs) + e (P w crs) (l w crs *: g2_gen crs)) ->
  let B1 := proof_test (N := (2 * m + (2 * n + 4))%N) D (stripped cs md) (fun w crs R s => ppe_commit_and_prove (R := R) sch (q w crs) (X w crs) (Y w crs) crs s) in
  is_true (`|game s1 s2 real_crs B1 -
    sim_game (2 * m + (2 * n + 4))%N D s1 s2 (fun t1 t2 w crs p => stripped cs md (ppe_fix (E := E) t1 t2 (k w crs) (l w crs) (P w crs) (Q w crs) p))
      (fun w crs R s => ppe_commit_and_prove (R := R) sch' (q w crs) (nseq m 0) (nseq n 0) crs s)| <= 
  (ddh_adv s1 (ddh1 s2 B1) + ddh_adv s1 (ddh2 s2 B1) + ddh_adv s2 (ddh3 s1 B1) + ddh_adv s2 (ddh4 s1 B1)) + bad_point s1 s2).
Proof. exact: @k_C97_ppe_zk_ddh. Qed.
Print Assumptions C97_ppe_zk_ddh.

Example C97_ppe_zk_ddh_case D := @C97_ppe_zk_ddh F7f F7o F7o F7o toy_e (toys predT) Yes [finType of bool] [finType of bool] [finType of bool] two_points two_points D fwd bwd 2 1 (fun _ _ => ppe0) (pick xs0 xs1) (pick ys0 ys1) (fun _ _ => 0) (fun _ (crs : CRS toy) => ppe_target ppe0 / (g2_gen crs : F7) : F7) (fun _ _ => 1 : F7o) (fun _ _ => 0 : F7o) toy_bilinear toy_nondegenerate toy_cyclic toy_cyclic fwd_valid bwd_valid isT isT fam_sizes_case ppe_fam_case ppe_split_case.

(** C97 (contrast): the bytes with the randomness determine the witness, under any key; so they are not distributed alike for two witnesses. *)
Theorem C97_ppe_full_refuted : forall (E : pairing) (cs : codecs E) (md : Compress) (sch sch' : sched) (R R' : rng E) (s s' : rst R) (z z' : rst R') (q q' : PPE E) (X X' : seq (G1 E)) (Y Y' : seq (G2 E)) (crs : CRS E) (p p' : CProof E),
  elements_ok cs good_codec -> short X -> short Y -> short X' -> short Y' -> 
  ppe_commit_and_prove sch q X Y crs s = Ok (p, s') -> ppe_commit_and_prove sch' q' X' Y' crs z = Ok (p', z') ->
  wire cs md p = wire cs md p' -> X = X' /\ Y = Y'.
Proof. exact: @k_C97_ppe_full_refuted. Qed.
Print Assumptions C97_ppe_full_refuted.

Example C97_ppe_full_refuted_case := @C97_ppe_full_refuted toy (toys predT) Yes fwd fwd ctr ctr 6%N ppe_runh.2 6%N ppe_runh.2 ppe0 ppe0 xs0 xs0 ys0 ys0 crsh ppe_runh.1 ppe_runh.1 toys_good (shortP (s := xs0) isT) (shortP (s := ys0) isT) (shortP (s := xs0) isT) (shortP (s := ys0) isT)  ppe_runhE ppe_runhE erefl.

Theorem C97_ppe_full_wi_refuted : forall (E : pairing) (cs : codecs E) (md : Compress) (sch sch' : sched) (q : PPE E) (X X' : seq (G1 E)) (Y Y' : seq (G2 E)) (crs : CRS E),
  elements_ok cs good_codec -> valid_sched sch -> short X -> short Y -> size (crs_u crs) = 2%N -> size (crs_v crs) = 2%N -> 
  (0 < size X)%N -> (0 < size Y)%N -> ppe_wf q (size X) (size Y) -> size X' = size X -> size Y' = size Y ->
  (X, Y) <> (X', Y') ->
  ~ same_output (2 * size X + (2 * size Y + 4))%N (wire cs md) (wire cs md)
    (fun R s => ppe_commit_and_prove (R := R) sch q X Y crs s) (fun R s => ppe_commit_and_prove (R := R) sch' q X' Y' crs s).
Proof. exact: @k_C97_ppe_full_wi_refuted. Qed.
Print Assumptions C97_ppe_full_wi_refuted.

Example C97_ppe_full_wi_refuted_case := @C97_ppe_full_wi_refuted toy (toys predT) Yes fwd bwd ppe0 xs0 xs1 ys0 ys1 crsh toys_good fwd_valid (shortP (s := xs0) isT) (shortP (s := ys0) isT) erefl erefl  isT isT ppe0_wf erefl erefl pair_case_ne.

Theorem C97_ms1_verdict : forall (E : pairing) (sch : sched) (q : MSMEG1 E) (p : CProof E) (crs : CRS E), ms1_verify sch q (strip p) crs = ms1_verify sch q p crs.
Proof. exact: @k_C97_ms1_verdict. Qed.
Print Assumptions C97_ms1_verdict.

Example C97_ms1_verdict_case : ms1_verify fwd ms10 (strip ms1_p0) crs0 = Ok true.
Proof. rewrite C97_ms1_verdict; exact: ms1_p0_ok. Qed.

Theorem C97_ms1_received : forall (E : pairing) (cs : codecs E) (sch : sched) (md : Compress) (v : Validate) (q : MSMEG1 E) (crs : CRS E) (p : CProof E) (pf : EquProof E),
  elements_ok cs good_codec -> ms1_fits q -> crs_fits crs -> short (coms (xcoms p)) -> short (coms (ycoms p)) -> short (pi pf) -> short (theta pf) -> equ_proofs p = [:: pf] ->
  receive cs (ms1_codec cs) (ms1_verify sch) md v (ser (ms1_codec cs) md q ++ ser (crs_codec cs) md crs ++ stripped cs md p) = DOk (ms1_verify sch q p crs) [::].
Proof. exact: @k_C97_ms1_received. Qed.
Print Assumptions C97_ms1_received.

Example C97_ms1_received_case : receive (toys predT) (ms1_codec (toys predT)) (ms1_verify fwd) No VYes
  (ser (ms1_codec (toys predT)) No ms10 ++ ser (crs_codec (toys predT)) No crs0 ++ stripped (toys predT) No ms1_p0) = DOk (Ok true) [::].
Proof.
rewrite (@C97_ms1_received toy (toys predT) fwd No VYes _ _ _ (pf_of ms1_p0) toys_good ms1_case_fits crs_case_fits (shortP (s := coms (xcoms ms1_p0)) isT) (shortP (s := coms (ycoms ms1_p0)) isT) (shortP (s := pi (pf_of ms1_p0)) isT) (shortP (s := theta (pf_of ms1_p0)) isT) erefl).
by congr DOk; exact: ms1_p0_ok.
Qed.

Theorem C97_ms1_wi : forall (E : pairing) (cs : codecs E) (md : Compress) (sch sch' : sched) (q : MSMEG1 E) (X X' : seq (G1 E)) (Y Y' : seq (Fr E)) (crs : CRS E),
  bilinear E -> nondegenerate E -> cyclic (G1 E) -> cyclic (G2 E) -> valid_sched sch -> valid_sched sch' ->
  hiding_crs crs -> proper_crs crs ->
  (0 < size X)%N -> (0 < size Y)%N -> ms1_wf q (size X) (size Y) -> size X' = size X -> size Y' = size Y ->
  ms1_holds q X Y -> ms1_holds q X' Y' ->
  same_output (2 * size X + (size Y + 2))%N (stripped cs md) (stripped cs md)
    (fun R s => ms1_commit_and_prove (R := R) sch q X Y crs s) (fun R s => ms1_commit_and_prove (R := R) sch' q X' Y' crs s).
Proof. exact: @k_C97_ms1_wi. Qed.
Print Assumptions C97_ms1_wi.

Example C97_ms1_wi_case : xs0 <> xs1 /\ ys0 <> ys1 /\
  same_output (2 * 2 + (1 + 2))%N (stripped (toys predT) Yes) (stripped (toys predT) Yes)
    (fun R s => ms1_commit_and_prove (E := toy) (R := R) fwd ms10 xs0 ys0 crsh s) (fun R s => ms1_commit_and_prove (E := toy) (R := R) bwd ms10 xs1 ys1 crsh s).
Proof.
split; first by []. split; first by [].
apply: (C97_ms1_wi (E := toy) (toys predT) Yes (X := xs0) (Y := ys0) toy_bilinear toy_nondegenerate toy_cyclic toy_cyclic fwd_valid bwd_valid crsh_hid crsh_prop) => //.
- exact: ms10_wf.
- exact: ms10_holds.
- exact: ms10_holds1.
Qed.

Theorem C97_ms1_wi_counts : forall (F : finFieldType) (A B C : lmodType F) (e : A -> B -> C), let E := Pairing e in
  forall (cs : codecs E) (md : Compress) (sch sch' : sched) (q : MSMEG1 E) (X X' : seq (G1 E)) (Y Y' : seq (Fr E)) (crs : CRS E) D,
  bilinear E -> nondegenerate E -> cyclic (G1 E) -> cyclic (G2 E) -> valid_sched sch -> valid_sched sch' ->
  hiding_crs crs -> proper_crs crs ->
  (0 < size X)%N -> (0 < size Y)%N -> ms1_wf q (size X) (size Y) -> size X' = size X -> size Y' = size Y ->
  ms1_holds q X Y -> ms1_holds q X' Y' ->
  tapes (2 * size X + (size Y + 2))%N (stripped cs md) (fun R s => ms1_commit_and_prove (R := R) sch q X Y crs s) D
  = tapes (2 * size X + (size Y + 2))%N (stripped cs md) (fun R s => ms1_commit_and_prove (R := R) sch' q X' Y' crs s) D.
Proof. exact: @k_C97_ms1_wi_counts. Qed.
Print Assumptions C97_ms1_wi_counts.

Example C97_ms1_wi_counts_case D := @C97_ms1_wi_counts [finFieldType of F7] F7o F7o F7o (fun x y : F7 => x * y) (toys predT) Yes fwd bwd ms10 xs0 xs1 ys0 ys1 crsh D toy_bilinear toy_nondegenerate toy_cyclic toy_cyclic fwd_valid bwd_valid crsh_hid crsh_prop isT isT ms10_wf erefl erefl ms10_holds ms10_holds1.

Theorem C97_ms1_zk : forall (E : pairing) (cs : codecs E) (md : Compress) (sch sch' : sched) (q : MSMEG1 E) (X : seq (G1 E)) (Y : seq (Fr E)) (crs : CRS E) (a1 a2 t1 t2 : Fr E),
  bilinear E -> nondegenerate E -> cyclic (G1 E) -> cyclic (G2 E) -> valid_sched sch -> valid_sched sch' ->
  hiding_crs_with crs a1 a2 t1 t2 -> proper_crs crs ->
  (0 < size X)%N -> (0 < size Y)%N -> ms1_wf q (size X) (size Y) -> ms1_holds q X Y ->
  same_output (2 * size X + (size Y + 2))%N (stripped cs md) (fun p => stripped cs md (ms1_fix t1 t2 q p))
    (fun R s => ms1_commit_and_prove (R := R) sch q X Y crs s)
    (fun R s => ms1_commit_and_prove (R := R) sch' q (nseq (size X) 0) (nseq (size Y) 0) crs s).
Proof. exact: @k_C97_ms1_zk. Qed.
Print Assumptions C97_ms1_zk.

Example C97_ms1_zk_case := @C97_ms1_zk toy (toys predT) Yes fwd bwd ms10 xs0 ys0 crsh (n7 2) (n7 3) (n7 4) (n7 5) toy_bilinear toy_nondegenerate toy_cyclic toy_cyclic fwd_valid bwd_valid crsh_hiding crsh_proper isT isT ms10_wf ms10_holds.

Theorem C97_ms1_zk_counts : forall (F : finFieldType) (A B C : lmodType F) (e : A -> B -> C), let E := Pairing e in
  forall (cs : codecs E) (md : Compress) (sch sch' : sched) (q : MSMEG1 E) (X : seq (G1 E)) (Y : seq (Fr E)) (crs : CRS E) (a1 a2 t1 t2 : Fr E) D,
  bilinear E -> nondegenerate E -> cyclic (G1 E) -> cyclic (G2 E) -> valid_sched sch -> valid_sched sch' ->
  hiding_crs_with crs a1 a2 t1 t2 -> proper_crs crs ->
  (0 < size X)%N -> (0 < size Y)%N -> ms1_wf q (size X) (size Y) -> ms1_holds q X Y ->
  tapes (2 * size X + (size Y + 2))%N (stripped cs md) (fun R s => ms1_commit_and_prove (R := R) sch q X Y crs s) D
  = tapes (2 * size X + (size Y + 2))%N (fun p => stripped cs md (ms1_fix t1 t2 q p)) (fun R s => ms1_commit_and_prove (R := R) sch' q (nseq (size X) 0) (nseq (size Y) 0) crs s) D.
Proof. exact: @k_C97_ms1_zk_counts. Qed.
Print Assumptions C97_ms1_zk_counts.

Example C97_ms1_zk_counts_case := @C97_ms1_zk_counts [finFieldType of F7] F7o F7o F7o (fun x y : F7 => x * y) (toys predT) Yes fwd bwd ms10 xs0 ys0 crsh (n7 2) (n7 3) (n7 4) (n7 5) (fun r => if r is Ok c then size c == 3%N else false) toy_bilinear toy_nondegenerate toy_cyclic toy_cyclic fwd_valid bwd_valid crsh_hiding crsh_proper isT isT ms10_wf ms10_holds.

Theorem C97_ms1_wi_ddh : forall (F : finFieldType) (A B C : lmodType F) (e : A -> B -> C), let E := Pairing e in
  forall (cs : codecs E) (md : Compress) (O1 O2 W : finType) (s1 : O1 -> A) (s2 : O2 -> B) (D : W -> CRS E -> pred _) (sch sch' : sched) (m n : nat)
  (q : W -> CRS E -> MSMEG1 E) (X X' : W -> CRS E -> seq A) (Y Y' : W -> CRS E -> seq F),
  bilinear E -> nondegenerate E -> cyclic (G1 E) -> cyclic (G2 E) -> valid_sched sch -> valid_sched sch' -> (0 < m)%N -> (0 < n)%N ->
  (forall w crs, [/\ size (X w crs) = m, size (Y w crs) = n, size (X' w crs) = m & size (Y' w crs) = n]) ->
  (forall w crs, proper_crs crs -> [/\ ms1_wf (q w crs) m n, ms1_holds (q w crs) (X w crs) (Y w crs) & ms1_holds (q w crs) (X' w crs) (Y' w crs)]) ->
  let B1 := proof_test (N := (2 * m + (n + 2))%N) D (stripped cs md) (fun w crs R s => ms1_commit_and_prove (R := R) sch (q w crs) (X w crs) (Y w crs) crs s) in
  let B2 := proof_test (N := (2 * m + (n + 2))%N) D (stripped cs md) (fun w crs R s => ms1_commit_and_prove (R := R) sch' (q w crs) (X' w crs) (Y' w crs) crs s) in
  is_true (`|game s1 s2 real_crs B1 - game s1 s2 real_crs B2| <= 
  (ddh_adv s1 (ddh1 s2 B1) + ddh_adv s1 (ddh2 s2 B1) + ddh_adv s2 (ddh3 s1 B1) + ddh_adv s2 (ddh4 s1 B1))
  + (ddh_adv s1 (ddh1 s2 B2) + ddh_adv s1 (ddh2 s2 B2) + ddh_adv s2 (ddh3 s1 B2) + ddh_adv s2 (ddh4 s1 B2))
  + bad_point s1 s2).
Proof. exact: @k_C97_ms1_wi_ddh. Qed.
Print Assumptions C97_ms1_wi_ddh.

Example C97_ms1_wi_ddh_case D:= @C97_ms1_wi_ddh F7f F7o F7o F7o toy_e (toys predT) Yes [finType of bool] [finType of bool] [finType of bool] two_points two_points D fwd bwd 2 1 (fun _ _ => ms10) (pick xs0 xs1) (pick xs1 xs1) (pick ys0 ys1) (pick ys1 ys1) toy_bilinear toy_nondegenerate toy_cyclic toy_cyclic fwd_valid bwd_valid isT isT fam_sizes ms1_fam.

Theorem C97_ms1_zk_ddh : forall (F : finFieldType) (A B C : lmodType F) (e : A -> B -> C), let E := Pairing e in
  forall (cs : codecs E) (md : Compress) (O1 O2 W : finType) (s1 : O1 -> A) (s2 : O2 -> B) (D : W -> CRS E -> pred _) (sch sch' : sched) (m n : nat)
  (q : W -> CRS E -> MSMEG1 E) (X : W -> CRS E -> seq A) (Y : W -> CRS E -> seq F),
  bilinear E -> nondegenerate E -> cyclic (G1 E) -> cyclic (G2 E) -> valid_sched sch -> valid_sched sch' -> (0 < m)%N -> (0 < n)%N ->
  (forall w crs, size (X w crs) = m /\ size (Y w crs) = n) ->
  (forall w crs, proper_crs crs -> ms1_wf (q w crs) m n /\ ms1_holds (q w crs) (X w crs) (Y w crs)) ->
  let B1 := proof_test (N := (2 * m + (n + 2))%N) D (stripped cs md) (fun w crs R s => ms1_commit_and_prove (R := R) sch (q w crs) (X w crs) (Y w crs) crs s) in
  is_true (`|game s1 s2 real_crs B1 -
    sim_game (2 * m + (n + 2))%N D s1 s2 (fun t1 t2 w crs p => stripped cs md (ms1_fix (E := E) t1 t2 (q w crs) p))
      (fun w crs R s => ms1_commit_and_prove (R := R) sch' (q w crs) (nseq m 0) (nseq n 0) crs s)| <= 
  (ddh_adv s1 (ddh1 s2 B1) + ddh_adv s1 (ddh2 s2 B1) + ddh_adv s2 (ddh3 s1 B1) + ddh_adv s2 (ddh4 s1 B1)) + bad_point s1 s2).
Proof. exact: @k_C97_ms1_zk_ddh. Qed.
Print Assumptions C97_ms1_zk_ddh.

Example C97_ms1_zk_ddh_case D := @C97_ms1_zk_ddh F7f F7o F7o F7o toy_e (toys predT) Yes [finType of bool] [finType of bool] [finType of bool] two_points two_points D fwd bwd 2 1 (fun _ _ => ms10) (pick xs0 xs1) (pick ys0 ys1) toy_bilinear toy_nondegenerate toy_cyclic toy_cyclic fwd_valid bwd_valid isT isT fam_sizes_case ms1_fam_case.

Theorem C97_ms1_full_refuted : forall (E : pairing) (cs : codecs E) (md : Compress) (sch sch' : sched) (R R' : rng E) (s s' : rst R) (z z' : rst R') (q q' : MSMEG1 E) (X X' : seq (G1 E)) (Y Y' : seq (Fr E)) (crs : CRS E) (p p' : CProof E),
  elements_ok cs good_codec -> short X -> short Y -> short X' -> short Y' -> v2 crs + (0, g2_gen crs) != 0 -> 
  ms1_commit_and_prove sch q X Y crs s = Ok (p, s') -> ms1_commit_and_prove sch' q' X' Y' crs z = Ok (p', z') ->
  wire cs md p = wire cs md p' -> X = X' /\ Y = Y'.
Proof. exact: @k_C97_ms1_full_refuted. Qed.
Print Assumptions C97_ms1_full_refuted.

Example C97_ms1_full_refuted_case := @C97_ms1_full_refuted toy (toys predT) Yes fwd fwd ctr ctr 6%N ms1_runh.2 6%N ms1_runh.2 ms10 ms10 xs0 xs0 ys0 ys0 crsh ms1_runh.1 ms1_runh.1 toys_good (shortP (s := xs0) isT) (shortP (s := ys0) isT) (shortP (s := xs0) isT) (shortP (s := ys0) isT) isT ms1_runhE ms1_runhE erefl.

Theorem C97_ms1_full_wi_refuted : forall (E : pairing) (cs : codecs E) (md : Compress) (sch sch' : sched) (q : MSMEG1 E) (X X' : seq (G1 E)) (Y Y' : seq (Fr E)) (crs : CRS E),
  elements_ok cs good_codec -> valid_sched sch -> short X -> short Y -> size (crs_u crs) = 2%N -> size (crs_v crs) = 2%N -> v2 crs + (0, g2_gen crs) != 0 -> 
  (0 < size X)%N -> (0 < size Y)%N -> ms1_wf q (size X) (size Y) -> size X' = size X -> size Y' = size Y ->
  (X, Y) <> (X', Y') ->
  ~ same_output (2 * size X + (size Y + 2))%N (wire cs md) (wire cs md)
    (fun R s => ms1_commit_and_prove (R := R) sch q X Y crs s) (fun R s => ms1_commit_and_prove (R := R) sch' q X' Y' crs s).
Proof. exact: @k_C97_ms1_full_wi_refuted. Qed.
Print Assumptions C97_ms1_full_wi_refuted.

Example C97_ms1_full_wi_refuted_case := @C97_ms1_full_wi_refuted toy (toys predT) Yes fwd bwd ms10 xs0 xs1 ys0 ys1 crsh toys_good fwd_valid (shortP (s := xs0) isT) (shortP (s := ys0) isT) erefl erefl isT isT isT ms10_wf erefl erefl pair_case_ne.

Theorem C97_ms2_verdict : forall (E : pairing) (sch : sched) (q : MSMEG2 E) (p : CProof E) (crs : CRS E), ms2_verify sch q (strip p) crs = ms2_verify sch q p crs.
Proof. exact: @k_C97_ms2_verdict. Qed.
Print Assumptions C97_ms2_verdict.

Example C97_ms2_verdict_case : ms2_verify fwd ms20 (strip ms2_p0) crs0 = Ok true.
Proof. rewrite C97_ms2_verdict; exact: ms2_p0_ok. Qed.

Theorem C97_ms2_received : forall (E : pairing) (cs : codecs E) (sch : sched) (md : Compress) (v : Validate) (q : MSMEG2 E) (crs : CRS E) (p : CProof E) (pf : EquProof E),
  elements_ok cs good_codec -> ms2_fits q -> crs_fits crs -> short (coms (xcoms p)) -> short (coms (ycoms p)) -> short (pi pf) -> short (theta pf) -> equ_proofs p = [:: pf] ->
  receive cs (ms2_codec cs) (ms2_verify sch) md v (ser (ms2_codec cs) md q ++ ser (crs_codec cs) md crs ++ stripped cs md p) = DOk (ms2_verify sch q p crs) [::].
Proof. exact: @k_C97_ms2_received. Qed.
Print Assumptions C97_ms2_received.

Example C97_ms2_received_case : receive (toys predT) (ms2_codec (toys predT)) (ms2_verify fwd) No VYes
  (ser (ms2_codec (toys predT)) No ms20 ++ ser (crs_codec (toys predT)) No crs0 ++ stripped (toys predT) No ms2_p0) = DOk (Ok true) [::].
Proof.
rewrite (@C97_ms2_received toy (toys predT) fwd No VYes _ _ _ (pf_of ms2_p0) toys_good ms2_case_fits crs_case_fits (shortP (s := coms (xcoms ms2_p0)) isT) (shortP (s := coms (ycoms ms2_p0)) isT) (shortP (s := pi (pf_of ms2_p0)) isT) (shortP (s := theta (pf_of ms2_p0)) isT) erefl).
by congr DOk; exact: ms2_p0_ok.
Qed.

Theorem C97_ms2_wi : forall (E : pairing) (cs : codecs E) (md : Compress) (sch sch' : sched) (q : MSMEG2 E) (X X' : seq (Fr E)) (Y Y' : seq (G2 E)) (crs : CRS E),
  bilinear E -> nondegenerate E -> cyclic (G1 E) -> cyclic (G2 E) -> valid_sched sch -> valid_sched sch' ->
  hiding_crs crs -> proper_crs crs ->
  (0 < size X)%N -> (0 < size Y)%N -> ms2_wf q (size X) (size Y) -> size X' = size X -> size Y' = size Y ->
  ms2_holds q X Y -> ms2_holds q X' Y' ->
  same_output (size X + (2 * size Y + 2))%N (stripped cs md) (stripped cs md)
    (fun R s => ms2_commit_and_prove (R := R) sch q X Y crs s) (fun R s => ms2_commit_and_prove (R := R) sch' q X' Y' crs s).
Proof. exact: @k_C97_ms2_wi. Qed.
Print Assumptions C97_ms2_wi.

Example C97_ms2_wi_case : xs0 <> xs1 /\ ys0 <> ys1 /\
  same_output (2 + (2 * 1 + 2))%N (stripped (toys predT) Yes) (stripped (toys predT) Yes)
    (fun R s => ms2_commit_and_prove (E := toy) (R := R) fwd ms20 xs0 ys0 crsh s) (fun R s => ms2_commit_and_prove (E := toy) (R := R) bwd ms20 xs1 ys1 crsh s).
Proof.
split; first by []. split; first by [].
apply: (C97_ms2_wi (E := toy) (toys predT) Yes (X := xs0) (Y := ys0) toy_bilinear toy_nondegenerate toy_cyclic toy_cyclic fwd_valid bwd_valid crsh_hid crsh_prop) => //.
- exact: ms20_wf.
- exact: ms20_holds.
- exact: ms20_holds1.
Qed.

Theorem C97_ms2_wi_counts : forall (F : finFieldType) (A B C : lmodType F) (e : A -> B -> C), let E := Pairing e in
  forall (cs : codecs E) (md : Compress) (sch sch' : sched) (q : MSMEG2 E) (X X' : seq (Fr E)) (Y Y' : seq (G2 E)) (crs : CRS E) D,
  bilinear E -> nondegenerate E -> cyclic (G1 E) -> cyclic (G2 E) -> valid_sched sch -> valid_sched sch' ->
  hiding_crs crs -> proper_crs crs ->
  (0 < size X)%N -> (0 < size Y)%N -> ms2_wf q (size X) (size Y) -> size X' = size X -> size Y' = size Y ->
  ms2_holds q X Y -> ms2_holds q X' Y' ->
  tapes (size X + (2 * size Y + 2))%N (stripped cs md) (fun R s => ms2_commit_and_prove (R := R) sch q X Y crs s) D
  = tapes (size X + (2 * size Y + 2))%N (stripped cs md) (fun R s => ms2_commit_and_prove (R := R) sch' q X' Y' crs s) D.
Proof. exact: @k_C97_ms2_wi_counts. Qed.
Print Assumptions C97_ms2_wi_counts.

Example C97_ms2_wi_counts_case D := @C97_ms2_wi_counts [finFieldType of F7] F7o F7o F7o (fun x y : F7 => x * y) (toys predT) Yes fwd bwd ms20 xs0 xs1 ys0 ys1 crsh D toy_bilinear toy_nondegenerate toy_cyclic toy_cyclic fwd_valid bwd_valid crsh_hid crsh_prop isT isT ms20_wf erefl erefl ms20_holds ms20_holds1.

Theorem C97_ms2_zk : forall (E : pairing) (cs : codecs E) (md : Compress) (sch sch' : sched) (q : MSMEG2 E) (X : seq (Fr E)) (Y : seq (G2 E)) (crs : CRS E) (a1 a2 t1 t2 : Fr E),
  bilinear E -> nondegenerate E -> cyclic (G1 E) -> cyclic (G2 E) -> valid_sched sch -> valid_sched sch' ->
  hiding_crs_with crs a1 a2 t1 t2 -> proper_crs crs ->
  (0 < size X)%N -> (0 < size Y)%N -> ms2_wf q (size X) (size Y) -> ms2_holds q X Y ->
  same_output (size X + (2 * size Y + 2))%N (stripped cs md) (fun p => stripped cs md (ms2_fix t1 t2 q p))
    (fun R s => ms2_commit_and_prove (R := R) sch q X Y crs s)
    (fun R s => ms2_commit_and_prove (R := R) sch' q (nseq (size X) 0) (nseq (size Y) 0) crs s).
Proof. exact: @k_C97_ms2_zk. Qed.
Print Assumptions C97_ms2_zk.

Example C97_ms2_zk_case := @C97_ms2_zk toy (toys predT) Yes fwd bwd ms20 xs0 ys0 crsh (n7 2) (n7 3) (n7 4) (n7 5) toy_bilinear toy_nondegenerate toy_cyclic toy_cyclic fwd_valid bwd_valid crsh_hiding crsh_proper isT isT ms20_wf ms20_holds.

Theorem C97_ms2_zk_counts : forall (F : finFieldType) (A B C : lmodType F) (e : A -> B -> C), let E := Pairing e in
  forall (cs : codecs E) (md : Compress) (sch sch' : sched) (q : MSMEG2 E) (X : seq (Fr E)) (Y : seq (G2 E)) (crs : CRS E) (a1 a2 t1 t2 : Fr E) D,
  bilinear E -> nondegenerate E -> cyclic (G1 E) -> cyclic (G2 E) -> valid_sched sch -> valid_sched sch' ->
  hiding_crs_with crs a1 a2 t1 t2 -> proper_crs crs ->
  (0 < size X)%N -> (0 < size Y)%N -> ms2_wf q (size X) (size Y) -> ms2_holds q X Y ->
  tapes (size X + (2 * size Y + 2))%N (stripped cs md) (fun R s => ms2_commit_and_prove (R := R) sch q X Y crs s) D
  = tapes (size X + (2 * size Y + 2))%N (fun p => stripped cs md (ms2_fix t1 t2 q p)) (fun R s => ms2_commit_and_prove (R := R) sch' q (nseq (size X) 0) (nseq (size Y) 0) crs s) D.
Proof. exact: @k_C97_ms2_zk_counts. Qed.
Print Assumptions C97_ms2_zk_counts.

Example C97_ms2_zk_counts_case := @C97_ms2_zk_counts [finFieldType of F7] F7o F7o F7o (fun x y : F7 => x * y) (toys predT) Yes fwd bwd ms20 xs0 ys0 crsh (n7 2) (n7 3) (n7 4) (n7 5) (fun r => if r is Ok c then size c == 3%N else false) toy_bilinear toy_nondegenerate toy_cyclic toy_cyclic fwd_valid bwd_valid crsh_hiding crsh_proper isT isT ms20_wf ms20_holds.

Theorem C97_ms2_wi_ddh : forall (F : finFieldType) (A B C : lmodType F) (e : A -> B -> C), let E := Pairing e in
  forall (cs : codecs E) (md : Compress) (O1 O2 W : finType) (s1 : O1 -> A) (s2 : O2 -> B) (D : W -> CRS E -> pred _) (sch sch' : sched) (m n : nat)
  (q : W -> CRS E -> MSMEG2 E) (X X' : W -> CRS E -> seq F) (Y Y' : W -> CRS E -> seq B),
  bilinear E -> nondegenerate E -> cyclic (G1 E) -> cyclic (G2 E) -> valid_sched sch -> valid_sched sch' -> (0 < m)%N -> (0 < n)%N ->
  (forall w crs, [/\ size (X w crs) = m, size (Y w crs) = n, size (X' w crs) = m & size (Y' w crs) = n]) ->
  (forall w crs, proper_crs crs -> [/\ ms2_wf (q w crs) m n, ms2_holds (q w crs) (X w crs) (Y w crs) & ms2_holds (q w crs) (X' w crs) (Y' w crs)]) ->
  let B1 := proof_test (N := (m + (2 * n + 2))%N) D (stripped cs md) (fun w crs R s => ms2_commit_and_prove (R := R) sch (q w crs) (X w crs) (Y w crs) crs s) in
  let B2 := proof_test (N := (m + (2 * n + 2))%N) D (stripped cs md) (fun w crs R s => ms2_commit_and_prove (R := R) sch' (q w crs) (X' w crs) (Y' w crs) crs s) in
  is_true (`|game s1 s2 real_crs B1 - game s1 s2 real_crs B2| <= 
  (ddh_adv s1 (ddh1 s2 B1) + ddh_adv s1 (ddh2 s2 B1) + ddh_adv s2 (ddh3 s1 B1) + ddh_adv s2 (ddh4 s1 B1))
  + (ddh_adv s1 (ddh1 s2 B2) + ddh_adv s1 (ddh2 s2 B2) + ddh_adv s2 (ddh3 s1 B2) + ddh_adv s2 (ddh4 s1 B2))
  + bad_point s1 s2).
Proof. exact: @k_C97_ms2_wi_ddh. Qed.
Print Assumptions C97_ms2_wi_ddh.

Example C97_ms2_wi_ddh_case D:= @C97_ms2_wi_ddh F7f F7o F7o F7o toy_e (toys predT) Yes [finType of bool] [finType of bool] [finType of bool] two_points two_points D fwd bwd 2 1 (fun _ _ => ms20) (pick xs0 xs1) (pick xs1 xs1) (pick ys0 ys1) (pick ys1 ys1) toy_bilinear toy_nondegenerate toy_cyclic toy_cyclic fwd_valid bwd_valid isT isT fam_sizes ms2_fam.

Theorem C97_ms2_zk_ddh : forall (F : finFieldType) (A B C : lmodType F) (e : A -> B -> C), let E := Pairing e in
  forall (cs : codecs E) (md : Compress) (O1 O2 W : finType) (s1 : O1 -> A) (s2 : O2 -> B) (D : W -> CRS E -> pred _) (sch sch' : sched) (m n : nat)
  (q : W -> CRS E -> MSMEG2 E) (X : W -> CRS E -> seq F) (Y : W -> CRS E -> seq B),
  bilinear E -> nondegenerate E -> cyclic (G1 E) -> cyclic (G2 E) -> valid_sched sch -> valid_sched sch' -> (0 < m)%N -> (0 < n)%N ->
  (forall w crs, size (X w crs) = m /\ size (Y w crs) = n) ->
  (forall w crs, proper_crs crs -> ms2_wf (q w crs) m n /\ ms2_holds (q w crs) (X w crs) (Y w crs)) ->
  let B1 := proof_test (N := (m + (2 * n + 2))%N) D (stripped cs md) (fun w crs R s => ms2_commit_and_prove (R := R) sch (q w crs) (X w crs) (Y w crs) crs s) in
  is_true (`|game s1 s2 real_crs B1 -
    sim_game (m + (2 * n + 2))%N D s1 s2 (fun t1 t2 w crs p => stripped cs md (ms2_fix (E := E) t1 t2 (q w crs) p))
      (fun w crs R s => ms2_commit_and_prove (R := R) sch' (q w crs) (nseq m 0) (nseq n 0) crs s)| <= 
  (ddh_adv s1 (ddh1 s2 B1) + ddh_adv s1 (ddh2 s2 B1) + ddh_adv s2 (ddh3 s1 B1) + ddh_adv s2 (ddh4 s1 B1)) + bad_point s1 s2).
Proof. exact: @k_C97_ms2_zk_ddh. Qed.
Print Assumptions C97_ms2_zk_ddh.

Example C97_ms2_zk_ddh_case D := @C97_ms2_zk_ddh F7f F7o F7o F7o toy_e (toys predT) Yes [finType of bool] [finType of bool] [finType of bool] two_points two_points D fwd bwd 2 1 (fun _ _ => ms20) (pick xs0 xs1) (pick ys0 ys1) toy_bilinear toy_nondegenerate toy_cyclic toy_cyclic fwd_valid bwd_valid isT isT fam_sizes_case ms2_fam_case.

Theorem C97_ms2_full_refuted : forall (E : pairing) (cs : codecs E) (md : Compress) (sch sch' : sched) (R R' : rng E) (s s' : rst R) (z z' : rst R') (q q' : MSMEG2 E) (X X' : seq (Fr E)) (Y Y' : seq (G2 E)) (crs : CRS E) (p p' : CProof E),
  elements_ok cs good_codec -> short X -> short Y -> short X' -> short Y' -> u2 crs + (0, g1_gen crs) != 0 -> 
  ms2_commit_and_prove sch q X Y crs s = Ok (p, s') -> ms2_commit_and_prove sch' q' X' Y' crs z = Ok (p', z') ->
  wire cs md p = wire cs md p' -> X = X' /\ Y = Y'.
Proof. exact: @k_C97_ms2_full_refuted. Qed.
Print Assumptions C97_ms2_full_refuted.

Example C97_ms2_full_refuted_case := @C97_ms2_full_refuted toy (toys predT) Yes fwd fwd ctr ctr 6%N ms2_runh.2 6%N ms2_runh.2 ms20 ms20 xs0 xs0 ys0 ys0 crsh ms2_runh.1 ms2_runh.1 toys_good (shortP (s := xs0) isT) (shortP (s := ys0) isT) (shortP (s := xs0) isT) (shortP (s := ys0) isT) isT ms2_runhE ms2_runhE erefl.

Theorem C97_ms2_full_wi_refuted : forall (E : pairing) (cs : codecs E) (md : Compress) (sch sch' : sched) (q : MSMEG2 E) (X X' : seq (Fr E)) (Y Y' : seq (G2 E)) (crs : CRS E),
  elements_ok cs good_codec -> valid_sched sch -> short X -> short Y -> size (crs_u crs) = 2%N -> size (crs_v crs) = 2%N -> u2 crs + (0, g1_gen crs) != 0 -> 
  (0 < size X)%N -> (0 < size Y)%N -> ms2_wf q (size X) (size Y) -> size X' = size X -> size Y' = size Y ->
  (X, Y) <> (X', Y') ->
  ~ same_output (size X + (2 * size Y + 2))%N (wire cs md) (wire cs md)
    (fun R s => ms2_commit_and_prove (R := R) sch q X Y crs s) (fun R s => ms2_commit_and_prove (R := R) sch' q X' Y' crs s).
Proof. exact: @k_C97_ms2_full_wi_refuted. Qed.
Print Assumptions C97_ms2_full_wi_refuted.

Example C97_ms2_full_wi_refuted_case := @C97_ms2_full_wi_refuted toy (toys predT) Yes fwd bwd ms20 xs0 xs1 ys0 ys1 crsh toys_good fwd_valid (shortP (s := xs0) isT) (shortP (s := ys0) isT) erefl erefl isT isT isT ms20_wf erefl erefl pair_case_ne.

Theorem C97_quad_verdict : forall (E : pairing) (sch : sched) (q : QuadEqu E) (p : CProof E) (crs : CRS E), quad_verify sch q (strip p) crs = quad_verify sch q p crs.
Proof. exact: @k_C97_quad_verdict. Qed.
Print Assumptions C97_quad_verdict.

Example C97_quad_verdict_case : quad_verify fwd quad0 (strip quad_p0) crs0 = Ok true.
Proof. rewrite C97_quad_verdict; exact: quad_p0_ok. Qed.

Theorem C97_quad_received : forall (E : pairing) (cs : codecs E) (sch : sched) (md : Compress) (v : Validate) (q : QuadEqu E) (crs : CRS E) (p : CProof E) (pf : EquProof E),
  elements_ok cs good_codec -> quad_fits q -> crs_fits crs -> short (coms (xcoms p)) -> short (coms (ycoms p)) -> short (pi pf) -> short (theta pf) -> equ_proofs p = [:: pf] ->
  receive cs (quad_codec cs) (quad_verify sch) md v (ser (quad_codec cs) md q ++ ser (crs_codec cs) md crs ++ stripped cs md p) = DOk (quad_verify sch q p crs) [::].
Proof. exact: @k_C97_quad_received. Qed.
Print Assumptions C97_quad_received.

Example C97_quad_received_case : receive (toys predT) (quad_codec (toys predT)) (quad_verify fwd) No VYes
  (ser (quad_codec (toys predT)) No quad0 ++ ser (crs_codec (toys predT)) No crs0 ++ stripped (toys predT) No quad_p0) = DOk (Ok true) [::].
Proof.
rewrite (@C97_quad_received toy (toys predT) fwd No VYes _ _ _ (pf_of quad_p0) toys_good quad_case_fits crs_case_fits (shortP (s := coms (xcoms quad_p0)) isT) (shortP (s := coms (ycoms quad_p0)) isT) (shortP (s := pi (pf_of quad_p0)) isT) (shortP (s := theta (pf_of quad_p0)) isT) erefl).
by congr DOk; exact: quad_p0_ok.
Qed.

Theorem C97_quad_wi : forall (E : pairing) (cs : codecs E) (md : Compress) (sch sch' : sched) (q : QuadEqu E) (X X' : seq (Fr E)) (Y Y' : seq (Fr E)) (crs : CRS E),
  bilinear E -> nondegenerate E -> cyclic (G1 E) -> cyclic (G2 E) -> valid_sched sch -> valid_sched sch' ->
  hiding_crs crs -> proper_crs crs ->
  (0 < size X)%N -> (0 < size Y)%N -> quad_wf q (size X) (size Y) -> size X' = size X -> size Y' = size Y ->
  quad_holds q X Y -> quad_holds q X' Y' ->
  same_output (size X + (size Y + 1))%N (stripped cs md) (stripped cs md)
    (fun R s => quad_commit_and_prove (R := R) sch q X Y crs s) (fun R s => quad_commit_and_prove (R := R) sch' q X' Y' crs s).
Proof. exact: @k_C97_quad_wi. Qed.
Print Assumptions C97_quad_wi.

Example C97_quad_wi_case : xs0 <> xs1 /\ ys0 <> ys1 /\
  same_output (2 + (1 + 1))%N (stripped (toys predT) Yes) (stripped (toys predT) Yes)
    (fun R s => quad_commit_and_prove (E := toy) (R := R) fwd quad0 xs0 ys0 crsh s) (fun R s => quad_commit_and_prove (E := toy) (R := R) bwd quad0 xs1 ys1 crsh s).
Proof.
split; first by []. split; first by [].
apply: (C97_quad_wi (E := toy) (toys predT) Yes (X := xs0) (Y := ys0) toy_bilinear toy_nondegenerate toy_cyclic toy_cyclic fwd_valid bwd_valid crsh_hid crsh_prop) => //.
- exact: quad0_wf.
- exact: quad0_holds.
- exact: quad0_holds1.
Qed.

Theorem C97_quad_wi_counts : forall (F : finFieldType) (A B C : lmodType F) (e : A -> B -> C), let E := Pairing e in
  forall (cs : codecs E) (md : Compress) (sch sch' : sched) (q : QuadEqu E) (X X' : seq (Fr E)) (Y Y' : seq (Fr E)) (crs : CRS E) D,
  bilinear E -> nondegenerate E -> cyclic (G1 E) -> cyclic (G2 E) -> valid_sched sch -> valid_sched sch' ->
  hiding_crs crs -> proper_crs crs ->
  (0 < size X)%N -> (0 < size Y)%N -> quad_wf q (size X) (size Y) -> size X' = size X -> size Y' = size Y ->
  quad_holds q X Y -> quad_holds q X' Y' ->
  tapes (size X + (size Y + 1))%N (stripped cs md) (fun R s => quad_commit_and_prove (R := R) sch q X Y crs s) D
  = tapes (size X + (size Y + 1))%N (stripped cs md) (fun R s => quad_commit_and_prove (R := R) sch' q X' Y' crs s) D.
Proof. exact: @k_C97_quad_wi_counts. Qed.
Print Assumptions C97_quad_wi_counts.

Example C97_quad_wi_counts_case D := @C97_quad_wi_counts [finFieldType of F7] F7o F7o F7o (fun x y : F7 => x * y) (toys predT) Yes fwd bwd quad0 xs0 xs1 ys0 ys1 crsh D toy_bilinear toy_nondegenerate toy_cyclic toy_cyclic fwd_valid bwd_valid crsh_hid crsh_prop isT isT quad0_wf erefl erefl quad0_holds quad0_holds1.

Theorem C97_quad_zk : forall (E : pairing) (cs : codecs E) (md : Compress) (sch sch' : sched) (q : QuadEqu E) (X : seq (Fr E)) (Y : seq (Fr E)) (crs : CRS E) (a1 a2 t1 t2 : Fr E),
  bilinear E -> nondegenerate E -> cyclic (G1 E) -> cyclic (G2 E) -> valid_sched sch -> valid_sched sch' ->
  hiding_crs_with crs a1 a2 t1 t2 -> proper_crs crs ->
  (0 < size X)%N -> (0 < size Y)%N -> quad_wf q (size X) (size Y) -> quad_holds q X Y ->
  same_output (size X + (size Y + 1))%N (stripped cs md) (fun p => stripped cs md (quad_fix t1 t2 q crs p))
    (fun R s => quad_commit_and_prove (R := R) sch q X Y crs s)
    (fun R s => quad_commit_and_prove (R := R) sch' q (nseq (size X) 0) (nseq (size Y) 0) crs s).
Proof. exact: @k_C97_quad_zk. Qed.
Print Assumptions C97_quad_zk.

Example C97_quad_zk_case := @C97_quad_zk toy (toys predT) Yes fwd bwd quad0 xs0 ys0 crsh (n7 2) (n7 3) (n7 4) (n7 5) toy_bilinear toy_nondegenerate toy_cyclic toy_cyclic fwd_valid bwd_valid crsh_hiding crsh_proper isT isT quad0_wf quad0_holds.

Theorem C97_quad_zk_counts : forall (F : finFieldType) (A B C : lmodType F) (e : A -> B -> C), let E := Pairing e in
  forall (cs : codecs E) (md : Compress) (sch sch' : sched) (q : QuadEqu E) (X : seq (Fr E)) (Y : seq (Fr E)) (crs : CRS E) (a1 a2 t1 t2 : Fr E) D,
  bilinear E -> nondegenerate E -> cyclic (G1 E) -> cyclic (G2 E) -> valid_sched sch -> valid_sched sch' ->
  hiding_crs_with crs a1 a2 t1 t2 -> proper_crs crs ->
  (0 < size X)%N -> (0 < size Y)%N -> quad_wf q (size X) (size Y) -> quad_holds q X Y ->
  tapes (size X + (size Y + 1))%N (stripped cs md) (fun R s => quad_commit_and_prove (R := R) sch q X Y crs s) D
  = tapes (size X + (size Y + 1))%N (fun p => stripped cs md (quad_fix t1 t2 q crs p)) (fun R s => quad_commit_and_prove (R := R) sch' q (nseq (size X) 0) (nseq (size Y) 0) crs s) D.
Proof. exact: @k_C97_quad_zk_counts. Qed.
Print Assumptions C97_quad_zk_counts.

Example C97_quad_zk_counts_case := @C97_quad_zk_counts [finFieldType of F7] F7o F7o F7o (fun x y : F7 => x * y) (toys predT) Yes fwd bwd quad0 xs0 ys0 crsh (n7 2) (n7 3) (n7 4) (n7 5) (fun r => if r is Ok c then size c == 3%N else false) toy_bilinear toy_nondegenerate toy_cyclic toy_cyclic fwd_valid bwd_valid crsh_hiding crsh_proper isT isT quad0_wf quad0_holds.

Theorem C97_quad_wi_ddh : forall (F : finFieldType) (A B C : lmodType F) (e : A -> B -> C), let E := Pairing e in
  forall (cs : codecs E) (md : Compress) (O1 O2 W : finType) (s1 : O1 -> A) (s2 : O2 -> B) (D : W -> CRS E -> pred _) (sch sch' : sched) (m n : nat)
  (q : W -> CRS E -> QuadEqu E) (X X' : W -> CRS E -> seq F) (Y Y' : W -> CRS E -> seq F),
  bilinear E -> nondegenerate E -> cyclic (G1 E) -> cyclic (G2 E) -> valid_sched sch -> valid_sched sch' -> (0 < m)%N -> (0 < n)%N ->
  (forall w crs, [/\ size (X w crs) = m, size (Y w crs) = n, size (X' w crs) = m & size (Y' w crs) = n]) ->
  (forall w crs, proper_crs crs -> [/\ quad_wf (q w crs) m n, quad_holds (q w crs) (X w crs) (Y w crs) & quad_holds (q w crs) (X' w crs) (Y' w crs)]) ->
  let B1 := proof_test (N := (m + (n + 1))%N) D (stripped cs md) (fun w crs R s => quad_commit_and_prove (R := R) sch (q w crs) (X w crs) (Y w crs) crs s) in
  let B2 := proof_test (N := (m + (n + 1))%N) D (stripped cs md) (fun w crs R s => quad_commit_and_prove (R := R) sch' (q w crs) (X' w crs) (Y' w crs) crs s) in
  is_true (`|game s1 s2 real_crs B1 - game s1 s2 real_crs B2| <= 
  (ddh_adv s1 (ddh1 s2 B1) + ddh_adv s1 (ddh2 s2 B1) + ddh_adv s2 (ddh3 s1 B1) + ddh_adv s2 (ddh4 s1 B1))
  + (ddh_adv s1 (ddh1 s2 B2) + ddh_adv s1 (ddh2 s2 B2) + ddh_adv s2 (ddh3 s1 B2) + ddh_adv s2 (ddh4 s1 B2))
  + bad_point s1 s2).
Proof. exact: @k_C97_quad_wi_ddh. Qed.
Print Assumptions C97_quad_wi_ddh.

Example C97_quad_wi_ddh_case D:= @C97_quad_wi_ddh F7f F7o F7o F7o toy_e (toys predT) Yes [finType of bool] [finType of bool] [finType of bool] two_points two_points D fwd bwd 2 1 (fun _ _ => quad0) (pick xs0 xs1) (pick xs1 xs1) (pick ys0 ys1) (pick ys1 ys1) toy_bilinear toy_nondegenerate toy_cyclic toy_cyclic fwd_valid bwd_valid isT isT fam_sizes quad_fam.

Theorem C97_quad_zk_ddh : forall (F : finFieldType) (A B C : lmodType F) (e : A -> B -> C), let E := Pairing e in
  forall (cs : codecs E) (md : Compress) (O1 O2 W : finType) (s1 : O1 -> A) (s2 : O2 -> B) (D : W -> CRS E -> pred _) (sch sch' : sched) (m n : nat)
  (q : W -> CRS E -> QuadEqu E) (X : W -> CRS E -> seq F) (Y : W -> CRS E -> seq F),
  bilinear E -> nondegenerate E -> cyclic (G1 E) -> cyclic (G2 E) -> valid_sched sch -> valid_sched sch' -> (0 < m)%N -> (0 < n)%N ->
  (forall w crs, size (X w crs) = m /\ size (Y w crs) = n) ->
  (forall w crs, proper_crs crs -> quad_wf (q w crs) m n /\ quad_holds (q w crs) (X w crs) (Y w crs)) ->
  let B1 := proof_test (N := (m + (n + 1))%N) D (stripped cs md) (fun w crs R s => quad_commit_and_prove (R := R) sch (q w crs) (X w crs) (Y w crs) crs s) in
  is_true (`|game s1 s2 real_crs B1 -
    sim_game (m + (n + 1))%N D s1 s2 (fun t1 t2 w crs p => stripped cs md (quad_fix (E := E) t1 t2 (q w crs) crs p))
      (fun w crs R s => quad_commit_and_prove (R := R) sch' (q w crs) (nseq m 0) (nseq n 0) crs s)| <= 
  (ddh_adv s1 (ddh1 s2 B1) + ddh_adv s1 (ddh2 s2 B1) + ddh_adv s2 (ddh3 s1 B1) + ddh_adv s2 (ddh4 s1 B1)) + bad_point s1 s2).
Proof. exact: @k_C97_quad_zk_ddh. Qed.
Print Assumptions C97_quad_zk_ddh.

Example C97_quad_zk_ddh_case D := @C97_quad_zk_ddh F7f F7o F7o F7o toy_e (toys predT) Yes [finType of bool] [finType of bool] [finType of bool] two_points two_points D fwd bwd 2 1 (fun _ _ => quad0) (pick xs0 xs1) (pick ys0 ys1) toy_bilinear toy_nondegenerate toy_cyclic toy_cyclic fwd_valid bwd_valid isT isT fam_sizes_case quad_fam_case.

Theorem C97_quad_full_refuted : forall (E : pairing) (cs : codecs E) (md : Compress) (sch sch' : sched) (R R' : rng E) (s s' : rst R) (z z' : rst R') (q q' : QuadEqu E) (X X' : seq (Fr E)) (Y Y' : seq (Fr E)) (crs : CRS E) (p p' : CProof E),
  elements_ok cs good_codec -> short X -> short Y -> short X' -> short Y' -> u2 crs + (0, g1_gen crs) != 0 -> v2 crs + (0, g2_gen crs) != 0 -> 
  quad_commit_and_prove sch q X Y crs s = Ok (p, s') -> quad_commit_and_prove sch' q' X' Y' crs z = Ok (p', z') ->
  wire cs md p = wire cs md p' -> X = X' /\ Y = Y'.
Proof. exact: @k_C97_quad_full_refuted. Qed.
Print Assumptions C97_quad_full_refuted.

Example C97_quad_full_refuted_case := @C97_quad_full_refuted toy (toys predT) Yes fwd fwd ctr ctr 6%N quad_runh.2 6%N quad_runh.2 quad0 quad0 xs0 xs0 ys0 ys0 crsh quad_runh.1 quad_runh.1 toys_good (shortP (s := xs0) isT) (shortP (s := ys0) isT) (shortP (s := xs0) isT) (shortP (s := ys0) isT) isT isT quad_runhE quad_runhE erefl.

Theorem C97_quad_full_wi_refuted : forall (E : pairing) (cs : codecs E) (md : Compress) (sch sch' : sched) (q : QuadEqu E) (X X' : seq (Fr E)) (Y Y' : seq (Fr E)) (crs : CRS E),
  elements_ok cs good_codec -> valid_sched sch -> short X -> short Y -> size (crs_u crs) = 2%N -> size (crs_v crs) = 2%N -> u2 crs + (0, g1_gen crs) != 0 -> v2 crs + (0, g2_gen crs) != 0 -> 
  (0 < size X)%N -> (0 < size Y)%N -> quad_wf q (size X) (size Y) -> size X' = size X -> size Y' = size Y ->
  (X, Y) <> (X', Y') ->
  ~ same_output (size X + (size Y + 1))%N (wire cs md) (wire cs md)
    (fun R s => quad_commit_and_prove (R := R) sch q X Y crs s) (fun R s => quad_commit_and_prove (R := R) sch' q X' Y' crs s).
Proof. exact: @k_C97_quad_full_wi_refuted. Qed.
Print Assumptions C97_quad_full_wi_refuted.

Example C97_quad_full_wi_refuted_case := @C97_quad_full_wi_refuted toy (toys predT) Yes fwd bwd quad0 xs0 xs1 ys0 ys1 crsh toys_good fwd_valid (shortP (s := xs0) isT) (shortP (s := ys0) isT) erefl erefl isT isT isT isT quad0_wf erefl erefl pair_case_ne.
