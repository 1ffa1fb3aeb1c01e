(** Properties C56, C57, C58: [prove] on commitments built by the library, and systems of
    equations about shared commitments. *)
From mathcomp Require Import all_ssreflect all_algebra.
From Verif Require Import Base BaseLemmas Group DataStructures Generator Commit Statement Prove Verify Spec SpecApi SpecVerify SpecHide SpecSxdh SpecMulti.
From Verif Require Import Main ApiLemmas HideProps Sxdh MultiProps Concrete Concrete2 Concrete4 Concrete5 Concrete6.
From Verif Require Import Concrete25.
From Verif Require Import Concrete27.
Set Implicit Arguments.
Unset Strict Implicit.
Unset Printing Implicit Defensive.
Import Order.Theory GRing.Theory Num.Theory.
Local Open Scope ring_scope.

(** C56: [prove] and [verify] on commitments built by any calls of the library. *)
Theorem C56_ppe_complete : forall (E : pairing) (R : rng E) (sch sch' : sched)
  (q : PPE E) (X : seq (G1 E)) (Y : seq (G2 E)) (cx : Commit1 E) (cy : Commit2 E) (crs : CRS E) (s : rst R),
  bilinear E -> valid_sched sch -> valid_sched sch' -> two_keys crs ->
  built1 crs [seq inl x | x <- X] cx -> built2 crs [seq inl y | y <- Y] cy ->
  (0 < size X)%N -> (0 < size Y)%N -> ppe_wf q (size X) (size Y) -> ppe_holds q X Y ->
  exists pf s', ppe_prove sch q X Y cx cy crs s = Ok (pf, s') /\
    ppe_verify sch' q (mkCProof cx cy [:: pf]) crs = Ok true.
Proof. exact: @ppe_built_complete. Qed.
Print Assumptions C56_ppe_complete.

Example C56_ppe_complete_case := @C56_ppe_complete toy ctr fwd bwd ppe0 xs0 ys0 many_G10.1 many_ys_G.1 crs0 29%N toy_bilinear fwd_valid bwd_valid crs0_two b1_G b2_G isT isT ppe0_wf ppe0_holds.

Theorem C56_ppe_decides : forall (E : pairing) (R : rng E) (sch sch' : sched)
  (q : PPE E) (X : seq (G1 E)) (Y : seq (G2 E)) (cx : Commit1 E) (cy : Commit2 E) (crs : CRS E) (s : rst R),
  bilinear E -> valid_sched sch -> valid_sched sch' -> two_keys crs ->
  built1 crs [seq inl x | x <- X] cx -> built2 crs [seq inl y | y <- Y] cy ->
  (0 < size X)%N -> (0 < size Y)%N -> ppe_wf q (size X) (size Y) -> 
  exists pf s' b, [/\ ppe_prove sch q X Y cx cy crs s = Ok (pf, s'),
    ppe_verify sch' q (mkCProof cx cy [:: pf]) crs = Ok b & b <-> ppe_holds q X Y].
Proof. exact: @ppe_built_dec. Qed.
Print Assumptions C56_ppe_decides.

Example C56_ppe_decides_case := @C56_ppe_decides toy ctr fwd bwd ppe0 xs0 ys0 many_G10.1 many_ys_G.1 crs0 29%N toy_bilinear fwd_valid bwd_valid crs0_two b1_G b2_G isT isT ppe0_wf.

Theorem C56_ms1_complete : forall (E : pairing) (R : rng E) (sch sch' : sched)
  (q : MSMEG1 E) (X : seq (G1 E)) (Y : seq (Fr E)) (cx : Commit1 E) (cy : Commit2 E) (crs : CRS E) (s : rst R),
  bilinear E -> valid_sched sch -> valid_sched sch' -> two_keys crs ->
  built1 crs [seq inl x | x <- X] cx -> built2 crs [seq inr y | y <- Y] cy ->
  (0 < size X)%N -> (0 < size Y)%N -> ms1_wf q (size X) (size Y) -> ms1_holds q X Y ->
  exists pf s', ms1_prove sch q X Y cx cy crs s = Ok (pf, s') /\
    ms1_verify sch' q (mkCProof cx cy [:: pf]) crs = Ok true.
Proof. exact: @ms1_built_complete. Qed.
Print Assumptions C56_ms1_complete.

Example C56_ms1_complete_case := @C56_ms1_complete toy ctr fwd bwd ms10 xs0 ys0 many_G10.1 many_ys_B.1 crs0 29%N toy_bilinear fwd_valid bwd_valid crs0_two b1_G b2_B isT isT ms10_wf ms10_holds.

Theorem C56_ms1_decides : forall (E : pairing) (R : rng E) (sch sch' : sched)
  (q : MSMEG1 E) (X : seq (G1 E)) (Y : seq (Fr E)) (cx : Commit1 E) (cy : Commit2 E) (crs : CRS E) (s : rst R),
  bilinear E -> nondegenerate E -> valid_sched sch -> valid_sched sch' -> two_keys crs ->
  built1 crs [seq inl x | x <- X] cx -> built2 crs [seq inr y | y <- Y] cy ->
  (0 < size X)%N -> (0 < size Y)%N -> ms1_wf q (size X) (size Y) -> v2 crs + (0, g2_gen crs) != 0 -> 
  exists pf s' b, [/\ ms1_prove sch q X Y cx cy crs s = Ok (pf, s'),
    ms1_verify sch' q (mkCProof cx cy [:: pf]) crs = Ok b & b <-> ms1_holds q X Y].
Proof. exact: @ms1_built_dec. Qed.
Print Assumptions C56_ms1_decides.

Example C56_ms1_decides_case := @C56_ms1_decides toy ctr fwd bwd ms10 xs0 ys0 many_G10.1 many_ys_B.1 crs0 29%N toy_bilinear toy_nondegenerate fwd_valid bwd_valid crs0_two b1_G b2_B isT isT ms10_wf isT.

Theorem C56_ms2_complete : forall (E : pairing) (R : rng E) (sch sch' : sched)
  (q : MSMEG2 E) (X : seq (Fr E)) (Y : seq (G2 E)) (cx : Commit1 E) (cy : Commit2 E) (crs : CRS E) (s : rst R),
  bilinear E -> valid_sched sch -> valid_sched sch' -> two_keys crs ->
  built1 crs [seq inr x | x <- X] cx -> built2 crs [seq inl y | y <- Y] cy ->
  (0 < size X)%N -> (0 < size Y)%N -> ms2_wf q (size X) (size Y) -> ms2_holds q X Y ->
  exists pf s', ms2_prove sch q X Y cx cy crs s = Ok (pf, s') /\
    ms2_verify sch' q (mkCProof cx cy [:: pf]) crs = Ok true.
Proof. exact: @ms2_built_complete. Qed.
Print Assumptions C56_ms2_complete.

Example C56_ms2_complete_case := @C56_ms2_complete toy ctr fwd bwd ms20 xs0 ys0 many_B10.1 many_ys_G.1 crs0 29%N toy_bilinear fwd_valid bwd_valid crs0_two b1_B b2_G isT isT ms20_wf ms20_holds.

Theorem C56_ms2_decides : forall (E : pairing) (R : rng E) (sch sch' : sched)
  (q : MSMEG2 E) (X : seq (Fr E)) (Y : seq (G2 E)) (cx : Commit1 E) (cy : Commit2 E) (crs : CRS E) (s : rst R),
  bilinear E -> nondegenerate E -> valid_sched sch -> valid_sched sch' -> two_keys crs ->
  built1 crs [seq inr x | x <- X] cx -> built2 crs [seq inl y | y <- Y] cy ->
  (0 < size X)%N -> (0 < size Y)%N -> ms2_wf q (size X) (size Y) -> u2 crs + (0, g1_gen crs) != 0 -> 
  exists pf s' b, [/\ ms2_prove sch q X Y cx cy crs s = Ok (pf, s'),
    ms2_verify sch' q (mkCProof cx cy [:: pf]) crs = Ok b & b <-> ms2_holds q X Y].
Proof. exact: @ms2_built_dec. Qed.
Print Assumptions C56_ms2_decides.

Example C56_ms2_decides_case := @C56_ms2_decides toy ctr fwd bwd ms20 xs0 ys0 many_B10.1 many_ys_G.1 crs0 29%N toy_bilinear toy_nondegenerate fwd_valid bwd_valid crs0_two b1_B b2_G isT isT ms20_wf isT.

Theorem C56_quad_complete : forall (E : pairing) (R : rng E) (sch sch' : sched)
  (q : QuadEqu E) (X : seq (Fr E)) (Y : seq (Fr E)) (cx : Commit1 E) (cy : Commit2 E) (crs : CRS E) (s : rst R),
  bilinear E -> valid_sched sch -> valid_sched sch' -> two_keys crs ->
  built1 crs [seq inr x | x <- X] cx -> built2 crs [seq inr y | y <- Y] cy ->
  (0 < size X)%N -> (0 < size Y)%N -> quad_wf q (size X) (size Y) -> quad_holds q X Y ->
  exists pf s', quad_prove sch q X Y cx cy crs s = Ok (pf, s') /\
    quad_verify sch' q (mkCProof cx cy [:: pf]) crs = Ok true.
Proof. exact: @quad_built_complete. Qed.
Print Assumptions C56_quad_complete.

Example C56_quad_complete_case := @C56_quad_complete toy ctr fwd bwd quad0 xs0 ys0 many_B10.1 many_ys_B.1 crs0 29%N toy_bilinear fwd_valid bwd_valid crs0_two b1_B b2_B isT isT quad0_wf quad0_holds.

Theorem C56_quad_decides : forall (E : pairing) (R : rng E) (sch sch' : sched)
  (q : QuadEqu E) (X : seq (Fr E)) (Y : seq (Fr E)) (cx : Commit1 E) (cy : Commit2 E) (crs : CRS E) (s : rst R),
  bilinear E -> nondegenerate E -> valid_sched sch -> valid_sched sch' -> two_keys crs ->
  built1 crs [seq inr x | x <- X] cx -> built2 crs [seq inr y | y <- Y] cy ->
  (0 < size X)%N -> (0 < size Y)%N -> quad_wf q (size X) (size Y) -> u2 crs + (0, g1_gen crs) != 0 -> v2 crs + (0, g2_gen crs) != 0 -> 
  exists pf s' b, [/\ quad_prove sch q X Y cx cy crs s = Ok (pf, s'),
    quad_verify sch' q (mkCProof cx cy [:: pf]) crs = Ok b & b <-> quad_holds q X Y].
Proof. exact: @quad_built_dec. Qed.
Print Assumptions C56_quad_decides.

(** Two commitments to single elements, the second appended to the first. *)
Example C56_case : exists c1 c2 c3 c4 cy s1 s2 s3 pf s4,
  [/\ commit_G1 (E := toy) (R := ctr) (n7 3) crs0 6%N = Ok (c1, s1), commit_G1 (E := toy) (R := ctr) (n7 5) crs0 s1 = Ok (c2, s2),
      commit_append c1 c2 = Ok (c3, c4) & commit_G2 (E := toy) (R := ctr) (n7 4) crs0 s2 = Ok (cy, s3)] /\
  ppe_prove (R := ctr) fwd ppe0 xs0 ys0 c3 cy crs0 s3 = Ok (pf, s4) /\ ppe_verify bwd ppe0 (mkCProof c3 cy [:: pf]) crs0 = Ok true.
Proof.
have /isokP[[c1 s1] e1] : isok (commit_G1 (E := toy) (R := ctr) (n7 3) crs0 6%N) by [].
have /isokP[[c2 s2] e2] : isok (commit_G1 (E := toy) (R := ctr) (n7 5) crs0 s1) by [].
have /isokP[[cy s3] e4] : isok (commit_G2 (E := toy) (R := ctr) (n7 4) crs0 s2) by [].
have [c3 [c4 [e3 b3 _ _]]] := built1_append (Built1_G e1) (Built1_G e2).
have [pf [s' h]] := @C56_ppe_complete toy ctr fwd bwd ppe0 xs0 ys0 c3 cy crs0 s3 toy_bilinear fwd_valid bwd_valid crs0_two b3 (Built2_G e4) isT isT ppe0_wf ppe0_holds.
by exists c1, c2, c3, c4, cy, s1, s2, s3, pf, s'.
Qed.

(** C57: systems of equations of all types about shared commitments: honest proofs are accepted. *)
Theorem C57_system_complete : forall (E : pairing) (R : rng E) (sch sch' : sched) (qs : seq (eqn E)) (v : assign E) (crs : CRS E) (s : rst R),
  bilinear E -> valid_sched sch -> valid_sched sch' -> two_keys crs ->
  every (fun q => eqn_wf q v) qs -> every (fun q => eqn_holds q v) qs ->
  exists c pfs s', prove_system sch qs v crs s = Ok ((c, pfs), s') /\ verify_system sch' qs c pfs crs = Ok true.
Proof. exact: @k_C57_complete. Qed.
Print Assumptions C57_system_complete.

Example C57_system_complete_case := @C57_system_complete toy ctr fwd bwd sys0 v0 crs0 6%N toy_bilinear fwd_valid bwd_valid crs0_two v0_wf sys0_v0.

Theorem C57_system_built : forall (E : pairing) (R : rng E) (sch sch' : sched) (qs : seq (eqn E)) (v : assign E) (c : coms4 E) (crs : CRS E) (s : rst R),
  bilinear E -> valid_sched sch -> valid_sched sch' -> two_keys crs ->
  built1 crs [seq inl x | x <- aX v] (cX c) -> built1 crs [seq inr x | x <- ax v] (cx c) ->
  built2 crs [seq inl y | y <- aY v] (cY c) -> built2 crs [seq inr y | y <- ay v] (cy c) ->
  every (fun q => eqn_wf q v) qs -> every (fun q => eqn_holds q v) qs ->
  exists pfs s', prove_all sch qs v c crs s = Ok (pfs, s') /\ verify_system sch' qs c pfs crs = Ok true.
Proof. exact: @k_C57_built. Qed.
Print Assumptions C57_system_built.

Example C57_system_built_case := @C57_system_built toy ctr fwd bwd sys0 v0 coms0 crs0 6%N toy_bilinear fwd_valid bwd_valid crs0_two b1_G b1_B b2_G b2_B v0_wf sys0_v0.

(** C57: and honest proofs of systems that do not hold are rejected. *)
Theorem C57_system_decides : forall (E : pairing) (R : rng E) (sch sch' : sched) (qs : seq (eqn E)) (v : assign E) (crs : CRS E) (s : rst R),
  bilinear E -> nondegenerate E -> valid_sched sch -> valid_sched sch' -> two_keys crs ->
  u2 crs + (0, g1_gen crs) != 0 -> v2 crs + (0, g2_gen crs) != 0 ->
  every (fun q => eqn_wf q v) qs ->
  exists c pfs s' b, [/\ prove_system sch qs v crs s = Ok ((c, pfs), s'), verify_system sch' qs c pfs crs = Ok b
    & b <-> every (fun q => eqn_holds q v) qs].
Proof. exact: @k_C57_decides. Qed.
Print Assumptions C57_system_decides.

Example C57_system_decides_case := @C57_system_decides toy ctr fwd bwd sys0 v0 crs0 6%N toy_bilinear toy_nondegenerate fwd_valid bwd_valid crs0_two isT isT v0_wf.

(** C57: whatever is accepted under a generated key, the equations hold jointly for the assignment
    the commitments determine. *)
Theorem C57_system_sound : forall (E : pairing) (R : rng E) (sch : sched) (s s' : rst R) (crs : CRS E),
  bilinear E -> nondegenerate E -> cyclic (G1 E) -> cyclic (G2 E) -> valid_sched sch ->
  generate_crs s = (crs, s') -> g1_gen crs != 0 -> g2_gen crs != 0 ->
  forall c : coms4 E, exists v : assign E,
  [/\ commits_G1 crs (coms (cX c)) (aX v), commits_B1 crs (coms (cx c)) (ax v),
      commits_G2 crs (coms (cY c)) (aY v) & commits_B2 crs (coms (cy c)) (ay v)] /\
  forall (qs : seq (eqn E)) (pfs : seq (EquProof E)), verify_system sch qs c pfs crs = Ok true ->
    size pfs = size qs /\ every (fun q => eqn_holds q v) qs.
Proof. exact: @k_C57_sound. Qed.
Print Assumptions C57_system_sound.

Example C57_case : exists c pfs s',
  prove_system (R := ctr) fwd sys0 v0 crs0 6%N = Ok ((c, pfs), s') /\ verify_system bwd sys0 c pfs crs0 = Ok true.
Proof. exact: (@C57_system_complete toy ctr fwd bwd sys0 v0 crs0 6%N toy_bilinear fwd_valid bwd_valid crs0_two (sys0_wf (v := v0) erefl erefl erefl erefl) sys0_v0). Qed.
Example C57_rejects : exists c pfs s',
  prove_system (R := ctr) fwd sys0 v3 crs0 6%N = Ok ((c, pfs), s') /\ verify_system bwd sys0 c pfs crs0 = Ok false.
Proof.
have n1 : u2 crs0 + (0, g1_gen crs0) != 0 by [].
have n2 : v2 crs0 + (0, g2_gen crs0) != 0 by [].
have [c [pfs [s' [b [h1 h2 h3]]]]] := @C57_system_decides toy ctr fwd bwd sys0 v3 crs0 6%N toy_bilinear toy_nondegenerate fwd_valid bwd_valid crs0_two n1 n2 (sys0_wf (v := v3) erefl erefl erefl erefl).
exists c, pfs, s'; split=> //; rewrite h2; case: b h3 {h2} => // h3.
by have [_ [/ms10_fails]] := proj1 h3 isT.
Qed.

(** C58: under a hiding key, what is published of a system does not depend on the witness. *)
Theorem C58_system_wi : forall (E : pairing) (sch sch' : sched) (qs : seq (eqn E)) (v v' : assign E) (crs : CRS E),
  bilinear E -> nondegenerate E -> cyclic (G1 E) -> cyclic (G2 E) -> valid_sched sch -> valid_sched sch' ->
  hiding_crs crs -> proper_crs crs -> same_sizes v v' -> every (fun q => eqn_wf q v) qs ->
  every (fun q => eqn_holds q v) qs -> every (fun q => eqn_holds q v') qs ->
  same_output (system_draws qs v) public_system public_system
    (fun R s => prove_system (R := R) sch qs v crs s) (fun R s => prove_system (R := R) sch' qs v' crs s).
Proof. move=> E sch sch' qs v v' crs hb hn hc1 hc2 vs vs' hh hp; exact: system_wi. Qed.
Print Assumptions C58_system_wi.

Example C58_system_wi_case := @C58_system_wi toy fwd bwd sys0 v0 v4 crsh toy_bilinear toy_nondegenerate toy_cyclic toy_cyclic fwd_valid bwd_valid crsh_hid crsh_prop v04_sizes v0_wf sys0_v0 sys0_v4.

Theorem C58_system_wi_counts : forall (F : finFieldType) (A B C : lmodType F) (e : A -> B -> C), let E := Pairing e in
  forall (sch sch' : sched) (qs : seq (eqn E)) (v v' : assign E) (crs : CRS E) D,
  bilinear E -> nondegenerate E -> cyclic (G1 E) -> cyclic (G2 E) -> valid_sched sch -> valid_sched sch' ->
  hiding_crs crs -> proper_crs crs -> same_sizes v v' -> every (fun q => eqn_wf q v) qs ->
  every (fun q => eqn_holds q v) qs -> every (fun q => eqn_holds q v') qs ->
  tapes (system_draws qs v) public_system (fun R s => prove_system (R := R) sch qs v crs s) D
  = tapes (system_draws qs v) public_system (fun R s => prove_system (R := R) sch' qs v' crs s) D.
Proof. move=> F A B C e E sch sch' qs v v' crs D hb hn hc1 hc2 vs vs' hh hp h1 h2 h3 h4; apply: same_tapes; exact: system_wi. Qed.
Print Assumptions C58_system_wi_counts.

Example C58_system_wi_counts_case := @C58_system_wi_counts F7f F7o F7o F7o toy_e fwd bwd sys0 v0 v4 crsh (fun r => if r is Ok c then c.1.1.1.1 == [:: (n7 1, n7 2); (n7 3, n7 4)] else false) toy_bilinear toy_nondegenerate toy_cyclic toy_cyclic fwd_valid bwd_valid crsh_hid crsh_prop v04_sizes v0_wf sys0_v0 sys0_v4.

(** C58: and can be simulated from the trapdoors, with all variables zero. *)
Theorem C58_system_zk : forall (E : pairing) (sch sch' : sched) (qs : seq (eqn E * gt_form E)) (v : assign E) (crs : CRS E) a1 a2 t1 t2,
  bilinear E -> nondegenerate E -> cyclic (G1 E) -> cyclic (G2 E) -> valid_sched sch -> valid_sched sch' ->
  hiding_crs_with crs a1 a2 t1 t2 -> proper_crs crs ->
  every (fun q => eqn_wf q.1 v) qs -> every (fun q => eqn_holds q.1 v) qs -> every (fun q => eqn_form crs q.1 q.2) qs ->
  same_output (system_draws [seq q.1 | q <- qs] v) public_system (fun p => public_system (fix_system t1 t2 crs qs p))
    (fun R s => prove_system (R := R) sch [seq q.1 | q <- qs] v crs s)
    (fun R s => prove_system (R := R) sch' [seq q.1 | q <- qs] (zero_assign v) crs s).
Proof. move=> E sch sch' qs v crs a1 a2 t1 t2 hb hn hc1 hc2 vs vs' hh hp; exact: (system_zk vs vs' hb hn hc1 hc2 hp hh). Qed.
Print Assumptions C58_system_zk.

Example C58_system_zk_case := @C58_system_zk toy fwd bwd (sys0f crsh) v0 crsh (n7 2) (n7 3) (n7 4) (n7 5) toy_bilinear toy_nondegenerate toy_cyclic toy_cyclic fwd_valid bwd_valid crsh_hiding crsh_prop (sys0f_wf crsh) (sys0f_holds crsh) (form0P crsh_prop).

Theorem C58_system_zk_counts : forall (F : finFieldType) (A B C : lmodType F) (e : A -> B -> C), let E := Pairing e in
  forall (sch sch' : sched) (qs : seq (eqn E * gt_form E)) (v : assign E) (crs : CRS E) a1 a2 t1 t2 D,
  bilinear E -> nondegenerate E -> cyclic (G1 E) -> cyclic (G2 E) -> valid_sched sch -> valid_sched sch' ->
  hiding_crs_with crs a1 a2 t1 t2 -> proper_crs crs ->
  every (fun q => eqn_wf q.1 v) qs -> every (fun q => eqn_holds q.1 v) qs -> every (fun q => eqn_form crs q.1 q.2) qs ->
  tapes (system_draws [seq q.1 | q <- qs] v) public_system (fun R s => prove_system (R := R) sch [seq q.1 | q <- qs] v crs s) D
  = tapes (system_draws [seq q.1 | q <- qs] v) (fun p => public_system (fix_system t1 t2 crs qs p))
      (fun R s => prove_system (R := R) sch' [seq q.1 | q <- qs] (zero_assign v) crs s) D.
Proof. move=> F A B C e E sch sch' qs v crs a1 a2 t1 t2 D hb hn hc1 hc2 vs vs' hh hp h1 h2 h3; apply: same_tapes; exact: (system_zk vs vs' hb hn hc1 hc2 hp hh). Qed.
Print Assumptions C58_system_zk_counts.

Example C58_system_zk_counts_case := @C58_system_zk_counts F7f F7o F7o F7o toy_e fwd bwd (sys0f crsh) v0 crsh (n7 2) (n7 3) (n7 4) (n7 5) (fun r => if r is Ok c then c.1.1.1.1 == [:: (n7 1, n7 2); (n7 3, n7 4)] else false) toy_bilinear toy_nondegenerate toy_cyclic toy_cyclic fwd_valid bwd_valid crsh_hiding crsh_prop (sys0f_wf crsh) (sys0f_holds crsh) (form0P crsh_prop).

(** C58: under the keys of [generate_crs], the same up to the advantage in telling keys apart, or against DDH. *)
Theorem C58_system_comp_wi : forall (F : finFieldType) (A B C : lmodType F) (e : A -> B -> C), let E := Pairing e in
  forall (O1 O2 W : finType) (s1 : O1 -> A) (s2 : O2 -> B) (D : W -> CRS E -> pred _) (sch sch' : sched) (N : nat)
  (qs : W -> CRS E -> seq (eqn E)) (v v' : W -> CRS E -> assign E),
  bilinear E -> nondegenerate E -> cyclic (G1 E) -> cyclic (G2 E) -> valid_sched sch -> valid_sched sch' ->
  (forall w crs, proper_crs crs -> system_draws (qs w crs) (v w crs) = N) ->
  (forall w crs, proper_crs crs -> [/\ same_sizes (v w crs) (v' w crs), every (fun q => eqn_wf q (v w crs)) (qs w crs),
     every (fun q => eqn_holds q (v w crs)) (qs w crs) & every (fun q => eqn_holds q (v' w crs)) (qs w crs)]) ->
  let B1 := proof_test (N := N) D public_system (fun w crs R s => prove_system (R := R) sch (qs w crs) (v w crs) crs s) in
  let B2 := proof_test (N := N) D public_system (fun w crs R s => prove_system (R := R) sch' (qs w crs) (v' w crs) crs s) in
  is_true (`|game s1 s2 real_crs B1 - game s1 s2 real_crs B2| <= key_adv s1 s2 B1 + key_adv s1 s2 B2 + bad_point s1 s2).
Proof. exact: @system_comp_wi. Qed.
Print Assumptions C58_system_comp_wi.

Example C58_system_comp_wi_case D:= @C58_system_comp_wi F7f F7o F7o F7o toy_e [finType of bool] [finType of bool] [finType of bool] two_points two_points D fwd bwd 22 (fun _ _ => sys0) v04 (fun _ _ => v4) toy_bilinear toy_nondegenerate toy_cyclic toy_cyclic fwd_valid bwd_valid sys_fam_draws sys_fam.

Theorem C58_system_comp_wi_ddh : forall (F : finFieldType) (A B C : lmodType F) (e : A -> B -> C), let E := Pairing e in
  forall (O1 O2 W : finType) (s1 : O1 -> A) (s2 : O2 -> B) (D : W -> CRS E -> pred _) (sch sch' : sched) (N : nat)
  (qs : W -> CRS E -> seq (eqn E)) (v v' : W -> CRS E -> assign E),
  bilinear E -> nondegenerate E -> cyclic (G1 E) -> cyclic (G2 E) -> valid_sched sch -> valid_sched sch' ->
  (forall w crs, proper_crs crs -> system_draws (qs w crs) (v w crs) = N) ->
  (forall w crs, proper_crs crs -> [/\ same_sizes (v w crs) (v' w crs), every (fun q => eqn_wf q (v w crs)) (qs w crs),
     every (fun q => eqn_holds q (v w crs)) (qs w crs) & every (fun q => eqn_holds q (v' w crs)) (qs w crs)]) ->
  let B1 := proof_test (N := N) D public_system (fun w crs R s => prove_system (R := R) sch (qs w crs) (v w crs) crs s) in
  let B2 := proof_test (N := N) D public_system (fun w crs R s => prove_system (R := R) sch' (qs w crs) (v' w crs) crs s) in
  is_true (`|game s1 s2 real_crs B1 - game s1 s2 real_crs B2| <= 
    (ddh_adv s1 (ddh1 s2 B1) + ddh_adv s1 (ddh2 s2 B1) + ddh_adv s2 (ddh3 s1 B1) + ddh_adv s2 (ddh4 s1 B1))
    + (ddh_adv s1 (ddh1 s2 B2) + ddh_adv s1 (ddh2 s2 B2) + ddh_adv s2 (ddh3 s1 B2) + ddh_adv s2 (ddh4 s1 B2)) + bad_point s1 s2).
Proof. exact: @system_comp_wi_ddh. Qed.
Print Assumptions C58_system_comp_wi_ddh.

Example C58_system_comp_wi_ddh_case D:= @C58_system_comp_wi_ddh F7f F7o F7o F7o toy_e [finType of bool] [finType of bool] [finType of bool] two_points two_points D fwd bwd 22 (fun _ _ => sys0) v04 (fun _ _ => v4) toy_bilinear toy_nondegenerate toy_cyclic toy_cyclic fwd_valid bwd_valid sys_fam_draws sys_fam.

Theorem C58_system_comp_zk : forall (F : finFieldType) (A B C : lmodType F) (e : A -> B -> C), let E := Pairing e in
  forall (O1 O2 W : finType) (s1 : O1 -> A) (s2 : O2 -> B) (D : W -> CRS E -> pred _) (sch sch' : sched) (N : nat)
  (qs : W -> CRS E -> seq (eqn E * gt_form E)) (v : W -> CRS E -> assign E),
  bilinear E -> nondegenerate E -> cyclic (G1 E) -> cyclic (G2 E) -> valid_sched sch -> valid_sched sch' ->
  (forall w crs, proper_crs crs -> system_draws [seq q.1 | q <- qs w crs] (v w crs) = N) ->
  (forall w crs, proper_crs crs -> [/\ every (fun q => eqn_wf q.1 (v w crs)) (qs w crs),
     every (fun q => eqn_holds q.1 (v w crs)) (qs w crs) & every (fun q => eqn_form crs q.1 q.2) (qs w crs)]) ->
  let B1 := proof_test (N := N) D public_system (fun w crs R s => prove_system (R := R) sch [seq q.1 | q <- qs w crs] (v w crs) crs s) in
  is_true (`|game s1 s2 real_crs B1 -
    sim_game N D s1 s2 (fun t1 t2 w crs p => public_system (fix_system (E := E) t1 t2 crs (qs w crs) p))
      (fun w crs R s => prove_system (R := R) sch' [seq q.1 | q <- qs w crs] (zero_assign (v w crs)) crs s)| <= key_adv s1 s2 B1 + bad_point s1 s2).
Proof. exact: @system_comp_zk. Qed.
Print Assumptions C58_system_comp_zk.

Example C58_system_comp_zk_case D:= @C58_system_comp_zk F7f F7o F7o F7o toy_e [finType of bool] [finType of bool] [finType of bool] two_points two_points D fwd bwd 22 (fun _ crs => sys0f crs) (fun _ _ => v0) toy_bilinear toy_nondegenerate toy_cyclic toy_cyclic fwd_valid bwd_valid sysf_fam_draws sysf_fam.

Theorem C58_system_comp_zk_ddh : forall (F : finFieldType) (A B C : lmodType F) (e : A -> B -> C), let E := Pairing e in
  forall (O1 O2 W : finType) (s1 : O1 -> A) (s2 : O2 -> B) (D : W -> CRS E -> pred _) (sch sch' : sched) (N : nat)
  (qs : W -> CRS E -> seq (eqn E * gt_form E)) (v : W -> CRS E -> assign E),
  bilinear E -> nondegenerate E -> cyclic (G1 E) -> cyclic (G2 E) -> valid_sched sch -> valid_sched sch' ->
  (forall w crs, proper_crs crs -> system_draws [seq q.1 | q <- qs w crs] (v w crs) = N) ->
  (forall w crs, proper_crs crs -> [/\ every (fun q => eqn_wf q.1 (v w crs)) (qs w crs),
     every (fun q => eqn_holds q.1 (v w crs)) (qs w crs) & every (fun q => eqn_form crs q.1 q.2) (qs w crs)]) ->
  let B1 := proof_test (N := N) D public_system (fun w crs R s => prove_system (R := R) sch [seq q.1 | q <- qs w crs] (v w crs) crs s) in
  is_true (`|game s1 s2 real_crs B1 -
    sim_game N D s1 s2 (fun t1 t2 w crs p => public_system (fix_system (E := E) t1 t2 crs (qs w crs) p))
      (fun w crs R s => prove_system (R := R) sch' [seq q.1 | q <- qs w crs] (zero_assign (v w crs)) crs s)| <= 
    (ddh_adv s1 (ddh1 s2 B1) + ddh_adv s1 (ddh2 s2 B1) + ddh_adv s2 (ddh3 s1 B1) + ddh_adv s2 (ddh4 s1 B1)) + bad_point s1 s2).
Proof. exact: @system_comp_zk_ddh. Qed.
Print Assumptions C58_system_comp_zk_ddh.

Example C58_wi_case : aX v0 <> aX v4 /\ system_draws sys0 v0 = 22%N /\
  same_output (system_draws sys0 v0) public_system public_system
    (fun R s => prove_system (R := R) fwd sys0 v0 crsh s) (fun R s => prove_system (R := R) bwd sys0 v4 crsh s).
Proof.
split; first by []. split; first by [].
apply: (@C58_system_wi toy fwd bwd sys0 v0 v4 crsh toy_bilinear toy_nondegenerate toy_cyclic toy_cyclic fwd_valid bwd_valid crsh_hid crsh_prop) => //.
- exact: sys0_wf.
- exact: sys0_v0.
- exact: sys0_v4.
Qed.

Example C58_zk_case :
  same_output 22 public_system (fun p => public_system (fix_system (E := toy) (n7 4) (n7 5) crsh (sys0f crsh) p))
    (fun R s => prove_system (R := R) fwd sys0 v0 crsh s) (fun R s => prove_system (R := R) bwd sys0 (zero_assign v0) crsh s).
Proof.
apply: (@C58_system_zk toy fwd bwd (sys0f crsh) v0 crsh _ _ _ _ toy_bilinear toy_nondegenerate toy_cyclic toy_cyclic fwd_valid bwd_valid crsh_hiding crsh_prop).
- by have := sys0_wf (v := v0) erefl erefl erefl erefl; rewrite /every /sys0f /=; tauto.
- by have := sys0_v0; rewrite /every /sys0f /=; tauto.
- exact: form0P.
Qed.

Example C58_comp_case : forall D : bool -> CRS toy -> pred _, let s := fun b : bool => (if b then n7 3 else n7 2) : F7o in
  let B1 := proof_test (N := 22) D public_system (fun w crs R s => prove_system (E := toy) (R := R) fwd sys0 (if w then v0 else v4) crs s) in
  let B2 := proof_test (N := 22) D public_system (fun w crs R s => prove_system (E := toy) (R := R) bwd sys0 v4 crs s) in
  is_true (`|game (F := F7f) (e := toy_e) s s real_crs B1 - game s s real_crs B2| <= key_adv s s B1 + key_adv s s B2).
Proof.
move=> D s B1 B2; have -> : key_adv s s B1 + key_adv s s B2 = key_adv s s B1 + key_adv s s B2 + bad_point (F := F7f) s s.
  by rewrite /bad_point Pr_none ?addr0 // => -[[] []].
apply: (C58_system_comp_wi (F := F7f) (e := toy_e) (v := fun w _ => if w then v0 else v4) (v' := fun _ _ => v4) (qs := fun _ _ => sys0) (N := 22) s s D toy_bilinear toy_nondegenerate toy_cyclic toy_cyclic fwd_valid bwd_valid).
- by case.
- by case=> crs hp; split; by [|exact: sys0_wf|exact: sys0_v0|exact: sys0_v4].
Qed.
