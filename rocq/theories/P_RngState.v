(** Property C68: for every input, the state in which a call leaves the generator, also when
    it panics; and the functions that record this state agree with those of Commit.v and
    Prove.v. *)
From mathcomp Require Import all_ssreflect all_algebra.
From Verif Require Import Base BaseLemmas Group DataStructures Generator Commit Statement Prove Verify RngState Spec SpecPanic SpecRng RngLemmas Concrete Concrete2.
Set Implicit Arguments.
Unset Strict Implicit.
Unset Printing Implicit Defensive.
Import GRing.Theory.

Theorem C68_commit_G1 : forall (E : pairing) (R : rng E) (x : G1 E) (crs : CRS E) (s : rst R),
  on_return (st_commit_G1 x crs s) = commit_G1 x crs s /\
  (st_commit_G1 x crs s).2 = after 2 s.
Proof. move=> E R x crs s; exact: (conj (commit_G1_era x crs s) (commit_G1_end x crs s)). Qed.
Print Assumptions C68_commit_G1.

Example C68_commit_G1_case :
  outcome (st_commit_G1 (E := toy) (n7 3) (mkCRS (E := toy) (take 1 (crs_u crs0)) (take 1 (crs_v crs0)) (n7 1) (n7 2) (n7 2)) (6 : rst ctr)).1 <> None /\
  (st_commit_G1 (E := toy) (n7 3) (mkCRS (E := toy) (take 1 (crs_u crs0)) (take 1 (crs_v crs0)) (n7 1) (n7 2) (n7 2)) (6 : rst ctr)).2 = 6 + 2 /\
  outcome (st_commit_G1 (E := toy) (n7 3) crs0 (6 : rst ctr)).1 = None /\
  (st_commit_G1 (E := toy) (n7 3) crs0 (6 : rst ctr)).2 = 6 + 2.
Proof. by vm_compute. Qed.

Theorem C68_batch_commit_G1 : forall (E : pairing) (R : rng E) (X : seq (G1 E)) (crs : CRS E) (s : rst R),
  on_return (st_batch_commit_G1 X crs s) = batch_commit_G1 X crs s /\
  (st_batch_commit_G1 X crs s).2 = after (2 * size X) s.
Proof. move=> E R X crs s; exact: (conj (batch_commit_G1_era X crs s) (batch_commit_G1_end X crs s)). Qed.
Print Assumptions C68_batch_commit_G1.

Example C68_batch_commit_G1_case :
  outcome (st_batch_commit_G1 (E := toy) xs0 (mkCRS (E := toy) (take 1 (crs_u crs0)) (take 1 (crs_v crs0)) (n7 1) (n7 2) (n7 2)) (6 : rst ctr)).1 <> None /\
  (st_batch_commit_G1 (E := toy) xs0 (mkCRS (E := toy) (take 1 (crs_u crs0)) (take 1 (crs_v crs0)) (n7 1) (n7 2) (n7 2)) (6 : rst ctr)).2 = 6 + 2 * size xs0 /\
  outcome (st_batch_commit_G1 (E := toy) xs0 crs0 (6 : rst ctr)).1 = None /\
  (st_batch_commit_G1 (E := toy) xs0 crs0 (6 : rst ctr)).2 = 6 + 2 * size xs0.
Proof. by vm_compute. Qed.

Theorem C68_commit_scalar_to_B1 : forall (E : pairing) (R : rng E) (x : Fr E) (crs : CRS E) (s : rst R),
  on_return (st_commit_scalar_to_B1 x crs s) = commit_scalar_to_B1 x crs s /\
  (st_commit_scalar_to_B1 x crs s).2 = after 1 s.
Proof. move=> E R x crs s; exact: (conj (commit_scalar_to_B1_era x crs s) (commit_scalar_to_B1_end x crs s)). Qed.
Print Assumptions C68_commit_scalar_to_B1.

Example C68_commit_scalar_to_B1_case :
  outcome (st_commit_scalar_to_B1 (E := toy) (n7 3) (mkCRS (E := toy) (take 1 (crs_u crs0)) (take 1 (crs_v crs0)) (n7 1) (n7 2) (n7 2)) (6 : rst ctr)).1 <> None /\
  (st_commit_scalar_to_B1 (E := toy) (n7 3) (mkCRS (E := toy) (take 1 (crs_u crs0)) (take 1 (crs_v crs0)) (n7 1) (n7 2) (n7 2)) (6 : rst ctr)).2 = 6 + 1 /\
  outcome (st_commit_scalar_to_B1 (E := toy) (n7 3) crs0 (6 : rst ctr)).1 = None /\
  (st_commit_scalar_to_B1 (E := toy) (n7 3) crs0 (6 : rst ctr)).2 = 6 + 1.
Proof. by vm_compute. Qed.

Theorem C68_batch_commit_scalar_to_B1 : forall (E : pairing) (R : rng E) (X : seq (Fr E)) (crs : CRS E) (s : rst R),
  on_return (st_batch_commit_scalar_to_B1 X crs s) = batch_commit_scalar_to_B1 X crs s /\
  (st_batch_commit_scalar_to_B1 X crs s).2 = after (1 * size X) s.
Proof. move=> E R X crs s; exact: (conj (batch_commit_scalar_to_B1_era X crs s) (batch_commit_scalar_to_B1_end X crs s)). Qed.
Print Assumptions C68_batch_commit_scalar_to_B1.

Example C68_batch_commit_scalar_to_B1_case :
  outcome (st_batch_commit_scalar_to_B1 (E := toy) xs0 (mkCRS (E := toy) (take 1 (crs_u crs0)) (take 1 (crs_v crs0)) (n7 1) (n7 2) (n7 2)) (6 : rst ctr)).1 <> None /\
  (st_batch_commit_scalar_to_B1 (E := toy) xs0 (mkCRS (E := toy) (take 1 (crs_u crs0)) (take 1 (crs_v crs0)) (n7 1) (n7 2) (n7 2)) (6 : rst ctr)).2 = 6 + 1 * size xs0 /\
  outcome (st_batch_commit_scalar_to_B1 (E := toy) xs0 crs0 (6 : rst ctr)).1 = None /\
  (st_batch_commit_scalar_to_B1 (E := toy) xs0 crs0 (6 : rst ctr)).2 = 6 + 1 * size xs0.
Proof. by vm_compute. Qed.

Theorem C68_commit_G2 : forall (E : pairing) (R : rng E) (x : G2 E) (crs : CRS E) (s : rst R),
  on_return (st_commit_G2 x crs s) = commit_G2 x crs s /\
  (st_commit_G2 x crs s).2 = after 2 s.
Proof. move=> E R x crs s; exact: (conj (commit_G2_era x crs s) (commit_G2_end x crs s)). Qed.
Print Assumptions C68_commit_G2.

Example C68_commit_G2_case :
  outcome (st_commit_G2 (E := toy) (n7 3) (mkCRS (E := toy) (take 1 (crs_u crs0)) (take 1 (crs_v crs0)) (n7 1) (n7 2) (n7 2)) (6 : rst ctr)).1 <> None /\
  (st_commit_G2 (E := toy) (n7 3) (mkCRS (E := toy) (take 1 (crs_u crs0)) (take 1 (crs_v crs0)) (n7 1) (n7 2) (n7 2)) (6 : rst ctr)).2 = 6 + 2 /\
  outcome (st_commit_G2 (E := toy) (n7 3) crs0 (6 : rst ctr)).1 = None /\
  (st_commit_G2 (E := toy) (n7 3) crs0 (6 : rst ctr)).2 = 6 + 2.
Proof. by vm_compute. Qed.

Theorem C68_batch_commit_G2 : forall (E : pairing) (R : rng E) (X : seq (G2 E)) (crs : CRS E) (s : rst R),
  on_return (st_batch_commit_G2 X crs s) = batch_commit_G2 X crs s /\
  (st_batch_commit_G2 X crs s).2 = after (2 * size X) s.
Proof. move=> E R X crs s; exact: (conj (batch_commit_G2_era X crs s) (batch_commit_G2_end X crs s)). Qed.
Print Assumptions C68_batch_commit_G2.

Example C68_batch_commit_G2_case :
  outcome (st_batch_commit_G2 (E := toy) ys0 (mkCRS (E := toy) (take 1 (crs_u crs0)) (take 1 (crs_v crs0)) (n7 1) (n7 2) (n7 2)) (6 : rst ctr)).1 <> None /\
  (st_batch_commit_G2 (E := toy) ys0 (mkCRS (E := toy) (take 1 (crs_u crs0)) (take 1 (crs_v crs0)) (n7 1) (n7 2) (n7 2)) (6 : rst ctr)).2 = 6 + 2 * size ys0 /\
  outcome (st_batch_commit_G2 (E := toy) ys0 crs0 (6 : rst ctr)).1 = None /\
  (st_batch_commit_G2 (E := toy) ys0 crs0 (6 : rst ctr)).2 = 6 + 2 * size ys0.
Proof. by vm_compute. Qed.

Theorem C68_commit_scalar_to_B2 : forall (E : pairing) (R : rng E) (x : Fr E) (crs : CRS E) (s : rst R),
  on_return (st_commit_scalar_to_B2 x crs s) = commit_scalar_to_B2 x crs s /\
  (st_commit_scalar_to_B2 x crs s).2 = after 1 s.
Proof. move=> E R x crs s; exact: (conj (commit_scalar_to_B2_era x crs s) (commit_scalar_to_B2_end x crs s)). Qed.
Print Assumptions C68_commit_scalar_to_B2.

Example C68_commit_scalar_to_B2_case :
  outcome (st_commit_scalar_to_B2 (E := toy) (n7 3) (mkCRS (E := toy) (take 1 (crs_u crs0)) (take 1 (crs_v crs0)) (n7 1) (n7 2) (n7 2)) (6 : rst ctr)).1 <> None /\
  (st_commit_scalar_to_B2 (E := toy) (n7 3) (mkCRS (E := toy) (take 1 (crs_u crs0)) (take 1 (crs_v crs0)) (n7 1) (n7 2) (n7 2)) (6 : rst ctr)).2 = 6 + 1 /\
  outcome (st_commit_scalar_to_B2 (E := toy) (n7 3) crs0 (6 : rst ctr)).1 = None /\
  (st_commit_scalar_to_B2 (E := toy) (n7 3) crs0 (6 : rst ctr)).2 = 6 + 1.
Proof. by vm_compute. Qed.

Theorem C68_batch_commit_scalar_to_B2 : forall (E : pairing) (R : rng E) (X : seq (Fr E)) (crs : CRS E) (s : rst R),
  on_return (st_batch_commit_scalar_to_B2 X crs s) = batch_commit_scalar_to_B2 X crs s /\
  (st_batch_commit_scalar_to_B2 X crs s).2 = after (1 * size X) s.
Proof. move=> E R X crs s; exact: (conj (batch_commit_scalar_to_B2_era X crs s) (batch_commit_scalar_to_B2_end X crs s)). Qed.
Print Assumptions C68_batch_commit_scalar_to_B2.

Example C68_batch_commit_scalar_to_B2_case :
  outcome (st_batch_commit_scalar_to_B2 (E := toy) ys0 (mkCRS (E := toy) (take 1 (crs_u crs0)) (take 1 (crs_v crs0)) (n7 1) (n7 2) (n7 2)) (6 : rst ctr)).1 <> None /\
  (st_batch_commit_scalar_to_B2 (E := toy) ys0 (mkCRS (E := toy) (take 1 (crs_u crs0)) (take 1 (crs_v crs0)) (n7 1) (n7 2) (n7 2)) (6 : rst ctr)).2 = 6 + 1 * size ys0 /\
  outcome (st_batch_commit_scalar_to_B2 (E := toy) ys0 crs0 (6 : rst ctr)).1 = None /\
  (st_batch_commit_scalar_to_B2 (E := toy) ys0 crs0 (6 : rst ctr)).2 = 6 + 1 * size ys0.
Proof. by vm_compute. Qed.

Theorem C68_ppe_prove : forall (E : pairing) (R : rng E) sch (q : PPE E) (X : seq (G1 E)) (Y : seq (G2 E))
    (cx : Commit1 E) (cy : Commit2 E) (crs : CRS E) (s : rst R),
  on_return (st_ppe_prove sch q X Y cx cy crs s) = ppe_prove sch q X Y cx cy crs s /\
  (st_ppe_prove sch q X Y cx cy crs s).2
  = after (prove_draws 4 (opening_checks (ppe_gamma q) (size X) (size Y) 2 2 (crand cx) (crand cy))) s.
Proof. move=> E R sch q X Y cx cy crs s; exact: (conj (ppe_prove_era sch q X Y cx cy crs s) (ppe_prove_end sch q X Y cx cy crs s)). Qed.
Print Assumptions C68_ppe_prove.

Example C68_ppe_prove_case :
  outcome (st_ppe_prove (E := toy) bwd ppe0 [::] ys0 (xcoms ppe_p0) (ycoms ppe_p0) crs0 (6 : rst ctr)).1 <> None /\
  (st_ppe_prove (E := toy) bwd ppe0 [::] ys0 (xcoms ppe_p0) (ycoms ppe_p0) crs0 (6 : rst ctr)).2 = 6 /\
  outcome (st_ppe_prove (E := toy) bwd ppe0 xs0 ys0 (xcoms ppe_p0) (ycoms ppe_p0) (mkCRS (E := toy) [::] [::] (n7 1) (n7 2) (n7 2)) (6 : rst ctr)).1 <> None /\
  (st_ppe_prove (E := toy) bwd ppe0 xs0 ys0 (xcoms ppe_p0) (ycoms ppe_p0) (mkCRS (E := toy) [::] [::] (n7 1) (n7 2) (n7 2)) (6 : rst ctr)).2 = 10 /\
  outcome (st_ppe_prove (E := toy) bwd ppe0 xs0 ys0 (xcoms ppe_p0) (ycoms ppe_p0) crs0 (6 : rst ctr)).1 = None /\
  (st_ppe_prove (E := toy) bwd ppe0 xs0 ys0 (xcoms ppe_p0) (ycoms ppe_p0) crs0 (6 : rst ctr)).2 = 10.
Proof. by vm_compute. Qed.

Theorem C68_ppe_commit_and_prove : forall (E : pairing) (R : rng E) sch (q : PPE E) (X : seq (G1 E)) (Y : seq (G2 E))
    (crs : CRS E) (s : rst R),
  on_return (st_ppe_commit_and_prove sch q X Y crs s) = ppe_commit_and_prove sch q X Y crs s /\
  (st_ppe_commit_and_prove sch q X Y crs s).2
  = after (cap_draws 2 2 4 (size X) (size Y) (ppe_gamma q)
             (batch_checks (size (crs_u crs)) (size X)) (batch_checks (size (crs_v crs)) (size Y))) s.
Proof. move=> E R sch q X Y crs s; exact: (conj (ppe_cap_era sch q X Y crs s) (ppe_cap_end sch q X Y crs s)). Qed.
Print Assumptions C68_ppe_commit_and_prove.

Example C68_ppe_commit_and_prove_case :
  (st_ppe_commit_and_prove (E := toy) bwd ppe0 xs0 ys0 (mkCRS (E := toy) (take 1 (crs_u crs0)) (take 1 (crs_v crs0)) (n7 1) (n7 2) (n7 2)) (6 : rst ctr)).2 = 6 + 2 * size xs0 /\
  (st_ppe_commit_and_prove (E := toy) bwd ppe0 xs0 ys0 (mkCRS (E := toy) (crs_u crs0) (take 1 (crs_v crs0)) (n7 1) (n7 2) (n7 2)) (6 : rst ctr)).2 = 6 + 2 * size xs0 + 2 * size ys0 /\
  (st_ppe_commit_and_prove (E := toy) bwd ppe0 (xs0 ++ xs0) ys0 crs0 (6 : rst ctr)).2 = 6 + 2 * 2 * size xs0 + 2 * size ys0 /\
  outcome (st_ppe_commit_and_prove (E := toy) bwd ppe0 xs0 ys0 crs0 (6 : rst ctr)).1 = None /\
  (st_ppe_commit_and_prove (E := toy) bwd ppe0 xs0 ys0 crs0 (6 : rst ctr)).2 = 6 + 2 * size xs0 + 2 * size ys0 + 4.
Proof. by vm_compute. Qed.

Theorem C68_ms1_prove : forall (E : pairing) (R : rng E) sch (q : MSMEG1 E) (X : seq (G1 E)) (Y : seq (Fr E))
    (cx : Commit1 E) (cy : Commit2 E) (crs : CRS E) (s : rst R),
  on_return (st_ms1_prove sch q X Y cx cy crs s) = ms1_prove sch q X Y cx cy crs s /\
  (st_ms1_prove sch q X Y cx cy crs s).2
  = after (prove_draws 2 (opening_checks (ms1_gamma q) (size X) (size Y) 2 1 (crand cx) (crand cy))) s.
Proof. move=> E R sch q X Y cx cy crs s; exact: (conj (ms1_prove_era sch q X Y cx cy crs s) (ms1_prove_end sch q X Y cx cy crs s)). Qed.
Print Assumptions C68_ms1_prove.

Example C68_ms1_prove_case :
  outcome (st_ms1_prove (E := toy) bwd ms10 [::] ys0 (xcoms ms1_p0) (ycoms ms1_p0) crs0 (6 : rst ctr)).1 <> None /\
  (st_ms1_prove (E := toy) bwd ms10 [::] ys0 (xcoms ms1_p0) (ycoms ms1_p0) crs0 (6 : rst ctr)).2 = 6 /\
  outcome (st_ms1_prove (E := toy) bwd ms10 xs0 ys0 (xcoms ms1_p0) (ycoms ms1_p0) (mkCRS (E := toy) [::] [::] (n7 1) (n7 2) (n7 2)) (6 : rst ctr)).1 <> None /\
  (st_ms1_prove (E := toy) bwd ms10 xs0 ys0 (xcoms ms1_p0) (ycoms ms1_p0) (mkCRS (E := toy) [::] [::] (n7 1) (n7 2) (n7 2)) (6 : rst ctr)).2 = 8 /\
  outcome (st_ms1_prove (E := toy) bwd ms10 xs0 ys0 (xcoms ms1_p0) (ycoms ms1_p0) crs0 (6 : rst ctr)).1 = None /\
  (st_ms1_prove (E := toy) bwd ms10 xs0 ys0 (xcoms ms1_p0) (ycoms ms1_p0) crs0 (6 : rst ctr)).2 = 8.
Proof. by vm_compute. Qed.

Theorem C68_ms1_commit_and_prove : forall (E : pairing) (R : rng E) sch (q : MSMEG1 E) (X : seq (G1 E)) (Y : seq (Fr E))
    (crs : CRS E) (s : rst R),
  on_return (st_ms1_commit_and_prove sch q X Y crs s) = ms1_commit_and_prove sch q X Y crs s /\
  (st_ms1_commit_and_prove sch q X Y crs s).2
  = after (cap_draws 2 1 2 (size X) (size Y) (ms1_gamma q)
             (batch_checks (size (crs_u crs)) (size X)) (batch_scalar_checks (size (crs_v crs)) (size Y))) s.
Proof. move=> E R sch q X Y crs s; exact: (conj (ms1_cap_era sch q X Y crs s) (ms1_cap_end sch q X Y crs s)). Qed.
Print Assumptions C68_ms1_commit_and_prove.

Example C68_ms1_commit_and_prove_case :
  (st_ms1_commit_and_prove (E := toy) bwd ms10 xs0 ys0 (mkCRS (E := toy) (take 1 (crs_u crs0)) (take 1 (crs_v crs0)) (n7 1) (n7 2) (n7 2)) (6 : rst ctr)).2 = 6 + 2 * size xs0 /\
  (st_ms1_commit_and_prove (E := toy) bwd ms10 xs0 ys0 (mkCRS (E := toy) (crs_u crs0) (take 1 (crs_v crs0)) (n7 1) (n7 2) (n7 2)) (6 : rst ctr)).2 = 6 + 2 * size xs0 + 1 * size ys0 /\
  (st_ms1_commit_and_prove (E := toy) bwd ms10 (xs0 ++ xs0) ys0 crs0 (6 : rst ctr)).2 = 6 + 2 * 2 * size xs0 + 1 * size ys0 /\
  outcome (st_ms1_commit_and_prove (E := toy) bwd ms10 xs0 ys0 crs0 (6 : rst ctr)).1 = None /\
  (st_ms1_commit_and_prove (E := toy) bwd ms10 xs0 ys0 crs0 (6 : rst ctr)).2 = 6 + 2 * size xs0 + 1 * size ys0 + 2.
Proof. by vm_compute. Qed.

Theorem C68_ms2_prove : forall (E : pairing) (R : rng E) sch (q : MSMEG2 E) (X : seq (Fr E)) (Y : seq (G2 E))
    (cx : Commit1 E) (cy : Commit2 E) (crs : CRS E) (s : rst R),
  on_return (st_ms2_prove sch q X Y cx cy crs s) = ms2_prove sch q X Y cx cy crs s /\
  (st_ms2_prove sch q X Y cx cy crs s).2
  = after (prove_draws 2 (opening_checks (ms2_gamma q) (size X) (size Y) 1 2 (crand cx) (crand cy))) s.
Proof. move=> E R sch q X Y cx cy crs s; exact: (conj (ms2_prove_era sch q X Y cx cy crs s) (ms2_prove_end sch q X Y cx cy crs s)). Qed.
Print Assumptions C68_ms2_prove.

Example C68_ms2_prove_case :
  outcome (st_ms2_prove (E := toy) bwd ms20 [::] ys0 (xcoms ms2_p0) (ycoms ms2_p0) crs0 (6 : rst ctr)).1 <> None /\
  (st_ms2_prove (E := toy) bwd ms20 [::] ys0 (xcoms ms2_p0) (ycoms ms2_p0) crs0 (6 : rst ctr)).2 = 6 /\
  outcome (st_ms2_prove (E := toy) bwd ms20 xs0 ys0 (xcoms ms2_p0) (ycoms ms2_p0) (mkCRS (E := toy) [::] [::] (n7 1) (n7 2) (n7 2)) (6 : rst ctr)).1 <> None /\
  (st_ms2_prove (E := toy) bwd ms20 xs0 ys0 (xcoms ms2_p0) (ycoms ms2_p0) (mkCRS (E := toy) [::] [::] (n7 1) (n7 2) (n7 2)) (6 : rst ctr)).2 = 8 /\
  outcome (st_ms2_prove (E := toy) bwd ms20 xs0 ys0 (xcoms ms2_p0) (ycoms ms2_p0) crs0 (6 : rst ctr)).1 = None /\
  (st_ms2_prove (E := toy) bwd ms20 xs0 ys0 (xcoms ms2_p0) (ycoms ms2_p0) crs0 (6 : rst ctr)).2 = 8.
Proof. by vm_compute. Qed.

Theorem C68_ms2_commit_and_prove : forall (E : pairing) (R : rng E) sch (q : MSMEG2 E) (X : seq (Fr E)) (Y : seq (G2 E))
    (crs : CRS E) (s : rst R),
  on_return (st_ms2_commit_and_prove sch q X Y crs s) = ms2_commit_and_prove sch q X Y crs s /\
  (st_ms2_commit_and_prove sch q X Y crs s).2
  = after (cap_draws 1 2 2 (size X) (size Y) (ms2_gamma q)
             (batch_scalar_checks (size (crs_u crs)) (size X)) (batch_checks (size (crs_v crs)) (size Y))) s.
Proof. move=> E R sch q X Y crs s; exact: (conj (ms2_cap_era sch q X Y crs s) (ms2_cap_end sch q X Y crs s)). Qed.
Print Assumptions C68_ms2_commit_and_prove.

Example C68_ms2_commit_and_prove_case :
  (st_ms2_commit_and_prove (E := toy) bwd ms20 xs0 ys0 (mkCRS (E := toy) (take 1 (crs_u crs0)) (take 1 (crs_v crs0)) (n7 1) (n7 2) (n7 2)) (6 : rst ctr)).2 = 6 + 1 * size xs0 /\
  (st_ms2_commit_and_prove (E := toy) bwd ms20 xs0 ys0 (mkCRS (E := toy) (crs_u crs0) (take 1 (crs_v crs0)) (n7 1) (n7 2) (n7 2)) (6 : rst ctr)).2 = 6 + 1 * size xs0 + 2 * size ys0 /\
  (st_ms2_commit_and_prove (E := toy) bwd ms20 (xs0 ++ xs0) ys0 crs0 (6 : rst ctr)).2 = 6 + 2 * 1 * size xs0 + 2 * size ys0 /\
  outcome (st_ms2_commit_and_prove (E := toy) bwd ms20 xs0 ys0 crs0 (6 : rst ctr)).1 = None /\
  (st_ms2_commit_and_prove (E := toy) bwd ms20 xs0 ys0 crs0 (6 : rst ctr)).2 = 6 + 1 * size xs0 + 2 * size ys0 + 2.
Proof. by vm_compute. Qed.

Theorem C68_quad_prove : forall (E : pairing) (R : rng E) sch (q : QuadEqu E) (X : seq (Fr E)) (Y : seq (Fr E))
    (cx : Commit1 E) (cy : Commit2 E) (crs : CRS E) (s : rst R),
  on_return (st_quad_prove sch q X Y cx cy crs s) = quad_prove sch q X Y cx cy crs s /\
  (st_quad_prove sch q X Y cx cy crs s).2
  = after (prove_draws 1 (opening_checks (quad_gamma q) (size X) (size Y) 1 1 (crand cx) (crand cy))) s.
Proof. move=> E R sch q X Y cx cy crs s; exact: (conj (quad_prove_era sch q X Y cx cy crs s) (quad_prove_end sch q X Y cx cy crs s)). Qed.
Print Assumptions C68_quad_prove.

Example C68_quad_prove_case :
  outcome (st_quad_prove (E := toy) bwd quad0 [::] ys0 (xcoms quad_p0) (ycoms quad_p0) crs0 (6 : rst ctr)).1 <> None /\
  (st_quad_prove (E := toy) bwd quad0 [::] ys0 (xcoms quad_p0) (ycoms quad_p0) crs0 (6 : rst ctr)).2 = 6 /\
  outcome (st_quad_prove (E := toy) bwd quad0 xs0 ys0 (xcoms quad_p0) (ycoms quad_p0) (mkCRS (E := toy) [::] [::] (n7 1) (n7 2) (n7 2)) (6 : rst ctr)).1 <> None /\
  (st_quad_prove (E := toy) bwd quad0 xs0 ys0 (xcoms quad_p0) (ycoms quad_p0) (mkCRS (E := toy) [::] [::] (n7 1) (n7 2) (n7 2)) (6 : rst ctr)).2 = 7 /\
  outcome (st_quad_prove (E := toy) bwd quad0 xs0 ys0 (xcoms quad_p0) (ycoms quad_p0) crs0 (6 : rst ctr)).1 = None /\
  (st_quad_prove (E := toy) bwd quad0 xs0 ys0 (xcoms quad_p0) (ycoms quad_p0) crs0 (6 : rst ctr)).2 = 7.
Proof. by vm_compute. Qed.

Theorem C68_quad_commit_and_prove : forall (E : pairing) (R : rng E) sch (q : QuadEqu E) (X : seq (Fr E)) (Y : seq (Fr E))
    (crs : CRS E) (s : rst R),
  on_return (st_quad_commit_and_prove sch q X Y crs s) = quad_commit_and_prove sch q X Y crs s /\
  (st_quad_commit_and_prove sch q X Y crs s).2
  = after (cap_draws 1 1 1 (size X) (size Y) (quad_gamma q)
             (batch_scalar_checks (size (crs_u crs)) (size X)) (batch_scalar_checks (size (crs_v crs)) (size Y))) s.
Proof. move=> E R sch q X Y crs s; exact: (conj (quad_cap_era sch q X Y crs s) (quad_cap_end sch q X Y crs s)). Qed.
Print Assumptions C68_quad_commit_and_prove.

Example C68_quad_commit_and_prove_case :
  (st_quad_commit_and_prove (E := toy) bwd quad0 xs0 ys0 (mkCRS (E := toy) (take 1 (crs_u crs0)) (take 1 (crs_v crs0)) (n7 1) (n7 2) (n7 2)) (6 : rst ctr)).2 = 6 + 1 * size xs0 /\
  (st_quad_commit_and_prove (E := toy) bwd quad0 xs0 ys0 (mkCRS (E := toy) (crs_u crs0) (take 1 (crs_v crs0)) (n7 1) (n7 2) (n7 2)) (6 : rst ctr)).2 = 6 + 1 * size xs0 + 1 * size ys0 /\
  (st_quad_commit_and_prove (E := toy) bwd quad0 (xs0 ++ xs0) ys0 crs0 (6 : rst ctr)).2 = 6 + 2 * 1 * size xs0 + 1 * size ys0 /\
  outcome (st_quad_commit_and_prove (E := toy) bwd quad0 xs0 ys0 crs0 (6 : rst ctr)).1 = None /\
  (st_quad_commit_and_prove (E := toy) bwd quad0 xs0 ys0 crs0 (6 : rst ctr)).2 = 6 + 1 * size xs0 + 1 * size ys0 + 1.
Proof. by vm_compute. Qed.

