(** C98: which tapes make [commit_and_prove] publish the same proof, and how many. *)
From mathcomp Require Import all_ssreflect all_algebra.
From Verif Require Import Base BaseLemmas Group DataStructures Generator Commit Statement Prove Verify Spec SpecMat SpecVerify SpecHide SpecRun RunThms RunCount Concrete Concrete7 Concrete31.
Set Implicit Arguments.
Unset Strict Implicit.
Unset Printing Implicit Defensive.
Import GRing.Theory.
Local Open Scope ring_scope.

(** [PPE::commit_and_prove] under a binding key: part of the random scalars of the commitments can be moved along the key, if it does not show in [pi] and [theta]. *)
Theorem C98_ppe_run : forall (E : pairing) (R R' : rng E) (sch sch' : sched) (q : PPE E) (X : seq (G1 E)) (Y : seq (G2 E)) (crs : CRS E) a1 a2 t1 t2 (s s' : rst R) (z z' : rst R') p p',
  valid_sched sch -> valid_sched sch' -> binding_crs_with crs a1 a2 t1 t2 -> proper_crs crs ->
  ppe_commit_and_prove sch q X Y crs s = Ok (p, s') -> ppe_commit_and_prove sch' q X Y crs z = Ok (p', z') ->
  let m := size X in let n := size Y in
  (public p' = public p <-> exists (k l : nat -> Fr E) (c : Fr E),
    let o := (2 * m + 2 * n)%N in
    let e := \sum_(i < m) \sum_(j < n) k i * at_ (ppe_gamma q) i j * (drawn s (2 * m + 2 * j) + t2 * drawn s (2 * m + 2 * j).+1) in
    [/\ \sum_(i < m) k i *: (nth 0 (ppe_b q) i + \sum_(j < n) at_ (ppe_gamma q) i j *: nth 0 Y j) = 0,
        \sum_(j < n) l j *: (nth 0 (ppe_a q) j + \sum_(i < m) at_ (ppe_gamma q) i j *: nth 0 X i) = 0,
        moved s z 0 m t1 k, moved s z (2 * m) n t2 l &
        [/\ drawn z o = drawn s o + t1 * (t2 * c - e), drawn z o.+1 = drawn s o.+1 + e - t2 * c,
            drawn z o.+2 = drawn s o.+2 - t1 * c & drawn z o.+3 = drawn s o.+3 + c]]).
Proof. exact: @k_C98_ppe_run. Qed.
Print Assumptions C98_ppe_run.

Example C98_ppe_run_case : same_run (run_ppe [:: 1; 2; 3; 4; 5; 1; 7; 8; 9; 10]%N) (run_ppe [:: 5; 1; 1; 1; 5; 1; 1; 6; 5; 4]%N) && ~~ same_run (run_ppe [:: 1; 2; 3; 4; 5; 1; 7; 8; 9; 10]%N) (run_ppe [:: 5; 1; 1; 1; 5; 1; 7; 8; 9; 10]%N).
Proof. by vm_compute. Qed.

(** The number of tapes that give a proof; it is the same for every proof that is returned. *)
Theorem C98_ppe_run_counts : forall (F : finFieldType) (A B C : lmodType F) (e : A -> B -> C), let E := Pairing e in
  forall (R : rng E) (sch : sched) (q : PPE E) (X : seq (G1 E)) (Y : seq (G2 E)) (crs : CRS E) (s s' : rst R) p,
  valid_sched sch -> binding_crs crs -> proper_crs crs -> ppe_commit_and_prove sch q X Y crs s = Ok (p, s') ->
  let m := size X in let n := size Y in
  tapes (2 * m + 2 * n + 4) public (fun R s => ppe_commit_and_prove (R := R) sch q X Y crs s)
    (fun r => if r is Ok v then v == public p else false)
  = (orthogonal m (fun i => (nth 0 (ppe_b q) i + \sum_(j < n) at_ (ppe_gamma q) i j *: nth 0 Y j)%R) * orthogonal n (fun j => (nth 0 (ppe_a q) j + \sum_(i < m) at_ (ppe_gamma q) i j *: nth 0 X i)%R) * #|F|)%N.
Proof. exact: @k_C98_ppe_run_counts. Qed.
Print Assumptions C98_ppe_run_counts.

Example C98_ppe_run_counts_case := fun s' p => @C98_ppe_run_counts [finFieldType of F7] F7o F7o F7o (fun x y : F7 => x * y) (@tape_rng toy) fwd ppe0 xs0 ys0 crs0 (tp [:: 1; 2; 3; 4; 5; 1; 7; 8; 9; 10]%N) s' p fwd_valid crs0_bind crs0_prop.
Example C98_ppe_run_returns_case : is_ok (run_ppe [:: 1; 2; 3; 4; 5; 1; 7; 8; 9; 10]%N). Proof. by vm_compute. Qed.

(** [MSMEG1::commit_and_prove] under a binding key: only the random scalars of the commitments to [X] can move. *)
Theorem C98_ms1_run : forall (E : pairing) (R R' : rng E) (sch sch' : sched) (q : MSMEG1 E) (X : seq (G1 E)) (Y : seq (Fr E)) (crs : CRS E) a1 a2 t1 t2 (s s' : rst R) (z z' : rst R') p p',
  valid_sched sch -> valid_sched sch' -> binding_crs_with crs a1 a2 t1 t2 -> proper_crs crs ->
  ms1_commit_and_prove sch q X Y crs s = Ok (p, s') -> ms1_commit_and_prove sch' q X Y crs z = Ok (p', z') ->
  let m := size X in let n := size Y in
  (public p' = public p <-> exists k : nat -> Fr E,
    let o := (2 * m + n)%N in
    let e := \sum_(i < m) \sum_(j < n) k i * at_ (ms1_gamma q) i j * drawn s (2 * m + j) in
    [/\ \sum_(i < m) k i * (nth 0 (ms1_b q) i + \sum_(j < n) at_ (ms1_gamma q) i j * nth 0 Y j) = 0,
        moved s z 0 m t1 k, same_from s z (2 * m) n,
        drawn z o = drawn s o - t1 * e & drawn z o.+1 = drawn s o.+1 + e]).
Proof. exact: @k_C98_ms1_run. Qed.
Print Assumptions C98_ms1_run.

Example C98_ms1_run_case : same_run (run_ms1 [:: 1; 2; 3; 4; 5; 7; 8]%N) (run_ms1 [:: 5; 1; 1; 1; 5; 1; 6]%N) && ~~ same_run (run_ms1 [:: 1; 2; 3; 4; 5; 7; 8]%N) (run_ms1 [:: 5; 1; 1; 1; 5; 7; 8]%N).
Proof. by vm_compute. Qed.

(** The number of tapes that give a proof; it is the same for every proof that is returned. *)
Theorem C98_ms1_run_counts : forall (F : finFieldType) (A B C : lmodType F) (e : A -> B -> C), let E := Pairing e in
  forall (R : rng E) (sch : sched) (q : MSMEG1 E) (X : seq (G1 E)) (Y : seq (Fr E)) (crs : CRS E) (s s' : rst R) p,
  valid_sched sch -> binding_crs crs -> proper_crs crs -> ms1_commit_and_prove sch q X Y crs s = Ok (p, s') ->
  let m := size X in let n := size Y in
  tapes (2 * m + n + 2) public (fun R s => ms1_commit_and_prove (R := R) sch q X Y crs s)
    (fun r => if r is Ok v then v == public p else false)
  = orthogonal (W := [lmodType F of F^o]) m (fun i => (nth 0 (ms1_b q) i + \sum_(j < n) at_ (ms1_gamma q) i j * nth 0 Y j)%R).
Proof. exact: @k_C98_ms1_run_counts. Qed.
Print Assumptions C98_ms1_run_counts.

Example C98_ms1_run_counts_case := fun s' p => @C98_ms1_run_counts [finFieldType of F7] F7o F7o F7o (fun x y : F7 => x * y) (@tape_rng toy) fwd ms10 xs0 ys0 crs0 (tp [:: 1; 2; 3; 4; 5; 7; 8]%N) s' p fwd_valid crs0_bind crs0_prop.
Example C98_ms1_run_returns_case : is_ok (run_ms1 [:: 1; 2; 3; 4; 5; 7; 8]%N). Proof. by vm_compute. Qed.

(** [MSMEG2::commit_and_prove] under a binding key: only the random scalars of the commitments to [Y] can move. *)
Theorem C98_ms2_run : forall (E : pairing) (R R' : rng E) (sch sch' : sched) (q : MSMEG2 E) (X : seq (Fr E)) (Y : seq (G2 E)) (crs : CRS E) a1 a2 t1 t2 (s s' : rst R) (z z' : rst R') p p',
  valid_sched sch -> valid_sched sch' -> binding_crs_with crs a1 a2 t1 t2 -> proper_crs crs ->
  ms2_commit_and_prove sch q X Y crs s = Ok (p, s') -> ms2_commit_and_prove sch' q X Y crs z = Ok (p', z') ->
  let m := size X in let n := size Y in
  (public p' = public p <-> exists l : nat -> Fr E,
    let o := (m + 2 * n)%N in
    [/\ \sum_(j < n) l j * (nth 0 (ms2_a q) j + \sum_(i < m) at_ (ms2_gamma q) i j * nth 0 X i) = 0,
        same_from s z 0 m, moved s z m n t2 l & same_from s z o 2]).
Proof. exact: @k_C98_ms2_run. Qed.
Print Assumptions C98_ms2_run.

Example C98_ms2_run_case : same_run (run_ms2 [:: 1; 2; 3; 4; 5; 6; 7]%N) (run_ms2 [:: 1; 4; 4; 4; 5; 6; 7]%N) && ~~ same_run (run_ms2 [:: 1; 2; 3; 4; 5; 6; 7]%N) (run_ms2 [:: 1; 2; 3; 6; 6; 6; 7]%N).
Proof. by vm_compute. Qed.

(** The number of tapes that give a proof; it is the same for every proof that is returned. *)
Theorem C98_ms2_run_counts : forall (F : finFieldType) (A B C : lmodType F) (e : A -> B -> C), let E := Pairing e in
  forall (R : rng E) (sch : sched) (q : MSMEG2 E) (X : seq (Fr E)) (Y : seq (G2 E)) (crs : CRS E) (s s' : rst R) p,
  valid_sched sch -> binding_crs crs -> proper_crs crs -> ms2_commit_and_prove sch q X Y crs s = Ok (p, s') ->
  let m := size X in let n := size Y in
  tapes (m + 2 * n + 2) public (fun R s => ms2_commit_and_prove (R := R) sch q X Y crs s)
    (fun r => if r is Ok v then v == public p else false)
  = orthogonal (W := [lmodType F of F^o]) n (fun j => (nth 0 (ms2_a q) j + \sum_(i < m) at_ (ms2_gamma q) i j * nth 0 X i)%R).
Proof. exact: @k_C98_ms2_run_counts. Qed.
Print Assumptions C98_ms2_run_counts.

Example C98_ms2_run_counts_case := fun s' p => @C98_ms2_run_counts [finFieldType of F7] F7o F7o F7o (fun x y : F7 => x * y) (@tape_rng toy) fwd ms2r [:: n7 3] [:: n7 4; n7 5] crs0 (tp [:: 1; 2; 3; 4; 5; 6; 7]%N) s' p fwd_valid crs0_bind crs0_prop.
Example C98_ms2_run_returns_case : is_ok (run_ms2 [:: 1; 2; 3; 4; 5; 6; 7]%N). Proof. by vm_compute. Qed.

(** [QuadEqu::commit_and_prove] under any key with [u1] and [v1] not zero: no two tapes give the same proof. *)
Theorem C98_quad_run : forall (E : pairing) (R R' : rng E) (sch sch' : sched) (q : QuadEqu E) (X : seq (Fr E)) (Y : seq (Fr E)) (crs : CRS E) (s s' : rst R) (z z' : rst R') p p',
  valid_sched sch -> valid_sched sch' -> u1 crs != 0 -> v1 crs != 0 ->
  quad_commit_and_prove sch q X Y crs s = Ok (p, s') -> quad_commit_and_prove sch' q X Y crs z = Ok (p', z') ->
  (public p' = public p <-> same_from s z 0 (size X + size Y + 1)).
Proof. exact: @k_C98_quad_run. Qed.
Print Assumptions C98_quad_run.

Example C98_quad_run_case : same_run (run_quad [:: 1; 2; 3; 4]%N) (run_quad [:: 1; 2; 3; 4]%N) && ~~ same_run (run_quad [:: 1; 2; 3; 4]%N) (run_quad [:: 1; 2; 3; 5]%N).
Proof. by vm_compute. Qed.

(** The number of tapes that give a proof; it is the same for every proof that is returned. *)
Theorem C98_quad_run_counts : forall (F : finFieldType) (A B C : lmodType F) (e : A -> B -> C), let E := Pairing e in
  forall (R : rng E) (sch : sched) (q : QuadEqu E) (X : seq (Fr E)) (Y : seq (Fr E)) (crs : CRS E) (s s' : rst R) p,
  valid_sched sch -> u1 crs != 0 -> v1 crs != 0 -> quad_commit_and_prove sch q X Y crs s = Ok (p, s') ->
  let m := size X in let n := size Y in
  tapes (m + n + 1) public (fun R s => quad_commit_and_prove (R := R) sch q X Y crs s)
    (fun r => if r is Ok v then v == public p else false)
  = 1%N.
Proof. exact: @k_C98_quad_run_counts. Qed.
Print Assumptions C98_quad_run_counts.

Example C98_quad_run_counts_case := fun s' p => @C98_quad_run_counts [finFieldType of F7] F7o F7o F7o (fun x y : F7 => x * y) (@tape_rng toy) fwd quad0 xs0 ys0 crs0 (tp [:: 1; 2; 3; 4]%N) s' p fwd_valid isT isT.
Example C98_quad_run_returns_case : is_ok (run_quad [:: 1; 2; 3; 4]%N). Proof. by vm_compute. Qed.

(** The number of tuples orthogonal to [w]. *)
Theorem C98_orthogonal : forall (F : finFieldType) (W : lmodType F) n (w : nat -> W), cyclic W ->
  orthogonal n w = (if [exists i : 'I_n, (w i != 0)%R] then #|F| ^ n.-1 else #|F| ^ n)%N.
Proof. exact: k_C98_orthogonal. Qed.
Print Assumptions C98_orthogonal.

Example C98_orthogonal_case := fun w : nat -> F7o => @C98_orthogonal [finFieldType of F7] F7o 3 w toy_cyclic.
