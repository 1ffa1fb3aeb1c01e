(** C99: under a hiding key, for every satisfying witness, [commit_and_prove] reaches
    each accepted proof with exactly one tape of random scalars. *)
From mathcomp Require Import all_ssreflect all_algebra.
From Verif Require Import Base BaseLemmas Group DataStructures Generator Commit Statement Prove Verify Spec SpecVerify SpecHide SpecRerand SpecBij Main Complete CapLemmas HideProps ExistProps BijStages BijProps Concrete Concrete2 Concrete4 Concrete7.
Set Implicit Arguments.
Unset Strict Implicit.
Unset Printing Implicit Defensive.
Import GRing.Theory.
Local Open Scope ring_scope.

Theorem C99_ppe : forall (E : pairing) (sch sch' : sched) (q : PPE E) (X : seq (G1 E)) (Y : seq (G2 E)) (crs : CRS E) (p : CProof E) (pf : EquProof E),
  bilinear E -> nondegenerate E -> cyclic (G1 E) -> cyclic (G2 E) -> valid_sched sch -> valid_sched sch' -> hiding_crs crs -> proper_crs crs ->
  (0 < size X)%N -> (0 < size Y)%N -> ppe_wf q (size X) (size Y) -> ppe_holds q X Y ->
  size (coms (xcoms p)) = size X -> size (coms (ycoms p)) = size Y -> equ_proofs p = [:: pf] ->
  equ_type pf = PairingProduct -> size (pi pf) = 2%N -> size (theta pf) = 2%N ->
  (ppe_verify sch' q p crs = Ok true <->
   exists! t : (2 * size X + (2 * size Y + 4)).-tuple (Fr E), gives (fun R s => ppe_commit_and_prove (R := R) sch q X Y crs s) p t).
Proof. exact: @k_C99_ppe. Qed.
Print Assumptions C99_ppe.

Example C99_ppe_case : exists p, ppe_verify fwd ppe0 p crsh = Ok true /\
  (exists! t : (2 * size xs0 + (2 * size ys0 + 4)).-tuple (Fr toy), gives (fun R s => ppe_commit_and_prove (E := toy) (R := R) bwd ppe0 xs0 ys0 crsh s) p t).
Proof.
have [c [s' [e acc]]] := ppe_cap_complete fwd_valid fwd_valid toy_bilinear (q := ppe0) (X := xs0) (Y := ys0) (6%N : rst ctr) isT isT ppe0_wf crsh_two ppe0_holds.
have [s1 [s2 [pf [e1 e2 e3 e4]]]] := proj1 (ppe_cap_steps _ _ _ _ _ _ _ _) e.
have [h1 [h2 h3]] := ppe_prove_sizes fwd_valid e3; have [sx _ _] := batch_made_G1 e1; have [sy _ _] := batch_made_G2 e2.
exists c; split=> //.
exact: ((C99_ppe (E := toy) (X := xs0) (Y := ys0) toy_bilinear toy_nondegenerate toy_cyclic toy_cyclic bwd_valid fwd_valid crsh_hid crsh_prop isT isT ppe0_wf ppe0_holds sx sy e4 h1 h2 h3).1 acc).
Qed.

Theorem C99_ms1 : forall (E : pairing) (sch sch' : sched) (q : MSMEG1 E) (X : seq (G1 E)) (Y : seq (Fr E)) (crs : CRS E) (p : CProof E) (pf : EquProof E),
  bilinear E -> nondegenerate E -> cyclic (G1 E) -> cyclic (G2 E) -> valid_sched sch -> valid_sched sch' -> hiding_crs crs -> proper_crs crs ->
  (0 < size X)%N -> (0 < size Y)%N -> ms1_wf q (size X) (size Y) -> ms1_holds q X Y ->
  size (coms (xcoms p)) = size X -> size (coms (ycoms p)) = size Y -> equ_proofs p = [:: pf] ->
  equ_type pf = MultiScalarG1 -> size (pi pf) = 2%N -> size (theta pf) = 1%N ->
  ([/\ ms1_verify sch' q p crs = Ok true & multiples (v1 crs) (coms (ycoms p))] <->
   exists! t : (2 * size X + (size Y + 2)).-tuple (Fr E), gives (fun R s => ms1_commit_and_prove (R := R) sch q X Y crs s) p t).
Proof. exact: @k_C99_ms1. Qed.
Print Assumptions C99_ms1.

Example C99_ms1_case : exists p, ms1_verify fwd ms10 p crsh = Ok true /\
  (exists! t : (2 * size xs0 + (size ys0 + 2)).-tuple (Fr toy), gives (fun R s => ms1_commit_and_prove (E := toy) (R := R) bwd ms10 xs0 ys0 crsh s) p t).
Proof.
have [c [s' [e acc]]] := ms1_cap_complete fwd_valid fwd_valid toy_bilinear (q := ms10) (X := xs0) (Y := ys0) (6%N : rst ctr) isT isT ms10_wf crsh_two ms10_holds.
have [s1 [s2 [pf [e1 e2 e3 e4]]]] := proj1 (ms1_cap_steps _ _ _ _ _ _ _ _) e.
have [h1 [h2 h3]] := ms1_prove_sizes fwd_valid e3; have [sx _ _] := batch_made_G1 e1; have [sy _ _] := batch_made_B2 e2.
exists c; split=> //.
exact: ((C99_ms1 (E := toy) (X := xs0) (Y := ys0) toy_bilinear toy_nondegenerate toy_cyclic toy_cyclic bwd_valid fwd_valid crsh_hid crsh_prop isT isT ms10_wf ms10_holds sx sy e4 h1 h2 h3).1 (conj acc (mult_B2 crsh_hid e2))).
Qed.

Theorem C99_ms2 : forall (E : pairing) (sch sch' : sched) (q : MSMEG2 E) (X : seq (Fr E)) (Y : seq (G2 E)) (crs : CRS E) (p : CProof E) (pf : EquProof E),
  bilinear E -> nondegenerate E -> cyclic (G1 E) -> cyclic (G2 E) -> valid_sched sch -> valid_sched sch' -> hiding_crs crs -> proper_crs crs ->
  (0 < size X)%N -> (0 < size Y)%N -> ms2_wf q (size X) (size Y) -> ms2_holds q X Y ->
  size (coms (xcoms p)) = size X -> size (coms (ycoms p)) = size Y -> equ_proofs p = [:: pf] ->
  equ_type pf = MultiScalarG2 -> size (pi pf) = 1%N -> size (theta pf) = 2%N ->
  ([/\ ms2_verify sch' q p crs = Ok true & multiples (u1 crs) (coms (xcoms p))] <->
   exists! t : (size X + (2 * size Y + 2)).-tuple (Fr E), gives (fun R s => ms2_commit_and_prove (R := R) sch q X Y crs s) p t).
Proof. exact: @k_C99_ms2. Qed.
Print Assumptions C99_ms2.

Example C99_ms2_case : exists p, ms2_verify fwd ms20 p crsh = Ok true /\
  (exists! t : (size xs0 + (2 * size ys0 + 2)).-tuple (Fr toy), gives (fun R s => ms2_commit_and_prove (E := toy) (R := R) bwd ms20 xs0 ys0 crsh s) p t).
Proof.
have [c [s' [e acc]]] := ms2_cap_complete fwd_valid fwd_valid toy_bilinear (q := ms20) (X := xs0) (Y := ys0) (6%N : rst ctr) isT isT ms20_wf crsh_two ms20_holds.
have [s1 [s2 [pf [e1 e2 e3 e4]]]] := proj1 (ms2_cap_steps _ _ _ _ _ _ _ _) e.
have [h1 [h2 h3]] := ms2_prove_sizes fwd_valid e3; have [sx _ _] := batch_made_B1 e1; have [sy _ _] := batch_made_G2 e2.
exists c; split=> //.
exact: ((C99_ms2 (E := toy) (X := xs0) (Y := ys0) toy_bilinear toy_nondegenerate toy_cyclic toy_cyclic bwd_valid fwd_valid crsh_hid crsh_prop isT isT ms20_wf ms20_holds sx sy e4 h1 h2 h3).1 (conj acc (mult_B1 crsh_hid e1))).
Qed.

Theorem C99_quad : forall (E : pairing) (sch sch' : sched) (q : QuadEqu E) (X : seq (Fr E)) (Y : seq (Fr E)) (crs : CRS E) (p : CProof E) (pf : EquProof E),
  bilinear E -> nondegenerate E -> cyclic (G1 E) -> cyclic (G2 E) -> valid_sched sch -> valid_sched sch' -> hiding_crs crs -> proper_crs crs ->
  (0 < size X)%N -> (0 < size Y)%N -> quad_wf q (size X) (size Y) -> quad_holds q X Y ->
  size (coms (xcoms p)) = size X -> size (coms (ycoms p)) = size Y -> equ_proofs p = [:: pf] ->
  equ_type pf = Quadratic -> size (pi pf) = 1%N -> size (theta pf) = 1%N ->
  ([/\ quad_verify sch' q p crs = Ok true, multiples (u1 crs) (coms (xcoms p)) & multiples (v1 crs) (coms (ycoms p))] <->
   exists! t : (size X + (size Y + 1)).-tuple (Fr E), gives (fun R s => quad_commit_and_prove (R := R) sch q X Y crs s) p t).
Proof. exact: @k_C99_quad. Qed.
Print Assumptions C99_quad.

Example C99_quad_case : exists p, quad_verify fwd quad0 p crsh = Ok true /\
  (exists! t : (size xs0 + (size ys0 + 1)).-tuple (Fr toy), gives (fun R s => quad_commit_and_prove (E := toy) (R := R) bwd quad0 xs0 ys0 crsh s) p t).
Proof.
have [c [s' [e acc]]] := quad_cap_complete fwd_valid fwd_valid toy_bilinear (q := quad0) (X := xs0) (Y := ys0) (6%N : rst ctr) isT isT quad0_wf crsh_two quad0_holds.
have [s1 [s2 [pf [e1 e2 e3 e4]]]] := proj1 (quad_cap_steps _ _ _ _ _ _ _ _) e.
have [h1 [h2 h3]] := quad_prove_sizes fwd_valid e3; have [sx _ _] := batch_made_B1 e1; have [sy _ _] := batch_made_B2 e2.
exists c; split=> //.
exact: ((C99_quad (E := toy) (X := xs0) (Y := ys0) toy_bilinear toy_nondegenerate toy_cyclic toy_cyclic bwd_valid fwd_valid crsh_hid crsh_prop isT isT quad0_wf quad0_holds sx sy e4 h1 h2 h3).1 (And3 acc (mult_B1 crsh_hid e1) (mult_B2 crsh_hid e2))).
Qed.
