(** Properties C75, C76: what the trapdoors of the two kinds of keys are good for. *)
From mathcomp Require Import all_ssreflect all_algebra.
From Verif Require Import Base Group DataStructures Generator Commit Statement Prove Verify Spec SpecTrap Main TrapLemmas Concrete Concrete2 Concrete4.
Set Implicit Arguments.
Unset Strict Implicit.
Unset Printing Implicit Defensive.
Import GRing.Theory.
Local Open Scope ring_scope.

(** C75: the secret keys are the first two scalars that [generate_crs] draws. *)
Theorem C75_keys : forall (E : pairing) (R : rng E) (s s' : rst R) (crs : CRS E),
  generate_crs s = (crs, s') -> secret_keys crs (drawn_keys s).1 (drawn_keys s).2.
Proof. exact: @trap_C75_keys. Qed.
Print Assumptions C75_keys.

Example C75_keys_case : drawn_keys (0%N : rst ctr) = (n7 2, n7 3) /\ secret_keys crs0 (n7 2) (n7 3).
Proof. by split=> //; exact: (@C75_keys toy ctr 0%N 6%N crs0 crs0E). Qed.

(** C75: decryption gives back committed group elements... *)
Theorem C75_decrypt_G1 : forall (E : pairing) (R R' : rng E) (s s' : rst R) (crs : CRS E) (a1 a2 : Fr E) (z z' : rst R'),
  generate_crs s = (crs, s') -> secret_keys crs a1 a2 ->
  (forall x c, commit_G1 x crs z = Ok (c, z') -> map (decrypt a1) (coms c) = [:: x]) /\
  (forall X c, batch_commit_G1 X crs z = Ok (c, z') -> map (decrypt a1) (coms c) = X).
Proof. exact: @trap_C75_decrypt_G1. Qed.
Print Assumptions C75_decrypt_G1.

Example C75_decrypt_G1_case :
  if batch_commit_G1 (E := toy) xs0 crs0 (6%N : rst ctr) is Ok (c, _) then
    ((coms c : seq (F7 * F7)) != [seq (0, x) | x <- xs0]) && (([seq decrypt (E := toy) (G := G1 toy) (n7 2) c | c <- coms c] : seq F7) == xs0) else false.
Proof. by vm_compute. Qed.

Theorem C75_decrypt_G2 : forall (E : pairing) (R R' : rng E) (s s' : rst R) (crs : CRS E) (a1 a2 : Fr E) (z z' : rst R'),
  generate_crs s = (crs, s') -> secret_keys crs a1 a2 ->
  (forall x c, commit_G2 x crs z = Ok (c, z') -> map (decrypt a2) (coms c) = [:: x]) /\
  (forall X c, batch_commit_G2 X crs z = Ok (c, z') -> map (decrypt a2) (coms c) = X).
Proof. exact: @trap_C75_decrypt_G2. Qed.
Print Assumptions C75_decrypt_G2.

Example C75_decrypt_G2_case :
  if batch_commit_G2 (E := toy) ys0 crs0 (6%N : rst ctr) is Ok (c, _) then
    ((coms c : seq (F7 * F7)) != [seq (0, x) | x <- ys0]) && (([seq decrypt (E := toy) (G := G2 toy) (n7 3) c | c <- coms c] : seq F7) == ys0) else false.
Proof. by vm_compute. Qed.

(** ... and the generator times committed scalars. *)
Theorem C75_decrypt_B1 : forall (E : pairing) (R R' : rng E) (s s' : rst R) (crs : CRS E) (a1 a2 : Fr E) (z z' : rst R'),
  generate_crs s = (crs, s') -> secret_keys crs a1 a2 ->
  (forall x c, commit_scalar_to_B1 x crs z = Ok (c, z') -> map (decrypt a1) (coms c) = [seq x *: g1_gen crs | x <- [:: x]]) /\
  (forall X c, batch_commit_scalar_to_B1 X crs z = Ok (c, z') -> map (decrypt a1) (coms c) = [seq x *: g1_gen crs | x <- X]).
Proof. exact: @trap_C75_decrypt_B1. Qed.
Print Assumptions C75_decrypt_B1.

Example C75_decrypt_B1_case :
  if batch_commit_scalar_to_B1 (E := toy) xs0 crs0 (6%N : rst ctr) is Ok (c, _) then
    ((coms c : seq (F7 * F7)) != [seq (0, x) | x <- xs0]) && (([seq decrypt (E := toy) (G := G1 toy) (n7 2) c | c <- coms c] : seq F7) == [seq x * g1_gen crs0 | x <- xs0]) else false.
Proof. by vm_compute. Qed.

Theorem C75_decrypt_B2 : forall (E : pairing) (R R' : rng E) (s s' : rst R) (crs : CRS E) (a1 a2 : Fr E) (z z' : rst R'),
  generate_crs s = (crs, s') -> secret_keys crs a1 a2 ->
  (forall x c, commit_scalar_to_B2 x crs z = Ok (c, z') -> map (decrypt a2) (coms c) = [seq x *: g2_gen crs | x <- [:: x]]) /\
  (forall X c, batch_commit_scalar_to_B2 X crs z = Ok (c, z') -> map (decrypt a2) (coms c) = [seq x *: g2_gen crs | x <- X]).
Proof. exact: @trap_C75_decrypt_B2. Qed.
Print Assumptions C75_decrypt_B2.

Example C75_decrypt_B2_case :
  if batch_commit_scalar_to_B2 (E := toy) ys0 crs0 (6%N : rst ctr) is Ok (c, _) then
    ((coms c : seq (F7 * F7)) != [seq (0, x) | x <- ys0]) && (([seq decrypt (E := toy) (G := G2 toy) (n7 3) c | c <- coms c] : seq F7) == [seq x * g2_gen crs0 | x <- ys0]) else false.
Proof. by vm_compute. Qed.

(** C75: the decryptions of an accepted proof satisfy the equation, in the exponent if it has scalar variables. *)
Theorem C75_ppe : forall (E : pairing) (R : rng E) (sch : sched) (s s' : rst R) (crs : CRS E) (a1 a2 : Fr E) (q : PPE E) (p : CProof E),
  bilinear E -> valid_sched sch -> generate_crs s = (crs, s') -> secret_keys crs a1 a2 ->
  ppe_verify sch q p crs = Ok true ->
  ppe_holds q (map (decrypt a1) (coms (xcoms p))) (map (decrypt a2) (coms (ycoms p))).
Proof. exact: @trap_C75_ppe. Qed.
Print Assumptions C75_ppe.

Example C75_ppe_case :
  ppe_holds ppe0 (map (decrypt (E := toy) (n7 2)) (coms (xcoms ppe_p0))) (map (decrypt (E := toy) (n7 3)) (coms (ycoms ppe_p0))).
Proof. exact: (@C75_ppe toy ctr fwd 0%N 6%N crs0 (n7 2) (n7 3) ppe0 ppe_p0 toy_bilinear fwd_valid crs0E (proj2 C75_keys_case) ppe_p0_ok). Qed.

Theorem C75_ms1 : forall (E : pairing) (R : rng E) (sch : sched) (s s' : rst R) (crs : CRS E) (a1 a2 : Fr E) (q : MSMEG1 E) (p : CProof E),
  bilinear E -> valid_sched sch -> generate_crs s = (crs, s') -> secret_keys crs a1 a2 ->
  ms1_verify sch q p crs = Ok true ->
  ppe_holds (ms1_lifted q crs) (map (decrypt a1) (coms (xcoms p))) (map (decrypt a2) (coms (ycoms p))).
Proof. exact: @trap_C75_ms1. Qed.
Print Assumptions C75_ms1.

Example C75_ms1_case :
  ppe_holds (ms1_lifted ms10 crs0) (map (decrypt (E := toy) (n7 2)) (coms (xcoms ms1_p0))) (map (decrypt (E := toy) (n7 3)) (coms (ycoms ms1_p0))).
Proof. exact: (@C75_ms1 toy ctr fwd 0%N 6%N crs0 (n7 2) (n7 3) ms10 ms1_p0 toy_bilinear fwd_valid crs0E (proj2 C75_keys_case) ms1_p0_ok). Qed.

Theorem C75_ms2 : forall (E : pairing) (R : rng E) (sch : sched) (s s' : rst R) (crs : CRS E) (a1 a2 : Fr E) (q : MSMEG2 E) (p : CProof E),
  bilinear E -> valid_sched sch -> generate_crs s = (crs, s') -> secret_keys crs a1 a2 ->
  ms2_verify sch q p crs = Ok true ->
  ppe_holds (ms2_lifted q crs) (map (decrypt a1) (coms (xcoms p))) (map (decrypt a2) (coms (ycoms p))).
Proof. exact: @trap_C75_ms2. Qed.
Print Assumptions C75_ms2.

Example C75_ms2_case :
  ppe_holds (ms2_lifted ms20 crs0) (map (decrypt (E := toy) (n7 2)) (coms (xcoms ms2_p0))) (map (decrypt (E := toy) (n7 3)) (coms (ycoms ms2_p0))).
Proof. exact: (@C75_ms2 toy ctr fwd 0%N 6%N crs0 (n7 2) (n7 3) ms20 ms2_p0 toy_bilinear fwd_valid crs0E (proj2 C75_keys_case) ms2_p0_ok). Qed.

Theorem C75_quad : forall (E : pairing) (R : rng E) (sch : sched) (s s' : rst R) (crs : CRS E) (a1 a2 : Fr E) (q : QuadEqu E) (p : CProof E),
  bilinear E -> valid_sched sch -> generate_crs s = (crs, s') -> secret_keys crs a1 a2 ->
  quad_verify sch q p crs = Ok true ->
  ppe_holds (quad_lifted q crs) (map (decrypt a1) (coms (xcoms p))) (map (decrypt a2) (coms (ycoms p))).
Proof. exact: @trap_C75_quad. Qed.
Print Assumptions C75_quad.

Example C75_quad_case :
  ppe_holds (quad_lifted quad0 crs0) (map (decrypt (E := toy) (n7 2)) (coms (xcoms quad_p0))) (map (decrypt (E := toy) (n7 3)) (coms (ycoms quad_p0))).
Proof. exact: (@C75_quad toy ctr fwd 0%N 6%N crs0 (n7 2) (n7 3) quad0 quad_p0 toy_bilinear fwd_valid crs0E (proj2 C75_keys_case) quad_p0_ok). Qed.

(** C76: under a hiding key, other randomness opens a commitment to any other multiple of the generator, or scalar: the commit functions return the same commitment. *)
Theorem C76_G1 : forall (E : pairing) (R : rng E) (crs : CRS E) (a1 a2 t1 t2 : Fr E) (s s' : rst R),
  hiding_crs_with crs a1 a2 t1 t2 ->
  (forall k k' c, commit_G1 (k *: g1_gen crs) crs s = Ok (c, s') -> let r := reopen_points t1 [:: k] [:: k'] (crand c) in
     commit_G1 (R := list_rng) (k' *: g1_gen crs) crs (flatten r) = Ok (mkCommit (coms c) r, [::])) /\
  (forall K K' c, size K' = size K -> batch_commit_G1 [seq k *: g1_gen crs | k <- K] crs s = Ok (c, s') -> let r := reopen_points t1 K K' (crand c) in
     batch_commit_G1 (R := list_rng) [seq k *: g1_gen crs | k <- K'] crs (flatten r) = Ok (mkCommit (coms c) r, [::])).
Proof. exact: @trap_C76_G1. Qed.
Print Assumptions C76_G1.

Example C76_G1_case :
  if batch_commit_G1 (E := toy) [seq k * g1_gen crsh | k <- xs0] crsh (6%N : rst ctr) is Ok (c, _) then
    let r := reopen_points (E := toy) (n7 4) xs0 [:: n7 0; n7 1] (crand c) in
    if batch_commit_G1 (E := toy) (R := list_rng (E := toy)) [seq k * g1_gen crsh | k <- [:: n7 0; n7 1]] crsh (flatten r) is Ok (c', _) then
      ((coms c' : seq (F7 * F7)) == coms c) && ((crand c' : seq (seq F7)) != crand c) else false else false.
Proof. by vm_compute. Qed.

Theorem C76_G2 : forall (E : pairing) (R : rng E) (crs : CRS E) (a1 a2 t1 t2 : Fr E) (s s' : rst R),
  hiding_crs_with crs a1 a2 t1 t2 ->
  (forall k k' c, commit_G2 (k *: g2_gen crs) crs s = Ok (c, s') -> let r := reopen_points t2 [:: k] [:: k'] (crand c) in
     commit_G2 (R := list_rng) (k' *: g2_gen crs) crs (flatten r) = Ok (mkCommit (coms c) r, [::])) /\
  (forall K K' c, size K' = size K -> batch_commit_G2 [seq k *: g2_gen crs | k <- K] crs s = Ok (c, s') -> let r := reopen_points t2 K K' (crand c) in
     batch_commit_G2 (R := list_rng) [seq k *: g2_gen crs | k <- K'] crs (flatten r) = Ok (mkCommit (coms c) r, [::])).
Proof. exact: @trap_C76_G2. Qed.
Print Assumptions C76_G2.

Example C76_G2_case :
  if batch_commit_G2 (E := toy) [seq k * g2_gen crsh | k <- xs0] crsh (6%N : rst ctr) is Ok (c, _) then
    let r := reopen_points (E := toy) (n7 5) xs0 [:: n7 0; n7 1] (crand c) in
    if batch_commit_G2 (E := toy) (R := list_rng (E := toy)) [seq k * g2_gen crsh | k <- [:: n7 0; n7 1]] crsh (flatten r) is Ok (c', _) then
      ((coms c' : seq (F7 * F7)) == coms c) && ((crand c' : seq (seq F7)) != crand c) else false else false.
Proof. by vm_compute. Qed.

Theorem C76_B1 : forall (E : pairing) (R : rng E) (crs : CRS E) (a1 a2 t1 t2 : Fr E) (s s' : rst R),
  hiding_crs_with crs a1 a2 t1 t2 ->
  (forall k k' c, commit_scalar_to_B1 k crs s = Ok (c, s') -> let r := reopen_scalars t1 [:: k] [:: k'] (crand c) in
     commit_scalar_to_B1 (R := list_rng) k' crs (flatten r) = Ok (mkCommit (coms c) r, [::])) /\
  (forall K K' c, size K' = size K -> batch_commit_scalar_to_B1 K crs s = Ok (c, s') -> let r := reopen_scalars t1 K K' (crand c) in
     batch_commit_scalar_to_B1 (R := list_rng) K' crs (flatten r) = Ok (mkCommit (coms c) r, [::])).
Proof. exact: @trap_C76_B1. Qed.
Print Assumptions C76_B1.

Example C76_B1_case :
  if batch_commit_scalar_to_B1 (E := toy) xs0 crsh (6%N : rst ctr) is Ok (c, _) then
    let r := reopen_scalars (E := toy) (n7 4) xs0 [:: n7 0; n7 1] (crand c) in
    if batch_commit_scalar_to_B1 (E := toy) (R := list_rng (E := toy)) [:: n7 0; n7 1] crsh (flatten r) is Ok (c', _) then
      ((coms c' : seq (F7 * F7)) == coms c) && ((crand c' : seq (seq F7)) != crand c) else false else false.
Proof. by vm_compute. Qed.

Theorem C76_B2 : forall (E : pairing) (R : rng E) (crs : CRS E) (a1 a2 t1 t2 : Fr E) (s s' : rst R),
  hiding_crs_with crs a1 a2 t1 t2 ->
  (forall k k' c, commit_scalar_to_B2 k crs s = Ok (c, s') -> let r := reopen_scalars t2 [:: k] [:: k'] (crand c) in
     commit_scalar_to_B2 (R := list_rng) k' crs (flatten r) = Ok (mkCommit (coms c) r, [::])) /\
  (forall K K' c, size K' = size K -> batch_commit_scalar_to_B2 K crs s = Ok (c, s') -> let r := reopen_scalars t2 K K' (crand c) in
     batch_commit_scalar_to_B2 (R := list_rng) K' crs (flatten r) = Ok (mkCommit (coms c) r, [::])).
Proof. exact: @trap_C76_B2. Qed.
Print Assumptions C76_B2.

Example C76_B2_case :
  if batch_commit_scalar_to_B2 (E := toy) xs0 crsh (6%N : rst ctr) is Ok (c, _) then
    let r := reopen_scalars (E := toy) (n7 5) xs0 [:: n7 0; n7 1] (crand c) in
    if batch_commit_scalar_to_B2 (E := toy) (R := list_rng (E := toy)) [:: n7 0; n7 1] crsh (flatten r) is Ok (c', _) then
      ((coms c' : seq (F7 * F7)) == coms c) && ((crand c' : seq (seq F7)) != crand c) else false else false.
Proof. by vm_compute. Qed.

(** C76: with the reopened commitments a proof of any equation that the new values satisfy is made, and accepted for the old commitments. *)
Theorem C76_ppe : forall (E : pairing) (R R1 R2 : rng E) (sch sch' : sched) (crs : CRS E) (a1 a2 t1 t2 : Fr E) (s : rst R) (s1 s1' : rst R1) (s2 s2' : rst R2)
  (q : PPE E) (K K' L L' : seq (Fr E)) cx cy,
  bilinear E -> valid_sched sch -> valid_sched sch' -> hiding_crs_with crs a1 a2 t1 t2 ->
  batch_commit_G1 [seq k *: g1_gen crs | k <- K] crs s1 = Ok (cx, s1') -> batch_commit_G2 [seq k *: g2_gen crs | k <- L] crs s2 = Ok (cy, s2') ->
  size K' = size K -> size L' = size L -> ppe_wf q (size K) (size L) -> ppe_holds q [seq k *: g1_gen crs | k <- K'] [seq k *: g2_gen crs | k <- L'] ->
  exists pf s', ppe_prove sch q [seq k *: g1_gen crs | k <- K'] [seq k *: g2_gen crs | k <- L'] (mkCommit (coms cx) (reopen_points t1 K K' (crand cx))) (mkCommit (coms cy) (reopen_points t2 L L' (crand cy))) crs s = Ok (pf, s') /\
    ppe_verify sch' q (mkCProof cx cy [:: pf]) crs = Ok true.
Proof. exact: @trap_C76_ppe. Qed.
Print Assumptions C76_ppe.

Example C76_ppe_case : exists cx cy s1 s2 pf, batch_commit_G1 (E := toy) [seq k * g1_gen crsh | k <- [:: n7 0; n7 0]] crsh (6%N : rst ctr) = Ok (cx, s1) /\
  batch_commit_G2 (E := toy) [seq k * g2_gen crsh | k <- [:: n7 0]] crsh (6%N : rst ctr) = Ok (cy, s2) /\
  ~ ppe_holds ppe0 [seq k * g1_gen crsh | k <- [:: n7 0; n7 0]] [seq k * g2_gen crsh | k <- [:: n7 0]] /\ ppe_verify fwd ppe0 (mkCProof cx cy [:: pf]) crsh = Ok true.
Proof.
have [cx [s1 hx]] : exists cx s1, batch_commit_G1 (E := toy) [seq k * g1_gen crsh | k <- [:: n7 0; n7 0]] crsh (6%N : rst ctr) = Ok (cx, s1) by do 2 eexists.
have [cy [s2 hy]] : exists cy s2, batch_commit_G2 (E := toy) [seq k * g2_gen crsh | k <- [:: n7 0]] crsh (6%N : rst ctr) = Ok (cy, s2) by do 2 eexists.
have o : ppe_holds ppe0 [seq k * g1_gen crsh | k <- ([seq x / g1_gen crsh | x <- xs0])] [seq k * g2_gen crsh | k <- ([seq y / g2_gen crsh | y <- ys0])] by rewrite /ppe_holds /= !big_ord_recl !big_ord0; apply/eqP; vm_compute.
have o' : ~ ppe_holds ppe0 [seq k * g1_gen crsh | k <- [:: n7 0; n7 0]] [seq k * g2_gen crsh | k <- [:: n7 0]] by rewrite /ppe_holds /= !big_ord_recl !big_ord0 => /eqP; vm_compute.
have [pf [s' [_ h]]] := @C76_ppe toy ctr ctr ctr bwd fwd crsh (n7 2) (n7 3) (n7 4) (n7 5) 6%N 6%N s1 6%N s2 ppe0 [:: n7 0; n7 0] ([seq x / g1_gen crsh | x <- xs0]) [:: n7 0] ([seq y / g2_gen crsh | y <- ys0]) cx cy
  toy_bilinear bwd_valid fwd_valid crsh_hiding hx hy erefl erefl ppe0_wf o.
by exists cx, cy, s1, s2, pf.
Qed.

Theorem C76_ms1 : forall (E : pairing) (R R1 R2 : rng E) (sch sch' : sched) (crs : CRS E) (a1 a2 t1 t2 : Fr E) (s : rst R) (s1 s1' : rst R1) (s2 s2' : rst R2)
  (q : MSMEG1 E) (K K' L L' : seq (Fr E)) cx cy,
  bilinear E -> valid_sched sch -> valid_sched sch' -> hiding_crs_with crs a1 a2 t1 t2 ->
  batch_commit_G1 [seq k *: g1_gen crs | k <- K] crs s1 = Ok (cx, s1') -> batch_commit_scalar_to_B2 L crs s2 = Ok (cy, s2') ->
  size K' = size K -> size L' = size L -> ms1_wf q (size K) (size L) -> ms1_holds q [seq k *: g1_gen crs | k <- K'] L' ->
  exists pf s', ms1_prove sch q [seq k *: g1_gen crs | k <- K'] L' (mkCommit (coms cx) (reopen_points t1 K K' (crand cx))) (mkCommit (coms cy) (reopen_scalars t2 L L' (crand cy))) crs s = Ok (pf, s') /\
    ms1_verify sch' q (mkCProof cx cy [:: pf]) crs = Ok true.
Proof. exact: @trap_C76_ms1. Qed.
Print Assumptions C76_ms1.

Example C76_ms1_case : exists cx cy s1 s2 pf, batch_commit_G1 (E := toy) [seq k * g1_gen crsh | k <- [:: n7 0; n7 0]] crsh (6%N : rst ctr) = Ok (cx, s1) /\
  batch_commit_scalar_to_B2 (E := toy) [:: n7 0] crsh (6%N : rst ctr) = Ok (cy, s2) /\
  ~ ms1_holds ms10 [seq k * g1_gen crsh | k <- [:: n7 0; n7 0]] [:: n7 0] /\ ms1_verify fwd ms10 (mkCProof cx cy [:: pf]) crsh = Ok true.
Proof.
have [cx [s1 hx]] : exists cx s1, batch_commit_G1 (E := toy) [seq k * g1_gen crsh | k <- [:: n7 0; n7 0]] crsh (6%N : rst ctr) = Ok (cx, s1) by do 2 eexists.
have [cy [s2 hy]] : exists cy s2, batch_commit_scalar_to_B2 (E := toy) [:: n7 0] crsh (6%N : rst ctr) = Ok (cy, s2) by do 2 eexists.
have o : ms1_holds ms10 [seq k * g1_gen crsh | k <- ([seq x / g1_gen crsh | x <- xs0])] ys0 by rewrite /ms1_holds /= !big_ord_recl !big_ord0; apply/eqP; vm_compute.
have o' : ~ ms1_holds ms10 [seq k * g1_gen crsh | k <- [:: n7 0; n7 0]] [:: n7 0] by rewrite /ms1_holds /= !big_ord_recl !big_ord0 => /eqP; vm_compute.
have [pf [s' [_ h]]] := @C76_ms1 toy ctr ctr ctr bwd fwd crsh (n7 2) (n7 3) (n7 4) (n7 5) 6%N 6%N s1 6%N s2 ms10 [:: n7 0; n7 0] ([seq x / g1_gen crsh | x <- xs0]) [:: n7 0] (ys0) cx cy
  toy_bilinear bwd_valid fwd_valid crsh_hiding hx hy erefl erefl ms10_wf o.
by exists cx, cy, s1, s2, pf.
Qed.

Theorem C76_ms2 : forall (E : pairing) (R R1 R2 : rng E) (sch sch' : sched) (crs : CRS E) (a1 a2 t1 t2 : Fr E) (s : rst R) (s1 s1' : rst R1) (s2 s2' : rst R2)
  (q : MSMEG2 E) (K K' L L' : seq (Fr E)) cx cy,
  bilinear E -> valid_sched sch -> valid_sched sch' -> hiding_crs_with crs a1 a2 t1 t2 ->
  batch_commit_scalar_to_B1 K crs s1 = Ok (cx, s1') -> batch_commit_G2 [seq k *: g2_gen crs | k <- L] crs s2 = Ok (cy, s2') ->
  size K' = size K -> size L' = size L -> ms2_wf q (size K) (size L) -> ms2_holds q K' [seq k *: g2_gen crs | k <- L'] ->
  exists pf s', ms2_prove sch q K' [seq k *: g2_gen crs | k <- L'] (mkCommit (coms cx) (reopen_scalars t1 K K' (crand cx))) (mkCommit (coms cy) (reopen_points t2 L L' (crand cy))) crs s = Ok (pf, s') /\
    ms2_verify sch' q (mkCProof cx cy [:: pf]) crs = Ok true.
Proof. exact: @trap_C76_ms2. Qed.
Print Assumptions C76_ms2.

Example C76_ms2_case : exists cx cy s1 s2 pf, batch_commit_scalar_to_B1 (E := toy) [:: n7 0; n7 0] crsh (6%N : rst ctr) = Ok (cx, s1) /\
  batch_commit_G2 (E := toy) [seq k * g2_gen crsh | k <- [:: n7 0]] crsh (6%N : rst ctr) = Ok (cy, s2) /\
  ~ ms2_holds ms20 [:: n7 0; n7 0] [seq k * g2_gen crsh | k <- [:: n7 0]] /\ ms2_verify fwd ms20 (mkCProof cx cy [:: pf]) crsh = Ok true.
Proof.
have [cx [s1 hx]] : exists cx s1, batch_commit_scalar_to_B1 (E := toy) [:: n7 0; n7 0] crsh (6%N : rst ctr) = Ok (cx, s1) by do 2 eexists.
have [cy [s2 hy]] : exists cy s2, batch_commit_G2 (E := toy) [seq k * g2_gen crsh | k <- [:: n7 0]] crsh (6%N : rst ctr) = Ok (cy, s2) by do 2 eexists.
have o : ms2_holds ms20 xs0 [seq k * g2_gen crsh | k <- ([seq y / g2_gen crsh | y <- ys0])] by rewrite /ms2_holds /= !big_ord_recl !big_ord0; apply/eqP; vm_compute.
have o' : ~ ms2_holds ms20 [:: n7 0; n7 0] [seq k * g2_gen crsh | k <- [:: n7 0]] by rewrite /ms2_holds /= !big_ord_recl !big_ord0 => /eqP; vm_compute.
have [pf [s' [_ h]]] := @C76_ms2 toy ctr ctr ctr bwd fwd crsh (n7 2) (n7 3) (n7 4) (n7 5) 6%N 6%N s1 6%N s2 ms20 [:: n7 0; n7 0] (xs0) [:: n7 0] ([seq y / g2_gen crsh | y <- ys0]) cx cy
  toy_bilinear bwd_valid fwd_valid crsh_hiding hx hy erefl erefl ms20_wf o.
by exists cx, cy, s1, s2, pf.
Qed.

Theorem C76_quad : forall (E : pairing) (R R1 R2 : rng E) (sch sch' : sched) (crs : CRS E) (a1 a2 t1 t2 : Fr E) (s : rst R) (s1 s1' : rst R1) (s2 s2' : rst R2)
  (q : QuadEqu E) (K K' L L' : seq (Fr E)) cx cy,
  bilinear E -> valid_sched sch -> valid_sched sch' -> hiding_crs_with crs a1 a2 t1 t2 ->
  batch_commit_scalar_to_B1 K crs s1 = Ok (cx, s1') -> batch_commit_scalar_to_B2 L crs s2 = Ok (cy, s2') ->
  size K' = size K -> size L' = size L -> quad_wf q (size K) (size L) -> quad_holds q K' L' ->
  exists pf s', quad_prove sch q K' L' (mkCommit (coms cx) (reopen_scalars t1 K K' (crand cx))) (mkCommit (coms cy) (reopen_scalars t2 L L' (crand cy))) crs s = Ok (pf, s') /\
    quad_verify sch' q (mkCProof cx cy [:: pf]) crs = Ok true.
Proof. exact: @trap_C76_quad. Qed.
Print Assumptions C76_quad.

(** The same two commitments, with accepted proofs that their values have the
    product 1, and that they have the product 2. *)
Example C76_quad_case : let q t := mkQuadEqu (E := toy) [:: n7 0] [:: n7 0] [:: [:: n7 1]] t in
  exists cx cy pf pf', quad_verify fwd (q (n7 1)) (mkCProof cx cy [:: pf]) crsh = Ok true /\
    quad_verify fwd (q (n7 2)) (mkCProof cx cy [:: pf']) crsh = Ok true.
Proof.
move=> q.
have [cx [s1 hx]] : exists cx s1, batch_commit_scalar_to_B1 (E := toy) [:: n7 1] crsh (6%N : rst ctr) = Ok (cx, s1) by do 2 eexists.
have [cy [s2 hy]] : exists cy s2, batch_commit_scalar_to_B2 (E := toy) [:: n7 1] crsh (6%N : rst ctr) = Ok (cy, s2) by do 2 eexists.
have w t : quad_wf (q t) 1 1 by split=> //; split=> // -[|[|]].
have o1 : quad_holds (q (n7 1)) [:: n7 1] [:: n7 1] by rewrite /quad_holds /= !big_ord_recl !big_ord0; apply/eqP; vm_compute.
have o2 : quad_holds (q (n7 2)) [:: n7 1] [:: n7 2] by rewrite /quad_holds /= !big_ord_recl !big_ord0; apply/eqP; vm_compute.
have [pf [s' [_ h1]]] := @C76_quad toy ctr ctr ctr bwd fwd crsh (n7 2) (n7 3) (n7 4) (n7 5) 6%N 6%N s1 6%N s2 (q (n7 1)) [:: n7 1] [:: n7 1] [:: n7 1] [:: n7 1] cx cy
  toy_bilinear bwd_valid fwd_valid crsh_hiding hx hy erefl erefl (w _) o1.
have [pf' [s'' [_ h2]]] := @C76_quad toy ctr ctr ctr bwd fwd crsh (n7 2) (n7 3) (n7 4) (n7 5) 6%N 6%N s1 6%N s2 (q (n7 2)) [:: n7 1] [:: n7 1] [:: n7 1] [:: n7 2] cx cy
  toy_bilinear bwd_valid fwd_valid crsh_hiding hx hy erefl erefl (w _) o2.
by exists cx, cy, pf, pf'.
Qed.

