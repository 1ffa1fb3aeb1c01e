(** Property C77: the two groups must have no map between them. *)
From mathcomp Require Import all_ssreflect all_algebra.
From Verif Require Import Base Group DataStructures Generator Commit Statement Prove Spec SpecVerify SpecHide SpecSxdh SpecType3 Type3Lemmas Concrete Concrete4 Concrete5 Concrete11.
Set Implicit Arguments.
Unset Strict Implicit.
Unset Printing Implicit Defensive.
Import Order.Theory GRing.Theory Num.Theory.
Local Open Scope ring_scope.

(** C77: with a map from G1 to G2, anyone tells what a commitment to elements of G1 contains... *)
Theorem C77_opens_G1 : forall (E : pairing) (R R' : rng E) (s s' : rst R) (z z' : rst R') (crs : CRS E) (phi : G1 E -> G2 E) (X X' : seq (G1 E)) c,
  bilinear E -> nondegenerate E -> embedding phi -> generate_crs s = (crs, s') -> g1_gen crs != 0 ->
  batch_commit_G1 X crs z = Ok (c, z') -> opens1 phi crs (coms c) X' = (X == X').
Proof. exact: @t3_C77_opens_G1. Qed.
Print Assumptions C77_opens_G1.

Example C77_opens_G1_case :
  if batch_commit_G1 (E := toy) xs0 crs0 (6%N : rst ctr) is Ok (c, _) then
    opens1 (E := toy) (fun x => x) crs0 (coms c) xs0 && ~~ opens1 (E := toy) (fun x => x) crs0 (coms c) xs1 else false.
Proof. by vm_compute. Qed.

Theorem C77_opens_G2 : forall (E : pairing) (R R' : rng E) (s s' : rst R) (z z' : rst R') (crs : CRS E) (psi : G2 E -> G1 E) (X X' : seq (G2 E)) c,
  bilinear E -> nondegenerate E -> embedding psi -> generate_crs s = (crs, s') -> g2_gen crs != 0 ->
  batch_commit_G2 X crs z = Ok (c, z') -> opens2 psi crs (coms c) X' = (X == X').
Proof. exact: @t3_C77_opens_G2. Qed.
Print Assumptions C77_opens_G2.

Example C77_opens_G2_case :
  if batch_commit_G2 (E := toy) xs0 crs0 (6%N : rst ctr) is Ok (c, _) then
    opens2 (E := toy) (fun x => x) crs0 (coms c) xs0 && ~~ opens2 (E := toy) (fun x => x) crs0 (coms c) xs1 else false.
Proof. by vm_compute. Qed.

(** ... and what a commitment to scalars contains. *)
Theorem C77_opens_B1 : forall (E : pairing) (R R' : rng E) (s s' : rst R) (z z' : rst R') (crs : CRS E) (phi : G1 E -> G2 E) (X X' : seq (Fr E)) c,
  bilinear E -> nondegenerate E -> embedding phi -> generate_crs s = (crs, s') -> g1_gen crs != 0 ->
  batch_commit_scalar_to_B1 X crs z = Ok (c, z') -> opens1 phi crs (coms c) [seq x *: g1_gen crs | x <- X'] = (X == X').
Proof. exact: @t3_C77_opens_B1. Qed.
Print Assumptions C77_opens_B1.

Example C77_opens_B1_case :
  if batch_commit_scalar_to_B1 (E := toy) xs0 crs0 (6%N : rst ctr) is Ok (c, _) then
    opens1 (E := toy) (fun x => x) crs0 (coms c) [seq x * g1_gen crs0 | x <- xs0] && ~~ opens1 (E := toy) (fun x => x) crs0 (coms c) [seq x * g1_gen crs0 | x <- xs1] else false.
Proof. by vm_compute. Qed.

Theorem C77_opens_B2 : forall (E : pairing) (R R' : rng E) (s s' : rst R) (z z' : rst R') (crs : CRS E) (psi : G2 E -> G1 E) (X X' : seq (Fr E)) c,
  bilinear E -> nondegenerate E -> embedding psi -> generate_crs s = (crs, s') -> g2_gen crs != 0 ->
  batch_commit_scalar_to_B2 X crs z = Ok (c, z') -> opens2 psi crs (coms c) [seq x *: g2_gen crs | x <- X'] = (X == X').
Proof. exact: @t3_C77_opens_B2. Qed.
Print Assumptions C77_opens_B2.

Example C77_opens_B2_case :
  if batch_commit_scalar_to_B2 (E := toy) xs0 crs0 (6%N : rst ctr) is Ok (c, _) then
    opens2 (E := toy) (fun x => x) crs0 (coms c) [seq x * g2_gen crs0 | x <- xs0] && ~~ opens2 (E := toy) (fun x => x) crs0 (coms c) [seq x * g2_gen crs0 | x <- xs1] else false.
Proof. by vm_compute. Qed.

(** C77: the test of the second key tells the keys of [generate_crs] from hiding keys. *)
Theorem C77_keys_1 : forall (F : finFieldType) (A B C : lmodType F) (e : A -> B -> C), let E := Pairing e in
  forall (O1 O2 : finType) (s1 : O1 -> A) (s2 : O2 -> B) (phi : A -> B),
  bilinear E -> nondegenerate E -> embedding phi -> (0 < #|O1|)%N -> (0 < #|O2|)%N ->
  key_adv s1 s2 (fun (_ : unit) crs => key_test1 (E := E) phi crs) = 1 - Pr (fun o => s1 o == 0).
Proof. exact: @t3_C77_keys_1. Qed.
Print Assumptions C77_keys_1.

Example C77_keys_1_case : let s := fun o : F7f => o : F7o in
  key_adv (e := toy_e) s s (fun (_ : unit) crs => key_test1 (E := toy) (fun x => x) crs) = 6%:R / 7%:R.
Proof.
have n : (0 < #|F7f|)%N by rewrite card_F7.
move=> s; rewrite (C77_keys_1 (e := toy_e) s s toy_bilinear toy_nondegenerate toy_id n n) toy_zero; exact/eqP.
Qed.

Theorem C77_keys_2 : forall (F : finFieldType) (A B C : lmodType F) (e : A -> B -> C), let E := Pairing e in
  forall (O1 O2 : finType) (s1 : O1 -> A) (s2 : O2 -> B) (psi : B -> A),
  bilinear E -> nondegenerate E -> embedding psi -> (0 < #|O1|)%N -> (0 < #|O2|)%N ->
  key_adv s1 s2 (fun (_ : unit) crs => key_test2 (E := E) psi crs) = 1 - Pr (fun o => s2 o == 0).
Proof. exact: @t3_C77_keys_2. Qed.
Print Assumptions C77_keys_2.

Example C77_keys_2_case : let s := fun o : F7f => o : F7o in
  key_adv (e := toy_e) s s (fun (_ : unit) crs => key_test2 (E := toy) (fun x => x) crs) = 6%:R / 7%:R.
Proof.
have n : (0 < #|F7f|)%N by rewrite card_F7.
move=> s; rewrite (C77_keys_2 (e := toy_e) s s toy_bilinear toy_nondegenerate toy_id n n) toy_zero; exact/eqP.
Qed.

(** C77: the decisional Diffie-Hellman problem is solved. *)
Theorem C77_ddh_1 : forall (F : finFieldType) (A B C : lmodType F) (e : A -> B -> C) (O : finType) (s : O -> A) (phi : A -> B),
  bilinear (Pairing e) -> nondegenerate (Pairing e) -> embedding phi -> (0 < #|O|)%N ->
  ddh_adv s (fun (_ : unit) P Q T Z => e T (phi Q) == e Z (phi P)) = (1 - Pr (fun o => s o == 0)) * (1 - (#|F|)%:R^-1).
Proof. exact: @t3_C77_ddh_1. Qed.
Print Assumptions C77_ddh_1.

Example C77_ddh_1_case : ddh_adv (fun o : F7f => o : F7o) (fun (_ : unit) P Q T Z => toy_e T Q == toy_e Z P) = 36%:R / 49%:R.
Proof.
have n : (0 < #|F7f|)%N by rewrite card_F7.
rewrite (C77_ddh_1 (fun o : F7f => o : F7o) toy_bilinear toy_nondegenerate toy_id n) toy_zero card_F7; exact/eqP.
Qed.

Theorem C77_ddh_2 : forall (F : finFieldType) (A B C : lmodType F) (e : A -> B -> C) (O : finType) (s : O -> B) (psi : B -> A),
  bilinear (Pairing e) -> nondegenerate (Pairing e) -> embedding psi -> (0 < #|O|)%N ->
  ddh_adv s (fun (_ : unit) P Q T Z => e (psi Q) T == e (psi P) Z) = (1 - Pr (fun o => s o == 0)) * (1 - (#|F|)%:R^-1).
Proof. exact: @t3_C77_ddh_2. Qed.
Print Assumptions C77_ddh_2.

Example C77_ddh_2_case : ddh_adv (fun o : F7f => o : F7o) (fun (_ : unit) P Q T Z => toy_e Q T == toy_e P Z) = 36%:R / 49%:R.
Proof.
have n : (0 < #|F7f|)%N by rewrite card_F7.
rewrite (C77_ddh_2 (fun o : F7f => o : F7o) toy_bilinear toy_nondegenerate toy_id n) toy_zero card_F7; exact/eqP.
Qed.

(** C77: published proofs made from different values are told apart. *)
Theorem C77_ppe_X : forall (F : finFieldType) (A B C : lmodType F) (e : A -> B -> C), let E := Pairing e in
  forall (O1 O2 W : finType) (s1 : O1 -> A) (s2 : O2 -> B) (phi : A -> B) (sch sch' : sched) (m n : nat)
  (q : W -> CRS E -> PPE E) (X X' : W -> CRS E -> seq A) (Y Y' : W -> CRS E -> seq B),
  bilinear E -> nondegenerate E -> embedding phi -> valid_sched sch -> valid_sched sch' -> (0 < #|O1|)%N -> (0 < #|O2|)%N -> (0 < #|W|)%N ->
  (0 < m)%N -> (0 < n)%N ->
  (forall w crs, [/\ size (X w crs) = m, size (Y w crs) = n, size (X' w crs) = m & size (Y' w crs) = n]) ->
  (forall w crs, ppe_wf (q w crs) m n) -> (forall w crs, X w crs <> X' w crs) ->
  let D w crs r := if r is Ok v then opens1 (E := E) phi crs v.1.1 (X w crs) else false in
  let B1 := proof_test (N := (2 * m + (2 * n + 4))%N) D public (fun w crs R s => ppe_commit_and_prove (R := R) sch (q w crs) (X w crs) (Y w crs) crs s) in
  let B2 := proof_test (N := (2 * m + (2 * n + 4))%N) D public (fun w crs R s => ppe_commit_and_prove (R := R) sch' (q w crs) (X' w crs) (Y' w crs) crs s) in
  `|game s1 s2 real_crs B1 - game s1 s2 real_crs B2| = 1 - Pr (fun o => s1 o == 0).
Proof. exact: @t3_C77_ppe_X. Qed.
Print Assumptions C77_ppe_X.

Example C77_ppe_X_case : ppe_holds ppe0 xs0 ys0 /\ ppe_holds ppe0 xs1 ys1 /\ let s := fun o : F7f => o : F7o in
  let D (_ : unit) (crs : CRS toy) r := if r is Ok v then opens1 (E := toy) (fun x => x) crs v.1.1 xs0 else false in
  let B1 := proof_test (N := (2 * 2 + (2 * 1 + 4))%N) D public (fun w crs R s => ppe_commit_and_prove (E := toy) (R := R) fwd ppe0 xs0 ys0 crs s) in
  let B2 := proof_test (N := (2 * 2 + (2 * 1 + 4))%N) D public (fun w crs R s => ppe_commit_and_prove (E := toy) (R := R) bwd ppe0 xs1 ys1 crs s) in
  `|game (F := F7f) (e := toy_e) s s real_crs B1 - game s s real_crs B2| = 6%:R / 7%:R.
Proof.
have n : (0 < #|F7f|)%N by rewrite card_F7.
have nu : (0 < #|unit_finType|)%N by rewrite card_unit.
split; first exact: ppe0_holds.
split; first exact: ppe0_holds1.
move=> s; have -> : 6%:R / 7%:R = 1 - Pr (fun o => s o == 0) by rewrite toy_zero; exact/eqP.
by apply: (C77_ppe_X (F := F7f) (e := toy_e) (W := unit_finType) (q := fun _ _ => ppe0) (X := fun _ _ => xs0) (X' := fun _ _ => xs1) (Y := fun _ _ => ys0) (Y' := fun _ _ => ys1) (m := 2) (n := 1)
  s s toy_bilinear toy_nondegenerate toy_id fwd_valid bwd_valid n n nu isT isT _ (fun _ _ => ppe0_wf)).
Qed.

Theorem C77_ppe_Y : forall (F : finFieldType) (A B C : lmodType F) (e : A -> B -> C), let E := Pairing e in
  forall (O1 O2 W : finType) (s1 : O1 -> A) (s2 : O2 -> B) (psi : B -> A) (sch sch' : sched) (m n : nat)
  (q : W -> CRS E -> PPE E) (X X' : W -> CRS E -> seq A) (Y Y' : W -> CRS E -> seq B),
  bilinear E -> nondegenerate E -> embedding psi -> valid_sched sch -> valid_sched sch' -> (0 < #|O1|)%N -> (0 < #|O2|)%N -> (0 < #|W|)%N ->
  (0 < m)%N -> (0 < n)%N ->
  (forall w crs, [/\ size (X w crs) = m, size (Y w crs) = n, size (X' w crs) = m & size (Y' w crs) = n]) ->
  (forall w crs, ppe_wf (q w crs) m n) -> (forall w crs, Y w crs <> Y' w crs) ->
  let D w crs r := if r is Ok v then opens2 (E := E) psi crs v.1.2 (Y w crs) else false in
  let B1 := proof_test (N := (2 * m + (2 * n + 4))%N) D public (fun w crs R s => ppe_commit_and_prove (R := R) sch (q w crs) (X w crs) (Y w crs) crs s) in
  let B2 := proof_test (N := (2 * m + (2 * n + 4))%N) D public (fun w crs R s => ppe_commit_and_prove (R := R) sch' (q w crs) (X' w crs) (Y' w crs) crs s) in
  `|game s1 s2 real_crs B1 - game s1 s2 real_crs B2| = 1 - Pr (fun o => s2 o == 0).
Proof. exact: @t3_C77_ppe_Y. Qed.
Print Assumptions C77_ppe_Y.

Example C77_ppe_Y_case : ppe_holds ppe0 xs0 ys0 /\ ppe_holds ppe0 xs1 ys1 /\ let s := fun o : F7f => o : F7o in
  let D (_ : unit) (crs : CRS toy) r := if r is Ok v then opens2 (E := toy) (fun x => x) crs v.1.2 ys0 else false in
  let B1 := proof_test (N := (2 * 2 + (2 * 1 + 4))%N) D public (fun w crs R s => ppe_commit_and_prove (E := toy) (R := R) fwd ppe0 xs0 ys0 crs s) in
  let B2 := proof_test (N := (2 * 2 + (2 * 1 + 4))%N) D public (fun w crs R s => ppe_commit_and_prove (E := toy) (R := R) bwd ppe0 xs1 ys1 crs s) in
  `|game (F := F7f) (e := toy_e) s s real_crs B1 - game s s real_crs B2| = 6%:R / 7%:R.
Proof.
have n : (0 < #|F7f|)%N by rewrite card_F7.
have nu : (0 < #|unit_finType|)%N by rewrite card_unit.
split; first exact: ppe0_holds.
split; first exact: ppe0_holds1.
move=> s; have -> : 6%:R / 7%:R = 1 - Pr (fun o => s o == 0) by rewrite toy_zero; exact/eqP.
by apply: (C77_ppe_Y (F := F7f) (e := toy_e) (W := unit_finType) (q := fun _ _ => ppe0) (X := fun _ _ => xs0) (X' := fun _ _ => xs1) (Y := fun _ _ => ys0) (Y' := fun _ _ => ys1) (m := 2) (n := 1)
  s s toy_bilinear toy_nondegenerate toy_id fwd_valid bwd_valid n n nu isT isT _ (fun _ _ => ppe0_wf)).
Qed.

Theorem C77_ms1_X : forall (F : finFieldType) (A B C : lmodType F) (e : A -> B -> C), let E := Pairing e in
  forall (O1 O2 W : finType) (s1 : O1 -> A) (s2 : O2 -> B) (phi : A -> B) (sch sch' : sched) (m n : nat)
  (q : W -> CRS E -> MSMEG1 E) (X X' : W -> CRS E -> seq A) (Y Y' : W -> CRS E -> seq F),
  bilinear E -> nondegenerate E -> embedding phi -> valid_sched sch -> valid_sched sch' -> (0 < #|O1|)%N -> (0 < #|O2|)%N -> (0 < #|W|)%N ->
  (0 < m)%N -> (0 < n)%N ->
  (forall w crs, [/\ size (X w crs) = m, size (Y w crs) = n, size (X' w crs) = m & size (Y' w crs) = n]) ->
  (forall w crs, ms1_wf (q w crs) m n) -> (forall w crs, X w crs <> X' w crs) ->
  let D w crs r := if r is Ok v then opens1 (E := E) phi crs v.1.1 (X w crs) else false in
  let B1 := proof_test (N := (2 * m + (n + 2))%N) D public (fun w crs R s => ms1_commit_and_prove (R := R) sch (q w crs) (X w crs) (Y w crs) crs s) in
  let B2 := proof_test (N := (2 * m + (n + 2))%N) D public (fun w crs R s => ms1_commit_and_prove (R := R) sch' (q w crs) (X' w crs) (Y' w crs) crs s) in
  `|game s1 s2 real_crs B1 - game s1 s2 real_crs B2| = 1 - Pr (fun o => s1 o == 0).
Proof. exact: @t3_C77_ms1_X. Qed.
Print Assumptions C77_ms1_X.

Example C77_ms1_X_case : ms1_holds ms10 xs0 ys0 /\ ms1_holds ms10 xs1 ys1 /\ let s := fun o : F7f => o : F7o in
  let D (_ : unit) (crs : CRS toy) r := if r is Ok v then opens1 (E := toy) (fun x => x) crs v.1.1 xs0 else false in
  let B1 := proof_test (N := (2 * 2 + (1 + 2))%N) D public (fun w crs R s => ms1_commit_and_prove (E := toy) (R := R) fwd ms10 xs0 ys0 crs s) in
  let B2 := proof_test (N := (2 * 2 + (1 + 2))%N) D public (fun w crs R s => ms1_commit_and_prove (E := toy) (R := R) bwd ms10 xs1 ys1 crs s) in
  `|game (F := F7f) (e := toy_e) s s real_crs B1 - game s s real_crs B2| = 6%:R / 7%:R.
Proof.
have n : (0 < #|F7f|)%N by rewrite card_F7.
have nu : (0 < #|unit_finType|)%N by rewrite card_unit.
split; first exact: ms10_holds.
split; first exact: ms10_holds1.
move=> s; have -> : 6%:R / 7%:R = 1 - Pr (fun o => s o == 0) by rewrite toy_zero; exact/eqP.
by apply: (C77_ms1_X (F := F7f) (e := toy_e) (W := unit_finType) (q := fun _ _ => ms10) (X := fun _ _ => xs0) (X' := fun _ _ => xs1) (Y := fun _ _ => ys0) (Y' := fun _ _ => ys1) (m := 2) (n := 1)
  s s toy_bilinear toy_nondegenerate toy_id fwd_valid bwd_valid n n nu isT isT _ (fun _ _ => ms10_wf)).
Qed.

Theorem C77_ms1_Y : forall (F : finFieldType) (A B C : lmodType F) (e : A -> B -> C), let E := Pairing e in
  forall (O1 O2 W : finType) (s1 : O1 -> A) (s2 : O2 -> B) (psi : B -> A) (sch sch' : sched) (m n : nat)
  (q : W -> CRS E -> MSMEG1 E) (X X' : W -> CRS E -> seq A) (Y Y' : W -> CRS E -> seq F),
  bilinear E -> nondegenerate E -> embedding psi -> valid_sched sch -> valid_sched sch' -> (0 < #|O1|)%N -> (0 < #|O2|)%N -> (0 < #|W|)%N ->
  (0 < m)%N -> (0 < n)%N ->
  (forall w crs, [/\ size (X w crs) = m, size (Y w crs) = n, size (X' w crs) = m & size (Y' w crs) = n]) ->
  (forall w crs, ms1_wf (q w crs) m n) -> (forall w crs, Y w crs <> Y' w crs) ->
  let D w crs r := if r is Ok v then opens2 (E := E) psi crs v.1.2 [seq x *: g2_gen crs | x <- Y w crs] else false in
  let B1 := proof_test (N := (2 * m + (n + 2))%N) D public (fun w crs R s => ms1_commit_and_prove (R := R) sch (q w crs) (X w crs) (Y w crs) crs s) in
  let B2 := proof_test (N := (2 * m + (n + 2))%N) D public (fun w crs R s => ms1_commit_and_prove (R := R) sch' (q w crs) (X' w crs) (Y' w crs) crs s) in
  `|game s1 s2 real_crs B1 - game s1 s2 real_crs B2| = 1 - Pr (fun o => s2 o == 0).
Proof. exact: @t3_C77_ms1_Y. Qed.
Print Assumptions C77_ms1_Y.

Example C77_ms1_Y_case : ms1_holds ms10 xs0 ys0 /\ ms1_holds ms10 xs1 ys1 /\ let s := fun o : F7f => o : F7o in
  let D (_ : unit) (crs : CRS toy) r := if r is Ok v then opens2 (E := toy) (fun x => x) crs v.1.2 [seq x * g2_gen crs | x <- ys0] else false in
  let B1 := proof_test (N := (2 * 2 + (1 + 2))%N) D public (fun w crs R s => ms1_commit_and_prove (E := toy) (R := R) fwd ms10 xs0 ys0 crs s) in
  let B2 := proof_test (N := (2 * 2 + (1 + 2))%N) D public (fun w crs R s => ms1_commit_and_prove (E := toy) (R := R) bwd ms10 xs1 ys1 crs s) in
  `|game (F := F7f) (e := toy_e) s s real_crs B1 - game s s real_crs B2| = 6%:R / 7%:R.
Proof.
have n : (0 < #|F7f|)%N by rewrite card_F7.
have nu : (0 < #|unit_finType|)%N by rewrite card_unit.
split; first exact: ms10_holds.
split; first exact: ms10_holds1.
move=> s; have -> : 6%:R / 7%:R = 1 - Pr (fun o => s o == 0) by rewrite toy_zero; exact/eqP.
by apply: (C77_ms1_Y (F := F7f) (e := toy_e) (W := unit_finType) (q := fun _ _ => ms10) (X := fun _ _ => xs0) (X' := fun _ _ => xs1) (Y := fun _ _ => ys0) (Y' := fun _ _ => ys1) (m := 2) (n := 1)
  s s toy_bilinear toy_nondegenerate toy_id fwd_valid bwd_valid n n nu isT isT _ (fun _ _ => ms10_wf)).
Qed.

Theorem C77_ms2_X : forall (F : finFieldType) (A B C : lmodType F) (e : A -> B -> C), let E := Pairing e in
  forall (O1 O2 W : finType) (s1 : O1 -> A) (s2 : O2 -> B) (phi : A -> B) (sch sch' : sched) (m n : nat)
  (q : W -> CRS E -> MSMEG2 E) (X X' : W -> CRS E -> seq F) (Y Y' : W -> CRS E -> seq B),
  bilinear E -> nondegenerate E -> embedding phi -> valid_sched sch -> valid_sched sch' -> (0 < #|O1|)%N -> (0 < #|O2|)%N -> (0 < #|W|)%N ->
  (0 < m)%N -> (0 < n)%N ->
  (forall w crs, [/\ size (X w crs) = m, size (Y w crs) = n, size (X' w crs) = m & size (Y' w crs) = n]) ->
  (forall w crs, ms2_wf (q w crs) m n) -> (forall w crs, X w crs <> X' w crs) ->
  let D w crs r := if r is Ok v then opens1 (E := E) phi crs v.1.1 [seq x *: g1_gen crs | x <- X w crs] else false in
  let B1 := proof_test (N := (m + (2 * n + 2))%N) D public (fun w crs R s => ms2_commit_and_prove (R := R) sch (q w crs) (X w crs) (Y w crs) crs s) in
  let B2 := proof_test (N := (m + (2 * n + 2))%N) D public (fun w crs R s => ms2_commit_and_prove (R := R) sch' (q w crs) (X' w crs) (Y' w crs) crs s) in
  `|game s1 s2 real_crs B1 - game s1 s2 real_crs B2| = 1 - Pr (fun o => s1 o == 0).
Proof. exact: @t3_C77_ms2_X. Qed.
Print Assumptions C77_ms2_X.

Example C77_ms2_X_case : ms2_holds ms20 xs0 ys0 /\ ms2_holds ms20 xs1 ys1 /\ let s := fun o : F7f => o : F7o in
  let D (_ : unit) (crs : CRS toy) r := if r is Ok v then opens1 (E := toy) (fun x => x) crs v.1.1 [seq x * g1_gen crs | x <- xs0] else false in
  let B1 := proof_test (N := (2 + (2 * 1 + 2))%N) D public (fun w crs R s => ms2_commit_and_prove (E := toy) (R := R) fwd ms20 xs0 ys0 crs s) in
  let B2 := proof_test (N := (2 + (2 * 1 + 2))%N) D public (fun w crs R s => ms2_commit_and_prove (E := toy) (R := R) bwd ms20 xs1 ys1 crs s) in
  `|game (F := F7f) (e := toy_e) s s real_crs B1 - game s s real_crs B2| = 6%:R / 7%:R.
Proof.
have n : (0 < #|F7f|)%N by rewrite card_F7.
have nu : (0 < #|unit_finType|)%N by rewrite card_unit.
split; first exact: ms20_holds.
split; first exact: ms20_holds1.
move=> s; have -> : 6%:R / 7%:R = 1 - Pr (fun o => s o == 0) by rewrite toy_zero; exact/eqP.
by apply: (C77_ms2_X (F := F7f) (e := toy_e) (W := unit_finType) (q := fun _ _ => ms20) (X := fun _ _ => xs0) (X' := fun _ _ => xs1) (Y := fun _ _ => ys0) (Y' := fun _ _ => ys1) (m := 2) (n := 1)
  s s toy_bilinear toy_nondegenerate toy_id fwd_valid bwd_valid n n nu isT isT _ (fun _ _ => ms20_wf)).
Qed.

Theorem C77_ms2_Y : forall (F : finFieldType) (A B C : lmodType F) (e : A -> B -> C), let E := Pairing e in
  forall (O1 O2 W : finType) (s1 : O1 -> A) (s2 : O2 -> B) (psi : B -> A) (sch sch' : sched) (m n : nat)
  (q : W -> CRS E -> MSMEG2 E) (X X' : W -> CRS E -> seq F) (Y Y' : W -> CRS E -> seq B),
  bilinear E -> nondegenerate E -> embedding psi -> valid_sched sch -> valid_sched sch' -> (0 < #|O1|)%N -> (0 < #|O2|)%N -> (0 < #|W|)%N ->
  (0 < m)%N -> (0 < n)%N ->
  (forall w crs, [/\ size (X w crs) = m, size (Y w crs) = n, size (X' w crs) = m & size (Y' w crs) = n]) ->
  (forall w crs, ms2_wf (q w crs) m n) -> (forall w crs, Y w crs <> Y' w crs) ->
  let D w crs r := if r is Ok v then opens2 (E := E) psi crs v.1.2 (Y w crs) else false in
  let B1 := proof_test (N := (m + (2 * n + 2))%N) D public (fun w crs R s => ms2_commit_and_prove (R := R) sch (q w crs) (X w crs) (Y w crs) crs s) in
  let B2 := proof_test (N := (m + (2 * n + 2))%N) D public (fun w crs R s => ms2_commit_and_prove (R := R) sch' (q w crs) (X' w crs) (Y' w crs) crs s) in
  `|game s1 s2 real_crs B1 - game s1 s2 real_crs B2| = 1 - Pr (fun o => s2 o == 0).
Proof. exact: @t3_C77_ms2_Y. Qed.
Print Assumptions C77_ms2_Y.

Example C77_ms2_Y_case : ms2_holds ms20 xs0 ys0 /\ ms2_holds ms20 xs1 ys1 /\ let s := fun o : F7f => o : F7o in
  let D (_ : unit) (crs : CRS toy) r := if r is Ok v then opens2 (E := toy) (fun x => x) crs v.1.2 ys0 else false in
  let B1 := proof_test (N := (2 + (2 * 1 + 2))%N) D public (fun w crs R s => ms2_commit_and_prove (E := toy) (R := R) fwd ms20 xs0 ys0 crs s) in
  let B2 := proof_test (N := (2 + (2 * 1 + 2))%N) D public (fun w crs R s => ms2_commit_and_prove (E := toy) (R := R) bwd ms20 xs1 ys1 crs s) in
  `|game (F := F7f) (e := toy_e) s s real_crs B1 - game s s real_crs B2| = 6%:R / 7%:R.
Proof.
have n : (0 < #|F7f|)%N by rewrite card_F7.
have nu : (0 < #|unit_finType|)%N by rewrite card_unit.
split; first exact: ms20_holds.
split; first exact: ms20_holds1.
move=> s; have -> : 6%:R / 7%:R = 1 - Pr (fun o => s o == 0) by rewrite toy_zero; exact/eqP.
by apply: (C77_ms2_Y (F := F7f) (e := toy_e) (W := unit_finType) (q := fun _ _ => ms20) (X := fun _ _ => xs0) (X' := fun _ _ => xs1) (Y := fun _ _ => ys0) (Y' := fun _ _ => ys1) (m := 2) (n := 1)
  s s toy_bilinear toy_nondegenerate toy_id fwd_valid bwd_valid n n nu isT isT _ (fun _ _ => ms20_wf)).
Qed.

Theorem C77_quad_X : forall (F : finFieldType) (A B C : lmodType F) (e : A -> B -> C), let E := Pairing e in
  forall (O1 O2 W : finType) (s1 : O1 -> A) (s2 : O2 -> B) (phi : A -> B) (sch sch' : sched) (m n : nat)
  (q : W -> CRS E -> QuadEqu E) (X X' : W -> CRS E -> seq F) (Y Y' : W -> CRS E -> seq F),
  bilinear E -> nondegenerate E -> embedding phi -> valid_sched sch -> valid_sched sch' -> (0 < #|O1|)%N -> (0 < #|O2|)%N -> (0 < #|W|)%N ->
  (0 < m)%N -> (0 < n)%N ->
  (forall w crs, [/\ size (X w crs) = m, size (Y w crs) = n, size (X' w crs) = m & size (Y' w crs) = n]) ->
  (forall w crs, quad_wf (q w crs) m n) -> (forall w crs, X w crs <> X' w crs) ->
  let D w crs r := if r is Ok v then opens1 (E := E) phi crs v.1.1 [seq x *: g1_gen crs | x <- X w crs] else false in
  let B1 := proof_test (N := (m + (n + 1))%N) D public (fun w crs R s => quad_commit_and_prove (R := R) sch (q w crs) (X w crs) (Y w crs) crs s) in
  let B2 := proof_test (N := (m + (n + 1))%N) D public (fun w crs R s => quad_commit_and_prove (R := R) sch' (q w crs) (X' w crs) (Y' w crs) crs s) in
  `|game s1 s2 real_crs B1 - game s1 s2 real_crs B2| = 1 - Pr (fun o => s1 o == 0).
Proof. exact: @t3_C77_quad_X. Qed.
Print Assumptions C77_quad_X.

Example C77_quad_X_case : quad_holds quad0 xs0 ys0 /\ quad_holds quad0 xs1 ys1 /\ let s := fun o : F7f => o : F7o in
  let D (_ : unit) (crs : CRS toy) r := if r is Ok v then opens1 (E := toy) (fun x => x) crs v.1.1 [seq x * g1_gen crs | x <- xs0] else false in
  let B1 := proof_test (N := (2 + (1 + 1))%N) D public (fun w crs R s => quad_commit_and_prove (E := toy) (R := R) fwd quad0 xs0 ys0 crs s) in
  let B2 := proof_test (N := (2 + (1 + 1))%N) D public (fun w crs R s => quad_commit_and_prove (E := toy) (R := R) bwd quad0 xs1 ys1 crs s) in
  `|game (F := F7f) (e := toy_e) s s real_crs B1 - game s s real_crs B2| = 6%:R / 7%:R.
Proof.
have n : (0 < #|F7f|)%N by rewrite card_F7.
have nu : (0 < #|unit_finType|)%N by rewrite card_unit.
split; first exact: quad0_holds.
split; first exact: quad0_holds1.
move=> s; have -> : 6%:R / 7%:R = 1 - Pr (fun o => s o == 0) by rewrite toy_zero; exact/eqP.
by apply: (C77_quad_X (F := F7f) (e := toy_e) (W := unit_finType) (q := fun _ _ => quad0) (X := fun _ _ => xs0) (X' := fun _ _ => xs1) (Y := fun _ _ => ys0) (Y' := fun _ _ => ys1) (m := 2) (n := 1)
  s s toy_bilinear toy_nondegenerate toy_id fwd_valid bwd_valid n n nu isT isT _ (fun _ _ => quad0_wf)).
Qed.

Theorem C77_quad_Y : forall (F : finFieldType) (A B C : lmodType F) (e : A -> B -> C), let E := Pairing e in
  forall (O1 O2 W : finType) (s1 : O1 -> A) (s2 : O2 -> B) (psi : B -> A) (sch sch' : sched) (m n : nat)
  (q : W -> CRS E -> QuadEqu E) (X X' : W -> CRS E -> seq F) (Y Y' : W -> CRS E -> seq F),
  bilinear E -> nondegenerate E -> embedding psi -> valid_sched sch -> valid_sched sch' -> (0 < #|O1|)%N -> (0 < #|O2|)%N -> (0 < #|W|)%N ->
  (0 < m)%N -> (0 < n)%N ->
  (forall w crs, [/\ size (X w crs) = m, size (Y w crs) = n, size (X' w crs) = m & size (Y' w crs) = n]) ->
  (forall w crs, quad_wf (q w crs) m n) -> (forall w crs, Y w crs <> Y' w crs) ->
  let D w crs r := if r is Ok v then opens2 (E := E) psi crs v.1.2 [seq x *: g2_gen crs | x <- Y w crs] else false in
  let B1 := proof_test (N := (m + (n + 1))%N) D public (fun w crs R s => quad_commit_and_prove (R := R) sch (q w crs) (X w crs) (Y w crs) crs s) in
  let B2 := proof_test (N := (m + (n + 1))%N) D public (fun w crs R s => quad_commit_and_prove (R := R) sch' (q w crs) (X' w crs) (Y' w crs) crs s) in
  `|game s1 s2 real_crs B1 - game s1 s2 real_crs B2| = 1 - Pr (fun o => s2 o == 0).
Proof. exact: @t3_C77_quad_Y. Qed.
Print Assumptions C77_quad_Y.

Example C77_quad_Y_case : quad_holds quad0 xs0 ys0 /\ quad_holds quad0 xs1 ys1 /\ let s := fun o : F7f => o : F7o in
  let D (_ : unit) (crs : CRS toy) r := if r is Ok v then opens2 (E := toy) (fun x => x) crs v.1.2 [seq x * g2_gen crs | x <- ys0] else false in
  let B1 := proof_test (N := (2 + (1 + 1))%N) D public (fun w crs R s => quad_commit_and_prove (E := toy) (R := R) fwd quad0 xs0 ys0 crs s) in
  let B2 := proof_test (N := (2 + (1 + 1))%N) D public (fun w crs R s => quad_commit_and_prove (E := toy) (R := R) bwd quad0 xs1 ys1 crs s) in
  `|game (F := F7f) (e := toy_e) s s real_crs B1 - game s s real_crs B2| = 6%:R / 7%:R.
Proof.
have n : (0 < #|F7f|)%N by rewrite card_F7.
have nu : (0 < #|unit_finType|)%N by rewrite card_unit.
split; first exact: quad0_holds.
split; first exact: quad0_holds1.
move=> s; have -> : 6%:R / 7%:R = 1 - Pr (fun o => s o == 0) by rewrite toy_zero; exact/eqP.
by apply: (C77_quad_Y (F := F7f) (e := toy_e) (W := unit_finType) (q := fun _ _ => quad0) (X := fun _ _ => xs0) (X' := fun _ _ => xs1) (Y := fun _ _ => ys0) (Y' := fun _ _ => ys1) (m := 2) (n := 1)
  s s toy_bilinear toy_nondegenerate toy_id fwd_valid bwd_valid n n nu isT isT _ (fun _ _ => quad0_wf)).
Qed.
