(** Property C78: key indistinguishability and hiding are not only implied by DDH, but equivalent to it. *)
From mathcomp Require Import all_ssreflect all_algebra.
From Verif Require Import Base Group DataStructures Generator Commit Statement Prove Spec SpecVerify SpecFormula SpecHide SpecSxdh SpecNec NecLemmas Concrete Concrete4 Concrete5 Concrete12.
Set Implicit Arguments.
Unset Strict Implicit.
Unset Printing Implicit Defensive.
Import Order.Theory GRing.Theory Num.Theory.
Local Open Scope ring_scope.

(** C78: a distinguisher for DDH tells the keys of [generate_crs] from hiding keys, with no smaller advantage. *)
Theorem C78_keys_1 : forall (F : finFieldType) (A B C : lmodType F) (e : A -> B -> C), let E := Pairing e in
  forall (O1 O2 W : finType) (s1 : O1 -> A) (s2 : O2 -> B) (D : W -> A -> A -> A -> A -> bool), (0 < #|O2|)%N ->
  key_adv s1 s2 (ask_key1 (e := e) D) = ddh_adv s1 D * ((#|F|)%:R / (#|F|.-1)%:R).
Proof. exact: @nec_C78_keys_1. Qed.
Print Assumptions C78_keys_1.

Example C78_keys_1_case : let s := fun o : F7f => o : F7o in key_adv (e := toy_e) s s (ask_key1 (e := toy_e) toy_D) = 6%:R / 7%:R.
Proof.
move=> s; rewrite (C78_keys_1 toy_e) ?card_F7 // toy_ddh; exact/eqP.
Qed.

Theorem C78_keys_2 : forall (F : finFieldType) (A B C : lmodType F) (e : A -> B -> C), let E := Pairing e in
  forall (O1 O2 W : finType) (s1 : O1 -> A) (s2 : O2 -> B) (D : W -> B -> B -> B -> B -> bool), (0 < #|O1|)%N ->
  key_adv s1 s2 (ask_key2 (e := e) D) = ddh_adv s2 D * ((#|F|)%:R / (#|F|.-1)%:R).
Proof. exact: @nec_C78_keys_2. Qed.
Print Assumptions C78_keys_2.

Example C78_keys_2_case : let s := fun o : F7f => o : F7o in key_adv (e := toy_e) s s (ask_key2 (e := toy_e) toy_D) = 6%:R / 7%:R.
Proof.
move=> s; rewrite (C78_keys_2 toy_e) ?card_F7 // toy_ddh; exact/eqP.
Qed.

(** C78: it tells published proofs made from different values apart, with no smaller advantage. *)
Theorem C78_ppe_X : forall (F : finFieldType) (A B C : lmodType F) (e : A -> B -> C), let E := Pairing e in
  forall (O1 O2 W : finType) (s1 : O1 -> A) (s2 : O2 -> B) (D : W -> A -> A -> A -> A -> bool) (sch sch' : sched) (m n i : nat)
  (q : W -> CRS E -> PPE E) (X X' : W -> CRS E -> seq A) (Y Y' : W -> CRS E -> seq B),
  cyclic (G1 E) -> valid_sched sch -> valid_sched sch' -> (0 < #|O2|)%N -> (0 < n)%N ->
  (forall w crs, [/\ size (X w crs) = m, size (Y w crs) = n, size (X' w crs) = m & size (Y' w crs) = n]) ->
  (forall w crs, ppe_wf (q w crs) m n) -> (i < m)%N -> (forall w crs, nth 0 (X w crs) i <> nth 0 (X' w crs) i) ->
  let T (x : W * nz F) crs r := if r is Ok v then ask_com1 (e := e) D x crs (nth 0 v.1.1 i - i1 (E := E) (nth 0 (X x.1 crs) i)) else false in
  let B1 := proof_test (N := (2 * m + (2 * n + 4))%N) T public (fun x crs R s => ppe_commit_and_prove (R := R) sch (q x.1 crs) (X x.1 crs) (Y x.1 crs) crs s) in
  let B2 := proof_test (N := (2 * m + (2 * n + 4))%N) T public (fun x crs R s => ppe_commit_and_prove (R := R) sch' (q x.1 crs) (X' x.1 crs) (Y' x.1 crs) crs s) in
  `|game s1 s2 real_crs B1 - game s1 s2 real_crs B2| = ddh_adv s1 D * ((#|F|)%:R / (#|F|.-1)%:R).
Proof. exact: @nec_C78_ppe_X. Qed.
Print Assumptions C78_ppe_X.

Example C78_ppe_X_case : let s := fun o : F7f => o : F7o in
  let T (x : unit * nz F7f) (crs : CRS toy) r := if r is Ok v then ask_com1 (e := toy_e) toy_D x crs (nth 0 v.1.1 0 - i1 (E := toy) (nth 0 xs0 0)) else false in
  let B1 := proof_test (N := (2 * 2 + (2 * 1 + 4))%N) T public (fun _ crs R s => ppe_commit_and_prove (E := toy) (R := R) fwd ppe0 xs0 ys0 crs s) in
  let B2 := proof_test (N := (2 * 2 + (2 * 1 + 4))%N) T public (fun _ crs R s => ppe_commit_and_prove (E := toy) (R := R) bwd ppe0 xs1 ys1 crs s) in
  `|game (F := F7f) (e := toy_e) s s real_crs B1 - game s s real_crs B2| = 6%:R / 7%:R.
Proof.
move=> s T B1 B2; have -> : 6%:R / 7%:R = ddh_adv (G := F7o) s toy_D * (#|F7f|%:R / #|F7f|.-1%:R) :> rat by rewrite toy_ddh card_F7; exact/eqP.
apply: (C78_ppe_X (F := F7f) (e := toy_e) (X := fun _ _ => xs0) (Y := fun _ _ => ys0) (X' := fun _ _ => xs1) (Y' := fun _ _ => ys1) (q := fun _ _ => ppe0) (m := 2) (n := 1) (i := 0) s s toy_D toy_cyclic fwd_valid bwd_valid) => //; first by rewrite card_F7.
by move=> _ _; exact: ppe0_wf.
Qed.

Theorem C78_ppe_Y : forall (F : finFieldType) (A B C : lmodType F) (e : A -> B -> C), let E := Pairing e in
  forall (O1 O2 W : finType) (s1 : O1 -> A) (s2 : O2 -> B) (D : W -> B -> B -> B -> B -> bool) (sch sch' : sched) (m n i : nat)
  (q : W -> CRS E -> PPE E) (X X' : W -> CRS E -> seq A) (Y Y' : W -> CRS E -> seq B),
  cyclic (G2 E) -> valid_sched sch -> valid_sched sch' -> (0 < #|O1|)%N -> (0 < m)%N ->
  (forall w crs, [/\ size (X w crs) = m, size (Y w crs) = n, size (X' w crs) = m & size (Y' w crs) = n]) ->
  (forall w crs, ppe_wf (q w crs) m n) -> (i < n)%N -> (forall w crs, nth 0 (Y w crs) i <> nth 0 (Y' w crs) i) ->
  let T (x : W * nz F) crs r := if r is Ok v then ask_com2 (e := e) D x crs (nth 0 v.1.2 i - i2 (E := E) (nth 0 (Y x.1 crs) i)) else false in
  let B1 := proof_test (N := (2 * m + (2 * n + 4))%N) T public (fun x crs R s => ppe_commit_and_prove (R := R) sch (q x.1 crs) (X x.1 crs) (Y x.1 crs) crs s) in
  let B2 := proof_test (N := (2 * m + (2 * n + 4))%N) T public (fun x crs R s => ppe_commit_and_prove (R := R) sch' (q x.1 crs) (X' x.1 crs) (Y' x.1 crs) crs s) in
  `|game s1 s2 real_crs B1 - game s1 s2 real_crs B2| = ddh_adv s2 D * ((#|F|)%:R / (#|F|.-1)%:R).
Proof. exact: @nec_C78_ppe_Y. Qed.
Print Assumptions C78_ppe_Y.

Example C78_ppe_Y_case : let s := fun o : F7f => o : F7o in
  let T (x : unit * nz F7f) (crs : CRS toy) r := if r is Ok v then ask_com2 (e := toy_e) toy_D x crs (nth 0 v.1.2 0 - i2 (E := toy) (nth 0 ys0 0)) else false in
  let B1 := proof_test (N := (2 * 2 + (2 * 1 + 4))%N) T public (fun _ crs R s => ppe_commit_and_prove (E := toy) (R := R) fwd ppe0 xs0 ys0 crs s) in
  let B2 := proof_test (N := (2 * 2 + (2 * 1 + 4))%N) T public (fun _ crs R s => ppe_commit_and_prove (E := toy) (R := R) bwd ppe0 xs1 ys1 crs s) in
  `|game (F := F7f) (e := toy_e) s s real_crs B1 - game s s real_crs B2| = 6%:R / 7%:R.
Proof.
move=> s T B1 B2; have -> : 6%:R / 7%:R = ddh_adv (G := F7o) s toy_D * (#|F7f|%:R / #|F7f|.-1%:R) :> rat by rewrite toy_ddh card_F7; exact/eqP.
apply: (C78_ppe_Y (F := F7f) (e := toy_e) (X := fun _ _ => xs0) (Y := fun _ _ => ys0) (X' := fun _ _ => xs1) (Y' := fun _ _ => ys1) (q := fun _ _ => ppe0) (m := 2) (n := 1) (i := 0) s s toy_D toy_cyclic fwd_valid bwd_valid) => //; first by rewrite card_F7.
by move=> _ _; exact: ppe0_wf.
Qed.

Theorem C78_ms1_X : forall (F : finFieldType) (A B C : lmodType F) (e : A -> B -> C), let E := Pairing e in
  forall (O1 O2 W : finType) (s1 : O1 -> A) (s2 : O2 -> B) (D : W -> A -> A -> A -> A -> bool) (sch sch' : sched) (m n i : nat)
  (q : W -> CRS E -> MSMEG1 E) (X X' : W -> CRS E -> seq A) (Y Y' : W -> CRS E -> seq F),
  cyclic (G1 E) -> valid_sched sch -> valid_sched sch' -> (0 < #|O2|)%N -> (0 < n)%N ->
  (forall w crs, [/\ size (X w crs) = m, size (Y w crs) = n, size (X' w crs) = m & size (Y' w crs) = n]) ->
  (forall w crs, ms1_wf (q w crs) m n) -> (i < m)%N -> (forall w crs, nth 0 (X w crs) i <> nth 0 (X' w crs) i) ->
  let T (x : W * nz F) crs r := if r is Ok v then ask_com1 (e := e) D x crs (nth 0 v.1.1 i - i1 (E := E) (nth 0 (X x.1 crs) i)) else false in
  let B1 := proof_test (N := (2 * m + (n + 2))%N) T public (fun x crs R s => ms1_commit_and_prove (R := R) sch (q x.1 crs) (X x.1 crs) (Y x.1 crs) crs s) in
  let B2 := proof_test (N := (2 * m + (n + 2))%N) T public (fun x crs R s => ms1_commit_and_prove (R := R) sch' (q x.1 crs) (X' x.1 crs) (Y' x.1 crs) crs s) in
  `|game s1 s2 real_crs B1 - game s1 s2 real_crs B2| = ddh_adv s1 D * ((#|F|)%:R / (#|F|.-1)%:R).
Proof. exact: @nec_C78_ms1_X. Qed.
Print Assumptions C78_ms1_X.

Example C78_ms1_X_case : let s := fun o : F7f => o : F7o in
  let T (x : unit * nz F7f) (crs : CRS toy) r := if r is Ok v then ask_com1 (e := toy_e) toy_D x crs (nth 0 v.1.1 0 - i1 (E := toy) (nth 0 xs0 0)) else false in
  let B1 := proof_test (N := (2 * 2 + (1 + 2))%N) T public (fun _ crs R s => ms1_commit_and_prove (E := toy) (R := R) fwd ms10 xs0 ys0 crs s) in
  let B2 := proof_test (N := (2 * 2 + (1 + 2))%N) T public (fun _ crs R s => ms1_commit_and_prove (E := toy) (R := R) bwd ms10 xs1 ys1 crs s) in
  `|game (F := F7f) (e := toy_e) s s real_crs B1 - game s s real_crs B2| = 6%:R / 7%:R.
Proof.
move=> s T B1 B2; have -> : 6%:R / 7%:R = ddh_adv (G := F7o) s toy_D * (#|F7f|%:R / #|F7f|.-1%:R) :> rat by rewrite toy_ddh card_F7; exact/eqP.
apply: (C78_ms1_X (F := F7f) (e := toy_e) (X := fun _ _ => xs0) (Y := fun _ _ => ys0) (X' := fun _ _ => xs1) (Y' := fun _ _ => ys1) (q := fun _ _ => ms10) (m := 2) (n := 1) (i := 0) s s toy_D toy_cyclic fwd_valid bwd_valid) => //; first by rewrite card_F7.
by move=> _ _; exact: ms10_wf.
Qed.

Theorem C78_ms1_Y : forall (F : finFieldType) (A B C : lmodType F) (e : A -> B -> C), let E := Pairing e in
  forall (O1 O2 W : finType) (s1 : O1 -> A) (s2 : O2 -> B) (D : W -> B -> B -> B -> B -> bool) (sch sch' : sched) (m n i : nat)
  (q : W -> CRS E -> MSMEG1 E) (X X' : W -> CRS E -> seq A) (Y Y' : W -> CRS E -> seq F),
  valid_sched sch -> valid_sched sch' -> (0 < #|O1|)%N -> (0 < m)%N ->
  (forall w crs, [/\ size (X w crs) = m, size (Y w crs) = n, size (X' w crs) = m & size (Y' w crs) = n]) ->
  (forall w crs, ms1_wf (q w crs) m n) -> (i < n)%N -> (forall w crs, nth 0 (Y w crs) i <> nth 0 (Y' w crs) i) ->
  let T (x : W * nz F) crs r := if r is Ok v then ask_com2 (e := e) D x crs (nth 0 v.1.2 i - k2 (E := E) crs (nth 0 (Y x.1 crs) i)) else false in
  let B1 := proof_test (N := (2 * m + (n + 2))%N) T public (fun x crs R s => ms1_commit_and_prove (R := R) sch (q x.1 crs) (X x.1 crs) (Y x.1 crs) crs s) in
  let B2 := proof_test (N := (2 * m + (n + 2))%N) T public (fun x crs R s => ms1_commit_and_prove (R := R) sch' (q x.1 crs) (X' x.1 crs) (Y' x.1 crs) crs s) in
  `|game s1 s2 real_crs B1 - game s1 s2 real_crs B2| = ddh_adv s2 D * ((#|F|)%:R / (#|F|.-1)%:R).
Proof. exact: @nec_C78_ms1_Y. Qed.
Print Assumptions C78_ms1_Y.

Example C78_ms1_Y_case : let s := fun o : F7f => o : F7o in
  let T (x : unit * nz F7f) (crs : CRS toy) r := if r is Ok v then ask_com2 (e := toy_e) toy_D x crs (nth 0 v.1.2 0 - k2 (E := toy) crs (nth 0 ys0 0)) else false in
  let B1 := proof_test (N := (2 * 2 + (1 + 2))%N) T public (fun _ crs R s => ms1_commit_and_prove (E := toy) (R := R) fwd ms10 xs0 ys0 crs s) in
  let B2 := proof_test (N := (2 * 2 + (1 + 2))%N) T public (fun _ crs R s => ms1_commit_and_prove (E := toy) (R := R) bwd ms10 xs1 ys1 crs s) in
  `|game (F := F7f) (e := toy_e) s s real_crs B1 - game s s real_crs B2| = 6%:R / 7%:R.
Proof.
move=> s T B1 B2; have -> : 6%:R / 7%:R = ddh_adv (G := F7o) s toy_D * (#|F7f|%:R / #|F7f|.-1%:R) :> rat by rewrite toy_ddh card_F7; exact/eqP.
apply: (C78_ms1_Y (F := F7f) (e := toy_e) (X := fun _ _ => xs0) (Y := fun _ _ => ys0) (X' := fun _ _ => xs1) (Y' := fun _ _ => ys1) (q := fun _ _ => ms10) (m := 2) (n := 1) (i := 0) s s toy_D fwd_valid bwd_valid) => //; first by rewrite card_F7.
by move=> _ _; exact: ms10_wf.
Qed.

Theorem C78_ms2_X : forall (F : finFieldType) (A B C : lmodType F) (e : A -> B -> C), let E := Pairing e in
  forall (O1 O2 W : finType) (s1 : O1 -> A) (s2 : O2 -> B) (D : W -> A -> A -> A -> A -> bool) (sch sch' : sched) (m n i : nat)
  (q : W -> CRS E -> MSMEG2 E) (X X' : W -> CRS E -> seq F) (Y Y' : W -> CRS E -> seq B),
  valid_sched sch -> valid_sched sch' -> (0 < #|O2|)%N -> (0 < n)%N ->
  (forall w crs, [/\ size (X w crs) = m, size (Y w crs) = n, size (X' w crs) = m & size (Y' w crs) = n]) ->
  (forall w crs, ms2_wf (q w crs) m n) -> (i < m)%N -> (forall w crs, nth 0 (X w crs) i <> nth 0 (X' w crs) i) ->
  let T (x : W * nz F) crs r := if r is Ok v then ask_com1 (e := e) D x crs (nth 0 v.1.1 i - k1 (E := E) crs (nth 0 (X x.1 crs) i)) else false in
  let B1 := proof_test (N := (m + (2 * n + 2))%N) T public (fun x crs R s => ms2_commit_and_prove (R := R) sch (q x.1 crs) (X x.1 crs) (Y x.1 crs) crs s) in
  let B2 := proof_test (N := (m + (2 * n + 2))%N) T public (fun x crs R s => ms2_commit_and_prove (R := R) sch' (q x.1 crs) (X' x.1 crs) (Y' x.1 crs) crs s) in
  `|game s1 s2 real_crs B1 - game s1 s2 real_crs B2| = ddh_adv s1 D * ((#|F|)%:R / (#|F|.-1)%:R).
Proof. exact: @nec_C78_ms2_X. Qed.
Print Assumptions C78_ms2_X.

Example C78_ms2_X_case : let s := fun o : F7f => o : F7o in
  let T (x : unit * nz F7f) (crs : CRS toy) r := if r is Ok v then ask_com1 (e := toy_e) toy_D x crs (nth 0 v.1.1 0 - k1 (E := toy) crs (nth 0 xs0 0)) else false in
  let B1 := proof_test (N := (2 + (2 * 1 + 2))%N) T public (fun _ crs R s => ms2_commit_and_prove (E := toy) (R := R) fwd ms20 xs0 ys0 crs s) in
  let B2 := proof_test (N := (2 + (2 * 1 + 2))%N) T public (fun _ crs R s => ms2_commit_and_prove (E := toy) (R := R) bwd ms20 xs1 ys1 crs s) in
  `|game (F := F7f) (e := toy_e) s s real_crs B1 - game s s real_crs B2| = 6%:R / 7%:R.
Proof.
move=> s T B1 B2; have -> : 6%:R / 7%:R = ddh_adv (G := F7o) s toy_D * (#|F7f|%:R / #|F7f|.-1%:R) :> rat by rewrite toy_ddh card_F7; exact/eqP.
apply: (C78_ms2_X (F := F7f) (e := toy_e) (X := fun _ _ => xs0) (Y := fun _ _ => ys0) (X' := fun _ _ => xs1) (Y' := fun _ _ => ys1) (q := fun _ _ => ms20) (m := 2) (n := 1) (i := 0) s s toy_D fwd_valid bwd_valid) => //; first by rewrite card_F7.
by move=> _ _; exact: ms20_wf.
Qed.

Theorem C78_ms2_Y : forall (F : finFieldType) (A B C : lmodType F) (e : A -> B -> C), let E := Pairing e in
  forall (O1 O2 W : finType) (s1 : O1 -> A) (s2 : O2 -> B) (D : W -> B -> B -> B -> B -> bool) (sch sch' : sched) (m n i : nat)
  (q : W -> CRS E -> MSMEG2 E) (X X' : W -> CRS E -> seq F) (Y Y' : W -> CRS E -> seq B),
  cyclic (G2 E) -> valid_sched sch -> valid_sched sch' -> (0 < #|O1|)%N -> (0 < m)%N ->
  (forall w crs, [/\ size (X w crs) = m, size (Y w crs) = n, size (X' w crs) = m & size (Y' w crs) = n]) ->
  (forall w crs, ms2_wf (q w crs) m n) -> (i < n)%N -> (forall w crs, nth 0 (Y w crs) i <> nth 0 (Y' w crs) i) ->
  let T (x : W * nz F) crs r := if r is Ok v then ask_com2 (e := e) D x crs (nth 0 v.1.2 i - i2 (E := E) (nth 0 (Y x.1 crs) i)) else false in
  let B1 := proof_test (N := (m + (2 * n + 2))%N) T public (fun x crs R s => ms2_commit_and_prove (R := R) sch (q x.1 crs) (X x.1 crs) (Y x.1 crs) crs s) in
  let B2 := proof_test (N := (m + (2 * n + 2))%N) T public (fun x crs R s => ms2_commit_and_prove (R := R) sch' (q x.1 crs) (X' x.1 crs) (Y' x.1 crs) crs s) in
  `|game s1 s2 real_crs B1 - game s1 s2 real_crs B2| = ddh_adv s2 D * ((#|F|)%:R / (#|F|.-1)%:R).
Proof. exact: @nec_C78_ms2_Y. Qed.
Print Assumptions C78_ms2_Y.

Example C78_ms2_Y_case : let s := fun o : F7f => o : F7o in
  let T (x : unit * nz F7f) (crs : CRS toy) r := if r is Ok v then ask_com2 (e := toy_e) toy_D x crs (nth 0 v.1.2 0 - i2 (E := toy) (nth 0 ys0 0)) else false in
  let B1 := proof_test (N := (2 + (2 * 1 + 2))%N) T public (fun _ crs R s => ms2_commit_and_prove (E := toy) (R := R) fwd ms20 xs0 ys0 crs s) in
  let B2 := proof_test (N := (2 + (2 * 1 + 2))%N) T public (fun _ crs R s => ms2_commit_and_prove (E := toy) (R := R) bwd ms20 xs1 ys1 crs s) in
  `|game (F := F7f) (e := toy_e) s s real_crs B1 - game s s real_crs B2| = 6%:R / 7%:R.
Proof.
move=> s T B1 B2; have -> : 6%:R / 7%:R = ddh_adv (G := F7o) s toy_D * (#|F7f|%:R / #|F7f|.-1%:R) :> rat by rewrite toy_ddh card_F7; exact/eqP.
apply: (C78_ms2_Y (F := F7f) (e := toy_e) (X := fun _ _ => xs0) (Y := fun _ _ => ys0) (X' := fun _ _ => xs1) (Y' := fun _ _ => ys1) (q := fun _ _ => ms20) (m := 2) (n := 1) (i := 0) s s toy_D toy_cyclic fwd_valid bwd_valid) => //; first by rewrite card_F7.
by move=> _ _; exact: ms20_wf.
Qed.

Theorem C78_quad_X : forall (F : finFieldType) (A B C : lmodType F) (e : A -> B -> C), let E := Pairing e in
  forall (O1 O2 W : finType) (s1 : O1 -> A) (s2 : O2 -> B) (D : W -> A -> A -> A -> A -> bool) (sch sch' : sched) (m n i : nat)
  (q : W -> CRS E -> QuadEqu E) (X X' : W -> CRS E -> seq F) (Y Y' : W -> CRS E -> seq F),
  valid_sched sch -> valid_sched sch' -> (0 < #|O2|)%N -> (0 < n)%N ->
  (forall w crs, [/\ size (X w crs) = m, size (Y w crs) = n, size (X' w crs) = m & size (Y' w crs) = n]) ->
  (forall w crs, quad_wf (q w crs) m n) -> (i < m)%N -> (forall w crs, nth 0 (X w crs) i <> nth 0 (X' w crs) i) ->
  let T (x : W * nz F) crs r := if r is Ok v then ask_com1 (e := e) D x crs (nth 0 v.1.1 i - k1 (E := E) crs (nth 0 (X x.1 crs) i)) else false in
  let B1 := proof_test (N := (m + (n + 1))%N) T public (fun x crs R s => quad_commit_and_prove (R := R) sch (q x.1 crs) (X x.1 crs) (Y x.1 crs) crs s) in
  let B2 := proof_test (N := (m + (n + 1))%N) T public (fun x crs R s => quad_commit_and_prove (R := R) sch' (q x.1 crs) (X' x.1 crs) (Y' x.1 crs) crs s) in
  `|game s1 s2 real_crs B1 - game s1 s2 real_crs B2| = ddh_adv s1 D * ((#|F|)%:R / (#|F|.-1)%:R).
Proof. exact: @nec_C78_quad_X. Qed.
Print Assumptions C78_quad_X.

Example C78_quad_X_case : let s := fun o : F7f => o : F7o in
  let T (x : unit * nz F7f) (crs : CRS toy) r := if r is Ok v then ask_com1 (e := toy_e) toy_D x crs (nth 0 v.1.1 0 - k1 (E := toy) crs (nth 0 xs0 0)) else false in
  let B1 := proof_test (N := (2 + (1 + 1))%N) T public (fun _ crs R s => quad_commit_and_prove (E := toy) (R := R) fwd quad0 xs0 ys0 crs s) in
  let B2 := proof_test (N := (2 + (1 + 1))%N) T public (fun _ crs R s => quad_commit_and_prove (E := toy) (R := R) bwd quad0 xs1 ys1 crs s) in
  `|game (F := F7f) (e := toy_e) s s real_crs B1 - game s s real_crs B2| = 6%:R / 7%:R.
Proof.
move=> s T B1 B2; have -> : 6%:R / 7%:R = ddh_adv (G := F7o) s toy_D * (#|F7f|%:R / #|F7f|.-1%:R) :> rat by rewrite toy_ddh card_F7; exact/eqP.
apply: (C78_quad_X (F := F7f) (e := toy_e) (X := fun _ _ => xs0) (Y := fun _ _ => ys0) (X' := fun _ _ => xs1) (Y' := fun _ _ => ys1) (q := fun _ _ => quad0) (m := 2) (n := 1) (i := 0) s s toy_D fwd_valid bwd_valid) => //; first by rewrite card_F7.
by move=> _ _; exact: quad0_wf.
Qed.

Theorem C78_quad_Y : forall (F : finFieldType) (A B C : lmodType F) (e : A -> B -> C), let E := Pairing e in
  forall (O1 O2 W : finType) (s1 : O1 -> A) (s2 : O2 -> B) (D : W -> B -> B -> B -> B -> bool) (sch sch' : sched) (m n i : nat)
  (q : W -> CRS E -> QuadEqu E) (X X' : W -> CRS E -> seq F) (Y Y' : W -> CRS E -> seq F),
  valid_sched sch -> valid_sched sch' -> (0 < #|O1|)%N -> (0 < m)%N ->
  (forall w crs, [/\ size (X w crs) = m, size (Y w crs) = n, size (X' w crs) = m & size (Y' w crs) = n]) ->
  (forall w crs, quad_wf (q w crs) m n) -> (i < n)%N -> (forall w crs, nth 0 (Y w crs) i <> nth 0 (Y' w crs) i) ->
  let T (x : W * nz F) crs r := if r is Ok v then ask_com2 (e := e) D x crs (nth 0 v.1.2 i - k2 (E := E) crs (nth 0 (Y x.1 crs) i)) else false in
  let B1 := proof_test (N := (m + (n + 1))%N) T public (fun x crs R s => quad_commit_and_prove (R := R) sch (q x.1 crs) (X x.1 crs) (Y x.1 crs) crs s) in
  let B2 := proof_test (N := (m + (n + 1))%N) T public (fun x crs R s => quad_commit_and_prove (R := R) sch' (q x.1 crs) (X' x.1 crs) (Y' x.1 crs) crs s) in
  `|game s1 s2 real_crs B1 - game s1 s2 real_crs B2| = ddh_adv s2 D * ((#|F|)%:R / (#|F|.-1)%:R).
Proof. exact: @nec_C78_quad_Y. Qed.
Print Assumptions C78_quad_Y.

Example C78_quad_Y_case : let s := fun o : F7f => o : F7o in
  let T (x : unit * nz F7f) (crs : CRS toy) r := if r is Ok v then ask_com2 (e := toy_e) toy_D x crs (nth 0 v.1.2 0 - k2 (E := toy) crs (nth 0 ys0 0)) else false in
  let B1 := proof_test (N := (2 + (1 + 1))%N) T public (fun _ crs R s => quad_commit_and_prove (E := toy) (R := R) fwd quad0 xs0 ys0 crs s) in
  let B2 := proof_test (N := (2 + (1 + 1))%N) T public (fun _ crs R s => quad_commit_and_prove (E := toy) (R := R) bwd quad0 xs1 ys1 crs s) in
  `|game (F := F7f) (e := toy_e) s s real_crs B1 - game s s real_crs B2| = 6%:R / 7%:R.
Proof.
move=> s T B1 B2; have -> : 6%:R / 7%:R = ddh_adv (G := F7o) s toy_D * (#|F7f|%:R / #|F7f|.-1%:R) :> rat by rewrite toy_ddh card_F7; exact/eqP.
apply: (C78_quad_Y (F := F7f) (e := toy_e) (X := fun _ _ => xs0) (Y := fun _ _ => ys0) (X' := fun _ _ => xs1) (Y' := fun _ _ => ys1) (q := fun _ _ => quad0) (m := 2) (n := 1) (i := 0) s s toy_D fwd_valid bwd_valid) => //; first by rewrite card_F7.
by move=> _ _; exact: quad0_wf.
Qed.
