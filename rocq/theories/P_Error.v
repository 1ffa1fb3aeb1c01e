(** Property C74: how likely it is that a generated reference string is not sound or not binding. *)
From mathcomp Require Import all_ssreflect all_algebra.
From Verif Require Import Base Group DataStructures Generator Commit Statement Prove Verify Spec SpecVerify SpecHide SpecSxdh SpecError Main Sxdh ErrorLemmas Concrete Concrete4 Concrete5.
Set Implicit Arguments.
Unset Strict Implicit.
Unset Printing Implicit Defensive.
Import Order.Theory GRing.Theory Num.Theory.
Local Open Scope ring_scope.

(** C74: no adversary has a false pairing product equation accepted under a generated reference string. *)
Theorem C74_ppe_never : forall (F : finFieldType) (A B C : lmodType F) (e : A -> B -> C), let E := Pairing e in
  forall (O1 O2 W : finType) (s1 : O1 -> A) (s2 : O2 -> B) (sch : sched) (lie : pred (PPE E)) (adv : W -> CRS E -> PPE E * CProof E),
  bilinear E -> valid_sched sch -> (forall q X Y, lie q -> ~ ppe_holds (E := E) q X Y) -> forgery s1 s2 (ppe_verify sch) lie adv = 0.
Proof. exact: @err_ppe_never. Qed.
Print Assumptions C74_ppe_never.

(** C74: the probability that a false MSMEG1 equation is accepted is at most that of an identity generator. *)
Theorem C74_ms1_bound : forall (F : finFieldType) (A B C : lmodType F) (e : A -> B -> C), let E := Pairing e in
  forall (O1 O2 W : finType) (s1 : O1 -> A) (s2 : O2 -> B) (sch : sched) (lie : pred (MSMEG1 E)) (adv : W -> CRS E -> MSMEG1 E * CProof E),
  bilinear E -> nondegenerate E -> cyclic B -> valid_sched sch -> (forall q X Y, lie q -> ~ ms1_holds (E := E) q X Y) ->
  forgery s1 s2 (ms1_verify sch) lie adv <= Pr (fun o => s2 o == 0).
Proof. exact: @err_ms1_bound. Qed.
Print Assumptions C74_ms1_bound.

(** C74: an adversary reaches this probability, with one false equation. *)
Theorem C74_ms1_tight : forall (F : finFieldType) (A B C : lmodType F) (e : A -> B -> C), let E := Pairing e in
  forall (O1 O2 W : finType) (s1 : O1 -> A) (s2 : O2 -> B) (sch : sched),
  bilinear E -> nondegenerate E -> cyclic B -> valid_sched sch -> (0 < #|O1|)%N -> (0 < #|W|)%N -> (exists P : A, P != 0) ->
  exists (q : MSMEG1 E) (adv : W -> CRS E -> CProof E), (forall X Y, ~ ms1_holds q X Y) /\
  forgery s1 s2 (ms1_verify sch) predT (fun w crs => (q, adv w crs)) = Pr (fun o => s2 o == 0).
Proof. exact: @err_ms1_tight. Qed.
Print Assumptions C74_ms1_tight.

(** C74: the probability that a false MSMEG2 equation is accepted is at most that of an identity generator. *)
Theorem C74_ms2_bound : forall (F : finFieldType) (A B C : lmodType F) (e : A -> B -> C), let E := Pairing e in
  forall (O1 O2 W : finType) (s1 : O1 -> A) (s2 : O2 -> B) (sch : sched) (lie : pred (MSMEG2 E)) (adv : W -> CRS E -> MSMEG2 E * CProof E),
  bilinear E -> nondegenerate E -> cyclic A -> valid_sched sch -> (forall q X Y, lie q -> ~ ms2_holds (E := E) q X Y) ->
  forgery s1 s2 (ms2_verify sch) lie adv <= Pr (fun o => s1 o == 0).
Proof. exact: @err_ms2_bound. Qed.
Print Assumptions C74_ms2_bound.

(** C74: an adversary reaches this probability, with one false equation. *)
Theorem C74_ms2_tight : forall (F : finFieldType) (A B C : lmodType F) (e : A -> B -> C), let E := Pairing e in
  forall (O1 O2 W : finType) (s1 : O1 -> A) (s2 : O2 -> B) (sch : sched),
  bilinear E -> nondegenerate E -> cyclic A -> valid_sched sch -> (0 < #|O2|)%N -> (0 < #|W|)%N -> (exists P : B, P != 0) ->
  exists (q : MSMEG2 E) (adv : W -> CRS E -> CProof E), (forall X Y, ~ ms2_holds q X Y) /\
  forgery s1 s2 (ms2_verify sch) predT (fun w crs => (q, adv w crs)) = Pr (fun o => s1 o == 0).
Proof. exact: @err_ms2_tight. Qed.
Print Assumptions C74_ms2_tight.

(** C74: the probability that a false QuadEqu equation is accepted is at most that of an identity generator. *)
Theorem C74_quad_bound : forall (F : finFieldType) (A B C : lmodType F) (e : A -> B -> C), let E := Pairing e in
  forall (O1 O2 W : finType) (s1 : O1 -> A) (s2 : O2 -> B) (sch : sched) (lie : pred (QuadEqu E)) (adv : W -> CRS E -> QuadEqu E * CProof E),
  bilinear E -> nondegenerate E -> cyclic A -> cyclic B -> valid_sched sch -> (forall q X Y, lie q -> ~ quad_holds (E := E) q X Y) ->
  forgery s1 s2 (quad_verify sch) lie adv <= Pr (fun o => (s1 o.1 == 0) || (s2 o.2 == 0)).
Proof. exact: @err_quad_bound. Qed.
Print Assumptions C74_quad_bound.

(** C74: an adversary reaches this probability, with one false equation. *)
Theorem C74_quad_tight : forall (F : finFieldType) (A B C : lmodType F) (e : A -> B -> C), let E := Pairing e in
  forall (O1 O2 W : finType) (s1 : O1 -> A) (s2 : O2 -> B) (sch : sched),
  bilinear E -> nondegenerate E -> cyclic A -> cyclic B -> valid_sched sch -> (0 < #|W|)%N ->
  exists (q : QuadEqu E) (adv : W -> CRS E -> CProof E), (forall X Y, ~ quad_holds q X Y) /\
  forgery s1 s2 (quad_verify sch) predT (fun w crs => (q, adv w crs)) = Pr (fun o => (s1 o.1 == 0) || (s2 o.2 == 0)).
Proof. exact: @err_quad_tight. Qed.
Print Assumptions C74_quad_tight.

(** C74: for uniform points of groups of orders p1 and p2 these are 1/p1, 1/p2 and 1/p1 + 1/p2 - 1/(p1 p2). *)
Theorem C74_uniform : forall (F : finFieldType) (A B : lmodType F) (O1 O2 : finType) (s1 : O1 -> A) (s2 : O2 -> B),
  injective s1 -> injective s2 -> (exists o, s1 o = 0) -> (exists o, s2 o = 0) ->
  [/\ Pr (fun o => s1 o == 0) = (#|O1|)%:R^-1, Pr (fun o => s2 o == 0) = (#|O2|)%:R^-1 &
      Pr (fun o => (s1 o.1 == 0) || (s2 o.2 == 0)) = (#|O1|)%:R^-1 + (#|O2|)%:R^-1 - (#|O1| * #|O2|)%:R^-1].
Proof. exact: @err_uniform. Qed.
Print Assumptions C74_uniform.

(** C74: no adversary opens a commitment to an element of G1 to two values. *)
Theorem C74_G1_binding : forall (F : finFieldType) (A B C : lmodType F) (e : A -> B -> C), let E := Pairing e in
  forall (O1 O2 W : finType) (s1 : O1 -> A) (s2 : O2 -> B) (adv : W -> CRS E -> (A * seq F) * (A * seq F)),
  double_opening s1 s2 (fun x crs R s => @commit_G1 E R x crs s) adv = 0.
Proof. exact: @err_G1_binding. Qed.
Print Assumptions C74_G1_binding.

(** C74: no adversary opens a commitment to an element of G2 to two values. *)
Theorem C74_G2_binding : forall (F : finFieldType) (A B C : lmodType F) (e : A -> B -> C), let E := Pairing e in
  forall (O1 O2 W : finType) (s1 : O1 -> A) (s2 : O2 -> B) (adv : W -> CRS E -> (B * seq F) * (B * seq F)),
  double_opening s1 s2 (fun x crs R s => @commit_G2 E R x crs s) adv = 0.
Proof. exact: @err_G2_binding. Qed.
Print Assumptions C74_G2_binding.

(** C74: a scalar commitment in B1 is opened to two values at most with the probability of an identity generator... *)
Theorem C74_B1_binding : forall (F : finFieldType) (A B C : lmodType F) (e : A -> B -> C), let E := Pairing e in
  forall (O1 O2 W : finType) (s1 : O1 -> A) (s2 : O2 -> B) (adv : W -> CRS E -> (F * seq F) * (F * seq F)),
  double_opening s1 s2 (fun x crs R s => @commit_scalar_to_B1 E R x crs s) adv <= Pr (fun o => s1 o == 0).
Proof. exact: @err_B1_binding. Qed.
Print Assumptions C74_B1_binding.

(** ... and an adversary reaches it. *)
Theorem C74_B1_tight : forall (F : finFieldType) (A B C : lmodType F) (e : A -> B -> C), let E := Pairing e in
  forall (O1 O2 W : finType) (s1 : O1 -> A) (s2 : O2 -> B),
  (0 < #|W|)%N -> (0 < #|O2|)%N ->
  exists adv : W -> CRS E -> (F * seq F) * (F * seq F),
  double_opening s1 s2 (fun x crs R s => @commit_scalar_to_B1 E R x crs s) adv = Pr (fun o => s1 o == 0).
Proof. exact: @err_B1_tight. Qed.
Print Assumptions C74_B1_tight.

(** C74: a scalar commitment in B2 is opened to two values at most with the probability of an identity generator... *)
Theorem C74_B2_binding : forall (F : finFieldType) (A B C : lmodType F) (e : A -> B -> C), let E := Pairing e in
  forall (O1 O2 W : finType) (s1 : O1 -> A) (s2 : O2 -> B) (adv : W -> CRS E -> (F * seq F) * (F * seq F)),
  double_opening s1 s2 (fun x crs R s => @commit_scalar_to_B2 E R x crs s) adv <= Pr (fun o => s2 o == 0).
Proof. exact: @err_B2_binding. Qed.
Print Assumptions C74_B2_binding.

(** ... and an adversary reaches it. *)
Theorem C74_B2_tight : forall (F : finFieldType) (A B C : lmodType F) (e : A -> B -> C), let E := Pairing e in
  forall (O1 O2 W : finType) (s1 : O1 -> A) (s2 : O2 -> B),
  (0 < #|W|)%N -> (0 < #|O1|)%N ->
  exists adv : W -> CRS E -> (F * seq F) * (F * seq F),
  double_opening s1 s2 (fun x crs R s => @commit_scalar_to_B2 E R x crs s) adv = Pr (fun o => s2 o == 0).
Proof. exact: @err_B2_tight. Qed.
Print Assumptions C74_B2_tight.

(** In the example group, with a uniform point in each group, false equations
    are accepted with probability 1/7, 1/7 and 13/49. *)
Example C74_uniform_case : [/\ Pr (fun o : F7f => (o : F7o) == 0) = 7%:R^-1, Pr (fun o : F7f => (o : F7o) == 0) = 7%:R^-1 &
  Pr (fun o : F7f * F7f => ((o.1 : F7o) == 0) || ((o.2 : F7o) == 0)) = 13%:R / 49%:R].
Proof.
have inj : injective (fun o : F7f => o : F7o) by [].
have [h1 h2 h3] := C74_uniform (s1 := fun o : F7f => o : F7o) (s2 := fun o : F7f => o : F7o) inj inj (ex_intro _ 0 erefl) (ex_intro _ 0 erefl).
rewrite h1 h3 card_F7; split=> //; exact/eqP.
Qed.

Example C74_case : let s := fun o : F7f => o : F7o in
  [/\ exists (q : MSMEG1 toy) (adv : unit -> CRS toy -> CProof toy), (forall X Y, ~ ms1_holds q X Y) /\
        forgery (e := toy_e) s s (ms1_verify fwd) predT (fun w crs => (q, adv w crs)) = 7%:R^-1,
      exists (q : MSMEG2 toy) (adv : unit -> CRS toy -> CProof toy), (forall X Y, ~ ms2_holds q X Y) /\
        forgery (e := toy_e) s s (ms2_verify fwd) predT (fun w crs => (q, adv w crs)) = 7%:R^-1 &
      exists (q : QuadEqu toy) (adv : unit -> CRS toy -> CProof toy), (forall X Y, ~ quad_holds q X Y) /\
        forgery (e := toy_e) s s (quad_verify fwd) predT (fun w crs => (q, adv w crs)) = 13%:R / 49%:R].
Proof.
move=> s; have [u1 u2 u3] := C74_uniform_case.
have nw : (0 < #|unit_finType|)%N by rewrite card_unit.
have no : (0 < #|F7f|)%N by rewrite card_F7.
have n1 : exists P : F7o, P != 0 by exists (1 : F7).
split.
- have [q [adv [h1 h2]]] := C74_ms1_tight (e := toy_e) s s toy_bilinear toy_nondegenerate toy_cyclic fwd_valid no nw n1.
  by exists q, adv; split=> //; rewrite h2 u2.
- have [q [adv [h1 h2]]] := C74_ms2_tight (e := toy_e) s s toy_bilinear toy_nondegenerate toy_cyclic fwd_valid no nw n1.
  by exists q, adv; split=> //; rewrite h2 u1.
- have [q [adv [h1 h2]]] := C74_quad_tight (e := toy_e) s s toy_bilinear toy_nondegenerate toy_cyclic toy_cyclic fwd_valid nw.
  by exists q, adv; split=> //; rewrite h2 u3.
Qed.

(** No adversary does better on this class of false MSMEG1 equations. *)
Example C74_ms1_bound_case : let lie := fun q : MSMEG1 toy => [&& ms1_a q == [:: 0], ms1_b q == [:: 0], ms1_gamma q == [:: [:: 0]] & ms1_target q != 0] in
  let q := mkMSMEG1 (E := toy) [:: 0 : F7] [:: 0 : F7] [:: [:: 0 : F7]] (1 : F7) in
  lie q /\ forall adv : unit -> CRS toy -> CProof toy,
  forgery (e := toy_e) (fun o : F7f => o : F7o) (fun o : F7f => o : F7o) (ms1_verify fwd) lie (fun w crs => (q, adv w crs)) <= 7%:R^-1.
Proof.
move=> lie q; split; first by vm_compute.
move=> adv; have [p1 p2 p3] := C74_uniform_case; rewrite -p2.
apply: (C74_ms1_bound (e := toy_e) _ _ _ toy_bilinear toy_nondegenerate toy_cyclic fwd_valid) => -[a b g t] X Y /and4P [/eqP /= -> /eqP -> /eqP -> nt].
rewrite /ms1_holds /= => h; case/negP: nt; apply/eqP; rewrite -h.
rewrite [X in X + _ + _]big1 ?[X in _ + X + _]big1 ?[X in _ + X]big1 ?addr0 //.
+ by move=> i _; rewrite big1 // => j _; rewrite /entry; case: (nat_of_ord i) => [|i'] /=; case: (nat_of_ord j) => [|j'] /=; rewrite ?nth_nil ?mul0r ?scale0r.
+ by move=> i _; case: (nat_of_ord i) => [|i'] /=; rewrite ?nth_nil ?scaler0 ?scale0r.
+ by move=> i _; case: (nat_of_ord i) => [|i'] /=; rewrite ?nth_nil ?scaler0 ?scale0r.
Qed.

(** No adversary does better on this class of false MSMEG2 equations. *)
Example C74_ms2_bound_case : let lie := fun q : MSMEG2 toy => [&& ms2_a q == [:: 0], ms2_b q == [:: 0], ms2_gamma q == [:: [:: 0]] & ms2_target q != 0] in
  let q := mkMSMEG2 (E := toy) [:: 0 : F7] [:: 0 : F7] [:: [:: 0 : F7]] (1 : F7) in
  lie q /\ forall adv : unit -> CRS toy -> CProof toy,
  forgery (e := toy_e) (fun o : F7f => o : F7o) (fun o : F7f => o : F7o) (ms2_verify fwd) lie (fun w crs => (q, adv w crs)) <= 7%:R^-1.
Proof.
move=> lie q; split; first by vm_compute.
move=> adv; have [p1 p2 p3] := C74_uniform_case; rewrite -p1.
apply: (C74_ms2_bound (e := toy_e) _ _ _ toy_bilinear toy_nondegenerate toy_cyclic fwd_valid) => -[a b g t] X Y /and4P [/eqP /= -> /eqP -> /eqP -> nt].
rewrite /ms2_holds /= => h; case/negP: nt; apply/eqP; rewrite -h.
rewrite [X in X + _ + _]big1 ?[X in _ + X + _]big1 ?[X in _ + X]big1 ?addr0 //.
+ by move=> i _; rewrite big1 // => j _; rewrite /entry; case: (nat_of_ord i) => [|i'] /=; case: (nat_of_ord j) => [|j'] /=; rewrite ?nth_nil ?mul0r ?scale0r.
+ by move=> i _; case: (nat_of_ord i) => [|i'] /=; rewrite ?nth_nil ?scaler0 ?scale0r.
+ by move=> i _; case: (nat_of_ord i) => [|i'] /=; rewrite ?nth_nil ?scaler0 ?scale0r.
Qed.

(** No adversary does better on this class of false QuadEqu equations. *)
Example C74_quad_bound_case : let lie := fun q : QuadEqu toy => [&& quad_a q == [:: 0], quad_b q == [:: 0], quad_gamma q == [:: [:: 0]] & quad_target q != 0] in
  let q := mkQuadEqu (E := toy) [:: 0 : F7] [:: 0 : F7] [:: [:: 0 : F7]] (1 : F7) in
  lie q /\ forall adv : unit -> CRS toy -> CProof toy,
  forgery (e := toy_e) (fun o : F7f => o : F7o) (fun o : F7f => o : F7o) (quad_verify fwd) lie (fun w crs => (q, adv w crs)) <= 13%:R / 49%:R.
Proof.
move=> lie q; split; first by vm_compute.
move=> adv; have [p1 p2 p3] := C74_uniform_case; rewrite -p3.
apply: (C74_quad_bound (e := toy_e) _ _ _ toy_bilinear toy_nondegenerate toy_cyclic toy_cyclic fwd_valid) => -[a b g t] X Y /and4P [/eqP /= -> /eqP -> /eqP -> nt].
rewrite /quad_holds /= => h; case/negP: nt; apply/eqP; rewrite -h.
rewrite [X in X + _ + _]big1 ?[X in _ + X + _]big1 ?[X in _ + X]big1 ?addr0 //.
+ by move=> i _; rewrite big1 // => j _; rewrite /entry; case: (nat_of_ord i) => [|i'] /=; case: (nat_of_ord j) => [|j'] /=; rewrite ?nth_nil ?mul0r.
+ by move=> i _; case: (nat_of_ord i) => [|i'] /=; rewrite ?nth_nil ?mul0r ?mulr0.
+ by move=> i _; case: (nat_of_ord i) => [|i'] /=; rewrite ?nth_nil ?mul0r ?mulr0.
Qed.

(** A class of false pairing product equations, as [C74_ppe_never] asks for. *)
Example C74_ppe_case : let lie := fun q : PPE toy => [&& ppe_a q == [:: 0], ppe_b q == [:: 0], ppe_gamma q == [:: [:: 0]] & ppe_target q != 0] in
  let q := mkPPE (E := toy) [:: 0 : F7] [:: 0 : F7] [:: [:: 0 : F7]] (1 : F7) in
  lie q /\ forall adv : unit -> CRS toy -> CProof toy,
  forgery (e := toy_e) (fun o : F7f => o : F7o) (fun o : F7f => o : F7o) (ppe_verify fwd) lie (fun w crs => (q, adv w crs)) = 0.
Proof.
move=> lie q; split; first by vm_compute.
move=> adv; apply: (C74_ppe_never (e := toy_e) _ _ _ toy_bilinear fwd_valid) => -[a b g t] X Y /and4P [/eqP /= -> /eqP -> /eqP -> nt].
rewrite /ppe_holds /= => h; case/negP: nt; apply/eqP; rewrite -h.
rewrite [X in X + _ + _]big1 ?[X in _ + X + _]big1 ?[X in _ + X]big1 ?addr0 //.
+ by move=> i _; rewrite big1 // => j _; rewrite /entry; case: (nat_of_ord i) => [|i'] /=; case: (nat_of_ord j) => [|j'] /=; rewrite ?nth_nil ?scale0r.
+ by move=> i _; case: (nat_of_ord i) => [|i'] /=; rewrite ?nth_nil /toy_e ?mul0r ?mulr0.
+ by move=> i _; case: (nat_of_ord i) => [|i'] /=; rewrite ?nth_nil /toy_e ?mul0r ?mulr0.
Qed.

(** Double openings in the example group: probability 1/7. *)
Example C74_binding_case : let s := fun o : F7f => o : F7o in
  (exists adv : unit -> CRS toy -> (F7 * seq F7) * (F7 * seq F7),
    double_opening (e := toy_e) s s (fun x crs R s => @commit_scalar_to_B1 toy R x crs s) adv = 7%:R^-1) /\
  (exists adv : unit -> CRS toy -> (F7 * seq F7) * (F7 * seq F7),
    double_opening (e := toy_e) s s (fun x crs R s => @commit_scalar_to_B2 toy R x crs s) adv = 7%:R^-1).
Proof.
move=> s; have [u1 u2 u3] := C74_uniform_case.
have nw : (0 < #|unit_finType|)%N by rewrite card_unit.
have no : (0 < #|F7f|)%N by rewrite card_F7.
split.
- by have [adv h] := C74_B1_tight toy_e s s nw no; exists adv; rewrite h u1.
- by have [adv h] := C74_B2_tight toy_e s s nw no; exists adv; rewrite h u2.
Qed.
