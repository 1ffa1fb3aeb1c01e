(** Systems of equations: how a program uses the library for several equations,
    of any of the four types, about shared variables. Specifications: the functions
    below only call functions of the model. *)
From mathcomp Require Import all_ssreflect all_algebra.
From Verif Require Import Base Group DataStructures Generator Commit Statement Prove Verify Spec SpecVerify SpecHide.
Set Implicit Arguments.
Unset Strict Implicit.
Unset Printing Implicit Defensive.
Import GRing.Theory.
Local Open Scope ring_scope.

Section SpecMulti.
Context {E : pairing}.

(** An assignment: variables in G1, scalars committed to in the first group,
    variables in G2, scalars committed to in the second group. *)
Record assign := mkAssign { aX : seq (G1 E); ax : seq (Fr E); aY : seq (G2 E); ay : seq (Fr E) }.
Definition same_sizes (v w : assign) : Prop :=
  [/\ size (aX v) = size (aX w), size (ax v) = size (ax w), size (aY v) = size (aY w) & size (ay v) = size (ay w)].
(** All variables zero. *)
Definition zero_assign (v : assign) : assign :=
  mkAssign (nseq (size (aX v)) 0) (nseq (size (ax v)) 0) (nseq (size (aY v)) 0) (nseq (size (ay v)) 0).

(** An equation of any type. *)
Inductive eqn := EqPPE of PPE E | EqMS1 of MSMEG1 E | EqMS2 of MSMEG2 E | EqQuad of QuadEqu E.

Definition eqn_holds (q : eqn) (v : assign) : Prop :=
  match q with
  | EqPPE q => ppe_holds q (aX v) (aY v)
  | EqMS1 q => ms1_holds q (aX v) (ay v)
  | EqMS2 q => ms2_holds q (ax v) (aY v)
  | EqQuad q => quad_holds q (ax v) (ay v)
  end.

(** The equation is about all the variables of the two kinds it uses, at least one each. *)
Definition eqn_wf (q : eqn) (v : assign) : Prop :=
  match q with
  | EqPPE q => [/\ (0 < size (aX v))%N, (0 < size (aY v))%N & ppe_wf q (size (aX v)) (size (aY v))]
  | EqMS1 q => [/\ (0 < size (aX v))%N, (0 < size (ay v))%N & ms1_wf q (size (aX v)) (size (ay v))]
  | EqMS2 q => [/\ (0 < size (ax v))%N, (0 < size (aY v))%N & ms2_wf q (size (ax v)) (size (aY v))]
  | EqQuad q => [/\ (0 < size (ax v))%N, (0 < size (ay v))%N & quad_wf q (size (ax v)) (size (ay v))]
  end.

(** The commitments to the four kinds of variables. *)
Record coms4 := mkComs4 { cX : Commit1 E; cx : Commit1 E; cY : Commit2 E; cy : Commit2 E }.

(** [prove] and [verify] of an equation, with the commitments it is about. *)
Definition eqn_prove (sch : sched) (R : rng E) (q : eqn) (v : assign) (c : coms4) (crs : CRS E) (s : rst R)
  : res (EquProof E * rst R) :=
  match q with
  | EqPPE q => ppe_prove sch q (aX v) (aY v) (cX c) (cY c) crs s
  | EqMS1 q => ms1_prove sch q (aX v) (ay v) (cX c) (cy c) crs s
  | EqMS2 q => ms2_prove sch q (ax v) (aY v) (cx c) (cY c) crs s
  | EqQuad q => quad_prove sch q (ax v) (ay v) (cx c) (cy c) crs s
  end.

Definition eqn_verify (sch : sched) (q : eqn) (c : coms4) (pf : EquProof E) (crs : CRS E) : res bool :=
  match q with
  | EqPPE q => ppe_verify sch q (mkCProof (cX c) (cY c) [:: pf]) crs
  | EqMS1 q => ms1_verify sch q (mkCProof (cX c) (cy c) [:: pf]) crs
  | EqMS2 q => ms2_verify sch q (mkCProof (cx c) (cY c) [:: pf]) crs
  | EqQuad q => quad_verify sch q (mkCProof (cx c) (cy c) [:: pf]) crs
  end.

(** Batch commitment, not called for an empty list. *)
Definition commit_if {V St : Type} {F : fieldType} {G : lmodType F}
  (f : seq V -> CRS E -> St -> res (commit G * St)) (X : seq V) (crs : CRS E) (s : St) : res (commit G * St) :=
  if X is [::] then Ok (mkCommit [::] [::], s) else f X crs s.

Definition commit_all (R : rng E) (v : assign) (crs : CRS E) (s : rst R) : res (coms4 * rst R) :=
  let! (a, s) := commit_if (fun X crs s => batch_commit_G1 X crs s) (aX v) crs s in
  let! (b, s) := commit_if (fun X crs s => batch_commit_scalar_to_B1 X crs s) (ax v) crs s in
  let! (c, s) := commit_if (fun X crs s => batch_commit_G2 X crs s) (aY v) crs s in
  let! (d, s) := commit_if (fun X crs s => batch_commit_scalar_to_B2 X crs s) (ay v) crs s in
  Ok (mkComs4 a b c d, s).

(** One proof per equation, in order. *)
Fixpoint prove_all (sch : sched) (R : rng E) (qs : seq eqn) (v : assign) (c : coms4) (crs : CRS E) (s : rst R)
  : res (seq (EquProof E) * rst R) :=
  match qs with
  | [::] => Ok ([::], s)
  | q :: qs =>
    let! (pf, s) := eqn_prove sch q v c crs s in
    let! (pfs, s) := prove_all sch qs v c crs s in
    Ok (pf :: pfs, s)
  end.

(** Commit to all variables once, then prove all equations. *)
Definition prove_system (sch : sched) (R : rng E) (qs : seq eqn) (v : assign) (crs : CRS E) (s : rst R)
  : res ((coms4 * seq (EquProof E)) * rst R) :=
  let! (c, s) := commit_all v crs s in
  let! (pfs, s) := prove_all sch qs v c crs s in
  Ok ((c, pfs), s).

(** Accept when there is one proof per equation and each is accepted. *)
Fixpoint verify_system (sch : sched) (qs : seq eqn) (c : coms4) (pfs : seq (EquProof E)) (crs : CRS E) : res bool :=
  match qs, pfs with
  | [::], [::] => Ok true
  | q :: qs, pf :: pfs =>
    let! b := eqn_verify sch q c pf crs in
    if b then verify_system sch qs c pfs crs else Ok false
  | _, _ => Ok false
  end.

(** What is published. *)
Definition public_system (p : coms4 * seq (EquProof E)) :=
  (coms (cX p.1), coms (cx p.1), coms (cY p.1), coms (cy p.1), [seq (pi f, theta f, equ_type f) | f <- p.2]).

(** Scalars drawn: two per group element, one per scalar, and those of the proofs. *)
Definition eqn_draws (q : eqn) : nat :=
  match q with EqPPE _ => 4 | EqMS1 _ => 2 | EqMS2 _ => 2 | EqQuad _ => 1 end.
Definition system_draws (qs : seq eqn) (v : assign) : nat :=
  (2 * size (aX v) + size (ax v) + 2 * size (aY v) + size (ay v) + sumn [seq eqn_draws q | q <- qs])%N.

(** How a target in GT is given to the simulator: [e(k g1, Q) + e(P, l g2)]. Not used for the other types. *)
Record gt_form := mkForm { f_k : Fr E; f_l : Fr E; f_P : G1 E; f_Q : G2 E }.
Definition eqn_form (crs : CRS E) (q : eqn) (g : gt_form) : Prop :=
  if q is EqPPE q then ppe_target q = pair_e (f_k g *: g1_gen crs) (f_Q g) + pair_e (f_P g) (f_l g *: g2_gen crs) else True.

(** The corrections of the simulators of SpecHide.v, equation by equation. *)
Definition fix_dp (t1 t2 : Fr E) (crs : CRS E) (q : eqn) (g : gt_form) : seq (Com2 E) :=
  match q with
  | EqPPE _ => [:: (0, - ((f_k g * t1) *: f_Q g)); (0, f_k g *: f_Q g)]
  | EqMS1 _ => [::]
  | EqMS2 q => [:: (0, - (t1 *: ms2_target q))]
  | EqQuad q => [:: - ((t1 * t2 * quad_target q) *: v1 crs)]
  end.
Definition fix_dt (t1 t2 : Fr E) (q : eqn) (g : gt_form) : seq (Com1 E) :=
  match q with
  | EqPPE _ => [:: (0, - ((f_l g * t2) *: f_P g)); (0, f_l g *: f_P g)]
  | EqMS1 q => [:: (0, - (t2 *: ms1_target q))]
  | EqMS2 _ => [::]
  | EqQuad _ => [::]
  end.
Fixpoint fix_proofs (t1 t2 : Fr E) (crs : CRS E) (qs : seq (eqn * gt_form)) (pfs : seq (EquProof E)) : seq (EquProof E) :=
  match qs, pfs with
  | (q, g) :: qs, pf :: pfs => correct_pf (fix_dp t1 t2 crs q g) (fix_dt t1 t2 q g) pf :: fix_proofs t1 t2 crs qs pfs
  | _, _ => [::]
  end.
Definition fix_system (t1 t2 : Fr E) (crs : CRS E) (qs : seq (eqn * gt_form)) (p : coms4 * seq (EquProof E)) :=
  (p.1, fix_proofs t1 t2 crs qs p.2).

(** For every element of a list. *)
Fixpoint every {T : Type} (P : T -> Prop) (s : seq T) : Prop := if s is x :: s then P x /\ every P s else True.
End SpecMulti.
Arguments assign : clear implicits.
Arguments eqn : clear implicits.
Arguments coms4 : clear implicits.
Arguments gt_form : clear implicits.
