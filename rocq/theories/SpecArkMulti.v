(** The systems of [SpecMulti.v] and the sessions of [SpecAdaptive.v] over affine and projective points.
    Specifications: the functions below only call functions of [Ark.v]. *)
From mathcomp Require Import all_ssreflect all_algebra.
From Verif Require Import Base Group DataStructures Generator Commit Statement Prove Verify Spec SpecVerify SpecHide SpecSxdh SpecMulti.
From Verif Require Import Ark SpecArk SpecArkGame SpecArkZk.
Set Implicit Arguments.
Unset Strict Implicit.
Unset Printing Implicit Defensive.
Import GRing.Theory.
Local Open Scope ring_scope.

Section ArkMulti.
Context {F : fieldType} {A : ark F}.

(** An assignment: points of the first curve, scalars committed to in the first group, points of the second
    curve, scalars committed to in the second group. *)
Record ark_assign := ark_mkAssign {
  ark_aX : seq (aff (C1 A)); ark_ax : seq F; ark_aY : seq (aff (C2 A)); ark_ay : seq F }.
(** All variables zero. *)
Definition ark_zero_assign (v : ark_assign) : ark_assign :=
  ark_mkAssign (nseq (size (ark_aX v)) (aff_zero (C1 A))) (nseq (size (ark_ax v)) 0)
    (nseq (size (ark_aY v)) (aff_zero (C2 A))) (nseq (size (ark_ay v)) 0).

(** An equation of any type. *)
Inductive ark_eqn := ArkPPE of ark_PPE A | ArkMS1 of ark_MSMEG1 A | ArkMS2 of ark_MSMEG2 A | ArkQuad of ark_QuadEqu F.

(** The commitments to the four kinds of variables. *)
Record ark_coms4 := ark_mkComs4 { ark_cX : ark_Commit1 A; ark_cx : ark_Commit1 A; ark_cY : ark_Commit2 A; ark_cy : ark_Commit2 A }.

(** [prove] and [verify] of an equation, with the commitments it is about. *)
Definition ark_eqn_prove (sch : sched) (R : ark_rng A) (q : ark_eqn) (v : ark_assign) (c : ark_coms4) (d : ark_CRS A)
  (s : ark_rst R) : res (ark_EquProof A * ark_rst R) :=
  match q with
  | ArkPPE q => ark_ppe_prove sch q (ark_aX v) (ark_aY v) (ark_cX c) (ark_cY c) d s
  | ArkMS1 q => ark_ms1_prove sch q (ark_aX v) (ark_ay v) (ark_cX c) (ark_cy c) d s
  | ArkMS2 q => ark_ms2_prove sch q (ark_ax v) (ark_aY v) (ark_cx c) (ark_cY c) d s
  | ArkQuad q => ark_quad_prove sch q (ark_ax v) (ark_ay v) (ark_cx c) (ark_cy c) d s
  end.
Definition ark_eqn_verify (sch : sched) (q : ark_eqn) (c : ark_coms4) (pf : ark_EquProof A) (d : ark_CRS A) : res bool :=
  match q with
  | ArkPPE q => ark_ppe_verify sch q (ark_mkCProof (ark_cX c) (ark_cY c) [:: pf]) d
  | ArkMS1 q => ark_ms1_verify sch q (ark_mkCProof (ark_cX c) (ark_cy c) [:: pf]) d
  | ArkMS2 q => ark_ms2_verify sch q (ark_mkCProof (ark_cx c) (ark_cY c) [:: pf]) d
  | ArkQuad q => ark_quad_verify sch q (ark_mkCProof (ark_cx c) (ark_cy c) [:: pf]) d
  end.

(** Batch commitment, not called for an empty list. *)
Definition ark_commit_if {V St : Type} {C : curve F}
  (f : seq V -> ark_CRS A -> St -> res (ark_commit C * St)) (X : seq V) (d : ark_CRS A) (s : St) : res (ark_commit C * St) :=
  if X is [::] then Ok (ark_mkCommit [::] [::], s) else f X d s.
Definition ark_commit_all (R : ark_rng A) (v : ark_assign) (d : ark_CRS A) (s : ark_rst R) : res (ark_coms4 * ark_rst R) :=
  let! (a, s) := ark_commit_if (fun X d s => ark_batch_commit_G1 X d s) (ark_aX v) d s in
  let! (b, s) := ark_commit_if (fun X d s => ark_batch_commit_scalar_to_B1 X d s) (ark_ax v) d s in
  let! (c, s) := ark_commit_if (fun X d s => ark_batch_commit_G2 X d s) (ark_aY v) d s in
  let! (e, s) := ark_commit_if (fun X d s => ark_batch_commit_scalar_to_B2 X d s) (ark_ay v) d s in
  Ok (ark_mkComs4 a b c e, s).

(** One proof per equation, in order. *)
Fixpoint ark_prove_all (sch : sched) (R : ark_rng A) (qs : seq ark_eqn) (v : ark_assign) (c : ark_coms4) (d : ark_CRS A)
  (s : ark_rst R) : res (seq (ark_EquProof A) * ark_rst R) :=
  match qs with
  | [::] => Ok ([::], s)
  | q :: qs =>
    let! (pf, s) := ark_eqn_prove sch q v c d s in
    let! (pfs, s) := ark_prove_all sch qs v c d s in
    Ok (pf :: pfs, s)
  end.

(** Commit to all variables once, then prove all equations. *)
Definition ark_prove_system (sch : sched) (R : ark_rng A) (qs : seq ark_eqn) (v : ark_assign) (d : ark_CRS A) (s : ark_rst R)
  : res ((ark_coms4 * seq (ark_EquProof A)) * ark_rst R) :=
  let! (c, s) := ark_commit_all v d s in
  let! (pfs, s) := ark_prove_all sch qs v c d s in
  Ok ((c, pfs), s).

(** Accept when there is one proof per equation and each is accepted. *)
Fixpoint ark_verify_system (sch : sched) (qs : seq ark_eqn) (c : ark_coms4) (pfs : seq (ark_EquProof A)) (d : ark_CRS A) : res bool :=
  match qs, pfs with
  | [::], [::] => Ok true
  | q :: qs, pf :: pfs =>
    let! b := ark_eqn_verify sch q c pf d in
    if b then ark_verify_system sch qs c pfs d else Ok false
  | _, _ => Ok false
  end.

(** What is published about a system. *)
Definition ark_answer : Type := (seq (ark_Com1 A) * seq (ark_Com1 A) * seq (ark_Com2 A) * seq (ark_Com2 A)
  * seq (seq (ark_Com2 A) * seq (ark_Com1 A) * EquType))%type.
Definition ark_public_system (p : ark_coms4 * seq (ark_EquProof A)) : ark_answer :=
  (ark_coms (ark_cX p.1), ark_coms (ark_cx p.1), ark_coms (ark_cY p.1), ark_coms (ark_cy p.1),
   [seq (ark_pi f, ark_theta f, ark_equ_type f) | f <- p.2]).

(** How a target in GT is given to the simulator. *)
Record ark_gt_form := ark_mkForm { ark_f_k : F; ark_f_l : F; ark_f_P : aff (C1 A); ark_f_Q : aff (C2 A) }.
End ArkMulti.
Arguments ark_assign {F} A.
Arguments ark_eqn {F} A.
Arguments ark_coms4 {F} A.
Arguments ark_answer {F} A.
Arguments ark_gt_form {F} A.

(** Representation of these structures, part by part. *)
Section Relations.
Context {E : pairing} {A : ark (Fr E)}.
Variables (r1 : repr (G1 E) (C1 A)) (r2 : repr (G2 E) (C2 A)) (rt : GT E -> out A -> Prop).
Definition rassign (v : assign E) (w : ark_assign A) : Prop :=
  [/\ rseq (ra r1) (aX v) (ark_aX w), ax v = ark_ax w, rseq (ra r2) (aY v) (ark_aY w) & ay v = ark_ay w].
Definition reqn (q : eqn E) (f : ark_eqn A) : Prop :=
  match q, f with
  | EqPPE q, ArkPPE f => rppe r1 r2 rt q f
  | EqMS1 q, ArkMS1 f => rms1 r1 q f
  | EqMS2 q, ArkMS2 f => rms2 r2 q f
  | EqQuad q, ArkQuad f => rquad q f
  | _, _ => False
  end.
Definition rcoms4 (c : coms4 E) (d : ark_coms4 A) : Prop :=
  [/\ rcommit r1 (cX c) (ark_cX d), rcommit r1 (cx c) (ark_cx d), rcommit r2 (cY c) (ark_cY d) & rcommit r2 (cy c) (ark_cy d)].
Definition rform (g : gt_form E) (f : ark_gt_form A) : Prop :=
  [/\ f_k g = ark_f_k f, f_l g = ark_f_l f, ra r1 (f_P g) (ark_f_P f) & ra r2 (f_Q g) (ark_f_Q f)].
End Relations.

(** ** Sessions *)
Section ArkSession.
Context {F : fieldType} {A : ark F}.
(** [k] further requests, after the answers [h]; as [session] of SpecAdaptive.v. *)
Fixpoint ark_session {T V : Type} (prove : seq V -> forall R : ark_rng A, ark_rst R -> res (T * ark_rst R))
  (view : seq V -> T -> V) (k : nat) (h : seq V) (R : ark_rng A) (s : ark_rst R) : res (seq V * ark_rst R) :=
  if k is k.+1 then let! (p, s) := prove h R s in ark_session prove view k (rcons h (view h p)) s else Ok (h, s).

(** Honest answers to [k] requests. *)
Definition ark_prover (sch : sched) (k : nat) (qs : seq (ark_answer A) -> seq (ark_eqn A)) (v : seq (ark_answer A) -> ark_assign A)
  (d : ark_CRS A) : forall R : ark_rng A, ark_rst R -> res (seq (ark_answer A) * ark_rst R) :=
  ark_session (fun h R s => ark_prove_system (R := R) sch (qs h) (v h) d s) (fun _ p => ark_public_system p) k [::].
End ArkSession.

Section ArkSimulator.
Context {F : finFieldType} {A : ark F}.
(** The corrections of SpecArkZk.v, equation by equation. *)
Definition ark_fix_dp (t1 t2 : F) (d : ark_CRS A) (q : ark_eqn A) (g : ark_gt_form A) : seq (ark_Com2 A) :=
  match q with
  | ArkPPE _ => [:: minus_times (ark_f_k g * t1) (ark_f_Q g); times (ark_f_k g) (ark_f_Q g)]
  | ArkMS1 _ => [::]
  | ArkMS2 q => [:: minus_times t1 (ark_ms2_target q)]
  | ArkQuad q => [:: ark_com_neg (ark_com_scalar_mul (nth ark_com_zero (ark_crs_v d) 0) (t1 * t2 * ark_quad_target q))]
  end.
Definition ark_fix_dt (t1 t2 : F) (q : ark_eqn A) (g : ark_gt_form A) : seq (ark_Com1 A) :=
  match q with
  | ArkPPE _ => [:: minus_times (ark_f_l g * t2) (ark_f_P g); times (ark_f_l g) (ark_f_P g)]
  | ArkMS1 q => [:: minus_times t2 (ark_ms1_target q)]
  | ArkMS2 _ => [::]
  | ArkQuad _ => [::]
  end.
Fixpoint ark_fix_proofs (t1 t2 : F) (d : ark_CRS A) (qs : seq (ark_eqn A * ark_gt_form A)) (pfs : seq (ark_EquProof A)) : seq (ark_EquProof A) :=
  match qs, pfs with
  | (q, g) :: qs, pf :: pfs => ark_correct_pf (ark_fix_dp t1 t2 d q g) (ark_fix_dt t1 t2 q g) pf :: ark_fix_proofs t1 t2 d qs pfs
  | _, _ => [::]
  end.
Definition ark_fix_system (t1 t2 : F) (d : ark_CRS A) (qs : seq (ark_eqn A * ark_gt_form A)) (p : ark_coms4 A * seq (ark_EquProof A)) :=
  (p.1, ark_fix_proofs t1 t2 d qs p.2).

(** Simulated answers: all variables are zero, and each proof is corrected with the trapdoors before it is shown. *)
Definition ark_simulator (t1 t2 : F) (sch : sched) (k : nat) (qs : seq (ark_answer A) -> seq (ark_eqn A * ark_gt_form A))
  (v : seq (ark_answer A) -> ark_assign A) (d : ark_CRS A) : forall R : ark_rng A, ark_rst R -> res (seq (ark_answer A) * ark_rst R) :=
  ark_session (fun h R s => ark_prove_system (R := R) sch [seq q.1 | q <- qs h] (ark_zero_assign (v h)) d s)
    (fun h p => ark_public_system (ark_fix_system t1 t2 d (qs h) p)) k [::].

(** A test of reference strings and answers as a test of reference strings. *)
Definition ark_session_test {W : finType} {V : Type} (N : nat) (D : W -> ark_CRS A -> pred (res V))
  (f : W -> ark_CRS A -> forall R : ark_rng A, ark_rst R -> res (V * ark_rst R)) (x : W * N.-tuple F) (d : ark_CRS A) : bool :=
  D x.1 d (seen id (f x.1 d ark_tape (tval x.2 : seq F))).
(** The test [D] on a hiding reference string and simulated answers. *)
Definition ark_sim_session {O1 O2 W : finType} {V : Type} (N : nat) (D : W -> ark_CRS A -> pred (res V))
  (s1 : O1 -> prj (C1 A)) (s2 : O2 -> prj (C2 A))
  (f : F -> F -> W -> ark_CRS A -> forall R : ark_rng A, ark_rst R -> res (V * ark_rst R)) : rat :=
  Pr (fun x : (W * N.-tuple F) * (O1 * O2 * (F * F * F * F)) =>
    let: ((w, t), (o1, o2, (a1, a2, t1, t2))) := x in let d := ark_sim_crs (s1 o1) (s2 o2) a1 a2 t1 t2 in
    D w d (seen id (f t1 t2 w d ark_tape (tval t : seq F)))).
End ArkSimulator.
