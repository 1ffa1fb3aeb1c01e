(** The simulators of [SpecHide.v] and the simulation game over affine and projective points. *)
From mathcomp Require Import all_ssreflect all_algebra.
From Verif Require Import Base Group DataStructures Generator Commit Statement Prove Spec SpecSxdh Ark SpecArk SpecArkGame.
Set Implicit Arguments.
Unset Strict Implicit.
Unset Printing Implicit Defensive.
Import Order.Theory GRing.Theory Num.Theory.
Local Open Scope ring_scope.

Section Simulator.
Context {F : finFieldType} {A : ark F}.

(** A proof with [dp] added to [pi] and [dt] to [theta]. *)
Definition ark_correct_pf (dp : seq (ark_Com2 A)) (dt : seq (ark_Com1 A)) (f : ark_EquProof A) : ark_EquProof A :=
  ark_mkEquProof
    (mkseq (fun i => ark_com_add (nth ark_com_zero (ark_pi f) i) (nth ark_com_zero dp i)) (size (ark_pi f)))
    (mkseq (fun l => ark_com_add (nth ark_com_zero (ark_theta f) l) (nth ark_com_zero dt l)) (size (ark_theta f)))
    (ark_equ_type f) (ark_pf_rand f).
Definition ark_correct (dp : seq (ark_Com2 A)) (dt : seq (ark_Com1 A)) (p : ark_CProof A) : ark_CProof A :=
  ark_mkCProof (ark_xcoms p) (ark_ycoms p) [seq ark_correct_pf dp dt f | f <- ark_equ_proofs p].
(** The commitment [(0, k a)] and its inverse. *)
Definition times {C : curve F} (k : F) (a : aff C) : ark_com C := ark_com_scalar_mul (aff_zero C, a) k.
Definition minus_times {C : curve F} (k : F) (a : aff C) : ark_com C := ark_com_neg (times k a).

(** The simulators' corrections, from the trapdoors [t1], [t2] and the target. *)
Definition ark_ppe_fix (t1 t2 k l : F) (P : aff (C1 A)) (Q : aff (C2 A)) : ark_CProof A -> ark_CProof A :=
  ark_correct [:: minus_times (k * t1) Q; times k Q] [:: minus_times (l * t2) P; times l P].
Definition ark_ms1_fix (t1 t2 : F) (q : ark_MSMEG1 A) : ark_CProof A -> ark_CProof A :=
  ark_correct [::] [:: minus_times t2 (ark_ms1_target q)].
Definition ark_ms2_fix (t1 t2 : F) (q : ark_MSMEG2 A) : ark_CProof A -> ark_CProof A :=
  ark_correct [:: minus_times t1 (ark_ms2_target q)] [::].
Definition ark_quad_fix (t1 t2 : F) (q : ark_QuadEqu F) (d : ark_CRS A) : ark_CProof A -> ark_CProof A :=
  ark_correct [:: ark_com_neg (ark_com_scalar_mul (nth ark_com_zero (ark_crs_v d) 0) (t1 * t2 * ark_quad_target q))] [::].

(** [generate_crs] with [prepare_simulated_hinding_key] in place of [prepare_real_binding_key]. *)
Definition ark_sim_crs (p1 : prj (C1 A)) (p2 : prj (C2 A)) (a1 a2 t1 t2 : F) : ark_CRS A :=
  let q1 := prj_mul p1 a1 in let q2 := prj_mul p2 a2 in
  let k := ark_prepare_simulated_hinding_key p1 p2 q1 t1 q2 t2 in
  ark_mkCRS [:: (into_affine p1, into_affine q1); (into_affine (prj_mul p1 t1), into_affine k.1)]
    [:: (into_affine p2, into_affine q2); (into_affine (prj_mul p2 t2), into_affine k.2)]
    (into_affine p1) (into_affine p2) (a_pairing (into_affine p1) (into_affine p2)).

(** The outcome of a call with a correction applied to the proof. *)
Definition ark_fixed {S : Type} (fix_ : ark_CProof A -> ark_CProof A) (r : res (ark_CProof A * S)) : res (ark_CProof A * S) :=
  match r with Ok (p, s) => Ok (fix_ p, s) | Panic x => Panic x end.
(** The test [D] on a hiding reference string and a corrected proof. *)
Definition ark_sim_game {O1 O2 W : finType} (N : nat) (D : W -> ark_CRS A -> pred (res _)) (s1 : O1 -> prj (C1 A)) (s2 : O2 -> prj (C2 A))
  (fix_ : F -> F -> W -> ark_CRS A -> ark_CProof A -> ark_CProof A)
  (f : W -> ark_CRS A -> forall R : ark_rng A, ark_rst R -> res (ark_CProof A * ark_rst R)) : rat :=
  Pr (fun x : (W * N.-tuple F) * (O1 * O2 * (F * F * F * F)) =>
    let: ((w, t), (o1, o2, (a1, a2, t1, t2))) := x in let d := ark_sim_crs (s1 o1) (s2 o2) a1 a2 t1 t2 in
    D w d (ark_seen (ark_fixed (fix_ t1 t2 w d) (f w d ark_tape (tval t : seq F))))).
End Simulator.
