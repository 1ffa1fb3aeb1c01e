(** Specifications for hiding: views of outcomes, random tapes, simulators. *)
From mathcomp Require Import all_ssreflect all_algebra.
From Verif Require Import Base Group DataStructures Commit Statement Prove Spec SpecVerify.
Set Implicit Arguments.
Unset Strict Implicit.
Unset Printing Implicit Defensive.
Import GRing.Theory.
Local Open Scope ring_scope.

Section SpecHide.
Context {E : pairing}.

(** The first [N] scalars that an RNG draws. *)
Definition draws (N : nat) {R : rng E} (s : rst R) : N.-tuple (Fr E) := [tuple drawn s i | i < N].

(** What is seen of an outcome: a view of the value, or the panic. *)
Definition seen {T S O : Type} (view : T -> O) (r : res (T * S)) : res O :=
  match r with Ok (a, _) => Ok (view a) | Panic p => Panic p end.

(** Some bijection of the [N] random scalars turns each view of [f] into the
    same view of [g]. *)
Definition same_output (N : nat) {T T' O : Type} (view : T -> O) (view' : T' -> O)
  (f : forall R : rng E, rst R -> res (T * rst R)) (g : forall R : rng E, rst R -> res (T' * rst R)) : Prop :=
  exists phi : N.-tuple (Fr E) -> N.-tuple (Fr E), bijective phi /\
  forall (R R' : rng E) (s : rst R) (z : rst R'),
    draws N z = phi (draws N s) -> seen view (f R s) = seen view' (g R' z).

(** An RNG that reads a tape of scalars, then zeros; its group elements are
    not used. *)
Definition tape_rng : rng E :=
  @Rng E (seq (Fr E)) (fun t => (head 0 t, behead t)) (fun t => (0, t)) (fun t => (0, t)).

(** The proofs of [p] with [dp] added to [pi] and [dt] to [theta]. *)
Definition correct_pf (dp : seq (Com2 E)) (dt : seq (Com1 E)) (f : EquProof E) : EquProof E :=
  mkEquProof (mkseq (fun i => nth 0 (pi f) i + nth 0 dp i) (size (pi f)))
    (mkseq (fun l => nth 0 (theta f) l + nth 0 dt l) (size (theta f))) (equ_type f) (pf_rand f).
Definition correct (dp : seq (Com2 E)) (dt : seq (Com1 E)) (p : CProof E) : CProof E :=
  mkCProof (xcoms p) (ycoms p) [seq correct_pf dp dt f | f <- equ_proofs p].

(** Simulators: the corrections, computed from the trapdoors [t1], [t2] of the
    hiding key and the target, that turn a proof made with all variables zero
    into a proof of the equation. For a pairing product equation the target
    must be given as [e(k g1, Q) + e(P, l g2)]. *)
Definition ppe_fix (t1 t2 k l : Fr E) (P : G1 E) (Q : G2 E) : CProof E -> CProof E :=
  correct [:: (0, - ((k * t1) *: Q)); (0, k *: Q)] [:: (0, - ((l * t2) *: P)); (0, l *: P)].
Definition ms1_fix (t1 t2 : Fr E) (q : MSMEG1 E) : CProof E -> CProof E :=
  correct [::] [:: (0, - (t2 *: ms1_target q))].
Definition ms2_fix (t1 t2 : Fr E) (q : MSMEG2 E) : CProof E -> CProof E :=
  correct [:: (0, - (t1 *: ms2_target q))] [::].
Definition quad_fix (t1 t2 : Fr E) (q : QuadEqu E) (crs : CRS E) : CProof E -> CProof E :=
  correct [:: - ((t1 * t2 * quad_target q) *: v1 crs)] [::].
End SpecHide.

(** Over a finite field: the number of tapes of [N] scalars on which the view
    of [f] passes the test [D]. *)
Definition tapes {F : finFieldType} {A B C : lmodType F} {e : A -> B -> C} (N : nat) {T O : Type} (view : T -> O)
  (f : forall R : rng (Pairing e), rst R -> res (T * rst R)) (D : pred (res O)) : nat :=
  #|[set t : N.-tuple F | D (seen view (f tape_rng (tval t : seq F)))]|.
