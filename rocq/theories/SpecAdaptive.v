(** Sessions: a prover that answers a sequence of requests, each chosen by an adversary who has seen the
    answers so far. Specifications: the prover of each request is [prove_system] of SpecMulti.v, which only
    calls functions of the model; the same RNG is passed from one call to the next, as [rng: &mut R] is in
    /repo/src/prover/prove.rs, lines 72-409. *)
From mathcomp Require Import all_ssreflect all_algebra.
From Verif Require Import Base Group DataStructures Generator Commit Statement Prove Spec SpecVerify SpecHide SpecSxdh SpecMulti.
Set Implicit Arguments.
Unset Strict Implicit.
Unset Printing Implicit Defensive.
Import GRing.Theory.
Local Open Scope ring_scope.

Section Session.
Context {E : pairing} {T V : Type}.
(** [prove h] answers the request made after the answers [h] were seen, and [view h] is what is then seen. *)
Variables (prove : seq V -> forall R : rng E, rst R -> res (T * rst R)) (view : seq V -> T -> V).

(** [k] further requests, after the answers [h]; the result is the list of all answers. *)
Fixpoint session (k : nat) (h : seq V) (R : rng E) (s : rst R) : res (seq V * rst R) :=
  if k is k.+1 then let! (p, s) := prove h s in session k (rcons h (view h p)) s else Ok (h, s).
End Session.

Section Requests.
Context {E : pairing}.
(** What is published about a system. *)
Definition answer : Type := (seq (Com1 E) * seq (Com1 E) * seq (Com2 E) * seq (Com2 E)
  * seq (seq (Com2 E) * seq (Com1 E) * EquType))%type.

(** Honest answers to [k] requests: after the answers [h], the equations [qs h] are proved with the witness [v h]. *)
Definition prover (sch : sched) (k : nat) (qs : seq answer -> seq (eqn E)) (v : seq answer -> assign E) (crs : CRS E) :
  forall R : rng E, rst R -> res (seq answer * rst R) :=
  session (fun h R s => prove_system (R := R) sch (qs h) (v h) crs s) (fun _ p => public_system p) k [::].

(** Simulated answers: all variables are zero, and each proof is corrected with the trapdoors before it is shown. *)
Definition simulator (t1 t2 : Fr E) (sch : sched) (k : nat) (qs : seq answer -> seq (eqn E * gt_form E))
  (v : seq answer -> assign E) (crs : CRS E) : forall R : rng E, rst R -> res (seq answer * rst R) :=
  session (fun h R s => prove_system (R := R) sch [seq q.1 | q <- qs h] (zero_assign (v h)) crs s)
    (fun h p => public_system (fix_system t1 t2 crs (qs h) p)) k [::].
End Requests.

(** The game of SpecSxdh.v for a simulator that uses the trapdoors while the session runs. *)
Definition sim_session {F : finFieldType} {A B C : lmodType F} {e : A -> B -> C} {O1 O2 W : finType} {V : Type} (N : nat)
  (D : W -> CRS (Pairing e) -> pred (res V)) (s1 : O1 -> A) (s2 : O2 -> B)
  (f : F -> F -> W -> CRS (Pairing e) -> forall R : rng (Pairing e), rst R -> res (V * rst R)) : rat :=
  Pr (fun x : (W * N.-tuple F) * (O1 * O2 * (F * F * F * F)) =>
    let: ((w, t), (o1, o2, (a1, a2, t1, t2))) := x in let crs := sim_crs (s1 o1) (s2 o2) a1 a2 t1 t2 in
    D w crs (seen id (f t1 t2 w crs tape_rng (tval t : seq F)))).
