(** Specifications for generators that are not truly random: the generator [rng: &mut R] of
    /repo/src is started from a seed and used for the reference string and the proofs. *)
From mathcomp Require Import all_ssreflect all_algebra.
From Verif Require Import Base Group DataStructures Generator Commit Statement Prove Spec SpecVerify SpecHide SpecSxdh.
Set Implicit Arguments.
Unset Strict Implicit.
Unset Printing Implicit Defensive.
Import Order.Theory GRing.Theory Num.Theory.
Local Open Scope ring_scope.

(** What is seen of [f], a panic included, depends on the generator through its next [N] scalars only. *)
Definition determined {E : pairing} (N : nat) {T V : Type} (view : T -> V) (f : forall R : rng E, rst R -> res (T * rst R)) : Prop :=
  forall (R R' : rng E) (s : rst R) (z : rst R'), same_draws N s z -> seen view (f R s) = seen view (f R' z).

Section Prg.
Context {F : finFieldType} {A B C : lmodType F} {e : A -> B -> C}.
Local Notation E := (Pairing e).
Context {R : rng E} {K : finType} (seed : K -> rst R).

(** The first outputs of the generator when it is asked for a point of each group and then for [N] scalars. *)
Definition outputs (N : nat) (s : rst R) : A * B * N.-tuple F :=
  let s1 := (rand_g1 s).2 in let s2 := (rand_g2 s1).2 in ((rand_g1 s).1, (rand_g2 s1).1, draws N s2).

(** The advantage of a test in telling the outputs for a uniform seed from points [s1 o1], [s2 o2] and scalars,
    for uniform [o1], [o2] and uniform scalars. *)
Section Advantage.
Context {O1 O2 W : finType} (s1 : O1 -> A) (s2 : O2 -> B) (N : nat) (T : W -> pred (A * B * N.-tuple F)).
Definition prg_real : rat := Pr (fun x : W * K => T x.1 (outputs N (seed x.2))).
Definition prg_ideal : rat := Pr (fun x : W * (O1 * O2 * N.-tuple F) => T x.1 (s1 x.2.1.1, s2 x.2.1.2, x.2.2)).
Definition prg_adv : rat := `|prg_real - prg_ideal|.
End Advantage.

Section Games.
Context {W : finType} {T V : Type} (D : W -> CRS E -> pred (res V)) (view : T -> V).
Context (f : W -> CRS E -> forall R : rng E, rst R -> res (T * rst R)).
(** The proof game with the generator: [generate_crs], then [f] with the generator in the state it was left in. *)
Definition seeded : rat := Pr (fun x : W * K =>
  let (crs, s) := generate_crs (seed x.2) in D x.1 crs (seen view (f x.1 crs s))).
(** The test of the generator that runs the game on the outputs it is given. *)
Definition prg_test (N : nat) (w : W) (o : A * B * (4 + N).-tuple F) : bool :=
  let (crs, s) := generate_crs (R := queue) ([:: o.1.1], [:: o.1.2], tval o.2) in D w crs (seen view (f w crs s)).
End Games.

(** The forgery game of SpecError.v with the generator. *)
Definition seeded_forgery {W : finType} {Q : Type} (vf : Q -> CProof E -> CRS E -> res bool) (lie : pred Q)
  (adv : W -> CRS E -> Q * CProof E) : rat :=
  Pr (fun x : W * K => let crs := (generate_crs (seed x.2)).1 in lie (adv x.1 crs).1 &&
    (if vf (adv x.1 crs).1 (adv x.1 crs).2 crs is Ok true then true else false)).
End Prg.
