(** Specifications for the error of a generated reference string: the forgery game and the double-opening game. *)
From mathcomp Require Import all_ssreflect all_algebra.
From Verif Require Import Base Group DataStructures Generator Commit Statement Prove Spec SpecVerify SpecHide SpecSxdh.
Set Implicit Arguments.
Unset Strict Implicit.
Unset Printing Implicit Defensive.
Import Order.Theory GRing.Theory Num.Theory.
Local Open Scope ring_scope.

Section Error.
Context {F : finFieldType} {A B C : lmodType F} {e : A -> B -> C}.
Local Notation E := (Pairing e).
Context {O1 O2 W : finType} (s1 : O1 -> A) (s2 : O2 -> B).

(** The probability that the adversary [adv], given the output of
    [generate_crs] for uniform choices and its own random choices, names an
    equation of the class [lie] with a proof that the verifier [vf] accepts. *)
Definition forgery {Q : Type} (vf : Q -> CProof E -> CRS E -> res bool) (lie : pred Q)
  (adv : W -> CRS E -> Q * CProof E) : rat :=
  game s1 s2 real_crs (fun w crs => lie (adv w crs).1 &&
    (if vf (adv w crs).1 (adv w crs).2 crs is Ok true then true else false)).

(** The probability that it names two different values, and randomness for
    each, with the same commitment. *)
Definition double_opening {V : eqType} {K : lmodType F}
  (cm : V -> CRS E -> forall R : rng E, rst R -> res (commit K * rst R))
  (adv : W -> CRS E -> (V * seq F) * (V * seq F)) : rat :=
  game s1 s2 real_crs (fun w crs => let: ((x, r), (x', r')) := adv w crs in
    (x != x') && (if (cm x crs tape_rng r, cm x' crs tape_rng r') is (Ok (c, _), Ok (c', _)) then coms c == coms c' else false)).
End Error.
