(** Examples for C89. *)
From mathcomp Require Import all_ssreflect all_algebra.
From Verif Require Import Base Group DataStructures Generator Commit Statement Spec SpecHide SpecSxdh SpecPrg Sxdh PrgLemmas Concrete.
Set Implicit Arguments.
Unset Strict Implicit.
Unset Printing Implicit Defensive.
Import GRing.Theory.
Local Open Scope ring_scope.

(** Two seeds: the counter starts at 0 or at 3. *)
Definition start (b : bool) : rst ctr := (if b then 0%N else 3%N) : nat.
Lemma ctr_drawn (k i : nat) : drawn (k : rst ctr) i = n7 (i + k).
Proof. by rewrite /drawn; suff -> : after (R := ctr) i k = (i + k)%N; [|elim: i => //= i ->]. Qed.
Lemma Pr_all (T : finType) (f : pred T) : (0 < #|T|)%N -> (forall x, f x) -> Pr f = 1.
Proof.
move=> h hf; rewrite /Pr (_ : [set x | f x] = setT) ?cardsT ?divff ?Num.Theory.pnatr_eq0 -?lt0n //.
by apply/setP => x; rewrite !inE hf.
Qed.
