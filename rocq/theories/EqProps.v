(** Derived equality is equality. *)
From mathcomp Require Import all_ssreflect all_algebra.
From Verif Require Import Base Group DataStructures ComLemmas Commit Statement Derived Spec SpecVerify.
Set Implicit Arguments.
Unset Strict Implicit.
Unset Printing Implicit Defensive.
Import GRing.Theory.
Local Open Scope ring_scope.

Lemma vec_eqP (T : Type) (eqb : T -> T -> bool) : (forall x y, eqb x y <-> x = y) ->
  forall a b, vec_eq eqb a b <-> a = b.
Proof.
move=> h; elim=> [|x a IH] [|y b] //=; split=> //.
- by case/andP=> /h -> /IH ->.
- by move=> [/h -> /IH ->].
Qed.
Lemma mat_eqP (T : eqType) (a b : matrix T) : mat_eq a b <-> a = b.
Proof. by apply: vec_eqP => x y; apply: vec_eqP => p r; split=> /eqP. Qed.
Lemma seq_eqP (T : eqType) (a b : seq T) : vec_eq (fun p r : T => p == r) a b <-> a = b.
Proof. by apply: vec_eqP => p r; split=> /eqP. Qed.
Lemma com_eqP' (F : fieldType) (G : lmodType F) (x y : com G) : com_eq x y <-> x = y.
Proof. by rewrite com_eqE; split=> /eqP. Qed.
Lemma coms_eqP (F : fieldType) (G : lmodType F) (a b : seq (com G)) : coms_eq a b <-> a = b.
Proof.
elim: a b => [|x a IH] [|y b] //=; split=> //.
- by case/andP=> /com_eqP' -> /IH ->.
- by move=> [/com_eqP' -> /IH ->].
Qed.
Lemma k_C54_commit (F : fieldType) (G : lmodType F) (c d : commit G) : commit_eq c d <-> c = d.
Proof.
case: c d => [a r] [b s]; rewrite /commit_eq /=; split.
  by case/andP=> /coms_eqP -> /eqP ->.
by move=> [-> ->]; apply/andP; split=> //; exact/coms_eqP.
Qed.
Lemma equtype_eqP a b : equtype_eq a b <-> a = b.
Proof. by case: a b => -[]. Qed.
Section P.
Context {E : pairing}.
Lemma k_C54_ppe (x y : PPE E) : ppe_eq x y <-> x = y.
Proof.
case: x y => [a b g t] [a' b' g' t']; rewrite /ppe_eq /=; split.
  by case/and4P=> /seq_eqP -> /seq_eqP -> /mat_eqP -> /eqP ->.
by move=> [-> -> -> ->]; apply/and4P; split=> //; [exact/seq_eqP | exact/seq_eqP | exact/mat_eqP].
Qed.
Lemma k_C54_ms1 (x y : MSMEG1 E) : ms1_eq x y <-> x = y.
Proof.
case: x y => [a b g t] [a' b' g' t']; rewrite /ms1_eq /=; split.
  by case/and4P=> /seq_eqP -> /seq_eqP -> /mat_eqP -> /eqP ->.
by move=> [-> -> -> ->]; apply/and4P; split=> //; [exact/seq_eqP | exact/seq_eqP | exact/mat_eqP].
Qed.
Lemma k_C54_ms2 (x y : MSMEG2 E) : ms2_eq x y <-> x = y.
Proof.
case: x y => [a b g t] [a' b' g' t']; rewrite /ms2_eq /=; split.
  by case/and4P=> /seq_eqP -> /seq_eqP -> /mat_eqP -> /eqP ->.
by move=> [-> -> -> ->]; apply/and4P; split=> //; [exact/seq_eqP | exact/seq_eqP | exact/mat_eqP].
Qed.
Lemma k_C54_quad (x y : QuadEqu E) : quad_eq x y <-> x = y.
Proof.
case: x y => [a b g t] [a' b' g' t']; rewrite /quad_eq /=; split.
  by case/and4P=> /seq_eqP -> /seq_eqP -> /mat_eqP -> /eqP ->.
by move=> [-> -> -> ->]; apply/and4P; split=> //; [exact/seq_eqP | exact/seq_eqP | exact/mat_eqP].
Qed.
Lemma k_C54_equproof (x y : EquProof E) : equproof_eq x y <-> x = y.
Proof.
case: x y => [a b g t] [a' b' g' t']; rewrite /equproof_eq /=.
have h (G : lmodType (Fr E)) (c d : seq (com G)) : vec_eq com_eq c d <-> c = d by apply: vec_eqP; exact: com_eqP'.
split; first by case/and4P=> /h -> /h -> /equtype_eqP -> /mat_eqP ->.
by move=> [-> -> -> ->]; apply/and4P; split; [exact/h | exact/h | exact/equtype_eqP | exact/mat_eqP].
Qed.
Lemma k_C54_cproof (x y : CProof E) : cproof_eq x y <-> x = y.
Proof.
case: x y => [a b g] [a' b' g']; rewrite /cproof_eq /=.
have h (c d : seq (EquProof E)) : vec_eq equproof_eq c d <-> c = d by exact: (vec_eqP k_C54_equproof).
split; first by case/and3P=> /k_C54_commit -> /k_C54_commit -> /h ->.
by move=> [-> -> ->]; apply/and3P; split; [exact/k_C54_commit | exact/k_C54_commit | exact/h].
Qed.
Lemma k_C54_private (p p' : CProof E) :
  public p = public p' -> crand (xcoms p) <> crand (xcoms p') -> ~~ cproof_eq p p'.
Proof. by move=> _ h; apply/negP => /k_C54_cproof e; apply: h; rewrite e. Qed.
End P.
