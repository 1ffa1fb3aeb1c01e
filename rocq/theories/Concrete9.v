(** The element codecs of Concrete3.v satisfy the laws of SpecCodec2.v. *)
From mathcomp Require Import all_ssreflect all_algebra.
From Coq Require Import Strings.Byte.
From Verif Require Import Base Group DataStructures Commit Statement Codec SpecCodec SpecCodec2 Codec2Lemmas Concrete Concrete3.
Set Implicit Arguments.
Unset Strict Implicit.
Unset Printing Implicit Defensive.
Import GRing.Theory.
Local Open Scope ring_scope.

Lemma toy_passes ok x : passes (toy_codec ok) x <-> ok x.
Proof. by rewrite /passes /=; case: ifP. Qed.

Lemma toy_lawful ok : lawful_element (toy_codec ok).
Proof.
split; [|split].
- move=> m x rest _; have hx : (val x < 7)%N by exact: ltn_ord x.
  by case: m; rewrite /= /toy_de /= toy_byte hx toy_nat.
- move=> m bs x r; rewrite /= /toy_de; case: (match m with Yes => bs | No => _ end) => [|b t] /=; first by split=> // -[].
  case: ifP => _; last by split=> // -[].
  split; first by case: ifP => // h [<- <-]; split=> //; apply/toy_passes.
  by case=> -[<- <-] /toy_passes ->.
move=> s /=; split.
  by case: ifP => // h _; elim: s h => [|y s IH] //= /andP[hy /IH h]; constructor=> //; apply/toy_passes.
by elim=> //= x l /toy_passes -> _; case: ifP.
Qed.

Lemma toy_cut ok : cuttable_element (toy_codec ok).
Proof.
split; first exact: toy_lawful.
move=> m v x p t _ _; case: m => /=; case: p => [|b [|b' p]] //=; rewrite /toy_de.
- by case=> _ <-.
- by case=> <-.
by move=> [_ _]; case: p => //= <-.
Qed.

Lemma toy_errors ok : errors_in (fun e => e = IoError \/ e = InvalidData) (toy_codec ok).
Proof.
split; [|split].
- move=> m v bs e; rewrite /= /toy_de; case: (match m with Yes => bs | No => _ end) => [|b r]; first by case=> <-; left.
  by case: ifP => _; [case: ifP => // _|] => -[<-]; right.
- by move=> s e /=; case: ifP => // _ [<-]; right.
by move=> s e /=; case: ifP => // _ [<-]; right.
Qed.

Lemma toys_lawful ok : elements_ok (toys ok) lawful_element.
Proof. by split; exact: toy_lawful. Qed.
Lemma toys_cut ok : elements_ok (toys ok) cuttable_element.
Proof. by split; exact: toy_cut. Qed.
Lemma toys_errors ok : elements_ok (toys ok) (fun _ c => errors_in (fun e => e = IoError \/ e = InvalidData) c).
Proof. by split; exact: toy_errors. Qed.
