(** Element codecs over the toy field: one byte, or a zero byte and one byte; [ok] is what validation accepts. *)
From mathcomp Require Import all_ssreflect all_algebra.
From Coq Require Import Strings.Byte.
From Verif Require Import Base Group DataStructures Generator Commit Statement Prove Codec SpecCodec Concrete Concrete2 MatInst.
Set Implicit Arguments.
Unset Strict Implicit.
Unset Printing Implicit Defensive.
Import GRing.Theory.
Local Open Scope ring_scope.


Definition toy_de (ok : pred F7) (m : Compress) (v : Validate) (bs : seq byte) : dres F7 :=
  let tail := match m, bs with Yes, _ => bs | No, x00 :: r => r | No, _ => [::] end in
  if tail is b :: r then
    if (to_nat b < 7)%N then
      if (if v is VYes then ok (to_nat b)%:R else true) then DOk (to_nat b)%:R r else DErr InvalidData
    else DErr InvalidData
  else DErr IoError.
Definition toy_codec (ok : pred F7) : codec F7 :=
  Codec (fun m x => if m is Yes then [:: byte_of (val x)] else [:: x00; byte_of (val x)])
        (toy_de ok) (fun m _ => if m is Yes then 1%N else 2%N)
        (fun x => if ok x then None else Some InvalidData)
        (fun s => if all ok s then None else Some InvalidData).
Definition toys (ok : pred F7) : codecs toy :=
  @Codecs toy (toy_codec ok) (toy_codec ok) (toy_codec ok) (toy_codec ok).
Definition nonzero : pred F7 := fun x => x != 0.

Lemma toy_byte (x : F7) : to_nat (byte_of (val x)) = val x.
Proof. by case: x => -[|[|[|[|[|[|[|n]]]]]]] i. Qed.
Lemma toy_nat (x : F7) : (val x)%:R = x :> F7.
Proof. by rewrite natr_Zp. Qed.
Lemma toy_back (ok : pred F7) : (forall x, ok x) -> good_codec (toy_codec ok).
Proof.
move=> h; split=> [m v x rest _|s _] /=; last by rewrite (_ : all ok s) //; apply/allP=> y _.
have hx : (val x < 7)%N by exact: ltn_ord x.
by case: m; rewrite /= /toy_de /= toy_byte hx toy_nat; case: v; rewrite ?h.
Qed.
Lemma toy_of_byte b : (to_nat b < 7)%N -> byte_of (val ((to_nat b)%:R : F7)) = b.
Proof. by case: b. Qed.
Lemma toy_canon (ok : pred F7) : canonical (toy_codec ok).
Proof.
move=> m v bs x rest /=; rewrite /toy_de.
case: m => /=.
  case: bs => [//|b r]; case: ifP => // hb; case: ifP => // _ [<- <-].
  by rewrite toy_of_byte.
case: bs => [//|b0 r]; case: b0 => //; case: r => [//|b r]; case: ifP => // hb; case: ifP => // _ [<- <-].
by rewrite toy_of_byte.
Qed.
Lemma toy_size (ok : pred F7) : size_exact (toy_codec ok). Proof. by case. Qed.
Lemma toy_validates (ok : pred F7) : validates ok (toy_codec ok).
Proof.
split=> [m bs x r|s] /=.
  rewrite /toy_de; case: (match m with Yes => bs | No => _ end) => [//|b t].
  by case: ifP => // _; case: ifP => // h [<- _].
case: ifP => // h _; elim: s h => [|y s IH]; first by constructor.
by case/andP=> hy /IH; constructor.
Qed.

Lemma toys_good : elements_ok (toys predT) good_codec.
Proof. by split; exact: toy_back. Qed.
Lemma toys_canon ok : elements_ok (toys ok) (fun T c => canonical c).
Proof. by split; exact: toy_canon. Qed.
Lemma toys_size ok : elements_ok (toys ok) (fun T c => size_exact c).
Proof. by split; exact: toy_size. Qed.

Lemma lt64 (n : nat) : (n < 64)%N -> (n < 2 ^ 64)%N.
Proof. by move=> h; apply: (ltn_trans h); exact: ltn_expl. Qed.
Definition shortb {T} (s : seq T) : bool := (size s < 64)%N.
Lemma shortP {T} (s : seq T) : shortb s -> short s.
Proof. exact: lt64. Qed.
Lemma short_matP {T} (M : matrix T) : shortb M && all shortb M -> short_mat M.
Proof.
case/andP=> /shortP h h'; split=> //; elim: M h' {h} => [|r M IH]; first by constructor.
by case/andP=> /shortP h /IH; constructor.
Qed.
Lemma crs_case_fits : crs_fits (crs0).
Proof. by split; [exact: shortP|exact: shortP]. Qed.
Lemma commit1_case_fits : commit1_fits (xcoms ppe_p0).
Proof. by split; [exact: shortP|exact: short_matP]. Qed.
Lemma commit2_case_fits : commit2_fits (ycoms ppe_p0).
Proof. by split; [exact: shortP|exact: short_matP]. Qed.
Lemma equproof_case_fits : equproof_fits (pf_of ppe_p0).
Proof. by split; [exact: shortP|split; [exact: shortP|exact: short_matP]]. Qed.
Lemma ppe_case_fits : ppe_fits (ppe0).
Proof. by split; [exact: shortP|split; [exact: shortP|exact: short_matP]]. Qed.
Lemma ms1_case_fits : ms1_fits (ms10).
Proof. by split; [exact: shortP|split; [exact: shortP|exact: short_matP]]. Qed.
Lemma ms2_case_fits : ms2_fits (ms20).
Proof. by split; [exact: shortP|split; [exact: shortP|exact: short_matP]]. Qed.
Lemma quad_case_fits : quad_fits (quad0).
Proof. by split; [exact: shortP|split; [exact: shortP|exact: short_matP]]. Qed.
Lemma commit1_ms1_case_fits : commit1_fits (xcoms ms1_p0).
Proof. by split; [exact: shortP|exact: short_matP]. Qed.
Lemma commit2_ms1_case_fits : commit2_fits (ycoms ms1_p0).
Proof. by split; [exact: shortP|exact: short_matP]. Qed.
Lemma equproof_ms1_case_fits : equproof_fits (pf_of ms1_p0).
Proof. by split; [exact: shortP|split; [exact: shortP|exact: short_matP]]. Qed.
Lemma commit1_ms2_case_fits : commit1_fits (xcoms ms2_p0).
Proof. by split; [exact: shortP|exact: short_matP]. Qed.
Lemma commit2_ms2_case_fits : commit2_fits (ycoms ms2_p0).
Proof. by split; [exact: shortP|exact: short_matP]. Qed.
Lemma equproof_ms2_case_fits : equproof_fits (pf_of ms2_p0).
Proof. by split; [exact: shortP|split; [exact: shortP|exact: short_matP]]. Qed.
Lemma commit1_quad_case_fits : commit1_fits (xcoms quad_p0).
Proof. by split; [exact: shortP|exact: short_matP]. Qed.
Lemma commit2_quad_case_fits : commit2_fits (ycoms quad_p0).
Proof. by split; [exact: shortP|exact: short_matP]. Qed.
Lemma equproof_quad_case_fits : equproof_fits (pf_of quad_p0).
Proof. by split; [exact: shortP|split; [exact: shortP|exact: short_matP]]. Qed.
