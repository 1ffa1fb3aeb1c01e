(** Eight bytes that announce 2^63 items, and two memories: one in which there is room for up to 4 items, one with
    the limit of Rust. *)
From mathcomp Require Import all_ssreflect all_algebra.
From Coq Require Import Strings.Byte.
From Verif Require Import Base Group DataStructures Generator Commit Statement Prove Verify Codec SpecCodec CodecLemmas CodecProps CodecAlloc SpecAlloc AllocLemmas Concrete Concrete2 Concrete3.
Set Implicit Arguments.
Unset Strict Implicit.
Unset Printing Implicit Defensive.

Lemma toy_eats ok : eats (toy_codec ok).
Proof.
move=> m v bs x r; rewrite /= /toy_de; case: m => /=.
  by case: bs => // b bs; case: ifP => // _; case: ifP => // _ [_ <-]; exists [:: b].
by case: bs => // -[] // -[//|b bs]; case: ifP => // _; case: ifP => // _ [_ <-]; exists [:: x00; b].
Qed.
Lemma toys_eat : elements_ok (toys predT) eats.
Proof. by split; exact: toy_eats. Qed.

Definition small : pred nat := fun n => n <= 4.
Definition tight : room := Room small small small small small small.
Definition rust : room := Room (capacity 2) (capacity 2) (capacity 1) (capacity 1) (capacity 1) (capacity 24).

(** 2^63, little endian. *)
Definition bomb : seq byte := [:: x00; x00; x00; x00; x00; x00; x00; x80].

Lemma le_val_pad k bs : le_val (nseq k x00 ++ bs) = le_val bs * 256 ^ k.
Proof. by elim: k => [|k IH]; rewrite ?expn0 ?muln1 // [nseq _ _ ++ _]/= [LHS]/= IH add0n expnSr mulnA. Qed.
Lemma bomb_bytes : bomb = le64 (2 ^ 63).
Proof.
rewrite -lay64 /u64_ser -[8]/(size bomb).
suff <- : le_val bomb = 2 ^ 63 by rewrite le_valK.
have -> : bomb = nseq 7 x00 ++ [:: x80] by [].
by rewrite le_val_pad -[le_val _]/(2 ^ 7) -[256]/(2 ^ 8) -expnM -expnD.
Qed.
Lemma two63 : 0 < 2 ^ 63 < 2 ^ 64.
Proof. by rewrite expn_gt0 /= ltn_exp2l. Qed.
Lemma rust_full sz : 0 < sz -> ~~ capacity sz (2 ^ 63).
Proof. by move=> h; rewrite /capacity -leqNgt leq_pmulr. Qed.
Lemma capacity_small sz n : sz <= 24 -> n <= 8 -> capacity sz n.
Proof.
move=> h1 h2; rewrite /capacity; apply: (@leq_ltn_trans (8 * 24)); first exact: leq_mul.
by apply: (@leq_trans (2 ^ 8)) => //; rewrite leq_exp2l.
Qed.
Lemma small_full : ~~ small (2 ^ 63).
Proof. by rewrite /small -ltnNge; apply: (@leq_trans (2 ^ 3)) => //; rewrite leq_exp2l. Qed.
