(** A curve with its own arithmetic: [y^2 = x^3 + x + 4] over the integers modulo 13, which has 14 points;
    the points of order 7 are the group. Not a model of any code in /repo. *)
From mathcomp Require Import all_ssreflect all_algebra.
From Coq Require Import Strings.Byte.
From Verif Require Import Base Group DataStructures Generator Commit Statement Prove Verify Spec.
From Verif Require Import Concrete Codec SpecCodec SpecCodec2 CodecLemmas Concrete3 Ark SpecArk ArkRel ArkCodec SpecWire SpecTwice Formats SpecFormats FormatsLemmas.
Set Implicit Arguments.
Unset Strict Implicit.
Unset Printing Implicit Defensive.
Import GRing.Theory.
Local Open Scope ring_scope.

Definition F13 : fieldType := [fieldType of 'F_13].
Definition n13 (k : nat) : F13 := k%:R.
Definition pt13 : Type := option (F13 * F13).

(** Chords and tangents. *)
Definition padd (P Q : pt13) : pt13 :=
  match P, Q with
  | None, _ => Q
  | _, None => P
  | Some (x, y), Some (x', y') =>
    if (x == x') && (y + y' == 0) then None
    else let l := if x == x' then (n13 3 * x * x + 1) / (n13 2 * y) else (y' - y) / (x' - x) in
         let z := l * l - x - x' in Some (z, l * (x - z) - y)
  end.
Definition pneg (P : pt13) : pt13 := if P is Some (x, y) then Some (x, - y) else None.
Definition pmul (k : nat) (P : pt13) : pt13 := iter k (padd P) None.
Definition all13 : seq F13 := [seq n13 i | i <- iota 0 13].
Definition root13 (z : F13) : option F13 := ohead [seq y <- all13 | y * y == z].
Definition scurve : sw F13 := Sw (1 : F13) (n13 4) root13 (fun x y => pmul 7 (Some (x, y)) == None).

Definition gen13 : pt13 := Some (n13 0, n13 2).
Definition pt (x : F7) : pt13 := pmul (val x) gen13.
(** The discrete logarithm, and the pairing by means of it. *)
Definition dlog (P : pt13) : F7 := (find (fun k => pmul k gen13 == P) (iota 0 7))%:R.

Definition scv : curve F7 := @Curve F7 pt13 pt13 (fun P Q => P == Q) None padd id None pneg (fun P Q => padd P (pneg Q))
  (fun P (k : F7) => pmul (val k) P) id.
Definition sark : ark F7 := @Ark F7 scv scv F7 (fun x y => x == y) 0 (fun x y => x + y) (fun x => - x) (fun x y => x - y)
  (fun P Q => dlog P * dlog Q) (fun s t => foldr (fun PQ z => dlog PQ.1 * dlog PQ.2 + z) 0 (zip s t)).
Definition srepr : repr F7o scv := @Repr F7 F7o scv (fun x P => P = pt x) (fun x P => P = pt x).

(** Statements about all elements are checked one by one. *)
Definition all7 : seq F7 := [seq (i%:R : F7) | i <- iota 0 7].
Lemma in7 (x : F7) : x \in all7.
Proof.
have -> : x = (val x)%:R by rewrite natr_Zp.
by apply: map_f; rewrite mem_iota; exact: ltn_ord.
Qed.
Lemma in13 (x : F13) : x \in all13.
Proof.
have -> : x = n13 (val x) by rewrite /n13 natr_Zp.
by apply: map_f; rewrite mem_iota; exact: ltn_ord.
Qed.
Lemma each7 (P : F7 -> bool) : all P all7 -> forall x, P x.
Proof. by move=> /allP h x; exact: h (in7 x). Qed.
Lemma each13 (P : F13 -> bool) : all P all13 -> forall x, P x.
Proof. by move=> /allP h x; exact: h (in13 x). Qed.

Lemma each77 (P : F7 -> F7 -> bool) : all (fun x => all (P x) all7) all7 -> forall x y, P x y.
Proof. by move=> h x; apply: each7; move: x; exact: each7. Qed.

Lemma pt_eq x y : (pt x == pt y) = (x == y).
Proof. apply: (elimT eqP); move: x y; apply: (each77 (P := fun x y => (pt x == pt y) == (x == y))); by vm_compute. Qed.
Lemma pt_add x y : padd (pt x) (pt y) = pt (x + y).
Proof. apply/eqP; move: x y; apply: (each77 (P := fun x y => padd (pt x) (pt y) == pt (x + y))); by vm_compute. Qed.
Lemma pt_neg x : pneg (pt x) = pt (- x).
Proof. by apply/eqP; move: x; apply: each7; vm_compute. Qed.
Lemma pt_mul x (k : F7) : pmul (val k) (pt x) = pt (k * x).
Proof. apply/eqP; move: x k; apply: (each77 (P := fun x k => pmul (val k) (pt x) == pt (k * x))); by vm_compute. Qed.
Lemma pt_dlog x : dlog (pt x) = x.
Proof. by apply/eqP; move: x; apply: each7; vm_compute. Qed.

Lemma srepr_ok : repr_ok srepr.
Proof.
split=> /=.
- by move=> x y a b -> ->; exact: pt_eq.
- by [].
- by move=> x y a b -> ->; rewrite pt_add.
- by [].
- by [].
- by move=> x a ->; rewrite pt_neg.
- by move=> x y a b -> ->; rewrite pt_neg pt_add.
- by move=> x a k ->; rewrite pt_mul.
- by [].
Qed.
Lemma sark_ok : implements (E := toy) (A := sark) srepr srepr (fun x a => x = a).
Proof.
split=> /=.
- exact: srepr_ok.
- exact: srepr_ok.
- by move=> x y a b -> ->.
- by [].
- by move=> x y a b -> ->.
- by move=> x a ->.
- by move=> x y a b -> ->.
- by move=> x y a b -> ->; rewrite !pt_dlog.
- elim=> [|x xs IH] [|y ys] [|a s] [|b t] //=; first by rewrite big_nil.
  by case=> -> hs [-> ht] [] /(IH ys s t hs ht) e; rewrite big_cons e !pt_dlog.
Qed.

(** Its formats: a byte for each coordinate and for each scalar. *)
Definition num13 : numbering F13 := fp_numbering 13 1 1.
Definition num7 : numbering F7 := fp_numbering 7 1 1.
Lemma num13_good : good_numbering num13. Proof. exact: (@fp_good 13 1 1). Qed.
Lemma num7_good : good_numbering num7. Proof. exact: (@fp_good 7 1 1). Qed.
Lemma root13_good : good_sqrt scurve.
Proof.
move=> z /=; rewrite /root13; case E : [seq y <- all13 | y * y == z] => [|y s] /=.
  move=> y e; have : y \in [seq y <- all13 | y * y == z] by rewrite mem_filter in13 -e expr2 eqxx.
  by rewrite E.
have : y \in [seq y <- all13 | y * y == z] by rewrite E inE eqxx.
by rewrite mem_filter expr2 => /andP[/eqP].
Qed.
Definition sstd : standard sark :=
  @Standard F7 sark F13 F13 num13 num13 num7 num7 scurve scurve id id id id (fun _ => true).
Lemma sstd_good : good_standard sstd.
Proof.
by split=> //; [exact: num13_good|exact: num13_good|exact: num7_good|exact: num7_good|exact: root13_good|exact: root13_good].
Qed.
Definition member13 (a : pt13) : bool := if sw_chk scurve a is None then true else false.
Lemma member13P a : member13 a <-> in_group scurve a.
Proof. by rewrite -passesE /member13; case: (sw_chk scurve a). Qed.
Lemma pt_member (a : pt13) : (exists x : F7, a = pt x) <-> in_group scurve a.
Proof.
split=> [[x ->]|/member13P].
  by apply/member13P; move: x; apply: (each7 (P := fun x => member13 (pt x))); vm_compute.
case: a => [[x y]|_]; last by exists 0.
move=> h; suff : has (fun k => Some (x, y) == pt k) all7 by case/hasP=> k _ /eqP; exists k.
have : all (fun x => all (fun y => member13 (Some (x, y)) ==> has (fun k => Some (x, y) == pt k) all7) all13) all13 by vm_compute.
by move=> /allP/(_ x (in13 x))/allP/(_ y (in13 y)) /implyP; apply.
Qed.
