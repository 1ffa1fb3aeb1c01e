(** The first failing check of each step of the modelled code. *)
From mathcomp Require Import all_ssreflect all_algebra.
From Verif Require Import Base BaseLemmas Group DataStructures MatLemmas Commit Statement Prove Verify SpecPanic.
Set Implicit Arguments.
Unset Strict Implicit.
Unset Printing Implicit Defensive.

(** [m] runs the checks [cs] and its result satisfies [P]. *)
Definition step {A} (m : res A) (cs : seq check) (P : A -> Prop) : Prop :=
  outcome m = first_failed cs /\ forall a, m = Ok a -> P a.

Lemma first_failed_cat c1 c2 :
  first_failed (c1 ++ c2) = if first_failed c1 is Some p then Some p else first_failed c2.
Proof. by elim: c1 => //= -[[] p] cs IH. Qed.

Lemma first_failed_None cs : first_failed cs = None -> all fst cs.
Proof. by elim: cs => //= -[[] p] cs IH //= /IH. Qed.

Lemma first_failed_all cs : all fst cs -> first_failed cs = None.
Proof. by elim: cs => //= -[[] p] cs IH //= /IH. Qed.

Lemma step_bind A B (m : res A) (k : A -> res B) c1 cs P :
  step m c1 P -> (all fst c1 -> forall a, P a -> outcome (k a) = first_failed cs) ->
  outcome (bind m k) = first_failed (c1 ++ cs).
Proof.
case; case: m => [a|p] /= h hP hk; rewrite first_failed_cat -h //.
by apply: hk; [exact: first_failed_None | exact: hP].
Qed.

Lemma step_ok A B (m : res A) (k : A -> res B) c1 cs P :
  step m c1 P -> all fst c1 -> (forall a, P a -> outcome (k a) = first_failed cs) ->
  outcome (bind m k) = first_failed cs.
Proof.
move=> hs h1 hk; rewrite -[RHS](_ : first_failed (c1 ++ cs) = _).
  by apply: step_bind hs _ => _.
by rewrite first_failed_cat first_failed_all.
Qed.

Lemma step_as A (m : res A) c1 c2 P : step m c1 P -> first_failed c1 = first_failed c2 -> step m c2 P.
Proof. by case=> h1 h2 e; split=> //; rewrite -e. Qed.

Lemma step_weak A (m : res A) c (P Q : A -> Prop) : step m c P -> (forall a, P a -> Q a) -> step m c Q.
Proof. by case=> h1 h2 h; split=> // a /h2/h. Qed.

(** A call that raises only index panics. *)
Lemma idx_only_step A (m : res A) b (P : A -> Prop) :
  idx_only m -> isok m = b -> (forall a, m = Ok a -> P a) -> step m [:: reads b] P.
Proof. by case: m => [a|p] /= h <- hP; split=> //=; rewrite h. Qed.

Lemma step_assert a b : step (assert_eq a b) [:: asserts (a == b)] (fun _ => True).
Proof. by split=> //; rewrite /assert_eq /=; case: eqP. Qed.

Lemma step_idx A (s : seq A) i d : step (idx s i) [:: reads (i < size s)] (fun a => a = nth d s i).
Proof.
apply: idx_only_step; [exact: idx_only_idx|exact: isok_idx|] => a h.
by have [_ ->] := idx_ok d h.
Qed.

Lemma step_pure A (a : A) : step (Ok a) [::] (fun b => b = a).
Proof. by split=> // b []. Qed.

(** A sequence of steps is a step. *)
Lemma step_seq A B (m : res A) (k : A -> res B) c1 c2 P Q :
  step m c1 P -> (all fst c1 -> forall a, P a -> step (k a) c2 Q) -> step (bind m k) (c1 ++ c2) Q.
Proof.
move=> hm hk; split; first by apply: step_bind hm _ => h1 a ha; case: (hk h1 a ha).
move=> b /bind_ok[a ea eb]; case: hm => h1 hP; case: (hk _ a (hP a ea)) => [|_]; last exact.
by apply: first_failed_None; rewrite -h1 ea.
Qed.

Lemma step_pass A B (m : res A) (k : A -> res B) c1 c2 P Q :
  step m c1 P -> all fst c1 -> (forall a, P a -> step (k a) c2 Q) -> step (bind m k) c2 Q.
Proof.
move=> hm h1 hk; apply: step_as (step_seq hm (fun _ => hk)) _.
by rewrite first_failed_cat first_failed_all.
Qed.

Lemma widthE T (M : matrix T) : width M = ncols M.
Proof. by case: M. Qed.

Lemma voidE T (M : matrix T) : void M = no_cells M.
Proof. by rewrite no_cellsE /void widthE. Qed.

(** ** Matrices *)
Section Ops.
Context {T S : Type}.
Variables (zt : T) (zs : S).
Variables (tzero : T) (tadd : T -> T -> T) (topp : T -> T) (tsmul : T -> S -> T).
Implicit Types (A B : matrix T) (L : matrix S).

Lemma step_row A i : step (idx A i) [:: reads (i < size A)] (fun r => r = nth [::] A i).
Proof. exact: step_idx. Qed.

Lemma step_row0 A : step (idx A 0) [:: reads (0 < size A)] (fun r => r = nth [::] A 0 /\ size r = width A).
Proof. by apply: step_weak (step_row A 0) _ => r ->; split=> //; case: A. Qed.

Lemma idx_only_cells A B m n :
  idx_only (mapM (fun i => mapM (fun j =>
    let! srow := idx A i in let! a := idx srow j in
    let! orow := idx B i in let! b := idx orow j in
    Ok (tadd a b)) (iota 0 n)) (iota 0 m)).
Proof.
apply: idx_only_mapM => i; apply: idx_only_mapM => j.
apply: idx_only_bind => [|r]; first exact: idx_only_idx.
apply: idx_only_bind => [|x]; first exact: idx_only_idx.
apply: idx_only_bind => [|r']; first exact: idx_only_idx.
apply: idx_only_bind => [|x'] //; exact: idx_only_idx.
Qed.

Lemma step_mat_add A B : step (mat_add tadd A B) (add_checks A B) (rect (size A) (width A)).
Proof.
split; last first.
  move=> M h; have hs : add_shape A B by rewrite -(isok_mat_add zt tadd A B) h.
  move: h; rewrite (mat_add_Ok zt tadd hs) => -[<-]; rewrite widthE; exact: rect_mkmat.
have hok := isok_mat_add zt tadd A B; move: hok; rewrite /add_shape /add_checks /= !widthE.
rewrite /mat_add /assert_eq; case: eqP => [hs|//]; case: posnP => h0.
  by rewrite (idx0_nil h0).
rewrite (idx0 h0) /= idx0 -?hs //= -/(ncols A) -/(ncols B); case: eqP => [hc|//] /=.
rewrite /wide -/(rows_ge _ A) -/(rows_ge _ B); have := idx_only_cells A B (size A) (ncols A).
case: (mapM _ _) => [M|p] /=; first by move=> _ <-.
by move=> -> <-.
Qed.

Lemma step_mat_neg A : step (mat_neg topp A) [::] (fun M => M = [seq [seq topp x | x <- r] | r <- A]).
Proof. by split; rewrite (mat_negE zt) // => a []. Qed.

Lemma step_mat_scalar_mul A (k : S) :
  step (mat_scalar_mul tsmul A k) (scalar_mul_checks A) (rect (size A) (width A)).
Proof.
split; last first.
  move=> M h; have /andP[h0 hw] : (0 < size A) && rows_ge (ncols A) A.
    by rewrite -(isok_mat_scalar_mul zt tsmul A k) h.
  by move: h; rewrite (mat_scalar_mul_Ok zt) // => -[<-]; rewrite widthE; exact: rect_mkmat.
have := isok_mat_scalar_mul zt tsmul A k; rewrite /scalar_mul_checks /= widthE /mat_scalar_mul.
case: posnP => h0; first by rewrite (idx0_nil h0).
rewrite (idx0 h0) /=; case e : (mapM _ _) => [M|p] /=; first by move=> /esym; rewrite /rows_ge /wide => ->.
move=> /esym; rewrite /rows_ge /wide => ->; move: e.
suff: idx_only (mapM (fun i => mapM (fun j => let! row := idx A i in let! x := idx row j in
         Ok (tsmul x k)) (iota 0 (size (head [::] A)))) (iota 0 (size A))) by move=> + e; rewrite e /= => ->.
apply: idx_only_mapM => i; apply: idx_only_mapM => j.
apply: idx_only_bind => [|r]; first exact: idx_only_idx.
apply: idx_only_bind => [|x] //; exact: idx_only_idx.
Qed.

Lemma step_transpose A : step (mat_transpose A) (transpose_checks A)
  (fun M => M = mkseq (fun i => [seq nth zt r i | r <- A & i < size r]) (width A)).
Proof.
split; last first.
  move=> M h; have /andP[h0 hw] : (0 < size A) && rows_le (ncols A) A by rewrite -(isok_transpose zt A) h.
  by move: h; rewrite (transpose_Ok zt) // widthE => -[<-].
have := isok_transpose zt A; rewrite /transpose_checks /= widthE /mat_transpose.
case: posnP => h0; first by rewrite (idx0_nil h0).
rewrite (idx0 h0) /=; case e : (foldM _ _ _) => [M|p] /=; rewrite /rows_le -/(narrow (ncols A) A) => <- //.
move: e; suff: idx_only (foldM (fun trans row =>
    foldM (fun trans i => let! x := idx row i in push_at trans i x)
      trans (iota 0 (size row))) (nseq (size (head [::] A)) [::]) A) by move=> + e; rewrite e /= => ->.
apply: idx_only_foldM => M' row; apply: idx_only_foldM => M'' i.
apply: idx_only_bind => [|x]; first exact: idx_only_idx.
rewrite /push_at; apply: idx_only_bind => [|x'] //; exact: idx_only_idx.
Qed.

Lemma idx_only_par (cell : nat -> nat -> res T) ord r c par :
  perm_eq ord (tasks r c) -> (forall i j, idx_only (cell i j)) ->
  idx_only (if par then par_collect ord r c cell
            else mapM (fun i => mapM (fun j => cell i j) (iota 0 c)) (iota 0 r)).
Proof.
move=> hp hc; have hs : idx_only (seq_collect r c cell).
  by apply: idx_only_mapM => i; apply: idx_only_mapM => j.
by case: par => //; rewrite par_collect_seq.
Qed.

Lemma step_right_mul ord A L par : (forall r c, perm_eq (ord r c) (tasks r c)) ->
  step (mat_right_mul tzero tadd tsmul ord A L par) (right_mul_checks A L)
    (fun M => if void A || void L then M = [::] else rect (size A) (width L) M).
Proof.
move=> hp; rewrite /right_mul_checks !voidE; case: ifP => [he|].
  by rewrite right_mul_empty //; exact: step_pure.
move/negbT; rewrite negb_or => /andP[/negbTE hA /negbTE hL].
have hok := isok_right_mul tzero tadd tsmul A L par hp.
split; last first.
  move=> M h; move: hok; rewrite h /right_mul_shape hA hL /= => /esym/and3P[/eqP h1 h2 h3].
  by move: h; rewrite (right_mul_Ok zt zs) // => -[<-]; rewrite widthE; exact: rect_mkmat.
move: hok; rewrite /right_mul_shape hA hL /= !widthE /mat_right_mul hA hL.
have [a1 _] := cells_pos hA; have [l1 _] := cells_pos hL.
rewrite (idx0 a1) (idx0 l1) /= -/(ncols A) -/(ncols L) /assert_eq; case: eqP => [e|//] /=.
rewrite -[wide _ A]/(rows_ge (size L) A) -[wide _ L]/(rows_ge (ncols L) L).
set cell := (X in par_collect _ _ _ X).
have hi : idx_only (if par then par_collect (ord (size A) (ncols L)) (size A) (ncols L) cell
   else mapM (fun i => mapM (fun j => cell i j) (iota 0 (ncols L))) (iota 0 (size A))).
  apply: idx_only_par => // i j; apply: idx_only_bind => [|row]; first exact: idx_only_idx.
  apply: idx_only_foldM => a x; apply: idx_only_bind => //.
  apply: idx_only_bind => [|y]; first exact: idx_only_idx.
  apply: idx_only_bind => [|rk]; first exact: idx_only_idx.
  by apply: idx_only_bind => [|c] //; exact: idx_only_idx.
by move: hi; set m := (if par then _ else _); case: m => [M|p] /= => [_|->] <-.
Qed.

Lemma step_left_mul ord A L par : (forall r c, perm_eq (ord r c) (tasks r c)) ->
  step (mat_left_mul tzero tadd tsmul ord A L par) (left_mul_checks A L)
    (fun M => if void A || void L then M = [::] else rect (size L) (width A) M).
Proof.
move=> hp; rewrite /left_mul_checks !voidE; case: ifP => [he|].
  by rewrite left_mul_empty 1?orbC //; exact: step_pure.
move/negbT; rewrite negb_or => /andP[/negbTE hA /negbTE hL].
have hok := isok_left_mul tzero tadd tsmul A L par hp.
split; last first.
  move=> M h; move: hok; rewrite h /left_mul_shape hA hL /= => /esym/and3P[/eqP h1 h2 h3].
  by move: h; rewrite (left_mul_Ok zt zs) // => -[<-]; rewrite widthE; exact: rect_mkmat.
move: hok; rewrite /left_mul_shape hA hL /= !widthE /mat_left_mul hA hL.
have [a1 _] := cells_pos hA; have [l1 _] := cells_pos hL.
rewrite (idx0 a1) (idx0 l1) /= -/(ncols A) -/(ncols L) /assert_eq; case: eqP => [e|//] /=.
rewrite -[wide _ L]/(rows_ge (size A) L) -[wide _ A]/(rows_ge (ncols A) A).
set cell := (X in par_collect _ _ _ X).
have hi : idx_only (if par then par_collect (ord (size L) (ncols A)) (size L) (ncols A) cell
   else mapM (fun i => mapM (fun j => cell i j) (iota 0 (ncols A))) (iota 0 (size L))).
  apply: idx_only_par => // i j; apply: idx_only_bind => [|row]; first exact: idx_only_idx.
  apply: idx_only_foldM => a x; apply: idx_only_bind => //.
  apply: idx_only_bind => [|y]; first exact: idx_only_idx.
  apply: idx_only_bind => [|rk]; first exact: idx_only_idx.
  by apply: idx_only_bind => [|c] //; exact: idx_only_idx.
by move: hi; set m := (if par then _ else _); case: m => [M|p] /= => [_|->] <-.
Qed.

Lemma step_flatten A : step (col_vec_to_vec A) (flatten_checks A)
  (fun v => size v = if size A == 1 then width A else size A).
Proof.
rewrite /col_vec_to_vec /flatten_checks; case: ifP => h1.
  move: h1; case: A => [//|r [|//]] _ /=; split=> //= a [<-] //.
apply: idx_only_step.
- by apply: idx_only_mapM => x; exact: idx_only_idx.
- by rewrite isok_mapM; apply: eq_all => r; rewrite isok_idx.
by move=> v /mapM_size.
Qed.
End Ops.
