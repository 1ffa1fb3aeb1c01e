(** What the matrix operations of DataStructures.v compute, and when they panic. *)
From mathcomp Require Import all_ssreflect all_algebra.
From Verif Require Import Base BaseLemmas Group DataStructures.
Set Implicit Arguments.
Unset Strict Implicit.
Unset Printing Implicit Defensive.
Import GRing.Theory.

Definition mkmat {T} (m n : nat) (f : nat -> nat -> T) : matrix T :=
  mkseq (fun i => mkseq (f i) n) m.

Definition ent {T} (z : T) (M : matrix T) (i j : nat) : T := nth z (nth [::] M i) j.

Definition rect {T} (m n : nat) (M : matrix T) : bool :=
  (size M == m) && all (fun row => size row == n) M.

(** All rows have at least / at most [n] entries. *)
Definition rows_ge {T} (n : nat) (M : matrix T) : bool := all (fun row => n <= size row) M.
Definition rows_le {T} (n : nat) (M : matrix T) : bool := all (fun row => size row <= n) M.

Definition ncols {T} (M : matrix T) : nat := size (head [::] M).

Section Shapes.
Context {T : Type}.
Implicit Types (M : matrix T).

Lemma size_mkmat m n (f : nat -> nat -> T) : size (mkmat m n f) = m.
Proof. exact: size_mkseq. Qed.

Lemma mkmatS m n (f : nat -> nat -> T) :
  mkmat m.+1 n f = mkseq (f 0) n :: mkmat m n (fun i => f i.+1).
Proof. by rewrite /mkmat {1}/mkseq /= -[X in iota X]addn0 iotaDl -map_comp. Qed.

Lemma nth_mkmat m n (f : nat -> nat -> T) i : i < m -> nth [::] (mkmat m n f) i = mkseq (f i) n.
Proof. exact: nth_mkseq. Qed.

Lemma ent_mkmat z m n (f : nat -> nat -> T) i j :
  i < m -> j < n -> ent z (mkmat m n f) i j = f i j.
Proof. by move=> hi hj; rewrite /ent nth_mkmat // nth_mkseq. Qed.

Lemma rect_mkmat m n (f : nat -> nat -> T) : rect m n (mkmat m n f).
Proof.
rewrite /rect size_mkmat eqxx; apply/(all_nthP [::]) => i; rewrite size_mkmat => hi.
by rewrite nth_mkmat // size_mkseq.
Qed.

Lemma ncols_mkmat m n (f : nat -> nat -> T) : 0 < m -> ncols (mkmat m n f) = n.
Proof. by case: m => // m _; rewrite /ncols /= size_mkseq. Qed.

Lemma rectP m n M : reflect (size M = m /\ forall i, i < m -> size (nth [::] M i) = n) (rect m n M).
Proof.
apply: (iffP andP) => [[/eqP <- /all_nthP h]|[<- h]].
  by split=> // i hi; apply/eqP/h.
by split=> //; apply/(all_nthP [::]) => i hi; rewrite h.
Qed.

Lemma rect_size m n M : rect m n M -> size M = m.
Proof. by case/rectP. Qed.

Lemma rect_row m n M i : rect m n M -> i < m -> size (nth [::] M i) = n.
Proof. by case/rectP => _; apply. Qed.

Lemma rect_ncols m n M : rect m n M -> 0 < m -> ncols M = n.
Proof. by case/rectP=> hs hr hm; rewrite /ncols -nth0 hr. Qed.

Lemma rectE z m n M : rect m n M -> M = mkmat m n (ent z M).
Proof.
case/rectP=> hs hr; apply: (@eq_from_nth _ [::]); first by rewrite size_mkmat.
rewrite hs => i hi; rewrite nth_mkmat //.
apply: (@eq_from_nth _ z); first by rewrite size_mkseq hr.
by rewrite hr // => j hj; rewrite nth_mkseq.
Qed.

Lemma eq_mkmat m n (f g : nat -> nat -> T) :
  (forall i j, i < m -> j < n -> f i j = g i j) -> mkmat m n f = mkmat m n g.
Proof.
move=> h; apply: (@eq_from_nth _ [::]); first by rewrite !size_mkmat.
move=> i; rewrite size_mkmat => hi; rewrite !nth_mkmat //.
apply: (@eq_from_nth _ (f 0 0)); first by rewrite !size_mkseq.
by move=> j; rewrite size_mkseq => hj; rewrite !nth_mkseq // h.
Qed.

Lemma rows_ge_mkmat m n (f : nat -> nat -> T) k : k <= n -> rows_ge k (mkmat m n f).
Proof.
move=> hk; apply/(all_nthP [::]) => i; rewrite size_mkmat => hi.
by rewrite nth_mkmat // size_mkseq.
Qed.

Lemma rows_le_mkmat m n (f : nat -> nat -> T) k : n <= k -> rows_le k (mkmat m n f).
Proof.
move=> hk; apply/(all_nthP [::]) => i; rewrite size_mkmat => hi.
by rewrite nth_mkmat // size_mkseq.
Qed.

Lemma rows_ge_nth n M i : rows_ge n M -> i < size M -> n <= size (nth [::] M i).
Proof. by move=> /all_nthP h hi; apply: h. Qed.

Lemma rows_le_nth n M i : rows_le n M -> i < size M -> size (nth [::] M i) <= n.
Proof. by move=> /all_nthP h hi; apply: h. Qed.

Lemma rows_eq n M : rows_ge n M -> rows_le n M -> rect (size M) n M.
Proof.
move=> h1 h2; apply/rectP; split=> // i hi; apply/eqP.
by rewrite eqn_leq rows_le_nth // rows_ge_nth.
Qed.

Lemma rect_rows_ge m n M : rect m n M -> rows_ge n M.
Proof. by case/andP=> _; apply: sub_all => r /eqP ->. Qed.

Lemma rect_rows_le m n M : rect m n M -> rows_le n M.
Proof. by case/andP=> _; apply: sub_all => r /eqP ->. Qed.

Lemma no_cellsE M : no_cells M = (size M == 0) || (ncols M == 0).
Proof. by []. Qed.

Lemma no_cells_mkmat m n (f : nat -> nat -> T) : 0 < m -> 0 < n -> no_cells (mkmat m n f) = false.
Proof.
by move=> hm hn; rewrite no_cellsE size_mkmat ncols_mkmat // !eqn0Ngt hm hn.
Qed.

Lemma idx0 M : 0 < size M -> idx M 0 = Ok (head [::] M).
Proof. by case: M. Qed.

Lemma idx0_nil M : size M = 0 -> idx M 0 = Panic IndexOutOfBounds.
Proof. by case: M. Qed.

Lemma size_vec_to_col_vec (v : seq T) : size (vec_to_col_vec v) = size v.
Proof. exact: size_map. Qed.

Lemma rect_vec_to_col_vec (v : seq T) : rect (size v) 1 (vec_to_col_vec v).
Proof. by rewrite /rect size_map eqxx; elim: v. Qed.

Lemma vec_to_col_vecE z (v : seq T) : vec_to_col_vec v = mkmat (size v) 1 (fun i _ => nth z v i).
Proof.
apply: (@eq_from_nth _ [::]); first by rewrite size_mkmat size_map.
move=> i; rewrite size_map => hi.
by rewrite nth_mkmat // (nth_map z).
Qed.

Lemma col_vec_to_vec_mkmat m (f : nat -> nat -> T) :
  col_vec_to_vec (mkmat m 1 f) = Ok (mkseq (fun i => f i 0) m).
Proof.
rewrite /col_vec_to_vec size_mkmat; case: eqP => [->//|_].
rewrite (mapM_Ok (g := fun r => head (f 0 0) r)) => [|i hi d].
  by rewrite /mkmat /mkseq -map_comp.
rewrite (set_nth_default [::]) //; rewrite size_mkmat in hi.
by rewrite nth_mkmat.
Qed.

Lemma col_vec_to_vecK (v : seq T) : col_vec_to_vec (vec_to_col_vec v) = Ok v.
Proof.
case: v => // z v; rewrite (vec_to_col_vecE z) col_vec_to_vec_mkmat.
congr Ok; exact: mkseq_nth.
Qed.

(** [col_vec_to_vec] returns the first row of a single-row matrix and the first
    column of any other; it panics iff in the latter case a row is empty. *)
Lemma isok_col_vec_to_vec M :
  isok (col_vec_to_vec M) = (size M == 1) || rows_ge 1 M.
Proof.
rewrite /col_vec_to_vec; case: eqP => [e|_].
  by rewrite idx0 ?e.
by rewrite isok_mapM; apply: eq_all => r; rewrite isok_idx.
Qed.

Lemma size_col_vec_to_vec M v : size M != 1 -> col_vec_to_vec M = Ok v -> size v = size M.
Proof. by rewrite /col_vec_to_vec => /negbTE ->; apply: mapM_size. Qed.
End Shapes.

Lemma foldM_cat A S (f : S -> A -> res S) s1 s2 z :
  foldM f z (s1 ++ s2) = bind (foldM f z s1) (fun a => foldM f a s2).
Proof. by elim: s1 z => //= x s IH z; case: (f z x) => //=. Qed.

Lemma foldM_rcons A S (f : S -> A -> res S) s x z :
  foldM f z (rcons s x) = bind (foldM f z s) (fun a => f a x).
Proof. by rewrite -cats1 foldM_cat /=; case: (foldM f z s) => //= a; case: (f a x). Qed.

Section Transpose.
Context {T : Type}.
Variable z : T.
Implicit Types (M trans : matrix T).

Definition push_row trans (row : seq T) : matrix T :=
  mkseq (fun i => if i < size row then rcons (nth [::] trans i) (nth z row i)
                  else nth [::] trans i) (size trans).

Let inner trans (row : seq T) k :=
  foldM (fun trans i => let! x := idx row i in push_at trans i x) trans (iota 0 k).

Lemma inner_prefix trans row k : k <= size row -> k <= size trans ->
  inner trans row k = Ok (push_row trans (take k row)).
Proof.
elim: k => [|k IH] hr ht.
  rewrite take0 /inner /push_row /= ; congr Ok; apply/esym/mkseq_nth.
rewrite /inner -(addn1 k) iotaD /= foldM_cat -/(inner _ _ k) IH ?(ltnW hr) ?(ltnW ht) //= add0n.
rewrite (idx_nth z hr) /= /push_at.
rewrite (idx_nth [::]) ?size_mkseq //=; congr Ok.
have sz s : size (set_nth [::] (push_row trans (take k row)) k s) = size trans.
  by rewrite size_set_nth size_mkseq; apply/maxn_idPr.
apply: (@eq_from_nth _ [::]); first by rewrite sz size_mkseq.
move=> i; rewrite sz => hi; rewrite nth_set_nth /= !nth_mkseq //.
rewrite addn1 (size_takel hr) (size_takel (ltnW hr)).
case: (ltngtP i k) => h /=.
- by rewrite (ltn_trans h) // ?nth_take // (ltn_trans h).
- by rewrite ltnNge h.
- by rewrite h ltnSn ltnn nth_take.
Qed.

Lemma inner_Ok trans row : size row <= size trans ->
  inner trans row (size row) = Ok (push_row trans row).
Proof. by move=> h; rewrite inner_prefix // take_size. Qed.

Lemma inner_panic trans row : size trans < size row ->
  inner trans row (size row) = Panic IndexOutOfBounds.
Proof.
move=> h; rewrite /inner; have -> : size row = size trans + (1 + (size row - (size trans).+1)).
  by rewrite addnA addn1 subnKC.
rewrite iotaD iotaD /= foldM_cat -/(inner _ _ (size trans)) inner_prefix ?(ltnW h) //=.
by rewrite add0n (idx_nth z h) /= /push_at idx_oob // size_mkseq.
Qed.

Lemma size_push_row trans row : size (push_row trans row) = size trans.
Proof. exact: size_mkseq. Qed.

Let outer trans M :=
  foldM (fun trans row =>
    foldM (fun trans i => let! x := idx row i in push_at trans i x)
      trans (iota 0 (size row))) trans M.

Lemma outer_Ok n M : rows_le n M ->
  outer (nseq n [::]) M
  = Ok (mkseq (fun i => [seq nth z r i | r <- M & i < size r]) n).
Proof.
elim/last_ind: M => [|M row IH] hall.
  rewrite /outer /=; congr Ok.
  apply: (@eq_from_nth _ [::]); first by rewrite size_mkseq size_nseq.
  by move=> i; rewrite size_nseq => hi; rewrite nth_mkseq // nth_nseq hi.
move: hall; rewrite /rows_le all_rcons => /andP[hrow hall].
rewrite /outer foldM_rcons -/(outer _ M) IH //= -/(inner _ _ _) inner_Ok ?size_mkseq //.
congr Ok; rewrite /push_row size_mkseq.
apply: (@eq_from_nth _ [::]); first by rewrite !size_mkseq.
move=> i; rewrite size_mkseq => hi; rewrite !nth_mkseq // filter_rcons.
by case: ifP => //; rewrite map_rcons.
Qed.

Lemma isok_outer trans M : isok (outer trans M) = rows_le (size trans) M.
Proof.
elim: M trans => //= row M IH trans; rewrite /outer /= -/(inner _ _ _).
case: (leqP (size row) (size trans)) => h.
  by rewrite inner_Ok //= -/(outer _ M) IH size_push_row.
by rewrite inner_panic.
Qed.

Lemma isok_transpose M : isok (mat_transpose M) = (0 < size M) && rows_le (ncols M) M.
Proof.
rewrite /mat_transpose; case: (posnP (size M)) => h0; first by rewrite idx0_nil.
by rewrite idx0 //= -/(outer _ M) isok_outer size_nseq.
Qed.

Lemma transpose_Ok M : 0 < size M -> rows_le (ncols M) M ->
  mat_transpose M = Ok (mkseq (fun i => [seq nth z r i | r <- M & i < size r]) (ncols M)).
Proof.
by move=> h0 h; rewrite /mat_transpose (idx0 h0) /= -/(outer _ M) outer_Ok.
Qed.

Lemma transpose_mkmat m n (f : nat -> nat -> T) : 0 < m ->
  mat_transpose (mkmat m n f) = Ok (mkmat n m (fun i j => f j i)).
Proof.
move=> hm; rewrite transpose_Ok ?size_mkmat ?ncols_mkmat ?rows_le_mkmat //.
congr Ok; apply: (@eq_from_nth _ [::]); first by rewrite !size_mkseq.
move=> i; rewrite size_mkseq => hi; rewrite nth_mkseq // nth_mkmat //.
rewrite (_ : filter _ _ = mkmat m n f); last first.
  apply/all_filterP/(all_nthP [::]) => j; rewrite size_mkmat => hj.
  by rewrite nth_mkmat // size_mkseq.
rewrite /mkmat /mkseq -map_comp; apply: eq_map => j /=.
by rewrite (nth_map 0) ?size_iota // nth_iota.
Qed.
End Transpose.

Section Ops.
Context {T S : Type}.
Variables (zt : T) (zs : S).
Variables (tzero : T) (tadd : T -> T -> T) (topp : T -> T) (tsmul : T -> S -> T).
Implicit Types (A B : matrix T) (L : matrix S).

Definition add_shape A B : bool :=
  [&& size A == size B, 0 < size A, ncols A == ncols B,
      rows_ge (ncols A) A & rows_ge (ncols A) B].

Lemma isok_cell_add A B i j :
  isok (let! srow := idx A i in let! a := idx srow j in
        let! orow := idx B i in let! b := idx orow j in Ok (tadd a b))
  = [&& i < size A, j < size (nth [::] A i), i < size B & j < size (nth [::] B i)].
Proof.
rewrite isok_bind; case: (ltnP i (size A)) => hA; last by rewrite idx_oob.
rewrite (idx_nth [::] hA) /= isok_bind.
case h : (idx _ j) => [a|p]; last by rewrite -isok_idx h.
rewrite -isok_idx h /= isok_bind.
case: (ltnP i (size B)) => hB; last by rewrite idx_oob.
rewrite (idx_nth [::] hB) /= isok_bind -isok_idx.
by case: (idx _ j).
Qed.

Lemma mat_add_Ok A B : add_shape A B ->
  mat_add tadd A B = Ok (mkmat (size A) (ncols A) (fun i j => tadd (ent zt A i j) (ent zt B i j))).
Proof.
case/and5P=> /eqP hs h0 /eqP hc hA hB; rewrite /mat_add assert_eqT //= idx0 //= idx0 -?hs //=.
rewrite assert_eqT //=; apply: mapM_iota_Ok => i hi; apply: mapM_iota_Ok => j hj.
rewrite (idx_nth [::]) //= (idx_nth zt) /=; last exact: leq_trans hj (rows_ge_nth hA hi).
rewrite (idx_nth [::]) -?hs //= (idx_nth zt) //=.
by apply: leq_trans hj (rows_ge_nth hB _); rewrite -hs.
Qed.

Lemma isok_mat_add A B : isok (mat_add tadd A B) = add_shape A B.
Proof.
apply/idP/idP; last by move=> h; rewrite (mat_add_Ok h).
rewrite /mat_add /add_shape isok_bind; case h1 : (assert_eq _ _) => [u|] //.
have /= := isok_assert_eq (size A) (size B); rewrite h1 => /esym/eqP hs; rewrite hs eqxx /=.
case: (posnP (size A)) => h0; first by rewrite (idx0_nil h0).
rewrite (idx0 h0) /= idx0 -?hs //= isok_bind h0 /= -/(ncols A) -/(ncols B).
case h2 : (assert_eq _ _) => [u'|] //.
have /= := isok_assert_eq (ncols A) (ncols B); rewrite h2 => /esym/eqP hc; rewrite hc eqxx /=.
rewrite isok_mapM => /all_iotaP h.
have key i : i < size A -> forall j, j < ncols B ->
   [&& i < size A, j < size (nth [::] A i), i < size B & j < size (nth [::] B i)].
  move=> hi j hj; have := h i hi; rewrite isok_mapM => /all_iotaP/(_ j hj).
  by rewrite isok_cell_add.
case: (posnP (ncols B)) => hB0.
  by rewrite hB0; apply/andP; split; apply/(all_nthP [::]).
have kp : (ncols B).-1 < ncols B by rewrite prednK.
apply/andP; split; apply/(all_nthP [::]) => i hi.
  by have /and4P[_ + _ _] := key i hi _ kp; rewrite prednK.
by rewrite -hs in hi; have /and4P[_ _ _ +] := key i hi _ kp; rewrite prednK.
Qed.

Lemma mat_negE A : mat_neg topp A = Ok [seq [seq topp x | x <- row] | row <- A].
Proof.
rewrite /mat_neg (mapM_iota_Ok (g := fun i => [seq topp x | x <- nth [::] A i])) => [|i hi].
  by congr Ok; rewrite -[in RHS](mkseq_nth [::] A) /mkseq -map_comp.
rewrite (idx_nth [::] hi) /=.
rewrite (mapM_iota_Ok (g := fun j => topp (nth zt (nth [::] A i) j))) => [|j hj].
  by congr Ok; rewrite -[in RHS](mkseq_nth zt (nth [::] A i)) /mkseq -map_comp.
by rewrite (idx_nth zt hj).
Qed.

Lemma mat_neg_mkmat m n f :
  mat_neg topp (mkmat m n f) = Ok (mkmat m n (fun i j => topp (f i j))).
Proof.
rewrite mat_negE /mkmat /mkseq -map_comp; congr Ok; apply: eq_map => i /=.
by rewrite -map_comp.
Qed.

Lemma mat_scalar_mul_Ok A (k : S) : 0 < size A -> rows_ge (ncols A) A ->
  mat_scalar_mul tsmul A k
  = Ok (mkmat (size A) (ncols A) (fun i j => tsmul (ent zt A i j) k)).
Proof.
move=> h0 hA; rewrite /mat_scalar_mul idx0 //=.
apply: mapM_iota_Ok => i hi; apply: mapM_iota_Ok => j hj.
rewrite (idx_nth [::]) //= (idx_nth zt) //=; exact: leq_trans hj (rows_ge_nth hA hi).
Qed.

Lemma isok_mat_scalar_mul A (k : S) :
  isok (mat_scalar_mul tsmul A k) = (0 < size A) && rows_ge (ncols A) A.
Proof.
apply/idP/idP; last by case/andP=> h0 h; rewrite mat_scalar_mul_Ok.
rewrite /mat_scalar_mul; case: (posnP (size A)) => h0; first by rewrite (idx0_nil h0).
rewrite (idx0 h0) /= isok_mapM -/(ncols A) => /all_iotaP h.
apply/(all_nthP [::]) => i hi; have := h i hi; rewrite isok_mapM => /all_iotaP h'.
case: (posnP (ncols A)) => [->//|hp].
have := h' (ncols A).-1; rewrite prednK // => /(_ (leqnn _)).
rewrite (idx_nth [::] hi) /= isok_bind.
case e : (idx _ _) => //; move: (isok_idx (nth [::] A i) (ncols A).-1).
by rewrite e prednK // => <-.
Qed.

(** Non-trivial products. *)
Definition right_mul_shape A L : bool :=
  [|| no_cells A, no_cells L |
      [&& ncols A == size L, rows_ge (size L) A & rows_ge (ncols L) L]].

Definition left_mul_shape A L : bool :=
  [|| no_cells L, no_cells A |
      [&& ncols L == size A, rows_ge (size A) L & rows_ge (ncols A) A]].

Definition tsum (f : nat -> T) n := foldl tadd tzero (mkseq f n).

Lemma sumM_tsum (f : nat -> res T) g n :
  (forall k, k < n -> f k = Ok (g k)) -> sumM tzero tadd f (iota 0 n) = Ok (tsum g n).
Proof.
rewrite /sumM /tsum /mkseq; elim: (iota 0 n) (mem_iota 0 n) tzero => //= k s IH hm z h.
rewrite h; last by have := hm k; rewrite inE eqxx /= add0n => /esym.
rewrite /= ; move: (tadd z (g k)) => z'.
have hs : forall k', k' \in s -> k' < n.
  by move=> k' hk; have := hm k'; rewrite inE hk orbT /= add0n => /esym.
elim: s hs z' {IH hm} => //= k' s IH hs z'.
by rewrite h /= ?IH ?hs ?mem_head // => k'' hk; apply: hs; rewrite inE hk orbT.
Qed.

Let rcell A L i j :=
  let! row := idx A i in
  let dim := size L in
  sumM tzero tadd (fun k =>
    let! x := idx row k in
    let! rk := idx L k in
    let! c := idx rk j in
    Ok (tsmul x c)) (iota 0 dim).

Let lcell A L i j :=
  let! row := idx L i in
  let dim := size A in
  sumM tzero tadd (fun k =>
    let! sk := idx A k in
    let! x := idx sk j in
    let! c := idx row k in
    Ok (tsmul x c)) (iota 0 dim).

Lemma rcell_idx_only A L i j : idx_only (rcell A L i j).
Proof.
apply: idx_only_bind => [|row]; first exact: idx_only_idx.
apply: idx_only_foldM => a x; apply: idx_only_bind => //.
apply: idx_only_bind => [|y]; first exact: idx_only_idx.
apply: idx_only_bind => [|rk]; first exact: idx_only_idx.
by apply: idx_only_bind => [|c] //; exact: idx_only_idx.
Qed.

Lemma lcell_idx_only A L i j : idx_only (lcell A L i j).
Proof.
apply: idx_only_bind => [|row]; first exact: idx_only_idx.
apply: idx_only_foldM => a x; apply: idx_only_bind => //.
apply: idx_only_bind => [|y]; first exact: idx_only_idx.
apply: idx_only_bind => [|rk]; first exact: idx_only_idx.
by apply: idx_only_bind => [|c] //; exact: idx_only_idx.
Qed.

(** The order of the parallel tasks does not matter, and the parallel and the
    sequential branch have the same outcome, panics included. *)
Lemma right_mul_par_seq ord ord' A L par :
  (forall r c, perm_eq (ord r c) (tasks r c)) ->
  mat_right_mul tzero tadd tsmul ord A L par
  = mat_right_mul tzero tadd tsmul ord' A L false.
Proof.
move=> hp; rewrite /mat_right_mul; case: ifP => // _; case: ifP => // _.
case: (idx A 0) => //= s0; case: (assert_eq _ _) => //= _; case: (idx L 0) => //= r0.
case: par => //; rewrite -/(rcell A L) par_collect_seq // => i j; exact: rcell_idx_only.
Qed.

Lemma left_mul_par_seq ord ord' A L par :
  (forall r c, perm_eq (ord r c) (tasks r c)) ->
  mat_left_mul tzero tadd tsmul ord A L par
  = mat_left_mul tzero tadd tsmul ord' A L false.
Proof.
move=> hp; rewrite /mat_left_mul; case: ifP => // _; case: ifP => // _.
case: (idx L 0) => //= s0; case: (assert_eq _ _) => //= _; case: (idx A 0) => //= r0.
case: par => //; rewrite -/(lcell A L) par_collect_seq // => i j; exact: lcell_idx_only.
Qed.

Lemma rcell_Ok A L i j : i < size A -> j < ncols L ->
  rows_ge (size L) A -> rows_ge (ncols L) L ->
  rcell A L i j = Ok (tsum (fun k => tsmul (ent zt A i k) (ent zs L k j)) (size L)).
Proof.
move=> hi hj hA hL; rewrite /rcell (idx_nth [::] hi) /=; apply: sumM_tsum => k hk.
rewrite (idx_nth zt) /=; last exact: leq_trans hk (rows_ge_nth hA hi).
rewrite (idx_nth [::] hk) /= (idx_nth zs) //; exact: leq_trans hj (rows_ge_nth hL hk).
Qed.

Lemma lcell_Ok A L i j : i < size L -> j < ncols A ->
  rows_ge (size A) L -> rows_ge (ncols A) A ->
  lcell A L i j = Ok (tsum (fun k => tsmul (ent zt A k j) (ent zs L i k)) (size A)).
Proof.
move=> hi hj hL hA; rewrite /lcell (idx_nth [::] hi) /=; apply: sumM_tsum => k hk.
rewrite (idx_nth [::] hk) /= (idx_nth zt) /=; last exact: leq_trans hj (rows_ge_nth hA hk).
rewrite (idx_nth zs) //; exact: leq_trans hk (rows_ge_nth hL hi).
Qed.

Lemma cells_pos U (M : matrix U) : no_cells M = false -> 0 < size M /\ 0 < ncols M.
Proof. by rewrite no_cellsE !lt0n => /negbT; rewrite negb_or => /andP. Qed.

Lemma right_mul_seqE ord A L : no_cells A = false -> no_cells L = false ->
  mat_right_mul tzero tadd tsmul ord A L false
  = let! _ := assert_eq (ncols A) (size L) in seq_collect (size A) (ncols L) (rcell A L).
Proof.
move=> hA hL; rewrite /mat_right_mul hA hL idx0 /=; last by case: (cells_pos hA).
by case: (assert_eq _ _) => //= _; rewrite idx0 //; case: (cells_pos hL).
Qed.

Lemma left_mul_seqE ord A L : no_cells A = false -> no_cells L = false ->
  mat_left_mul tzero tadd tsmul ord A L false
  = let! _ := assert_eq (ncols L) (size A) in seq_collect (size L) (ncols A) (lcell A L).
Proof.
move=> hA hL; rewrite /mat_left_mul hA hL idx0 /=; last by case: (cells_pos hL).
by case: (assert_eq _ _) => //= _; rewrite idx0 //; case: (cells_pos hA).
Qed.

Lemma right_mul_empty ord A L par : no_cells A || no_cells L ->
  mat_right_mul tzero tadd tsmul ord A L par = Ok [::].
Proof. by rewrite /mat_right_mul; case: ifP => //= _ ->. Qed.

Lemma left_mul_empty ord A L par : no_cells L || no_cells A ->
  mat_left_mul tzero tadd tsmul ord A L par = Ok [::].
Proof. by rewrite /mat_left_mul; case: ifP => //= _ ->. Qed.

Lemma right_mul_Ok ord A L par :
  (forall r c, perm_eq (ord r c) (tasks r c)) ->
  no_cells A = false -> no_cells L = false ->
  ncols A = size L -> rows_ge (size L) A -> rows_ge (ncols L) L ->
  mat_right_mul tzero tadd tsmul ord A L par
  = Ok (mkmat (size A) (ncols L)
         (fun i j => tsum (fun k => tsmul (ent zt A i k) (ent zs L k j)) (size L))).
Proof.
move=> hp hA hL hc rA rL; rewrite (right_mul_par_seq ord _ _ _ hp) right_mul_seqE //.
rewrite assert_eqT //=; apply: seq_collect_Ok => i j hi hj; exact: rcell_Ok.
Qed.

Lemma left_mul_Ok ord A L par :
  (forall r c, perm_eq (ord r c) (tasks r c)) ->
  no_cells A = false -> no_cells L = false ->
  ncols L = size A -> rows_ge (size A) L -> rows_ge (ncols A) A ->
  mat_left_mul tzero tadd tsmul ord A L par
  = Ok (mkmat (size L) (ncols A)
         (fun i j => tsum (fun k => tsmul (ent zt A k j) (ent zs L i k)) (size A))).
Proof.
move=> hp hA hL hc rL rA; rewrite (left_mul_par_seq ord _ _ _ hp) left_mul_seqE //.
rewrite assert_eqT //=; apply: seq_collect_Ok => i j hi hj; exact: lcell_Ok.
Qed.

Lemma isok_rcell A L i j : i < size A -> isok (rcell A L i j)
  = all (fun k => (k < size (nth [::] A i)) && (j < size (nth [::] L k))) (iota 0 (size L)).
Proof.
move=> hi; rewrite /rcell (idx_nth [::] hi) /= isok_sumM; apply: eq_in_all => k.
rewrite mem_iota /= add0n => hk; rewrite isok_bind -isok_idx; case: (idx _ k) => //= x.
rewrite (idx_nth [::] hk) /= isok_bind -isok_idx; by case: (idx _ j).
Qed.

Lemma isok_lcell A L i j : i < size L -> isok (lcell A L i j)
  = all (fun k => (j < size (nth [::] A k)) && (k < size (nth [::] L i))) (iota 0 (size A)).
Proof.
move=> hi; rewrite /lcell (idx_nth [::] hi) /= isok_sumM; apply: eq_in_all => k.
rewrite mem_iota /= add0n => hk; rewrite (idx_nth [::] hk) /= isok_bind -isok_idx.
case: (idx _ j) => //= x; rewrite isok_bind -isok_idx; by case: (idx _ k).
Qed.

Lemma isok_right_mul ord A L par :
  (forall r c, perm_eq (ord r c) (tasks r c)) ->
  isok (mat_right_mul tzero tadd tsmul ord A L par) = right_mul_shape A L.
Proof.
move=> hp; rewrite (right_mul_par_seq ord _ _ _ hp) /right_mul_shape.
case hA : (no_cells A); first by rewrite right_mul_empty ?hA.
case hL : (no_cells L); first by rewrite right_mul_empty ?hL ?orbT.
have [a1 a2] := cells_pos hA; have [l1 l2] := cells_pos hL.
rewrite right_mul_seqE //= isok_bind; case: eqP => [e|ne]; last first.
  by rewrite /assert_eq; case: eqP.
rewrite assert_eqT // isok_seq_collect andTb.
apply/allP/andP => [h|[rA rL] [i j]]; last first.
  rewrite mem_tasks => /andP[hi hj] /=; rewrite isok_rcell //.
  apply/all_iotaP => k hk; apply/andP; split.
    exact: leq_trans hk (rows_ge_nth rA hi).
  exact: leq_trans hj (rows_ge_nth rL hk).
have key i j k : i < size A -> j < ncols L -> k < size L ->
    (k < size (nth [::] A i)) && (j < size (nth [::] L k)).
  move=> hi hj hk; have := h (i, j); rewrite mem_tasks hi hj => /(_ isT) /=.
  by rewrite isok_rcell // => /all_iotaP; apply.
split; apply/(all_nthP [::]) => i hi.
  have := key i 0 (size L).-1 hi l2; rewrite prednK // => /(_ (leqnn _)).
  by case/andP.
have := key 0 (ncols L).-1 i a1; rewrite prednK // => /(_ (leqnn _) hi).
by case/andP.
Qed.

Lemma isok_left_mul ord A L par :
  (forall r c, perm_eq (ord r c) (tasks r c)) ->
  isok (mat_left_mul tzero tadd tsmul ord A L par) = left_mul_shape A L.
Proof.
move=> hp; rewrite (left_mul_par_seq ord _ _ _ hp) /left_mul_shape.
case hL : (no_cells L); first by rewrite left_mul_empty ?hL.
case hA : (no_cells A); first by rewrite left_mul_empty ?hA ?orbT.
have [a1 a2] := cells_pos hA; have [l1 l2] := cells_pos hL.
rewrite left_mul_seqE //= isok_bind; case: eqP => [e|ne]; last first.
  by rewrite /assert_eq; case: eqP.
rewrite assert_eqT // isok_seq_collect andTb.
apply/allP/andP => [h|[rL rA] [i j]]; last first.
  rewrite mem_tasks => /andP[hi hj] /=; rewrite isok_lcell //.
  apply/all_iotaP => k hk; apply/andP; split.
    exact: leq_trans hj (rows_ge_nth rA hk).
  exact: leq_trans hk (rows_ge_nth rL hi).
have key i j k : i < size L -> j < ncols A -> k < size A ->
    (j < size (nth [::] A k)) && (k < size (nth [::] L i)).
  move=> hi hj hk; have := h (i, j); rewrite mem_tasks hi hj => /(_ isT) /=.
  by rewrite isok_lcell // => /all_iotaP; apply.
split; apply/(all_nthP [::]) => i hi.
  have := key i 0 (size A).-1 hi a2; rewrite prednK // => /(_ (leqnn _)).
  by case/andP.
have := key 0 (ncols A).-1 i l1; rewrite prednK // => /(_ (leqnn _) hi).
by case/andP.
Qed.

Lemma right_mul_mkmat ord par m n p f g :
  (forall r c, perm_eq (ord r c) (tasks r c)) ->
  0 < m -> 0 < n -> 0 < p ->
  mat_right_mul tzero tadd tsmul ord (mkmat m n f) (mkmat n p g) par
  = Ok (mkmat m p (fun i j => tsum (fun k => tsmul (f i k) (g k j)) n)).
Proof.
move=> hp hm hn hpp.
rewrite right_mul_Ok ?no_cells_mkmat ?size_mkmat ?ncols_mkmat ?rows_ge_mkmat //.
congr Ok; apply: eq_mkmat => i j hi hj; rewrite /tsum; congr foldl.
rewrite /mkseq; apply/eq_in_map => k; rewrite mem_iota /= => hk.
by rewrite !ent_mkmat.
Qed.

Lemma left_mul_mkmat ord par m n p f g :
  (forall r c, perm_eq (ord r c) (tasks r c)) ->
  0 < m -> 0 < n -> 0 < p ->
  mat_left_mul tzero tadd tsmul ord (mkmat n p g) (mkmat m n f) par
  = Ok (mkmat m p (fun i j => tsum (fun k => tsmul (g k j) (f i k)) n)).
Proof.
move=> hp hm hn hpp.
rewrite left_mul_Ok ?no_cells_mkmat ?size_mkmat ?ncols_mkmat ?rows_ge_mkmat //.
congr Ok; apply: eq_mkmat => i j hi hj; rewrite /tsum; congr foldl.
rewrite /mkseq; apply/eq_in_map => k; rewrite mem_iota /= => hk.
by rewrite !ent_mkmat.
Qed.

Lemma mat_add_mkmat m n f g : 0 < m ->
  mat_add tadd (mkmat m n f) (mkmat m n g) = Ok (mkmat m n (fun i j => tadd (f i j) (g i j))).
Proof.
move=> hm; rewrite mat_add_Ok; last first.
  by rewrite /add_shape !size_mkmat !ncols_mkmat // !eqxx hm !rows_ge_mkmat.
rewrite size_mkmat ncols_mkmat //; congr Ok; apply: eq_mkmat => i j hi hj.
by rewrite !ent_mkmat.
Qed.
End Ops.

(** The field instance is the macro's text with field operations. *)
Section Field.
Context {F : fieldType}.
Local Open Scope ring_scope.
Lemma fmat_addE (A B : matrix F) : fmat_add A B = mat_add +%R A B.
Proof. by []. Qed.
Lemma fmat_negE (A : matrix F) : fmat_neg A = mat_neg -%R A.
Proof. by []. Qed.
Lemma fmat_scalar_mulE (A : matrix F) k : fmat_scalar_mul A k = mat_scalar_mul *%R A k.
Proof. by []. Qed.
Lemma fmat_transposeE (A : matrix F) : fmat_transpose A = mat_transpose A.
Proof. by []. Qed.
Lemma fmat_right_mulE ord (A B : matrix F) par :
  fmat_right_mul ord A B par = mat_right_mul 0 +%R *%R ord A B par.
Proof. by []. Qed.
Lemma fmat_left_mulE ord (A B : matrix F) par :
  fmat_left_mul ord A B par = mat_left_mul 0 +%R *%R ord A B par.
Proof. by []. Qed.
End Field.

Section Sums.
Local Open Scope ring_scope.
Lemma foldl_add (V : zmodType) (s : seq V) z : foldl +%R z s = z + \sum_(x <- s) x.
Proof.
elim: s z => [|x s IH] z /=; first by rewrite big_nil addr0.
by rewrite IH big_cons addrA.
Qed.

Lemma tsum_big (V : zmodType) (f : nat -> V) n : tsum 0 +%R f n = \sum_(0 <= k < n) f k.
Proof. by rewrite /tsum foldl_add add0r big_map /index_iota subn0. Qed.
End Sums.
