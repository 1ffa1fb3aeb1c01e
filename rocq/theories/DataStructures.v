(** Model of /repo/src/data_structures.rs. *)
From mathcomp Require Import all_ssreflect all_algebra.
From Verif Require Import Base Group.
Set Implicit Arguments.
Unset Strict Implicit.
Unset Printing Implicit Defensive.
Import GRing.Theory.
Local Open Scope ring_scope.

(** ** Vector / matrix conversions *)

(** [col_vec_to_vec], data_structures.rs:145-151. *)
Definition col_vec_to_vec {T} (mat : matrix T) : res (seq T) :=
  if size mat == 1%N then idx mat 0
  else mapM (fun v => idx v 0) mat.

(** [vec_to_col_vec], data_structures.rs:154-160. *)
Definition vec_to_col_vec {T} (vec : seq T) : matrix T :=
  [seq [:: elem] | elem <- vec].

(** ** Com1 and Com2: the macro [impl_base_commit_groups],
    data_structures.rs:162-255. The macro is instantiated with Com1 and Com2,
    here with [G := G1 E] and [G := G2 E]. The tuple struct
    [Com(pub G, pub G)] (data_structures.rs:128-133) is a pair; Rust's [.0], [.1]
    are [.1], [.2] here. *)
Section ComMacro.
Context {F : fieldType} {G : lmodType F}.
(** data_structures.rs:128-133. *)
Definition com := (G * G)%type.

(** [PartialEq::eq], data_structures.rs:171-178. *)
Definition com_eq (self other : com) : bool :=
  (self.1 == other.1) && (self.2 == other.2).

(** [Add::add], data_structures.rs:181-191. *)
Definition com_add (self other : com) : com :=
  (self.1 + other.1, self.2 + other.2).

(** [AddAssign::add_assign], data_structures.rs:192-201: the new value of [*self]. *)
Definition com_add_assign (self other : com) : com :=
  (self.1 + other.1, self.2 + other.2).

(** [Neg::neg], data_structures.rs:202-212. *)
Definition com_neg (self : com) : com := (- self.1, - self.2).

(** [Sub::sub], data_structures.rs:213-220. *)
Definition com_sub (self other : com) : com := com_add self (com_neg other).

(** [SubAssign::sub_assign], data_structures.rs:221-227. *)
Definition com_sub_assign (self other : com) : com :=
  com_add_assign self (com_neg other).

(** [Zero::zero], data_structures.rs:257-261 (Com1), 268-272 (Com2). *)
Definition com_zero : com := (0, 0).

(** [Zero::is_zero], data_structures.rs:263-266 (Com1), 274-277 (Com2). *)
Definition com_is_zero (self : com) : bool := com_eq self com_zero.

(** [Sum::sum], data_structures.rs:244-251. *)
Definition com_sum (s : seq com) : com := foldl com_add com_zero s.

(** [From<Matrix<G>>::from], data_structures.rs:283-290 (Com1), 291-298 (Com2). *)
Definition com_from (mat : matrix G) : res com :=
  let! _ := assert_eq (size mat) 2 in
  let! r0 := idx mat 0 in
  let! _ := assert_eq (size r0) 1 in
  let! r1 := idx mat 1 in
  let! _ := assert_eq (size r1) 1 in
  let! x := idx r0 0 in
  let! y := idx r1 0 in
  Ok (x, y).

(** [as_col_vec], data_structures.rs:301-303 (Com1), 346-348 (Com2). *)
Definition com_as_col_vec (self : com) : matrix G := [:: [:: self.1]; [:: self.2]].

(** [as_vec], data_structures.rs:305-307 (Com1), 350-352 (Com2). *)
Definition com_as_vec (self : com) : seq G := [:: self.1; self.2].

(** [scalar_mul], data_structures.rs:336-342 (Com1), 381-387 (Com2). *)
Definition com_scalar_mul (self : com) (rhs : F) : com :=
  let s1p := self.1 in
  let s2p := self.2 in
  (rhs *: s1p, rhs *: s2p).
End ComMacro.
Arguments com {F} G.

(** ** Matrices

    [impl_base_commit_mats], data_structures.rs:545-747, instantiated with Com1 and
    Com2. The element operations are parameters; [tsmul x c] is
    [x.scalar_mul(&c)]. *)
Section MatMacro.
Context {T S : Type}.
Variables (tzero : T) (tadd : T -> T -> T) (topp : T -> T) (tsmul : T -> S -> T).

(** [Mat::add], data_structures.rs:590-603. Simplification: [add[i]] is the row
    just pushed, so its index cannot fail and the two loops are nested [mapM]s. *)
Definition mat_add (self other : matrix T) : res (matrix T) :=
  let! _ := assert_eq (size self) (size other) in
  let! s0 := idx self 0 in
  let! o0 := idx other 0 in
  let! _ := assert_eq (size s0) (size o0) in
  let m := size self in
  let n := size s0 in
  mapM (fun i => mapM (fun j =>
    let! srow := idx self i in
    let! a := idx srow j in
    let! orow := idx other i in
    let! b := idx orow j in
    Ok (tadd a b)) (iota 0 n)) (iota 0 m).

(** [Mat::neg], data_structures.rs:606-615. *)
Definition mat_neg (self : matrix T) : res (matrix T) :=
  mapM (fun i =>
    let! row := idx self i in
    mapM (fun j => let! x := idx row j in Ok (topp x)) (iota 0 (size row)))
    (iota 0 (size self)).

(** [Mat::scalar_mul], data_structures.rs:617-628; loops as in [mat_add]. *)
Definition mat_scalar_mul (self : matrix T) (other : S) : res (matrix T) :=
  let m := size self in
  let! s0 := idx self 0 in
  let n := size s0 in
  mapM (fun i => mapM (fun j =>
    let! row := idx self i in
    let! x := idx row j in
    Ok (tsmul x other)) (iota 0 n)) (iota 0 m).

(** [trans[i].push(x)], data_structures.rs:639. *)
Definition push_at (trans : matrix T) (i : nat) (x : T) : res (matrix T) :=
  let! col := idx trans i in
  Ok (set_nth [::] trans i (rcons col x)).

(** [Mat::transpose], data_structures.rs:630-643. *)
Definition mat_transpose (self : matrix T) : res (matrix T) :=
  let! s0 := idx self 0 in
  let trans := nseq (size s0) [::] in
  foldM (fun trans row =>
    foldM (fun trans i => let! x := idx row i in push_at trans i x)
      trans (iota 0 (size row))) trans self.

(** [x.is_empty() || x[0].is_empty()], data_structures.rs:646, 649, 697, 700. *)
Definition no_cells {A} (x : matrix A) : bool :=
  nilp x || nilp (head [::] x).

(** [Mat::right_mul], data_structures.rs:645-694. [ord r c] is the order in
    which the parallel branch computes the entries. *)
Definition mat_right_mul (ord : nat -> nat -> order) (self : matrix T)
  (rhs : matrix S) (is_parallel : bool) : res (matrix T) :=
  if no_cells self then Ok [::] else
  if no_cells rhs then Ok [::] else
  let! s0 := idx self 0 in
  let! _ := assert_eq (size s0) (size rhs) in
  let row_dim := size self in
  let! r0 := idx rhs 0 in
  let cell i j :=
    let! row := idx self i in
    let dim := size rhs in
    sumM tzero tadd (fun k =>
      let! x := idx row k in
      let! rk := idx rhs k in
      let! c := idx rk j in
      Ok (tsmul x c)) (iota 0 dim) in
  if is_parallel then par_collect (ord row_dim (size r0)) row_dim (size r0) cell
  else mapM (fun i => mapM (fun j => cell i j) (iota 0 (size r0))) (iota 0 row_dim).

(** [Mat::left_mul], data_structures.rs:696-742. *)
Definition mat_left_mul (ord : nat -> nat -> order) (self : matrix T)
  (lhs : matrix S) (is_parallel : bool) : res (matrix T) :=
  if no_cells lhs then Ok [::] else
  if no_cells self then Ok [::] else
  let! l0 := idx lhs 0 in
  let! _ := assert_eq (size l0) (size self) in
  let row_dim := size lhs in
  let! s0 := idx self 0 in
  let cell i j :=
    let! row := idx lhs i in
    let dim := size self in
    sumM tzero tadd (fun k =>
      let! sk := idx self k in
      let! x := idx sk j in
      let! c := idx row k in
      Ok (tsmul x c)) (iota 0 dim) in
  if is_parallel then par_collect (ord row_dim (size s0)) row_dim (size s0) cell
  else mapM (fun i => mapM (fun j => cell i j) (iota 0 (size s0))) (iota 0 row_dim).
End MatMacro.

(** The instances [Mat<Com1<E>> for Matrix<Com1<E>>] and Com2,
    data_structures.rs:747. *)
Section ComMat.
Context {F : fieldType} {G : lmodType F}.
Implicit Types (M : matrix (com G)) (A : matrix F).
(** data_structures.rs:590-603. *)
Definition cmat_add M M' := mat_add com_add M M'.
(** data_structures.rs:606-615. *)
Definition cmat_neg M := mat_neg com_neg M.
(** data_structures.rs:617-628. *)
Definition cmat_scalar_mul M (k : F) := mat_scalar_mul com_scalar_mul M k.
(** data_structures.rs:630-643. *)
Definition cmat_transpose M := mat_transpose M.
(** data_structures.rs:645-694. *)
Definition cmat_right_mul ord M A par :=
  mat_right_mul com_zero com_add com_scalar_mul ord M A par.
(** data_structures.rs:696-742. *)
Definition cmat_left_mul ord M A par :=
  mat_left_mul com_zero com_add com_scalar_mul ord M A par.
End ComMat.

(** [impl<F: Field> Mat<F> for Matrix<F>], data_structures.rs:768-913. This
    text is separate from the macro above, so it is modelled separately. *)
Section FieldMat.
Context {F : fieldType}.
Implicit Types (self other lhs rhs : matrix F).

(** data_structures.rs:771-784. *)
Definition fmat_add self other : res (matrix F) :=
  let! _ := assert_eq (size self) (size other) in
  let! s0 := idx self 0 in
  let! o0 := idx other 0 in
  let! _ := assert_eq (size s0) (size o0) in
  let m := size self in
  let n := size s0 in
  mapM (fun i => mapM (fun j =>
    let! srow := idx self i in
    let! a := idx srow j in
    let! orow := idx other i in
    let! b := idx orow j in
    Ok (a + b)) (iota 0 n)) (iota 0 m).

(** data_structures.rs:787-794. *)
Definition fmat_neg self : res (matrix F) :=
  mapM (fun i =>
    let! row := idx self i in
    mapM (fun j => let! x := idx row j in Ok (- x)) (iota 0 (size row)))
    (iota 0 (size self)).

(** data_structures.rs:796-807. *)
Definition fmat_scalar_mul self (other : F) : res (matrix F) :=
  let m := size self in
  let! s0 := idx self 0 in
  let n := size s0 in
  mapM (fun i => mapM (fun j =>
    let! row := idx self i in
    let! x := idx row j in
    Ok (x * other)) (iota 0 n)) (iota 0 m).

(** data_structures.rs:809-822. *)
Definition fmat_transpose self : res (matrix F) :=
  let! s0 := idx self 0 in
  let trans := nseq (size s0) [::] in
  foldM (fun trans row =>
    foldM (fun trans i => let! x := idx row i in push_at trans i x)
      trans (iota 0 (size row))) trans self.

(** data_structures.rs:824-869. *)
Definition fmat_right_mul (ord : nat -> nat -> order) self rhs
  (is_parallel : bool) : res (matrix F) :=
  if no_cells self then Ok [::] else
  if no_cells rhs then Ok [::] else
  let! s0 := idx self 0 in
  let! _ := assert_eq (size s0) (size rhs) in
  let row_dim := size self in
  let! r0 := idx rhs 0 in
  let cell i j :=
    let! row := idx self i in
    let dim := size rhs in
    sumM 0 +%R (fun k =>
      let! x := idx row k in
      let! rk := idx rhs k in
      let! c := idx rk j in
      Ok (x * c)) (iota 0 dim) in
  if is_parallel then par_collect (ord row_dim (size r0)) row_dim (size r0) cell
  else mapM (fun i => mapM (fun j => cell i j) (iota 0 (size r0))) (iota 0 row_dim).

(** data_structures.rs:871-912. *)
Definition fmat_left_mul (ord : nat -> nat -> order) self lhs
  (is_parallel : bool) : res (matrix F) :=
  if no_cells lhs then Ok [::] else
  if no_cells self then Ok [::] else
  let! l0 := idx lhs 0 in
  let! _ := assert_eq (size l0) (size self) in
  let row_dim := size lhs in
  let! s0 := idx self 0 in
  let cell i j :=
    let! row := idx lhs i in
    let dim := size self in
    sumM 0 +%R (fun k =>
      let! sk := idx self k in
      let! x := idx sk j in
      let! c := idx row k in
      Ok (x * c)) (iota 0 dim) in
  if is_parallel then par_collect (ord row_dim (size s0)) row_dim (size s0) cell
  else mapM (fun i => mapM (fun j => cell i j) (iota 0 (size s0))) (iota 0 row_dim).
End FieldMat.

(** ** The SXDH instantiation over a pairing *)
Section SXDH.
Context {E : pairing}.

(** data_structures.rs:128-129. *)
Definition Com1 := com (G1 E).
(** data_structures.rs:132-133. *)
Definition Com2 := com (G2 E).
(** data_structures.rs:136-142: ComT(p0, p1, p2, p3) is ((p0, p1), (p2, p3)). *)
Definition ComT := ((GT E * GT E) * (GT E * GT E))%type.
(** The tuple constructor of ComT, data_structures.rs:137. *)
Definition mkComT (a b c d : GT E) : ComT := ((a, b), (c, d)).
(** The fields [.0], [.1], [.2], [.3] of ComT, data_structures.rs:137-142. *)
Definition t0 (x : ComT) := x.1.1.
Definition t1 (x : ComT) := x.1.2.
Definition t2 (x : ComT) := x.2.1.
Definition t3 (x : ComT) := x.2.2.

(** [CRS], generator.rs:34-42 (declared there, used here). *)
Record CRS := mkCRS {
  crs_u : seq Com1;
  crs_v : seq Com2;
  g1_gen : G1 E;
  g2_gen : G2 E;
  gt_gen : GT E
}.

(** [Com1::linear_map], data_structures.rs:310-312. *)
Definition com1_linear_map (x : G1 E) : Com1 := (0, x).
(** [Com1::batch_linear_map], data_structures.rs:315-320. *)
Definition com1_batch_linear_map (xs : seq (G1 E)) : seq Com1 :=
  [seq com1_linear_map elem | elem <- xs].
(** [Com1::scalar_linear_map], data_structures.rs:323-326. *)
Definition com1_scalar_linear_map (x : Fr E) (key : CRS) : res Com1 :=
  let! u1 := idx (crs_u key) 1 in
  Ok (com_scalar_mul (com_add u1 (com1_linear_map (g1_gen key))) x).
(** [Com1::batch_scalar_linear_map], data_structures.rs:329-334. *)
Definition com1_batch_scalar_linear_map (xs : seq (Fr E)) (key : CRS) : res (seq Com1) :=
  mapM (fun elem => com1_scalar_linear_map elem key) xs.

(** [Com2::linear_map], data_structures.rs:355-357. *)
Definition com2_linear_map (y : G2 E) : Com2 := (0, y).
(** [Com2::batch_linear_map], data_structures.rs:360-365. *)
Definition com2_batch_linear_map (ys : seq (G2 E)) : seq Com2 :=
  [seq com2_linear_map elem | elem <- ys].
(** [Com2::scalar_linear_map], data_structures.rs:368-371. *)
Definition com2_scalar_linear_map (y : Fr E) (key : CRS) : res Com2 :=
  let! v1 := idx (crs_v key) 1 in
  Ok (com_scalar_mul (com_add v1 (com2_linear_map (g2_gen key))) y).
(** [Com2::batch_scalar_linear_map], data_structures.rs:374-379. *)
Definition com2_batch_scalar_linear_map (ys : seq (Fr E)) (key : CRS) : res (seq Com2) :=
  mapM (fun elem => com2_scalar_linear_map elem key) ys.

(** ComT: [PartialEq::eq], data_structures.rs:391-396. *)
Definition comT_eq (self other : ComT) : bool :=
  [&& t0 self == t0 other, t1 self == t1 other, t2 self == t2 other
    & t3 self == t3 other].
(** [Add::add], data_structures.rs:399-411. *)
Definition comT_add (self other : ComT) : ComT :=
  mkComT (t0 self + t0 other) (t1 self + t1 other)
         (t2 self + t2 other) (t3 self + t3 other).
(** [Zero::zero], data_structures.rs:412-421. *)
Definition comT_zero : ComT := mkComT 0 0 0 0.
(** [Zero::is_zero], data_structures.rs:423-426. *)
Definition comT_is_zero (self : ComT) : bool := comT_eq self comT_zero.
(** [AddAssign::add_assign], data_structures.rs:428-436. *)
Definition comT_add_assign (self other : ComT) : ComT :=
  mkComT (t0 self + t0 other) (t1 self + t1 other)
         (t2 self + t2 other) (t3 self + t3 other).
(** [Neg::neg], data_structures.rs:437-444. *)
Definition comT_neg (self : ComT) : ComT :=
  mkComT (- t0 self) (- t1 self) (- t2 self) (- t3 self).
(** [Sub::sub], data_structures.rs:445-457. *)
Definition comT_sub (self other : ComT) : ComT :=
  mkComT (t0 self - t0 other) (t1 self - t1 other)
         (t2 self - t2 other) (t3 self - t3 other).
(** [SubAssign::sub_assign], data_structures.rs:458-466. *)
Definition comT_sub_assign (self other : ComT) : ComT :=
  mkComT (t0 self - t0 other) (t1 self - t1 other)
         (t2 self - t2 other) (t3 self - t3 other).
(** [From<Matrix<PairingOutput>>::from], data_structures.rs:467-474. *)
Definition comT_from (mat : matrix (GT E)) : res ComT :=
  let! _ := assert_eq (size mat) 2 in
  let! r0 := idx mat 0 in
  let! _ := assert_eq (size r0) 2 in
  let! r1 := idx mat 1 in
  let! _ := assert_eq (size r1) 2 in
  let! a := idx r0 0 in
  let! b := idx r0 1 in
  let! c := idx r1 0 in
  let! d := idx r1 1 in
  Ok (mkComT a b c d).
(** [Sum::sum], data_structures.rs:475-479. *)
Definition comT_sum (s : seq ComT) : ComT := foldl comT_add comT_zero s.

(** [BT::pairing], data_structures.rs:484-491. *)
Definition comT_pairing (x : Com1) (y : Com2) : ComT :=
  mkComT (pair_e x.1 y.1) (pair_e x.1 y.2) (pair_e x.2 y.1) (pair_e x.2 y.2).

(** [BT::pairing_sum], data_structures.rs:494-502. *)
Definition comT_pairing_sum (xs : seq Com1) (ys : seq Com2) : res ComT :=
  let! _ := assert_eq (size xs) (size ys) in
  Ok (mkComT
    (multi_pairing [seq x.1 | x <- xs] [seq y.1 | y <- ys])
    (multi_pairing [seq x.1 | x <- xs] [seq y.2 | y <- ys])
    (multi_pairing [seq x.2 | x <- xs] [seq y.1 | y <- ys])
    (multi_pairing [seq x.2 | x <- xs] [seq y.2 | y <- ys])).

(** [BT::as_matrix], data_structures.rs:504-506. *)
Definition comT_as_matrix (self : ComT) : matrix (GT E) :=
  [:: [:: t0 self; t1 self]; [:: t2 self; t3 self]].

(** [BT::linear_map_PPE], data_structures.rs:509-516. *)
Definition linear_map_PPE (z : GT E) : ComT := mkComT 0 0 0 z.

(** [BT::linear_map_MSMEG1], data_structures.rs:519-524. *)
Definition linear_map_MSMEG1 (z : G1 E) (key : CRS) : res ComT :=
  let! y := com2_scalar_linear_map 1 key in
  Ok (comT_pairing (com1_linear_map z) y).

(** [BT::linear_map_MSMEG2], data_structures.rs:527-532. *)
Definition linear_map_MSMEG2 (z : G2 E) (key : CRS) : res ComT :=
  let! x := com1_scalar_linear_map 1 key in
  Ok (comT_pairing x (com2_linear_map z)).

(** [BT::linear_map_quad], data_structures.rs:535-540. *)
Definition linear_map_quad (z : Fr E) (key : CRS) : res ComT :=
  let! x := com1_scalar_linear_map 1 key in
  let! y := com2_scalar_linear_map 1 key in
  Ok (comT_pairing x (com_scalar_mul y z)).
End SXDH.
Arguments Com1 : clear implicits.
Arguments Com2 : clear implicits.
Arguments ComT : clear implicits.
Arguments CRS : clear implicits.
