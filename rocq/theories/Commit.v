(** Model of /repo/src/prover/commit.rs. *)
From mathcomp Require Import all_ssreflect all_algebra.
From Verif Require Import Base Group DataStructures.
Set Implicit Arguments.
Unset Strict Implicit.
Unset Printing Implicit Defensive.
Import GRing.Theory.
Local Open Scope ring_scope.

(** [Commit1] / [Commit2], commit.rs:17-28, and the macro [impl_com],
    commit.rs:30-56, which is instantiated with both. *)
Section CommitMacro.
Context {F : fieldType} {G : lmodType F}.
(** commit.rs:19-28. *)
Record commit := mkCommit { coms : seq (com G); crand : matrix F }.

(** Equality of [Vec<Com>], used at commit.rs:37: equal lengths and [com_eq] element by element. *)
Fixpoint coms_eq (a b : seq (com G)) : bool :=
  match a, b with
  | [::], [::] => true
  | x :: a', y :: b' => com_eq x y && coms_eq a' b'
  | _, _ => false
  end.

(** [PartialEq::eq], commit.rs:33-39. *)
Definition commit_eq (self other : commit) : bool :=
  coms_eq (coms self) (coms other) && (crand self == crand other).

(** [Commit::append], commit.rs:43-51: the outcome and the values of [*self]
    and [*other] when the call ends, by return or by panic. [drain(..)]
    empties the drained vector. *)
Definition commit_append_mut (self other : commit) : res unit * (commit * commit) :=
  match assert_eq (size (coms self)) (size (crand self)) with
  | Panic p => (Panic p, (self, other))
  | Ok _ =>
    match assert_eq (size (coms other)) (size (crand other)) with
    | Panic p => (Panic p, (self, other))
    | Ok _ =>
      let otherComs := coms other in
      let other := mkCommit [::] (crand other) in
      let otherRand := crand other in
      let other := mkCommit (coms other) [::] in
      let self := mkCommit (coms self ++ otherComs) (crand self) in
      let self := mkCommit (coms self) (crand self ++ otherRand) in
      (Ok tt, (self, other))
    end
  end.

(** The same call, commit.rs:43-51, seen by a caller that does not catch panics. *)
Definition commit_append (self other : commit) : res (commit * commit) :=
  let (r, st) := commit_append_mut self other in
  let! _ := r in Ok st.
End CommitMacro.
Arguments commit {F} G.

Section CommitFuns.
Context {E : pairing}.
(** commit.rs:19-22. *)
Definition Commit1 := commit (G1 E).
(** commit.rs:25-28. *)
Definition Commit2 := commit (G2 E).

(** A product with [is_parallel = false] (commit.rs:94, 194) runs no parallel task. *)
Definition no_ord (r c : nat) : order := [::].

(** The loops drawing randomness matrices of two columns, commit.rs:85-88
    and 185-188. *)
Fixpoint draw_rows2 (R : rng E) (m : nat) (s : rst R) : matrix (Fr E) * rst R :=
  match m with
  | 0 => ([::], s)
  | m'.+1 =>
      let (r1, s) := rand_fr s in
      let (r2, s) := rand_fr s in
      let (rows, s) := draw_rows2 m' s in
      ([:: r1; r2] :: rows, s)
  end.
(** The same with one column, commit.rs:135-138 and 235-238. *)
Fixpoint draw_rows1 (R : rng E) (m : nat) (s : rst R) : matrix (Fr E) * rst R :=
  match m with
  | 0 => ([::], s)
  | m'.+1 =>
      let (r, s) := rand_fr s in
      let (rows, s) := draw_rows1 m' s in
      ([:: r] :: rows, s)
  end.

(** [vec_to_col_vec(&key)[i][0]], e.g. commit.rs:70. *)
Definition key_at {T} (key : seq T) (i : nat) : res T :=
  let! row := idx (vec_to_col_vec key) i in idx row 0.

(** [commit_G1], commit.rs:59-75. *)
Definition commit_G1 (R : rng E) (xvar : G1 E) (key : CRS E) (s : rst R)
  : res (Commit1 * rst R) :=
  let (r1, s) := rand_fr s in
  let (r2, s) := rand_fr s in
  let! u0 := key_at (crs_u key) 0 in
  let! u1 := key_at (crs_u key) 1 in
  Ok (mkCommit [:: com_add (com_add (com1_linear_map xvar) (com_scalar_mul u0 r1))
                           (com_scalar_mul u1 r2)]
               [:: [:: r1; r2]], s).

(** [batch_commit_G1], commit.rs:78-100. *)
Definition batch_commit_G1 (R : rng E) (xvars : seq (G1 E)) (key : CRS E) (s : rst R)
  : res (Commit1 * rst R) :=
  let m := size xvars in
  let (rr, s) := draw_rows2 m s in
  let lin_x := vec_to_col_vec (com1_batch_linear_map xvars) in
  let! ru := cmat_left_mul no_ord (vec_to_col_vec (crs_u key)) rr false in
  let! cs := cmat_add lin_x ru in
  let! cv := col_vec_to_vec cs in
  Ok (mkCommit cv rr, s).

(** [commit_scalar_to_B1], commit.rs:103-122. *)
Definition commit_scalar_to_B1 (R : rng E) (scalar_xvar : Fr E) (key : CRS E) (s : rst R)
  : res (Commit1 * rst R) :=
  let (r, s) := rand_fr s in
  let! x := com1_scalar_linear_map scalar_xvar key in
  let! u0 := key_at (crs_u key) 0 in
  Ok (mkCommit [:: com_add x (com_scalar_mul u0 r)] [:: [:: r]], s).

(** [batch_commit_scalar_to_B1], commit.rs:125-156. *)
Definition batch_commit_scalar_to_B1 (R : rng E) (scalar_xvars : seq (Fr E))
  (key : CRS E) (s : rst R) : res (Commit1 * rst R) :=
  let mprime := size scalar_xvars in
  let (r, s) := draw_rows1 mprime s in
  let! slx := com1_batch_scalar_linear_map scalar_xvars key in
  let slin_x := vec_to_col_vec slx in
  let! rv := col_vec_to_vec r in
  let! ruv := mapM (fun sca =>
    let! u0 := key_at (crs_u key) 0 in Ok (com_scalar_mul u0 sca)) rv in
  let ru := vec_to_col_vec ruv in
  let! cs := cmat_add slin_x ru in
  let! cv := col_vec_to_vec cs in
  Ok (mkCommit cv r, s).

(** [commit_G2], commit.rs:159-175. *)
Definition commit_G2 (R : rng E) (yvar : G2 E) (key : CRS E) (s : rst R)
  : res (Commit2 * rst R) :=
  let (s1, s) := rand_fr s in
  let (s2, s) := rand_fr s in
  let! v0 := key_at (crs_v key) 0 in
  let! v1 := key_at (crs_v key) 1 in
  Ok (mkCommit [:: com_add (com_add (com2_linear_map yvar) (com_scalar_mul v0 s1))
                           (com_scalar_mul v1 s2)]
               [:: [:: s1; s2]], s).

(** [batch_commit_G2], commit.rs:178-200. *)
Definition batch_commit_G2 (R : rng E) (yvars : seq (G2 E)) (key : CRS E) (s : rst R)
  : res (Commit2 * rst R) :=
  let n := size yvars in
  let (ss, s) := draw_rows2 n s in
  let lin_y := vec_to_col_vec (com2_batch_linear_map yvars) in
  let! sv := cmat_left_mul no_ord (vec_to_col_vec (crs_v key)) ss false in
  let! cs := cmat_add lin_y sv in
  let! cv := col_vec_to_vec cs in
  Ok (mkCommit cv ss, s).

(** [commit_scalar_to_B2], commit.rs:203-222. *)
Definition commit_scalar_to_B2 (R : rng E) (scalar_yvar : Fr E) (key : CRS E) (s : rst R)
  : res (Commit2 * rst R) :=
  let (s1, s) := rand_fr s in
  let! y := com2_scalar_linear_map scalar_yvar key in
  let! v0 := key_at (crs_v key) 0 in
  Ok (mkCommit [:: com_add y (com_scalar_mul v0 s1)] [:: [:: s1]], s).

(** [batch_commit_scalar_to_B2], commit.rs:225-256. *)
Definition batch_commit_scalar_to_B2 (R : rng E) (scalar_yvars : seq (Fr E))
  (key : CRS E) (s : rst R) : res (Commit2 * rst R) :=
  let nprime := size scalar_yvars in
  let (ss, s) := draw_rows1 nprime s in
  let! sly := com2_batch_scalar_linear_map scalar_yvars key in
  let slin_y := vec_to_col_vec sly in
  let! sv := col_vec_to_vec ss in
  let! svv := mapM (fun sca =>
    let! v0 := key_at (crs_v key) 0 in Ok (com_scalar_mul v0 sca)) sv in
  let sv := vec_to_col_vec svv in
  let! cs := cmat_add slin_y sv in
  let! cv := col_vec_to_vec cs in
  Ok (mkCommit cv ss, s).
End CommitFuns.
Arguments Commit1 : clear implicits.
Arguments Commit2 : clear implicits.
