(** Second model of /repo/src, at the level of the types of arkworks: affine and
    projective points are different types, every conversion between them is
    written out, and nothing is assumed about the operations. The matrix code
    and the code that handles only scalars is that of [DataStructures.v]. *)
From mathcomp Require Import all_ssreflect all_algebra.
From Verif Require Import Base Group DataStructures Commit Statement Derived Verify.
Set Implicit Arguments.
Unset Strict Implicit.
Unset Printing Implicit Defensive.
Import GRing.Theory.
Local Open Scope ring_scope.

(** The operations of [E::G1Affine] / [E::G1] (or G2) that /repo/src uses:
    [==], [zero()] and [+] of affine points (the sum is projective),
    [into_group()], and [zero()], unary and binary [-], [mul], [into_affine()]
    (also written [into()]) of projective points; e.g. data_structures.rs:171-212,
    generator.rs:57-58, 96-109. *)
Record curve (F : fieldType) := Curve {
  aff : Type; prj : Type;
  aff_eq : aff -> aff -> bool;
  aff_zero : aff;
  aff_add : aff -> aff -> prj;
  into_group : aff -> prj;
  prj_zero : prj;
  prj_neg : prj -> prj;
  prj_sub : prj -> prj -> prj;
  prj_mul : prj -> F -> prj;
  into_affine : prj -> aff
}.

(** [E: Pairing]: the two curves, [PairingOutput<E>] with its operators,
    [E::pairing] and [E::multi_pairing]; data_structures.rs:482-500,
    generator.rs:116. *)
Record ark (F : fieldType) := Ark {
  C1 : curve F; C2 : curve F;
  out : Type;
  out_eq : out -> out -> bool;
  out_zero : out;
  out_add : out -> out -> out;
  out_neg : out -> out;
  out_sub : out -> out -> out;
  a_pairing : aff C1 -> aff C2 -> out;
  a_multi_pairing : seq (aff C1) -> seq (aff C2) -> out
}.

(** A random generator; points are drawn in projective form, generator.rs:86-87. *)
Record ark_rng (F : fieldType) (A : ark F) := ArkRng {
  ark_rst : Type;
  ark_rand_fr : ark_rst -> F * ark_rst;
  ark_rand_g1 : ark_rst -> prj (C1 A) * ark_rst;
  ark_rand_g2 : ark_rst -> prj (C2 A) * ark_rst
}.

(** ** data_structures.rs *)
Section ArkComMacro.
Context {F : fieldType} {C : curve F}.
(** data_structures.rs:128-133. *)
Definition ark_com := (aff C * aff C)%type.

(** [PartialEq::eq], data_structures.rs:171-178. *)
Definition ark_com_eq (self other : ark_com) : bool :=
  aff_eq self.1 other.1 && aff_eq self.2 other.2.

(** [Add::add], data_structures.rs:181-191. *)
Definition ark_com_add (self other : ark_com) : ark_com :=
  (into_affine (aff_add self.1 other.1), into_affine (aff_add self.2 other.2)).

(** [AddAssign::add_assign], data_structures.rs:192-201. *)
Definition ark_com_add_assign (self other : ark_com) : ark_com :=
  (into_affine (aff_add self.1 other.1), into_affine (aff_add self.2 other.2)).

(** [Neg::neg], data_structures.rs:202-212. *)
Definition ark_com_neg (self : ark_com) : ark_com :=
  (into_affine (prj_neg (into_group self.1)), into_affine (prj_neg (into_group self.2))).

(** [Sub::sub], data_structures.rs:213-220. *)
Definition ark_com_sub (self other : ark_com) : ark_com := ark_com_add self (ark_com_neg other).

(** [SubAssign::sub_assign], data_structures.rs:221-227. *)
Definition ark_com_sub_assign (self other : ark_com) : ark_com :=
  ark_com_add_assign self (ark_com_neg other).

(** [Zero::zero], data_structures.rs:257-261 (Com1), 268-272 (Com2). *)
Definition ark_com_zero : ark_com := (aff_zero C, aff_zero C).

(** [Zero::is_zero], data_structures.rs:263-266 (Com1), 274-277 (Com2). *)
Definition ark_com_is_zero (self : ark_com) : bool := ark_com_eq self ark_com_zero.

(** [Sum::sum], data_structures.rs:244-251. *)
Definition ark_com_sum (s : seq ark_com) : ark_com := foldl ark_com_add ark_com_zero s.

(** [From<Matrix<G>>::from], data_structures.rs:283-290 (Com1), 291-298 (Com2). *)
Definition ark_com_from (mat : matrix (aff C)) : res ark_com :=
  let! _ := assert_eq (size mat) 2 in
  let! r0 := idx mat 0 in
  let! _ := assert_eq (size r0) 1 in
  let! r1 := idx mat 1 in
  let! _ := assert_eq (size r1) 1 in
  let! x := idx r0 0 in
  let! y := idx r1 0 in
  Ok (x, y).

(** [as_col_vec], data_structures.rs:301-303 (Com1), 346-348 (Com2). *)
Definition ark_com_as_col_vec (self : ark_com) : matrix (aff C) := [:: [:: self.1]; [:: self.2]].

(** [as_vec], data_structures.rs:305-307 (Com1), 350-352 (Com2). *)
Definition ark_com_as_vec (self : ark_com) : seq (aff C) := [:: self.1; self.2].

(** [scalar_mul], data_structures.rs:336-342 (Com1), 381-387 (Com2). *)
Definition ark_com_scalar_mul (self : ark_com) (rhs : F) : ark_com :=
  let s1p := into_group self.1 in
  let s2p := into_group self.2 in
  let s1p := prj_mul s1p rhs in
  let s2p := prj_mul s2p rhs in
  (into_affine s1p, into_affine s2p).
End ArkComMacro.
Arguments ark_com {F} C.

(** The instances of [impl_base_commit_mats], data_structures.rs:545-747. *)
Section ArkComMat.
Context {F : fieldType} {C : curve F}.
Implicit Types (M : matrix (ark_com C)) (A : matrix F).
(** data_structures.rs:590-603. *)
Definition ark_cmat_add M M' := mat_add ark_com_add M M'.
(** data_structures.rs:606-615. *)
Definition ark_cmat_neg M := mat_neg ark_com_neg M.
(** data_structures.rs:617-628. *)
Definition ark_cmat_scalar_mul M (k : F) := mat_scalar_mul ark_com_scalar_mul M k.
(** data_structures.rs:630-643. *)
Definition ark_cmat_transpose M := mat_transpose M.
(** data_structures.rs:645-694. *)
Definition ark_cmat_right_mul ord M A par :=
  mat_right_mul ark_com_zero ark_com_add ark_com_scalar_mul ord M A par.
(** data_structures.rs:696-742. *)
Definition ark_cmat_left_mul ord M A par :=
  mat_left_mul ark_com_zero ark_com_add ark_com_scalar_mul ord M A par.
End ArkComMat.

(** ** The SXDH instantiation over a pairing *)
Section ArkSXDH.
Context {F : fieldType} {A : ark F}.

(** data_structures.rs:128-129. *)
Definition ark_Com1 := ark_com (C1 A).
(** data_structures.rs:132-133. *)
Definition ark_Com2 := ark_com (C2 A).
(** data_structures.rs:136-142: ComT(p0, p1, p2, p3) is ((p0, p1), (p2, p3)). *)
Definition ark_ComT := ((out A * out A) * (out A * out A))%type.
(** The tuple constructor of ComT, data_structures.rs:137. *)
Definition ark_mkComT (a b c d : out A) : ark_ComT := ((a, b), (c, d)).
(** The fields [.0], [.1], [.2], [.3] of ComT, data_structures.rs:137-142. *)
Definition ark_t0 (x : ark_ComT) := x.1.1.
Definition ark_t1 (x : ark_ComT) := x.1.2.
Definition ark_t2 (x : ark_ComT) := x.2.1.
Definition ark_t3 (x : ark_ComT) := x.2.2.

(** [CRS], generator.rs:34-42 (declared there, used here). *)
Record ark_CRS := ark_mkCRS {
  ark_crs_u : seq ark_Com1;
  ark_crs_v : seq ark_Com2;
  ark_g1_gen : aff (C1 A);
  ark_g2_gen : aff (C2 A);
  ark_gt_gen : out A
}.

(** [Com1::linear_map], data_structures.rs:310-312. *)
Definition ark_com1_linear_map (x : aff (C1 A)) : ark_Com1 := (aff_zero (C1 A), x).
(** [Com1::batch_linear_map], data_structures.rs:315-320. *)
Definition ark_com1_batch_linear_map (xs : seq (aff (C1 A))) : seq ark_Com1 :=
  [seq ark_com1_linear_map elem | elem <- xs].
(** [Com1::scalar_linear_map], data_structures.rs:323-326. *)
Definition ark_com1_scalar_linear_map (x : F) (key : ark_CRS) : res ark_Com1 :=
  let! u1 := idx (ark_crs_u key) 1 in
  Ok (ark_com_scalar_mul (ark_com_add u1 (ark_com1_linear_map (ark_g1_gen key))) x).
(** [Com1::batch_scalar_linear_map], data_structures.rs:329-334. *)
Definition ark_com1_batch_scalar_linear_map (xs : seq (F)) (key : ark_CRS) : res (seq ark_Com1) :=
  mapM (fun elem => ark_com1_scalar_linear_map elem key) xs.

(** [Com2::linear_map], data_structures.rs:355-357. *)
Definition ark_com2_linear_map (y : aff (C2 A)) : ark_Com2 := (aff_zero (C2 A), y).
(** [Com2::batch_linear_map], data_structures.rs:360-365. *)
Definition ark_com2_batch_linear_map (ys : seq (aff (C2 A))) : seq ark_Com2 :=
  [seq ark_com2_linear_map elem | elem <- ys].
(** [Com2::scalar_linear_map], data_structures.rs:368-371. *)
Definition ark_com2_scalar_linear_map (y : F) (key : ark_CRS) : res ark_Com2 :=
  let! v1 := idx (ark_crs_v key) 1 in
  Ok (ark_com_scalar_mul (ark_com_add v1 (ark_com2_linear_map (ark_g2_gen key))) y).
(** [Com2::batch_scalar_linear_map], data_structures.rs:374-379. *)
Definition ark_com2_batch_scalar_linear_map (ys : seq (F)) (key : ark_CRS) : res (seq ark_Com2) :=
  mapM (fun elem => ark_com2_scalar_linear_map elem key) ys.

(** ComT: [PartialEq::eq], data_structures.rs:391-396. *)
Definition ark_comT_eq (self other : ark_ComT) : bool :=
  [&& out_eq (ark_t0 self) (ark_t0 other), out_eq (ark_t1 self) (ark_t1 other), out_eq (ark_t2 self) (ark_t2 other)
    & out_eq (ark_t3 self) (ark_t3 other)].
(** [Add::add], data_structures.rs:399-411. *)
Definition ark_comT_add (self other : ark_ComT) : ark_ComT :=
  ark_mkComT (out_add (ark_t0 self) (ark_t0 other)) (out_add (ark_t1 self) (ark_t1 other))
         (out_add (ark_t2 self) (ark_t2 other)) (out_add (ark_t3 self) (ark_t3 other)).
(** [Zero::zero], data_structures.rs:412-421. *)
Definition ark_comT_zero : ark_ComT := ark_mkComT (out_zero A) (out_zero A) (out_zero A) (out_zero A).
(** [Zero::is_zero], data_structures.rs:423-426. *)
Definition ark_comT_is_zero (self : ark_ComT) : bool := ark_comT_eq self ark_comT_zero.
(** [AddAssign::add_assign], data_structures.rs:428-436. *)
Definition ark_comT_add_assign (self other : ark_ComT) : ark_ComT :=
  ark_mkComT (out_add (ark_t0 self) (ark_t0 other)) (out_add (ark_t1 self) (ark_t1 other))
         (out_add (ark_t2 self) (ark_t2 other)) (out_add (ark_t3 self) (ark_t3 other)).
(** [Neg::neg], data_structures.rs:437-444. *)
Definition ark_comT_neg (self : ark_ComT) : ark_ComT :=
  ark_mkComT (out_neg (ark_t0 self)) (out_neg (ark_t1 self)) (out_neg (ark_t2 self)) (out_neg (ark_t3 self)).
(** [Sub::sub], data_structures.rs:445-457. *)
Definition ark_comT_sub (self other : ark_ComT) : ark_ComT :=
  ark_mkComT (out_sub (ark_t0 self) (ark_t0 other)) (out_sub (ark_t1 self) (ark_t1 other))
         (out_sub (ark_t2 self) (ark_t2 other)) (out_sub (ark_t3 self) (ark_t3 other)).
(** [SubAssign::sub_assign], data_structures.rs:458-466. *)
Definition ark_comT_sub_assign (self other : ark_ComT) : ark_ComT :=
  ark_mkComT (out_sub (ark_t0 self) (ark_t0 other)) (out_sub (ark_t1 self) (ark_t1 other))
         (out_sub (ark_t2 self) (ark_t2 other)) (out_sub (ark_t3 self) (ark_t3 other)).
(** [From<Matrix<PairingOutput>>::from], data_structures.rs:467-474. *)
Definition ark_comT_from (mat : matrix (out A)) : res ark_ComT :=
  let! _ := assert_eq (size mat) 2 in
  let! r0 := idx mat 0 in
  let! _ := assert_eq (size r0) 2 in
  let! r1 := idx mat 1 in
  let! _ := assert_eq (size r1) 2 in
  let! a := idx r0 0 in
  let! b := idx r0 1 in
  let! c := idx r1 0 in
  let! d := idx r1 1 in
  Ok (ark_mkComT a b c d).
(** [Sum::sum], data_structures.rs:475-479. *)
Definition ark_comT_sum (s : seq ark_ComT) : ark_ComT := foldl ark_comT_add ark_comT_zero s.

(** [BT::pairing], data_structures.rs:484-491. *)
Definition ark_comT_pairing (x : ark_Com1) (y : ark_Com2) : ark_ComT :=
  ark_mkComT (a_pairing x.1 y.1) (a_pairing x.1 y.2) (a_pairing x.2 y.1) (a_pairing x.2 y.2).

(** [BT::pairing_sum], data_structures.rs:494-502. *)
Definition ark_comT_pairing_sum (xs : seq ark_Com1) (ys : seq ark_Com2) : res ark_ComT :=
  let! _ := assert_eq (size xs) (size ys) in
  Ok (ark_mkComT
    (a_multi_pairing [seq x.1 | x <- xs] [seq y.1 | y <- ys])
    (a_multi_pairing [seq x.1 | x <- xs] [seq y.2 | y <- ys])
    (a_multi_pairing [seq x.2 | x <- xs] [seq y.1 | y <- ys])
    (a_multi_pairing [seq x.2 | x <- xs] [seq y.2 | y <- ys])).

(** [BT::as_matrix], data_structures.rs:504-506. *)
Definition ark_comT_as_matrix (self : ark_ComT) : matrix (out A) :=
  [:: [:: ark_t0 self; ark_t1 self]; [:: ark_t2 self; ark_t3 self]].

(** [BT::linear_map_PPE], data_structures.rs:509-516. *)
Definition ark_linear_map_PPE (z : out A) : ark_ComT := ark_mkComT (out_zero A) (out_zero A) (out_zero A) z.

(** [BT::linear_map_MSMEG1], data_structures.rs:519-524. *)
Definition ark_linear_map_MSMEG1 (z : aff (C1 A)) (key : ark_CRS) : res ark_ComT :=
  let! y := ark_com2_scalar_linear_map 1 key in
  Ok (ark_comT_pairing (ark_com1_linear_map z) y).

(** [BT::linear_map_MSMEG2], data_structures.rs:527-532. *)
Definition ark_linear_map_MSMEG2 (z : aff (C2 A)) (key : ark_CRS) : res ark_ComT :=
  let! x := ark_com1_scalar_linear_map 1 key in
  Ok (ark_comT_pairing x (ark_com2_linear_map z)).

(** [BT::linear_map_quad], data_structures.rs:535-540. *)
Definition ark_linear_map_quad (z : F) (key : ark_CRS) : res ark_ComT :=
  let! x := ark_com1_scalar_linear_map 1 key in
  let! y := ark_com2_scalar_linear_map 1 key in
  Ok (ark_comT_pairing x (ark_com_scalar_mul y z)).
End ArkSXDH.
Arguments ark_Com1 {F} A.
Arguments ark_Com2 {F} A.
Arguments ark_ComT {F} A.
Arguments ark_CRS {F} A.

(** ** generator.rs *)
Section ArkGenerator.
Context {F : fieldType} {A : ark F}.

(** [CRS::prepare_real_binding_key], generator.rs:44-60. *)
Definition ark_prepare_real_binding_key (g1 : prj (C1 A)) (g2 : prj (C2 A)) (q1 : prj (C1 A))
  (t1 : F) (q2 : prj (C2 A)) (t2 : F) : prj (C1 A) * prj (C2 A) :=
  let v1 := prj_sub (prj_mul q1 t1) (prj_zero (C1 A)) in
  let v2 := prj_sub (prj_mul q2 t2) (prj_zero (C2 A)) in
  (v1, v2).

(** [CRS::prepare_simulated_hinding_key], generator.rs:62-77 (dead code). *)
Definition ark_prepare_simulated_hinding_key (g1 : prj (C1 A)) (g2 : prj (C2 A)) (q1 : prj (C1 A))
  (t1 : F) (q2 : prj (C2 A)) (t2 : F) : prj (C1 A) * prj (C2 A) :=
  let v1 := prj_sub (prj_mul q1 t1) g1 in
  let v2 := prj_sub (prj_mul q2 t2) g2 in
  (v1, v2).

(** [CRS::generate_crs], generator.rs:81-118. *)
Definition ark_generate_crs (R : ark_rng A) (s : ark_rst R) : ark_CRS A * ark_rst R :=
  let (p1, s) := ark_rand_g1 s in
  let (p2, s) := ark_rand_g2 s in
  let (a1, s) := ark_rand_fr s in
  let (a2, s) := ark_rand_fr s in
  let (t1, s) := ark_rand_fr s in
  let (t2, s) := ark_rand_fr s in
  let q1 := prj_mul p1 a1 in
  let q2 := prj_mul p2 a2 in
  let u1 := prj_mul p1 t1 in
  let u2 := prj_mul p2 t2 in
  let (v1, v2) := ark_prepare_real_binding_key p1 p2 q1 t1 q2 t2 in
  let u11 : ark_Com1 A := (into_affine p1, into_affine q1) in
  let u12 : ark_Com1 A := (into_affine u1, into_affine v1) in
  let u21 : ark_Com2 A := (into_affine p2, into_affine q2) in
  let u22 : ark_Com2 A := (into_affine u2, into_affine v2) in
  (ark_mkCRS [:: u11; u12] [:: u21; u22] (into_affine p1) (into_affine p2)
     (a_pairing (into_affine p1) (into_affine p2)), s).
End ArkGenerator.

(** ** prover/commit.rs *)
(** [Commit1] / [Commit2], commit.rs:17-28, and the macro [impl_com],
    commit.rs:30-56, which is instantiated with both. *)
Section ArkCommitMacro.
Context {F : fieldType} {C : curve F}.
(** commit.rs:19-28. *)
Record ark_commit := ark_mkCommit { ark_coms : seq (ark_com C); ark_crand : matrix F }.

(** Equality of [Vec<Com>], used at commit.rs:37: equal lengths and [com_eq] element by element. *)
Fixpoint ark_coms_eq (a b : seq (ark_com C)) : bool :=
  match a, b with
  | [::], [::] => true
  | x :: a', y :: b' => ark_com_eq x y && ark_coms_eq a' b'
  | _, _ => false
  end.

(** [PartialEq::eq], commit.rs:33-39. *)
Definition ark_commit_eq (self other : ark_commit) : bool :=
  ark_coms_eq (ark_coms self) (ark_coms other) && (ark_crand self == ark_crand other).

(** [Commit::append], commit.rs:43-51: the outcome and the values of [*self]
    and [*other] when the call ends, by return or by panic. [drain(..)]
    empties the drained vector. *)
Definition ark_commit_append_mut (self other : ark_commit) : res unit * (ark_commit * ark_commit) :=
  match assert_eq (size (ark_coms self)) (size (ark_crand self)) with
  | Panic p => (Panic p, (self, other))
  | Ok _ =>
    match assert_eq (size (ark_coms other)) (size (ark_crand other)) with
    | Panic p => (Panic p, (self, other))
    | Ok _ =>
      let otherComs := ark_coms other in
      let other := ark_mkCommit [::] (ark_crand other) in
      let otherRand := ark_crand other in
      let other := ark_mkCommit (ark_coms other) [::] in
      let self := ark_mkCommit (ark_coms self ++ otherComs) (ark_crand self) in
      let self := ark_mkCommit (ark_coms self) (ark_crand self ++ otherRand) in
      (Ok tt, (self, other))
    end
  end.

(** The same call, commit.rs:43-51, seen by a caller that does not catch panics. *)
Definition ark_commit_append (self other : ark_commit) : res (ark_commit * ark_commit) :=
  let (r, st) := ark_commit_append_mut self other in
  let! _ := r in Ok st.
End ArkCommitMacro.
Arguments ark_commit {F} C.

Section ArkCommitFuns.
Context {F : fieldType} {A : ark F}.
(** commit.rs:19-22. *)
Definition ark_Commit1 := ark_commit (C1 A).
(** commit.rs:25-28. *)
Definition ark_Commit2 := ark_commit (C2 A).


(** The loops drawing randomness matrices of two columns, commit.rs:85-88
    and 185-188. *)
Fixpoint ark_draw_rows2 (R : ark_rng A) (m : nat) (s : ark_rst R) : matrix (F) * ark_rst R :=
  match m with
  | 0 => ([::], s)
  | m'.+1 =>
      let (r1, s) := ark_rand_fr s in
      let (r2, s) := ark_rand_fr s in
      let (rows, s) := ark_draw_rows2 m' s in
      ([:: r1; r2] :: rows, s)
  end.
(** The same with one column, commit.rs:135-138 and 235-238. *)
Fixpoint ark_draw_rows1 (R : ark_rng A) (m : nat) (s : ark_rst R) : matrix (F) * ark_rst R :=
  match m with
  | 0 => ([::], s)
  | m'.+1 =>
      let (r, s) := ark_rand_fr s in
      let (rows, s) := ark_draw_rows1 m' s in
      ([:: r] :: rows, s)
  end.


(** [commit_G1], commit.rs:59-75. *)
Definition ark_commit_G1 (R : ark_rng A) (xvar : aff (C1 A)) (key : ark_CRS A) (s : ark_rst R)
  : res (ark_Commit1 * ark_rst R) :=
  let (r1, s) := ark_rand_fr s in
  let (r2, s) := ark_rand_fr s in
  let! u0 := key_at (ark_crs_u key) 0 in
  let! u1 := key_at (ark_crs_u key) 1 in
  Ok (ark_mkCommit [:: ark_com_add (ark_com_add (ark_com1_linear_map xvar) (ark_com_scalar_mul u0 r1))
                           (ark_com_scalar_mul u1 r2)]
               [:: [:: r1; r2]], s).

(** [batch_commit_G1], commit.rs:78-100. *)
Definition ark_batch_commit_G1 (R : ark_rng A) (xvars : seq (aff (C1 A))) (key : ark_CRS A) (s : ark_rst R)
  : res (ark_Commit1 * ark_rst R) :=
  let m := size xvars in
  let (rr, s) := ark_draw_rows2 m s in
  let lin_x := vec_to_col_vec (ark_com1_batch_linear_map xvars) in
  let! ru := ark_cmat_left_mul no_ord (vec_to_col_vec (ark_crs_u key)) rr false in
  let! cs := ark_cmat_add lin_x ru in
  let! cv := col_vec_to_vec cs in
  Ok (ark_mkCommit cv rr, s).

(** [commit_scalar_to_B1], commit.rs:103-122. *)
Definition ark_commit_scalar_to_B1 (R : ark_rng A) (scalar_xvar : F) (key : ark_CRS A) (s : ark_rst R)
  : res (ark_Commit1 * ark_rst R) :=
  let (r, s) := ark_rand_fr s in
  let! x := ark_com1_scalar_linear_map scalar_xvar key in
  let! u0 := key_at (ark_crs_u key) 0 in
  Ok (ark_mkCommit [:: ark_com_add x (ark_com_scalar_mul u0 r)] [:: [:: r]], s).

(** [batch_commit_scalar_to_B1], commit.rs:125-156. *)
Definition ark_batch_commit_scalar_to_B1 (R : ark_rng A) (scalar_xvars : seq (F))
  (key : ark_CRS A) (s : ark_rst R) : res (ark_Commit1 * ark_rst R) :=
  let mprime := size scalar_xvars in
  let (r, s) := ark_draw_rows1 mprime s in
  let! slx := ark_com1_batch_scalar_linear_map scalar_xvars key in
  let slin_x := vec_to_col_vec slx in
  let! rv := col_vec_to_vec r in
  let! ruv := mapM (fun sca =>
    let! u0 := key_at (ark_crs_u key) 0 in Ok (ark_com_scalar_mul u0 sca)) rv in
  let ru := vec_to_col_vec ruv in
  let! cs := ark_cmat_add slin_x ru in
  let! cv := col_vec_to_vec cs in
  Ok (ark_mkCommit cv r, s).

(** [commit_G2], commit.rs:159-175. *)
Definition ark_commit_G2 (R : ark_rng A) (yvar : aff (C2 A)) (key : ark_CRS A) (s : ark_rst R)
  : res (ark_Commit2 * ark_rst R) :=
  let (s1, s) := ark_rand_fr s in
  let (s2, s) := ark_rand_fr s in
  let! v0 := key_at (ark_crs_v key) 0 in
  let! v1 := key_at (ark_crs_v key) 1 in
  Ok (ark_mkCommit [:: ark_com_add (ark_com_add (ark_com2_linear_map yvar) (ark_com_scalar_mul v0 s1))
                           (ark_com_scalar_mul v1 s2)]
               [:: [:: s1; s2]], s).

(** [batch_commit_G2], commit.rs:178-200. *)
Definition ark_batch_commit_G2 (R : ark_rng A) (yvars : seq (aff (C2 A))) (key : ark_CRS A) (s : ark_rst R)
  : res (ark_Commit2 * ark_rst R) :=
  let n := size yvars in
  let (ss, s) := ark_draw_rows2 n s in
  let lin_y := vec_to_col_vec (ark_com2_batch_linear_map yvars) in
  let! sv := ark_cmat_left_mul no_ord (vec_to_col_vec (ark_crs_v key)) ss false in
  let! cs := ark_cmat_add lin_y sv in
  let! cv := col_vec_to_vec cs in
  Ok (ark_mkCommit cv ss, s).

(** [commit_scalar_to_B2], commit.rs:203-222. *)
Definition ark_commit_scalar_to_B2 (R : ark_rng A) (scalar_yvar : F) (key : ark_CRS A) (s : ark_rst R)
  : res (ark_Commit2 * ark_rst R) :=
  let (s1, s) := ark_rand_fr s in
  let! y := ark_com2_scalar_linear_map scalar_yvar key in
  let! v0 := key_at (ark_crs_v key) 0 in
  Ok (ark_mkCommit [:: ark_com_add y (ark_com_scalar_mul v0 s1)] [:: [:: s1]], s).

(** [batch_commit_scalar_to_B2], commit.rs:225-256. *)
Definition ark_batch_commit_scalar_to_B2 (R : ark_rng A) (scalar_yvars : seq (F))
  (key : ark_CRS A) (s : ark_rst R) : res (ark_Commit2 * ark_rst R) :=
  let nprime := size scalar_yvars in
  let (ss, s) := ark_draw_rows1 nprime s in
  let! sly := ark_com2_batch_scalar_linear_map scalar_yvars key in
  let slin_y := vec_to_col_vec sly in
  let! sv := col_vec_to_vec ss in
  let! svv := mapM (fun sca =>
    let! v0 := key_at (ark_crs_v key) 0 in Ok (ark_com_scalar_mul v0 sca)) sv in
  let sv := vec_to_col_vec svv in
  let! cs := ark_cmat_add slin_y sv in
  let! cv := col_vec_to_vec cs in
  Ok (ark_mkCommit cv ss, s).
End ArkCommitFuns.
Arguments ark_Commit1 {F} A.
Arguments ark_Commit2 {F} A.

(** ** statement.rs, and the proof types of prover/prove.rs *)
Section ArkStatement.
Context {F : fieldType} {A : ark F}.

(** [PPE], statement.rs:118-123. *)
Record ark_PPE := ark_mkPPE {
  ark_ppe_a : seq (aff (C1 A)); ark_ppe_b : seq (aff (C2 A));
  ark_ppe_gamma : matrix (F); ark_ppe_target : out A }.
(** [MSMEG1], statement.rs:139-144. *)
Record ark_MSMEG1 := ark_mkMSMEG1 {
  ark_ms1_a : seq (aff (C1 A)); ark_ms1_b : seq (F);
  ark_ms1_gamma : matrix (F); ark_ms1_target : aff (C1 A) }.
(** [MSMEG2], statement.rs:160-165. *)
Record ark_MSMEG2 := ark_mkMSMEG2 {
  ark_ms2_a : seq (F); ark_ms2_b : seq (aff (C2 A));
  ark_ms2_gamma : matrix (F); ark_ms2_target : aff (C2 A) }.
(** [QuadEqu], statement.rs:180-185. *)
Record ark_QuadEqu := ark_mkQuadEqu {
  ark_quad_a : seq (F); ark_quad_b : seq (F);
  ark_quad_gamma : matrix (F); ark_quad_target : F }.

(** [Equation::get_type], statement.rs:128-130. *)
Definition ark_ppe_get_type (_ : ark_PPE) : EquType := PairingProduct.
(** [Equation::get_type], statement.rs:149-151. *)
Definition ark_ms1_get_type (_ : ark_MSMEG1) : EquType := MultiScalarG1.
(** [Equation::get_type], statement.rs:169-171. *)
Definition ark_ms2_get_type (_ : ark_MSMEG2) : EquType := MultiScalarG2.
(** [Equation::get_type], statement.rs:189-191. *)
Definition ark_quad_get_type (_ : ark_QuadEqu) : EquType := Quadratic.

(** [EquProof], prove.rs:56-61. *)
Record ark_EquProof := ark_mkEquProof {
  ark_pi : seq (ark_Com2 A); ark_theta : seq (ark_Com1 A);
  ark_equ_type : EquType; ark_pf_rand : matrix (F) }.

(** [CProof], prove.rs:65-69. *)
Record ark_CProof := ark_mkCProof {
  ark_xcoms : ark_Commit1 A; ark_ycoms : ark_Commit2 A; ark_equ_proofs : seq ark_EquProof }.
End ArkStatement.
Arguments ark_PPE {F} A.
Arguments ark_MSMEG1 {F} A.
Arguments ark_MSMEG2 {F} A.
Arguments ark_QuadEqu F : clear implicits.
Arguments ark_EquProof {F} A.
Arguments ark_CProof {F} A.

(** ** prover/prove.rs *)
Section ArkProve.
Context {F : fieldType} {A : ark F}.

(** In all functions [sch k] is the schedule of the k-th parallel product in
    program order. [ark_rand_fr s] is [E::ScalarField::rand(rng)]. *)

(** [PPE::prove], prove.rs:92-171. *)
Definition ark_ppe_prove (sch : sched) (R : ark_rng A) (self : ark_PPE A)
  (xvars : seq (aff (C1 A))) (yvars : seq (aff (C2 A))) (xcoms : ark_Commit1 A) (ycoms : ark_Commit2 A)
  (crs : ark_CRS A) (s : ark_rst R) : res (ark_EquProof A * ark_rst R) :=
  let! _ := assert_eq (size xvars) (size (ark_crand xcoms)) in
  let! _ := assert_eq (size (ark_ppe_gamma self)) (size (ark_crand xcoms)) in
  let! xr0 := idx (ark_crand xcoms) 0 in
  let! _ := assert_eq (size xr0) 2 in
  let! _ := assert_eq (size yvars) (size (ark_crand ycoms)) in
  let! g0 := idx (ark_ppe_gamma self) 0 in
  let! _ := assert_eq (size g0) (size (ark_crand ycoms)) in
  let! yr0 := idx (ark_crand ycoms) 0 in
  let! _ := assert_eq (size yr0) 2 in
  let is_parallel := true in
  let! x_rand_trans := fmat_transpose (ark_crand xcoms) in
  let! y_rand_trans := fmat_transpose (ark_crand ycoms) in
  let (r00, s) := ark_rand_fr s in
  let (r01, s) := ark_rand_fr s in
  let (r10, s) := ark_rand_fr s in
  let (r11, s) := ark_rand_fr s in
  let pf_rand := [:: [:: r00; r01]; [:: r10; r11]] in
  let! x_rand_lin_b :=
    ark_cmat_left_mul (sch 0%N) (vec_to_col_vec (ark_com2_batch_linear_map (ark_ppe_b self)))
      x_rand_trans is_parallel in
  let! x_rand_stmt :=
    fmat_right_mul (sch 1%N) x_rand_trans (ark_ppe_gamma self) is_parallel in
  let! x_rand_stmt_lin_y :=
    ark_cmat_left_mul (sch 2%N) (vec_to_col_vec (ark_com2_batch_linear_map yvars))
      x_rand_stmt is_parallel in
  let! xg := fmat_right_mul (sch 3%N) x_rand_trans (ark_ppe_gamma self) is_parallel in
  let! xgy := fmat_right_mul (sch 4%N) xg (ark_crand ycoms) is_parallel in
  let! pt := fmat_transpose pf_rand in
  let! npt := fmat_neg pt in
  let! pf_rand_stmt := fmat_add xgy npt in
  let! pf_rand_stmt_com2 :=
    ark_cmat_left_mul (sch 5%N) (vec_to_col_vec (ark_crs_v crs)) pf_rand_stmt is_parallel in
  let! pi1 := ark_cmat_add x_rand_lin_b x_rand_stmt_lin_y in
  let! pi2 := ark_cmat_add pi1 pf_rand_stmt_com2 in
  let! pi := col_vec_to_vec pi2 in
  let! _ := assert_eq (size pi) 2 in
  let! y_rand_lin_a :=
    ark_cmat_left_mul (sch 6%N) (vec_to_col_vec (ark_com1_batch_linear_map (ark_ppe_a self)))
      y_rand_trans is_parallel in
  let! gt := fmat_transpose (ark_ppe_gamma self) in
  let! y_rand_stmt := fmat_right_mul (sch 7%N) y_rand_trans gt is_parallel in
  let! y_rand_stmt_lin_x :=
    ark_cmat_left_mul (sch 8%N) (vec_to_col_vec (ark_com1_batch_linear_map xvars))
      y_rand_stmt is_parallel in
  let! pf_rand_com1 :=
    ark_cmat_left_mul (sch 9%N) (vec_to_col_vec (ark_crs_u crs)) pf_rand is_parallel in
  let! theta1 := ark_cmat_add y_rand_lin_a y_rand_stmt_lin_x in
  let! theta2 := ark_cmat_add theta1 pf_rand_com1 in
  let! theta := col_vec_to_vec theta2 in
  let! _ := assert_eq (size theta) 2 in
  Ok (ark_mkEquProof pi theta PairingProduct pf_rand, s).

(** [PPE::commit_and_prove], prove.rs:72-90. *)
Definition ark_ppe_commit_and_prove (sch : sched) (R : ark_rng A) (self : ark_PPE A)
  (xvars : seq (aff (C1 A))) (yvars : seq (aff (C2 A))) (crs : ark_CRS A) (s : ark_rst R)
  : res (ark_CProof A * ark_rst R) :=
  let! (xcoms, s) := ark_batch_commit_G1 xvars crs s in
  let! (ycoms, s) := ark_batch_commit_G2 yvars crs s in
  let! (pf, s) := ark_ppe_prove sch self xvars yvars xcoms ycoms crs s in
  Ok (ark_mkCProof xcoms ycoms [:: pf], s).

(** [MSMEG1::prove], prove.rs:195-274. *)
Definition ark_ms1_prove (sch : sched) (R : ark_rng A) (self : ark_MSMEG1 A)
  (xvars : seq (aff (C1 A))) (scalar_yvars : seq (F)) (xcoms : ark_Commit1 A)
  (scalar_ycoms : ark_Commit2 A) (crs : ark_CRS A) (s : ark_rst R) : res (ark_EquProof A * ark_rst R) :=
  let! _ := assert_eq (size xvars) (size (ark_crand xcoms)) in
  let! _ := assert_eq (size (ark_ms1_gamma self)) (size (ark_crand xcoms)) in
  let! xr0 := idx (ark_crand xcoms) 0 in
  let! _ := assert_eq (size xr0) 2 in
  let! _ := assert_eq (size scalar_yvars) (size (ark_crand scalar_ycoms)) in
  let! g0 := idx (ark_ms1_gamma self) 0 in
  let! _ := assert_eq (size g0) (size (ark_crand scalar_ycoms)) in
  let! yr0 := idx (ark_crand scalar_ycoms) 0 in
  let! _ := assert_eq (size yr0) 1 in
  let is_parallel := true in
  let! x_rand_trans := fmat_transpose (ark_crand xcoms) in
  let! y_rand_trans := fmat_transpose (ark_crand scalar_ycoms) in
  let (r0, s) := ark_rand_fr s in
  let (r1, s) := ark_rand_fr s in
  let pf_rand := [:: [:: r0; r1]] in
  let! lin_b := ark_com2_batch_scalar_linear_map (ark_ms1_b self) crs in
  let! x_rand_lin_b :=
    ark_cmat_left_mul (sch 0%N) (vec_to_col_vec lin_b) x_rand_trans is_parallel in
  let! x_rand_stmt :=
    fmat_right_mul (sch 1%N) x_rand_trans (ark_ms1_gamma self) is_parallel in
  let! lin_y := ark_com2_batch_scalar_linear_map scalar_yvars crs in
  let! x_rand_stmt_lin_y :=
    ark_cmat_left_mul (sch 2%N) (vec_to_col_vec lin_y) x_rand_stmt is_parallel in
  let! xg := fmat_right_mul (sch 3%N) x_rand_trans (ark_ms1_gamma self) is_parallel in
  let! xgy := fmat_right_mul (sch 4%N) xg (ark_crand scalar_ycoms) is_parallel in
  let! pt := fmat_transpose pf_rand in
  let! npt := fmat_neg pt in
  let! pf_rand_stmt := fmat_add xgy npt in
  let! v0 := idx (ark_crs_v crs) 0 in
  let v1 := [:: [:: v0]] in
  let! pf_rand_stmt_com2 := ark_cmat_left_mul (sch 5%N) v1 pf_rand_stmt is_parallel in
  let! pi1 := ark_cmat_add x_rand_lin_b x_rand_stmt_lin_y in
  let! pi2 := ark_cmat_add pi1 pf_rand_stmt_com2 in
  let! pi := col_vec_to_vec pi2 in
  let! _ := assert_eq (size pi) 2 in
  let! y_rand_lin_a :=
    ark_cmat_left_mul (sch 6%N) (vec_to_col_vec (ark_com1_batch_linear_map (ark_ms1_a self)))
      y_rand_trans is_parallel in
  let! gt := fmat_transpose (ark_ms1_gamma self) in
  let! y_rand_stmt := fmat_right_mul (sch 7%N) y_rand_trans gt is_parallel in
  let! y_rand_stmt_lin_x :=
    ark_cmat_left_mul (sch 8%N) (vec_to_col_vec (ark_com1_batch_linear_map xvars))
      y_rand_stmt is_parallel in
  let! pf_rand_com1 :=
    ark_cmat_left_mul (sch 9%N) (vec_to_col_vec (ark_crs_u crs)) pf_rand is_parallel in
  let! theta1 := ark_cmat_add y_rand_lin_a y_rand_stmt_lin_x in
  let! theta2 := ark_cmat_add theta1 pf_rand_com1 in
  let! theta := col_vec_to_vec theta2 in
  let! _ := assert_eq (size theta) 1 in
  Ok (ark_mkEquProof pi theta MultiScalarG1 pf_rand, s).

(** [MSMEG1::commit_and_prove], prove.rs:175-193. *)
Definition ark_ms1_commit_and_prove (sch : sched) (R : ark_rng A) (self : ark_MSMEG1 A)
  (xvars : seq (aff (C1 A))) (scalar_yvars : seq (F)) (crs : ark_CRS A) (s : ark_rst R)
  : res (ark_CProof A * ark_rst R) :=
  let! (xcoms, s) := ark_batch_commit_G1 xvars crs s in
  let! (scalar_ycoms, s) := ark_batch_commit_scalar_to_B2 scalar_yvars crs s in
  let! (pf, s) := ark_ms1_prove sch self xvars scalar_yvars xcoms scalar_ycoms crs s in
  Ok (ark_mkCProof xcoms scalar_ycoms [:: pf], s).

(** [MSMEG2::prove], prove.rs:298-379. *)
Definition ark_ms2_prove (sch : sched) (R : ark_rng A) (self : ark_MSMEG2 A)
  (scalar_xvars : seq (F)) (yvars : seq (aff (C2 A))) (scalar_xcoms : ark_Commit1 A)
  (ycoms : ark_Commit2 A) (crs : ark_CRS A) (s : ark_rst R) : res (ark_EquProof A * ark_rst R) :=
  let! _ := assert_eq (size scalar_xvars) (size (ark_crand scalar_xcoms)) in
  let! _ := assert_eq (size (ark_ms2_gamma self)) (size (ark_crand scalar_xcoms)) in
  let! xr0 := idx (ark_crand scalar_xcoms) 0 in
  let! _ := assert_eq (size xr0) 1 in
  let! _ := assert_eq (size yvars) (size (ark_crand ycoms)) in
  let! g0 := idx (ark_ms2_gamma self) 0 in
  let! _ := assert_eq (size g0) (size (ark_crand ycoms)) in
  let! yr0 := idx (ark_crand ycoms) 0 in
  let! _ := assert_eq (size yr0) 2 in
  let is_parallel := true in
  let! x_rand_trans := fmat_transpose (ark_crand scalar_xcoms) in
  let! y_rand_trans := fmat_transpose (ark_crand ycoms) in
  let (r0, s) := ark_rand_fr s in
  let (r1, s) := ark_rand_fr s in
  let pf_rand := [:: [:: r0]; [:: r1]] in
  let! x_rand_lin_b :=
    ark_cmat_left_mul (sch 0%N) (vec_to_col_vec (ark_com2_batch_linear_map (ark_ms2_b self)))
      x_rand_trans is_parallel in
  let! x_rand_stmt :=
    fmat_right_mul (sch 1%N) x_rand_trans (ark_ms2_gamma self) is_parallel in
  let! x_rand_stmt_lin_y :=
    ark_cmat_left_mul (sch 2%N) (vec_to_col_vec (ark_com2_batch_linear_map yvars))
      x_rand_stmt is_parallel in
  let! xg := fmat_right_mul (sch 3%N) x_rand_trans (ark_ms2_gamma self) is_parallel in
  let! xgy := fmat_right_mul (sch 4%N) xg (ark_crand ycoms) is_parallel in
  let! pt := fmat_transpose pf_rand in
  let! npt := fmat_neg pt in
  let! pf_rand_stmt := fmat_add xgy npt in
  let! pf_rand_stmt_com2 :=
    ark_cmat_left_mul (sch 5%N) (vec_to_col_vec (ark_crs_v crs)) pf_rand_stmt is_parallel in
  let! pi1 := ark_cmat_add x_rand_lin_b x_rand_stmt_lin_y in
  let! pi2 := ark_cmat_add pi1 pf_rand_stmt_com2 in
  let! pi := col_vec_to_vec pi2 in
  let! _ := assert_eq (size pi) 1 in
  let! lin_a := ark_com1_batch_scalar_linear_map (ark_ms2_a self) crs in
  let! y_rand_lin_a :=
    ark_cmat_left_mul (sch 6%N) (vec_to_col_vec lin_a) y_rand_trans is_parallel in
  let! gt := fmat_transpose (ark_ms2_gamma self) in
  let! y_rand_stmt := fmat_right_mul (sch 7%N) y_rand_trans gt is_parallel in
  let! lin_x := ark_com1_batch_scalar_linear_map scalar_xvars crs in
  let! y_rand_stmt_lin_x :=
    ark_cmat_left_mul (sch 8%N) (vec_to_col_vec lin_x) y_rand_stmt is_parallel in
  let! u0 := idx (ark_crs_u crs) 0 in
  let u1 := [:: [:: u0]] in
  let! pf_rand_com1 := ark_cmat_left_mul (sch 9%N) u1 pf_rand is_parallel in
  let! theta1 := ark_cmat_add y_rand_lin_a y_rand_stmt_lin_x in
  let! theta2 := ark_cmat_add theta1 pf_rand_com1 in
  let! theta := col_vec_to_vec theta2 in
  let! _ := assert_eq (size theta) 2 in
  Ok (ark_mkEquProof pi theta MultiScalarG2 pf_rand, s).

(** [MSMEG2::commit_and_prove], prove.rs:278-296. *)
Definition ark_ms2_commit_and_prove (sch : sched) (R : ark_rng A) (self : ark_MSMEG2 A)
  (scalar_xvars : seq (F)) (yvars : seq (aff (C2 A))) (crs : ark_CRS A) (s : ark_rst R)
  : res (ark_CProof A * ark_rst R) :=
  let! (scalar_xcoms, s) := ark_batch_commit_scalar_to_B1 scalar_xvars crs s in
  let! (ycoms, s) := ark_batch_commit_G2 yvars crs s in
  let! (pf, s) := ark_ms2_prove sch self scalar_xvars yvars scalar_xcoms ycoms crs s in
  Ok (ark_mkCProof scalar_xcoms ycoms [:: pf], s).

(** [QuadEqu::prove], prove.rs:409-488. *)
Definition ark_quad_prove (sch : sched) (R : ark_rng A) (self : ark_QuadEqu F)
  (scalar_xvars scalar_yvars : seq (F)) (scalar_xcoms : ark_Commit1 A)
  (scalar_ycoms : ark_Commit2 A) (crs : ark_CRS A) (s : ark_rst R) : res (ark_EquProof A * ark_rst R) :=
  let! _ := assert_eq (size scalar_xvars) (size (ark_crand scalar_xcoms)) in
  let! _ := assert_eq (size (ark_quad_gamma self)) (size (ark_crand scalar_xcoms)) in
  let! xr0 := idx (ark_crand scalar_xcoms) 0 in
  let! _ := assert_eq (size xr0) 1 in
  let! _ := assert_eq (size scalar_yvars) (size (ark_crand scalar_ycoms)) in
  let! g0 := idx (ark_quad_gamma self) 0 in
  let! _ := assert_eq (size g0) (size (ark_crand scalar_ycoms)) in
  let! yr0 := idx (ark_crand scalar_ycoms) 0 in
  let! _ := assert_eq (size yr0) 1 in
  let is_parallel := true in
  let! x_rand_trans := fmat_transpose (ark_crand scalar_xcoms) in
  let! y_rand_trans := fmat_transpose (ark_crand scalar_ycoms) in
  let (r, s) := ark_rand_fr s in
  let pf_rand := [:: [:: r]] in
  let! lin_b := ark_com2_batch_scalar_linear_map (ark_quad_b self) crs in
  let! x_rand_lin_b :=
    ark_cmat_left_mul (sch 0%N) (vec_to_col_vec lin_b) x_rand_trans is_parallel in
  let! x_rand_stmt :=
    fmat_right_mul (sch 1%N) x_rand_trans (ark_quad_gamma self) is_parallel in
  let! lin_y := ark_com2_batch_scalar_linear_map scalar_yvars crs in
  let! x_rand_stmt_lin_y :=
    ark_cmat_left_mul (sch 2%N) (vec_to_col_vec lin_y) x_rand_stmt is_parallel in
  let! xg := fmat_right_mul (sch 3%N) x_rand_trans (ark_quad_gamma self) is_parallel in
  let! xgy := fmat_right_mul (sch 4%N) xg (ark_crand scalar_ycoms) is_parallel in
  let! pt := fmat_transpose pf_rand in
  let! npt := fmat_neg pt in
  let! pf_rand_stmt := fmat_add xgy npt in
  let! v0 := idx (ark_crs_v crs) 0 in
  let v1 := [:: [:: v0]] in
  let! pf_rand_stmt_com2 := ark_cmat_left_mul (sch 5%N) v1 pf_rand_stmt is_parallel in
  let! pi1 := ark_cmat_add x_rand_lin_b x_rand_stmt_lin_y in
  let! pi2 := ark_cmat_add pi1 pf_rand_stmt_com2 in
  let! pi := col_vec_to_vec pi2 in
  let! _ := assert_eq (size pi) 1 in
  let! lin_a := ark_com1_batch_scalar_linear_map (ark_quad_a self) crs in
  let! y_rand_lin_a :=
    ark_cmat_left_mul (sch 6%N) (vec_to_col_vec lin_a) y_rand_trans is_parallel in
  let! gt := fmat_transpose (ark_quad_gamma self) in
  let! y_rand_stmt := fmat_right_mul (sch 7%N) y_rand_trans gt is_parallel in
  let! lin_x := ark_com1_batch_scalar_linear_map scalar_xvars crs in
  let! y_rand_stmt_lin_x :=
    ark_cmat_left_mul (sch 8%N) (vec_to_col_vec lin_x) y_rand_stmt is_parallel in
  let! u0 := idx (ark_crs_u crs) 0 in
  let u1 := [:: [:: u0]] in
  let! pf_rand_com1 := ark_cmat_left_mul (sch 9%N) u1 pf_rand is_parallel in
  let! theta1 := ark_cmat_add y_rand_lin_a y_rand_stmt_lin_x in
  let! theta2 := ark_cmat_add theta1 pf_rand_com1 in
  let! theta := col_vec_to_vec theta2 in
  let! _ := assert_eq (size theta) 1 in
  Ok (ark_mkEquProof pi theta Quadratic pf_rand, s).

(** [QuadEqu::commit_and_prove], prove.rs:383-408. *)
Definition ark_quad_commit_and_prove (sch : sched) (R : ark_rng A) (self : ark_QuadEqu F)
  (scalar_xvars scalar_yvars : seq (F)) (crs : ark_CRS A) (s : ark_rst R)
  : res (ark_CProof A * ark_rst R) :=
  let! (scalar_xcoms, s) := ark_batch_commit_scalar_to_B1 scalar_xvars crs s in
  let! (scalar_ycoms, s) := ark_batch_commit_scalar_to_B2 scalar_yvars crs s in
  let! (pf, s) :=
    ark_quad_prove sch self scalar_xvars scalar_yvars scalar_xcoms scalar_ycoms crs s in
  Ok (ark_mkCProof scalar_xcoms scalar_ycoms [:: pf], s).
End ArkProve.

(** ** verifier.rs *)
Section ArkVerify.
Context {F : fieldType} {A : ark F}.


(** [PPE::verify], verifier.rs:24-54. *)
Definition ark_ppe_verify (sch : sched) (self : ark_PPE A) (com_proof : ark_CProof A)
  (crs : ark_CRS A) : res bool :=
  let! _ := assert_eq (size (ark_equ_proofs com_proof)) 1 in
  let! pf := idx (ark_equ_proofs com_proof) 0 in
  let! _ := assert_type (ark_ppe_get_type self) (ark_equ_type pf) in
  let is_parallel := true in
  let! lin_a_com_y :=
    ark_comT_pairing_sum (ark_com1_batch_linear_map (ark_ppe_a self)) (ark_coms (ark_ycoms com_proof)) in
  let! com_x_lin_b :=
    ark_comT_pairing_sum (ark_coms (ark_xcoms com_proof)) (ark_com2_batch_linear_map (ark_ppe_b self)) in
  let! stmt_com_y :=
    ark_cmat_left_mul (sch 0%N) (vec_to_col_vec (ark_coms (ark_ycoms com_proof)))
      (ark_ppe_gamma self) is_parallel in
  let! stmt_com_y_v := col_vec_to_vec stmt_com_y in
  let! com_x_stmt_com_y :=
    ark_comT_pairing_sum (ark_coms (ark_xcoms com_proof)) stmt_com_y_v in
  let lin_t := ark_linear_map_PPE (ark_ppe_target self) in
  let! com1_pf2 := ark_comT_pairing_sum (ark_crs_u crs) (ark_pi pf) in
  let! pf1_com2 := ark_comT_pairing_sum (ark_theta pf) (ark_crs_v crs) in
  let lhs := ark_comT_add (ark_comT_add lin_a_com_y com_x_lin_b) com_x_stmt_com_y in
  let rhs := ark_comT_add (ark_comT_add lin_t com1_pf2) pf1_com2 in
  Ok (ark_comT_eq lhs rhs).

(** [MSMEG1::verify], verifier.rs:58-88. *)
Definition ark_ms1_verify (sch : sched) (self : ark_MSMEG1 A) (com_proof : ark_CProof A)
  (crs : ark_CRS A) : res bool :=
  let! _ := assert_eq (size (ark_equ_proofs com_proof)) 1 in
  let! pf := idx (ark_equ_proofs com_proof) 0 in
  let! _ := assert_type (ark_ms1_get_type self) (ark_equ_type pf) in
  let is_parallel := true in
  let! lin_a_com_y :=
    ark_comT_pairing_sum (ark_com1_batch_linear_map (ark_ms1_a self)) (ark_coms (ark_ycoms com_proof)) in
  let! lin_b := ark_com2_batch_scalar_linear_map (ark_ms1_b self) crs in
  let! com_x_lin_b := ark_comT_pairing_sum (ark_coms (ark_xcoms com_proof)) lin_b in
  let! stmt_com_y :=
    ark_cmat_left_mul (sch 0%N) (vec_to_col_vec (ark_coms (ark_ycoms com_proof)))
      (ark_ms1_gamma self) is_parallel in
  let! stmt_com_y_v := col_vec_to_vec stmt_com_y in
  let! com_x_stmt_com_y :=
    ark_comT_pairing_sum (ark_coms (ark_xcoms com_proof)) stmt_com_y_v in
  let! lin_t := ark_linear_map_MSMEG1 (ark_ms1_target self) crs in
  let! com1_pf2 := ark_comT_pairing_sum (ark_crs_u crs) (ark_pi pf) in
  let! theta0 := idx (ark_theta pf) 0 in
  let! v0 := idx (ark_crs_v crs) 0 in
  let pf1_com2 := ark_comT_pairing theta0 v0 in
  let lhs := ark_comT_add (ark_comT_add lin_a_com_y com_x_lin_b) com_x_stmt_com_y in
  let rhs := ark_comT_add (ark_comT_add lin_t com1_pf2) pf1_com2 in
  Ok (ark_comT_eq lhs rhs).

(** [MSMEG2::verify], verifier.rs:92-122. *)
Definition ark_ms2_verify (sch : sched) (self : ark_MSMEG2 A) (com_proof : ark_CProof A)
  (crs : ark_CRS A) : res bool :=
  let! _ := assert_eq (size (ark_equ_proofs com_proof)) 1 in
  let! pf := idx (ark_equ_proofs com_proof) 0 in
  let! _ := assert_type (ark_ms2_get_type self) (ark_equ_type pf) in
  let is_parallel := true in
  let! lin_a := ark_com1_batch_scalar_linear_map (ark_ms2_a self) crs in
  let! lin_a_com_y := ark_comT_pairing_sum lin_a (ark_coms (ark_ycoms com_proof)) in
  let! com_x_lin_b :=
    ark_comT_pairing_sum (ark_coms (ark_xcoms com_proof)) (ark_com2_batch_linear_map (ark_ms2_b self)) in
  let! stmt_com_y :=
    ark_cmat_left_mul (sch 0%N) (vec_to_col_vec (ark_coms (ark_ycoms com_proof)))
      (ark_ms2_gamma self) is_parallel in
  let! stmt_com_y_v := col_vec_to_vec stmt_com_y in
  let! com_x_stmt_com_y :=
    ark_comT_pairing_sum (ark_coms (ark_xcoms com_proof)) stmt_com_y_v in
  let! lin_t := ark_linear_map_MSMEG2 (ark_ms2_target self) crs in
  let! u0 := idx (ark_crs_u crs) 0 in
  let! pi0 := idx (ark_pi pf) 0 in
  let com1_pf2 := ark_comT_pairing u0 pi0 in
  let! pf1_com2 := ark_comT_pairing_sum (ark_theta pf) (ark_crs_v crs) in
  let lhs := ark_comT_add (ark_comT_add lin_a_com_y com_x_lin_b) com_x_stmt_com_y in
  let rhs := ark_comT_add (ark_comT_add lin_t com1_pf2) pf1_com2 in
  Ok (ark_comT_eq lhs rhs).

(** [QuadEqu::verify], verifier.rs:126-156. *)
Definition ark_quad_verify (sch : sched) (self : ark_QuadEqu F) (com_proof : ark_CProof A)
  (crs : ark_CRS A) : res bool :=
  let! _ := assert_eq (size (ark_equ_proofs com_proof)) 1 in
  let! pf := idx (ark_equ_proofs com_proof) 0 in
  let! _ := assert_type (ark_quad_get_type self) (ark_equ_type pf) in
  let is_parallel := true in
  let! lin_a := ark_com1_batch_scalar_linear_map (ark_quad_a self) crs in
  let! lin_a_com_y := ark_comT_pairing_sum lin_a (ark_coms (ark_ycoms com_proof)) in
  let! lin_b := ark_com2_batch_scalar_linear_map (ark_quad_b self) crs in
  let! com_x_lin_b := ark_comT_pairing_sum (ark_coms (ark_xcoms com_proof)) lin_b in
  let! stmt_com_y :=
    ark_cmat_left_mul (sch 0%N) (vec_to_col_vec (ark_coms (ark_ycoms com_proof)))
      (ark_quad_gamma self) is_parallel in
  let! stmt_com_y_v := col_vec_to_vec stmt_com_y in
  let! com_x_stmt_com_y :=
    ark_comT_pairing_sum (ark_coms (ark_xcoms com_proof)) stmt_com_y_v in
  let! lin_t := ark_linear_map_quad (ark_quad_target self) crs in
  let! u0 := idx (ark_crs_u crs) 0 in
  let! pi0 := idx (ark_pi pf) 0 in
  let com1_pf2 := ark_comT_pairing u0 pi0 in
  let! theta0 := idx (ark_theta pf) 0 in
  let! v0 := idx (ark_crs_v crs) 0 in
  let pf1_com2 := ark_comT_pairing theta0 v0 in
  let lhs := ark_comT_add (ark_comT_add lin_a_com_y com_x_lin_b) com_x_stmt_com_y in
  let rhs := ark_comT_add (ark_comT_add lin_t com1_pf2) pf1_com2 in
  Ok (ark_comT_eq lhs rhs).
End ArkVerify.

(** ** The derived [PartialEq] *)
Section ArkDerived.
Context {F : fieldType} {A : ark F}.

(** Derived [PartialEq] of [PPE], statement.rs:117: the fields in order of declaration. Points and
    scalars are compared by arkworks, here by the equality of the group or field. *)
Definition ark_ppe_eq (x y : ark_PPE A) : bool :=
  [&& vec_eq (@aff_eq _ (C1 A)) (ark_ppe_a x) (ark_ppe_a y), vec_eq (@aff_eq _ (C2 A)) (ark_ppe_b x) (ark_ppe_b y),
      mat_eq (ark_ppe_gamma x) (ark_ppe_gamma y) & out_eq (ark_ppe_target x) (ark_ppe_target y)].

(** Derived [PartialEq] of [MSMEG1], statement.rs:138: the fields in order of declaration. Points and
    scalars are compared by arkworks, here by the equality of the group or field. *)
Definition ark_ms1_eq (x y : ark_MSMEG1 A) : bool :=
  [&& vec_eq (@aff_eq _ (C1 A)) (ark_ms1_a x) (ark_ms1_a y), vec_eq (fun p r : F => p == r) (ark_ms1_b x) (ark_ms1_b y),
      mat_eq (ark_ms1_gamma x) (ark_ms1_gamma y) & aff_eq (ark_ms1_target x) (ark_ms1_target y)].

(** Derived [PartialEq] of [MSMEG2], statement.rs:159: the fields in order of declaration. Points and
    scalars are compared by arkworks, here by the equality of the group or field. *)
Definition ark_ms2_eq (x y : ark_MSMEG2 A) : bool :=
  [&& vec_eq (fun p r : F => p == r) (ark_ms2_a x) (ark_ms2_a y), vec_eq (@aff_eq _ (C2 A)) (ark_ms2_b x) (ark_ms2_b y),
      mat_eq (ark_ms2_gamma x) (ark_ms2_gamma y) & aff_eq (ark_ms2_target x) (ark_ms2_target y)].

(** Derived [PartialEq] of [QuadEqu], statement.rs:179: the fields in order of declaration. Points and
    scalars are compared by arkworks, here by the equality of the group or field. *)
Definition ark_quad_eq (x y : ark_QuadEqu F) : bool :=
  [&& vec_eq (fun p r : F => p == r) (ark_quad_a x) (ark_quad_a y), vec_eq (fun p r : F => p == r) (ark_quad_b x) (ark_quad_b y),
      mat_eq (ark_quad_gamma x) (ark_quad_gamma y) & (ark_quad_target x : F) == ark_quad_target y].

(** Derived [PartialEq] of [EquProof], prove.rs:55; [pi] and [theta] are compared with [Com2 ==] and [Com1 ==]. *)
Definition ark_equproof_eq (x y : ark_EquProof A) : bool :=
  [&& vec_eq ark_com_eq (ark_pi x) (ark_pi y), vec_eq ark_com_eq (ark_theta x) (ark_theta y),
      equtype_eq (ark_equ_type x) (ark_equ_type y) & mat_eq (ark_pf_rand x) (ark_pf_rand y)].

(** Derived [PartialEq] of [CProof], prove.rs:64; the commitments are compared with [Commit1 ==] and
    [Commit2 ==] of commit.rs:33-39. *)
Definition ark_cproof_eq (x y : ark_CProof A) : bool :=
  [&& ark_commit_eq (ark_xcoms x) (ark_xcoms y), ark_commit_eq (ark_ycoms x) (ark_ycoms y) & vec_eq ark_equproof_eq (ark_equ_proofs x) (ark_equ_proofs y)].
End ArkDerived.
