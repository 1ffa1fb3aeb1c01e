(** The test suite of /repo: every [#[test]] of /repo/src and /repo/tests as a program over
    the model. [test_rng()] is an arbitrary generator in an arbitrary state; a test that makes
    two generators takes two states, which are equal when
    DETERMINISTIC_TEST_RNG is 1. Simplification: BLS12-381 is an arbitrary pairing. *)
From mathcomp Require Import all_ssreflect all_algebra.
From Verif Require Import Base Group DataStructures Generator Commit Statement Derived Codec Prove Verify.
Set Implicit Arguments.
Unset Strict Implicit.
Unset Printing Implicit Defensive.
Import GRing.Theory.
Local Open Scope ring_scope.

(** [assert!(b)], [assert_eq!], [assert_ne!] on values other than lengths, e.g. data_structures.rs:953-955. *)
Definition claim (b : bool) : res unit := if b then Ok tt else Panic AssertFailed.
(** [.unwrap()] of a result of deserialization, e.g. data_structures.rs:1281; a panic is [AssertFailed]. *)
Definition unwrap {T} (d : dres T) : res T := if d is DOk x _ then Ok x else Panic AssertFailed.
(** [m[i][j]], e.g. data_structures.rs:1443. *)
Definition cell_at {T} (m : matrix T) (i j : nat) : res T := let! row := idx m i in idx row j.
(** [assert_matrix_dimensions!], data_structures.rs:1638-1643. *)
Definition matrix_dimensions {T} (m : matrix T) (rows cols : nat) : res unit :=
  let! _ := assert_eq (size m) rows in
  foldM (fun _ r => assert_eq (size r) cols) tt m.

Section Suite.
Context {E : pairing} {R : rng E}.
(** [GT::rand(rng)], which only tests use, e.g. data_structures.rs:980. *)
Variable rand_gt : rst R -> GT E * rst R.
(** The element codecs of arkworks. *)
Variable cs : codecs E.
(** The order in which parallel tasks run, in a first and a second call. *)
Variables sch sch' : sched.

(** [Com1(G1Projective::rand(rng).into_affine(), ..)], e.g. data_structures.rs:945-948. *)
Definition rand_com1 (s : rst R) : Com1 E * rst R :=
  let (x, s) := rand_g1 s in let (y, s) := rand_g1 s in ((x, y), s).
(** [Com2(G2Projective::rand(rng).into_affine(), ..)], e.g. data_structures.rs:962-965. *)
Definition rand_com2 (s : rst R) : Com2 E * rst R :=
  let (x, s) := rand_g2 s in let (y, s) := rand_g2 s in ((x, y), s).
(** [ComT(GT::rand(rng), ..)], e.g. data_structures.rs:978-983. *)
Definition rand_comT (s : rst R) : ComT E * rst R :=
  let (a, s) := rand_gt s in let (b, s) := rand_gt s in
  let (c, s) := rand_gt s in let (d, s) := rand_gt s in (mkComT a b c d, s).
(** [for _ in 0..n { let _ = Fr::rand(rng); }], e.g. prove.rs:570-572. *)
Fixpoint skip (n : nat) (s : rst R) : rst R :=
  if n is n'.+1 then let (_, s) := rand_fr s in skip n' s else s.

(** ** data_structures.rs, module SXDH_com_group *)
(** data_structures.rs:944-956. *)
Definition test_B1_add_zero (s : rst R) : res unit :=
  let (a, s) := rand_com1 s in
  let zero : Com1 E := (0, 0) in
  let asub := com_add a zero in
  let! _ := claim (com_eq zero com_zero) in
  let! _ := claim (com_is_zero zero) in
  claim (com_eq a asub).

(** data_structures.rs:960-972. *)
Definition test_B2_add_zero (s : rst R) : res unit :=
  let (a, s) := rand_com2 s in
  let zero : Com2 E := (0, 0) in
  let asub := com_add a zero in
  let! _ := claim (com_eq zero com_zero) in
  let! _ := claim (com_is_zero zero) in
  claim (com_eq a asub).

(** data_structures.rs:976-990. *)
Definition test_BT_add_zero (s : rst R) : res unit :=
  let (a, s) := rand_comT s in
  let zero : ComT E := mkComT 0 0 0 0 in
  let asub := comT_add a zero in
  let! _ := claim (comT_eq zero comT_zero) in
  let! _ := claim (comT_is_zero zero) in
  claim (comT_eq a asub).

(** data_structures.rs:994-1009. *)
Definition test_B1_add (s : rst R) : res unit :=
  let (a, s) := rand_com1 s in
  let (b, s) := rand_com1 s in
  let ab := com_add a b in
  let ba := com_add b a in
  let! _ := claim (com_eq ab (a.1 + b.1, a.2 + b.2)) in
  claim (com_eq ab ba).

(** data_structures.rs:1013-1028. *)
Definition test_B2_add (s : rst R) : res unit :=
  let (a, s) := rand_com2 s in
  let (b, s) := rand_com2 s in
  let ab := com_add a b in
  let ba := com_add b a in
  let! _ := claim (com_eq ab (a.1 + b.1, a.2 + b.2)) in
  claim (com_eq ab ba).

(** data_structures.rs:1032-1051. *)
Definition test_BT_add (s : rst R) : res unit :=
  let (a, s) := rand_comT s in
  let (b, s) := rand_comT s in
  let ab := comT_add a b in
  let ba := comT_add b a in
  let! _ := claim (comT_eq ab (mkComT (t0 a + t0 b) (t1 a + t1 b) (t2 a + t2 b) (t3 a + t3 b))) in
  claim (comT_eq ab ba).

(** data_structures.rs:1055-1074. *)
Definition test_B1_sum (s : rst R) : res unit :=
  let (a, s) := rand_com1 s in
  let (b, s) := rand_com1 s in
  let (c, s) := rand_com1 s in
  let abc_vec := [:: a; b; c] in
  let abc := com_sum abc_vec in
  claim (com_eq abc (com_add (com_add a b) c)).

(** data_structures.rs:1078-1097. *)
Definition test_B2_sum (s : rst R) : res unit :=
  let (a, s) := rand_com2 s in
  let (b, s) := rand_com2 s in
  let (c, s) := rand_com2 s in
  let abc_vec := [:: a; b; c] in
  let abc := com_sum abc_vec in
  claim (com_eq abc (com_add (com_add a b) c)).

(** data_structures.rs:1101-1126. *)
Definition test_BT_sum (s : rst R) : res unit :=
  let (a, s) := rand_comT s in
  let (b, s) := rand_comT s in
  let (c, s) := rand_comT s in
  let abc_vec := [:: a; b; c] in
  let abc := comT_sum abc_vec in
  claim (comT_eq abc (comT_add (comT_add a b) c)).

(** data_structures.rs:1130-1140. *)
Definition test_B1_neg (s : rst R) : res unit :=
  let (b, s) := rand_com1 s in
  let bneg := com_neg b in
  let zero := com_add b bneg in
  claim (com_is_zero zero).

(** data_structures.rs:1144-1154. *)
Definition test_B2_neg (s : rst R) : res unit :=
  let (b, s) := rand_com2 s in
  let bneg := com_neg b in
  let zero := com_add b bneg in
  claim (com_is_zero zero).

(** data_structures.rs:1158-1170. *)
Definition test_BT_neg (s : rst R) : res unit :=
  let (b, s) := rand_comT s in
  let bneg := comT_neg b in
  let zero := comT_add b bneg in
  claim (comT_is_zero zero).

(** data_structures.rs:1174-1189. *)
Definition test_B1_sub (s : rst R) : res unit :=
  let (a, s) := rand_com1 s in
  let (b, s) := rand_com1 s in
  let ab := com_sub a b in
  let ba := com_sub b a in
  let! _ := claim (com_eq ab (a.1 + - b.1, a.2 + - b.2)) in
  claim (com_eq ab (com_neg ba)).

(** data_structures.rs:1193-1208. *)
Definition test_B2_sub (s : rst R) : res unit :=
  let (a, s) := rand_com2 s in
  let (b, s) := rand_com2 s in
  let ab := com_sub a b in
  let ba := com_sub b a in
  let! _ := claim (com_eq ab (a.1 + - b.1, a.2 + - b.2)) in
  claim (com_eq ab (com_neg ba)).

(** data_structures.rs:1212-1231. *)
Definition test_BT_sub (s : rst R) : res unit :=
  let (a, s) := rand_comT s in
  let (b, s) := rand_comT s in
  let ab := comT_sub a b in
  let ba := comT_sub b a in
  let! _ := claim (comT_eq ab (mkComT (t0 a - t0 b) (t1 a - t1 b) (t2 a - t2 b) (t3 a - t3 b))) in
  claim (comT_eq ab (comT_neg ba)).

(** data_structures.rs:1235-1248. *)
Definition test_B1_scalar_mul (s : rst R) : res unit :=
  let (b, s) := rand_com1 s in
  let (scalar, s) := rand_fr s in
  let b0 := scalar *: b.1 in
  let b1 := scalar *: b.2 in
  let bres := com_scalar_mul b scalar in
  let bexp : Com1 E := (b0, b1) in
  claim (com_eq bres bexp).

(** data_structures.rs:1252-1265. *)
Definition test_B2_scalar_mul (s : rst R) : res unit :=
  let (b, s) := rand_com2 s in
  let (scalar, s) := rand_fr s in
  let b0 := scalar *: b.1 in
  let b1 := scalar *: b.2 in
  let bres := com_scalar_mul b scalar in
  let bexp : Com2 E := (b0, b1) in
  claim (com_eq bres bexp).

(** data_structures.rs:1269-1287. *)
Definition test_B1_serde (s : rst R) : res unit :=
  let (a, s) := rand_com1 s in
  let! _ := (let c_bytes := ser (com1_codec cs) Yes a in
    let! a_de := unwrap (de (com1_codec cs) Yes VYes c_bytes) in
    claim (com_eq a a_de)) in
  let u_bytes := ser (com1_codec cs) No a in
  let! a_de := unwrap (de (com1_codec cs) No VYes u_bytes) in
  claim (com_eq a a_de).

(** data_structures.rs:1291-1309. *)
Definition test_B2_serde (s : rst R) : res unit :=
  let (a, s) := rand_com2 s in
  let! _ := (let c_bytes := ser (com2_codec cs) Yes a in
    let! a_de := unwrap (de (com2_codec cs) Yes VYes c_bytes) in
    claim (com_eq a a_de)) in
  let u_bytes := ser (com2_codec cs) No a in
  let! a_de := unwrap (de (com2_codec cs) No VYes u_bytes) in
  claim (com_eq a a_de).

(** data_structures.rs:1313-1326. *)
Definition test_B_pairing_zero_G1 (s : rst R) : res unit :=
  let b1 : Com1 E := (0, 0) in
  let (b2, s) := rand_com2 s in
  let bt := comT_pairing b1 b2 in
  let! _ := claim (t0 bt == 0) in
  let! _ := claim (t1 bt == 0) in
  let! _ := claim (t2 bt == 0) in
  claim (t3 bt == 0).

(** data_structures.rs:1330-1343. *)
Definition test_B_pairing_zero_G2 (s : rst R) : res unit :=
  let (b1, s) := rand_com1 s in
  let b2 : Com2 E := (0, 0) in
  let bt := comT_pairing b1 b2 in
  let! _ := claim (t0 bt == 0) in
  let! _ := claim (t1 bt == 0) in
  let! _ := claim (t2 bt == 0) in
  claim (t3 bt == 0).

(** data_structures.rs:1347-1357. *)
Definition test_B_pairing_commit (s : rst R) : res unit :=
  let (x, s) := rand_g1 s in
  let b1 : Com1 E := (0, x) in
  let (y, s) := rand_g2 s in
  let b2 : Com2 E := (0, y) in
  let bt := comT_pairing b1 b2 in
  let! _ := claim (t0 bt == 0) in
  let! _ := claim (t1 bt == 0) in
  let! _ := claim (t2 bt == 0) in
  claim (t3 bt == pair_e b1.2 b2.2).

(** data_structures.rs:1361-1377. *)
Definition test_B_pairing_rand (s : rst R) : res unit :=
  let (b1, s) := rand_com1 s in
  let (b2, s) := rand_com2 s in
  let bt := comT_pairing b1 b2 in
  let! _ := claim (t0 bt == pair_e b1.1 b2.1) in
  let! _ := claim (t1 bt == pair_e b1.1 b2.2) in
  let! _ := claim (t2 bt == pair_e b1.2 b2.1) in
  claim (t3 bt == pair_e b1.2 b2.2).

(** data_structures.rs:1381-1407. *)
Definition test_B_pairing_sum (s : rst R) : res unit :=
  let (x1, s) := rand_com1 s in
  let (x2, s) := rand_com1 s in
  let (y1, s) := rand_com2 s in
  let (y2, s) := rand_com2 s in
  let x := [:: x1; x2] in
  let y := [:: y1; y2] in
  let exp := comT_sum [:: comT_pairing x1 y1; comT_pairing x2 y2] in
  let! res := comT_pairing_sum x y in
  claim (comT_eq exp res).

(** data_structures.rs:1410-1427. *)
Definition test_B_into_matrix (s : rst R) : res unit :=
  let (b1, s) := rand_com1 s in
  let (b2, s) := rand_com2 s in
  let bt := comT_pairing b1 b2 in
  let! _ := claim (mat_eq (com_as_col_vec b1) [:: [:: b1.1]; [:: b1.2]]) in
  let! _ := claim (mat_eq (com_as_col_vec b2) [:: [:: b2.1]; [:: b2.2]]) in
  claim (mat_eq (comT_as_matrix bt) [:: [:: t0 bt; t1 bt]; [:: t2 bt; t3 bt]]).

(** data_structures.rs:1430-1464. *)
Definition test_B_from_matrix (s : rst R) : res unit :=
  let (x0, s) := rand_g1 s in
  let (x1, s) := rand_g1 s in
  let b1_vec := [:: [:: x0]; [:: x1]] in
  let (y0, s) := rand_g2 s in
  let (y1, s) := rand_g2 s in
  let b2_vec := [:: [:: y0]; [:: y1]] in
  let! x00 := cell_at b1_vec 0 0 in
  let! x10 := cell_at b1_vec 1 0 in
  let! y00 := cell_at b2_vec 0 0 in
  let! y10 := cell_at b2_vec 1 0 in
  let bt_vec := [:: [:: pair_e x00 y00; pair_e x00 y10]; [:: pair_e x10 y00; pair_e x10 y10]] in
  let! b1 := com_from b1_vec in
  let! b2 := com_from b2_vec in
  let! bt := comT_from bt_vec in
  let! _ := claim (b1.1 == x00) in
  let! _ := claim (b1.2 == x10) in
  let! _ := claim (b2.1 == y00) in
  let! _ := claim (b2.2 == y10) in
  let! z := cell_at bt_vec 0 0 in
  let! _ := claim (t0 bt == z) in
  let! z := cell_at bt_vec 0 1 in
  let! _ := claim (t1 bt == z) in
  let! z := cell_at bt_vec 1 0 in
  let! _ := claim (t2 bt == z) in
  let! z := cell_at bt_vec 1 1 in
  claim (t3 bt == z).

(** data_structures.rs:1467-1484. *)
Definition test_batched_linear_maps (s : rst R) : res unit :=
  let (x0, s) := rand_g1 s in
  let (x1, s) := rand_g1 s in
  let vec_g1 := [:: x0; x1] in
  let (y0, s) := rand_g2 s in
  let (y1, s) := rand_g2 s in
  let vec_g2 := [:: y0; y1] in
  let vec_b1 := com1_batch_linear_map vec_g1 in
  let vec_b2 := com2_batch_linear_map vec_g2 in
  let! x := idx vec_b1 0%N in
  let! arg := idx vec_g1 0%N in
  let y := com1_linear_map arg in
  let! _ := claim (com_eq x y) in
  let! x := idx vec_b1 1%N in
  let! arg := idx vec_g1 1%N in
  let y := com1_linear_map arg in
  let! _ := claim (com_eq x y) in
  let! x := idx vec_b2 0%N in
  let! arg := idx vec_g2 0%N in
  let y := com2_linear_map arg in
  let! _ := claim (com_eq x y) in
  let! x := idx vec_b2 1%N in
  let! arg := idx vec_g2 1%N in
  let y := com2_linear_map arg in
  claim (com_eq x y).

(** data_structures.rs:1487-1511. *)
Definition test_batched_scalar_linear_maps (s : rst R) : res unit :=
  let (key, s) := generate_crs s in
  let (k0, s) := rand_fr s in
  let (k1, s) := rand_fr s in
  let vec_scalar := [:: k0; k1] in
  let! vec_b1 := com1_batch_scalar_linear_map vec_scalar key in
  let! vec_b2 := com2_batch_scalar_linear_map vec_scalar key in
  let! x := idx vec_b1 0%N in
  let! arg := idx vec_scalar 0%N in
  let! y := com1_scalar_linear_map arg key in
  let! _ := claim (com_eq x y) in
  let! x := idx vec_b1 1%N in
  let! arg := idx vec_scalar 1%N in
  let! y := com1_scalar_linear_map arg key in
  let! _ := claim (com_eq x y) in
  let! x := idx vec_b2 0%N in
  let! arg := idx vec_scalar 0%N in
  let! y := com2_scalar_linear_map arg key in
  let! _ := claim (com_eq x y) in
  let! x := idx vec_b2 1%N in
  let! arg := idx vec_scalar 1%N in
  let! y := com2_scalar_linear_map arg key in
  claim (com_eq x y).

(** data_structures.rs:1514-1531. *)
Definition test_PPE_linear_maps (s : rst R) : res unit :=
  let (a1, s) := rand_g1 s in
  let (a2, s) := rand_g2 s in
  let at_ := pair_e a1 a2 in
  let b1 := com1_linear_map a1 in
  let b2 := com2_linear_map a2 in
  let bt := linear_map_PPE at_ in
  let! _ := claim (b1.1 == 0) in
  let! _ := claim (b1.2 == a1) in
  let! _ := claim (b2.1 == 0) in
  let! _ := claim (b2.2 == a2) in
  let! _ := claim (t0 bt == 0) in
  let! _ := claim (t1 bt == 0) in
  let! _ := claim (t2 bt == 0) in
  claim (t3 bt == pair_e a1 a2).

(** data_structures.rs:1535-1554. *)
Definition test_MSMEG1_linear_maps (s : rst R) : res unit :=
  let (key, s) := generate_crs s in
  let (a1, s) := rand_g1 s in
  let (a2, s) := rand_fr s in
  let at_ := a2 *: a1 in
  let b1 := com1_linear_map a1 in
  let! b2 := com2_scalar_linear_map a2 key in
  let! bt := linear_map_MSMEG1 at_ key in
  let! _ := claim (b1.1 == 0) in
  let! _ := claim (b1.2 == a1) in
  let! v1 := idx (crs_v key) 1 in
  let! _ := claim (b2.1 == a2 *: v1.1) in
  let! _ := claim (b2.2 == a2 *: (v1.2 + g2_gen key)) in
  let! _ := claim (t0 bt == 0) in
  let! _ := claim (t1 bt == 0) in
  let! _ := claim (t2 bt == pair_e at_ v1.1) in
  claim (t3 bt == pair_e at_ (v1.2 + g2_gen key)).

(** data_structures.rs:1558-1577. *)
Definition test_MSMEG2_linear_maps (s : rst R) : res unit :=
  let (key, s) := generate_crs s in
  let (a1, s) := rand_fr s in
  let (a2, s) := rand_g2 s in
  let at_ := a1 *: a2 in
  let! b1 := com1_scalar_linear_map a1 key in
  let b2 := com2_linear_map a2 in
  let! bt := linear_map_MSMEG2 at_ key in
  let! u1 := idx (crs_u key) 1 in
  let! _ := claim (b1.1 == a1 *: u1.1) in
  let! _ := claim (b1.2 == a1 *: (u1.2 + g1_gen key)) in
  let! _ := claim (b2.1 == 0) in
  let! _ := claim (b2.2 == a2) in
  let! _ := claim (t0 bt == 0) in
  let! _ := claim (t1 bt == pair_e u1.1 at_) in
  let! _ := claim (t2 bt == 0) in
  claim (t3 bt == pair_e (u1.2 + g1_gen key) at_).

(** data_structures.rs:1581-1602. *)
Definition test_QuadEqu_linear_maps (s : rst R) : res unit :=
  let (key, s) := generate_crs s in
  let (a1, s) := rand_fr s in
  let (a2, s) := rand_fr s in
  let at_ := a1 * a2 in
  let! b1 := com1_scalar_linear_map a1 key in
  let! b2 := com2_scalar_linear_map a2 key in
  let! bt := linear_map_quad at_ key in
  let! u1 := idx (crs_u key) 1 in
  let W1 : Com1 E := (u1.1, u1.2 + g1_gen key) in
  let! v1 := idx (crs_v key) 1 in
  let W2 : Com2 E := (v1.1, v1.2 + g2_gen key) in
  let! _ := claim (b1.1 == a1 *: W1.1) in
  let! _ := claim (b1.2 == a1 *: W1.2) in
  let! _ := claim (b2.1 == a2 *: W2.1) in
  let! _ := claim (b2.2 == a2 *: W2.2) in
  let! _ := claim (comT_eq bt (comT_pairing (com_scalar_mul W1 a1) (com_scalar_mul W2 a2))) in
  claim (comT_eq bt (comT_pairing W1 (com_scalar_mul W2 at_))).

(** ** data_structures.rs, module matrix *)
(** data_structures.rs:1646-1659. *)
Definition test_col_vec_to_vec  : res unit :=
  let mat : matrix (Fr E) := [:: [:: 1%:R]; [:: 2%:R]; [:: 3%:R]] in
  let! vec := col_vec_to_vec mat in
  let exp : seq (Fr E) := [:: 1%:R; 2%:R; 3%:R] in
  claim (vec_eq (fun x y : Fr E => x == y) vec exp).

(** data_structures.rs:1662-1675. *)
Definition test_vec_to_col_vec  : res unit :=
  let vec : seq (Fr E) := [:: 1%:R; 2%:R; 3%:R] in
  let mat := vec_to_col_vec vec in
  let exp : matrix (Fr E) := [:: [:: 1%:R]; [:: 2%:R]; [:: 3%:R]] in
  claim (mat_eq mat exp).

(** data_structures.rs:1678-1699. *)
Definition test_field_matrix_left_mul_entry  : res unit :=
  let lhs : matrix (Fr E) :=
    [:: [:: 1; 2%:R; 3%:R]] in
  let rhs : matrix (Fr E) :=
    [:: [:: 4%:R];
     [:: 5%:R];
     [:: 6%:R]] in
  let exp : matrix (Fr E) :=
    [:: [:: 32%:R]] in
  let! res := fmat_left_mul (sch 0%N) rhs lhs false in
  let! _ := matrix_dimensions res 1 1 in
  claim (mat_eq exp res).

(** data_structures.rs:1702-1723. *)
Definition test_field_matrix_right_mul_entry  : res unit :=
  let lhs : matrix (Fr E) :=
    [:: [:: 1; 2%:R; 3%:R]] in
  let rhs : matrix (Fr E) :=
    [:: [:: 4%:R];
     [:: 5%:R];
     [:: 6%:R]] in
  let exp : matrix (Fr E) :=
    [:: [:: 32%:R]] in
  let! res := fmat_right_mul (sch 0%N) lhs rhs false in
  let! _ := matrix_dimensions res 1 1 in
  claim (mat_eq exp res).

(** data_structures.rs:1726-1778. *)
Definition test_field_matrix_left_mul  : res unit :=
  let lhs : matrix (Fr E) :=
    [:: [:: 1; 2%:R; 3%:R];
     [:: 4%:R; 5%:R; 6%:R]] in
  let rhs : matrix (Fr E) :=
    [:: [:: 7%:R; 8%:R; 9%:R; 10%:R];
     [:: 11%:R; 12%:R; 13%:R; 14%:R];
     [:: 15%:R; 16%:R; 17%:R; 18%:R]] in
  let exp : matrix (Fr E) :=
    [:: [:: 74%:R; 80%:R; 86%:R; 92%:R];
     [:: 173%:R; 188%:R; 203%:R; 218%:R]] in
  let! res := fmat_left_mul (sch 0%N) rhs lhs false in
  let! _ := matrix_dimensions res 2 4 in
  claim (mat_eq exp res).

(** data_structures.rs:1781-1835. *)
Definition test_field_matrix_right_mul  : res unit :=
  let lhs : matrix (Fr E) :=
    [:: [:: 1; 2%:R; 3%:R];
     [:: 4%:R; 5%:R; 6%:R]] in
  let rhs : matrix (Fr E) :=
    [:: [:: 7%:R; 8%:R; 9%:R; 10%:R];
     [:: 11%:R; 12%:R; 13%:R; 14%:R];
     [:: 15%:R; 16%:R; 17%:R; 18%:R]] in
  let exp : matrix (Fr E) :=
    [:: [:: 74%:R; 80%:R; 86%:R; 92%:R];
     [:: 173%:R; 188%:R; 203%:R; 218%:R]] in
  let! res := fmat_right_mul (sch 0%N) lhs rhs false in
  let! _ := assert_eq (size res) 2 in
  let! row := idx res 0 in
  let! _ := assert_eq (size row) 4 in
  let! row := idx res 1 in
  let! _ := assert_eq (size row) 4 in
  claim (mat_eq exp res).

(** data_structures.rs:1838-1892. *)
Definition test_field_matrix_left_mul_par  : res unit :=
  let lhs : matrix (Fr E) :=
    [:: [:: 1; 2%:R; 3%:R];
     [:: 4%:R; 5%:R; 6%:R]] in
  let rhs : matrix (Fr E) :=
    [:: [:: 7%:R; 8%:R; 9%:R; 10%:R];
     [:: 11%:R; 12%:R; 13%:R; 14%:R];
     [:: 15%:R; 16%:R; 17%:R; 18%:R]] in
  let exp : matrix (Fr E) :=
    [:: [:: 74%:R; 80%:R; 86%:R; 92%:R];
     [:: 173%:R; 188%:R; 203%:R; 218%:R]] in
  let! res := fmat_left_mul (sch 0%N) rhs lhs true in
  let! _ := assert_eq (size res) 2 in
  let! row := idx res 0 in
  let! _ := assert_eq (size row) 4 in
  let! row := idx res 1 in
  let! _ := assert_eq (size row) 4 in
  claim (mat_eq exp res).

(** data_structures.rs:1895-1947. *)
Definition test_field_matrix_right_mul_par  : res unit :=
  let lhs : matrix (Fr E) :=
    [:: [:: 1; 2%:R; 3%:R];
     [:: 4%:R; 5%:R; 6%:R]] in
  let rhs : matrix (Fr E) :=
    [:: [:: 7%:R; 8%:R; 9%:R; 10%:R];
     [:: 11%:R; 12%:R; 13%:R; 14%:R];
     [:: 15%:R; 16%:R; 17%:R; 18%:R]] in
  let exp : matrix (Fr E) :=
    [:: [:: 74%:R; 80%:R; 86%:R; 92%:R];
     [:: 173%:R; 188%:R; 203%:R; 218%:R]] in
  let! res := fmat_right_mul (sch 0%N) lhs rhs true in
  let! _ := matrix_dimensions res 2 4 in
  claim (mat_eq exp res).

(** data_structures.rs:1951-1978. *)
Definition test_B1_matrix_left_mul_entry (s : rst R) : res unit :=
  let (g1gen, s) := rand_g1 s in
  let lhs : matrix (Fr E) :=
    [:: [:: 1; 2%:R; 3%:R]] in
  let rhs : matrix (Com1 E) :=
    [:: [:: (0, (4%:R *: g1gen))];
     [:: (0, (5%:R *: g1gen))];
     [:: (0, (6%:R *: g1gen))]] in
  let exp : matrix (Com1 E) :=
    [:: [:: (0, (32%:R *: g1gen))]] in
  let! res := cmat_left_mul (sch 0%N) rhs lhs false in
  let! _ := matrix_dimensions res 1 1 in
  claim (vec_eq (vec_eq com_eq) exp res).

(** data_structures.rs:1982-2006. *)
Definition test_B1_matrix_right_mul_entry (s : rst R) : res unit :=
  let (g1gen, s) := rand_g1 s in
  let lhs : matrix (Com1 E) :=
    [:: [:: (0, g1gen); (0, (2%:R *: g1gen)); (0, (3%:R *: g1gen))]] in
  let rhs : matrix (Fr E) :=
    [:: [:: 4%:R];
     [:: 5%:R];
     [:: 6%:R]] in
  let exp : matrix (Com1 E) :=
    [:: [:: (0, (32%:R *: g1gen))]] in
  let! res := cmat_right_mul (sch 0%N) lhs rhs false in
  let! _ := matrix_dimensions res 1 1 in
  claim (vec_eq (vec_eq com_eq) exp res).

(** data_structures.rs:2009-2047. *)
Definition test_field_matrix_scalar_mul  : res unit :=
  let scalar : Fr E := 3%:R in
  let mat : matrix (Fr E) :=
    [:: [:: 1; 2%:R; 3%:R];
     [:: 4%:R; 5%:R; 6%:R];
     [:: 7%:R; 8%:R; 9%:R]] in
  let exp : matrix (Fr E) :=
    [:: [:: 3%:R; 6%:R; 9%:R];
     [:: 12%:R; 15%:R; 18%:R];
     [:: 21%:R; 24%:R; 27%:R]] in
  let! res := fmat_scalar_mul mat scalar in
  claim (mat_eq exp res).

(** data_structures.rs:2050-2076. *)
Definition test_B1_matrix_scalar_mul (s : rst R) : res unit :=
  let scalar : Fr E := 3%:R in
  let (g1gen, s) := rand_g1 s in
  let mat : matrix (Com1 E) := nseq 3 (nseq 3 (0, 1%:R *: g1gen)) in
  let exp : matrix (Com1 E) := nseq 3 (nseq 3 (0, 3%:R *: g1gen)) in
  let! res := cmat_scalar_mul mat scalar in
  claim (vec_eq (vec_eq com_eq) exp res).

(** data_structures.rs:2079-2105. *)
Definition test_B2_matrix_scalar_mul (s : rst R) : res unit :=
  let scalar : Fr E := 3%:R in
  let (g2gen, s) := rand_g2 s in
  let mat : matrix (Com2 E) := nseq 3 (nseq 3 (0, 1%:R *: g2gen)) in
  let exp : matrix (Com2 E) := nseq 3 (nseq 3 (0, 3%:R *: g2gen)) in
  let! res := cmat_scalar_mul mat scalar in
  claim (vec_eq (vec_eq com_eq) exp res).

(** data_structures.rs:2108-2127. *)
Definition test_B1_transpose_vec (s : rst R) : res unit :=
  let (g1gen, s) := rand_g1 s in
  let mat : matrix (Com1 E) :=
    [:: [:: (0, g1gen); (0, (2%:R *: g1gen)); (0, (3%:R *: g1gen))]] in
  let exp : matrix (Com1 E) :=
    [:: [:: (0, g1gen)];
     [:: (0, (2%:R *: g1gen))];
     [:: (0, (3%:R *: g1gen))]] in
  let! res := cmat_transpose mat in
  let! _ := matrix_dimensions res 3 1 in
  claim (vec_eq (vec_eq com_eq) exp res).

(** data_structures.rs:2130-2174. *)
Definition test_B1_matrix_transpose (s : rst R) : res unit :=
  let (g1gen, s) := rand_g1 s in
  let mat : matrix (Com1 E) :=
    [:: [:: (0, g1gen); (0, (2%:R *: g1gen)); (0, (3%:R *: g1gen))];
     [:: (0, (4%:R *: g1gen)); (0, (5%:R *: g1gen)); (0, (6%:R *: g1gen))];
     [:: (0, (7%:R *: g1gen)); (0, (8%:R *: g1gen)); (0, (9%:R *: g1gen))]] in
  let exp : matrix (Com1 E) :=
    [:: [:: (0, g1gen); (0, (4%:R *: g1gen)); (0, (7%:R *: g1gen))];
     [:: (0, (2%:R *: g1gen)); (0, (5%:R *: g1gen)); (0, (8%:R *: g1gen))];
     [:: (0, (3%:R *: g1gen)); (0, (6%:R *: g1gen)); (0, (9%:R *: g1gen))]] in
  let! res := cmat_transpose mat in
  let! _ := matrix_dimensions res 3 3 in
  claim (vec_eq (vec_eq com_eq) exp res).

(** data_structures.rs:2177-2196. *)
Definition test_B2_transpose_vec (s : rst R) : res unit :=
  let (g2gen, s) := rand_g2 s in
  let mat : matrix (Com2 E) :=
    [:: [:: (0, g2gen); (0, (2%:R *: g2gen)); (0, (3%:R *: g2gen))]] in
  let exp : matrix (Com2 E) :=
    [:: [:: (0, g2gen)];
     [:: (0, (2%:R *: g2gen))];
     [:: (0, (3%:R *: g2gen))]] in
  let! res := cmat_transpose mat in
  let! _ := matrix_dimensions res 3 1 in
  claim (vec_eq (vec_eq com_eq) exp res).

(** data_structures.rs:2199-2243. *)
Definition test_B2_matrix_transpose (s : rst R) : res unit :=
  let (g2gen, s) := rand_g2 s in
  let mat : matrix (Com2 E) :=
    [:: [:: (0, g2gen); (0, (2%:R *: g2gen)); (0, (3%:R *: g2gen))];
     [:: (0, (4%:R *: g2gen)); (0, (5%:R *: g2gen)); (0, (6%:R *: g2gen))];
     [:: (0, (7%:R *: g2gen)); (0, (8%:R *: g2gen)); (0, (9%:R *: g2gen))]] in
  let exp : matrix (Com2 E) :=
    [:: [:: (0, g2gen); (0, (4%:R *: g2gen)); (0, (7%:R *: g2gen))];
     [:: (0, (2%:R *: g2gen)); (0, (5%:R *: g2gen)); (0, (8%:R *: g2gen))];
     [:: (0, (3%:R *: g2gen)); (0, (6%:R *: g2gen)); (0, (9%:R *: g2gen))]] in
  let! res := cmat_transpose mat in
  let! _ := matrix_dimensions res 3 3 in
  claim (vec_eq (vec_eq com_eq) exp res).

(** data_structures.rs:2246-2266. *)
Definition test_field_transpose_vec  : res unit :=
  let mat : matrix (Fr E) :=
    [:: [:: 1; 2%:R; 3%:R]] in
  let exp : matrix (Fr E) :=
    [:: [:: 1];
     [:: 2%:R];
     [:: 3%:R]] in
  let! res := fmat_transpose mat in
  let! _ := matrix_dimensions res 3 1 in
  claim (mat_eq exp res).

(** data_structures.rs:2269-2304. *)
Definition test_field_matrix_transpose  : res unit :=
  let mat : matrix (Fr E) :=
    [:: [:: 1; 2%:R; 3%:R];
     [:: 4%:R; 5%:R; 6%:R];
     [:: 7%:R; 8%:R; 9%:R]] in
  let exp : matrix (Fr E) :=
    [:: [:: 1; 4%:R; 7%:R];
     [:: 2%:R; 5%:R; 8%:R];
     [:: 3%:R; 6%:R; 9%:R]] in
  let! res := fmat_transpose mat in
  let! _ := matrix_dimensions res 3 3 in
  claim (mat_eq exp res).

(** data_structures.rs:2307-2346. *)
Definition test_field_matrix_neg  : res unit :=
  let mat : matrix (Fr E) :=
    [:: [:: 1; 2%:R; 3%:R];
     [:: 4%:R; 5%:R; 6%:R];
     [:: 7%:R; 8%:R; 9%:R]] in
  let exp : matrix (Fr E) :=
    [:: [:: - 1; - 2%:R; - 3%:R];
     [:: - 4%:R; - 5%:R; - 6%:R];
     [:: - 7%:R; - 8%:R; - 9%:R]] in
  let! res := fmat_neg mat in
  let! _ := matrix_dimensions res 3 3 in
  claim (mat_eq exp res).

(** data_structures.rs:2349-2393. *)
Definition test_B1_matrix_neg (s : rst R) : res unit :=
  let (g1gen, s) := rand_g1 s in
  let mat : matrix (Com1 E) :=
    [:: [:: (0, g1gen); (0, (2%:R *: g1gen)); (0, (3%:R *: g1gen))];
     [:: (0, (4%:R *: g1gen)); (0, (5%:R *: g1gen)); (0, (6%:R *: g1gen))];
     [:: (0, (7%:R *: g1gen)); (0, (8%:R *: g1gen)); (0, (9%:R *: g1gen))]] in
  let exp : matrix (Com1 E) :=
    [:: [:: (0, - g1gen); (0, - (2%:R *: g1gen)); (0, - (3%:R *: g1gen))];
     [:: (0, - (4%:R *: g1gen)); (0, - (5%:R *: g1gen)); (0, - (6%:R *: g1gen))];
     [:: (0, - (7%:R *: g1gen)); (0, - (8%:R *: g1gen)); (0, - (9%:R *: g1gen))]] in
  let! res := cmat_neg mat in
  let! _ := matrix_dimensions res 3 3 in
  claim (vec_eq (vec_eq com_eq) exp res).

(** data_structures.rs:2396-2440. *)
Definition test_B2_matrix_neg (s : rst R) : res unit :=
  let (g2gen, s) := rand_g2 s in
  let mat : matrix (Com2 E) :=
    [:: [:: (0, g2gen); (0, (2%:R *: g2gen)); (0, (3%:R *: g2gen))];
     [:: (0, (4%:R *: g2gen)); (0, (5%:R *: g2gen)); (0, (6%:R *: g2gen))];
     [:: (0, (7%:R *: g2gen)); (0, (8%:R *: g2gen)); (0, (9%:R *: g2gen))]] in
  let exp : matrix (Com2 E) :=
    [:: [:: (0, - g2gen); (0, - (2%:R *: g2gen)); (0, - (3%:R *: g2gen))];
     [:: (0, - (4%:R *: g2gen)); (0, - (5%:R *: g2gen)); (0, - (6%:R *: g2gen))];
     [:: (0, - (7%:R *: g2gen)); (0, - (8%:R *: g2gen)); (0, - (9%:R *: g2gen))]] in
  let! res := cmat_neg mat in
  let! _ := matrix_dimensions res 3 3 in
  claim (vec_eq (vec_eq com_eq) exp res).

(** data_structures.rs:2442-2500. *)
Definition test_field_matrix_add  : res unit :=
  let lhs : matrix (Fr E) :=
    [:: [:: 1; 2%:R; 3%:R];
     [:: 4%:R; 5%:R; 6%:R];
     [:: 7%:R; 8%:R; 9%:R]] in
  let rhs : matrix (Fr E) :=
    [:: [:: 10%:R; 11%:R; 12%:R];
     [:: 13%:R; 14%:R; 15%:R];
     [:: 16%:R; 17%:R; 18%:R]] in
  let exp : matrix (Fr E) :=
    [:: [:: 11%:R; 13%:R; 15%:R];
     [:: 17%:R; 19%:R; 21%:R];
     [:: 23%:R; 25%:R; 27%:R]] in
  let! lr := fmat_add lhs rhs in
  let! rl := fmat_add rhs lhs in
  let! _ := matrix_dimensions lr 3 3 in
  let! _ := claim (mat_eq exp lr) in
  claim (mat_eq lr rl).

(** data_structures.rs:2503-2566. *)
Definition test_B1_matrix_add (s : rst R) : res unit :=
  let (g1gen, s) := rand_g1 s in
  let lhs : matrix (Com1 E) :=
    [:: [:: (0, g1gen); (0, (2%:R *: g1gen)); (0, (3%:R *: g1gen))];
     [:: (0, (4%:R *: g1gen)); (0, (5%:R *: g1gen)); (0, (6%:R *: g1gen))];
     [:: (0, (7%:R *: g1gen)); (0, (8%:R *: g1gen)); (0, (9%:R *: g1gen))]] in
  let rhs : matrix (Com1 E) :=
    [:: [:: (0, (10%:R *: g1gen)); (0, (11%:R *: g1gen)); (0, (12%:R *: g1gen))];
     [:: (0, (13%:R *: g1gen)); (0, (14%:R *: g1gen)); (0, (15%:R *: g1gen))];
     [:: (0, (16%:R *: g1gen)); (0, (17%:R *: g1gen)); (0, (18%:R *: g1gen))]] in
  let exp : matrix (Com1 E) :=
    [:: [:: (0, (11%:R *: g1gen)); (0, (13%:R *: g1gen)); (0, (15%:R *: g1gen))];
     [:: (0, (17%:R *: g1gen)); (0, (19%:R *: g1gen)); (0, (21%:R *: g1gen))];
     [:: (0, (23%:R *: g1gen)); (0, (25%:R *: g1gen)); (0, (27%:R *: g1gen))]] in
  let! lr := cmat_add lhs rhs in
  let! rl := cmat_add rhs lhs in
  let! _ := matrix_dimensions lr 3 3 in
  let! _ := claim (vec_eq (vec_eq com_eq) exp lr) in
  claim (vec_eq (vec_eq com_eq) lr rl).

(** data_structures.rs:2569-2632. *)
Definition test_B2_matrix_add (s : rst R) : res unit :=
  let (g2gen, s) := rand_g2 s in
  let lhs : matrix (Com2 E) :=
    [:: [:: (0, g2gen); (0, (2%:R *: g2gen)); (0, (3%:R *: g2gen))];
     [:: (0, (4%:R *: g2gen)); (0, (5%:R *: g2gen)); (0, (6%:R *: g2gen))];
     [:: (0, (7%:R *: g2gen)); (0, (8%:R *: g2gen)); (0, (9%:R *: g2gen))]] in
  let rhs : matrix (Com2 E) :=
    [:: [:: (0, (10%:R *: g2gen)); (0, (11%:R *: g2gen)); (0, (12%:R *: g2gen))];
     [:: (0, (13%:R *: g2gen)); (0, (14%:R *: g2gen)); (0, (15%:R *: g2gen))];
     [:: (0, (16%:R *: g2gen)); (0, (17%:R *: g2gen)); (0, (18%:R *: g2gen))]] in
  let exp : matrix (Com2 E) :=
    [:: [:: (0, (11%:R *: g2gen)); (0, (13%:R *: g2gen)); (0, (15%:R *: g2gen))];
     [:: (0, (17%:R *: g2gen)); (0, (19%:R *: g2gen)); (0, (21%:R *: g2gen))];
     [:: (0, (23%:R *: g2gen)); (0, (25%:R *: g2gen)); (0, (27%:R *: g2gen))]] in
  let! lr := cmat_add lhs rhs in
  let! rl := cmat_add rhs lhs in
  let! _ := matrix_dimensions lr 3 3 in
  let! _ := claim (vec_eq (vec_eq com_eq) exp lr) in
  claim (vec_eq (vec_eq com_eq) lr rl).

(** ** generator.rs *)
(** generator.rs:138-149. *)
Definition test_valid_generators (s : rst R) : res unit :=
  let (crs, s) := generate_crs s in
  let! _ := claim (gt_gen crs == pair_e (g1_gen crs) (g2_gen crs)) in
  let! _ := claim (g1_gen crs != 0) in
  let! _ := claim (g2_gen crs != 0) in
  claim (gt_gen crs != 0).

(** generator.rs:153-182. *)
Definition test_valid_binding_CRS (rng rng2 : rst R) : res unit :=
  let (crs, rng) := generate_crs rng in
  let (p1, rng2) := rand_g1 rng2 in
  let (p2, rng2) := rand_g2 rng2 in
  let (a1, rng2) := rand_fr rng2 in
  let (a2, rng2) := rand_fr rng2 in
  let (t1, rng2) := rand_fr rng2 in
  let (t2, rng2) := rand_fr rng2 in
  let q1 := a1 *: p1 in
  let q2 := a2 *: p2 in
  let (v1, v2) := prepare_real_binding_key p1 p2 q1 t1 q2 t2 in
  let! x := idx (crs_u crs) 0 in
  let! _ := claim (~~ com_eq x com_zero) in
  let! x := idx (crs_u crs) 1 in
  let! _ := claim (~~ com_eq x com_zero) in
  let! x := idx (crs_v crs) 0 in
  let! _ := claim (~~ com_eq x com_zero) in
  let! x := idx (crs_v crs) 1 in
  let! _ := claim (~~ com_eq x com_zero) in
  let! _ := claim (g1_gen crs != 0) in
  let! _ := claim (g2_gen crs != 0) in
  let! x := idx (crs_u crs) 1 in
  let! _ := claim (x.2 == v1) in
  let! x := idx (crs_v crs) 1 in
  claim (x.2 == v2).

(** generator.rs:186-207. *)
Definition test_CRS_serde (s : rst R) : res unit :=
  let (crs, s) := generate_crs s in
  let! _ := (let c_bytes := ser (crs_codec cs) Yes crs in
    let! d := unwrap (de (crs_codec cs) Yes VYes c_bytes) in
    let! _ := claim (vec_eq com_eq (crs_u crs) (crs_u d)) in
    let! _ := claim (vec_eq com_eq (crs_v crs) (crs_v d)) in
    let! _ := claim (g1_gen crs == g1_gen d) in
    let! _ := claim (g2_gen crs == g2_gen d) in
    claim (gt_gen crs == gt_gen d)) in
  (let u_bytes := ser (crs_codec cs) No crs in
    let! d := unwrap (de (crs_codec cs) No VYes u_bytes) in
    let! _ := claim (vec_eq com_eq (crs_u crs) (crs_u d)) in
    let! _ := claim (vec_eq com_eq (crs_v crs) (crs_v d)) in
    let! _ := claim (g1_gen crs == g1_gen d) in
    let! _ := claim (g2_gen crs == g2_gen d) in
    claim (gt_gen crs == gt_gen d)).

(** ** statement.rs *)
(** The body of the loop of statement.rs:211-233. *)
Definition equtype_serde (equ_type : EquType) : res unit :=
  let! _ := assert_eq (ssize equtype_codec Yes equ_type) 1 in
  let! _ := assert_eq (ssize equtype_codec No equ_type) 1 in
  let c_bytes := ser equtype_codec Yes equ_type in
  let! _ := assert_eq (size c_bytes) 1 in
  let! equ_type_de := unwrap (de equtype_codec Yes VYes c_bytes) in
  let! _ := claim (equtype_eq equ_type equ_type_de) in
  let u_bytes := ser equtype_codec No equ_type in
  let! _ := assert_eq (size u_bytes) 1 in
  let! equ_type_de := unwrap (de equtype_codec No VYes u_bytes) in
  claim (equtype_eq equ_type equ_type_de).

(** statement.rs:211-233. *)
Definition test_equtypes_serde  : res unit :=
  let! _ := mapM equtype_serde [:: PairingProduct; MultiScalarG1; MultiScalarG2; Quadratic] in
  Ok tt.

(** statement.rs:236-248. *)
Definition test_PPE_equation_type (s : rst R) : res unit :=
  let (crs, s) := generate_crs s in
  let (ka, s) := rand_fr s in
  let (kb, s) := rand_fr s in
  let (kg, s) := rand_fr s in
  let (t, s) := rand_gt s in
  let equ := mkPPE [:: ka *: g1_gen crs] [:: kb *: g2_gen crs] [:: [:: kg]] t in
  claim (equtype_eq (ppe_get_type equ) PairingProduct).

(** statement.rs:251-273. *)
Definition test_PPE_equation_serde (s : rst R) : res unit :=
  let (crs, s) := generate_crs s in
  let (ka, s) := rand_fr s in
  let (kb, s) := rand_fr s in
  let (kg, s) := rand_fr s in
  let (t, s) := rand_gt s in
  let equ := mkPPE [:: ka *: g1_gen crs] [:: kb *: g2_gen crs] [:: [:: kg]] t in
  let! _ := (let c_bytes := ser (ppe_codec cs) Yes equ in
    let! d := unwrap (de (ppe_codec cs) Yes VYes c_bytes) in
    claim (ppe_eq equ d)) in
  let u_bytes := ser (ppe_codec cs) No equ in
  let! d := unwrap (de (ppe_codec cs) No VYes u_bytes) in
  claim (ppe_eq equ d).

(** statement.rs:276-288. *)
Definition test_MSMEG1_equation_type (s : rst R) : res unit :=
  let (crs, s) := generate_crs s in
  let (ka, s) := rand_fr s in
  let (kb, s) := rand_fr s in
  let (kg, s) := rand_fr s in
  let (kt, s) := rand_fr s in
  let equ := mkMSMEG1 [:: ka *: g1_gen crs] [:: kb] [:: [:: kg]] (kt *: g1_gen crs) in
  claim (equtype_eq (ms1_get_type equ) MultiScalarG1).

(** statement.rs:291-313. *)
Definition test_MSMEG1_equation_serde (s : rst R) : res unit :=
  let (crs, s) := generate_crs s in
  let (ka, s) := rand_fr s in
  let (kb, s) := rand_fr s in
  let (kg, s) := rand_fr s in
  let (kt, s) := rand_fr s in
  let equ := mkMSMEG1 [:: ka *: g1_gen crs] [:: kb] [:: [:: kg]] (kt *: g1_gen crs) in
  let! _ := (let c_bytes := ser (ms1_codec cs) Yes equ in
    let! d := unwrap (de (ms1_codec cs) Yes VYes c_bytes) in
    claim (ms1_eq equ d)) in
  let u_bytes := ser (ms1_codec cs) No equ in
  let! d := unwrap (de (ms1_codec cs) No VYes u_bytes) in
  claim (ms1_eq equ d).

(** statement.rs:316-328. *)
Definition test_MSMEG2_equation_type (s : rst R) : res unit :=
  let (crs, s) := generate_crs s in
  let (ka, s) := rand_fr s in
  let (kb, s) := rand_fr s in
  let (kg, s) := rand_fr s in
  let (kt, s) := rand_fr s in
  let equ := mkMSMEG2 [:: ka] [:: kb *: g2_gen crs] [:: [:: kg]] (kt *: g2_gen crs) in
  claim (equtype_eq (ms2_get_type equ) MultiScalarG2).

(** statement.rs:331-353. *)
Definition test_MSMEG2_equation_serde (s : rst R) : res unit :=
  let (crs, s) := generate_crs s in
  let (ka, s) := rand_fr s in
  let (kb, s) := rand_fr s in
  let (kg, s) := rand_fr s in
  let (kt, s) := rand_fr s in
  let equ := mkMSMEG2 [:: ka] [:: kb *: g2_gen crs] [:: [:: kg]] (kt *: g2_gen crs) in
  let! _ := (let c_bytes := ser (ms2_codec cs) Yes equ in
    let! d := unwrap (de (ms2_codec cs) Yes VYes c_bytes) in
    claim (ms2_eq equ d)) in
  let u_bytes := ser (ms2_codec cs) No equ in
  let! d := unwrap (de (ms2_codec cs) No VYes u_bytes) in
  claim (ms2_eq equ d).

(** statement.rs:356-367. *)
Definition test_quadratic_equation_type (s : rst R) : res unit :=
  let (ka, s) := rand_fr s in
  let (kb, s) := rand_fr s in
  let (kg, s) := rand_fr s in
  let (kt, s) := rand_fr s in
  let equ : QuadEqu E := mkQuadEqu [:: ka] [:: kb] [:: [:: kg]] kt in
  claim (equtype_eq (quad_get_type equ) Quadratic).

(** statement.rs:370-391. *)
Definition test_quadratic_equation_serde (s : rst R) : res unit :=
  let (ka, s) := rand_fr s in
  let (kb, s) := rand_fr s in
  let (kg, s) := rand_fr s in
  let (kt, s) := rand_fr s in
  let equ : QuadEqu E := mkQuadEqu [:: ka] [:: kb] [:: [:: kg]] kt in
  let! _ := (let c_bytes := ser (quad_codec cs) Yes equ in
    let! d := unwrap (de (quad_codec cs) Yes VYes c_bytes) in
    claim (quad_eq equ d)) in
  let u_bytes := ser (quad_codec cs) No equ in
  let! d := unwrap (de (quad_codec cs) No VYes u_bytes) in
  claim (quad_eq equ d).

(** ** commit.rs *)
(** commit.rs:294-335. *)
Definition test_commit_serde (s : rst R) : res unit :=
  let (crs, s) := generate_crs s in
  let (r1, s) := rand_fr s in
  let (r2, s) := rand_fr s in
  let com1 : Commit1 E := mkCommit [:: (r1 *: g1_gen crs, r2 *: g1_gen crs)] [:: [:: r1; r2]] in
  let com2 : Commit2 E := mkCommit [:: (r1 *: g2_gen crs, r2 *: g2_gen crs)] [:: [:: r1; r2]] in
  let! _ := (
  let! _ := (let c_bytes := ser (commit1_codec cs) Yes com1 in
    let! d := unwrap (de (commit1_codec cs) Yes VYes c_bytes) in
    claim (commit_eq com1 d)) in
  let u_bytes := ser (commit1_codec cs) No com1 in
  let! d := unwrap (de (commit1_codec cs) No VYes u_bytes) in
  claim (commit_eq com1 d)) in
  let! _ := (let c_bytes := ser (commit2_codec cs) Yes com2 in
    let! d := unwrap (de (commit2_codec cs) Yes VYes c_bytes) in
    claim (commit_eq com2 d)) in
  let u_bytes := ser (commit2_codec cs) No com2 in
  let! d := unwrap (de (commit2_codec cs) No VYes u_bytes) in
  claim (commit_eq com2 d).

(** commit.rs:338-386. *)
Definition test_commit_append_com1 (s : rst R) : res unit :=
  let (crs, s) := generate_crs s in
  let (r11, s) := rand_fr s in
  let (r12, s) := rand_fr s in
  let (r21, s) := rand_fr s in
  let (r22, s) := rand_fr s in
  let com1 : Commit1 E := mkCommit [:: (r11 *: g1_gen crs, r12 *: g1_gen crs)] [:: [:: r11; r12]] in
  let com2 : Commit1 E := mkCommit [:: (r21 *: g1_gen crs, r22 *: g1_gen crs)] [:: [:: r21; r22]] in
  let com1_exp : Commit1 E := mkCommit [:: (r11 *: g1_gen crs, r12 *: g1_gen crs); (r21 *: g1_gen crs, r22 *: g1_gen crs)]
    [:: [:: r11; r12]; [:: r21; r22]] in
  let com2_exp : Commit1 E := mkCommit [::] [::] in
  let! (com1, com2) := commit_append com1 com2 in
  let! _ := claim (commit_eq com1 com1_exp) in
  claim (commit_eq com2 com2_exp).

(** commit.rs:389-437. *)
Definition test_commit_append_com2 (s : rst R) : res unit :=
  let (crs, s) := generate_crs s in
  let (r11, s) := rand_fr s in
  let (r12, s) := rand_fr s in
  let (r21, s) := rand_fr s in
  let (r22, s) := rand_fr s in
  let com1 : Commit2 E := mkCommit [:: (r11 *: g2_gen crs, r12 *: g2_gen crs)] [:: [:: r11; r12]] in
  let com2 : Commit2 E := mkCommit [:: (r21 *: g2_gen crs, r22 *: g2_gen crs)] [:: [:: r21; r22]] in
  let com1_exp : Commit2 E := mkCommit [:: (r11 *: g2_gen crs, r12 *: g2_gen crs); (r21 *: g2_gen crs, r22 *: g2_gen crs)]
    [:: [:: r11; r12]; [:: r21; r22]] in
  let com2_exp : Commit2 E := mkCommit [::] [::] in
  let! (com1, com2) := commit_append com1 com2 in
  let! _ := claim (commit_eq com1 com1_exp) in
  claim (commit_eq com2 com2_exp).

(** commit.rs:440-464. *)
Definition test_commit_G1_batching (rng rng2 : rst R) : res unit :=
  let (crs, rng) := generate_crs rng in
  let (rngsync1, rng) := rand_fr rng in
  let vars := [:: g1_gen crs; 2%:R *: g1_gen crs; 3%:R *: g1_gen crs] in
  let! x := idx vars 0 in
  let! (exp, rng) := commit_G1 x crs rng in
  let! x := idx vars 1 in
  let! (c, rng) := commit_G1 x crs rng in
  let! (exp, _) := commit_append exp c in
  let! x := idx vars 2 in
  let! (c, rng) := commit_G1 x crs rng in
  let! (exp, _) := commit_append exp c in
  let (_, rng2) := generate_crs rng2 in
  let (rngsync2, rng2) := rand_fr rng2 in
  let! _ := claim (rngsync1 == rngsync2) in
  let! (res, rng2) := batch_commit_G1 vars crs rng2 in
  claim (commit_eq exp res).

(** commit.rs:467-492. *)
Definition test_commit_G2_batching (rng rng2 : rst R) : res unit :=
  let (crs, rng) := generate_crs rng in
  let (rngsync1, rng) := rand_fr rng in
  let vars := [:: g2_gen crs; 2%:R *: g2_gen crs; 3%:R *: g2_gen crs] in
  let! x := idx vars 0 in
  let! (exp, rng) := commit_G2 x crs rng in
  let! x := idx vars 1 in
  let! (c, rng) := commit_G2 x crs rng in
  let! (exp, _) := commit_append exp c in
  let! x := idx vars 2 in
  let! (c, rng) := commit_G2 x crs rng in
  let! (exp, _) := commit_append exp c in
  let (_, rng2) := generate_crs rng2 in
  let (rngsync2, rng2) := rand_fr rng2 in
  let! _ := claim (rngsync1 == rngsync2) in
  let! (res, rng2) := batch_commit_G2 vars crs rng2 in
  claim (commit_eq exp res).

(** commit.rs:495-520. *)
Definition test_commit_scalar_B1_batching (rng rng2 : rst R) : res unit :=
  let (crs, rng) := generate_crs rng in
  let (rngsync1, rng) := rand_fr rng in
  let vars := [:: 1; 2%:R; 3%:R] in
  let! x := idx vars 0 in
  let! (exp, rng) := commit_scalar_to_B1 x crs rng in
  let! x := idx vars 1 in
  let! (c, rng) := commit_scalar_to_B1 x crs rng in
  let! (exp, _) := commit_append exp c in
  let! x := idx vars 2 in
  let! (c, rng) := commit_scalar_to_B1 x crs rng in
  let! (exp, _) := commit_append exp c in
  let (_, rng2) := generate_crs rng2 in
  let (rngsync2, rng2) := rand_fr rng2 in
  let! _ := claim (rngsync1 == rngsync2) in
  let! (res, rng2) := batch_commit_scalar_to_B1 vars crs rng2 in
  claim (commit_eq exp res).

(** commit.rs:523-548. *)
Definition test_commit_scalar_B2_batching (rng rng2 : rst R) : res unit :=
  let (crs, rng) := generate_crs rng in
  let (rngsync1, rng) := rand_fr rng in
  let vars := [:: 1; 2%:R; 3%:R] in
  let! x := idx vars 0 in
  let! (exp, rng) := commit_scalar_to_B2 x crs rng in
  let! x := idx vars 1 in
  let! (c, rng) := commit_scalar_to_B2 x crs rng in
  let! (exp, _) := commit_append exp c in
  let! x := idx vars 2 in
  let! (c, rng) := commit_scalar_to_B2 x crs rng in
  let! (exp, _) := commit_append exp c in
  let (_, rng2) := generate_crs rng2 in
  let (rngsync2, rng2) := rand_fr rng2 in
  let! _ := claim (rngsync1 == rngsync2) in
  let! (res, rng2) := batch_commit_scalar_to_B2 vars crs rng2 in
  claim (commit_eq exp res).

(** ** prove.rs *)
(** prove.rs:511-535. *)
Definition test_PPE_proof_type (s : rst R) : res unit :=
  let (crs, s) := generate_crs s in
  let (kx0, s) := rand_fr s in
  let (kx1, s) := rand_fr s in
  let xvars := [:: kx0 *: g1_gen crs; kx1 *: g1_gen crs] in
  let (ky0, s) := rand_fr s in
  let yvars := [:: ky0 *: g2_gen crs] in
  let! (xcoms, s) := batch_commit_G1 xvars crs s in
  let! (ycoms, s) := batch_commit_G2 yvars crs s in
  let (ka, s) := rand_fr s in
  let (kb0, s) := rand_fr s in
  let (kb1, s) := rand_fr s in
  let (t, s) := rand_gt s in
  let equ := mkPPE [:: ka *: g1_gen crs] [:: kb0 *: g2_gen crs; kb1 *: g2_gen crs] [:: [:: 1]; [:: 0]] t in
  let! (proof, s) := ppe_prove sch equ xvars yvars xcoms ycoms crs s in
  claim (equtype_eq (equ_type proof) PairingProduct).

(** prove.rs:538-589. *)
Definition test_PPE_cproof_is_commit_and_prove (s rng2 : rst R) : res unit :=
  let (crs, s) := generate_crs s in
  let (kx0, s) := rand_fr s in
  let (kx1, s) := rand_fr s in
  let xvars := [:: kx0 *: g1_gen crs; kx1 *: g1_gen crs] in
  let (ky0, s) := rand_fr s in
  let yvars := [:: ky0 *: g2_gen crs] in
  let (ka, s) := rand_fr s in
  let (kb0, s) := rand_fr s in
  let (kb1, s) := rand_fr s in
  let (t, s) := rand_gt s in
  let equ := mkPPE [:: ka *: g1_gen crs] [:: kb0 *: g2_gen crs; kb1 *: g2_gen crs] [:: [:: 1]; [:: 0]] t in
  let! (xcoms, s) := batch_commit_G1 xvars crs s in
  let! (ycoms, s) := batch_commit_G2 yvars crs s in
  let! (proof, s) := ppe_prove sch equ xvars yvars xcoms ycoms crs s in
  let cproof := mkCProof xcoms ycoms [:: proof] in
  let (_, rng2) := generate_crs rng2 in
  let rng2 := skip (size xvars) rng2 in
  let rng2 := skip (size yvars) rng2 in
  let rng2 := skip (size (ppe_a equ)) rng2 in
  let rng2 := skip (size (ppe_b equ)) rng2 in
  let (_, rng2) := rand_gt rng2 in
  let! (cproof2, rng2) := ppe_commit_and_prove sch' equ xvars yvars crs rng2 in
  claim (cproof_eq cproof cproof2).

(** prove.rs:592-625. *)
Definition test_PPE_cproof_serde (s : rst R) : res unit :=
  let (crs, s) := generate_crs s in
  let (kx0, s) := rand_fr s in
  let (kx1, s) := rand_fr s in
  let xvars := [:: kx0 *: g1_gen crs; kx1 *: g1_gen crs] in
  let (ky0, s) := rand_fr s in
  let yvars := [:: ky0 *: g2_gen crs] in
  let! (xcoms, s) := batch_commit_G1 xvars crs s in
  let! (ycoms, s) := batch_commit_G2 yvars crs s in
  let (ka, s) := rand_fr s in
  let (kb0, s) := rand_fr s in
  let (kb1, s) := rand_fr s in
  let (t, s) := rand_gt s in
  let equ := mkPPE [:: ka *: g1_gen crs] [:: kb0 *: g2_gen crs; kb1 *: g2_gen crs] [:: [:: 1]; [:: 0]] t in
  let! (proof, s) := ppe_prove sch equ xvars yvars xcoms ycoms crs s in
  let! _ := (let c_bytes := ser (equproof_codec cs) Yes proof in
    let! d := unwrap (de (equproof_codec cs) Yes VYes c_bytes) in
    claim (equproof_eq proof d)) in
  let u_bytes := ser (equproof_codec cs) No proof in
  let! d := unwrap (de (equproof_codec cs) No VYes u_bytes) in
  claim (equproof_eq proof d).

(** prove.rs:628-650. *)
Definition test_MSMEG1_proof_type (s : rst R) : res unit :=
  let (crs, s) := generate_crs s in
  let (kx0, s) := rand_fr s in
  let (kx1, s) := rand_fr s in
  let xvars := [:: kx0 *: g1_gen crs; kx1 *: g1_gen crs] in
  let (ky0, s) := rand_fr s in
  let yvars := [:: ky0] in
  let! (xcoms, s) := batch_commit_G1 xvars crs s in
  let! (ycoms, s) := batch_commit_scalar_to_B2 yvars crs s in
  let (ka, s) := rand_fr s in
  let (kb0, s) := rand_fr s in
  let (kb1, s) := rand_fr s in
  let (kt, s) := rand_fr s in
  let equ := mkMSMEG1 [:: ka *: g1_gen crs] [:: kb0; kb1] [:: [:: 1]; [:: 0]] (kt *: g1_gen crs) in
  let! (proof, s) := ms1_prove sch equ xvars yvars xcoms ycoms crs s in
  claim (equtype_eq (equ_type proof) MultiScalarG1).

(** prove.rs:653-702. *)
Definition test_MSMEG1_cproof_is_commit_and_prove (s rng2 : rst R) : res unit :=
  let (crs, s) := generate_crs s in
  let (kx0, s) := rand_fr s in
  let (kx1, s) := rand_fr s in
  let xvars := [:: kx0 *: g1_gen crs; kx1 *: g1_gen crs] in
  let (ky0, s) := rand_fr s in
  let yvars := [:: ky0] in
  let (ka, s) := rand_fr s in
  let (kb0, s) := rand_fr s in
  let (kb1, s) := rand_fr s in
  let (kt, s) := rand_fr s in
  let equ := mkMSMEG1 [:: ka *: g1_gen crs] [:: kb0; kb1] [:: [:: 1]; [:: 0]] (kt *: g1_gen crs) in
  let! (xcoms, s) := batch_commit_G1 xvars crs s in
  let! (ycoms, s) := batch_commit_scalar_to_B2 yvars crs s in
  let! (proof, s) := ms1_prove sch equ xvars yvars xcoms ycoms crs s in
  let cproof := mkCProof xcoms ycoms [:: proof] in
  let (_, rng2) := generate_crs rng2 in
  let rng2 := skip (size xvars) rng2 in
  let rng2 := skip (size yvars) rng2 in
  let rng2 := skip (size (ms1_a equ)) rng2 in
  let rng2 := skip (size (ms1_b equ)) rng2 in
  let (_, rng2) := rand_fr rng2 in
  let! (cproof2, rng2) := ms1_commit_and_prove sch' equ xvars yvars crs rng2 in
  claim (cproof_eq cproof cproof2).

(** prove.rs:705-736. *)
Definition test_MSGMEG1_cproof_serde (s : rst R) : res unit :=
  let (crs, s) := generate_crs s in
  let (kx0, s) := rand_fr s in
  let (kx1, s) := rand_fr s in
  let xvars := [:: kx0 *: g1_gen crs; kx1 *: g1_gen crs] in
  let (ky0, s) := rand_fr s in
  let yvars := [:: ky0] in
  let! (xcoms, s) := batch_commit_G1 xvars crs s in
  let! (ycoms, s) := batch_commit_scalar_to_B2 yvars crs s in
  let (ka, s) := rand_fr s in
  let (kb0, s) := rand_fr s in
  let (kb1, s) := rand_fr s in
  let (kt, s) := rand_fr s in
  let equ := mkMSMEG1 [:: ka *: g1_gen crs] [:: kb0; kb1] [:: [:: 1]; [:: 0]] (kt *: g1_gen crs) in
  let! (proof, s) := ms1_prove sch equ xvars yvars xcoms ycoms crs s in
  let! _ := (let c_bytes := ser (equproof_codec cs) Yes proof in
    let! d := unwrap (de (equproof_codec cs) Yes VYes c_bytes) in
    claim (equproof_eq proof d)) in
  let u_bytes := ser (equproof_codec cs) No proof in
  let! d := unwrap (de (equproof_codec cs) No VYes u_bytes) in
  claim (equproof_eq proof d).

(** prove.rs:739-761. *)
Definition test_MSMEG2_proof_type (s : rst R) : res unit :=
  let (crs, s) := generate_crs s in
  let (kx0, s) := rand_fr s in
  let (kx1, s) := rand_fr s in
  let xvars := [:: kx0; kx1] in
  let (ky0, s) := rand_fr s in
  let yvars := [:: ky0 *: g2_gen crs] in
  let! (xcoms, s) := batch_commit_scalar_to_B1 xvars crs s in
  let! (ycoms, s) := batch_commit_G2 yvars crs s in
  let (ka, s) := rand_fr s in
  let (kb0, s) := rand_fr s in
  let (kb1, s) := rand_fr s in
  let (kt, s) := rand_fr s in
  let equ := mkMSMEG2 [:: ka] [:: kb0 *: g2_gen crs; kb1 *: g2_gen crs] [:: [:: 1]; [:: 0]] (kt *: g2_gen crs) in
  let! (proof, s) := ms2_prove sch equ xvars yvars xcoms ycoms crs s in
  claim (equtype_eq (equ_type proof) MultiScalarG2).

(** prove.rs:764-813. *)
Definition test_MSMEG2_cproof_is_commit_and_prove (s rng2 : rst R) : res unit :=
  let (crs, s) := generate_crs s in
  let (kx0, s) := rand_fr s in
  let (kx1, s) := rand_fr s in
  let xvars := [:: kx0; kx1] in
  let (ky0, s) := rand_fr s in
  let yvars := [:: ky0 *: g2_gen crs] in
  let (ka, s) := rand_fr s in
  let (kb0, s) := rand_fr s in
  let (kb1, s) := rand_fr s in
  let (kt, s) := rand_fr s in
  let equ := mkMSMEG2 [:: ka] [:: kb0 *: g2_gen crs; kb1 *: g2_gen crs] [:: [:: 1]; [:: 0]] (kt *: g2_gen crs) in
  let! (xcoms, s) := batch_commit_scalar_to_B1 xvars crs s in
  let! (ycoms, s) := batch_commit_G2 yvars crs s in
  let! (proof, s) := ms2_prove sch equ xvars yvars xcoms ycoms crs s in
  let cproof := mkCProof xcoms ycoms [:: proof] in
  let (_, rng2) := generate_crs rng2 in
  let rng2 := skip (size xvars) rng2 in
  let rng2 := skip (size yvars) rng2 in
  let rng2 := skip (size (ms2_a equ)) rng2 in
  let rng2 := skip (size (ms2_b equ)) rng2 in
  let (_, rng2) := rand_fr rng2 in
  let! (cproof2, rng2) := ms2_commit_and_prove sch' equ xvars yvars crs rng2 in
  claim (cproof_eq cproof cproof2).

(** prove.rs:816-847. *)
Definition test_MSMEG2_proof_serde (s : rst R) : res unit :=
  let (crs, s) := generate_crs s in
  let (kx0, s) := rand_fr s in
  let (kx1, s) := rand_fr s in
  let xvars := [:: kx0; kx1] in
  let (ky0, s) := rand_fr s in
  let yvars := [:: ky0 *: g2_gen crs] in
  let! (xcoms, s) := batch_commit_scalar_to_B1 xvars crs s in
  let! (ycoms, s) := batch_commit_G2 yvars crs s in
  let (ka, s) := rand_fr s in
  let (kb0, s) := rand_fr s in
  let (kb1, s) := rand_fr s in
  let (kt, s) := rand_fr s in
  let equ := mkMSMEG2 [:: ka] [:: kb0 *: g2_gen crs; kb1 *: g2_gen crs] [:: [:: 1]; [:: 0]] (kt *: g2_gen crs) in
  let! (proof, s) := ms2_prove sch equ xvars yvars xcoms ycoms crs s in
  let! _ := (let c_bytes := ser (equproof_codec cs) Yes proof in
    let! d := unwrap (de (equproof_codec cs) Yes VYes c_bytes) in
    claim (equproof_eq proof d)) in
  let u_bytes := ser (equproof_codec cs) No proof in
  let! d := unwrap (de (equproof_codec cs) No VYes u_bytes) in
  claim (equproof_eq proof d).

(** prove.rs:850-877. *)
Definition test_quadratic_proof_type (s : rst R) : res unit :=
  let (crs, s) := generate_crs s in
  let (kx0, s) := rand_fr s in
  let (kx1, s) := rand_fr s in
  let xvars := [:: kx0; kx1] in
  let (ky0, s) := rand_fr s in
  let yvars := [:: ky0] in
  let (ka, s) := rand_fr s in
  let (kb0, s) := rand_fr s in
  let (kb1, s) := rand_fr s in
  let (kt, s) := rand_fr s in
  let equ := mkQuadEqu [:: ka] [:: kb0; kb1] [:: [:: 1]; [:: 0]] kt in
  let! (xcoms, s) := batch_commit_scalar_to_B1 xvars crs s in
  let! (ycoms, s) := batch_commit_scalar_to_B2 yvars crs s in
  let! (proof, s) := quad_prove sch equ xvars yvars xcoms ycoms crs s in
  claim (equtype_eq (equ_type proof) Quadratic).

(** prove.rs:880-932. *)
Definition test_quadratic_cproof_is_commit_and_prove (s rng2 : rst R) : res unit :=
  let (crs, s) := generate_crs s in
  let (kx0, s) := rand_fr s in
  let (kx1, s) := rand_fr s in
  let xvars := [:: kx0; kx1] in
  let (ky0, s) := rand_fr s in
  let yvars := [:: ky0] in
  let (ka, s) := rand_fr s in
  let (kb0, s) := rand_fr s in
  let (kb1, s) := rand_fr s in
  let (kt, s) := rand_fr s in
  let equ := mkQuadEqu [:: ka] [:: kb0; kb1] [:: [:: 1]; [:: 0]] kt in
  let! (xcoms, s) := batch_commit_scalar_to_B1 xvars crs s in
  let! (ycoms, s) := batch_commit_scalar_to_B2 yvars crs s in
  let! (proof, s) := quad_prove sch equ xvars yvars xcoms ycoms crs s in
  let cproof := mkCProof xcoms ycoms [:: proof] in
  let (_, rng2) := generate_crs rng2 in
  let rng2 := skip (size xvars) rng2 in
  let rng2 := skip (size yvars) rng2 in
  let rng2 := skip (size (quad_a equ)) rng2 in
  let rng2 := skip (size (quad_b equ)) rng2 in
  let (_, rng2) := rand_fr rng2 in
  let! (cproof2, rng2) := quad_commit_and_prove sch' equ xvars yvars crs rng2 in
  claim (cproof_eq cproof cproof2).

(** prove.rs:935-971. *)
Definition test_quadratic_proof_serde (s : rst R) : res unit :=
  let (crs, s) := generate_crs s in
  let (kx0, s) := rand_fr s in
  let (kx1, s) := rand_fr s in
  let xvars := [:: kx0; kx1] in
  let (ky0, s) := rand_fr s in
  let yvars := [:: ky0] in
  let (ka, s) := rand_fr s in
  let (kb0, s) := rand_fr s in
  let (kb1, s) := rand_fr s in
  let (kt, s) := rand_fr s in
  let equ := mkQuadEqu [:: ka] [:: kb0; kb1] [:: [:: 1]; [:: 0]] kt in
  let! (xcoms, s) := batch_commit_scalar_to_B1 xvars crs s in
  let! (ycoms, s) := batch_commit_scalar_to_B2 yvars crs s in
  let! (proof, s) := quad_prove sch equ xvars yvars xcoms ycoms crs s in
  let! _ := (let c_bytes := ser (equproof_codec cs) Yes proof in
    let! d := unwrap (de (equproof_codec cs) Yes VYes c_bytes) in
    claim (equproof_eq proof d)) in
  let u_bytes := ser (equproof_codec cs) No proof in
  let! d := unwrap (de (equproof_codec cs) No VYes u_bytes) in
  claim (equproof_eq proof d).

(** ** tests/commit.rs *)
(** tests/commit.rs:22-34. *)
Definition PPE_linear_bilinear_map_commutativity (s : rst R) : res unit :=
  let (a1, s) := rand_g1 s in
  let (a2, s) := rand_g2 s in
  let at_ := pair_e a1 a2 in
  let b1 := com1_linear_map a1 in
  let b2 := com2_linear_map a2 in
  let bt_lin_bilin := comT_pairing b1 b2 in
  let bt_bilin_lin := linear_map_PPE at_ in
  claim (comT_eq bt_lin_bilin bt_bilin_lin).

(** tests/commit.rs:37-51. *)
Definition MSMEG1_linear_bilinear_map_commutativity (s : rst R) : res unit :=
  let (key, s) := generate_crs s in
  let (a1, s) := rand_g1 s in
  let (a2, s) := rand_fr s in
  let at_ := a2 *: a1 in
  let b1 := com1_linear_map a1 in
  let! b2 := com2_scalar_linear_map a2 key in
  let bt_lin_bilin := comT_pairing b1 b2 in
  let! bt_bilin_lin := linear_map_MSMEG1 at_ key in
  claim (comT_eq bt_lin_bilin bt_bilin_lin).

(** tests/commit.rs:54-68. *)
Definition MSMEG2_linear_bilinear_map_commutativity (s : rst R) : res unit :=
  let (key, s) := generate_crs s in
  let (a1, s) := rand_fr s in
  let (a2, s) := rand_g2 s in
  let at_ := a1 *: a2 in
  let! b1 := com1_scalar_linear_map a1 key in
  let b2 := com2_linear_map a2 in
  let bt_lin_bilin := comT_pairing b1 b2 in
  let! bt_bilin_lin := linear_map_MSMEG2 at_ key in
  claim (comT_eq bt_lin_bilin bt_bilin_lin).

(** tests/commit.rs:71-85. *)
Definition QuadEqu_linear_bilinear_map_commutativity (s : rst R) : res unit :=
  let (key, s) := generate_crs s in
  let (a1, s) := rand_fr s in
  let (a2, s) := rand_fr s in
  let at_ := a1 * a2 in
  let! b1 := com1_scalar_linear_map a1 key in
  let! b2 := com2_scalar_linear_map a2 key in
  let bt_lin_bilin := comT_pairing b1 b2 in
  let! bt_bilin_lin := linear_map_quad at_ key in
  claim (comT_eq bt_lin_bilin bt_bilin_lin).

(** ** tests/prover.rs *)
(** tests/prover.rs:25-62. *)
Definition pairing_product_equation_verifies (s : rst R) : res unit :=
  let (crs, s) := generate_crs s in
  let xvars := [:: 2%:R *: g1_gen crs; 3%:R *: g1_gen crs] in
  let yvars := [:: 4%:R *: g2_gen crs] in
  let (c1, s) := rand_fr s in
  let a_consts := [:: c1 *: g1_gen crs] in
  let (c2, s) := rand_fr s in
  let b_consts := [:: 0; c2 *: g2_gen crs] in
  let gamma : matrix (Fr E) := [:: [:: 5%:R]; [:: 0]] in
  let! x0 := idx xvars 0 in
  let! x1 := idx xvars 1 in
  let! y0 := idx yvars 0 in
  let! a0 := idx a_consts 0 in
  let! b1 := idx b_consts 1 in
  let! g00 := cell_at gamma 0 0 in
  let target := pair_e x1 b1 + pair_e a0 y0 + pair_e x0 (g00 *: y0) in
  let equ := mkPPE a_consts b_consts gamma target in
  let! (proof, s) := ppe_commit_and_prove sch equ xvars yvars crs s in
  let! b := ppe_verify sch' equ proof crs in
  claim b.

(** tests/prover.rs:65-100. *)
Definition multi_scalar_mult_equation_G1_verifies (s : rst R) : res unit :=
  let (crs, s) := generate_crs s in
  let xvars := [:: 2%:R *: g1_gen crs; 3%:R *: g1_gen crs] in
  let yvars := [:: 4%:R] in
  let (c1, s) := rand_fr s in
  let a_consts := [:: c1 *: g1_gen crs] in
  let (c2, s) := rand_fr s in
  let b_consts := [:: 0; c2] in
  let gamma : matrix (Fr E) := [:: [:: 5%:R]; [:: 0]] in
  let! x0 := idx xvars 0 in
  let! x1 := idx xvars 1 in
  let! y0 := idx yvars 0 in
  let! a0 := idx a_consts 0 in
  let! b1 := idx b_consts 1 in
  let! g00 := cell_at gamma 0 0 in
  let target := b1 *: x1 + y0 *: a0 + (y0 * g00) *: x0 in
  let equ := mkMSMEG1 a_consts b_consts gamma target in
  let! (proof, s) := ms1_commit_and_prove sch equ xvars yvars crs s in
  let! b := ms1_verify sch' equ proof crs in
  claim b.

(** tests/prover.rs:103-138. *)
Definition multi_scalar_mult_equation_G2_verifies (s : rst R) : res unit :=
  let (crs, s) := generate_crs s in
  let xvars := [:: 2%:R; 3%:R] in
  let yvars := [:: 4%:R *: g2_gen crs] in
  let (c1, s) := rand_fr s in
  let a_consts := [:: c1] in
  let (c2, s) := rand_fr s in
  let b_consts := [:: 0; c2 *: g2_gen crs] in
  let gamma : matrix (Fr E) := [:: [:: 5%:R]; [:: 0]] in
  let! x0 := idx xvars 0 in
  let! x1 := idx xvars 1 in
  let! y0 := idx yvars 0 in
  let! a0 := idx a_consts 0 in
  let! b1 := idx b_consts 1 in
  let! g00 := cell_at gamma 0 0 in
  let target := x1 *: b1 + a0 *: y0 + (x0 * g00) *: y0 in
  let equ := mkMSMEG2 a_consts b_consts gamma target in
  let! (proof, s) := ms2_commit_and_prove sch equ xvars yvars crs s in
  let! b := ms2_verify sch' equ proof crs in
  claim b.

(** tests/prover.rs:141-172. *)
Definition quadratic_equation_verifies (s : rst R) : res unit :=
  let (crs, s) := generate_crs s in
  let xvars := [:: 2%:R; 3%:R] in
  let yvars := [:: 4%:R] in
  let (c1, s) := rand_fr s in
  let a_consts := [:: c1] in
  let (c2, s) := rand_fr s in
  let b_consts := [:: 0; c2] in
  let gamma : matrix (Fr E) := [:: [:: 5%:R]; [:: 0]] in
  let! x0 := idx xvars 0 in
  let! x1 := idx xvars 1 in
  let! y0 := idx yvars 0 in
  let! a0 := idx a_consts 0 in
  let! b1 := idx b_consts 1 in
  let! g00 := cell_at gamma 0 0 in
  let target := b1 * x1 + y0 * a0 + y0 * x0 * g00 in
  let equ := mkQuadEqu a_consts b_consts gamma target in
  let! (proof, s) := quad_commit_and_prove sch equ xvars yvars crs s in
  let! b := quad_verify sch' equ proof crs in
  claim b.
End Suite.
