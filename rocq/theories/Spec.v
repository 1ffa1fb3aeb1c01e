(** Specifications: the vocabulary of the property statements. Nothing here
    uses the functions of the model, only its data types. *)
From mathcomp Require Import all_ssreflect all_algebra.
From Verif Require Import Base Group DataStructures Commit Statement.
Set Implicit Arguments.
Unset Strict Implicit.
Unset Printing Implicit Defensive.
Import GRing.Theory.
Local Open Scope ring_scope.

(** [M] has [m] rows of [n] entries. *)
Definition dims {T} (m n : nat) (M : matrix T) : Prop :=
  size M = m /\ forall i, (i < m)%N -> size (nth [::] M i) = n.

(** The elements of the two commitment keys. *)
Notation u1 crs := (nth 0 (crs_u crs) 0).
Notation u2 crs := (nth 0 (crs_u crs) 1).
Notation v1 crs := (nth 0 (crs_v crs) 0).
Notation v2 crs := (nth 0 (crs_v crs) 1).

Section Spec.
Context {E : pairing}.

(** Entry [i], [j] of a matrix of scalars. *)
Definition entry (G : matrix (Fr E)) (i j : nat) : Fr E := nth 0 (nth [::] G i) j.

(** ** Equations and satisfying assignments *)

(** [prod_j e(a_j, y_j) * prod_i e(x_i, b_i) * prod_ij e(x_i, y_j)^gamma_ij = t],
    written additively. *)
Definition ppe_holds (q : PPE E) (X : seq (G1 E)) (Y : seq (G2 E)) : Prop :=
  \sum_(j < size Y) pair_e (nth 0 (ppe_a q) j) (nth 0 Y j)
  + \sum_(i < size X) pair_e (nth 0 X i) (nth 0 (ppe_b q) i)
  + \sum_(i < size X) \sum_(j < size Y) entry (ppe_gamma q) i j *: pair_e (nth 0 X i) (nth 0 Y j)
  = ppe_target q.

(** Multi-scalar multiplication in G1: variables [x_i] in G1 and [y_j] in Fr. *)
Definition ms1_holds (q : MSMEG1 E) (X : seq (G1 E)) (Y : seq (Fr E)) : Prop :=
  \sum_(j < size Y) nth 0 Y j *: nth 0 (ms1_a q) j
  + \sum_(i < size X) nth 0 (ms1_b q) i *: nth 0 X i
  + \sum_(i < size X) \sum_(j < size Y) (entry (ms1_gamma q) i j * nth 0 Y j) *: nth 0 X i
  = ms1_target q.

(** Multi-scalar multiplication in G2: variables [x_i] in Fr and [y_j] in G2. *)
Definition ms2_holds (q : MSMEG2 E) (X : seq (Fr E)) (Y : seq (G2 E)) : Prop :=
  \sum_(j < size Y) nth 0 (ms2_a q) j *: nth 0 Y j
  + \sum_(i < size X) nth 0 X i *: nth 0 (ms2_b q) i
  + \sum_(i < size X) \sum_(j < size Y) (entry (ms2_gamma q) i j * nth 0 X i) *: nth 0 Y j
  = ms2_target q.

(** Quadratic equations in Fr. *)
Definition quad_holds (q : QuadEqu E) (X Y : seq (Fr E)) : Prop :=
  \sum_(j < size Y) nth 0 (quad_a q) j * nth 0 Y j
  + \sum_(i < size X) nth 0 X i * nth 0 (quad_b q) i
  + \sum_(i < size X) \sum_(j < size Y) entry (quad_gamma q) i j * nth 0 X i * nth 0 Y j
  = quad_target q.

(** Equations for [m] x-variables and [n] y-variables. *)
Definition ppe_wf (q : PPE E) (m n : nat) : Prop :=
  [/\ size (ppe_a q) = n, size (ppe_b q) = m & dims m n (ppe_gamma q)].
Definition ms1_wf (q : MSMEG1 E) (m n : nat) : Prop :=
  [/\ size (ms1_a q) = n, size (ms1_b q) = m & dims m n (ms1_gamma q)].
Definition ms2_wf (q : MSMEG2 E) (m n : nat) : Prop :=
  [/\ size (ms2_a q) = n, size (ms2_b q) = m & dims m n (ms2_gamma q)].
Definition quad_wf (q : QuadEqu E) (m n : nat) : Prop :=
  [/\ size (quad_a q) = n, size (quad_b q) = m & dims m n (quad_gamma q)].

(** ** Reference strings *)

(** Both commitment keys have two elements. *)
Definition two_keys (crs : CRS E) : Prop := size (crs_u crs) = 2%N /\ size (crs_v crs) = 2%N.

(** The binding key: [u2 = t1 u1], [v2 = t2 v1]. *)
Definition binding_crs_with (crs : CRS E) (a1 a2 t1 t2 : Fr E) : Prop :=
  let P1 := g1_gen crs in let P2 := g2_gen crs in
  [/\ crs_u crs = [:: (P1, a1 *: P1); (t1 *: P1, t1 *: (a1 *: P1))],
      crs_v crs = [:: (P2, a2 *: P2); (t2 *: P2, t2 *: (a2 *: P2))]
    & gt_gen crs = pair_e P1 P2].
Definition binding_crs (crs : CRS E) : Prop :=
  exists a1 a2 t1 t2, binding_crs_with crs a1 a2 t1 t2.

(** The hiding key: [u2 = t1 u1 - (O, P1)], [v2 = t2 v1 - (O, P2)]. *)
Definition hiding_crs_with (crs : CRS E) (a1 a2 t1 t2 : Fr E) : Prop :=
  let P1 := g1_gen crs in let P2 := g2_gen crs in
  [/\ crs_u crs = [:: (P1, a1 *: P1); (t1 *: P1, t1 *: (a1 *: P1) - P1)],
      crs_v crs = [:: (P2, a2 *: P2); (t2 *: P2, t2 *: (a2 *: P2) - P2)]
    & gt_gen crs = pair_e P1 P2].
Definition hiding_crs (crs : CRS E) : Prop :=
  exists a1 a2 t1 t2, hiding_crs_with crs a1 a2 t1 t2.

(** The two base points are not the identity. *)
Definition proper_crs (crs : CRS E) : Prop := g1_gen crs != 0 /\ g2_gen crs != 0.

(** ** Commitments *)
(** [c] is the commitment to [x] with the given randomness. *)
Definition com_G1 (crs : CRS E) (x : G1 E) (r : seq (Fr E)) (c : Com1 E) : Prop :=
  exists r1 r2, r = [:: r1; r2] /\ c = (0, x) + r1 *: u1 crs + r2 *: u2 crs.
Definition com_G2 (crs : CRS E) (y : G2 E) (r : seq (Fr E)) (c : Com2 E) : Prop :=
  exists r1 r2, r = [:: r1; r2] /\ c = (0, y) + r1 *: v1 crs + r2 *: v2 crs.
Definition com_B1 (crs : CRS E) (x : Fr E) (r : seq (Fr E)) (c : Com1 E) : Prop :=
  exists r1, r = [:: r1] /\ c = x *: (u2 crs + (0, g1_gen crs)) + r1 *: u1 crs.
Definition com_B2 (crs : CRS E) (y : Fr E) (r : seq (Fr E)) (c : Com2 E) : Prop :=
  exists r1, r = [:: r1] /\ c = y *: (v2 crs + (0, g2_gen crs)) + r1 *: v1 crs.

(** The commitments in [c] are commitments to [X], element by element. *)
Definition commits {K C V : Type} (com : K -> V -> seq (Fr E) -> C -> Prop) (dc : C) (dv : V)
  (crs : K) (cs : seq C) (X : seq V) : Prop :=
  size X = size cs /\
  forall i, (i < size cs)%N -> exists r, com crs (nth dv X i) r (nth dc cs i).
Definition commits_G1 := commits com_G1 0 0.
Definition commits_G2 := commits com_G2 0 0.
Definition commits_B1 := commits com_B1 0 0.
Definition commits_B2 := commits com_B2 0 0.

(** [c] holds the commitments to [X] together with the randomness used. *)
Definition made_of {F : fieldType} {G : lmodType F} {K V : Type}
  (cm : K -> V -> seq F -> com G -> Prop) (dv : V) (crs : K) (X : seq V) (c : commit G) : Prop :=
  [/\ size (coms c) = size X, size (crand c) = size X
    & forall i, (i < size X)%N -> cm crs (nth dv X i) (nth [::] (crand c) i) (nth 0 (coms c) i)].
Definition made_G1 := made_of com_G1 0.
Definition made_G2 := made_of com_G2 0.
Definition made_B1 := made_of com_B1 0.
Definition made_B2 := made_of com_B2 0.

(** A value committed to in the first group: a group element or a scalar. *)
Definition val1 := (G1 E + Fr E)%type.
Definition val2 := (G2 E + Fr E)%type.
Definition com_val1 (crs : CRS E) (x : val1) (r : seq (Fr E)) (c : Com1 E) : Prop :=
  match x with inl x => com_G1 crs x r c | inr x => com_B1 crs x r c end.
Definition com_val2 (crs : CRS E) (y : val2) (r : seq (Fr E)) (c : Com2 E) : Prop :=
  match y with inl y => com_G2 crs y r c | inr y => com_B2 crs y r c end.
Definition made_val1 := made_of com_val1 (inl 0).
Definition made_val2 := made_of com_val2 (inl 0).

(** ** Random draws *)
Section Draws.
Context {R : rng E}.
(** The state after [k] scalar draws, and the scalar drawn next. *)
Definition after (k : nat) (s : rst R) : rst R := iter k (fun s => (rand_fr s).2) s.
Definition drawn (s : rst R) (k : nat) : Fr E := (rand_fr (after k s)).1.
End Draws.

(** Two RNGs draw the same first [n] scalars. *)
Definition same_draws (n : nat) {R R' : rng E} (s : rst R) (z : rst R') : Prop :=
  forall k, (k < n)%N -> drawn s k = drawn z k.

(** When it returns, [f] has drawn exactly [n] scalars and its result depends
    on the RNG through them only. *)
Definition consumes {T : Type} (n : nat) (f : forall R : rng E, rst R -> res (T * rst R)) : Prop :=
  forall (R : rng E) (s s' : rst R) c, f R s = Ok (c, s') ->
  s' = after n s /\
  forall (R' : rng E) (z : rst R'), same_draws n s z -> f R' z = Ok (c, after n z).
End Spec.
