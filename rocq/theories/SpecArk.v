(** What it means for the operations of arkworks ([Ark.v]) to implement the
    groups and the pairing of [Group.v], and for a value of the second model to
    represent a value of the first. *)
From mathcomp Require Import all_ssreflect all_algebra.
From Verif Require Import Base Group DataStructures Commit Statement Ark.
Set Implicit Arguments.
Unset Strict Implicit.
Unset Printing Implicit Defensive.
Import GRing.Theory.
Local Open Scope ring_scope.

(** Lists, matrices, pairs and outcomes represent each other part by part. A panic is represented by the same panic. *)
Fixpoint rseq {S T} (R : S -> T -> Prop) (s : seq S) (t : seq T) : Prop :=
  match s, t with
  | [::], [::] => True
  | x :: s', y :: t' => R x y /\ rseq R s' t'
  | _, _ => False
  end.
Definition rmat {S T} (R : S -> T -> Prop) (s : matrix S) (t : matrix T) : Prop := rseq (rseq R) s t.
Definition rpair {S T S' T'} (R : S -> T -> Prop) (R' : S' -> T' -> Prop) (p : S * S') (q : T * T') : Prop :=
  R p.1 q.1 /\ R' p.2 q.2.
Definition rres {S T} (R : S -> T -> Prop) (m : res S) (n : res T) : Prop :=
  match m, n with
  | Ok x, Ok y => R x y
  | Panic p, Panic q => p = q
  | _, _ => False
  end.

(** How the points of a curve represent the elements of a group: which affine
    and which projective points stand for an element. *)
Record repr (F : fieldType) (G : lmodType F) (C : curve F) := Repr {
  ra : G -> aff C -> Prop;
  rp : G -> prj C -> Prop
}.

(** Each operation of the curve does on the representations what the group
    operation does on the elements. Nothing is said of points that represent
    no element, an element may have many representations, and it need not
    have any. *)
Record repr_ok (F : fieldType) (G : lmodType F) (C : curve F) (r : repr G C) : Prop := ReprOk {
  ok_aff_eq : forall x y a b, ra r x a -> ra r y b -> aff_eq a b = (x == y);
  ok_aff_zero : ra r 0 (aff_zero C);
  ok_aff_add : forall x y a b, ra r x a -> ra r y b -> rp r (x + y) (aff_add a b);
  ok_into_group : forall x a, ra r x a -> rp r x (into_group a);
  ok_prj_zero : rp r 0 (prj_zero C);
  ok_prj_neg : forall x a, rp r x a -> rp r (- x) (prj_neg a);
  ok_prj_sub : forall x y a b, rp r x a -> rp r y b -> rp r (x - y) (prj_sub a b);
  ok_prj_mul : forall x a (k : F), rp r x a -> rp r (k *: x) (prj_mul a k);
  ok_into_affine : forall x a, rp r x a -> ra r x (into_affine a)
}.

(** The same for both curves, the target group and the two pairing functions. *)
Record implements (E : pairing) (A : ark (Fr E)) (r1 : repr (G1 E) (C1 A)) (r2 : repr (G2 E) (C2 A))
  (rt : GT E -> out A -> Prop) : Prop := Implements {
  ok_C1 : repr_ok r1;
  ok_C2 : repr_ok r2;
  ok_out_eq : forall x y a b, rt x a -> rt y b -> out_eq a b = (x == y);
  ok_out_zero : rt 0 (out_zero A);
  ok_out_add : forall x y a b, rt x a -> rt y b -> rt (x + y) (out_add a b);
  ok_out_neg : forall x a, rt x a -> rt (- x) (out_neg a);
  ok_out_sub : forall x y a b, rt x a -> rt y b -> rt (x - y) (out_sub a b);
  ok_pairing : forall x y a b, ra r1 x a -> ra r2 y b -> rt (pair_e x y) (a_pairing a b);
  ok_multi_pairing : forall xs ys s t, rseq (ra r1) xs s -> rseq (ra r2) ys t -> size xs = size ys ->
    rt (\sum_(xy <- zip xs ys) pair_e xy.1 xy.2) (a_multi_pairing s t)
}.

(** The two random generators draw the same scalars from corresponding states. *)
Definition scalars_alike (E : pairing) (A : ark (Fr E)) (R : rng E) (R' : ark_rng A) (rs : rst R -> ark_rst R' -> Prop) : Prop :=
  forall s t, rs s t -> rpair eq rs (rand_fr s) (ark_rand_fr t).
(** They also draw representations of the same points. *)
Record draws_alike (E : pairing) (A : ark (Fr E)) (r1 : repr (G1 E) (C1 A)) (r2 : repr (G2 E) (C2 A))
  (R : rng E) (R' : ark_rng A) (rs : rst R -> ark_rst R' -> Prop) : Prop := DrawsAlike {
  ok_rand_fr : scalars_alike rs;
  ok_rand_g1 : forall s t, rs s t -> rpair (rp r1) rs (rand_g1 s) (ark_rand_g1 t);
  ok_rand_g2 : forall s t, rs s t -> rpair (rp r2) rs (rand_g2 s) (ark_rand_g2 t)
}.

(** Representation of the structures of the library, field by field. Scalars
    are the same in both models. *)
Section Structures.
Context {E : pairing} {A : ark (Fr E)}.
Variables (r1 : repr (G1 E) (C1 A)) (r2 : repr (G2 E) (C2 A)) (rt : GT E -> out A -> Prop).
Definition rcom (F : fieldType) (G : lmodType F) (C : curve F) (r : repr G C) (c : com G) (d : ark_com C) : Prop :=
  ra r c.1 d.1 /\ ra r c.2 d.2.
Definition rcomT (c : ComT E) (d : ark_ComT A) : Prop :=
  [/\ rt (t0 c) (ark_t0 d), rt (t1 c) (ark_t1 d), rt (t2 c) (ark_t2 d) & rt (t3 c) (ark_t3 d)].
Definition rcrs (c : CRS E) (d : ark_CRS A) : Prop :=
  [/\ rseq (rcom r1) (crs_u c) (ark_crs_u d), rseq (rcom r2) (crs_v c) (ark_crs_v d),
      ra r1 (g1_gen c) (ark_g1_gen d), ra r2 (g2_gen c) (ark_g2_gen d) & rt (gt_gen c) (ark_gt_gen d)].
Definition rcommit (F : fieldType) (G : lmodType F) (C : curve F) (r : repr G C) (c : commit G) (d : ark_commit C) : Prop :=
  rseq (rcom r) (coms c) (ark_coms d) /\ crand c = ark_crand d.
Definition rppe (e : PPE E) (f : ark_PPE A) : Prop :=
  [/\ rseq (ra r1) (ppe_a e) (ark_ppe_a f), rseq (ra r2) (ppe_b e) (ark_ppe_b f),
      ppe_gamma e = ark_ppe_gamma f & rt (ppe_target e) (ark_ppe_target f)].
Definition rms1 (e : MSMEG1 E) (f : ark_MSMEG1 A) : Prop :=
  [/\ rseq (ra r1) (ms1_a e) (ark_ms1_a f), ms1_b e = ark_ms1_b f,
      ms1_gamma e = ark_ms1_gamma f & ra r1 (ms1_target e) (ark_ms1_target f)].
Definition rms2 (e : MSMEG2 E) (f : ark_MSMEG2 A) : Prop :=
  [/\ ms2_a e = ark_ms2_a f, rseq (ra r2) (ms2_b e) (ark_ms2_b f),
      ms2_gamma e = ark_ms2_gamma f & ra r2 (ms2_target e) (ark_ms2_target f)].
Definition rquad (e : QuadEqu E) (f : ark_QuadEqu (Fr E)) : Prop :=
  [/\ quad_a e = ark_quad_a f, quad_b e = ark_quad_b f,
      quad_gamma e = ark_quad_gamma f & quad_target e = ark_quad_target f].
Definition requproof (p : EquProof E) (q : ark_EquProof A) : Prop :=
  [/\ rseq (rcom r2) (pi p) (ark_pi q), rseq (rcom r1) (theta p) (ark_theta q),
      equ_type p = ark_equ_type q & pf_rand p = ark_pf_rand q].
Definition rcproof (p : CProof E) (q : ark_CProof A) : Prop :=
  [/\ rcommit r1 (xcoms p) (ark_xcoms q), rcommit r2 (ycoms p) (ark_ycoms q)
    & rseq requproof (equ_proofs p) (ark_equ_proofs q)].
End Structures.

(** Each element has one affine representation, as after [into_affine] in arkworks. *)
Definition canonical (F : fieldType) (G : lmodType F) (C : curve F) (r : repr G C) : Prop :=
  forall x a b, ra r x a -> ra r x b -> a = b.

Section ArkViews.
Context {F : fieldType} {A : ark F}.
(** What the prover publishes. *)
Definition ark_public (p : ark_CProof A) :=
  (ark_coms (ark_xcoms p), ark_coms (ark_ycoms p),
   [seq (ark_pi f, ark_theta f, ark_equ_type f) | f <- ark_equ_proofs p]).

(** The first [n] scalars that a random generator draws. *)
Fixpoint ark_draws (R : ark_rng A) (n : nat) (s : ark_rst R) : seq F :=
  if n is m.+1 then (ark_rand_fr s).1 :: ark_draws m (ark_rand_fr s).2 else [::].

(** What is seen of an outcome. *)
Definition ark_seen {S : Type} (r : res (ark_CProof A * S)) :=
  match r with Ok (p, _) => Ok (ark_public p) | Panic e => Panic e end.

(** Two points that no pairing distinguishes: [a'] may be [a] plus a point that
    the pairing does not see, for instance one of order prime to that of G2. *)
Definition invisible (S : aff (C1 A) -> aff (C1 A) -> Prop) : Prop :=
  (forall a a' b, S a a' -> a_pairing a b = a_pairing a' b) /\
  (forall s s' t, rseq S s s' -> a_multi_pairing s t = a_multi_pairing s' t).

(** The proofs [p] and [p'] publish the same, except that points of G1 are
    replaced by indistinguishable ones. *)
Definition pair_rel (S : aff (C1 A) -> aff (C1 A) -> Prop) (c d : ark_com (C1 A)) : Prop := S c.1 d.1 /\ S c.2 d.2.
Definition shifted_pf (S : aff (C1 A) -> aff (C1 A) -> Prop) (f g : ark_EquProof A) : Prop :=
  [/\ ark_pi f = ark_pi g, rseq (pair_rel S) (ark_theta f) (ark_theta g) & ark_equ_type f = ark_equ_type g].
Definition shifted (S : aff (C1 A) -> aff (C1 A) -> Prop) (p p' : ark_CProof A) : Prop :=
  [/\ rseq (pair_rel S) (ark_coms (ark_xcoms p)) (ark_coms (ark_xcoms p')),
      ark_coms (ark_ycoms p) = ark_coms (ark_ycoms p')
    & rseq (shifted_pf S) (ark_equ_proofs p) (ark_equ_proofs p')].
End ArkViews.
