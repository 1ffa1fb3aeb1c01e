(** Expressions of the group operations that a run of the code of [Ark.v]
    performs: a copy of the arkworks operations that also records how each
    point was computed, and what it means that two runs compute alike. *)
From mathcomp Require Import all_ssreflect all_algebra.
From Verif Require Import Base Group DataStructures Commit Statement Ark SpecArk.
Set Implicit Arguments.
Unset Strict Implicit.
Unset Printing Implicit Defensive.
Import GRing.Theory.
Local Open Scope ring_scope.

(** How a point was computed, from the named inputs and the points drawn. A
    multiplication does not show its scalar. *)
Inductive expr :=
  | Inp (k i : nat)                   (* the [i]-th entry of input [k] *)
  | Drawn (n : nat)                   (* a point drawn after [n] other draws *)
  | ZeroA | AddA (a b : expr)         (* [zero()] and [+] of affine points *)
  | ToP (a : expr)                    (* [into_group()] *)
  | ZeroP | NegP (a : expr) | SubP (a b : expr) | MulP (a : expr)
  | ToA (a : expr)                    (* [into_affine()] *)
  | ZeroT | AddT (a b : expr) | NegT (a : expr) | SubT (a b : expr)
  | Pair (a b : expr)                 (* [E::pairing] *)
  | MultiPair (s t : seq expr).       (* [E::multi_pairing] *)

(** The curve [C], where each point carries its expression. *)
Definition traced_curve (F : fieldType) (C : curve F) : curve F := {|
  aff := aff C * expr; prj := prj C * expr;
  aff_eq := fun a b => aff_eq a.1 b.1;
  aff_zero := (aff_zero C, ZeroA);
  aff_add := fun a b => (aff_add a.1 b.1, AddA a.2 b.2);
  into_group := fun a => (into_group a.1, ToP a.2);
  prj_zero := (prj_zero C, ZeroP);
  prj_neg := fun a => (prj_neg a.1, NegP a.2);
  prj_sub := fun a b => (prj_sub a.1 b.1, SubP a.2 b.2);
  prj_mul := fun a k => (prj_mul a.1 k, MulP a.2);
  into_affine := fun a => (into_affine a.1, ToA a.2)
|}.

(** A comparison of outputs with their expressions. *)
Definition cmp (F : fieldType) (A : ark F) : Type := out A * expr -> out A * expr -> bool.
(** The same for a pairing. [eqo] is the comparison of outputs: it is that of
    the values in [traced], and one of the expressions in [watched]. *)
Definition traced_with (F : fieldType) (A : ark F) (eqo : cmp A) : ark F := {|
  C1 := traced_curve (C1 A); C2 := traced_curve (C2 A);
  out := out A * expr;
  out_eq := eqo;
  out_zero := (out_zero A, ZeroT);
  out_add := fun a b => (out_add a.1 b.1, AddT a.2 b.2);
  out_neg := fun a => (out_neg a.1, NegT a.2);
  out_sub := fun a b => (out_sub a.1 b.1, SubT a.2 b.2);
  a_pairing := fun a b => (a_pairing a.1 b.1, Pair a.2 b.2);
  a_multi_pairing := fun s t =>
    (a_multi_pairing [seq a.1 | a <- s] [seq b.1 | b <- t], MultiPair [seq a.2 | a <- s] [seq b.2 | b <- t])
|}.
Definition traced (F : fieldType) (A : ark F) : ark F := traced_with (fun x y => @out_eq _ A x.1 y.1).
(** An observer [P] in place of [==] on outputs: it is shown the expressions
    of the two sides, so its answers tell what was computed. *)
Definition watched (F : fieldType) (A : ark F) (P : expr -> expr -> bool) : ark F :=
  traced_with (fun x y : out A * expr => P x.2 y.2).

(** A random generator that counts its draws and names the points it draws. *)
Definition traced_rng (F : fieldType) (A : ark F) (eqo : cmp A) (R : ark_rng A)
  : ark_rng (traced_with eqo) :=
  @ArkRng F (traced_with eqo) (ark_rst R * nat)
    (fun s => let (k, t) := ark_rand_fr s.1 in (k, (t, s.2.+1)))
    (fun s => let (p, t) := ark_rand_g1 s.1 in ((p, Drawn s.2), (t, s.2.+1)))
    (fun s => let (p, t) := ark_rand_g2 s.1 in ((p, Drawn s.2), (t, s.2.+1))).

(** ** Two runs side by side *)
(** What is asked of scalars, of affine points of both curves and of outputs
    that stand at the same place of two runs. *)
Record link (F F' : fieldType) (A : ark F) (A' : ark F') := Link {
  lf : F -> F' -> Prop;
  la1 : aff (C1 A) -> aff (C1 A') -> Prop;
  la2 : aff (C2 A) -> aff (C2 A') -> Prop;
  lo : out A -> out A' -> Prop
}.

Section Structures.
Context {F F' : fieldType} {A : ark F} {A' : ark F'} (L : link A A').
Definition lcom1 (c : ark_Com1 A) (d : ark_Com1 A') : Prop := la1 L c.1 d.1 /\ la1 L c.2 d.2.
Definition lcom2 (c : ark_Com2 A) (d : ark_Com2 A') : Prop := la2 L c.1 d.1 /\ la2 L c.2 d.2.
Definition lcomT (c : ark_ComT A) (d : ark_ComT A') : Prop :=
  [/\ lo L (ark_t0 c) (ark_t0 d), lo L (ark_t1 c) (ark_t1 d), lo L (ark_t2 c) (ark_t2 d)
    & lo L (ark_t3 c) (ark_t3 d)].
Definition lcrs (c : ark_CRS A) (d : ark_CRS A') : Prop :=
  [/\ rseq lcom1 (ark_crs_u c) (ark_crs_u d), rseq lcom2 (ark_crs_v c) (ark_crs_v d),
      la1 L (ark_g1_gen c) (ark_g1_gen d), la2 L (ark_g2_gen c) (ark_g2_gen d)
    & lo L (ark_gt_gen c) (ark_gt_gen d)].
Definition lcommit1 (c : ark_Commit1 A) (d : ark_Commit1 A') : Prop :=
  rseq lcom1 (ark_coms c) (ark_coms d) /\ rmat (lf L) (ark_crand c) (ark_crand d).
Definition lcommit2 (c : ark_Commit2 A) (d : ark_Commit2 A') : Prop :=
  rseq lcom2 (ark_coms c) (ark_coms d) /\ rmat (lf L) (ark_crand c) (ark_crand d).
Definition lppe (e : ark_PPE A) (f : ark_PPE A') : Prop :=
  [/\ rseq (la1 L) (ark_ppe_a e) (ark_ppe_a f), rseq (la2 L) (ark_ppe_b e) (ark_ppe_b f),
      rmat (lf L) (ark_ppe_gamma e) (ark_ppe_gamma f) & lo L (ark_ppe_target e) (ark_ppe_target f)].
Definition lms1 (e : ark_MSMEG1 A) (f : ark_MSMEG1 A') : Prop :=
  [/\ rseq (la1 L) (ark_ms1_a e) (ark_ms1_a f), rseq (lf L) (ark_ms1_b e) (ark_ms1_b f),
      rmat (lf L) (ark_ms1_gamma e) (ark_ms1_gamma f) & la1 L (ark_ms1_target e) (ark_ms1_target f)].
Definition lms2 (e : ark_MSMEG2 A) (f : ark_MSMEG2 A') : Prop :=
  [/\ rseq (lf L) (ark_ms2_a e) (ark_ms2_a f), rseq (la2 L) (ark_ms2_b e) (ark_ms2_b f),
      rmat (lf L) (ark_ms2_gamma e) (ark_ms2_gamma f) & la2 L (ark_ms2_target e) (ark_ms2_target f)].
Definition lquad (e : ark_QuadEqu F) (f : ark_QuadEqu F') : Prop :=
  [/\ rseq (lf L) (ark_quad_a e) (ark_quad_a f), rseq (lf L) (ark_quad_b e) (ark_quad_b f),
      rmat (lf L) (ark_quad_gamma e) (ark_quad_gamma f) & lf L (ark_quad_target e) (ark_quad_target f)].
Definition lequproof (p : ark_EquProof A) (q : ark_EquProof A') : Prop :=
  [/\ rseq lcom2 (ark_pi p) (ark_pi q), rseq lcom1 (ark_theta p) (ark_theta q),
      ark_equ_type p = ark_equ_type q & rmat (lf L) (ark_pf_rand p) (ark_pf_rand q)].
Definition lcproof (p : ark_CProof A) (q : ark_CProof A') : Prop :=
  [/\ lcommit1 (ark_xcoms p) (ark_xcoms q), lcommit2 (ark_ycoms p) (ark_ycoms q)
    & rseq lequproof (ark_equ_proofs p) (ark_equ_proofs q)].
End Structures.

(** The traced run and the run without expressions: the scalars are the same,
    and so are the points once their expressions are dropped. *)
Definition forget (F : fieldType) (A : ark F) : link (traced A) A :=
  @Link F F (traced A) A eq (fun a b => a.1 = b) (fun a b => a.1 = b) (fun a b => a.1 = b).

(** Two traced runs, over any two fields and pairings: the expressions are the
    same. Nothing is asked of the values: not of points, nor of scalars. *)
Definition alike (F F' : fieldType) (A : ark F) (A' : ark F') (eqo : cmp A) (eqo' : cmp A')
  : link (@traced_with F A eqo) (@traced_with F' A' eqo') :=
  @Link F F' (traced_with eqo) (traced_with eqo') (fun _ _ => True)
    (fun a b => a.2 = b.2) (fun a b => a.2 = b.2) (fun a b => a.2 = b.2).

Definition alike_watched (F F' : fieldType) (A : ark F) (A' : ark F') (P : expr -> expr -> bool)
  : link (watched A P) (watched A' P) := @alike F F' A A' (fun x y => P x.2 y.2) (fun x y => P x.2 y.2).

(** States of the generator: dropping the count, and having the same count. *)
Definition forget_rst (F : fieldType) (A : ark F) (eqo : cmp A) (R : ark_rng A)
  (s : ark_rst (@traced_rng F A eqo R)) (t : ark_rst R) : Prop := s.1 = t.
Definition alike_rst (F F' : fieldType) (A : ark F) (A' : ark F') (eqo : cmp A) (eqo' : cmp A') (R : ark_rng A) (R' : ark_rng A')
  (s : ark_rst (@traced_rng F A eqo R)) (t : ark_rst (@traced_rng F' A' eqo' R')) : Prop := s.2 = t.2.

(** ** Runs on named inputs *)
(** The entries of input [k], each with its name. *)
Definition named {T} (k : nat) (s : seq T) : seq (T * expr) := zip s [seq Inp k i | i <- iota 0 (size s)].
Section Named.
Context {F : fieldType} {A : ark F} (eqo : cmp A).
Let T := traced_with eqo.
Definition named_coms1 (k : nat) (s : seq (ark_Com1 A)) : seq (ark_Com1 T) :=
  zip (named k [seq c.1 | c <- s]) (named k.+1 [seq c.2 | c <- s]).
Definition named_coms2 (k : nat) (s : seq (ark_Com2 A)) : seq (ark_Com2 T) :=
  zip (named k [seq c.1 | c <- s]) (named k.+1 [seq c.2 | c <- s]).
Definition named_crs (c : ark_CRS A) : ark_CRS T :=
  @ark_mkCRS F T (named_coms1 0 (ark_crs_u c)) (named_coms2 2 (ark_crs_v c))
    (ark_g1_gen c, Inp 4 0) (ark_g2_gen c, Inp 5 0) (ark_gt_gen c, Inp 6 0).
Definition named_ppe (e : ark_PPE A) : ark_PPE T :=
  @ark_mkPPE F T (named 7 (ark_ppe_a e)) (named 8 (ark_ppe_b e)) (ark_ppe_gamma e) (ark_ppe_target e, Inp 9 0).
Definition named_ms1 (e : ark_MSMEG1 A) : ark_MSMEG1 T :=
  @ark_mkMSMEG1 F T (named 7 (ark_ms1_a e)) (ark_ms1_b e) (ark_ms1_gamma e) (ark_ms1_target e, Inp 9 0).
Definition named_ms2 (e : ark_MSMEG2 A) : ark_MSMEG2 T :=
  @ark_mkMSMEG2 F T (ark_ms2_a e) (named 8 (ark_ms2_b e)) (ark_ms2_gamma e) (ark_ms2_target e, Inp 9 0).
Definition named_commit1 (k : nat) (c : ark_Commit1 A) : ark_Commit1 T :=
  @ark_mkCommit F (C1 T) (named_coms1 k (ark_coms c)) (ark_crand c).
Definition named_commit2 (k : nat) (c : ark_Commit2 A) : ark_Commit2 T :=
  @ark_mkCommit F (C2 T) (named_coms2 k (ark_coms c)) (ark_crand c).
(** The commitments and the proofs one by one; proof [i] is input [20 + 4 * i] and the next three. *)
Fixpoint named_proofs (k : nat) (ps : seq (ark_EquProof A)) : seq (ark_EquProof T) :=
  if ps is p :: ps' then
    @ark_mkEquProof F T (named_coms2 k (ark_pi p)) (named_coms1 (k + 2) (ark_theta p)) (ark_equ_type p) (ark_pf_rand p)
      :: named_proofs (k + 4) ps'
  else [::].
Definition named_cproof (p : ark_CProof A) : ark_CProof T :=
  @ark_mkCProof F T (named_commit1 12 (ark_xcoms p)) (named_commit2 14 (ark_ycoms p)) (named_proofs 20 (ark_equ_proofs p)).
End Named.

(** Two matrices with rows of the same lengths, and two values of a structure with parts of the same lengths. *)
Definition same_dims {S T} (M : matrix S) (N : matrix T) : Prop := [seq size r | r <- M] = [seq size r | r <- N].
Section SameSizes.
Context {F F' : fieldType} {A : ark F} {A' : ark F'}.
Definition same_crs (c : ark_CRS A) (d : ark_CRS A') : Prop :=
  size (ark_crs_u c) = size (ark_crs_u d) /\ size (ark_crs_v c) = size (ark_crs_v d).
Definition same_ppe (e : ark_PPE A) (f : ark_PPE A') : Prop :=
  [/\ size (ark_ppe_a e) = size (ark_ppe_a f), size (ark_ppe_b e) = size (ark_ppe_b f)
    & same_dims (ark_ppe_gamma e) (ark_ppe_gamma f)].
Definition same_ms1 (e : ark_MSMEG1 A) (f : ark_MSMEG1 A') : Prop :=
  [/\ size (ark_ms1_a e) = size (ark_ms1_a f), size (ark_ms1_b e) = size (ark_ms1_b f)
    & same_dims (ark_ms1_gamma e) (ark_ms1_gamma f)].
Definition same_ms2 (e : ark_MSMEG2 A) (f : ark_MSMEG2 A') : Prop :=
  [/\ size (ark_ms2_a e) = size (ark_ms2_a f), size (ark_ms2_b e) = size (ark_ms2_b f)
    & same_dims (ark_ms2_gamma e) (ark_ms2_gamma f)].
Definition same_quad (e : ark_QuadEqu F) (f : ark_QuadEqu F') : Prop :=
  [/\ size (ark_quad_a e) = size (ark_quad_a f), size (ark_quad_b e) = size (ark_quad_b f)
    & same_dims (ark_quad_gamma e) (ark_quad_gamma f)].
Definition same_cproof (p : ark_CProof A) (q : ark_CProof A') : Prop :=
  [/\ size (ark_coms (ark_xcoms p)) = size (ark_coms (ark_xcoms q)) /\
        same_dims (ark_crand (ark_xcoms p)) (ark_crand (ark_xcoms q)),
      size (ark_coms (ark_ycoms p)) = size (ark_coms (ark_ycoms q)) /\
        same_dims (ark_crand (ark_ycoms p)) (ark_crand (ark_ycoms q))
    & rseq (fun f g => [/\ size (ark_pi f) = size (ark_pi g), size (ark_theta f) = size (ark_theta g),
        ark_equ_type f = ark_equ_type g & same_dims (ark_pf_rand f) (ark_pf_rand g)])
        (ark_equ_proofs p) (ark_equ_proofs q)].
End SameSizes.

(** ** Counting operations *)
(** The operations; a multi-pairing with the number of its pairs. *)
Inductive op := OZeroA | OAddA | OToP | OZeroP | ONegP | OSubP | OMulP | OToA
  | OZeroT | OAddT | ONegT | OSubT | OPair | OMulti (n : nat).
(** The sum of the weights of the operations in an expression. *)
Fixpoint cost (w : op -> nat) (e : expr) : nat :=
  match e with
  | Inp _ _ | Drawn _ => 0
  | ZeroA => w OZeroA
  | AddA a b => cost w a + cost w b + w OAddA
  | ToP a => cost w a + w OToP
  | ZeroP => w OZeroP
  | NegP a => cost w a + w ONegP
  | SubP a b => cost w a + cost w b + w OSubP
  | MulP a => cost w a + w OMulP
  | ToA a => cost w a + w OToA
  | ZeroT => w OZeroT
  | AddT a b => cost w a + cost w b + w OAddT
  | NegT a => cost w a + w ONegT
  | SubT a b => cost w a + cost w b + w OSubT
  | Pair a b => cost w a + cost w b + w OPair
  | MultiPair s t => sumn (map (cost w) s) + sumn (map (cost w) t) + w (OMulti (size s))
  end%N.
(** One addition of affine points, one multiplication of an affine point, and a
    linear combination of [n] points that cost [c] each. *)
Definition plus_cost (w : op -> nat) : nat := (w OAddA + w OToA)%N.
Definition times_cost (w : op -> nat) : nat := (w OToP + w OMulP + w OToA)%N.
Definition comb_cost (w : op -> nat) (n c : nat) : nat := (w OZeroA + n * (c + times_cost w + plus_cost w))%N.
(** The two components of the image of a scalar: the second key entry plus the
    generator, here [(0, P)], times the scalar. *)
Definition scalar_cost1 (w : op -> nat) : nat := (w OZeroA + plus_cost w + times_cost w)%N.
Definition scalar_cost2 (w : op -> nat) : nat := (plus_cost w + times_cost w)%N.
(** The cost of both components of each commitment in a list. *)
Definition com_costs {T} (w : op -> nat) (s : seq ((T * expr) * (T * expr))) (c d : nat) : Prop :=
  forall x, List.In x s -> cost w x.1.2 = c /\ cost w x.2.2 = d.
(** The weights that count pairings: one for a pairing, [n] for a multi-pairing of [n] pairs. *)
Definition pairings (o : op) : nat := match o with OPair => 1 | OMulti n => n | _ => 0 end%N.
