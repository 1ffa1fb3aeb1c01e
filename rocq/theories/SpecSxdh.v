(** Specifications for computational properties: probabilities over finite tapes, DDH, the key games. *)
From mathcomp Require Import all_ssreflect all_algebra.
From Verif Require Import Base Group DataStructures Generator Commit Statement Prove Spec SpecVerify SpecHide.
Set Implicit Arguments.
Unset Strict Implicit.
Unset Printing Implicit Defensive.
Import Order.Theory GRing.Theory Num.Theory.
Local Open Scope ring_scope.

(** The probability that [f] holds for a uniform element of [T]. *)
Definition Pr {T : finType} (f : pred T) : rat := (#|[set x | f x]|)%:R / (#|T|)%:R.

(** ** Decisional Diffie-Hellman
    in a group whose base point is [s o] for uniform [o]. A distinguisher may
    use random choices [w]. *)
Section DDH.
Context {F : finFieldType} {G : lmodType F} {O : finType} (s : O -> G).
Context {W : finType} (D : W -> G -> G -> G -> G -> bool).
Definition ddh_real : rat := Pr (fun x : W * (O * F * F) =>
  let: (w, (o, a, t)) := x in D w (s o) (a *: s o) (t *: s o) ((a * t) *: s o)).
Definition ddh_random : rat := Pr (fun x : W * (O * F * F * F) =>
  let: (w, (o, a, t, r)) := x in D w (s o) (a *: s o) (t *: s o) (r *: s o)).
Definition ddh_adv : rat := `|ddh_real - ddh_random|.
End DDH.

(** ** The key games *)
Section Games.
Context {F : finFieldType} {A B C : lmodType F} {e : A -> B -> C}.
Local Notation E := (Pairing e).

(** An RNG that hands out given points and scalars. *)
Definition queue : rng E :=
  @Rng E (seq A * seq B * seq F) (fun s => (head 0 s.2, (s.1, behead s.2)))
    (fun s => (head 0 s.1.1, ((behead s.1.1, s.1.2), s.2)))
    (fun s => (head 0 s.1.2, ((s.1.1, behead s.1.2), s.2))).

(** The output of [generate_crs] on these choices... *)
Definition real_crs (p1 : A) (p2 : B) (a1 a2 t1 t2 : F) : CRS E :=
  (generate_crs (R := queue) ([:: p1], [:: p2], [:: a1; a2; t1; t2])).1.
(** ... and the reference string with [prepare_simulated_hinding_key] in place
    of [prepare_real_binding_key]. *)
Definition sim_crs (p1 : A) (p2 : B) (a1 a2 t1 t2 : F) : CRS E :=
  let k := @prepare_simulated_hinding_key E p1 p2 (a1 *: p1) t1 (a2 *: p2) t2 in
  @mkCRS E [:: (p1, a1 *: p1); (t1 *: p1, k.1)] [:: (p2, a2 *: p2); (t2 *: p2, k.2)] p1 p2 (e p1 p2).

(** The base points are [s1 o1], [s2 o2] for uniform [o1], [o2]; the scalars
    are uniform. [D w] is a test with random choices [w]. *)
Context {O1 O2 : finType} (s1 : O1 -> A) (s2 : O2 -> B).
Definition game (mk : A -> B -> F -> F -> F -> F -> CRS E) {W : finType} (D : W -> pred (CRS E)) : rat :=
  Pr (fun x : W * (O1 * O2 * (F * F * F * F)) =>
    let: (w, (o1, o2, (a1, a2, t1, t2))) := x in D w (mk (s1 o1) (s2 o2) a1 a2 t1 t2)).
Definition key_adv {W : finType} (D : W -> pred (CRS E)) : rat := `|game real_crs D - game sim_crs D|.

(** The probability that some base point is the identity. *)
Definition bad_point : rat := Pr (fun o : O1 * O2 => (s1 o.1 == 0) || (s2 o.2 == 0)).

(** Distinguishers made from a test [D] of reference strings: the challenge
    becomes the key of one group, the other is made honestly. *)
Context {W : finType} (D : W -> pred (CRS E)).
Definition ddh1 (x : W * (O2 * F * F)) (P Q T Z : A) : bool :=
  let: (w, (o, a, t)) := x in let P2 := s2 o in
  D w (@mkCRS E [:: (P, Q); (T, Z)] [:: (P2, a *: P2); (t *: P2, t *: (a *: P2))] P P2 (e P P2)).
Definition ddh2 (x : W * (O2 * F * F)) (P Q T Z : A) : bool := ddh1 x P Q T (Z - P).
Definition ddh3 (x : W * (O1 * F * F)) (P Q T Z : B) : bool :=
  let: (w, (o, a, t)) := x in let P1 := s1 o in
  D w (@mkCRS E [:: (P1, a *: P1); (t *: P1, t *: (a *: P1) - P1)] [:: (P, Q); (T, Z)] P1 P (e P1 P)).
Definition ddh4 (x : W * (O1 * F * F)) (P Q T Z : B) : bool := ddh3 x P Q T (Z - P).
End Games.

(** ** Proof games
    A test [D] sees the reference string and what is published of a proof made
    with [N] random scalars. The equation and the witness may depend on the
    test's random choices [w] and on the reference string. *)
Section Proofs.
Context {F : finFieldType} {A B C : lmodType F} {e : A -> B -> C}.
Local Notation E := (Pairing e).
Context {W : finType} {T V : Type} (N : nat) (D : W -> CRS E -> pred (res V)).
Definition proof_test (view : T -> V) (f : W -> CRS E -> forall R : rng E, rst R -> res (T * rst R))
  (x : W * N.-tuple F) (crs : CRS E) : bool :=
  D x.1 crs (seen view (f x.1 crs tape_rng (tval x.2 : seq F))).

(** The same for a simulator: the reference string is hiding, and its view of
    the outcome may use the trapdoors [t1], [t2]. *)
Definition sim_game {O1 O2 : finType} (s1 : O1 -> A) (s2 : O2 -> B) (view : F -> F -> W -> CRS E -> T -> V)
  (f : W -> CRS E -> forall R : rng E, rst R -> res (T * rst R)) : rat :=
  Pr (fun x : (W * N.-tuple F) * (O1 * O2 * (F * F * F * F)) =>
    let: ((w, t), (o1, o2, (a1, a2, t1, t2))) := x in let crs := sim_crs (s1 o1) (s2 o2) a1 a2 t1 t2 in
    D w crs (seen (view t1 t2 w crs) (f w crs tape_rng (tval t : seq F)))).
End Proofs.
