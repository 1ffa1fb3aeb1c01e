(** Splitting a random tape among the stages of a program. *)
From mathcomp Require Import all_ssreflect all_algebra.
From Verif Require Import Base BaseLemmas Group DataStructures Generator Commit Statement Prove Verify Spec SpecMat SpecVerify SpecHide SpecRerand SpecBij HideTape Hiding HideProps RerandProps BenchLemmas.
Set Implicit Arguments.
Unset Strict Implicit.
Unset Printing Implicit Defensive.
Import GRing.Theory.
Local Open Scope ring_scope.

Section Stage.
Context {E : pairing}.
Notation F := (Fr E).
Notation prog T := (forall R : rng E, rst R -> res (T * rst R)).

Lemma nth_draws_s N (R : rng E) (s : rst R) k : (k < N)%N -> nth 0 (draws N s) k = drawn s k.
Proof. by move=> hk; rewrite -[k]/(nat_of_ord (Ordinal hk)) -tnth_nth tnth_mktuple. Qed.
Lemma draws_val N (R R' : rng E) (s : rst R) (z : rst R') : same_draws N s z <-> draws N s = draws N z.
Proof.
split=> h; first by apply: eq_from_tnth => i; rewrite !tnth_mktuple; exact: h.
by move=> k hk; rewrite -(nth_draws_s s hk) h nth_draws_s.
Qed.

(** The value of [f] on a list of scalars. *)
Definition valof {T} (d : T) (f : prog T) (t : seq F) : T :=
  if f (@tape_rng E) t is Ok (c, _) then c else d.

Lemma valE T (d : T) N (f : prog T) (R : rng E) (s : rst R) : consumes N f -> isok (f R s) ->
  f R s = Ok (valof d f (draws N s), after N s).
Proof.
move=> hc /isokP[[c s'] e]; have [e' h] := hc _ _ _ _ e; rewrite e /valof.
have hs : same_draws N s (tval (draws N s) : rst (@tape_rng E)) by apply/draws_val; rewrite draws_tape.
by rewrite (h _ (tval (draws N s) : rst (@tape_rng E)) hs) e'.
Qed.

Definition shows N {T O} (view : T -> O) (f : prog T) (o : O) (t : N.-tuple F) : Prop :=
  forall (R : rng E) (s : rst R), draws N s = t -> seen view (f R s) = Ok o.

Lemma showsE T O (d : T) N (view : T -> O) (f : prog T) o (t : N.-tuple F) : consumes N f -> (forall R s, isok (f R s)) ->
  shows view f o t <-> view (valof d f t) = o.
Proof.
move=> hc hO; split=> [h|h R s e]; last by rewrite (valE d hc (hO _ _)) e /= h.
have := h _ (tval t : rst (@tape_rng E)) (draws_tape t).
by rewrite (valE d hc (hO _ _)) draws_tape /= => -[].
Qed.

Lemma draws_cat N1 N2 (R : rng E) (s : rst R) : tval (draws (N1 + N2) s) = draws N1 s ++ draws N2 (after N1 s).
Proof.
apply: (@eq_from_nth _ 0) => [|k]; first by rewrite size_cat !size_tuple.
rewrite size_tuple => hk; rewrite nth_draws_s // nth_cat size_tuple; case: ltnP => h; first by rewrite nth_draws_s.
by rewrite nth_draws_s ?drawnD ?subnKC // -(ltn_add2l N1) subnKC.
Qed.

Lemma cat_inj (n : nat) (a b c d : seq F) : size a = n -> size c = n -> a ++ b = c ++ d -> a = c /\ b = d.
Proof. by move=> h1 h2 /eqP; rewrite eqseq_cat ?h1 ?h2 // => /andP[/eqP -> /eqP ->]. Qed.

Let dpf : EquProof E := mkEquProof [::] [::] PairingProduct [::].

(** The three stages of [commit_and_prove]. *)
Lemma bij_core N1 N2 N3 (G H : lmodType F) (f1 : prog (commit G)) (f2 : prog (commit H))
  (f3 : commit G -> commit H -> prog (EquProof E)) (cap : prog (CProof E)) 
  (mk : commit G -> commit H -> EquProof E -> CProof E) o1 o2 (pf : EquProof E) p :
  consumes N1 f1 -> consumes N2 f2 -> (forall cx cy, consumes N3 (f3 cx cy)) ->
  (forall R s, isok (f1 R s)) -> (forall R s, isok (f2 R s)) ->
  (forall (R R' : rng E) s s' z z' cx cy, f1 R s = Ok (cx, s') -> f2 R' z = Ok (cy, z') -> forall R s, isok (f3 cx cy R s)) ->
  (forall cx cy (R : rng E) s s' pf', f3 cx cy R s = Ok (pf', s') -> equ_type pf' = equ_type pf) ->
  (forall (R : rng E) s s1 s2 s3 cx cy pf', f1 R s = Ok (cx, s1) -> f2 R s1 = Ok (cy, s2) -> f3 cx cy R s2 = Ok (pf', s3) ->
     cap R s = Ok (mk cx cy pf', s3)) ->
  (forall cx cy pf', public (mk cx cy pf') = public p <-> [/\ coms cx = o1, coms cy = o2 & (pi pf', theta pf', equ_type pf') = (pi pf, theta pf, equ_type pf)]) ->
  (exists! t : N1.-tuple F, shows coms f1 o1 t) -> (exists! t : N2.-tuple F, shows coms f2 o2 t) ->
  (forall (R R' : rng E) s s' z z' cx cy, f1 R s = Ok (cx, s') -> f2 R' z = Ok (cy, z') -> coms cx = o1 -> coms cy = o2 ->
     exists! t : N3.-tuple F, yields (f3 cx cy) pf t) ->
  exists! t : (N1 + (N2 + N3)).-tuple F, gives cap p t.
Proof.
move=> c1 c2 c3 ok1 ok2 ok3 ty hcap hpub [t1 [h1 U1]] [t2 [h2 U2]] H3.
set d1 : commit G := mkCommit [::] [::]; set d2 : commit H := mkCommit [::] [::].
have E1 R s := valE d1 c1 (ok1 R s); have E2 R s := valE d2 c2 (ok2 R s).
pose g1 := valof d1 f1; pose g2 := valof d2 f2.
have tapeE1 (t : N1.-tuple F) : f1 _ (tval t : rst (@tape_rng E)) = Ok (g1 t, after N1 (tval t : rst (@tape_rng E))).
  by rewrite E1 draws_tape.
have tapeE2 (t : N2.-tuple F) : f2 _ (tval t : rst (@tape_rng E)) = Ok (g2 t, after N2 (tval t : rst (@tape_rng E))).
  by rewrite E2 draws_tape.
have ok3' (a : N1.-tuple F) (b : N2.-tuple F) R s : isok (f3 (g1 a) (g2 b) R s) := ok3 _ _ _ _ _ _ _ _ (tapeE1 a) (tapeE2 b) R s.
have E3 (a : N1.-tuple F) (b : N2.-tuple F) R s := valE dpf (c3 (g1 a) (g2 b)) (ok3' a b R s).
have G1 : forall t : N1.-tuple F, shows coms f1 o1 t <-> coms (g1 t) = o1 by move=> t; exact: showsE.
have G2 : forall t : N2.-tuple F, shows coms f2 o2 t <-> coms (g2 t) = o2 by move=> t; exact: showsE.
have G3 (a : N1.-tuple F) (b : N2.-tuple F) (t : N3.-tuple F) : yields (f3 (g1 a) (g2 b)) pf t <->
  (pi (valof dpf (f3 (g1 a) (g2 b)) t), theta (valof dpf (f3 (g1 a) (g2 b)) t)) = (pi pf, theta pf).
  exact: (showsE dpf (fun g => (pi g, theta g)) _ t (c3 _ _) (ok3' a b)).
have capE (R : rng E) (s : rst R) : cap R s
  = Ok (mk (g1 (draws N1 s)) (g2 (draws N2 (after N1 s))) (valof dpf (f3 (g1 (draws N1 s)) (g2 (draws N2 (after N1 s)))) (draws N3 (after N2 (after N1 s)))),
        after N3 (after N2 (after N1 s))).
  by apply: hcap; [exact: E1 | exact: E2 | exact: E3].
have V (a : N1.-tuple F) (b : N2.-tuple F) (c : N3.-tuple F) :
  public (mk (g1 a) (g2 b) (valof dpf (f3 (g1 a) (g2 b)) c)) = public p <->
  [/\ shows coms f1 o1 a, shows coms f2 o2 b & yields (f3 (g1 a) (g2 b)) pf c].
  rewrite hpub; split=> [[e1 e2 e3]|[/G1 e1 /G2 e2 /G3 e3]].
    split; [exact/G1 | exact/G2 | apply/G3]; by case: e3 => -> ->.
  split=> //; have := E3 a b _ (tval c : rst (@tape_rng E)); rewrite draws_tape => /ty ->.
  by case: e3 => -> ->.
have [t3 [h3 U3]] := H3 _ _ _ _ _ _ _ _ (tapeE1 t1) (tapeE2 t2) (proj1 (G1 _) h1) (proj1 (G2 _) h2).
exists (cat_tuple t1 (cat_tuple t2 t3)); split.
  move=> R s /(congr1 (@tval _ _)); rewrite draws_cat draws_cat => e.
  have [e1 e'] := cat_inj (size_tuple _) (size_tuple _) e; have [e2 e3] := cat_inj (size_tuple _) (size_tuple _) e'.
  rewrite capE (val_inj e1) (val_inj e2) (val_inj e3) /=; congr Ok; apply/V; split=> //; exact/G3.
move=> t ht; have := ht _ (tval t : rst (@tape_rng E)) (draws_tape t); rewrite capE => e.
have /V[a1 a2 a3] := Ok_inj e.
have e1 := U1 _ a1; have e2 := U2 _ a2; rewrite -e1 -e2 in a3; have e3 := U3 _ a3.
apply: val_inj; rewrite /= e1 e2 e3 -!draws_cat; by rewrite draws_tape.
Qed.
End Stage.
