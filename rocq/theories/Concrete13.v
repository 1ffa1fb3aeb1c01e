(** A concrete implementation of the toy groups in the sense of [SpecArk.v].
    Projective points are fractions [v / z] that are not kept in lowest terms,
    and the curves have points outside the group. Not a model of any code in
    /repo. *)
From mathcomp Require Import all_ssreflect all_algebra.
From Verif Require Import Base Group DataStructures Generator Commit Statement Spec Concrete Ark SpecArk ArkRel ArkTransfer.
Set Implicit Arguments.
Unset Strict Implicit.
Unset Printing Implicit Defensive.
Import GRing.Theory.
Local Open Scope ring_scope.

(** An affine point is an element and a bit, which is false for the points in
    the group; the whole curve is the group times a group of order two. *)
Definition tcurve : curve F7 := @Curve F7 (F7 * bool)%type (F7 * F7 * bool)%type
  (fun a b => (a.1 == b.1) && (a.2 == b.2))
  (0, false)
  (fun a b => (n7 3 * (a.1 + b.1), n7 3, a.2 (+) b.2))
  (fun a => (n7 2 * a.1, n7 2, a.2))
  (0, n7 5, false)
  (fun p => (- p.1.1, p.1.2, p.2))
  (fun p q => (p.1.1 * q.1.2 - q.1.1 * p.1.2, p.1.2 * q.1.2, p.2 (+) q.2))
  (fun p k => (k * p.1.1, p.1.2, odd (k : 'F_7) && p.2))
  (fun p => (p.1.1 / p.1.2, p.2)).

(** The pairing does not see the bit. *)
Definition tark : ark F7 := @Ark F7 tcurve tcurve F7 (fun x y => x == y) 0 (fun x y => x + y) (fun x => - x)
  (fun x y => x - y) (fun a b => a.1 * b.1)
  (fun s t => foldr (fun ab z => ab.1.1 * ab.2.1 + z) 0 (zip s t)).

Definition trepr : repr F7o tcurve := @Repr F7 F7o tcurve
  (fun x a => a = (x, false)) (fun x p => [/\ p.1.2 != 0, p.1.1 = (x : F7) * p.1.2 & p.2 = false]).

Lemma trepr_ok : repr_ok trepr.
Proof.
split=> /=.
- by move=> x y a b -> ->; rewrite andbT.
- by [].
- move=> x y a b -> -> /=; split=> //; exact: mulrC.
- by move=> x a -> /=; split=> //; apply: mulrC.
- by split=> //; rewrite mul0r.
- by move=> x a [h1 h2 h3]; split=> //; rewrite h2 mulNr.
- move=> x y a b [h1 h2 h3] [k1 k2 k3]; rewrite h3 k3; split=> //; first by rewrite mulf_neq0.
  by rewrite h2 k2 mulrBl -!mulrA [b.1.2 * a.1.2]mulrC.
- by move=> x a k [h1 h2 h3]; rewrite h3 andbF; split=> //; rewrite h2 mulrA.
- by move=> x a [h1 h2 h3]; rewrite h2 h3 mulfK.
Qed.

Lemma tark_ok : implements (E := toy) (A := tark) trepr trepr (fun x a => x = a).
Proof.
split=> /=.
- exact: trepr_ok.
- exact: trepr_ok.
- by move=> x y a b -> ->.
- by [].
- by move=> x y a b -> ->.
- by move=> x a ->.
- by move=> x y a b -> ->.
- by move=> x y a b -> ->.
- elim=> [|x xs IH] [|y ys] [|a s] [|b t] //=; first by rewrite big_nil.
  by case=> -> hs [-> ht] [] /(IH ys s t hs ht) e; rewrite big_cons e.
Qed.

Lemma trepr_canonical : canonical trepr.
Proof. by move=> x a b /= -> ->. Qed.

(** The counter as RNG; the points it draws are fractions. *)
Definition tctr : ark_rng tark :=
  @ArkRng F7 tark nat (fun n => (n%:R, n.+1)) (fun n => ((n.+1%:R * n7 4, n7 4, false), n.+1))
    (fun n => ((n.+1%:R * n7 3, n7 3, false), n.+1)).

Lemma tctr_alike : draws_alike (E := toy) (A := tark) trepr trepr (R := ctr) (R' := tctr) eq.
Proof. by split=> s t <-. Qed.

(** The equation, the witness and the reference string of [Concrete.v]. *)
Definition lift (s : seq F7) : seq (F7 * bool) := [seq (x, false) | x <- s].
Definition tppe : ark_PPE tark := @ark_mkPPE F7 tark (lift [:: n7 1]) (lift [:: n7 2; n7 3]) gamma0 (n7 1).
Definition tms1 : ark_MSMEG1 tark := @ark_mkMSMEG1 F7 tark (lift [:: n7 1]) [:: n7 2; n7 3] gamma0 (n7 1, false).
Definition tms2 : ark_MSMEG2 tark := @ark_mkMSMEG2 F7 tark [:: n7 1] (lift [:: n7 2; n7 3]) gamma0 (n7 1, false).
Definition tquad : ark_QuadEqu F7 := @ark_mkQuadEqu F7 [:: n7 1] [:: n7 2; n7 3] gamma0 (n7 1).
Definition tcrs : ark_CRS tark := (ark_generate_crs (R := tctr) 0%N).1.

Lemma lift_rel (s : seq F7) : rseq (ra trepr) s (lift s).
Proof. by elim: s => //= x s IH; split. Qed.
Lemma tppe_rel : rppe (E := toy) (A := tark) trepr trepr (fun x a => x = a) ppe0 tppe.
Proof. by split=> //; apply: lift_rel. Qed.
Lemma tms1_rel : rms1 (E := toy) (A := tark) trepr ms10 tms1.
Proof. by split=> //; apply: lift_rel. Qed.
Lemma tms2_rel : rms2 (E := toy) (A := tark) trepr ms20 tms2.
Proof. by split=> //; apply: lift_rel. Qed.
Lemma tquad_rel : rquad (E := toy) quad0 tquad.
Proof. by []. Qed.
Lemma tcrsE : ark_generate_crs (R := tctr) 0%N = (tcrs, 6%N).
Proof. by []. Qed.
Lemma tcrs_rel : rcrs (E := toy) (A := tark) trepr trepr (fun x a => x = a) crs0 tcrs.
Proof. by case: (@ArkLemmas.rgenerate_crs toy tark trepr trepr _ tark_ok ctr tctr eq (ok_rand_fr tctr_alike) 0%N 0%N tctr_alike erefl). Qed.

(** The proofs made from the counter, and the same with the x-commitments and
    theta moved out of the group. *)
Definition no_proof : ark_CProof tark := @ark_mkCProof F7 tark (ark_mkCommit [::] [::]) (ark_mkCommit [::] [::]) [::].
Definition the_proof {S} (r : res (ark_CProof tark * S)) : ark_CProof tark :=
  match r with Ok (p, _) => p | Panic _ => no_proof end.
Definition out_com (c : ark_com tcurve) : ark_com tcurve := ((c.1.1, true), (c.2.1, true)).
Definition out_proof (p : ark_CProof tark) : ark_CProof tark :=
  @ark_mkCProof F7 tark (ark_mkCommit [seq out_com c | c <- ark_coms (ark_xcoms p)] (ark_crand (ark_xcoms p))) (ark_ycoms p)
    [seq @ark_mkEquProof F7 tark (ark_pi f) [seq out_com c | c <- ark_theta f] (ark_equ_type f) (ark_pf_rand f) | f <- ark_equ_proofs p].
Definition tp_ppe := the_proof (ark_ppe_commit_and_prove (R := tctr) bwd tppe (lift xs0) (lift ys0) tcrs 6%N).
Definition tp_ms1 := the_proof (ark_ms1_commit_and_prove (R := tctr) bwd tms1 (lift xs0) ys0 tcrs 6%N).
Definition tp_ms2 := the_proof (ark_ms2_commit_and_prove (R := tctr) bwd tms2 xs0 (lift ys0) tcrs 6%N).
Definition tp_quad := the_proof (ark_quad_commit_and_prove (R := tctr) bwd tquad xs0 ys0 tcrs 6%N).

Definition same_x (a b : aff (C1 tark)) : Prop := a.1 = b.1.
Lemma same_x_invisible : invisible (A := tark) same_x.
Proof.
split=> [a a' b /= -> //|s s' t]; rewrite /=.
by elim: s s' t => [|x s IH] [|x' s'] [|y t] //= [-> /IH ->].
Qed.
Lemma out_coms (s : seq (ark_com (C1 tark))) : rseq (pair_rel (A := tark) same_x) s [seq out_com c | c <- s].
Proof. by elim: s => //= c s IH; split. Qed.
Lemma out_shifted p : shifted (A := tark) same_x p (out_proof p).
Proof.
split=> //; first exact: (out_coms (ark_coms (ark_xcoms p))).
rewrite /out_proof [ark_equ_proofs (ark_mkCProof _ _ _)]/=.
elim: (ark_equ_proofs p) => [|f s IH] //=; split; last exact: IH.
split=> //; exact: (out_coms (ark_theta f)).
Qed.
Lemma out_unrepresented p (c : seq (com F7o)) : (0 < size (ark_coms (ark_xcoms p)))%N ->
  ~ rseq (rcom trepr) c (ark_coms (ark_xcoms (out_proof p))).
Proof. by case: p => [[[|x xs] xr] ys ps] // _; case: c => [|c0 c] //= -[[]] /=. Qed.
Lemma tp_ppe_x : (0 < size (ark_coms (ark_xcoms tp_ppe)))%N. Proof. by vm_compute. Qed.
Lemma tp_ms1_x : (0 < size (ark_coms (ark_xcoms tp_ms1)))%N. Proof. by vm_compute. Qed.
Lemma tp_ms2_x : (0 < size (ark_coms (ark_xcoms tp_ms2)))%N. Proof. by vm_compute. Qed.
Lemma tp_quad_x : (0 < size (ark_coms (ark_xcoms tp_quad)))%N. Proof. by vm_compute. Qed.

Lemma the_proofE S (r : res (ark_CProof tark * S)) : (0 < size (ark_coms (ark_xcoms (the_proof r))))%N ->
  exists s, r = Ok (the_proof r, s).
Proof. by case: r => [[p s]|e] // _; exists s. Qed.
Lemma rOk A B S S' (P : A -> B -> Prop) (Q : S -> S' -> Prop) (r : res (A * S)) p' s' :
  rres (rpair P Q) r (Ok (p', s')) -> exists p, P p p'.
Proof. by case: r => [[p s]|e] //= -[hp _]; exists p. Qed.
Lemma tppe_accepted : ark_ppe_verify fwd tppe tp_ppe tcrs = Ok true. Proof. by vm_compute. Qed.
Lemma tms1_accepted : ark_ms1_verify fwd tms1 tp_ms1 tcrs = Ok true. Proof. by vm_compute. Qed.
Lemma tms2_accepted : ark_ms2_verify fwd tms2 tp_ms2 tcrs = Ok true. Proof. by vm_compute. Qed.
Lemma tquad_accepted : ark_quad_verify fwd tquad tp_quad tcrs = Ok true. Proof. by vm_compute. Qed.

(** The hiding reference string of [Concrete.v]. *)
Definition tcrsh : ark_CRS tark := @ark_mkCRS F7 tark [seq ((c.1, false), (c.2, false)) | c <- crs_u crsh]
  [seq ((c.1, false), (c.2, false)) | c <- crs_v crsh] (g1_gen crsh, false) (g2_gen crsh, false) (gt_gen crsh).
Lemma tcrsh_rel : rcrs (E := toy) (A := tark) trepr trepr (fun x a => x = a) crsh tcrsh.
Proof. by split. Qed.
