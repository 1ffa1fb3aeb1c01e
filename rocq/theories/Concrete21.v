(** Two inputs of the same sizes over the toy pairing, for the cases of [P_Trace.v]. *)
From mathcomp Require Import all_ssreflect all_algebra.
From Verif Require Import Base BaseLemmas Group DataStructures Generator Commit Statement Prove Verify.
From Verif Require Import Concrete Concrete2 Ark SpecArk ArkRel Concrete13 SpecTrace TraceProps.
Set Implicit Arguments.
Unset Strict Implicit.
Unset Printing Implicit Defensive.
Import GRing.Theory.
Local Open Scope ring_scope.

Definition teq : cmp tark := fun x y => @out_eq _ tark x.1 y.1.
(** A generator that draws other values than [tctr]. *)
Definition tctr' : ark_rng tark :=
  @ArkRng F7 tark nat (fun n => (n%:R + n7 3, n.+1)) (fun n => ((n7 5, n7 4, false), n.+1)) (fun n => ((n7 6, n7 3, false), n.+1)).
Notation TR1 := (traced_rng teq tctr).
Notation TR2 := (traced_rng teq tctr').
Notation st0 := ((6%N, 0%N) : ark_rst TR1).
Notation st0' := ((2%N, 0%N) : ark_rst TR2).

(** Other equations and another witness, of the same sizes. *)
Definition xs1 : seq F7 := [seq x + n7 2 | x <- xs0].
Definition ys1 : seq F7 := [seq x + n7 3 | x <- ys0].
Definition gamma1 : matrix F7 := [seq [seq x + n7 1 | x <- r] | r <- gamma0].
Definition tppe' : ark_PPE tark := @ark_mkPPE F7 tark (lift [:: n7 4]) (lift [:: n7 0; n7 5]) gamma1 (n7 6).
Definition tms1' : ark_MSMEG1 tark := @ark_mkMSMEG1 F7 tark (lift [:: n7 4]) [:: n7 0; n7 5] gamma1 (n7 6, false).
Definition tms2' : ark_MSMEG2 tark := @ark_mkMSMEG2 F7 tark [:: n7 4] (lift [:: n7 0; n7 5]) gamma1 (n7 6, false).
Definition tquad' : ark_QuadEqu F7 := @ark_mkQuadEqu F7 [:: n7 4] [:: n7 0; n7 5] gamma1 (n7 6).

Definition tp_ppe' := the_proof (ark_ppe_commit_and_prove (R := tctr') bwd tppe' (lift xs1) (lift ys1) tcrsh 2%N).
Definition tp_ms1' := the_proof (ark_ms1_commit_and_prove (R := tctr') bwd tms1' (lift xs1) ys1 tcrsh 2%N).
Definition tp_ms2' := the_proof (ark_ms2_commit_and_prove (R := tctr') bwd tms2' xs1 (lift ys1) tcrsh 2%N).
Definition tp_quad' := the_proof (ark_quad_commit_and_prove (R := tctr') bwd tquad' xs1 ys1 tcrsh 2%N).

Lemma same_tcrs : same_crs tcrs tcrsh. Proof. by []. Qed.
Lemma same_tppe : same_ppe tppe tppe'. Proof. by []. Qed.
Lemma same_tms1 : same_ms1 tms1 tms1'. Proof. by []. Qed.
Lemma same_tms2 : same_ms2 tms2 tms2'. Proof. by []. Qed.
Lemma same_tquad : same_quad tquad tquad'. Proof. by []. Qed.

(** The first run of each function, from the counter, and its proof. *)
Definition one_proof (p : ark_CProof tark) : option (ark_EquProof tark) := if ark_equ_proofs p is [:: f] then Some f else None.
Definition out_of {T S} (r : res (T * S)) : option T := if r is Ok x then Some x.1 else None.
(** Values of points, without their expressions. *)
Definition bare {T} (s : seq ((T * expr) * (T * expr))) : seq (T * T) := [seq (c.1.1, c.2.1) | c <- s].
Definition bare_expr {T} (s : seq ((T * expr) * (T * expr))) : seq (expr * expr) := [seq (c.1.2, c.2.2) | c <- s].
(** The weights that count multiplications of points. *)
Definition muls (o : op) : nat := if o is OMulP then 1%N else 0%N.
Definition counted {T} (w : op -> nat) (s : seq ((T * expr) * (T * expr))) : seq (nat * nat) :=
  [seq (cost w c.1.2, cost w c.2.2) | c <- s].
(** The observer that checks two numbers of pairings. *)
Definition watch (a b : nat) (l r : expr) : bool := (cost pairings l == a) && (cost pairings r == b).
Definition same_cproofb (p q : ark_CProof tark) : bool :=
  [&& (size (ark_coms (ark_xcoms p)), [seq size r | r <- ark_crand (ark_xcoms p)]) ==
      (size (ark_coms (ark_xcoms q)), [seq size r | r <- ark_crand (ark_xcoms q)]),
      (size (ark_coms (ark_ycoms p)), [seq size r | r <- ark_crand (ark_ycoms p)]) ==
      (size (ark_coms (ark_ycoms q)), [seq size r | r <- ark_crand (ark_ycoms q)]) &
    match ark_equ_proofs p, ark_equ_proofs q with
    | [:: f], [:: g] => (size (ark_pi f), size (ark_theta f), [seq size r | r <- ark_pf_rand f]) ==
        (size (ark_pi g), size (ark_theta g), [seq size r | r <- ark_pf_rand g])
    | _, _ => false end].
Lemma same_cproofP p q (ty : ark_CProof tark -> option EquType) :
  (forall p, ty p = if ark_equ_proofs p is [:: f] then Some (ark_equ_type f) else None) ->
  ty p = ty q -> same_cproofb p q -> same_cproof p q.
Proof.
move=> h; rewrite !h => {ty h}; case: p q => [x y ps] [x' y' qs]; rewrite /same_cproofb /same_cproof /same_dims /=.
move=> ht /and3P[/eqP[-> ->] /eqP[-> ->]]; case: ps ht => [|f [|? ?]] //; case: qs => [|g [|? ?]] //= [->].
by move=> /eqP[-> -> ->].
Qed.
Definition tytag (p : ark_CProof tark) := if ark_equ_proofs p is [:: f] then Some (ark_equ_type f) else None.
Lemma same_tp_ppe : same_cproof tp_ppe tp_ppe'. Proof. by apply: (same_cproofP (ty := tytag)); [| vm_compute | vm_compute]. Qed.
Lemma same_tp_ms1 : same_cproof tp_ms1 tp_ms1'. Proof. by apply: (same_cproofP (ty := tytag)); [| vm_compute | vm_compute]. Qed.
Lemma same_tp_ms2 : same_cproof tp_ms2 tp_ms2'. Proof. by apply: (same_cproofP (ty := tytag)); [| vm_compute | vm_compute]. Qed.
Lemma same_tp_quad : same_cproof tp_quad tp_quad'. Proof. by apply: (same_cproofP (ty := tytag)); [| vm_compute | vm_compute]. Qed.
