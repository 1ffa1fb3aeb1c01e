(** The change of randomness of HideCore.v as a bijection of random tapes. *)
From mathcomp Require Import all_ssreflect all_algebra.
From Verif Require Import CoreAlg HideCore.
Set Implicit Arguments.
Unset Strict Implicit.
Unset Printing Implicit Defensive.
From Verif Require Import BaseLemmas.
Import GRing.Theory.
Local Open Scope ring_scope.

Section Tape.
Context {F : fieldType}.
Variables (m n kx ky : nat).
Definition tlen : nat := (kx * m + (ky * n + ky * kx))%N.
Definition cut (N : nat) (d : nat -> F) : N.-tuple F := [tuple d i | i < N].

Lemma cut_eq N d d' : cut N d = cut N d' -> forall p, (p < N)%N -> d p = d' p.
Proof. by move=> h p hp; move: (congr1 (fun t => tnth t (Ordinal hp)) h); rewrite !tnth_mktuple. Qed.
Lemma eq_cut N d d' : (forall p, (p < N)%N -> d p = d' p) -> cut N d = cut N d'.
Proof. by move=> h; apply: eq_from_tnth => i; rewrite !tnth_mktuple h. Qed.
Lemma nth_cut N d p : (p < N)%N -> nth 0 (cut N d) p = d p.
Proof. by move=> h; rewrite -[p]/(nat_of_ord (Ordinal h)) -tnth_nth tnth_mktuple. Qed.
Lemma cut_nth N (t : N.-tuple F) : cut N (nth 0 t) = t.
Proof. by apply: eq_from_tnth => i; rewrite tnth_mktuple -tnth_nth. Qed.

(** The three parts of a tape. *)
Definition Rd (d : nat -> F) k i : F := d (kx * k + i)%N.
Definition Sd (d : nat -> F) j l : F := d (kx * m + (ky * j + l))%N.
Definition Td (d : nat -> F) l i : F := d (kx * m + (ky * n + (kx * l + i)))%N.

Definition mv (dx dy : nat -> nat -> F) (tau : (nat -> F) -> nat -> nat -> F) (d : nat -> F) (p : nat) : F :=
  d p + (if (p < kx * m)%N then dx (p %/ kx)%N (p %% kx)%N else
    let p1 := (p - kx * m)%N in
    if (p1 < ky * n)%N then dy (p1 %/ ky)%N (p1 %% ky)%N else
    let p2 := (p1 - ky * n)%N in tau d (p2 %/ kx)%N (p2 %% kx)%N).

Lemma lt_row k a b i : (a < b)%N -> (i < k)%N -> (k * a + i < k * b)%N.
Proof.
move=> ha hi; apply: (@leq_trans (k * a.+1)); last by rewrite leq_mul2l ha orbT.
by rewrite mulnS addnC ltn_add2r.
Qed.
Lemma divrow k a i : (i < k)%N -> ((k * a + i) %/ k)%N = a.
Proof. by move=> hi; rewrite mulnC divnMDl ?divn_small ?addn0 //; case: k hi. Qed.
Lemma modrow k a i : (i < k)%N -> ((k * a + i) %% k)%N = i.
Proof. by move=> hi; rewrite mulnC modnMDl modn_small. Qed.

Lemma mv_R dx dy tau d k i : (k < m)%N -> (i < kx)%N -> Rd (mv dx dy tau d) k i = Rd d k i + dx k i.
Proof. by move=> hk hi; rewrite /Rd /mv lt_row // divrow // modrow. Qed.
Lemma mv_S dx dy tau d j l : (j < n)%N -> (l < ky)%N -> Sd (mv dx dy tau d) j l = Sd d j l + dy j l.
Proof. by move=> hj hl; rewrite /Sd /mv ltnNge leq_addr /= addKn lt_row // divrow // modrow. Qed.
Lemma mv_T dx dy tau d l i : (i < kx)%N -> Td (mv dx dy tau d) l i = Td d l i + tau d l i.
Proof.
move=> hi; rewrite /Td /mv ltnNge leq_addr /= addKn ltnNge leq_addr /= addKn.
by rewrite divrow // modrow.
Qed.

Lemma tlen_R k i : (k < m)%N -> (i < kx)%N -> (kx * k + i < tlen)%N.
Proof. by move=> hk hi; apply: (leq_trans (lt_row hk hi)); exact: leq_addr. Qed.
Lemma tlen_S j l : (j < n)%N -> (l < ky)%N -> (kx * m + (ky * j + l) < tlen)%N.
Proof. by move=> hj hl; rewrite ltn_add2l; apply: (leq_trans (lt_row hj hl)); exact: leq_addr. Qed.
Lemma tlen_T l i : (l < ky)%N -> (i < kx)%N -> (kx * m + (ky * n + (kx * l + i)) < tlen)%N.
Proof. by move=> hl hi; rewrite !ltn_add2l (mulnC ky); exact: lt_row. Qed.

Section Bij.
Variables (dx dy : nat -> nat -> F) (tau tau' : (nat -> F) -> nat -> nat -> F).
Hypothesis tau_ext : forall d d', (forall p, (p < tlen)%N -> d p = d' p) -> forall l i, (l < ky)%N -> (i < kx)%N -> tau d l i = tau d' l i.
Hypothesis tau_ext' : forall d d', (forall p, (p < tlen)%N -> d p = d' p) -> forall l i, (l < ky)%N -> (i < kx)%N -> tau' d l i = tau' d' l i.
Let dx' k i := - dx k i.
Let dy' k i := - dy k i.
Hypothesis inv : forall d l i, (l < ky)%N -> (i < kx)%N -> tau' (mv dx dy tau d) l i = - tau d l i.
Hypothesis inv' : forall d l i, (l < ky)%N -> (i < kx)%N -> tau (mv dx' dy' tau' d) l i = - tau' d l i.

Lemma tau_idx p : (p < tlen)%N -> ~~ (p < kx * m)%N -> ~~ (p - kx * m < ky * n)%N ->
  ((p - kx * m - ky * n) %/ kx < ky)%N /\ ((p - kx * m - ky * n) %% kx < kx)%N.
Proof.
move=> hp; rewrite -!leqNgt => h1 h2.
have h3 : (p - kx * m - ky * n < ky * kx)%N.
  by rewrite ltn_subLR // ltn_subLR.
have hk : (0 < kx)%N by case: (kx) h3 => //; rewrite muln0.
by rewrite ltn_pmod // ltn_divLR.
Qed.

Lemma mv_ext dx0 dy0 t0 d d' : (forall d d', (forall p, (p < tlen)%N -> d p = d' p) -> forall l i, (l < ky)%N -> (i < kx)%N -> t0 d l i = t0 d' l i) ->
  (forall p, (p < tlen)%N -> d p = d' p) -> forall p, (p < tlen)%N -> mv dx0 dy0 t0 d p = mv dx0 dy0 t0 d' p.
Proof.
move=> ht h p hp; rewrite /mv h //; congr (_ + _); case: ifPn => // h1; case: ifPn => // h2.
by have [a b] := tau_idx hp h1 h2; apply: ht.
Qed.

Lemma mv_inv d p : (p < tlen)%N -> mv dx' dy' tau' (mv dx dy tau d) p = d p.
Proof.
move=> hp; rewrite {1}/mv {1}/mv; case: ifPn => [_|h1]; first by rewrite addrK.
cbv zeta; case: ifPn => [_|h2]; first by rewrite addrK.
by have [a b] := tau_idx hp h1 h2; rewrite inv // addrK.
Qed.
Lemma mv_inv' d p : (p < tlen)%N -> mv dx dy tau (mv dx' dy' tau' d) p = d p.
Proof.
move=> hp; rewrite {1}/mv {1}/mv; case: ifPn => [_|h1]; first by rewrite subrK.
cbv zeta; case: ifPn => [_|h2]; first by rewrite subrK.
by have [a b] := tau_idx hp h1 h2; rewrite inv' // addrK.
Qed.

Definition mvt (t : tlen.-tuple F) : tlen.-tuple F := cut tlen (mv dx dy tau (nth 0 t)).
Lemma mvt_bij : bijective mvt.
Proof.
exists (fun t : tlen.-tuple F => cut tlen (mv dx' dy' tau' (nth 0 t))) => t; rewrite /mvt.
  rewrite -[RHS]cut_nth; apply: eq_cut => p hp; rewrite -[RHS](mv_inv _ hp).
  by apply: mv_ext => // q hq; rewrite nth_cut.
rewrite -[RHS]cut_nth; apply: eq_cut => p hp; rewrite -[RHS](mv_inv' _ hp).
by apply: mv_ext => // q hq; rewrite nth_cut.
Qed.
Lemma mvt_cut d d' : cut tlen d' = mvt (cut tlen d) -> forall p, (p < tlen)%N -> d' p = mv dx dy tau d p.
Proof.
move=> h p hp; rewrite (cut_eq h hp); apply: mv_ext => // q hq; exact: nth_cut.
Qed.
End Bij.
End Tape.

Section Pub.
Context {F : fieldType} {U V W : lmodType F}.
Variable f : U -> V -> W.
Variables (m n kx ky : nat).
Variables (A u : nat -> U) (B v : nat -> V) (G : nat -> nat -> F).

(** Commitments and proof as a function of the tape. *)
Definition gpub (X : nat -> U) (Y : nat -> V) (pe : nat -> V) (te : nat -> U) (d : nat -> F) :
  seq U * seq V * (seq V * seq U) :=
  let R := Rd kx d in let S := Sd m kx ky d in let T := Td m n kx ky d in
  (mkseq (gs_c kx X u R) m, mkseq (gs_d ky Y v S) n,
   (mkseq (fun i => gs_pi m n ky B Y v G R S T i + pe i) kx,
    mkseq (fun l => gs_th m n kx A X u G S T l + te l) ky)).

Definition spanned (k : nat) (T : lmodType F) (w : nat -> T) (q : nat) (x : nat -> T) : Prop :=
  exists c : nat -> nat -> F, forall k0, (k0 < q)%N -> x k0 = lin k w (c k0).

Lemma eq_thc_in ac xc xc' S S' l i : (forall j, (j < n)%N -> S j l = S' j l) -> (forall k, (k < m)%N -> xc k i = xc' k i) ->
  thc m n G ac xc S l i = thc m n G ac xc' S' l i.
Proof.
move=> hS hx; rewrite /thc; congr (_ + _); first by apply: eq_big_nat => j /andP[_ hj]; rewrite hS.
apply: eq_big_nat => k /andP[_ hk]; rewrite hx //; congr (_ * _).
by apply: eq_big_nat => j /andP[_ hj]; rewrite hS.
Qed.

Theorem hide_exists (X X' : nat -> U) (Y Y' : nat -> V) (pe : nat -> V) (te : nat -> U) : bilin f ->
  (forall p : nat -> nat -> F, \sum_(0 <= i < kx) f (u i) (lin ky v (p i)) = 0 ->
   forall i l, (i < kx)%N -> (l < ky)%N -> p i l = 0) ->
  spanned kx u n A -> spanned ky v m B ->
  spanned kx u m X -> spanned kx u m X' -> spanned ky v n Y -> spanned ky v n Y' ->
  spanned ky v kx pe -> spanned kx u ky te ->
  gs_eq f m n G A X' B Y'
  = gs_eq f m n G A X B Y + \sum_(0 <= i < kx) f (u i) (pe i) + \sum_(0 <= l < ky) f (te l) (v l) ->
  let N := tlen m n kx ky in
  exists phi : N.-tuple F -> N.-tuple F, bijective phi /\
  forall d d', cut N d' = phi (cut N d) -> gpub X' Y' pe te d' = gpub X Y (fun=> 0) (fun=> 0) d.
Proof.
move=> fb indep [ac hA] [bc hB] [xc hX] [xc' hX'] [yc hY] [yc' hY'] [pec hpe] [tec hte] heq N.
pose dx k i := xc k i - xc' k i.
pose dy j l := yc j l - yc' j l.
pose tau (d : nat -> F) l i := thc m n G ac xc (Sd m kx ky d) l i
   - (thc m n G ac xc' (S_to yc yc' (Sd m kx ky d)) l i + tec l i).
pose tau' (d : nat -> F) l i := thc m n G ac xc' (Sd m kx ky d) l i
   - (thc m n G ac xc (S_to yc' yc (Sd m kx ky d)) l i - tec l i).
have e1 (d d' : nat -> F) : (forall p, (p < N)%N -> d p = d' p) -> forall j l, (j < n)%N -> (l < ky)%N -> Sd m kx ky d j l = Sd m kx ky d' j l.
  by move=> h j l hj hl; apply: h; exact: tlen_S.
have eS d d' l x : (forall p, (p < N)%N -> d p = d' p) -> (l < ky)%N -> forall i,
    thc m n G ac x (Sd m kx ky d) l i = thc m n G ac x (Sd m kx ky d') l i.
  by move=> h hl i; apply: eq_thc_in => // j hj; exact: e1.
have eTo a b d d' l x : (forall p, (p < N)%N -> d p = d' p) -> (l < ky)%N -> forall i,
    thc m n G ac x (S_to a b (Sd m kx ky d)) l i = thc m n G ac x (S_to a b (Sd m kx ky d')) l i.
  by move=> h hl i; apply: eq_thc_in => // j hj; rewrite /S_to (e1 _ _ h).
have x1 d d' : (forall p, (p < N)%N -> d p = d' p) -> forall l i, (l < ky)%N -> (i < kx)%N -> tau d l i = tau d' l i.
  by move=> h l i hl hi; rewrite /tau (eS d d') // (eTo _ _ d d').
have x2 d d' : (forall p, (p < N)%N -> d p = d' p) -> forall l i, (l < ky)%N -> (i < kx)%N -> tau' d l i = tau' d' l i.
  by move=> h l i hl hi; rewrite /tau' (eS d d') // (eTo _ _ d d').
have i1 d l i : (l < ky)%N -> (i < kx)%N -> tau' (mv m n kx ky dx dy tau d) l i = - tau d l i.
  move=> hl hi; rewrite /tau' /tau; set dd := mv _ _ _ _ _ _ _ _.
  have -> : thc m n G ac xc' (Sd m kx ky dd) l i = thc m n G ac xc' (S_to yc yc' (Sd m kx ky d)) l i.
    by apply: eq_thc_in => // j hj; rewrite mv_S.
  have -> : thc m n G ac xc (S_to yc' yc (Sd m kx ky dd)) l i = thc m n G ac xc (Sd m kx ky d) l i.
    by apply: eq_thc_in => // j hj; rewrite /S_to mv_S // /dy -addrA -[yc' j l - yc j l]opprB subrr addr0.
  by rewrite !opprB addrA.
have i2 d l i : (l < ky)%N -> (i < kx)%N -> tau (mv m n kx ky (fun k i => - dx k i) (fun k i => - dy k i) tau' d) l i = - tau' d l i.
  move=> hl hi; rewrite /tau' /tau; set dd := mv _ _ _ _ _ _ _ _.
  have -> : thc m n G ac xc (Sd m kx ky dd) l i = thc m n G ac xc (S_to yc' yc (Sd m kx ky d)) l i.
    by apply: eq_thc_in => // j hj; rewrite mv_S // /dy opprB.
  have -> : thc m n G ac xc' (S_to yc yc' (Sd m kx ky dd)) l i = thc m n G ac xc' (Sd m kx ky d) l i.
    by apply: eq_thc_in => // j hj; rewrite /S_to mv_S // /dy subrK.
  by rewrite !opprB opprD addrA addrAC.
exists (mvt dx dy tau); split; first exact: (mvt_bij x1 x2 i1 i2).
move=> d d' /(mvt_cut x1) hd.
have hR k i : (k < m)%N -> (i < kx)%N -> Rd kx d' k i = R_to xc xc' (Rd kx d) k i.
  by move=> hk hi; rewrite {1}/Rd hd ?tlen_R // -/(Rd kx (mv _ _ _ _ _ _ _ _) k i) mv_R.
have hS j l : (j < n)%N -> (l < ky)%N -> Sd m kx ky d' j l = S_to yc yc' (Sd m kx ky d) j l.
  by move=> hj hl; rewrite {1}/Sd hd ?tlen_S // -/(Sd m kx ky (mv _ _ _ _ _ _ _ _) j l) mv_S.
have hT l i : (l < ky)%N -> (i < kx)%N -> Td m n kx ky d' l i
    = T_to m n G ac xc xc' yc yc' tec (Sd m kx ky d) (Td m n kx ky d) l i.
  by move=> hl hi; rewrite {1}/Td hd ?tlen_T // -/(Td m n kx ky (mv _ _ _ _ _ _ _ _) l i) mv_T.
rewrite /gpub; congr (_, _, (_, _)); apply: eq_in_mkseq => k hk.
- exact: (hide_c hX hX' hR).
- exact: (hide_d hY hY' hS).
- by rewrite addr0; exact: (hide_pi fb hA hB indep hX hX' hY hY' hpe hte heq hR hS hT).
by rewrite addr0; exact: (hide_th hA hX hX' hte hS hT).
Qed.
End Pub.
