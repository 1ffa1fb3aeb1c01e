(** The algebra of re-randomization, over arbitrary modules. *)
From mathcomp Require Import all_ssreflect all_algebra.
From Verif Require Import BaseLemmas CoreAlg HideCore HideTape.
Set Implicit Arguments.
Unset Strict Implicit.
Unset Printing Implicit Defensive.
Import GRing.Theory.
Local Open Scope ring_scope.

Section Alt.
Context {F : fieldType} {U V : lmodType F}.
Variables (m n kx ky : nat).
Variables (A X u : nat -> U) (B Y v : nat -> V) (G R S T : nat -> nat -> F).

(** [gs_pi] and [gs_th] in terms of the commitments. *)
Lemma gs_pi_alt i : gs_pi m n ky B Y v G R S T i
  = \sum_(0 <= k < m) R k i *: (B k + \sum_(0 <= j < n) G k j *: gs_d ky Y v S j) - \sum_(0 <= l < ky) T l i *: v l.
Proof.
have -> : \sum_(0 <= k < m) R k i *: (B k + \sum_(0 <= j < n) G k j *: gs_d ky Y v S j)
  = \sum_(0 <= k < m) R k i *: B k + \sum_(0 <= j < n) (\sum_(0 <= k < m) R k i * G k j) *: gs_d ky Y v S j.
  under eq_bigr do rewrite scalerDr scaler_sumr; rewrite big_split /=; congr (_ + _).
  rewrite exchange_big /=; apply: eq_bigr => j _; rewrite scaler_suml.
  by apply: eq_bigr => k _; rewrite scalerA.
rewrite /gs_pi -!addrA; congr (_ + _).
rewrite /gs_d; under [in RHS]eq_bigr do rewrite scalerDr scaler_sumr.
rewrite big_split /= -addrA; congr (_ + _).
rewrite exchange_big /= -sumrB; apply: eq_bigr => l _; rewrite scalerBl scaler_suml; congr (_ - _).
by apply: eq_bigr => j _; rewrite scalerA.
Qed.
Lemma gs_th_alt l : gs_th m n kx A X u G S T l
  = \sum_(0 <= j < n) S j l *: (A j + \sum_(0 <= k < m) G k j *: X k) + \sum_(0 <= i < kx) T l i *: u i.
Proof.
rewrite /gs_th; congr (_ + _); under [in RHS]eq_bigr do rewrite scalerDr scaler_sumr.
rewrite big_split /=; congr (_ + _); rewrite exchange_big /=; apply: eq_bigr => k _.
by rewrite scaler_suml; apply: eq_bigr => j _; rewrite scalerA.
Qed.
End Alt.

Section Twice.
Context {F : fieldType} {U V : lmodType F}.
Variables (m n kx ky : nat).
Variables (A X u : nat -> U) (B Y v : nat -> V) (G R0 S0 T0 R S T : nat -> nat -> F).
Let c0 := gs_c kx X u R0.
Let d0 := gs_d ky Y v S0.
(** The randomness of the proof after re-randomization. *)
Definition T_re l i : F := T l i + (T0 l i + \sum_(0 <= k < m) R0 k i * \sum_(0 <= j < n) G k j * S j l).

Lemma c_twice k : gs_c kx c0 u R k = gs_c kx X u (fun k i => R k i + R0 k i) k.
Proof.
rewrite {1}/gs_c /c0 /gs_c -addrA -big_split /=; congr (_ + _).
by apply: eq_bigr => i _; rewrite addrC -scalerDl.
Qed.
Lemma d_twice j : gs_d ky d0 v S j = gs_d ky Y v (fun j l => S j l + S0 j l) j.
Proof.
rewrite {1}/gs_d /d0 /gs_d -addrA -big_split /=; congr (_ + _).
by apply: eq_bigr => i _; rewrite addrC -scalerDl.
Qed.

Lemma pi_twice i : gs_pi m n ky B Y v G (fun k i => R k i + R0 k i) (fun j l => S j l + S0 j l) T_re i
  = gs_pi m n ky B Y v G R0 S0 T0 i + gs_pi m n ky B d0 v G R S T i.
Proof.
rewrite !gs_pi_alt.
under [X in _ = _ + (X - _)]eq_bigr do under eq_bigr do rewrite d_twice.
set D := gs_d ky Y v (fun j l => S j l + S0 j l).
have hD j : d0 j = D j - \sum_(0 <= l < ky) S j l *: v l.
  by rewrite /D -d_twice /gs_d addrK.
rewrite -/d0; under [X in _ = X - _ + _]eq_bigr do under eq_bigr do rewrite hD scalerBr.
under [X in _ = X - _ + _]eq_bigr do rewrite sumrB addrA scalerBr.
rewrite sumrB.
set P := \sum_(0 <= k < m) R0 k i *: (B k + _); set Q := \sum_(0 <= k < m) R k i *: (B k + _).
have -> : \sum_(0 <= k < m) (R k i + R0 k i) *: (B k + \sum_(0 <= j < n) G k j *: D j) = P + Q.
  by rewrite /P /Q -big_split; apply: eq_bigr => k _; rewrite scalerDl addrC.
rewrite /T_re; under [X in _ - X = _]eq_bigr do rewrite !scalerDl.
rewrite !big_split /=.
have -> : \sum_(0 <= l < ky) (\sum_(0 <= k < m) R0 k i * (\sum_(0 <= j < n) G k j * S j l)) *: v l
  = \sum_(0 <= k < m) R0 k i *: \sum_(0 <= j < n) G k j *: (\sum_(0 <= l < ky) S j l *: v l).
  under eq_bigr do rewrite scaler_suml; rewrite exchange_big /=; apply: eq_bigr => k _.
  under eq_bigr do rewrite -scalerA scaler_suml; rewrite -scaler_sumr; congr (_ *: _).
  rewrite exchange_big /=; apply: eq_bigr => j _; rewrite scaler_sumr.
  by apply: eq_bigr => l _; rewrite scalerA.
rewrite !opprD -!addrA; congr (_ + _).
set a := \sum_(0 <= l < ky) T l i *: v l; set b := \sum_(0 <= l < ky) T0 l i *: v l; set e := \sum_(0 <= k < m) _.
by rewrite [RHS]addrA [RHS]addrCA; congr (_ + _); rewrite addrC; congr (_ + _); rewrite addrC.
Qed.

Lemma th_twice l : gs_th m n kx A X u G (fun j l => S j l + S0 j l) T_re l
  = gs_th m n kx A X u G S0 T0 l + gs_th m n kx A c0 u G S T l.
Proof.
rewrite !gs_th_alt /c0.
have -> : \sum_(0 <= j < n) S j l *: (A j + \sum_(0 <= k < m) G k j *: gs_c kx X u R0 k)
  = \sum_(0 <= j < n) S j l *: (A j + \sum_(0 <= k < m) G k j *: X k)
    + \sum_(0 <= j < n) S j l *: \sum_(0 <= k < m) G k j *: \sum_(0 <= i < kx) R0 k i *: u i.
  rewrite -big_split /=; apply: eq_bigr => j _; rewrite -scalerDr -addrA -big_split /=; congr (_ *: (_ + _)).
  by apply: eq_bigr => k _; rewrite -scalerDr.
have -> : \sum_(0 <= j < n) S j l *: (\sum_(0 <= k < m) G k j *: (\sum_(0 <= i < kx) R0 k i *: u i))
  = \sum_(0 <= i < kx) (\sum_(0 <= k < m) R0 k i * (\sum_(0 <= j < n) G k j * S j l)) *: u i.
  under eq_bigr do rewrite scaler_sumr; under eq_bigr do under eq_bigr do rewrite !scaler_sumr.
  under eq_bigr do rewrite exchange_big /=; rewrite exchange_big /=; apply: eq_bigr => i _.
  rewrite exchange_big scaler_suml /=; apply: eq_bigr => k _.
  rewrite mulr_sumr scaler_suml; apply: eq_bigr => j _; rewrite !scalerA; congr (_ *: _).
  by rewrite mulrC [S j l * _]mulrC.
rewrite /T_re; under [X in _ + X = _]eq_bigr do rewrite !scalerDl.
rewrite !big_split /=.
have -> : \sum_(0 <= j < n) (S j l + S0 j l) *: (A j + \sum_(0 <= k < m) G k j *: X k)
  = \sum_(0 <= j < n) S0 j l *: (A j + \sum_(0 <= k < m) G k j *: X k) + \sum_(0 <= j < n) S j l *: (A j + \sum_(0 <= k < m) G k j *: X k).
  by rewrite -big_split; apply: eq_bigr => j _; rewrite scalerDl addrC.
set a := \sum_(0 <= j < n) _; set b := \sum_(0 <= j < n) _; set e1 := \sum_(0 <= i < kx) T l i *: _.
set e2 := \sum_(0 <= i < kx) T0 l i *: _; set e3 := \sum_(0 <= i < kx) _.
rewrite -!addrA; congr (_ + _); rewrite [RHS]addrCA; congr (_ + _).
by rewrite [LHS]addrC addrA.
Qed.
End Twice.

Section Re.
Context {F : fieldType} {U V : lmodType F}.
Variables (m n kx ky : nat).
Variables (A u : nat -> U) (B v : nat -> V) (G : nat -> nat -> F).
(** Re-randomization of commitments and a proof with the tape [t]. *)
Definition gre (g : seq U * seq V * (seq V * seq U)) (t : nat -> F) : seq U * seq V * (seq V * seq U) :=
  let '(c, d, (p, th)) := g in
  let R := Rd kx t in let S := Sd m kx ky t in let T := Td m n kx ky t in
  (mkseq (gs_c kx (nth 0 c) u R) m, mkseq (gs_d ky (nth 0 d) v S) n,
   (mkseq (fun i => nth 0 p i + gs_pi m n ky B (nth 0 d) v G R S T i) kx,
    mkseq (fun l => nth 0 th l + gs_th m n kx A (nth 0 c) u G S T l) ky)).

Lemma eq_gs_c (X X' : nat -> U) (R R' : nat -> nat -> F) k : X k = X' k -> (forall i, (i < kx)%N -> R k i = R' k i) ->
  gs_c kx X u R k = gs_c kx X' u R' k.
Proof. by move=> h hR; rewrite /gs_c h; congr (_ + _); apply: eq_big_nat => i /andP[_ hi]; rewrite hR. Qed.
Lemma eq_gs_d (Y Y' : nat -> V) (R R' : nat -> nat -> F) k : Y k = Y' k -> (forall i, (i < ky)%N -> R k i = R' k i) ->
  gs_d ky Y v R k = gs_d ky Y' v R' k.
Proof. by move=> h hR; rewrite /gs_d h; congr (_ + _); apply: eq_big_nat => i /andP[_ hi]; rewrite hR. Qed.
Lemma eq_gs_pi (Y Y' : nat -> V) (R R' S S' T T' : nat -> nat -> F) i : (forall j, (j < n)%N -> Y j = Y' j) ->
  (forall k, (k < m)%N -> R k i = R' k i) -> (forall j l, (j < n)%N -> (l < ky)%N -> S j l = S' j l) ->
  (forall l, (l < ky)%N -> T l i = T' l i) ->
  gs_pi m n ky B Y v G R S T i = gs_pi m n ky B Y' v G R' S' T' i.
Proof.
move=> hY hR hS hT; rewrite !gs_pi_alt; congr (_ - _); apply: eq_big_nat => k /andP[_ hk]; rewrite ?hR ?hT //.
by congr (_ *: (_ + _)); apply: eq_big_nat => j /andP[_ hj]; rewrite (eq_gs_d (hY j hj) (R' := S')) // => l hl; exact: hS.
Qed.
Lemma eq_gs_th (X X' : nat -> U) (S S' T T' : nat -> nat -> F) l : (forall j, (j < m)%N -> X j = X' j) ->
  (forall j, (j < n)%N -> S j l = S' j l) -> (forall i, (i < kx)%N -> T l i = T' l i) ->
  gs_th m n kx A X u G S T l = gs_th m n kx A X' u G S' T' l.
Proof.
move=> hX hS hT; rewrite !gs_th_alt; congr (_ + _); apply: eq_big_nat => k /andP[_ hk]; rewrite ?hS ?hT //.
by congr (_ *: (_ + _)); apply: eq_big_nat => j /andP[_ hj]; rewrite hX.
Qed.

Theorem rerand_exists (X : nat -> U) (Y : nat -> V) (d0 : nat -> F) :
  let N := tlen m n kx ky in let pub := gpub m n kx ky A u B v G X Y (fun=> 0) (fun=> 0) in
  exists phi : N.-tuple F -> N.-tuple F, bijective phi /\
  forall d t, cut N d = phi (cut N t) -> pub d = gre (pub d0) t.
Proof.
move=> N pub.
pose dx := Rd kx d0; pose dy := Sd m kx ky d0.
pose tau (d : nat -> F) l i := Td m n kx ky d0 l i + \sum_(0 <= k < m) Rd kx d0 k i * \sum_(0 <= j < n) G k j * Sd m kx ky d j l.
pose dy' j l := - dy j l.
pose tau' (d : nat -> F) l i := - (Td m n kx ky d0 l i + \sum_(0 <= k < m) Rd kx d0 k i * \sum_(0 <= j < n) G k j * (Sd m kx ky d j l - dy j l)).
have e1 (d d' : nat -> F) : (forall p, (p < N)%N -> d p = d' p) -> forall j l, (j < n)%N -> (l < ky)%N -> Sd m kx ky d j l = Sd m kx ky d' j l.
  by move=> h j l hj hl; apply: h; exact: tlen_S.
have x1 d d' : (forall p, (p < N)%N -> d p = d' p) -> forall l i, (l < ky)%N -> (i < kx)%N -> tau d l i = tau d' l i.
  move=> h l i hl hi; rewrite /tau; congr (_ + _); apply: eq_bigr => k _; congr (_ * _).
  by apply: eq_big_nat => j /andP[_ hj]; rewrite (e1 d d').
have x2 d d' : (forall p, (p < N)%N -> d p = d' p) -> forall l i, (l < ky)%N -> (i < kx)%N -> tau' d l i = tau' d' l i.
  move=> h l i hl hi; rewrite /tau'; congr (- (_ + _)); apply: eq_bigr => k _; congr (_ * _).
  by apply: eq_big_nat => j /andP[_ hj]; rewrite (e1 d d').
have i1 d l i : (l < ky)%N -> (i < kx)%N -> tau' (mv m n kx ky dx dy tau d) l i = - tau d l i.
  move=> hl hi; rewrite /tau' /tau; congr (- (_ + _)); apply: eq_bigr => k _; congr (_ * _).
  by apply: eq_big_nat => j /andP[_ hj]; rewrite mv_S // addrK.
have i2 d l i : (l < ky)%N -> (i < kx)%N -> tau (mv m n kx ky (fun k i => - dx k i) (fun k i => - dy k i) tau' d) l i = - tau' d l i.
  move=> hl hi; rewrite /tau' /tau opprK; congr (_ + _); apply: eq_bigr => k _; congr (_ * _).
  by apply: eq_big_nat => j /andP[_ hj]; rewrite mv_S.
exists (mvt dx dy tau); split; first exact: (mvt_bij x1 x2 i1 i2).
move=> d t /(mvt_cut x1) hd.
have hR k i : (k < m)%N -> (i < kx)%N -> Rd kx d k i = Rd kx t k i + Rd kx d0 k i.
  by move=> hk hi; rewrite {1}/Rd hd ?tlen_R // -/(Rd kx (mv _ _ _ _ _ _ _ _) k i) mv_R.
have hS j l : (j < n)%N -> (l < ky)%N -> Sd m kx ky d j l = Sd m kx ky t j l + Sd m kx ky d0 j l.
  by move=> hj hl; rewrite {1}/Sd hd ?tlen_S // -/(Sd m kx ky (mv _ _ _ _ _ _ _ _) j l) mv_S.
have hT l i : (l < ky)%N -> (i < kx)%N -> Td m n kx ky d l i
    = T_re m n G (Rd kx d0) (Td m n kx ky d0) (Sd m kx ky t) (Td m n kx ky t) l i.
  by move=> hl hi; rewrite {1}/Td hd ?tlen_T // -/(Td m n kx ky (mv _ _ _ _ _ _ _ _) l i) mv_T.
have hc k : (k < m)%N -> nth 0 (mkseq (gs_c kx X u (Rd kx d0)) m) k = gs_c kx X u (Rd kx d0) k by move=> hk; rewrite nth_mkseq.
have hdd j : (j < n)%N -> nth 0 (mkseq (gs_d ky Y v (Sd m kx ky d0)) n) j = gs_d ky Y v (Sd m kx ky d0) j by move=> hk; rewrite nth_mkseq.
rewrite /pub /gpub /gre; congr (_, _, (_, _)); apply: eq_in_mkseq => k hk.
- rewrite (eq_gs_c (hc k hk) (R' := Rd kx t)) // c_twice; apply: eq_gs_c => // i hi; exact: hR.
- rewrite (eq_gs_d (hdd k hk) (R' := Sd m kx ky t)) // d_twice; apply: eq_gs_d => // i hi; exact: hS.
- rewrite nth_mkseq // !addr0 (eq_gs_pi hdd (R' := Rd kx t) (S' := Sd m kx ky t) (T' := Td m n kx ky t)) //.
  by rewrite -pi_twice; apply: eq_gs_pi => [//|j hj|j l hj hl|l hl]; [exact: hR | exact: hS | exact: hT].
rewrite nth_mkseq // !addr0 (eq_gs_th hc (S' := Sd m kx ky t) (T' := Td m n kx ky t)) //.
by rewrite -(th_twice _ _ _ _ _ _ _ (Rd kx d0)); apply: eq_gs_th => [//|j hj|l hl]; [exact: hS | exact: hT].
Qed.
End Re.
