(** The combinators of [Base.v] and the generic matrix code preserve representation. *)
From mathcomp Require Import all_ssreflect all_algebra.
From Verif Require Import Base Group DataStructures Commit Statement Ark SpecArk.
Set Implicit Arguments.
Unset Strict Implicit.
Unset Printing Implicit Defensive.
Import GRing.Theory.

Lemma rbind S T S' T' (R : S -> T -> Prop) (R' : S' -> T' -> Prop) m n k l :
  rres R m n -> (forall x y, R x y -> rres R' (k x) (l y)) -> rres R' (bind m k) (bind n l).
Proof. by case: m n => [x|p] [y|q] //= h H; apply: H. Qed.

Lemma rres_eq T (m : res T) : rres eq m m.
Proof. by case: m. Qed.
Lemma rres_eqE T (m n : res T) : rres eq m n <-> m = n.
Proof. by split=> [|->]; [case: m n => [x|p] [y|q] //= -> | apply: rres_eq]. Qed.
Lemma rseq_eqE T (s t : seq T) : rseq eq s t <-> s = t.
Proof.
split=> [|<-]; first by elim: s t => [|x s IH] [|y t] //= [-> /IH ->].
by elim: s => //= x s IH; split.
Qed.
Lemma rseq_eq T (s : seq T) : rseq eq s s.
Proof. exact/rseq_eqE. Qed.

Section Rel.
Context {S T : Type} (R : S -> T -> Prop).

Lemma rsize s t : rseq R s t -> size s = size t.
Proof. by elim: s t => [|x s IH] [|y t] //= [_ /IH ->]. Qed.

Lemma ridx s t i : rseq R s t -> rres R (idx s i) (idx t i).
Proof. by elim: s t i => [|x s IH] [|y t] //= [|i] [h H] //=; apply: IH. Qed.

Lemma rcat s t s' t' : rseq R s t -> rseq R s' t' -> rseq R (s ++ s') (t ++ t').
Proof. by elim: s t => [|x s IH] [|y t] //= [h H] H'; split=> //; apply: IH. Qed.

Lemma rrcons s t x y : rseq R s t -> R x y -> rseq R (rcons s x) (rcons t y).
Proof. by rewrite -!cats1 => H h; apply: rcat. Qed.

Lemma rnseq n x y : R x y -> rseq R (nseq n x) (nseq n y).
Proof. by move=> h; elim: n. Qed.

Lemma rnth x y s t i : R x y -> rseq R s t -> R (nth x s i) (nth y t i).
Proof.
move=> h; elim: s t i => [|a s IH] [|b t] //= => [i _|[|i] [h1 h2] //=].
  by rewrite !nth_nil.
exact: IH.
Qed.

Lemma rset_nth x y s t i a b : R x y -> rseq R s t -> R a b -> rseq R (set_nth x s i a) (set_nth y t i b).
Proof.
move=> h; elim: s t i => [|c s IH] [|d t] //=.
- move=> i _ hab; rewrite /set_nth /=; case: i => [|i] //=; split=> //.
  by elim: i => //= i IH; split.
- by move=> [|i] [h1 h2] hab /=; split=> //; apply: IH.
Qed.

Lemma rmapM U V (Q : U -> V -> Prop) (f : S -> res U) (g : T -> res V) s t :
  (forall x y, R x y -> rres Q (f x) (g y)) -> rseq R s t -> rres (rseq Q) (mapM f s) (mapM g t).
Proof.
move=> H; elim: s t => [|x s IH] [|y t] //= [h hs].
apply: rbind (H _ _ h) _ => a b hab; apply: rbind (IH _ hs) _ => a' b' hab'.
by split.
Qed.

Lemma rmap U V (Q : U -> V -> Prop) (f : S -> U) (g : T -> V) s t :
  (forall x y, R x y -> Q (f x) (g y)) -> rseq R s t -> rseq Q (map f s) (map g t).
Proof. by move=> H; elim: s t => [|x s IH] [|y t] //= [h hs]; split; [apply: H | apply: IH]. Qed.

Lemma rfoldM U V (Q : U -> V -> Prop) f g a b s t : Q a b ->
  (forall a b x y, Q a b -> R x y -> rres Q (f a x) (g b y)) -> rseq R s t -> rres Q (foldM f a s) (foldM g b t).
Proof.
move=> h H; elim: s t a b h => [|x s IH] [|y t] //= a b h [hxy hs].
by apply: rbind (H _ _ _ _ h hxy) _ => a' b' h'; apply: IH.
Qed.

Lemma rfoldl U V (Q : U -> V -> Prop) f g a b s t : Q a b ->
  (forall a b x y, Q a b -> R x y -> Q (f a x) (g b y)) -> rseq R s t -> Q (foldl f a s) (foldl g b t).
Proof.
move=> h H; elim: s t a b h => [|x s IH] [|y t] //= a b h [hxy hs].
by apply: IH => //; apply: H.
Qed.
Lemma rnilp s t : rseq R s t -> nilp s = nilp t.
Proof. by rewrite /nilp => /rsize ->. Qed.
End Rel.

(** Loops over the same indices. *)
Lemma rmapMi U V (Q : U -> V -> Prop) I (f : I -> res U) (g : I -> res V) s :
  (forall i, rres Q (f i) (g i)) -> rres (rseq Q) (mapM f s) (mapM g s).
Proof. by move=> H; apply: (rmapM (R := eq)) (rseq_eq s) => x y ->. Qed.

Lemma rsumM U V (Q : U -> V -> Prop) I zu zv au av (f : I -> res U) (g : I -> res V) s :
  Q zu zv -> (forall a b c d, Q a b -> Q c d -> Q (au a c) (av b d)) ->
  (forall i, rres Q (f i) (g i)) -> rres Q (sumM zu au f s) (sumM zv av g s).
Proof.
move=> hz ha H; apply: (rfoldM (R := eq)) (rseq_eq s) => // a b x y h ->.
by apply: rbind (H _) _ => c d hcd /=; apply: ha.
Qed.

Definition ropt {S T} (R : S -> T -> Prop) o p : Prop :=
  match o, p with Some x, Some y => R x y | None, None => True | _, _ => False end.

Lemma rpar_collect U V (Q : U -> V -> Prop) ord r c (f : nat -> nat -> res U) (g : nat -> nat -> res V) :
  (forall i j, rres Q (f i j) (g i j)) -> rres (rmat Q) (par_collect ord r c f) (par_collect ord r c g).
Proof.
move=> H; apply: (rbind (R := rseq (rseq (ropt Q)))).
  apply: (rfoldM (R := eq)) (rseq_eq ord); first by apply: rnseq; apply: rnseq.
  move=> a b x y hab ->; apply: rbind (H _ _) _ => u v huv /=.
  apply: rset_nth => //; apply: rset_nth => //.
  exact: rnth.
move=> a b hab; apply: rmapM hab => x y hxy; apply: rmapM hxy => o p.
by case: o p => [u|] [v|].
Qed.

Section Mat.
Context {S T F : Type} (R : S -> T -> Prop).
Variables (sz : S) (sa : S -> S -> S) (so : S -> S) (ss : S -> F -> S).
Variables (tz : T) (ta : T -> T -> T) (to : T -> T) (ts : T -> F -> T).
Hypothesis hz : R sz tz.
Hypothesis ha : forall a b c d, R a b -> R c d -> R (sa a c) (ta b d).
Hypothesis ho : forall a b, R a b -> R (so a) (to b).
Hypothesis hs : forall a b k, R a b -> R (ss a k) (ts b k).

Lemma rmat_add M N M' N' : rmat R M N -> rmat R M' N' -> rres (rmat R) (mat_add sa M M') (mat_add ta N N').
Proof.
move=> h h'; rewrite /mat_add (rsize h) (rsize h').
apply: rbind (rres_eq _) _ => _ _ _; apply: rbind (ridx 0 h) _ => a b hab.
apply: rbind (ridx 0 h') _ => a' b' hab'; rewrite (rsize hab) (rsize hab').
apply: rbind (rres_eq _) _ => _ _ _; apply: rmapMi => i; apply: rmapMi => j.
apply: rbind (ridx i h) _ => x y hxy; apply: rbind (ridx j hxy) _ => u v huv.
apply: rbind (ridx i h') _ => x' y' hxy'; apply: rbind (ridx j hxy') _ => u' v' huv' /=.
exact: ha.
Qed.

Lemma rmat_neg M N : rmat R M N -> rres (rmat R) (mat_neg so M) (mat_neg to N).
Proof.
move=> h; rewrite /mat_neg (rsize h); apply: rmapMi => i; apply: rbind (ridx i h) _ => x y hxy.
rewrite (rsize hxy); apply: rmapMi => j; apply: rbind (ridx j hxy) _ => u v huv /=; exact: ho.
Qed.

Lemma rmat_scalar_mul M N k : rmat R M N -> rres (rmat R) (mat_scalar_mul ss M k) (mat_scalar_mul ts N k).
Proof.
move=> h; rewrite /mat_scalar_mul (rsize h); apply: rbind (ridx 0 h) _ => x y hxy.
rewrite (rsize hxy); apply: rmapMi => i; apply: rmapMi => j; apply: rbind (ridx i h) _ => u v huv.
apply: rbind (ridx j huv) _ => p q hpq /=; exact: hs.
Qed.

Lemma rmat_transpose M N : rmat R M N -> rres (rmat R) (mat_transpose M) (mat_transpose N).
Proof.
move=> h; apply: rbind (ridx 0 h) _ => x y hxy; rewrite (rsize hxy).
apply: rfoldM h => [|a b u v hab huv]; first exact: rnseq.
rewrite (rsize huv); apply: (rfoldM (R := eq)) (rseq_eq _) => // c d i j hcd ->.
apply: rbind (ridx j huv) _ => p q hpq; apply: rbind (ridx j hcd) _ => e f hef /=.
by apply: rset_nth => //; apply: rrcons.
Qed.

Lemma rno_cells M N : rmat R M N -> no_cells M = no_cells N.
Proof.
rewrite /no_cells => h; rewrite (rnilp h); case: M N h => [|x M] [|y N] //= [h _].
by rewrite (rnilp h).
Qed.

Lemma rmat_right_mul ord M N B par : rmat R M N ->
  rres (rmat R) (mat_right_mul sz sa ss ord M B par) (mat_right_mul tz ta ts ord N B par).
Proof.
move=> h; rewrite /mat_right_mul (rno_cells h) (rsize h).
case: ifP => // _; case: ifP => // _; apply: rbind (ridx 0 h) _ => a b hab; rewrite (rsize hab).
apply: rbind (rres_eq _) _ => _ _ _; apply: rbind (rres_eq _) _ => r0 _ <-.
have hc i j : rres R
   (let! row := idx M i in let dim := size B in sumM sz sa (fun k => let! x := idx row k in let! rk := idx B k in let! c := idx rk j in Ok (ss x c)) (iota 0 dim))
   (let! row := idx N i in let dim := size B in sumM tz ta (fun k => let! x := idx row k in let! rk := idx B k in let! c := idx rk j in Ok (ts x c)) (iota 0 dim)).
  apply: rbind (ridx i h) _ => x y hxy; apply: rsumM => // k.
  apply: rbind (ridx k hxy) _ => u v huv; apply: rbind (rres_eq _) _ => rk _ <-.
  by apply: rbind (rres_eq _) _ => c _ <- /=; apply: hs.
case: par; first exact: rpar_collect.
by apply: rmapMi => i; apply: rmapMi => j.
Qed.

Lemma rmat_left_mul ord M N B par : rmat R M N ->
  rres (rmat R) (mat_left_mul sz sa ss ord M B par) (mat_left_mul tz ta ts ord N B par).
Proof.
move=> h; rewrite /mat_left_mul (rno_cells h) (rsize h).
case: ifP => // _; case: ifP => // _; apply: rbind (rres_eq _) _ => l0 _ <-.
apply: rbind (rres_eq _) _ => _ _ _; apply: rbind (ridx 0 h) _ => a b hab; rewrite (rsize hab).
have hc i j : rres R
   (let! row := idx B i in let dim := size N in sumM sz sa (fun k => let! sk := idx M k in let! x := idx sk j in let! c := idx row k in Ok (ss x c)) (iota 0 dim))
   (let! row := idx B i in let dim := size N in sumM tz ta (fun k => let! sk := idx N k in let! x := idx sk j in let! c := idx row k in Ok (ts x c)) (iota 0 dim)).
  apply: rbind (rres_eq _) _ => row _ <-; apply: rsumM => // k.
  apply: rbind (ridx k h) _ => u v huv; apply: rbind (ridx j huv) _ => x y hxy.
  by apply: rbind (rres_eq _) _ => c _ <- /=; apply: hs.
case: par; first exact: rpar_collect.
by apply: rmapMi => i; apply: rmapMi => j.
Qed.

Lemma rcol_vec_to_vec M N : rmat R M N -> rres (rseq R) (col_vec_to_vec M) (col_vec_to_vec N).
Proof.
move=> h; rewrite /col_vec_to_vec (rsize h); case: ifP => _; first exact: ridx.
by apply: rmapM h => x y hxy; apply: ridx.
Qed.

Lemma rvec_to_col_vec s t : rseq R s t -> rmat R (vec_to_col_vec s) (vec_to_col_vec t).
Proof. by move=> h; apply: rmap h => x y hxy /=. Qed.
End Mat.
