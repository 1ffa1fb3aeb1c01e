(** Facts about the runtime of Base.v. *)
From mathcomp Require Import all_ssreflect all_algebra.
From Verif Require Import Base.
Set Implicit Arguments.
Unset Strict Implicit.
Unset Printing Implicit Defensive.
Import GRing.Theory.

Definition isok {A} (r : res A) : bool := if r is Ok _ then true else false.

Lemma bind_ok A B (m : res A) (k : A -> res B) b :
  bind m k = Ok b -> exists2 a, m = Ok a & k a = Ok b.
Proof. by case: m => //= a; exists a. Qed.

Arguments bind_ok {A B m k b} _.

Lemma isokP A (r : res A) : reflect (exists a, r = Ok a) (isok r).
Proof. by case: r => [a|p]; constructor; [exists a | case]. Qed.

Lemma isok_bind A B (m : res A) (k : A -> res B) :
  isok (bind m k) = (if m is Ok a then isok (k a) else false).
Proof. by case: m. Qed.

Lemma not_isok A (r : res A) : ~~ isok r -> exists p, r = Panic p.
Proof. by case: r => // p _; exists p. Qed.

Lemma assert_eqT a b : a = b -> assert_eq a b = Ok tt.
Proof. by rewrite /assert_eq => ->; rewrite eqxx. Qed.

Lemma assert_eq_ok a b u : assert_eq a b = Ok u -> a = b.
Proof. by rewrite /assert_eq; case: eqP. Qed.
Arguments assert_eq_ok {a b u} _.

Lemma isok_assert_eq a b : isok (assert_eq a b) = (a == b).
Proof. by rewrite /assert_eq; case: eqP. Qed.

Section Idx.
Context {A : Type}.
Implicit Types (s : seq A).

Lemma idx_nth d s i : i < size s -> idx s i = Ok (nth d s i).
Proof. by elim: s i => [//|x s IH] [|i] //= /IH ->. Qed.

Lemma idx_oob s i : size s <= i -> idx s i = Panic IndexOutOfBounds.
Proof. by elim: s i => [|x s IH] [|i] //= /IH ->. Qed.

Lemma isok_idx s i : isok (idx s i) = (i < size s).
Proof. by elim: s i => [|x s IH] [|i] //=; rewrite IH. Qed.

Lemma idx_ok d s i a : idx s i = Ok a -> i < size s /\ a = nth d s i.
Proof.
move=> h; have hi : i < size s by rewrite -isok_idx h.
by split=> //; move: h; rewrite (idx_nth d hi) => -[].
Qed.

Arguments idx_ok d {s i a} _.

Lemma idx_panic s i p : idx s i = Panic p -> p = IndexOutOfBounds.
Proof.
case: (ltnP i (size s)) => h.
  by case: s h => // x s h; rewrite (idx_nth x).
by rewrite idx_oob // => -[].
Qed.
End Idx.

Section MapM.
Context {A B : Type}.
Implicit Types (f : A -> res B) (s : seq A).

Lemma mapM_Ok f (g : A -> B) s :
  (forall i, i < size s -> forall d, f (nth d s i) = Ok (g (nth d s i))) ->
  mapM f s = Ok [seq g x | x <- s].
Proof.
elim: s => //= x s IH h.
rewrite (h 0 isT x) /= IH // => i hi d.
exact: (h i.+1 hi).
Qed.

Lemma mapM_pure (g : A -> B) s : mapM (fun x => Ok (g x)) s = Ok [seq g x | x <- s].
Proof. exact: mapM_Ok. Qed.

Lemma mapM_eq f f' s : (forall x, f x = f' x) -> mapM f s = mapM f' s.
Proof. by move=> h; elim: s => //= x s ->; rewrite h. Qed.

Lemma mapM_size f s t : mapM f s = Ok t -> size t = size s.
Proof.
elim: s t => [|x s IH] t /=; first by case=> <-.
move=> /bind_ok[y _ /bind_ok[ys h [<-]]] /=.
by rewrite (IH _ h).
Qed.

Lemma mapM_inv f s t (d : A) (e : B) i :
  mapM f s = Ok t -> i < size s -> f (nth d s i) = Ok (nth e t i).
Proof.
elim: s t i => [//|x s IH] t i /=.
move=> /bind_ok[y hy /bind_ok[ys h [<-]]].
by case: i => [|i] //= hi; apply: IH h hi.
Qed.

Lemma isok_mapM f s : isok (mapM f s) = all (fun x => isok (f x)) s.
Proof.
elim: s => //= x s IH; case: (f x) => //= y.
by move: IH; case: (mapM f s).
Qed.
End MapM.

Lemma mapM_iota_Ok B (f : nat -> res B) (g : nat -> B) n :
  (forall i, i < n -> f i = Ok (g i)) -> mapM f (iota 0 n) = Ok (mkseq g n).
Proof.
move=> h; apply: mapM_Ok => i; rewrite size_iota => hi d.
by rewrite nth_iota // add0n h.
Qed.

Lemma isok_mapM_iota B (f : nat -> res B) n :
  isok (mapM f (iota 0 n)) = all (fun i => isok (f i)) (iota 0 n).
Proof. exact: isok_mapM. Qed.

Lemma all_iotaP n (P : pred nat) :
  reflect (forall i, i < n -> P i) (all P (iota 0 n)).
Proof.
apply: (iffP allP) => h i; first by move=> hi; apply: h; rewrite mem_iota.
by rewrite mem_iota /= add0n => hi; apply: h.
Qed.

Section SumM.
Context {V : zmodType}.
Local Open Scope ring_scope.

Lemma foldM_add_Ok A (f : A -> res V) (g : A -> V) s z :
  (forall i, (i < size s)%N -> forall d, f (nth d s i) = Ok (g (nth d s i))) ->
  foldM (fun acc x => let! v := f x in Ok (acc + v)) z s = Ok (z + \sum_(x <- s) g x).
Proof.
elim: s z => [|x s IH] z h /=; first by rewrite big_nil addr0.
rewrite (h 0%N isT x) /= IH; first by rewrite big_cons addrA.
by move=> i hi d; apply: (h i.+1).
Qed.

Lemma sumM_iota_Ok (f : nat -> res V) (g : nat -> V) n :
  (forall i, (i < n)%N -> f i = Ok (g i)) ->
  sumM 0 +%R f (iota 0 n) = Ok (\sum_(0 <= i < n) g i).
Proof.
move=> h; rewrite /sumM (@foldM_add_Ok _ f g).
  by rewrite add0r /index_iota subn0.
move=> i; rewrite size_iota => hi d; rewrite nth_iota // add0n; exact: h.
Qed.
End SumM.

Lemma isok_foldM_add A T (add : T -> T -> T) (f : A -> res T) s z :
  isok (foldM (fun acc x => let! v := f x in Ok (add acc v)) z s)
  = all (fun x => isok (f x)) s.
Proof. by elim: s z => //= x s IH z; case: (f x) => //= v; rewrite IH. Qed.

Lemma isok_sumM A T zero (add : T -> T -> T) (f : A -> res T) s :
  isok (sumM zero add f s) = all (fun x => isok (f x)) s.
Proof. exact: isok_foldM_add. Qed.

(** Only index panics. *)
Definition idx_only {A} (r : res A) : Prop :=
  match r with Ok _ => True | Panic p => p = IndexOutOfBounds end.

Lemma idx_only_bind A B (m : res A) (k : A -> res B) :
  idx_only m -> (forall a, idx_only (k a)) -> idx_only (bind m k).
Proof. by case: m => [a|p] //= _ h; exact: h. Qed.

Lemma idx_only_idx A (s : seq A) i : idx_only (idx s i).
Proof. by case h: (idx s i) => [//|p] /=; apply: idx_panic h. Qed.

Lemma idx_only_mapM A B (f : A -> res B) s :
  (forall x, idx_only (f x)) -> idx_only (mapM f s).
Proof.
move=> h; elim: s => //= x s IH; apply: idx_only_bind => // y.
exact: idx_only_bind.
Qed.

Lemma idx_only_foldM A S (f : S -> A -> res S) s z :
  (forall a x, idx_only (f a x)) -> idx_only (foldM f z s).
Proof.
move=> h; elim: s z => //= x s IH z; exact: idx_only_bind.
Qed.

(** ** Parallel collection *)

Lemma mapM_unwrap_Some T (s : seq T) : mapM unwrap_slot [seq Some x | x <- s] = Ok s.
Proof. by elim: s => //= x s ->. Qed.

Section Par.
Context {T : Type}.
Variables (r c : nat) (cell : nat -> nat -> res T).

Lemma mem_tasks i j : ((i, j) \in tasks r c) = (i < r) && (j < c).
Proof.
rewrite /tasks; apply/allpairsP/andP.
  case=> -[i' j'] /= [+ + [-> ->]].
  by rewrite !mem_iota.
by case=> hi hj; exists (i, j); rewrite !mem_iota.
Qed.

Let step (buf : matrix (option T)) (ij : nat * nat) :=
  let! v := cell ij.1 ij.2 in Ok (write_cell buf ij v).

(** The buffer after running the tasks in [done]. *)
Definition buffer (g : nat -> nat -> T) (done : order) : matrix (option T) :=
  mkseq (fun i => mkseq (fun j =>
    if (i, j) \in done then Some (g i j) else None) c) r.

Lemma buffer_nil g : buffer g [::] = nseq r (nseq c None).
Proof.
apply: (@eq_from_nth _ [::]); first by rewrite size_mkseq size_nseq.
move=> i; rewrite size_mkseq => hi; rewrite nth_mkseq // nth_nseq hi.
apply: (@eq_from_nth _ None); first by rewrite size_mkseq size_nseq.
by move=> j; rewrite size_mkseq => hj; rewrite nth_mkseq // nth_nseq hj.
Qed.

Lemma write_buffer g done i j : i < r -> j < c ->
  write_cell (buffer g done) (i, j) (g i j) = buffer g (rcons done (i, j)).
Proof.
move=> hi hj; rewrite /write_cell /=.
have sz : size (set_nth [::] (buffer g done) i
   (set_nth None (nth [::] (buffer g done) i) j (Some (g i j)))) = r.
  by rewrite size_set_nth size_mkseq; apply/maxn_idPr.
apply: (@eq_from_nth _ [::]); first by rewrite sz size_mkseq.
rewrite sz => i' hi'; rewrite nth_set_nth /=.
have nb d k : k < r -> nth [::] (buffer g d) k
  = mkseq (fun j => if (k, j) \in d then Some (g k j) else None) c.
  by move=> hk; rewrite nth_mkseq.
rewrite !nb //; case: (eqVneq i' i) => [->|ne]; last first.
  apply: eq_mkseq => j'.
  by rewrite mem_rcons in_cons xpair_eqE (negbTE ne).
have sz' : size (set_nth None (mkseq (fun j0 =>
   if (i, j0) \in done then Some (g i j0) else None) c) j (Some (g i j))) = c.
  by rewrite size_set_nth size_mkseq; apply/maxn_idPr.
apply: (@eq_from_nth _ None); first by rewrite sz' size_mkseq.
rewrite sz' => j' hj'; rewrite nth_set_nth /= !nth_mkseq //.
rewrite mem_rcons in_cons xpair_eqE eqxx /=.
by case: (eqVneq j' j) => [->|ne].
Qed.

Lemma foldM_step_Ok g ord done :
  all (fun ij => (ij.1 < r) && (ij.2 < c)) ord ->
  (forall ij, ij \in ord -> cell ij.1 ij.2 = Ok (g ij.1 ij.2)) ->
  foldM step (buffer g done) ord = Ok (buffer g (done ++ ord)).
Proof.
elim: ord done => [|[i j] ord IH] done /=; first by rewrite cats0.
case/andP=> /andP[hi hj] hall hc.
rewrite {1}/step (hc (i, j)) ?mem_head //= write_buffer // IH //.
  by rewrite cat_rcons.
by move=> ij h; apply: hc; rewrite in_cons h orbT.
Qed.

Lemma isok_foldM_step ord buf :
  isok (foldM step buf ord) = all (fun ij => isok (cell ij.1 ij.2)) ord.
Proof.
elim: ord buf => //= ij ord IH buf; rewrite {1}/step.
by case: (cell _ _) => //= v; rewrite IH.
Qed.

Lemma par_collect_Ok g ord : perm_eq ord (tasks r c) ->
  (forall i j, i < r -> j < c -> cell i j = Ok (g i j)) ->
  par_collect ord r c cell = Ok (mkseq (fun i => mkseq (g i) c) r).
Proof.
move=> hp hc; rewrite /par_collect -(buffer_nil g) -/step foldM_step_Ok /=.
- set f := mapM unwrap_slot.
  rewrite (@mapM_Ok _ _ f (fun row => pmap id row)) => [|i hi d]; last first.
    move: hi; rewrite size_mkseq => hi; rewrite (set_nth_default [::]) ?size_mkseq //.
    rewrite nth_mkseq //.
    have -> : mkseq (fun j => if (i, j) \in ord then Some (g i j) else None) c
              = [seq Some x | x <- mkseq (g i) c].
      rewrite /mkseq -map_comp; apply/eq_in_map => j.
      by rewrite mem_iota /= (perm_mem hp) mem_tasks hi => ->.
    rewrite /f mapM_unwrap_Some; congr Ok.
    by elim: (mkseq _ _) => //= x s <-.
  congr Ok; rewrite /buffer /mkseq -map_comp; apply/eq_in_map => i.
  rewrite mem_iota /= => hi.
  have -> : [seq (if (i, j) \in ord then Some (g i j) else None) | j <- iota 0 c]
            = [seq Some x | x <- [seq g i j | j <- iota 0 c]].
    rewrite -map_comp; apply/eq_in_map => j.
    by rewrite mem_iota /= (perm_mem hp) mem_tasks hi => ->.
  by elim: [seq g i j | j <- _] => //= x s ->.
- by apply/allP => -[i j]; rewrite (perm_mem hp) mem_tasks.
- by move=> [i j]; rewrite (perm_mem hp) mem_tasks /= => /andP[hi hj]; apply: hc.
Qed.

(** The sequential loops. *)
Definition seq_collect : res (matrix T) :=
  mapM (fun i => mapM (fun j => cell i j) (iota 0 c)) (iota 0 r).

Lemma isok_seq_collect : isok seq_collect = all (fun ij => isok (cell ij.1 ij.2)) (tasks r c).
Proof.
rewrite /seq_collect isok_mapM /tasks.
elim: (iota 0 r) => //= i s ->; rewrite all_cat isok_mapM all_map.
by congr andb; apply: eq_all.
Qed.

Lemma seq_collect_Ok g :
  (forall i j, i < r -> j < c -> cell i j = Ok (g i j)) ->
  seq_collect = Ok (mkseq (fun i => mkseq (g i) c) r).
Proof.
move=> h; apply: mapM_iota_Ok => i hi; apply: mapM_iota_Ok => j hj; exact: h.
Qed.

Lemma isok_par_collect ord : perm_eq ord (tasks r c) ->
  isok (par_collect ord r c cell) = isok seq_collect.
Proof.
move=> hp; rewrite isok_seq_collect -(perm_all _ hp).
case h : (all _ ord); last first.
  by rewrite /par_collect isok_bind -/step -(isok_foldM_step _ (nseq r (nseq c None))) in h *;
     case: (foldM _ _ _) h.
have h' : all (fun ij => isok (cell ij.1 ij.2)) (tasks r c) by rewrite -(perm_all _ hp).
have [hz|hn] := eqVneq (r * c) 0; last first.
  have hr : 0 < r by rewrite lt0n; apply: contraNneq hn => ->.
  have hc : 0 < c by rewrite lt0n; apply: contraNneq hn => ->; rewrite muln0.
  have := allP h' (0, 0); rewrite mem_tasks hr hc => /(_ isT) /isokP[d _].
  rewrite (@par_collect_Ok (fun i j => if cell i j is Ok v then v else d)) //.
  move=> i j hi hj; have := allP h' (i, j); rewrite mem_tasks hi hj => /(_ isT) /=.
  by case: (cell i j).
have e : tasks r c = [::].
  apply/eqP; rewrite -size_eq0 /tasks size_allpairs !size_iota; exact/eqP.
move: hp; rewrite e => /perm_size/size0nil ->.
rewrite /par_collect /= isok_mapM; apply/(all_nthP [::]) => i; rewrite size_nseq => hi.
rewrite nth_nseq hi isok_mapM; apply/(all_nthP None) => j; rewrite size_nseq => hj.
have : (i, j) \in tasks r c by rewrite mem_tasks hi.
by rewrite e.
Qed.

Lemma par_collect_seq ord : perm_eq ord (tasks r c) ->
  (forall i j, idx_only (cell i j)) ->
  par_collect ord r c cell = seq_collect.
Proof.
move=> hp hi; have := isok_par_collect hp.
case hs: seq_collect => [M|p] /=.
  have hM : isok seq_collect by rewrite hs.
  move: hM; rewrite isok_seq_collect => hM _.
  have [[d _]|] : (exists d : T, True) \/ (tasks r c = [::]).
    case e : (tasks r c) hM => [|ij l]; first by right.
    by move=> /= /andP[/isokP[d _] _]; left; exists d.
  - pose g i j := if cell i j is Ok v then v else d.
    have hg : forall i j, i < r -> j < c -> cell i j = Ok (g i j).
      move=> i j hi' hj; rewrite /g.
      have := allP hM (i, j); rewrite mem_tasks hi' hj => /(_ isT) /=.
      by case: (cell i j).
    by rewrite (par_collect_Ok hp hg) -hs (seq_collect_Ok hg).
  - move=> e; rewrite e in hp; move/perm_size/size0nil: hp => ->.
    have hz : forall i j, i < r -> j < c -> False.
      by move=> i j hi' hj; have := mem_tasks i j; rewrite e hi' hj.
    rewrite /par_collect /= -hs /seq_collect.
    case: (posnP r) => [->|hr] //; case: (posnP c) => [->|hc] //=; last first.
      by case: (hz 0 0).
    by elim: (r) (iota 0 r) (size_iota 0 r) => [|n IH] [|i l] //= [/IH ->].
move=> hn.
have: ~~ isok (par_collect ord r c cell) by rewrite hn.
have hb : all (fun ij => isok (cell ij.1 ij.2)) ord = false.
  by rewrite (perm_all _ hp) -isok_seq_collect hs.
have po : idx_only seq_collect by apply: idx_only_mapM => i; exact: idx_only_mapM.
rewrite hs /= in po; rewrite po.
rewrite /par_collect -/step.
have := isok_foldM_step ord (nseq r (nseq c None)); rewrite hb.
have : idx_only (foldM step (nseq r (nseq c None)) ord).
  by apply: idx_only_foldM => a x; apply: idx_only_bind.
by case: (foldM _ _ _) => //= q ->.
Qed.
End Par.

Lemma eq_in_mkseq A (f g : nat -> A) n :
  (forall i, i < n -> f i = g i) -> mkseq f n = mkseq g n.
Proof.
move=> h; apply: (@eq_from_nth _ (f 0)); first by rewrite !size_mkseq.
by move=> i; rewrite size_mkseq => hi; rewrite !nth_mkseq // h.
Qed.
