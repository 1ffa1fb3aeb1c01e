(** Lemmas about serialization. *)
From mathcomp Require Import all_ssreflect all_algebra.
From Coq Require Import Strings.Byte.
From Verif Require Import Base Group DataStructures Commit Statement Codec SpecCodec Verify.
Set Implicit Arguments.
Unset Strict Implicit.
Unset Printing Implicit Defensive.

Lemma to_nat_byte_of n : to_nat (byte_of n) = (n %% 256)%N.
Proof.
rewrite /byte_of; case e: (of_nat (n %% 256)) => [b|]; first exact: to_of_nat.
move/of_nat_None_iff/ltP: e; rewrite ltnNge -ltnS; by rewrite ltn_mod.
Qed.

Lemma byte_of_to_nat b : byte_of (to_nat b) = b.
Proof.
rewrite /byte_of modn_small ?of_to_nat //.
by rewrite ltnS; apply/leP; exact: to_nat_bounded.
Qed.

Lemma size_le_bytes k n : size (le_bytes k n) = k.
Proof. by elim: k n => //= k IH n; rewrite IH. Qed.

Lemma le_bytesK k n : n < 256 ^ k -> le_val (le_bytes k n) = n.
Proof.
elim: k n => [|k IH] n; first by rewrite expn0; case: n.
move=> h; cbn [le_bytes le_val]; rewrite to_nat_byte_of IH; last by rewrite ltn_divLR // -expnSr.
by rewrite addnC -divn_eq.
Qed.

Lemma le_valK bs : le_bytes (size bs) (le_val bs) = bs.
Proof.
elim: bs => //= b bs IH.
have hb : to_nat b < 256 by rewrite ltnS; apply/leP; exact: to_nat_bounded.
rewrite -[in RHS]IH; congr (_ :: le_bytes _ _).
  by rewrite -[RHS]byte_of_to_nat /byte_of addnC modnMDl.
by rewrite addnC divnMDl // divn_small // addn0.
Qed.

Lemma two64 : 2 ^ 64 = 256 ^ 8.
Proof. by rewrite -[64]/(8 * 8)%N expnM. Qed.

Lemma u64_back n r : n < 2 ^ 64 -> u64_de (u64_ser n ++ r) = DOk n r.
Proof.
rewrite two64 /u64_de /u64_ser => h; rewrite size_cat size_le_bytes leq_addr.
by rewrite take_size_cat ?size_le_bytes // drop_size_cat ?size_le_bytes // le_bytesK.
Qed.

Lemma u64_canon bs n r : u64_de bs = DOk n r -> bs = u64_ser n ++ r.
Proof.
rewrite /u64_de /u64_ser; case: ifP => // h [<- <-].
by have := le_valK (take 8 bs); rewrite (size_takel h) => ->; rewrite cat_take_drop.
Qed.

Lemma dbind_ok A B (m : dres A) (k : A -> seq byte -> dres B) b r :
  dbind m k = DOk b r -> exists a, exists2 r', m = DOk a r' & k a r' = DOk b r.
Proof. by case: m => // a r' h; exists a, r'. Qed.
Arguments dbind_ok {A B m k b r} _.

Section Vec.
Variables (T : Type) (c : codec T).

Lemma items_back (D : T -> Prop) m s r : (forall m v x rest, D x -> de c m v (ser c m x ++ rest) = DOk x rest) ->
  List.Forall D s -> de_items c m (size s) (flatten [seq ser c m x | x <- s] ++ r) = DOk s r.
Proof.
by move=> h; elim: s r => //= x s IH r /List.Forall_cons_iff[hx hs]; rewrite -catA h //= IH.
Qed.

Lemma vec_back (D : T -> Prop) : reads_back D c -> accepts D c ->
  reads_back (fun s => short s /\ List.Forall D s) (vec_codec c).
Proof.
move=> h ha m v s r [hs hD]; 
rewrite -[de _ _ _]/(vec_de c m v) -[ser _ _ _]/(u64_ser (size s) ++ flatten [seq ser c m x | x <- s]) /vec_de -catA.
rewrite u64_back // /dbind (items_back _ _ h hD).
by case: v => //=; rewrite ha.
Qed.

Lemma vec_accepts (D : T -> Prop) : accepts D c -> accepts (List.Forall D) (vec_codec c).
Proof. by move=> h ss hs; apply: h; elim: hs => //= x l hx _ hl; apply/List.Forall_app. Qed.

Lemma items_canon m n bs s r : canonical c -> de_items c m n bs = DOk s r ->
  bs = flatten [seq ser c m x | x <- s] ++ r /\ size s = n.
Proof.
move=> h; elim: n bs s r => [|n IH] bs s r /=; first by case=> <- <-.
move=> h1; have [x [r1 hx h2]] := dbind_ok h1; have [xs [r2 /IH[e2 e3] [<- <-]]] := dbind_ok h2; have e1 := h _ _ _ _ _ hx.
by rewrite e1 e2 /= -catA e3.
Qed.

Lemma vec_canon : canonical c -> canonical (vec_codec c).
Proof.
move=> h m v bs s r /dbind_ok[n [r1 /u64_canon e1]] /dbind_ok[xs [r2 /(items_canon h)[e2 e3] e4]].
have [<- <-] : (xs, r2) = (s, r) by move: e4; case: v => [|[-> -> //]]; case: (bchk c xs) => // -[-> ->].
by rewrite e1 e2 -e3 catA.
Qed.

Lemma le_val_lt bs : le_val bs < 256 ^ size bs.
Proof.
elim: bs => //= b bs IH; rewrite expnS.
have hb : to_nat b < 256 by rewrite ltnS; apply/leP; exact: to_nat_bounded.
apply: (@leq_trans (256 + le_val bs * 256)); first by rewrite ltn_add2r.
by rewrite -mulSn mulnC leq_mul2l.
Qed.

Lemma u64_lt bs n r : u64_de bs = DOk n r -> n < 2 ^ 64.
Proof.
rewrite /u64_de; case: ifP => // h [<- _]; rewrite two64; have := le_val_lt (take 8 bs); by rewrite (size_takel h).
Qed.

Lemma items_yield (D : T -> Prop) m n bs s r : yields D c -> de_items c m n bs = DOk s r ->
  size s = n /\ List.Forall D s.
Proof.
move=> h; elim: n bs s r => [|n IH] bs s r /=; first by case=> <- _.
move=> h1; have [x [r1 hx h2]] := dbind_ok h1; have [xs [r2 /IH[e2 e3] [<- _]]] := dbind_ok h2; have e1 := h _ _ _ _ _ hx.
by rewrite /= e2; split=> //; constructor.
Qed.

Lemma vec_yields (D : T -> Prop) : yields D c -> yields (fun s => short s /\ List.Forall D s) (vec_codec c).
Proof.
move=> h m v bs s r /dbind_ok[n [r1 /u64_lt e1]] /dbind_ok[xs [r2 /(items_yield h)[e2 e3] e4]].
have <- : xs = s by move: e4; case: v => [|[-> //]]; case: (bchk c xs) => // -[->].
by rewrite /short e2.
Qed.

Lemma vec_size : size_exact c -> size_exact (vec_codec c).
Proof.
move=> h m s; rewrite /ssize /ser /vec_codec size_cat size_le_bytes size_flatten /shape -map_comp; congr (_ + sumn _).
by apply: eq_map => x; exact: h.
Qed.

Lemma vec_validates P : validates P c -> validates (List.Forall P) (vec_codec c).
Proof.
case=> _ h; split.
  move=> m bs s r /dbind_ok[n [r1 _]] /dbind_ok[xs [r2 _]].
  by case e: (bchk c xs) => // -[<- _]; exact: h.
move=> ss /h; elim: ss => //= s ss IH /List.Forall_app[h1 h2]; constructor=> //; exact: IH.
Qed.
End Vec.

Section Pair.
Variables (A B : Type) (ca : codec A) (cb : codec B).
Lemma pair_back (DA : A -> Prop) (DB : B -> Prop) : reads_back DA ca -> reads_back DB cb ->
  reads_back (fun p => DA p.1 /\ DB p.2) (pair_codec ca cb).
Proof. by move=> ha hb m v [a b] r [/= h1 h2]; rewrite -catA ha //= hb. Qed.

Lemma pair_accepts (DA : A -> Prop) (DB : B -> Prop) : accepts DA ca -> accepts DB cb ->
  accepts (fun p => DA p.1 /\ DB p.2) (pair_codec ca cb).
Proof.
move=> ha hb s hs; rewrite /= ha ?hb //; elim: hs => //= x l [h1 h2] _ IH; by constructor.
Qed.

Lemma pair_canon : canonical ca -> canonical cb -> canonical (pair_codec ca cb).
Proof.
move=> ha hb m v bs [a b] r /dbind_ok[a' [r1 /ha e1]] /dbind_ok[b' [r2 /hb e2 [<- <- <-]]]; rewrite e1 e2.
by rewrite /= catA.
Qed.

Lemma pair_yields (DA : A -> Prop) (DB : B -> Prop) : yields DA ca -> yields DB cb ->
  yields (fun p => DA p.1 /\ DB p.2) (pair_codec ca cb).
Proof. by move=> ha hb m v bs [a b] r /dbind_ok[a' [r1 /ha h1]] /dbind_ok[b' [r2 /hb h2 [<- <- _]]]. Qed.

Lemma pair_size : size_exact ca -> size_exact cb -> size_exact (pair_codec ca cb).
Proof. by move=> ha hb m [a b]; rewrite /= size_cat ha hb. Qed.

Lemma pair_validates (PA : A -> Prop) (PB : B -> Prop) : validates PA ca -> validates PB cb ->
  validates (fun p => PA p.1 /\ PB p.2) (pair_codec ca cb).
Proof.
move=> [ha1 ha2] [hb1 hb2]; split.
  by move=> m bs [a b] r /dbind_ok[a' [r1 /ha1 h1]] /dbind_ok[b' [r2 /hb1 h2 [<- <- _]]].
move=> s /=; rewrite /obind_err; case e1: (bchk ca _) => // e2.
move: (ha2 _ e1) (hb2 _ e2); elim: s {e1 e2} => //= x s IH /List.Forall_cons_iff[h1 h2] /List.Forall_cons_iff[h3 h4].
by constructor=> //; exact: IH.
Qed.
End Pair.

Section Struct.
Variables (A S : Type) (ca : codec A) (of_f : A -> S) (fl : S -> A).
Hypothesis fK : forall a, fl (of_f a) = a.
Hypothesis sK : forall x, of_f (fl x) = x.
Lemma struct_back (D : A -> Prop) (D' : S -> Prop) : (forall x, D' x -> D (fl x)) -> reads_back D ca ->
  reads_back D' (struct_codec ca of_f fl).
Proof. by move=> hD h m v x r /hD hx; rewrite /= h //= sK. Qed.
Lemma struct_accepts (D : A -> Prop) (D' : S -> Prop) : (forall x, D' x -> D (fl x)) -> accepts D ca ->
  accepts D' (struct_codec ca of_f fl).
Proof. by move=> hD h s hs; apply: h; elim: hs => //= x l /hD; constructor. Qed.
Lemma struct_canon : canonical ca -> canonical (struct_codec ca of_f fl).
Proof. by move=> h m v bs x r /dbind_ok[a [r1 /h -> [<- <-]]]; rewrite /= fK. Qed.
Lemma struct_yields (D : A -> Prop) (D' : S -> Prop) : (forall x, D (fl x) -> D' x) -> yields D ca ->
  yields D' (struct_codec ca of_f fl).
Proof. by move=> hD h m v bs x r /dbind_ok[a [r1 /h ha [<- _]]]; apply: hD; rewrite fK. Qed.
Lemma struct_size : size_exact ca -> size_exact (struct_codec ca of_f fl).
Proof. by move=> h m x; exact: h. Qed.
Lemma struct_validates (P : A -> Prop) (P' : S -> Prop) : (forall x, P (fl x) -> P' x) -> validates P ca ->
  validates P' (struct_codec ca of_f fl).
Proof.
move=> hP [h1 h2]; split.
  by move=> m bs x r /dbind_ok[a [r1 /h1 ha [<- _]]]; apply: hP; rewrite fK.
by move=> s /h2; elim: s => //= x s IH /List.Forall_cons_iff[hx hs]; constructor; [exact: hP | exact: IH].
Qed.
End Struct.

Lemma forall_any T (s : seq T) : List.Forall any s.
Proof. by elim: s => [|x s IH]; constructor. Qed.

Lemma canonical_one T (c : codec T) : canonical c -> one_encoding c.
Proof. by move=> h m v v' bs bs' x /h -> /h ->. Qed.

Lemma canonical_prefix T D (c : codec T) : yields D c -> reads_back D c -> canonical c -> prefix_free D c.
Proof.
move=> hD hb hc m v x p t y r hx e hy; have ep := hc _ _ _ _ _ hy; move: e; rewrite ep -catA => e.
have := hb m v y (r ++ t) (hD _ _ _ _ _ hy); rewrite -e -[ser c m x]cats0 hb // => -[-> /esym] /(congr1 size)/eqP.
by rewrite size_cat addn_eq0 => /andP[_ /nilP].
Qed.

(** [EquType]. *)
Lemma equtype_back : reads_back any equtype_codec.
Proof. by move=> m v [] r _. Qed.
Lemma equtype_accepts : accepts any equtype_codec.
Proof. by move=> s _; elim: s. Qed.
Lemma equtype_canon : canonical equtype_codec.
Proof. by move=> m v [|b bs] x r //; case: b => //= -[<- <-]. Qed.
Lemma any_yields T (c : codec T) : yields any c.
Proof. by []. Qed.
Lemma equtype_size : size_exact equtype_codec.
Proof. by move=> m []. Qed.
Lemma equtype_validates : validates any equtype_codec.
Proof. by split=> // s _; exact: forall_any. Qed.
Lemma equtype_rejects b bs m v : (3 < to_nat b)%N -> de equtype_codec m v (b :: bs) = DErr InvalidData.
Proof. by case: b. Qed.
