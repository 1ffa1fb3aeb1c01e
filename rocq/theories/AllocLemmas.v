(** Lemmas about reading with allocation. *)
From mathcomp Require Import all_ssreflect all_algebra.
From Coq Require Import Strings.Byte.
From Verif Require Import Base Group DataStructures Generator Commit Statement Prove Verify Codec SpecCodec CodecLemmas CodecProps CodecAlloc SpecAlloc.
Set Implicit Arguments.
Unset Strict Implicit.
Unset Printing Implicit Defensive.

Lemma rbind_some A B (o : option (dres A)) (k : A -> seq byte -> option (dres B)) y : rbind o k = Some y ->
  (exists2 e, o = Some (DErr e) & y = DErr e) \/ (exists a, exists2 r, o = Some (DOk a r) & k a r = Some y).
Proof. by case: o => [[a r|e]|] //= h; [right; exists a, r | left; exists e => //; case: h]. Qed.
Lemma rbind_none A B (o : option (dres A)) (k : A -> seq byte -> option (dres B)) : rbind o k = None ->
  o = None \/ exists a, exists2 r, o = Some (DOk a r) & k a r = None.
Proof. by case: o => [[a r|e]|] //= h; [right; exists a, r | left]. Qed.

(** Agreement. *)
Lemma bind_agrees A B (o : option (dres A)) (d : dres A) (k : A -> seq byte -> option (dres B)) k' y :
  (forall z, o = Some z -> z = d) -> (forall a r z, k a r = Some z -> z = k' a r) -> rbind o k = Some y -> y = dbind d k'.
Proof. by move=> h hk /rbind_some[[e /h <- ->]|[a [r /h <- /hk]]]. Qed.

Lemma plain_agrees T (c : codec T) : agrees c (plain_rd c).
Proof. by move=> m v bs y [->]. Qed.
Lemma items_agrees T (c : codec T) (rd : reader T) m n bs y : agrees c rd -> items_rd rd m n bs = Some y -> y = de_items c m n bs.
Proof.
move=> h; elim: n bs y => [|n IH] bs y /=; first by case.
by apply: bind_agrees => [z /h //|x r z]; apply: bind_agrees => [w /IH //|xs r' w []].
Qed.
Lemma vec_agrees T ok (c : codec T) (rd : reader T) : agrees c rd -> agrees (vec_codec c) (vec_rd ok c rd).
Proof.
move=> h m v bs y; apply: bind_agrees => [z [] //|n r z]; case: ifP => // _.
by apply: bind_agrees => [w /(items_agrees h) //|xs r' w]; case: v => -[].
Qed.
Lemma pair_agrees A B (ca : codec A) (cb : codec B) ra rb : agrees ca ra -> agrees cb rb -> agrees (pair_codec ca cb) (pair_rd ra rb).
Proof.
by move=> ha hb m v bs y; apply: bind_agrees => [z /ha //|a r z]; apply: bind_agrees => [w /hb //|b r' w []].
Qed.
Lemma struct_agrees A S (ca : codec A) ra (f : A -> S) g : agrees ca ra -> agrees (struct_codec ca f g) (struct_rd ra f).
Proof. by move=> ha m v bs y; apply: bind_agrees => [z /ha //|a r z []]. Qed.

(** Enough room. *)
Definition total {T} (rd : reader T) : Prop := forall m v bs, rd m v bs <> None.
Lemma agrees_total T (c : codec T) rd : agrees c rd -> total rd -> forall m v bs, rd m v bs = Some (de c m v bs).
Proof. by move=> h ht m v bs; case e: (rd m v bs) (ht m v bs) => [y|] // _; rewrite (h _ _ _ _ e). Qed.
Lemma plain_total T (c : codec T) : total (plain_rd c). Proof. by []. Qed.
Lemma vec_total T ok (c : codec T) rd : all_lengths ok -> total rd -> total (vec_rd ok c rd).
Proof.
move=> ho h m v bs /rbind_none[//|[n [r [/u64_lt/ho ->] /rbind_none[|[xs [r' _]]]]]]; last by case: v.
elim: n r {bs} => //= n IH r /rbind_none[/h //|[x [r' _ /rbind_none[/IH //|[xs [r2 _]]]]]] //.
Qed.
Lemma pair_total A B (ra : reader A) (rb : reader B) : total ra -> total rb -> total (pair_rd ra rb).
Proof. by move=> ha hb m v bs /rbind_none[/ha //|[a [r _ /rbind_none[/hb //|[b [r' _]]]]]]. Qed.
Lemma struct_total A S (ra : reader A) (f : A -> S) : total ra -> total (struct_rd ra f).
Proof. by move=> ha m v bs /rbind_none[/ha //|[a [r _]]]. Qed.

(** Reading uses up input. *)
Lemma u64_eats bs n r : u64_de bs = DOk n r -> exists2 a, a <> [::] & bs = a ++ r.
Proof. by move/u64_canon=> ->; exists (u64_ser n). Qed.
Lemma items_suffix T (c : codec T) m n bs xs r : eats c -> de_items c m n bs = DOk xs r -> exists a, bs = a ++ r.
Proof.
move=> h; elim: n bs xs r => [|n IH] bs xs r; first by case=> _ ->; exists [::].
case/dbind_ok=> x [r1 /h[a _ ->]] /dbind_ok[ys [r2 /IH[b ->]]] [_ <-]; by exists (a ++ b); rewrite catA.
Qed.
Lemma vec_eats T (c : codec T) : eats c -> eats (vec_codec c).
Proof.
move=> h m v bs xs r /dbind_ok[n [r1 /u64_eats[a ha ->]]] /dbind_ok[ys [r2 /(items_suffix h)[b ->]]] e.
have <- : r2 = r by case: v e => [|[_ ->//]]; case: (bchk c ys) => // -[_ ->].
by exists (a ++ b); rewrite ?catA //; case: a ha.
Qed.
Lemma pair_eats A B (ca : codec A) (cb : codec B) : eats ca -> eats cb -> eats (pair_codec ca cb).
Proof.
move=> ha hb m v bs x r /dbind_ok[a [r1 /ha[p hp ->]]] /dbind_ok[b [r2 /hb[q _ ->]]] [_ <-].
by exists (p ++ q); rewrite ?catA //; case: p hp.
Qed.
Lemma struct_eats A S (ca : codec A) (f : A -> S) g : eats ca -> eats (struct_codec ca f g).
Proof. by move=> h m v bs x r /dbind_ok[a [r1 /h[p hp ->]]] [_ <-]; exists p. Qed.
Lemma equtype_eats : eats equtype_codec.
Proof. by move=> m v bs x r /dbind_ok[b [r1]]; case: bs => // b' bs [_ <-] e; exists [:: b'] => //; case: b e => // -[_ <-]. Qed.
Lemma eats_size T (c : codec T) m v bs x r : eats c -> de c m v bs = DOk x r -> size r < size bs.
Proof. by move=> h /h[[|b a] // _ ->]; rewrite /= size_cat ltnS leq_addl. Qed.

(** Blame. *)
Section Blame.
Variable oks : seq (pred nat).
Lemma plain_blames T (c : codec T) : blames oks (plain_rd c). Proof. by []. Qed.
Lemma blames_suffix T (rd : reader T) m v a bs : blames oks rd -> rd m v bs = None ->
  exists p n b, a ++ bs = p ++ le64 n ++ b /\ refuses oks n.
Proof. by move=> h /h[p [n [b [-> hn]]]]; exists (a ++ p), n, b; rewrite catA. Qed.
Lemma items_blames T (c : codec T) rd m n bs : eats c -> agrees c rd -> blames oks rd -> items_rd rd m n bs = None ->
  exists p n b, bs = p ++ le64 n ++ b /\ refuses oks n.
Proof.
move=> he ha h; elim: n bs => //= n IH bs /rbind_none[/h //|[x [r /ha/esym/he[a _ ->]]]].
case/rbind_none=> [/IH[p [k [b [-> hk]]]]|[xs [r' _]] //].
by exists (a ++ p), k, b; rewrite catA.
Qed.
Lemma vec_blames T ok (c : codec T) rd : (forall n, ~~ ok n -> refuses oks n) -> eats c -> agrees c rd -> blames oks rd ->
  blames oks (vec_rd ok c rd).
Proof.
move=> ho he ha h m v bs /rbind_none[//|[n [r [/u64_canon ->]]]]; rewrite lay64; case: ifP => [_|/negbT/ho hn _].
  case/rbind_none=> [/(items_blames he ha h)[p [k [b [-> hk]]]]|[xs [r' _]]]; last by case: v.
  by exists (le64 n ++ p), k, b; rewrite catA.
by exists [::], n, r.
Qed.
Lemma pair_blames A B (ca : codec A) (ra : reader A) (rb : reader B) : eats ca -> agrees ca ra ->
  blames oks ra -> blames oks rb -> blames oks (pair_rd ra rb).
Proof.
move=> he hg ha hb m v bs /rbind_none[/ha //|[a [r /hg/esym/he[p _ ->]]]] /rbind_none[|[b [r' _]] //].
exact: blames_suffix.
Qed.
Lemma struct_blames A S (ra : reader A) (f : A -> S) : blames oks ra -> blames oks (struct_rd ra f).
Proof. by move=> ha m v bs /rbind_none[/ha //|[a [r _]]]. Qed.

(** Refused requests are errors. *)
Lemma roomy_suffix a bs : roomy oks (a ++ bs) -> roomy oks bs.
Proof. by move=> h n hn; apply: h; rewrite size_cat (leq_trans hn) // leq_addl. Qed.
Lemma items_long T (c : codec T) m n bs : eats c -> size bs < n -> exists e, de_items c m n bs = DErr e.
Proof.
move=> he; elim: n bs => // n IH bs hn /=; case e: (de c m VNo bs) => [x r|e'] /=; last by exists e'.
by have /IH[e' ->] : size r < n by [apply: leq_trans (eats_size he e) hn]; exists e'.
Qed.
Lemma plain_errs T (c : codec T) : only_errors oks c (plain_rd c). Proof. by []. Qed.
Lemma items_errs T (c : codec T) rd m n bs : eats c -> agrees c rd -> only_errors oks c rd -> roomy oks bs ->
  items_rd rd m n bs = None -> exists e, de_items c m n bs = DErr e.
Proof.
move=> he ha h; elim: n bs => //= n IH bs hr /rbind_none[/(h _ _ _ hr)[e ->]|[x [r /ha/esym e]]]; first by exists e.
rewrite e /=; have [a _ eb] := he _ _ _ _ _ e; rewrite eb in hr.
by case/rbind_none=> [/(IH _ (roomy_suffix hr))[e' ->]|[xs [r' _]] //]; exists e'.
Qed.
Lemma vec_errs T ok (c : codec T) rd : (forall n, ~~ ok n -> refuses oks n) -> eats c -> agrees c rd -> only_errors oks c rd ->
  only_errors oks (vec_codec c) (vec_rd ok c rd).
Proof.
move=> ho he ha h m v bs hr /rbind_none[//|[n [r [e]]]]; rewrite /= /vec_de e /=.
have [a _ eb] := u64_eats e; rewrite eb in hr; have hr' := roomy_suffix hr.
case: ifP => [_|/negbT/ho hn _].
  by case/rbind_none=> [/(items_errs he ha h hr')[e' ->]|[xs [r' _]]]; [exists e' | case: v].
have /(items_long m he)[e' ->] : size r < n by rewrite ltnNge; apply: contraL hn => /hr'.
by exists e'.
Qed.
Lemma pair_errs A B (ca : codec A) (cb : codec B) ra rb : eats ca -> agrees ca ra ->
  only_errors oks ca ra -> only_errors oks cb rb -> only_errors oks (pair_codec ca cb) (pair_rd ra rb).
Proof.
move=> he hg ha hb m v bs hr /rbind_none[/(ha _ _ _ hr)[e h]|[a [r /hg/esym e]]]; first by exists e; rewrite /= h.
have [p _ eb] := he _ _ _ _ _ e; rewrite eb in hr.
by case/rbind_none=> [/(hb _ _ _ (roomy_suffix hr))[e' h]|[b [r' _]] //]; exists e'; rewrite /= e /= h.
Qed.
Lemma struct_errs A S (ca : codec A) ra (f : A -> S) g : only_errors oks ca ra -> only_errors oks (struct_codec ca f g) (struct_rd ra f).
Proof. by move=> ha m v bs hr /rbind_none[/(ha _ _ _ hr)[e h]|[a [r _]] //]; exists e; rewrite /= h. Qed.
End Blame.

(** Reading back. *)
Lemma plain_gets T (D : T -> Prop) (c : codec T) : reads_back D c -> gets_back D c (plain_rd c).
Proof. by move=> h m v x r hx; rewrite /plain_rd h. Qed.
Lemma items_gets T (D : T -> Prop) (c : codec T) rd m s r : gets_back D c rd -> List.Forall D s ->
  items_rd rd m (size s) (flatten [seq ser c m x | x <- s] ++ r) = Some (DOk s r).
Proof. by move=> h; elim: s r => //= x s IH r /List.Forall_cons_iff[hx hs]; rewrite -catA h //= IH. Qed.
Lemma vec_gets T (ok : pred nat) (D : T -> Prop) (c : codec T) rd : gets_back D c rd -> accepts D c ->
  gets_back (fun s => [/\ short s, ok (size s) & List.Forall D s]) (vec_codec c) (vec_rd ok c rd).
Proof.
move=> h ha m v s r [hs ho hD]; rewrite /vec_rd -[ser _ _ _]/(u64_ser (size s) ++ flatten [seq ser c m x | x <- s]) -catA.
rewrite u64_back // /rbind ho (items_gets _ _ h hD).
by case: v => //=; rewrite ha.
Qed.
Lemma pair_gets A B (DA : A -> Prop) (DB : B -> Prop) (ca : codec A) (cb : codec B) ra rb :
  gets_back DA ca ra -> gets_back DB cb rb -> gets_back (fun p => DA p.1 /\ DB p.2) (pair_codec ca cb) (pair_rd ra rb).
Proof. by move=> ha hb m v [a b] r [h1 h2]; rewrite /pair_rd /= -catA ha //= hb. Qed.
Lemma struct_gets A S (D : A -> Prop) (D' : S -> Prop) (ca : codec A) ra f g : (forall x, f (g x) = x) ->
  (forall x, D' x -> D (g x)) -> gets_back D ca ra -> gets_back D' (struct_codec ca f g) (struct_rd ra f).
Proof. by move=> sK hD h m v x r /hD hx; rewrite /struct_rd /= h //= sK. Qed.

(** A refused length first. *)
Lemma vec_falls T ok (c : codec T) rd : falls_to ok (vec_rd ok c rd).
Proof. by move=> m v n r hn ho; rewrite /vec_rd -lay64 u64_back //= (negbTE ho). Qed.
Lemma pair_falls A B ok (ra : reader A) (rb : reader B) : falls_to ok ra -> falls_to ok (pair_rd ra rb).
Proof. by move=> h m v n r hn ho; rewrite /pair_rd h. Qed.
Lemma struct_falls A S ok (ra : reader A) (f : A -> S) : falls_to ok ra -> falls_to ok (struct_rd ra f).
Proof. by move=> h m v n r hn ho; rewrite /struct_rd h. Qed.
Lemma vec_harmless T (c : codec T) : eats c -> harmless (vec_codec c).
Proof.
move=> he m v n /andP[h0 hn]; rewrite /= /vec_de -lay64 -[u64_ser n]cats0 u64_back //=.
by have [e ->] := items_long m he (h0 : size [::] < n); exists e.
Qed.
Lemma pair_harmless A B (ca : codec A) (cb : codec B) : harmless ca -> harmless (pair_codec ca cb).
Proof. by move=> h m v n /(h m v)[e he]; exists e; rewrite /= he. Qed.
Lemma struct_harmless A S (ca : codec A) (f : A -> S) g : harmless ca -> harmless (struct_codec ca f g).
Proof. by move=> h m v n /(h m v)[e he]; exists e; rewrite /= he. Qed.

(** Accepting every value. *)
Lemma struct_any A S (ca : codec A) (f : A -> S) g : accepts any ca -> accepts any (struct_codec ca f g).
Proof. by apply: struct_accepts. Qed.
Lemma vec_any T (c : codec T) : accepts any c -> accepts any (vec_codec c).
Proof. by move=> h s _; apply: h; exact: forall_any. Qed.
Lemma pair_any A B (ca : codec A) (cb : codec B) : accepts any ca -> accepts any cb -> accepts any (pair_codec ca cb).
Proof. by move=> ha hb s _; rewrite /= ha ?hb //; exact: forall_any. Qed.
Lemma gets_any T (D D' : T -> Prop) (c : codec T) rd : (forall x, D' x -> D x) -> gets_back D c rd -> gets_back D' c rd.
Proof. by move=> h hg m v x r /h hx; apply: hg. Qed.
