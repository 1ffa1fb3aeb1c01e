(** Proofs about checks, validation and truncated input. *)
From mathcomp Require Import all_ssreflect all_algebra.
From Coq Require Import Strings.Byte.
From Verif Require Import Base Group DataStructures Commit Statement Codec SpecCodec CodecLemmas CodecProps SpecCodec2.
Set Implicit Arguments.
Unset Strict Implicit.
Unset Printing Implicit Defensive.

Lemma obind_None a b : obind_err a b = None <-> a = None /\ b = None.
Proof. by case: a => [e|] /=; split=> //; case. Qed.

Lemma split_cat T (a b p t : seq T) : a ++ b = p ++ t ->
  (exists2 t', a = p ++ t' & t' <> [::]) \/ (exists2 p', p = a ++ p' & b = p' ++ t).
Proof.
elim: a p => [|x a IH] [|y p] /=.
- by move=> ->; right; exists [::].
- by move=> ->; right; exists (y :: p).
- by move=> _; left; exists (x :: a).
by case=> -> /IH[[t' -> h]|[p' -> h]]; [left; exists t' | right; exists p'].
Qed.

Section Vec.
Variables (T : Type) (c : codec T).

Lemma items_raw (D : T -> Prop) m s r : reads_raw D c -> List.Forall D s ->
  de_items c m (size s) (flatten [seq ser c m x | x <- s] ++ r) = DOk s r.
Proof. by move=> h; elim: s r => //= x s IH r /List.Forall_cons_iff[hx hs]; rewrite -catA h //= IH. Qed.

Lemma vec_raw (D : T -> Prop) : reads_raw D c -> reads_raw (fun s => short s /\ List.Forall D s) (vec_codec c).
Proof.
move=> h m s r [hs hD].
rewrite -[de _ _ _]/(vec_de c m VNo) -[ser _ _ _]/(u64_ser (size s) ++ flatten [seq ser c m x | x <- s]) /vec_de -catA.
by rewrite u64_back // /dbind (items_raw _ _ h hD).
Qed.

Lemma vec_validated : validated_read (vec_codec c).
Proof.
move=> m bs s r; rewrite -![de _ _ _]/(vec_de c m _) /passes -[chk _ s]/(bchk c s) /vec_de.
case: (u64_de bs) => [n r1|e] /=; last by split=> // -[].
case: (de_items c m n r1) => [xs r2|e] /=; last by split=> // -[].
case e : (bchk c xs) => [er|] /=.
  by split=> // -[[<- _]]; rewrite e.
by split=> [[<- <-]|[]].
Qed.

Lemma vec_passes s : batch_exact c -> (passes (vec_codec c) s <-> List.Forall (passes c) s).
Proof. by move=> h; exact: h. Qed.

Lemma vec_batch : batch_exact c -> batch_exact (vec_codec c).
Proof.
move=> h ss; rewrite -[bchk _ ss]/(bchk c (flatten ss)).
apply: (iff_trans (h _)); elim: ss => [|s ss IH] /=; first by split=> _; constructor.
by split=> [/List.Forall_app[h1 /IH h2]|/List.Forall_cons_iff[h1 /IH h2]];
  [constructor => //; exact/h | apply/List.Forall_app; split=> //; exact/h].
Qed.

Lemma vec_lawful (D : T -> Prop) : lawful D c -> lawful (fun s => short s /\ List.Forall D s) (vec_codec c).
Proof. by case=> h1 [h2 h3]; split; [exact: vec_raw | split; [exact: vec_validated | exact: vec_batch]]. Qed.

Lemma items_cut (D : T -> Prop) m s p t : reads_raw D c -> cut_short D c -> List.Forall D s ->
  flatten [seq ser c m x | x <- s] = p ++ t -> t <> [::] -> de_items c m (size s) p = DErr IoError.
Proof.
move=> hr hc; elim: s p => [|x s IH] p /=; first by case: p => // _ /= <-.
case/List.Forall_cons_iff=> hx hs /split_cat[[t' e nt]|[p' -> e]] ht.
  by rewrite (hc m VNo x p t').
by rewrite hr //= (IH p').
Qed.

Lemma vec_cut (D : T -> Prop) : reads_raw D c -> cut_short D c ->
  cut_short (fun s => short s /\ List.Forall D s) (vec_codec c).
Proof.
move=> hr hc m v s p t [hs hD] _.
rewrite -[de _ _ _]/(vec_de c m v) -[ser _ _ _]/(u64_ser (size s) ++ flatten [seq ser c m x | x <- s]) /vec_de.
case/split_cat=> [[t' e nt]|[p' -> e]] ht.
  rewrite /u64_de; case: ifP => //= h8; case: nt; apply: size0nil.
  have := congr1 size e; rewrite size_cat /u64_ser size_le_bytes => h.
  by move: h8; rewrite -(leq_add2r (size t')) -h -{2}[8]addn0 leq_add2l leqn0 => /eqP.
by rewrite u64_back //= (items_cut hr hc hD e ht).
Qed.

Lemma vec_errors (Q : serr -> Prop) : Q IoError -> errors_in Q c -> errors_in Q (vec_codec c).
Proof.
move=> hQ [h1 [h2 h3]]; split; [|split].
- move=> m v bs e; rewrite -[de _ _ _]/(vec_de c m v) /vec_de /u64_de.
  case: ifP => _ /=; last by case=> <-.
  have hi n r e' : de_items c m n r = DErr e' -> Q e'.
    elim: n r e' => //= n IH r e'; case e1 : (de c m VNo r) => [x r1|er] /=; last by case=> <-; exact: h1 e1.
    by case e2 : (de_items c m n r1) => [xs r2|er] //= [<-]; exact: IH e2.
  case e1 : (de_items c m _ _) => [xs r|er] /=; last by case=> <-; exact: hi e1.
  by case: v => //; case e2 : (bchk c xs) => [er|] // [<-]; exact: h2 e2.
- by move=> ss e; exact: h2.
by move=> s e; exact: h2.
Qed.
End Vec.

Section Pair.
Variables (A B : Type) (ca : codec A) (cb : codec B).

Lemma pair_raw (DA : A -> Prop) (DB : B -> Prop) : reads_raw DA ca -> reads_raw DB cb ->
  reads_raw (fun p => DA p.1 /\ DB p.2) (pair_codec ca cb).
Proof. by move=> ha hb m [a b] r [/= da db]; rewrite -catA ha //= hb. Qed.

Lemma pair_passes p : passes (pair_codec ca cb) p <-> passes ca p.1 /\ passes cb p.2.
Proof. exact: obind_None. Qed.

Lemma pair_validated : validated_read ca -> validated_read cb -> validated_read (pair_codec ca cb).
Proof.
move=> ha hb m bs [a b] r; split.
  move=> /= /dbind_ok[a' [r1 /ha[e1 p1]]] /dbind_ok[b' [r2 /hb[e2 p2]]] [<- <- <-].
  by rewrite e1 /= e2; split=> //; apply/pair_passes.
case=> /= /dbind_ok[a' [r1 e1]] /dbind_ok[b' [r2 e2]] [<- <- <-] /pair_passes[/= p1 p2].
have /ha -> : de ca m VNo bs = DOk a' r1 /\ passes ca a' by [].
by have /hb /= -> : de cb m VNo r1 = DOk b' r2 /\ passes cb b' by [].
Qed.

Lemma pair_batch : batch_exact ca -> batch_exact cb -> batch_exact (pair_codec ca cb).
Proof.
move=> ha hb s; apply: (iff_trans (obind_None _ _)).
split=> [[/ha h1 /hb h2]|h].
  elim: s h1 h2 => //= -[a b] s IH /List.Forall_cons_iff[p1 h1] /List.Forall_cons_iff[p2 h2].
  by constructor; [apply/pair_passes | exact: IH].
by split; [apply/ha | apply/hb]; elim: h => //= p l /pair_passes[p1 p2] _ IH; constructor.
Qed.

Lemma pair_lawful (DA : A -> Prop) (DB : B -> Prop) : lawful DA ca -> lawful DB cb ->
  lawful (fun p => DA p.1 /\ DB p.2) (pair_codec ca cb).
Proof.
by case=> a1 [a2 a3] [b1 [b2 b3]]; split; [exact: pair_raw | split; [exact: pair_validated | exact: pair_batch]].
Qed.

Lemma read_any (DA : A -> Prop) m v x r : lawful DA ca -> DA x -> (v = VYes -> passes ca x) ->
  de ca m v (ser ca m x ++ r) = DOk x r.
Proof. by case=> h1 [h2 _] hx; case: v => h; [apply/h2; split; [exact: h1 | exact: h] | exact: h1]. Qed.

Lemma pair_cut (DA : A -> Prop) (DB : B -> Prop) : lawful DA ca -> cut_short DA ca -> cut_short DB cb ->
  cut_short (fun p => DA p.1 /\ DB p.2) (pair_codec ca cb).
Proof.
move=> hl ha hb m v [a b] p t [/= da db] hp /split_cat[[t' e nt]|[p' -> e]] ht.
  rewrite (ha m v a p t' da _ e nt) // => hv; by case/pair_passes: (hp hv).
have pa : v = VYes -> passes ca a by move=> hv; case/pair_passes: (hp hv).
have pb : v = VYes -> passes cb b by move=> hv; case/pair_passes: (hp hv).
by rewrite (read_any m p' hl da pa) /= (hb m v b p' t db pb e ht).
Qed.

Lemma pair_errors (Q : serr -> Prop) : errors_in Q ca -> errors_in Q cb -> errors_in Q (pair_codec ca cb).
Proof.
move=> [a1 [a2 a3]] [b1 [b2 b3]]; split; [|split].
- move=> m v bs e /=; case e1 : (de ca m v bs) => [x r|er] /=; last by case=> <-; exact: a1 e1.
  by case e2 : (de cb m v r) => [y r'|er] //= [<-]; exact: b1 e2.
- by move=> s e /=; case e1 : (bchk ca _) => [er|] /=; [case=> <-; exact: a2 e1 | exact: b2].
by move=> s e /=; case e1 : (chk ca _) => [er|] /=; [case=> <-; exact: a3 e1 | exact: b3].
Qed.
End Pair.

Section Struct.
Variables (A S : Type) (ca : codec A) (of_f : A -> S) (fl : S -> A).
Hypothesis fK : forall a, fl (of_f a) = a.
Hypothesis sK : forall x, of_f (fl x) = x.

Lemma struct_lawful (D : A -> Prop) (D' : S -> Prop) : (forall x, D' x -> D (fl x)) -> lawful D ca ->
  lawful D' (struct_codec ca of_f fl).
Proof.
move=> hD [h1 [h2 h3]]; split; [|split].
- by move=> m x r /hD hx /=; rewrite h1 //= sK.
- move=> m bs x r; split.
    by move=> /= /dbind_ok[a [r1 /h2[e p]]] [<- <-]; rewrite e /passes /= fK.
  case=> /= /dbind_ok[a [r1 e]] [<- <-]; rewrite /passes /= fK => p.
  by have /h2 -> : de ca m VNo bs = DOk a r1 /\ passes ca a by [].
move=> s; apply: (iff_trans (h3 _)).
by elim: s => [|x s IH] /=; split=> h; constructor;
  case/List.Forall_cons_iff: h => // p h; exact/IH.
Qed.

Lemma struct_cut (D : A -> Prop) (D' : S -> Prop) : (forall x, D' x -> D (fl x)) -> cut_short D ca ->
  cut_short D' (struct_codec ca of_f fl).
Proof. by move=> hD h m v x p t /hD hx hp e ht /=; rewrite (h m v (fl x) p t hx hp e ht). Qed.

Lemma struct_errors (Q : serr -> Prop) : errors_in Q ca -> errors_in Q (struct_codec ca of_f fl).
Proof.
move=> [h1 [h2 h3]]; split; [|split].
- by move=> m v bs e /=; case e1 : (de ca m v bs) => [a r|er] //= [<-]; exact: h1 e1.
- by move=> s e; exact: h2.
by move=> x e; exact: h3.
Qed.
End Struct.

Lemma equtype_lawful : lawful any equtype_codec.
Proof.
split; [by move=> m [] r _ | split].
  by move=> m bs x r; split=> [|[]].
move=> s; have hp x : passes equtype_codec x by [].
by split=> _; [elim: s => //= x s IH; constructor | elim: s].
Qed.
Lemma equtype_cut : cut_short any equtype_codec.
Proof. by move=> m v x [|b [|b' p]] t _ _; case: x => //= -[_ <-]. Qed.
Lemma equtype_errors (Q : serr -> Prop) : Q IoError -> Q InvalidData -> errors_in Q equtype_codec.
Proof.
move=> h1 h2; split; [|split].
- by move=> m v [|b r] e; [case=> <- | case: b => //= -[<-]].
- by elim.
by [].
Qed.

Lemma weaken T (D D' : T -> Prop) c : (forall x, D' x -> D x) -> lawful D c -> lawful D' c.
Proof. by move=> h [h1 h2]; split=> // m x r /h hx; exact: h1. Qed.
Lemma weaken_cut T (D D' : T -> Prop) c : (forall x, D' x -> D x) -> cut_short D c -> cut_short D' c.
Proof. by move=> h h1 m v x p t /h hx; exact: h1. Qed.

Lemma lvec T (c : codec T) : lawful any c -> lawful short (vec_codec c).
Proof. by move/vec_lawful; apply: weaken => s hs; split=> //; exact: forall_any. Qed.
Lemma lmat T (c : codec T) : lawful any c -> lawful short_mat (mat_codec c).
Proof. by move/lvec/vec_lawful. Qed.
Lemma kvec T (c : codec T) : cuttable_element c -> cut_short short (vec_codec c).
Proof. by case=> -[h _] h'; apply: weaken_cut (vec_cut h h') => s hs; split=> //; exact: forall_any. Qed.
Lemma kmat T (c : codec T) : cuttable_element c -> cut_short short_mat (mat_codec c).
Proof. by move=> h; case: (lvec (proj1 h)) => h1 _; exact: vec_cut h1 (kvec h). Qed.
Lemma emat T (c : codec T) (Q : serr -> Prop) : Q IoError -> errors_in Q c -> errors_in Q (mat_codec c).
Proof. by move=> hQ h; do 2!apply: vec_errors => //. Qed.

Lemma com1_lawful E (cs : codecs E) : lawful any (c_g1 cs) -> lawful any (com1_codec cs).
Proof. by move=> h; apply: (struct_lawful _ _ _ (pair_lawful h h)) => -[]. Qed.
Lemma com1_passes E (cs : codecs E) x : passes (com1_codec cs) x <-> com1_all (passes (c_g1 cs)) x.
Proof. exact: (@pair_passes _ _ (c_g1 cs) (c_g1 cs)). Qed.
Lemma com1_cuttable E (cs : codecs E) : cuttable_element (c_g1 cs) -> cuttable_element (com1_codec cs).
Proof.
move=> h; split; first exact: com1_lawful (proj1 h).
by apply: (struct_cut _ (pair_cut (proj1 h) (proj2 h) (proj2 h))).
Qed.
Lemma com1_errors E (cs : codecs E) Q : errors_in Q (c_g1 cs) -> errors_in Q (com1_codec cs).
Proof. by move=> h; exact: (struct_errors _ _ (pair_errors h h)). Qed.

Lemma com2_lawful E (cs : codecs E) : lawful any (c_g2 cs) -> lawful any (com2_codec cs).
Proof. by move=> h; apply: (struct_lawful _ _ _ (pair_lawful h h)) => -[]. Qed.
Lemma com2_passes E (cs : codecs E) x : passes (com2_codec cs) x <-> com2_all (passes (c_g2 cs)) x.
Proof. exact: (@pair_passes _ _ (c_g2 cs) (c_g2 cs)). Qed.
Lemma com2_cuttable E (cs : codecs E) : cuttable_element (c_g2 cs) -> cuttable_element (com2_codec cs).
Proof.
move=> h; split; first exact: com2_lawful (proj1 h).
by apply: (struct_cut _ (pair_cut (proj1 h) (proj2 h) (proj2 h))).
Qed.
Lemma com2_errors E (cs : codecs E) Q : errors_in Q (c_g2 cs) -> errors_in Q (com2_codec cs).
Proof. by move=> h; exact: (struct_errors _ _ (pair_errors h h)). Qed.

Lemma crs_lawful E (cs : codecs E) : elements_ok cs lawful_element -> lawful crs_fits (crs_codec cs).
Proof.
move=> [hF h1 h2 hT]; apply: (struct_lawful _ _ _ (pair_lawful (lvec (com1_lawful h1)) (pair_lawful (lvec (com2_lawful h2)) (pair_lawful h1 (pair_lawful h2 hT))))); [by move=> [? [? [? []]]] | by case | exact: (fun x h => (conj (proj1 h) (conj (proj2 h) (conj Logic.I (conj Logic.I Logic.I)))))].
Qed.
Lemma crs_cut E (cs : codecs E) : elements_ok cs cuttable_element -> cut_short crs_fits (crs_codec cs).
Proof. move=> [hF h1 h2 hT]; apply: (struct_cut _ (pair_cut (lvec (com1_lawful (proj1 h1))) (kvec (com1_cuttable h1)) (pair_cut (lvec (com2_lawful (proj1 h2))) (kvec (com2_cuttable h2)) (pair_cut (proj1 h1) (proj2 h1) (pair_cut (proj1 h2) (proj2 h2) (proj2 hT)))))); exact: (fun x h => (conj (proj1 h) (conj (proj2 h) (conj Logic.I (conj Logic.I Logic.I))))). Qed.
Lemma crs_errors E (cs : codecs E) (Q : serr -> Prop) : Q IoError -> Q InvalidData ->
  elements_ok cs (fun _ c => errors_in Q c) -> errors_in Q (crs_codec cs).
Proof. move=> hio hid [hF h1 h2 hT]; exact: (struct_errors _ _ (pair_errors (vec_errors hio (com1_errors h1)) (pair_errors (vec_errors hio (com2_errors h2)) (pair_errors h1 (pair_errors h2 hT))))). Qed.

Lemma commit1_lawful E (cs : codecs E) : elements_ok cs lawful_element -> lawful commit1_fits (commit1_codec cs).
Proof.
move=> [hF h1 h2 hT]; apply: (struct_lawful _ _ _ (pair_lawful (lvec (com1_lawful h1)) (lmat hF))); [by move=> [] | by case | exact: (fun x h => (conj (proj1 h) (proj2 h)))].
Qed.
Lemma commit1_cut E (cs : codecs E) : elements_ok cs cuttable_element -> cut_short commit1_fits (commit1_codec cs).
Proof. move=> [hF h1 h2 hT]; apply: (struct_cut _ (pair_cut (lvec (com1_lawful (proj1 h1))) (kvec (com1_cuttable h1)) (kmat hF))); exact: (fun x h => (conj (proj1 h) (proj2 h))). Qed.
Lemma commit1_errors E (cs : codecs E) (Q : serr -> Prop) : Q IoError -> Q InvalidData ->
  elements_ok cs (fun _ c => errors_in Q c) -> errors_in Q (commit1_codec cs).
Proof. move=> hio hid [hF h1 h2 hT]; exact: (struct_errors _ _ (pair_errors (vec_errors hio (com1_errors h1)) (emat hio hF))). Qed.

Lemma commit2_lawful E (cs : codecs E) : elements_ok cs lawful_element -> lawful commit2_fits (commit2_codec cs).
Proof.
move=> [hF h1 h2 hT]; apply: (struct_lawful _ _ _ (pair_lawful (lvec (com2_lawful h2)) (lmat hF))); [by move=> [] | by case | exact: (fun x h => (conj (proj1 h) (proj2 h)))].
Qed.
Lemma commit2_cut E (cs : codecs E) : elements_ok cs cuttable_element -> cut_short commit2_fits (commit2_codec cs).
Proof. move=> [hF h1 h2 hT]; apply: (struct_cut _ (pair_cut (lvec (com2_lawful (proj1 h2))) (kvec (com2_cuttable h2)) (kmat hF))); exact: (fun x h => (conj (proj1 h) (proj2 h))). Qed.
Lemma commit2_errors E (cs : codecs E) (Q : serr -> Prop) : Q IoError -> Q InvalidData ->
  elements_ok cs (fun _ c => errors_in Q c) -> errors_in Q (commit2_codec cs).
Proof. move=> hio hid [hF h1 h2 hT]; exact: (struct_errors _ _ (pair_errors (vec_errors hio (com2_errors h2)) (emat hio hF))). Qed.

Lemma equproof_lawful E (cs : codecs E) : elements_ok cs lawful_element -> lawful equproof_fits (equproof_codec cs).
Proof.
move=> [hF h1 h2 hT]; apply: (struct_lawful _ _ _ (pair_lawful (lvec (com2_lawful h2)) (pair_lawful (lvec (com1_lawful h1)) (pair_lawful equtype_lawful (lmat hF))))); [by move=> [? [? []]] | by case | exact: (fun x h => (conj (proj1 h) (conj (proj1 (proj2 h)) (conj Logic.I (proj2 (proj2 h))))))].
Qed.
Lemma equproof_cut E (cs : codecs E) : elements_ok cs cuttable_element -> cut_short equproof_fits (equproof_codec cs).
Proof. move=> [hF h1 h2 hT]; apply: (struct_cut _ (pair_cut (lvec (com2_lawful (proj1 h2))) (kvec (com2_cuttable h2)) (pair_cut (lvec (com1_lawful (proj1 h1))) (kvec (com1_cuttable h1)) (pair_cut equtype_lawful equtype_cut (kmat hF))))); exact: (fun x h => (conj (proj1 h) (conj (proj1 (proj2 h)) (conj Logic.I (proj2 (proj2 h)))))). Qed.
Lemma equproof_errors E (cs : codecs E) (Q : serr -> Prop) : Q IoError -> Q InvalidData ->
  elements_ok cs (fun _ c => errors_in Q c) -> errors_in Q (equproof_codec cs).
Proof. move=> hio hid [hF h1 h2 hT]; exact: (struct_errors _ _ (pair_errors (vec_errors hio (com2_errors h2)) (pair_errors (vec_errors hio (com1_errors h1)) (pair_errors (equtype_errors hio hid) (emat hio hF))))). Qed.

Lemma ppe_lawful E (cs : codecs E) : elements_ok cs lawful_element -> lawful ppe_fits (ppe_codec cs).
Proof.
move=> [hF h1 h2 hT]; apply: (struct_lawful _ _ _ (pair_lawful (lvec h1) (pair_lawful (lvec h2) (pair_lawful (lmat hF) hT)))); [by move=> [? [? []]] | by case | exact: (fun x h => (conj (proj1 h) (conj (proj1 (proj2 h)) (conj (proj2 (proj2 h)) Logic.I))))].
Qed.
Lemma ppe_cut E (cs : codecs E) : elements_ok cs cuttable_element -> cut_short ppe_fits (ppe_codec cs).
Proof. move=> [hF h1 h2 hT]; apply: (struct_cut _ (pair_cut (lvec (proj1 h1)) (kvec h1) (pair_cut (lvec (proj1 h2)) (kvec h2) (pair_cut (lmat (proj1 hF)) (kmat hF) (proj2 hT))))); exact: (fun x h => (conj (proj1 h) (conj (proj1 (proj2 h)) (conj (proj2 (proj2 h)) Logic.I)))). Qed.
Lemma ppe_errors E (cs : codecs E) (Q : serr -> Prop) : Q IoError -> Q InvalidData ->
  elements_ok cs (fun _ c => errors_in Q c) -> errors_in Q (ppe_codec cs).
Proof. move=> hio hid [hF h1 h2 hT]; exact: (struct_errors _ _ (pair_errors (vec_errors hio h1) (pair_errors (vec_errors hio h2) (pair_errors (emat hio hF) hT)))). Qed.

Lemma ms1_lawful E (cs : codecs E) : elements_ok cs lawful_element -> lawful ms1_fits (ms1_codec cs).
Proof.
move=> [hF h1 h2 hT]; apply: (struct_lawful _ _ _ (pair_lawful (lvec h1) (pair_lawful (lvec hF) (pair_lawful (lmat hF) h1)))); [by move=> [? [? []]] | by case | exact: (fun x h => (conj (proj1 h) (conj (proj1 (proj2 h)) (conj (proj2 (proj2 h)) Logic.I))))].
Qed.
Lemma ms1_cut E (cs : codecs E) : elements_ok cs cuttable_element -> cut_short ms1_fits (ms1_codec cs).
Proof. move=> [hF h1 h2 hT]; apply: (struct_cut _ (pair_cut (lvec (proj1 h1)) (kvec h1) (pair_cut (lvec (proj1 hF)) (kvec hF) (pair_cut (lmat (proj1 hF)) (kmat hF) (proj2 h1))))); exact: (fun x h => (conj (proj1 h) (conj (proj1 (proj2 h)) (conj (proj2 (proj2 h)) Logic.I)))). Qed.
Lemma ms1_errors E (cs : codecs E) (Q : serr -> Prop) : Q IoError -> Q InvalidData ->
  elements_ok cs (fun _ c => errors_in Q c) -> errors_in Q (ms1_codec cs).
Proof. move=> hio hid [hF h1 h2 hT]; exact: (struct_errors _ _ (pair_errors (vec_errors hio h1) (pair_errors (vec_errors hio hF) (pair_errors (emat hio hF) h1)))). Qed.

Lemma ms2_lawful E (cs : codecs E) : elements_ok cs lawful_element -> lawful ms2_fits (ms2_codec cs).
Proof.
move=> [hF h1 h2 hT]; apply: (struct_lawful _ _ _ (pair_lawful (lvec hF) (pair_lawful (lvec h2) (pair_lawful (lmat hF) h2)))); [by move=> [? [? []]] | by case | exact: (fun x h => (conj (proj1 h) (conj (proj1 (proj2 h)) (conj (proj2 (proj2 h)) Logic.I))))].
Qed.
Lemma ms2_cut E (cs : codecs E) : elements_ok cs cuttable_element -> cut_short ms2_fits (ms2_codec cs).
Proof. move=> [hF h1 h2 hT]; apply: (struct_cut _ (pair_cut (lvec (proj1 hF)) (kvec hF) (pair_cut (lvec (proj1 h2)) (kvec h2) (pair_cut (lmat (proj1 hF)) (kmat hF) (proj2 h2))))); exact: (fun x h => (conj (proj1 h) (conj (proj1 (proj2 h)) (conj (proj2 (proj2 h)) Logic.I)))). Qed.
Lemma ms2_errors E (cs : codecs E) (Q : serr -> Prop) : Q IoError -> Q InvalidData ->
  elements_ok cs (fun _ c => errors_in Q c) -> errors_in Q (ms2_codec cs).
Proof. move=> hio hid [hF h1 h2 hT]; exact: (struct_errors _ _ (pair_errors (vec_errors hio hF) (pair_errors (vec_errors hio h2) (pair_errors (emat hio hF) h2)))). Qed.

Lemma quad_lawful E (cs : codecs E) : elements_ok cs lawful_element -> lawful quad_fits (quad_codec cs).
Proof.
move=> [hF h1 h2 hT]; apply: (struct_lawful _ _ _ (pair_lawful (lvec hF) (pair_lawful (lvec hF) (pair_lawful (lmat hF) hF)))); [by move=> [? [? []]] | by case | exact: (fun x h => (conj (proj1 h) (conj (proj1 (proj2 h)) (conj (proj2 (proj2 h)) Logic.I))))].
Qed.
Lemma quad_cut E (cs : codecs E) : elements_ok cs cuttable_element -> cut_short quad_fits (quad_codec cs).
Proof. move=> [hF h1 h2 hT]; apply: (struct_cut _ (pair_cut (lvec (proj1 hF)) (kvec hF) (pair_cut (lvec (proj1 hF)) (kvec hF) (pair_cut (lmat (proj1 hF)) (kmat hF) (proj2 hF))))); exact: (fun x h => (conj (proj1 h) (conj (proj1 (proj2 h)) (conj (proj2 (proj2 h)) Logic.I)))). Qed.
Lemma quad_errors E (cs : codecs E) (Q : serr -> Prop) : Q IoError -> Q InvalidData ->
  elements_ok cs (fun _ c => errors_in Q c) -> errors_in Q (quad_codec cs).
Proof. move=> hio hid [hF h1 h2 hT]; exact: (struct_errors _ _ (pair_errors (vec_errors hio hF) (pair_errors (vec_errors hio hF) (pair_errors (emat hio hF) hF)))). Qed.

Lemma forall_iff T (P Q : T -> Prop) s : (forall x, P x <-> Q x) -> (List.Forall P s <-> List.Forall Q s).
Proof. by move=> h; split; apply: List.Forall_impl => x /h. Qed.
Lemma iff_and (A A' B B' : Prop) : (A <-> A') -> (B <-> B') -> (A /\ B <-> A' /\ B').
Proof. by move=> [a a'] [b b']; split=> -[x y]; split; auto. Qed.
Lemma true_and (A B : Prop) : A -> (A /\ B <-> B).
Proof. by move=> a; split=> [[]|]. Qed.

Lemma crs_passes E (cs : codecs E) x : elements_ok cs lawful_element ->
  (passes (crs_codec cs) x <-> crs_all (passes (c_g1 cs)) (passes (c_g2 cs)) (passes (c_gt cs)) x).
Proof.
move=> [hF h1 h2 hT].
apply: (iff_trans (pair_passes _ _ _)); apply: iff_and; first exact: (iff_trans (vec_passes _ (proj2 (proj2 (com1_lawful h1)))) (forall_iff _ (com1_passes cs))).
apply: (iff_trans (pair_passes _ _ _)); apply: iff_and; first exact: (iff_trans (vec_passes _ (proj2 (proj2 (com2_lawful h2)))) (forall_iff _ (com2_passes cs))).
apply: (iff_trans (pair_passes _ _ _)); apply: iff_and; first exact: (iff_refl _).
apply: (iff_trans (pair_passes _ _ _)); apply: iff_and; first exact: (iff_refl _).
exact: (iff_refl _).
Qed.
Lemma commit1_passes E (cs : codecs E) x : elements_ok cs lawful_element ->
  (passes (commit1_codec cs) x <-> commit1_all (passes (c_fr cs)) (passes (c_g1 cs)) x).
Proof.
move=> [hF h1 h2 hT].
apply: (iff_trans (pair_passes _ _ _)); apply: iff_and; first exact: (iff_trans (vec_passes _ (proj2 (proj2 (com1_lawful h1)))) (forall_iff _ (com1_passes cs))).
exact: (iff_trans (vec_passes _ (vec_batch (proj2 (proj2 hF)))) (forall_iff _ (fun r => vec_passes r (proj2 (proj2 hF))))).
Qed.
Lemma commit2_passes E (cs : codecs E) x : elements_ok cs lawful_element ->
  (passes (commit2_codec cs) x <-> commit2_all (passes (c_fr cs)) (passes (c_g2 cs)) x).
Proof.
move=> [hF h1 h2 hT].
apply: (iff_trans (pair_passes _ _ _)); apply: iff_and; first exact: (iff_trans (vec_passes _ (proj2 (proj2 (com2_lawful h2)))) (forall_iff _ (com2_passes cs))).
exact: (iff_trans (vec_passes _ (vec_batch (proj2 (proj2 hF)))) (forall_iff _ (fun r => vec_passes r (proj2 (proj2 hF))))).
Qed.
Lemma equproof_passes E (cs : codecs E) x : elements_ok cs lawful_element ->
  (passes (equproof_codec cs) x <-> equproof_all (passes (c_fr cs)) (passes (c_g1 cs)) (passes (c_g2 cs)) x).
Proof.
move=> [hF h1 h2 hT].
apply: (iff_trans (pair_passes _ _ _)); apply: iff_and; first exact: (iff_trans (vec_passes _ (proj2 (proj2 (com2_lawful h2)))) (forall_iff _ (com2_passes cs))).
apply: (iff_trans (pair_passes _ _ _)); apply: iff_and; first exact: (iff_trans (vec_passes _ (proj2 (proj2 (com1_lawful h1)))) (forall_iff _ (com1_passes cs))).
apply: (iff_trans (pair_passes _ _ _)); apply: (iff_trans (true_and _ _)); first by []. exact: (iff_trans (vec_passes _ (vec_batch (proj2 (proj2 hF)))) (forall_iff _ (fun r => vec_passes r (proj2 (proj2 hF))))).
Qed.
Lemma ppe_passes E (cs : codecs E) x : elements_ok cs lawful_element ->
  (passes (ppe_codec cs) x <-> ppe_all (passes (c_fr cs)) (passes (c_g1 cs)) (passes (c_g2 cs)) (passes (c_gt cs)) x).
Proof.
move=> [hF h1 h2 hT].
apply: (iff_trans (pair_passes _ _ _)); apply: iff_and; first exact: (vec_passes _ (proj2 (proj2 h1))).
apply: (iff_trans (pair_passes _ _ _)); apply: iff_and; first exact: (vec_passes _ (proj2 (proj2 h2))).
apply: (iff_trans (pair_passes _ _ _)); apply: iff_and; first exact: (iff_trans (vec_passes _ (vec_batch (proj2 (proj2 hF)))) (forall_iff _ (fun r => vec_passes r (proj2 (proj2 hF))))).
exact: (iff_refl _).
Qed.
Lemma ms1_passes E (cs : codecs E) x : elements_ok cs lawful_element ->
  (passes (ms1_codec cs) x <-> ms1_all (passes (c_fr cs)) (passes (c_g1 cs)) x).
Proof.
move=> [hF h1 h2 hT].
apply: (iff_trans (pair_passes _ _ _)); apply: iff_and; first exact: (vec_passes _ (proj2 (proj2 h1))).
apply: (iff_trans (pair_passes _ _ _)); apply: iff_and; first exact: (vec_passes _ (proj2 (proj2 hF))).
apply: (iff_trans (pair_passes _ _ _)); apply: iff_and; first exact: (iff_trans (vec_passes _ (vec_batch (proj2 (proj2 hF)))) (forall_iff _ (fun r => vec_passes r (proj2 (proj2 hF))))).
exact: (iff_refl _).
Qed.
Lemma ms2_passes E (cs : codecs E) x : elements_ok cs lawful_element ->
  (passes (ms2_codec cs) x <-> ms2_all (passes (c_fr cs)) (passes (c_g2 cs)) x).
Proof.
move=> [hF h1 h2 hT].
apply: (iff_trans (pair_passes _ _ _)); apply: iff_and; first exact: (vec_passes _ (proj2 (proj2 hF))).
apply: (iff_trans (pair_passes _ _ _)); apply: iff_and; first exact: (vec_passes _ (proj2 (proj2 h2))).
apply: (iff_trans (pair_passes _ _ _)); apply: iff_and; first exact: (iff_trans (vec_passes _ (vec_batch (proj2 (proj2 hF)))) (forall_iff _ (fun r => vec_passes r (proj2 (proj2 hF))))).
exact: (iff_refl _).
Qed.
Lemma quad_passes E (cs : codecs E) x : elements_ok cs lawful_element ->
  (passes (quad_codec cs) x <-> quad_all (passes (c_fr cs)) x).
Proof.
move=> [hF h1 h2 hT].
apply: (iff_trans (pair_passes _ _ _)); apply: iff_and; first exact: (vec_passes _ (proj2 (proj2 hF))).
apply: (iff_trans (pair_passes _ _ _)); apply: iff_and; first exact: (vec_passes _ (proj2 (proj2 hF))).
apply: (iff_trans (pair_passes _ _ _)); apply: iff_and; first exact: (iff_trans (vec_passes _ (vec_batch (proj2 (proj2 hF)))) (forall_iff _ (fun r => vec_passes r (proj2 (proj2 hF))))).
exact: (iff_refl _).
Qed.
