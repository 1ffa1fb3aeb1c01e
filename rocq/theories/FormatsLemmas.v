(** Lemmas about the formats of field elements and points. *)
From mathcomp Require Import all_ssreflect all_algebra.
From Coq Require Import Strings.Byte.
From Verif Require Import Base Codec SpecCodec SpecCodec2 CodecLemmas SpecWire SpecTwice Formats SpecFormats.
Set Implicit Arguments.
Unset Strict Implicit.
Unset Printing Implicit Defensive.
Import GRing.Theory.
Local Open Scope ring_scope.

Lemma cat_take_drop_le n (bs : seq byte) : (n <= size bs)%N -> bs = take n bs ++ drop n bs /\ size (take n bs) = n.
Proof. by move=> h; rewrite cat_take_drop size_take_min (minn_idPl h). Qed.

Section Field.
Context {K : Type} (N : numbering K) (G : good_numbering N).
Local Notation u := (flag_unit N).

Lemma flag_unit4 : (256 ^ flag_len N = 4 * u)%N.
Proof.
rewrite /flag_unit; case: (flag_len N) (gn_len G) => // n _; rewrite expnS mulnA.
by congr (_ * _)%N.
Qed.
Lemma flag_unit_gt0 : (0 < u)%N.
Proof. by rewrite /flag_unit muln_gt0 expn_gt0. Qed.
Lemma num_unit x : (num N x < u)%N.
Proof. by rewrite -(@ltn_pmul2l 4) // -flag_unit4; exact: gn_flag. Qed.

Lemma fp_size x : size (fp_ser N x) = plain_len N.
Proof. exact: size_le_bytes. Qed.
Lemma fpf_size x f : size (fpf_ser N x f) = flag_len N.
Proof. exact: size_le_bytes. Qed.
Lemma fp_back x r : fp_de N (fp_ser N x ++ r) = DOk x r.
Proof.
rewrite /fp_de size_cat fp_size ltnNge leq_addr /= take_cat drop_cat fp_size ltnn subnn take0 drop0 cats0.
by rewrite le_bytesK ?gn_back //; exact: gn_plain.
Qed.
Lemma fp_only bs x r : fp_de N bs = DOk x r -> bs = fp_ser N x ++ r.
Proof.
rewrite /fp_de; case: ltnP => // h; have [e s] := cat_take_drop_le h.
case E : (unnum _ _) => [y|//] [<- <-]; rewrite {1}e; congr cat.
by rewrite /fp_ser -(gn_only G E) -{2}s le_valK.
Qed.
Lemma fpf_back x f r : fpf_de N (fpf_ser N x f ++ r) = DOk (x, f) r.
Proof.
rewrite /fpf_de size_cat fpf_size ltnNge leq_addr /= take_cat drop_cat fpf_size ltnn subnn take0 drop0 cats0.
have hu := flag_unit_gt0; have hx := num_unit x.
have hb : (num N x + flag_bits f * u < 256 ^ flag_len N)%N.
  rewrite flag_unit4; apply: (@leq_trans (u + flag_bits f * u)); first by rewrite ltn_add2r.
  by rewrite -mulSn leq_mul2r; case: f; rewrite orbT.
rewrite le_bytesK // addnC modnMDl modn_small // divnMDl // divn_small // addn0 gn_back //.
by case: f {hb}.
Qed.
Lemma fpf_only bs x f r : fpf_de N bs = DOk (x, f) r -> bs = fpf_ser N x f ++ r.
Proof.
rewrite /fpf_de; case: ltnP => // h; have [e s] := cat_take_drop_le h.
set n := le_val _; set o := unnum N _ => H.
have [f' hf o'] : exists2 f', (n %/ u)%N = flag_bits f' & (if o is Some y then DOk (y, f') (drop (flag_len N) bs) else DErr InvalidData) = DOk (x, f) r.
  by move: H; case: (n %/ u)%N => [|[|[|k]]] // H; [exists YIsPositive | exists PointAtInfinity | exists YIsNegative].
move: o'; rewrite /o; case E : (unnum _ _) => [y|//] [<- <- <-]; rewrite {1}e; congr cat.
by rewrite /fpf_ser -(gn_only G E) -hf addnC -divn_eq -{2}s le_valK.
Qed.
Lemma fp_lack bs : (size bs < plain_len N)%N -> fp_de N bs = DErr IoError.
Proof. by rewrite /fp_de => ->. Qed.
Lemma fpf_lack bs : (size bs < flag_len N)%N -> fpf_de N bs = DErr IoError.
Proof. by rewrite /fpf_de => ->. Qed.
End Field.

Lemma each_none T (ck : T -> option serr) s : each_check ck s = None <-> List.Forall (fun x => ck x = None) s.
Proof.
elim: s => [|x s IH] /=; first by split; constructor.
rewrite List.Forall_cons_iff -IH; case: (ck x) => [e|] /=; split=> //; by case.
Qed.

Section FieldCodec.
Context {K : Type} (N : numbering K) (G : good_numbering N) (ok : K -> bool).
Local Notation c := (fp_codec N ok).
Lemma fpc_back : reads_back (fun x => ok x) c.
Proof. by move=> m v x r h; rewrite /= (fp_back G) /= h; case: v. Qed.
Lemma fpc_accepts : accepts (fun x => ok x) c.
Proof. by move=> s hs; apply/each_none; apply: List.Forall_impl hs => x ->. Qed.
Lemma fpc_validates : validates (fun x => ok x) c.
Proof.
split=> [m bs x r|s /each_none]; last by apply: List.Forall_impl => x; case: (ok x).
by rewrite /=; case: (fp_de N bs) => //= y r'; case: ifP => // h [<- _].
Qed.
Lemma fpc_members : reads_members (fun x => ok x) c.
Proof. by split; [exact: fpc_back|exact: fpc_accepts|exact: fpc_validates]. Qed.
Lemma fpc_canon : canonical c.
Proof.
move=> m v bs x r /=; case E : (fp_de N bs) => [y r'|//] /=; have e := fp_only G E.
by case: v => [|[<- <- //]]; case: ifP => // _ [<- <-].
Qed.
Lemma fpc_size : size_exact c.
Proof. by move=> m x; rewrite /= fp_size. Qed.
Lemma fpc_lawful : lawful_element c.
Proof.
split=> [m x r _|]; first by rewrite /= (fp_back G).
split=> [m bs x r|s]; last exact: each_none.
rewrite /= /passes /=; case: (fp_de N bs) => [y r'|e] /=; last by split=> // -[].
case E : (ok y); split=> //; [by case=> <- <-; rewrite E | by case | by case=> -[<- _]; rewrite E].
Qed.
Lemma fpc_cut : cut_short any c.
Proof.
move=> m v x p t _ _ /(congr1 size); rewrite /= fp_size size_cat => e ht.
by rewrite fp_lack // e; case: t {e} ht => // b t _; rewrite addnS ltnS leq_addr.
Qed.
Lemma fpc_cuttable : cuttable_element c.
Proof. by split; [exact: fpc_lawful | exact: fpc_cut]. Qed.
End FieldCodec.

Lemma fp_good (p n0 n : nat) : prime p -> (p <= 256 ^ n0)%N -> (4 * p <= 256 ^ n)%N -> good_numbering (fp_numbering p n0 n).
Proof.
move=> hp h0 h.
have lt (x : 'F_p) : (val x < p)%N by rewrite -[X in (_ < X)%N](Fp_cast hp) ltn_ord.
split=> /=.
- by move=> x; rewrite lt natr_Zp.
- by move=> k x; case: ifP => // hk [<-]; have := val_Fp_nat hp k; rewrite modn_small // => ->.
- by move=> x; exact: leq_trans (lt x) h0.
- by case: n h => //; case: p hp {h0 lt} => [|[|]].
by move=> x; apply: leq_trans h; rewrite ltn_mul2l lt.
Qed.
Lemma ext_good (K L : Type) (coefs : L -> K * K) of_coefs (N : numbering K) : cancel coefs of_coefs -> cancel of_coefs coefs ->
  good_numbering N -> good_numbering (ext_numbering coefs of_coefs N).
Proof.
move=> k1 k2 G; set B := (256 ^ plain_len N)%N.
have hB : (0 < B)%N by rewrite expn_gt0.
split=> /=.
- move=> z; rewrite -/B mulnC addnC modnMDl divnMDl // modn_small ?divn_small ?addn0 ?gn_back ?gn_plain //.
  by rewrite -surjective_pairing k1.
- move=> k x; rewrite -/B; case E1 : (unnum N _) => [a|//]; case E2 : (unnum N _) => [b|//] [<-].
  by rewrite k2 /= -(gn_only G E1) -(gn_only G E2) addnC mulnC -divn_eq.
- move=> z; rewrite -/B expnD -/B; apply: (@leq_trans (B + B * num N (coefs z).2)); first by rewrite ltn_add2r gn_plain.
  by rewrite -mulnS; apply: leq_mul => //; exact: gn_plain.
- by rewrite addn_gt0 (gn_len G) orbT.
move=> z; rewrite expnD -/B; have := gn_flag G (coefs z).2; have := gn_plain G (coefs z).1; rewrite -/B.
set a := num N _; set b := num N _ => ha hb.
rewrite mulnDr; apply: (@leq_trans (4 * B + 4 * (B * b))); first by rewrite ltn_add2r ltn_mul2l.
have : (4 * b + 4 <= 256 ^ flag_len N)%N.
  move: hb; rewrite (flag_unit4 G) -mulnSr ltn_mul2l /= => hb; by rewrite leq_mul2l.
by rewrite -(leq_pmul2l hB) mulnDr addnC mulnCA [(B * 4)%N]mulnC.
Qed.

Section Points.
Context {K : fieldType} (N : numbering K) (G : good_numbering N) (C : sw K).
Local Notation c := (sw_codec N C).
Local Notation rhs x := (x * x * x + sw_a C * x + sw_b C).

Lemma num_inj x y : num N x = num N y -> x = y.
Proof. by move=> e; have := gn_back G x; rewrite e gn_back // => -[]. Qed.
Lemma on_curveE x y : on_curve C (Some (x, y)) <-> y * y = rhs x.
Proof. by rewrite /on_curve !expr2 exprSr expr2. Qed.
Lemma passesE P : sw_chk C P = None <-> in_group C P.
Proof.
case: P => [[x y]|] //; rewrite /sw_chk /in_group on_curveE.
by case: eqP => h; case: (sw_in C x y) => /=; split=> //; case.
Qed.
Lemma get_ysE x y : good_sqrt C -> y * y = rhs x ->
  get_ys N C x = Some (if y_flag N y is YIsPositive then (y, - y) else (- y, y)).
Proof.
move=> hs e; rewrite /get_ys; have := hs (rhs x); case: (sw_sqrt _ _) => [z|/(_ y)]; last by rewrite expr2.
rewrite expr2 -e => /eqP; rewrite -!expr2 eqf_sqr /y_flag => /orP[/eqP->|/eqP->]; rewrite ?opprK.
- by case: ltngtP => // /num_inj h; congr (Some (_, _)).
by case: ltngtP => // /num_inj h; congr (Some (_, _)).
Qed.

Lemma y_flagP y : {y_flag N y = YIsPositive} + {y_flag N y = YIsNegative}.
Proof. by rewrite /y_flag; case: ifP => _; [left|right]. Qed.
Lemma get_ys_order x y y' : get_ys N C x = Some (y, y') -> y' = - y /\ (num N y <= num N y')%N.
Proof.
rewrite /get_ys; case: (sw_sqrt _ _) => [z|//] [].
by case: ltnP => h [<- <-]; rewrite ?opprK; split=> //; exact: ltnW.
Qed.
Lemma fpf_inj x f x' f' : fpf_ser N x f = fpf_ser N x' f' -> x = x' /\ f = f'.
Proof. by move=> e; have := fpf_back G x f [::]; rewrite e fpf_back // => -[-> ->]. Qed.
Lemma fp_inj x x' : fp_ser N x = fp_ser N x' -> x = x'.
Proof. by move=> e; have := fp_back G x [::]; rewrite e fp_back // => -[->]. Qed.

(** Reading with validation is reading without and then checking. *)
Lemma sw_validate m bs : sw_de N C m VYes bs
  = match sw_de N C m VNo bs with DOk P r => if sw_chk C P is Some e then DErr e else DOk P r | DErr e => DErr e end.
Proof.
case: m => /=.
  case: (fpf_de N bs) => //= -[x f] r; case: f => //; case: (get_ys _ _ _) => // -[y y'] //=; by case: ifP.
case: (fp_de N bs) => //= x r; case: (fpf_de N r) => //= -[y f] r'; case: f => //=; by case: ifP.
Qed.
(** Reading what was written. *)
Lemma sw_read m P r : good_sqrt C -> on_curve C P -> sw_de N C m VNo (sw_ser N m P ++ r) = DOk P r.
Proof.
move=> hs; case: P => [[x y]|_]; last by case: m => /=; rewrite -?catA ?(fp_back G) /= (fpf_back G).
move/on_curveE => e; case: m => /=; last by rewrite -catA (fp_back G) /= (fpf_back G) /=; case: (y_flagP y) => ->.
by rewrite (fpf_back G) /= (get_ysE hs e); case: (y_flagP y) => ->.
Qed.
Lemma sw_curve P : in_group C P -> on_curve C P.
Proof. by case: P => [[x y] []|]. Qed.
Lemma swc_back : good_sqrt C -> reads_back (in_group C) c.
Proof.
move=> hs m v P r hP; have e := sw_read m r hs (sw_curve hP).
by case: v => //; rewrite /= sw_validate e (proj2 (passesE P) hP).
Qed.
Lemma swc_accepts : accepts (in_group C) c.
Proof. by move=> s hs; apply/each_none; apply: List.Forall_impl hs => P /passesE. Qed.
Lemma swc_validates : validates (in_group C) c.
Proof.
split=> [m bs P r|s /each_none]; last by apply: List.Forall_impl => P /passesE.
rewrite /= sw_validate; case: (sw_de _ _ _ _ _) => // P' r'.
by case E : (sw_chk C P') => [//|] [<- _]; apply/passesE.
Qed.
Lemma swc_members : good_sqrt C -> reads_members (in_group C) c.
Proof. by move=> hs; split; [exact: swc_back|exact: swc_accepts|exact: swc_validates]. Qed.
Lemma swc_lawful : good_sqrt C -> lawful (on_curve C) c.
Proof.
move=> hs; split; first by move=> m P r; exact: sw_read.
split=> [m bs P r|s]; last exact: each_none.
rewrite /passes /= sw_validate; case: (sw_de _ _ _ _ _) => [P' r'|e]; last by split=> // -[].
by case E : (sw_chk C P') => [e|]; split=> //; [case=> -[<- _]; rewrite E | case=> <- <-; rewrite E | case].
Qed.
Lemma swc_size : size_exact c.
Proof. by move=> [] [[x y]|] /=; rewrite ?size_cat ?fp_size ?fpf_size. Qed.
Lemma swc_cut : cut_short any c.
Proof.
move=> m v P p t _ _ e ht.
have st : (0 < size t)%N by case: t ht {e}.
suff : sw_de N C m VNo p = DErr IoError by case: v => //; rewrite /= sw_validate => ->.
move: e; rewrite /= /sw_ser; set tr := (if P is Some _ then _ else _); case: tr => [[x y] f]; case: m => e.
  have /(congr1 size) := e; rewrite fpf_size size_cat => es.
  by rewrite /= fpf_lack // es -{1}[size p]addn0 ltn_add2l.
have /(congr1 size) := e; rewrite size_cat fp_size fpf_size size_cat => es.
case: (ltnP (size p) (plain_len N)) => hp; first by rewrite /= fp_lack.
have ep : p = fp_ser N x ++ drop (plain_len N) p.
  rewrite -{1}(cat_take_drop (plain_len N) p); congr cat.
  have := congr1 (take (plain_len N)) e; rewrite take_cat fp_size ltnn subnn take0 cats0 => ->.
  rewrite take_cat; case: (ltngtP (size p) (plain_len N)) hp => // h _; by rewrite h subnn take0 cats0 -h take_size.
rewrite ep /= (fp_back G) /= fpf_lack // size_drop.
by rewrite -(ltn_add2l (plain_len N)) subnKC // es -{1}[size p]addn0 ltn_add2l.
Qed.
Lemma swc_errors : errors_in (fun e => e <> NotEnoughSpace) c.
Proof.
have hc P e : sw_chk C P = Some e -> e <> NotEnoughSpace by case: P => [[x y]|] //=; case: ifP => // _ [<-].
split; last split=> //.
- move=> m v bs e.
  have raw : sw_de N C m VNo bs = DErr e -> e <> NotEnoughSpace.
    have hf b e' : fpf_de N b = DErr e' -> e' <> NotEnoughSpace.
      rewrite /fpf_de; case: ifP => [_ [<-] //|_].
      by case: (_ %/ _)%N => [|[|[|k]]]; last (by case=> <-); case: (unnum N _) => // -[<-].
    have hp b e' : fp_de N b = DErr e' -> e' <> NotEnoughSpace.
      by rewrite /fp_de; case: ifP => [_ [<-] //|_]; case: (unnum N _) => // -[<-].
    case: m => /=.
      case E : (fpf_de N bs) => [[x f] r|e'] /=; last by case=> <-; exact: hf E.
      by case: f {E} => //; case: (get_ys _ _ _) => [[]|] // [<-].
    case E : (fp_de N bs) => [x r|e'] /=; last by case=> <-; exact: hp E.
    by case E' : (fpf_de N r) => [[y f] r'|e'] /=; [case: f {E'} | case=> <-; exact: hf E'].
  case: v => //; rewrite /= sw_validate; case E : (sw_de _ _ _ _ _) => [P r|e'].
    by case E' : (sw_chk C P) => [e'|//] [<-]; exact: hc E'.
  by case=> e1; apply: raw; rewrite E e1.
by elim=> //= P s IH e; case E : (sw_chk C P) => [e'|] /=; [case=> <-; exact: hc E | exact: IH].
Qed.

(** Encodings. *)
Lemma swc_one : one_at Yes (@two_valued K) c.
Proof.
have raw bs P r : two_valued P -> sw_de N C Yes VNo bs = DOk P r -> bs = sw_ser N Yes P ++ r.
  case: P => [[x y]|] //= hy; case E : (fpf_de N bs) => [[x' f] r'|//] /=; have e := fpf_only G E.
  case: f E e => // E e; case Ey : (get_ys _ _ _) => [[y1 y2]|//] [hx1 hy1 hr]; subst x' r'; have [h1 h2] := get_ys_order Ey.
    by rewrite e /sw_ser /y_flag -hy1 -h1 h2.
  rewrite e /sw_ser /y_flag; case: leqP => // h; case: hy; rewrite -hy1 h1 opprK in h *.
  by apply: num_inj; apply/eqP; rewrite eqn_leq h -h1 h2.
move=> v bs P r hP; case: v; last exact: raw.
rewrite -[de _ _ _ _]/(sw_de N C Yes VYes bs) sw_validate; case E : (sw_de _ _ _ _ _) => [P' r'|//].
by case: (sw_chk C P') => // -[e1 e2]; subst P' r'; exact: raw.
Qed.
Lemma both_ways m bs P : in_group C P -> (forall r, sw_de N C m VNo (bs ++ r) = DOk P r) ->
  forall v r, sw_de N C m v (bs ++ r) = DOk P r.
Proof. by move=> hP h [] r //; rewrite sw_validate h (proj2 (passesE P) hP). Qed.
Lemma swc_identity : other Yes c None.
Proof.
exists (fpf_ser N 1 PointAtInfinity).
  by move=> /= /fpf_inj[/eqP]; rewrite oner_eq0.
by apply: both_ways => // r; rewrite /= (fpf_back G).
Qed.
Lemma swc_torsion x : good_sqrt C -> forall y, in_group C (Some (x, y)) -> y = - y -> other Yes c (Some (x, y)).
Proof.
move=> hs y hP hy; have f : y_flag N y = YIsPositive by rewrite /y_flag -hy leqnn.
exists (fpf_ser N x YIsNegative); first by rewrite /= /sw_ser f => /fpf_inj[].
apply: both_ways => // r; have /on_curveE e := sw_curve hP.
by rewrite /= (fpf_back G) /= (get_ysE hs e) f -hy.
Qed.
Lemma swc_uncompressed P : in_group C P -> other No c P.
Proof.
case: P => [[x y]|] hP.
  pose f := if y_flag N y is YIsPositive then YIsNegative else YIsPositive.
  exists (fp_ser N x ++ fpf_ser N y f).
    by move=> /(congr1 (drop (plain_len N))); rewrite !drop_cat fp_size ltnn subnn !drop0 => /fpf_inj[_]; rewrite /f; case: (y_flagP y) => ->.
  apply: both_ways => // r; rewrite -catA /= (fp_back G) /= (fpf_back G) /= /f.
  by case: (y_flagP y) => ->.
exists (fp_ser N 0 ++ fpf_ser N 1 PointAtInfinity).
  by move=> /(congr1 (drop (plain_len N))); rewrite !drop_cat fp_size ltnn subnn !drop0 => /fpf_inj[/eqP]; rewrite oner_eq0.
by apply: both_ways => // r; rewrite -catA /= (fp_back G) /= (fpf_back G).
Qed.
Lemma swc_exact P : good_sqrt C -> in_group C P -> other Yes c P <-> ~ two_valued P.
Proof.
move=> hs hP; split=> [[bs ne rd] hv|].
  by apply: ne; have := swc_one hv (rd VNo [::]); rewrite !cats0.
case: P hP => [[x y]|] hP h; last exact: swc_identity.
by apply: swc_torsion => //; apply/eqP/negP => /negP/eqP; exact: h.
Qed.
Lemma swc_not_canonical : ~ canonical c.
Proof.
move=> h; have [bs ne rd] := swc_identity; apply: ne.
by have := h _ _ _ _ _ (rd VNo [::]); rewrite !cats0.
Qed.
End Points.
