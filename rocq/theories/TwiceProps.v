(** Lemmas about values that have more than one encoding. *)
From mathcomp Require Import all_ssreflect all_algebra.
From Coq Require Import Strings.Byte.
From Verif Require Import Base Group DataStructures Generator Commit Statement Prove Verify Spec Codec SpecCodec Ark SpecArk ArkCodec SpecWire CodecLemmas SpecTwice.
Set Implicit Arguments.
Unset Strict Implicit.
Unset Printing Implicit Defensive.
Import GRing.Theory.
Local Open Scope ring_scope.

Lemma cat_inj T (a b c : seq T) : a ++ b = a ++ c -> b = c.
Proof. by elim: a => //= x a IH [] /IH. Qed.
Section One.
Variable m : Compress.
Lemma one_items T (c : codec T) P n bs s r : one_at m P c -> List.Forall P s -> de_items c m n bs = DOk s r ->
  bs = flatten [seq ser c m x | x <- s] ++ r /\ size s = n.
Proof.
move=> h; elim: n bs s r => [|n IH] bs s r hs /=; first by case=> <- <-.
move=> h1; have [x [r1 hx h2]] := dbind_ok h1; have [xs [r2 h3 [e e']]] := dbind_ok h2.
subst s r; have [hP hPs] := proj1 (List.Forall_cons_iff _ _ _) hs.
have [e2 e3] := IH _ _ _ hPs h3; have e1 := h _ _ _ _ hP hx.
by rewrite e1 e2 /= -catA e3.
Qed.
Lemma one_vec T (c : codec T) P : one_at m P c -> one_at m (List.Forall P) (vec_codec c).
Proof.
move=> h v bs s r hs /dbind_ok[n [r1 /u64_canon e1]] /dbind_ok[xs [r2 e2 e4]].
have [ex er] : xs = s /\ r2 = r by move: e4; case: v => [|[-> -> //]]; case: (bchk c xs) => // -[-> ->].
subst xs r2; have [e3 e5] := one_items h hs e2.
by rewrite e1 e3 -e5 catA.
Qed.
Lemma one_pair T U (c : codec T) (d : codec U) P Q : one_at m P c -> one_at m Q d ->
  one_at m (fun p => P p.1 /\ Q p.2) (pair_codec c d).
Proof.
move=> h k v bs [x y] r [/= hx hy] /dbind_ok[x' [r1 e1]] /dbind_ok[y' [r2 e2 [e3 e4 e5]]]; subst x' y' r2.
by rewrite (h _ _ _ _ hx e1) (k _ _ _ _ hy e2) catA.
Qed.
Lemma one_struct T U (c : codec T) (P : T -> Prop) (Q : U -> Prop) mk fl : cancel fl mk -> cancel mk fl -> (forall x, Q x -> P (fl x)) ->
  one_at m P c -> one_at m Q (struct_codec c mk fl).
Proof.
move=> K K' hP h v bs x r hx /dbind_ok[a [r1 e1 [e2 e3]]]; subst r1.
by subst x; apply: (h v _ _ _ (hP _ hx)); rewrite K'.
Qed.
Lemma one_canon T (c : codec T) : SpecCodec.canonical c -> one_at m any c.
Proof. by move=> h v bs x r _; exact: h. Qed.
End One.

(** What is read back, and which values have another encoding. *)
Section Other.
Variable m : Compress.
Definition twice T (D S : T -> Prop) (c : codec T) : Prop :=
  [/\ reads_back D c, accepts D c & forall x, D x -> S x -> other m c x].
Lemma twice_pair T U (c : codec T) (d : codec U) D S D' S' : twice D S c -> twice D' S' d ->
  twice (fun p => D p.1 /\ D' p.2) (fun p => S p.1 \/ S' p.2) (pair_codec c d).
Proof.
move=> [b1 a1 h1] [b2 a2 h2]; split; [exact: pair_back|exact: pair_accepts|].
move=> [x y] [/= hx hy] [/(h1 _ hx)[bs ne rd]|/(h2 _ hy)[bs ne rd]].
- exists (bs ++ ser d m y) => [|v rest]; last by rewrite /= -catA rd /= b2.
  by move=> /List.app_inv_tail.
exists (ser c m x ++ bs) => [|v rest]; last by rewrite /= -catA b1 //= rd.
by move=> /List.app_inv_head.
Qed.
Lemma twice_items T (c : codec T) D S s : twice D S c -> List.Forall D s -> List.Exists S s ->
  exists2 bs, bs <> flatten [seq ser c m x | x <- s] & forall rest, de_items c m (size s) (bs ++ rest) = DOk s rest.
Proof.
move=> [b a h]; elim: s => [|x s IH] hD hS; first by inversion hS.
have [hx hs] := proj1 (List.Forall_cons_iff _ _ _) hD.
case/List.Exists_cons: hS => [/(h _ hx)[bs ne rd]|/(IH hs)[bs ne rd]].
- exists (bs ++ flatten [seq ser c m y | y <- s]) => [/List.app_inv_tail //|rest].
  by rewrite /= -catA rd /= (items_back (D := D)).
by exists (ser c m x ++ bs) => [/List.app_inv_head //|rest]; rewrite /= -catA b //= rd.
Qed.
Lemma twice_vec T (c : codec T) D S : twice D S c ->
  twice (fun s => short s /\ List.Forall D s) (List.Exists S) (vec_codec c).
Proof.
move=> h; have [b a _] := h; split; first exact: vec_back.
  by move=> ss hss; apply: (vec_accepts a); apply: List.Forall_impl hss => s [].
move=> s [sh hD] hS; have [bs ne rd] := twice_items h hD hS.
exists (u64_ser (size s) ++ bs) => [|v rest]; first by move=> e; apply: ne; exact: cat_inj e.
rewrite -catA; change (vec_de c m v (u64_ser (size s) ++ (bs ++ rest)) = DOk s rest).
rewrite /vec_de (u64_back (bs ++ rest) sh); cbn [dbind]; rewrite rd; cbn [dbind]; case: v => //.
by rewrite (a _ hD).
Qed.
Lemma twice_struct T U (c : codec T) (D S : T -> Prop) (D' S' : U -> Prop) mk fl : cancel fl mk ->
  (forall x, D' x -> D (fl x)) -> (forall x, S' x -> S (fl x)) -> twice D S c -> twice D' S' (struct_codec c mk fl).
Proof.
move=> K hD hS [b a h]; split; [exact: (struct_back K hD b)|exact: (struct_accepts _ hD a)|].
move=> x /hD hx /hS hs; have [bs ne rd] := h _ hx hs.
by exists bs => [//|v rest]; rewrite /= rd /= K.
Qed.
Lemma twice_any T (c : codec T) : reads_back any c -> accepts any c -> twice any (fun _ => False) c.
Proof. by move=> b a; split. Qed.
Lemma twice_el T (D : T -> Prop) (c : codec T) : reads_back D c /\ accepts D c -> twice D (other m c) c.
Proof. by case=> b a; split. Qed.
Lemma twice_none T (D : T -> Prop) (c : codec T) : reads_back D c /\ accepts D c -> twice D (fun _ => False) c.
Proof. by case=> b a; split. Qed.
End Other.

(** Statements of P_Twice.v. *)
Lemma forall_and T (P Q : T -> Prop) s : List.Forall P s -> List.Forall Q s -> List.Forall (fun x => P x /\ Q x) s.
Proof. by elim: s => // x s IH /List.Forall_cons_iff[h hs] /List.Forall_cons_iff[k ks]; constructor; [|exact: IH]. Qed.
Lemma k_com1_one :
  forall (F : fieldType) (A : ark F) (cs : ark_codecs A) (m : Compress) (P : aff (C1 A) -> Prop),
  one_at m P (ac_c1 cs) -> one_at m (ark_com1_all P) (ark_com1_codec cs).
Proof.
move=> F A cs m P h.
by apply: (one_struct _ _ _ (one_pair h h)) => [[]|[]|x []].
Qed.
Lemma k_com1_other :
  forall (F : fieldType) (A : ark F) (cs : ark_codecs A) (m : Compress) (D : aff (C1 A) -> Prop) x,
  reads_back D (ac_c1 cs) -> ark_com1_all D x -> ark_com1_some (other m (ac_c1 cs)) x -> other m (ark_com1_codec cs) x.
Proof.
move=> F A cs m D [x y] b [/= hx hy] [] [bs ne rd].
- exists (bs ++ ser (ac_c1 cs) m y) => [/List.app_inv_tail //|v rest]; by rewrite /= -catA rd /= b.
exists (ser (ac_c1 cs) m x ++ bs) => [/List.app_inv_head //|v rest]; by rewrite /= -catA b //= rd.
Qed.
Lemma k_com2_one :
  forall (F : fieldType) (A : ark F) (cs : ark_codecs A) (m : Compress) (P : aff (C2 A) -> Prop),
  one_at m P (ac_c2 cs) -> one_at m (ark_com2_all P) (ark_com2_codec cs).
Proof.
move=> F A cs m P h.
by apply: (one_struct _ _ _ (one_pair h h)) => [[]|[]|x []].
Qed.
Lemma k_com2_other :
  forall (F : fieldType) (A : ark F) (cs : ark_codecs A) (m : Compress) (D : aff (C2 A) -> Prop) x,
  reads_back D (ac_c2 cs) -> ark_com2_all D x -> ark_com2_some (other m (ac_c2 cs)) x -> other m (ark_com2_codec cs) x.
Proof.
move=> F A cs m D [x y] b [/= hx hy] [] [bs ne rd].
- exists (bs ++ ser (ac_c2 cs) m y) => [/List.app_inv_tail //|v rest]; by rewrite /= -catA rd /= b.
exists (ser (ac_c2 cs) m x ++ bs) => [/List.app_inv_head //|v rest]; by rewrite /= -catA b //= rd.
Qed.
Lemma k_crs_one :
  forall (F : fieldType) (A : ark F) (cs : ark_codecs A) (m : Compress) (PF : F -> Prop) (P1 : aff (C1 A) -> Prop) (P2 : aff (C2 A) -> Prop) (PT : out A -> Prop),
  one_at m PF (ac_fr cs) -> one_at m P1 (ac_c1 cs) -> one_at m P2 (ac_c2 cs) -> one_at m PT (ac_out cs) ->
  one_at m (ark_crs_all (A := A) P1 P2 PT) (ark_crs_codec cs).
Proof.
move=> F A cs m PF P1 P2 PT hf h1 h2 ht.
apply: (one_struct _ _ _ (one_pair (one_vec (k_com1_one h1)) (one_pair (one_vec (k_com2_one h2)) (one_pair (h1) (one_pair (h2) (ht)))))); [by case|by do 4!case=> ?|by rewrite /ark_crs_all /any; intuition].
Qed.
Lemma k_crs_other :
  forall (F : fieldType) (A : ark F) (cs : ark_codecs A) (m : Compress) (DF : F -> Prop) (D1 : aff (C1 A) -> Prop) (D2 : aff (C2 A) -> Prop) (DT : out A -> Prop),
  elements_read cs DF D1 D2 DT ->
  forall x, ark_crs_all D1 D2 DT x -> ark_crs_fits x -> ark_crs_some (other m (ac_c1 cs)) (other m (ac_c2 cs)) (other m (ac_out cs)) x -> other m (ark_crs_codec cs) x.
Proof.
move=> F A cs m DF D1 D2 DT e x hx fx.
have [/(twice_el m) tf /(twice_el m) t1 /(twice_el m) t2 /(twice_el m) tt] := e.
have tc1 : twice m (ark_com1_all D1) (ark_com1_some (other m (ac_c1 cs))) (ark_com1_codec cs) by apply: (twice_struct _ _ _ (twice_pair t1 t1)) => [[]|y|y].
have tc2 : twice m (ark_com2_all D2) (ark_com2_some (other m (ac_c2 cs))) (ark_com2_codec cs) by apply: (twice_struct _ _ _ (twice_pair t2 t2)) => [[]|y|y].
have tty := twice_any m equtype_back equtype_accepts.
have [_ _] : twice m (fun x => ark_crs_all D1 D2 DT x /\ ark_crs_fits x) (ark_crs_some (other m (ac_c1 cs)) (other m (ac_c2 cs)) (other m (ac_out cs))) (ark_crs_codec cs).
  apply: (twice_struct _ _ _ (twice_pair (twice_vec tc1) (twice_pair (twice_vec tc2) (twice_pair (t1) (twice_pair (t2) (tt)))))); [by case| |by rewrite /ark_crs_some; intuition].
  exact (fun y h => let: conj ha hb := h in let: (conj a0 (conj a1 (conj a2 (conj a3 a4)))) := ha in let: (conj b0 b1) := hb in (conj (conj b0 a0) (conj (conj b1 a1) (conj a2 (conj a3 a4))))).
by apply.
Qed.
Lemma k_commit1_one :
  forall (F : fieldType) (A : ark F) (cs : ark_codecs A) (m : Compress) (PF : F -> Prop) (P1 : aff (C1 A) -> Prop) (P2 : aff (C2 A) -> Prop) (PT : out A -> Prop),
  one_at m PF (ac_fr cs) -> one_at m P1 (ac_c1 cs) -> one_at m P2 (ac_c2 cs) -> one_at m PT (ac_out cs) ->
  one_at m (ark_commit1_all (A := A) PF P1) (ark_commit1_codec cs).
Proof.
move=> F A cs m PF P1 P2 PT hf h1 h2 ht.
apply: (one_struct _ _ _ (one_pair (one_vec (k_com1_one h1)) (one_vec (one_vec hf)))); [by case|by case|by rewrite /ark_commit1_all /any; intuition].
Qed.
Lemma k_commit1_other :
  forall (F : fieldType) (A : ark F) (cs : ark_codecs A) (m : Compress) (DF : F -> Prop) (D1 : aff (C1 A) -> Prop) (D2 : aff (C2 A) -> Prop) (DT : out A -> Prop),
  elements_read cs DF D1 D2 DT ->
  forall x, ark_commit1_all DF D1 x -> ark_commit1_fits x -> ark_commit1_some (other m (ac_fr cs)) (other m (ac_c1 cs)) x -> other m (ark_commit1_codec cs) x.
Proof.
move=> F A cs m DF D1 D2 DT e x hx fx.
have [/(twice_el m) tf /(twice_el m) t1 /(twice_el m) t2 /(twice_el m) tt] := e.
have tc1 : twice m (ark_com1_all D1) (ark_com1_some (other m (ac_c1 cs))) (ark_com1_codec cs) by apply: (twice_struct _ _ _ (twice_pair t1 t1)) => [[]|y|y].
have tc2 : twice m (ark_com2_all D2) (ark_com2_some (other m (ac_c2 cs))) (ark_com2_codec cs) by apply: (twice_struct _ _ _ (twice_pair t2 t2)) => [[]|y|y].
have tty := twice_any m equtype_back equtype_accepts.
have [_ _] : twice m (fun x => ark_commit1_all DF D1 x /\ ark_commit1_fits x) (ark_commit1_some (other m (ac_fr cs)) (other m (ac_c1 cs))) (ark_commit1_codec cs).
  apply: (twice_struct _ _ _ (twice_pair (twice_vec tc1) (twice_vec (twice_vec tf)))); [by case| |by rewrite /ark_commit1_some; intuition].
  exact (fun y h => let: conj ha hb := h in let: (conj a0 a1) := ha in let: (conj b0 b1) := hb in (conj (conj b0 a0) (conj (proj1 b1) (forall_and (proj2 b1) a1)))).
by apply.
Qed.
Lemma k_commit2_one :
  forall (F : fieldType) (A : ark F) (cs : ark_codecs A) (m : Compress) (PF : F -> Prop) (P1 : aff (C1 A) -> Prop) (P2 : aff (C2 A) -> Prop) (PT : out A -> Prop),
  one_at m PF (ac_fr cs) -> one_at m P1 (ac_c1 cs) -> one_at m P2 (ac_c2 cs) -> one_at m PT (ac_out cs) ->
  one_at m (ark_commit2_all (A := A) PF P2) (ark_commit2_codec cs).
Proof.
move=> F A cs m PF P1 P2 PT hf h1 h2 ht.
apply: (one_struct _ _ _ (one_pair (one_vec (k_com2_one h2)) (one_vec (one_vec hf)))); [by case|by case|by rewrite /ark_commit2_all /any; intuition].
Qed.
Lemma k_commit2_other :
  forall (F : fieldType) (A : ark F) (cs : ark_codecs A) (m : Compress) (DF : F -> Prop) (D1 : aff (C1 A) -> Prop) (D2 : aff (C2 A) -> Prop) (DT : out A -> Prop),
  elements_read cs DF D1 D2 DT ->
  forall x, ark_commit2_all DF D2 x -> ark_commit2_fits x -> ark_commit2_some (other m (ac_fr cs)) (other m (ac_c2 cs)) x -> other m (ark_commit2_codec cs) x.
Proof.
move=> F A cs m DF D1 D2 DT e x hx fx.
have [/(twice_el m) tf /(twice_el m) t1 /(twice_el m) t2 /(twice_el m) tt] := e.
have tc1 : twice m (ark_com1_all D1) (ark_com1_some (other m (ac_c1 cs))) (ark_com1_codec cs) by apply: (twice_struct _ _ _ (twice_pair t1 t1)) => [[]|y|y].
have tc2 : twice m (ark_com2_all D2) (ark_com2_some (other m (ac_c2 cs))) (ark_com2_codec cs) by apply: (twice_struct _ _ _ (twice_pair t2 t2)) => [[]|y|y].
have tty := twice_any m equtype_back equtype_accepts.
have [_ _] : twice m (fun x => ark_commit2_all DF D2 x /\ ark_commit2_fits x) (ark_commit2_some (other m (ac_fr cs)) (other m (ac_c2 cs))) (ark_commit2_codec cs).
  apply: (twice_struct _ _ _ (twice_pair (twice_vec tc2) (twice_vec (twice_vec tf)))); [by case| |by rewrite /ark_commit2_some; intuition].
  exact (fun y h => let: conj ha hb := h in let: (conj a0 a1) := ha in let: (conj b0 b1) := hb in (conj (conj b0 a0) (conj (proj1 b1) (forall_and (proj2 b1) a1)))).
by apply.
Qed.
Lemma k_equproof_one :
  forall (F : fieldType) (A : ark F) (cs : ark_codecs A) (m : Compress) (PF : F -> Prop) (P1 : aff (C1 A) -> Prop) (P2 : aff (C2 A) -> Prop) (PT : out A -> Prop),
  one_at m PF (ac_fr cs) -> one_at m P1 (ac_c1 cs) -> one_at m P2 (ac_c2 cs) -> one_at m PT (ac_out cs) ->
  one_at m (ark_equproof_all (A := A) PF P1 P2) (ark_equproof_codec cs).
Proof.
move=> F A cs m PF P1 P2 PT hf h1 h2 ht.
apply: (one_struct _ _ _ (one_pair (one_vec (k_com2_one h2)) (one_pair (one_vec (k_com1_one h1)) (one_pair (one_canon (m := m) equtype_canon) (one_vec (one_vec hf)))))); [by case|by do 3!case=> ?|by rewrite /ark_equproof_all /any; intuition].
Qed.
Lemma k_equproof_other :
  forall (F : fieldType) (A : ark F) (cs : ark_codecs A) (m : Compress) (DF : F -> Prop) (D1 : aff (C1 A) -> Prop) (D2 : aff (C2 A) -> Prop) (DT : out A -> Prop),
  elements_read cs DF D1 D2 DT ->
  forall x, ark_equproof_all DF D1 D2 x -> ark_equproof_fits x -> ark_equproof_some (other m (ac_fr cs)) (other m (ac_c1 cs)) (other m (ac_c2 cs)) x -> other m (ark_equproof_codec cs) x.
Proof.
move=> F A cs m DF D1 D2 DT e x hx fx.
have [/(twice_el m) tf /(twice_el m) t1 /(twice_el m) t2 /(twice_el m) tt] := e.
have tc1 : twice m (ark_com1_all D1) (ark_com1_some (other m (ac_c1 cs))) (ark_com1_codec cs) by apply: (twice_struct _ _ _ (twice_pair t1 t1)) => [[]|y|y].
have tc2 : twice m (ark_com2_all D2) (ark_com2_some (other m (ac_c2 cs))) (ark_com2_codec cs) by apply: (twice_struct _ _ _ (twice_pair t2 t2)) => [[]|y|y].
have tty := twice_any m equtype_back equtype_accepts.
have [_ _] : twice m (fun x => ark_equproof_all DF D1 D2 x /\ ark_equproof_fits x) (ark_equproof_some (other m (ac_fr cs)) (other m (ac_c1 cs)) (other m (ac_c2 cs))) (ark_equproof_codec cs).
  apply: (twice_struct _ _ _ (twice_pair (twice_vec tc2) (twice_pair (twice_vec tc1) (twice_pair (tty) (twice_vec (twice_vec tf)))))); [by case| |by rewrite /ark_equproof_some; intuition].
  exact (fun y h => let: conj ha hb := h in let: (conj a0 (conj a1 a2)) := ha in let: (conj b0 (conj b1 b2)) := hb in (conj (conj b0 a0) (conj (conj b1 a1) (conj Logic.I (conj (proj1 b2) (forall_and (proj2 b2) a2)))))).
by apply.
Qed.
Lemma k_ppe_one :
  forall (F : fieldType) (A : ark F) (cs : ark_codecs A) (m : Compress) (PF : F -> Prop) (P1 : aff (C1 A) -> Prop) (P2 : aff (C2 A) -> Prop) (PT : out A -> Prop),
  one_at m PF (ac_fr cs) -> one_at m P1 (ac_c1 cs) -> one_at m P2 (ac_c2 cs) -> one_at m PT (ac_out cs) ->
  one_at m (ark_ppe_all (A := A) PF P1 P2 PT) (ark_ppe_codec cs).
Proof.
move=> F A cs m PF P1 P2 PT hf h1 h2 ht.
apply: (one_struct _ _ _ (one_pair (one_vec h1) (one_pair (one_vec h2) (one_pair (one_vec (one_vec hf)) (ht))))); [by case|by do 3!case=> ?|by rewrite /ark_ppe_all /any; intuition].
Qed.
Lemma k_ppe_other :
  forall (F : fieldType) (A : ark F) (cs : ark_codecs A) (m : Compress) (DF : F -> Prop) (D1 : aff (C1 A) -> Prop) (D2 : aff (C2 A) -> Prop) (DT : out A -> Prop),
  elements_read cs DF D1 D2 DT ->
  forall x, ark_ppe_all DF D1 D2 DT x -> ark_ppe_fits x -> ark_ppe_some (other m (ac_fr cs)) (other m (ac_c1 cs)) (other m (ac_c2 cs)) (other m (ac_out cs)) x -> other m (ark_ppe_codec cs) x.
Proof.
move=> F A cs m DF D1 D2 DT e x hx fx.
have [/(twice_el m) tf /(twice_el m) t1 /(twice_el m) t2 /(twice_el m) tt] := e.
have tc1 : twice m (ark_com1_all D1) (ark_com1_some (other m (ac_c1 cs))) (ark_com1_codec cs) by apply: (twice_struct _ _ _ (twice_pair t1 t1)) => [[]|y|y].
have tc2 : twice m (ark_com2_all D2) (ark_com2_some (other m (ac_c2 cs))) (ark_com2_codec cs) by apply: (twice_struct _ _ _ (twice_pair t2 t2)) => [[]|y|y].
have tty := twice_any m equtype_back equtype_accepts.
have [_ _] : twice m (fun x => ark_ppe_all DF D1 D2 DT x /\ ark_ppe_fits x) (ark_ppe_some (other m (ac_fr cs)) (other m (ac_c1 cs)) (other m (ac_c2 cs)) (other m (ac_out cs))) (ark_ppe_codec cs).
  apply: (twice_struct _ _ _ (twice_pair (twice_vec t1) (twice_pair (twice_vec t2) (twice_pair (twice_vec (twice_vec tf)) (tt))))); [by case| |by rewrite /ark_ppe_some; intuition].
  exact (fun y h => let: conj ha hb := h in let: (conj a0 (conj a1 (conj a2 a3))) := ha in let: (conj b0 (conj b1 b2)) := hb in (conj (conj b0 a0) (conj (conj b1 a1) (conj (conj (proj1 b2) (forall_and (proj2 b2) a2)) a3)))).
by apply.
Qed.
Lemma k_ms1_one :
  forall (F : fieldType) (A : ark F) (cs : ark_codecs A) (m : Compress) (PF : F -> Prop) (P1 : aff (C1 A) -> Prop) (P2 : aff (C2 A) -> Prop) (PT : out A -> Prop),
  one_at m PF (ac_fr cs) -> one_at m P1 (ac_c1 cs) -> one_at m P2 (ac_c2 cs) -> one_at m PT (ac_out cs) ->
  one_at m (ark_ms1_all (A := A) PF P1) (ark_ms1_codec cs).
Proof.
move=> F A cs m PF P1 P2 PT hf h1 h2 ht.
apply: (one_struct _ _ _ (one_pair (one_vec h1) (one_pair (one_vec hf) (one_pair (one_vec (one_vec hf)) (h1))))); [by case|by do 3!case=> ?|by rewrite /ark_ms1_all /any; intuition].
Qed.
Lemma k_ms1_other :
  forall (F : fieldType) (A : ark F) (cs : ark_codecs A) (m : Compress) (DF : F -> Prop) (D1 : aff (C1 A) -> Prop) (D2 : aff (C2 A) -> Prop) (DT : out A -> Prop),
  elements_read cs DF D1 D2 DT ->
  forall x, ark_ms1_all DF D1 x -> ark_ms1_fits x -> ark_ms1_some (other m (ac_fr cs)) (other m (ac_c1 cs)) x -> other m (ark_ms1_codec cs) x.
Proof.
move=> F A cs m DF D1 D2 DT e x hx fx.
have [/(twice_el m) tf /(twice_el m) t1 /(twice_el m) t2 /(twice_el m) tt] := e.
have tc1 : twice m (ark_com1_all D1) (ark_com1_some (other m (ac_c1 cs))) (ark_com1_codec cs) by apply: (twice_struct _ _ _ (twice_pair t1 t1)) => [[]|y|y].
have tc2 : twice m (ark_com2_all D2) (ark_com2_some (other m (ac_c2 cs))) (ark_com2_codec cs) by apply: (twice_struct _ _ _ (twice_pair t2 t2)) => [[]|y|y].
have tty := twice_any m equtype_back equtype_accepts.
have [_ _] : twice m (fun x => ark_ms1_all DF D1 x /\ ark_ms1_fits x) (ark_ms1_some (other m (ac_fr cs)) (other m (ac_c1 cs))) (ark_ms1_codec cs).
  apply: (twice_struct _ _ _ (twice_pair (twice_vec t1) (twice_pair (twice_vec tf) (twice_pair (twice_vec (twice_vec tf)) (t1))))); [by case| |by rewrite /ark_ms1_some; intuition].
  exact (fun y h => let: conj ha hb := h in let: (conj a0 (conj a1 (conj a2 a3))) := ha in let: (conj b0 (conj b1 b2)) := hb in (conj (conj b0 a0) (conj (conj b1 a1) (conj (conj (proj1 b2) (forall_and (proj2 b2) a2)) a3)))).
by apply.
Qed.
Lemma k_ms2_one :
  forall (F : fieldType) (A : ark F) (cs : ark_codecs A) (m : Compress) (PF : F -> Prop) (P1 : aff (C1 A) -> Prop) (P2 : aff (C2 A) -> Prop) (PT : out A -> Prop),
  one_at m PF (ac_fr cs) -> one_at m P1 (ac_c1 cs) -> one_at m P2 (ac_c2 cs) -> one_at m PT (ac_out cs) ->
  one_at m (ark_ms2_all (A := A) PF P2) (ark_ms2_codec cs).
Proof.
move=> F A cs m PF P1 P2 PT hf h1 h2 ht.
apply: (one_struct _ _ _ (one_pair (one_vec hf) (one_pair (one_vec h2) (one_pair (one_vec (one_vec hf)) (h2))))); [by case|by do 3!case=> ?|by rewrite /ark_ms2_all /any; intuition].
Qed.
Lemma k_ms2_other :
  forall (F : fieldType) (A : ark F) (cs : ark_codecs A) (m : Compress) (DF : F -> Prop) (D1 : aff (C1 A) -> Prop) (D2 : aff (C2 A) -> Prop) (DT : out A -> Prop),
  elements_read cs DF D1 D2 DT ->
  forall x, ark_ms2_all DF D2 x -> ark_ms2_fits x -> ark_ms2_some (other m (ac_fr cs)) (other m (ac_c2 cs)) x -> other m (ark_ms2_codec cs) x.
Proof.
move=> F A cs m DF D1 D2 DT e x hx fx.
have [/(twice_el m) tf /(twice_el m) t1 /(twice_el m) t2 /(twice_el m) tt] := e.
have tc1 : twice m (ark_com1_all D1) (ark_com1_some (other m (ac_c1 cs))) (ark_com1_codec cs) by apply: (twice_struct _ _ _ (twice_pair t1 t1)) => [[]|y|y].
have tc2 : twice m (ark_com2_all D2) (ark_com2_some (other m (ac_c2 cs))) (ark_com2_codec cs) by apply: (twice_struct _ _ _ (twice_pair t2 t2)) => [[]|y|y].
have tty := twice_any m equtype_back equtype_accepts.
have [_ _] : twice m (fun x => ark_ms2_all DF D2 x /\ ark_ms2_fits x) (ark_ms2_some (other m (ac_fr cs)) (other m (ac_c2 cs))) (ark_ms2_codec cs).
  apply: (twice_struct _ _ _ (twice_pair (twice_vec tf) (twice_pair (twice_vec t2) (twice_pair (twice_vec (twice_vec tf)) (t2))))); [by case| |by rewrite /ark_ms2_some; intuition].
  exact (fun y h => let: conj ha hb := h in let: (conj a0 (conj a1 (conj a2 a3))) := ha in let: (conj b0 (conj b1 b2)) := hb in (conj (conj b0 a0) (conj (conj b1 a1) (conj (conj (proj1 b2) (forall_and (proj2 b2) a2)) a3)))).
by apply.
Qed.
Lemma k_quad_one :
  forall (F : fieldType) (A : ark F) (cs : ark_codecs A) (m : Compress) (PF : F -> Prop) (P1 : aff (C1 A) -> Prop) (P2 : aff (C2 A) -> Prop) (PT : out A -> Prop),
  one_at m PF (ac_fr cs) -> one_at m P1 (ac_c1 cs) -> one_at m P2 (ac_c2 cs) -> one_at m PT (ac_out cs) ->
  one_at m (ark_quad_all PF) (ark_quad_codec cs).
Proof.
move=> F A cs m PF P1 P2 PT hf h1 h2 ht.
apply: (one_struct _ _ _ (one_pair (one_vec hf) (one_pair (one_vec hf) (one_pair (one_vec (one_vec hf)) (hf))))); [by case|by do 3!case=> ?|by rewrite /ark_quad_all /any; intuition].
Qed.
Lemma k_quad_other :
  forall (F : fieldType) (A : ark F) (cs : ark_codecs A) (m : Compress) (DF : F -> Prop) (D1 : aff (C1 A) -> Prop) (D2 : aff (C2 A) -> Prop) (DT : out A -> Prop),
  elements_read cs DF D1 D2 DT ->
  forall x, ark_quad_all DF x -> ark_quad_fits x -> ark_quad_some (other m (ac_fr cs)) x -> other m (ark_quad_codec cs) x.
Proof.
move=> F A cs m DF D1 D2 DT e x hx fx.
have [/(twice_el m) tf /(twice_el m) t1 /(twice_el m) t2 /(twice_el m) tt] := e.
have tc1 : twice m (ark_com1_all D1) (ark_com1_some (other m (ac_c1 cs))) (ark_com1_codec cs) by apply: (twice_struct _ _ _ (twice_pair t1 t1)) => [[]|y|y].
have tc2 : twice m (ark_com2_all D2) (ark_com2_some (other m (ac_c2 cs))) (ark_com2_codec cs) by apply: (twice_struct _ _ _ (twice_pair t2 t2)) => [[]|y|y].
have tty := twice_any m equtype_back equtype_accepts.
have [_ _] : twice m (fun x => ark_quad_all DF x /\ ark_quad_fits x) (ark_quad_some (other m (ac_fr cs))) (ark_quad_codec cs).
  apply: (twice_struct _ _ _ (twice_pair (twice_vec tf) (twice_pair (twice_vec tf) (twice_pair (twice_vec (twice_vec tf)) (tf))))); [by case| |by rewrite /ark_quad_some; intuition].
  exact (fun y h => let: conj ha hb := h in let: (conj a0 (conj a1 (conj a2 a3))) := ha in let: (conj b0 (conj b1 b2)) := hb in (conj (conj b0 a0) (conj (conj b1 a1) (conj (conj (proj1 b2) (forall_and (proj2 b2) a2)) a3)))).
by apply.
Qed.
