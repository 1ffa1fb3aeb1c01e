(** Statements of P_Formats.v. *)
From mathcomp Require Import all_ssreflect all_algebra.
From Coq Require Import Strings.Byte.
From Verif Require Import Base Group DataStructures Generator Commit Statement Prove Verify Spec Codec SpecCodec SpecCodec2 Ark SpecArk ArkCodec SpecWire SpecTwice Formats SpecFormats CodecLemmas FormatsLemmas TwiceProps.
Set Implicit Arguments.
Unset Strict Implicit.
Unset Printing Implicit Defensive.
Import GRing.Theory.
Local Open Scope ring_scope.

Lemma members_struct T U (c : codec T) (D : T -> Prop) (D' : U -> Prop) mk fl : cancel fl mk -> cancel mk fl ->
  (forall x, D' x <-> D (fl x)) -> reads_members D c -> reads_members D' (struct_codec c mk fl).
Proof.
move=> k1 k2 h [b a v]; split.
- by apply: (struct_back k1 _ b) => x /h.
- by apply: (struct_accepts _ _ a) => x /h.
by apply: (struct_validates k2 _ v) => x /h.
Qed.
Lemma other_struct T U m (c : codec T) mk fl (x : U) : cancel fl mk -> other m c (fl x) -> other m (struct_codec c mk fl) x.
Proof. by move=> k [bs ne rd]; exists bs => [//|v r]; rewrite /= rd /= k. Qed.
Section Standard.
Context {F : fieldType} {A : ark F} (X : standard A) (G : good_standard X).
Local Notation cs := (standard_codecs X).
Lemma std_1 : reads_members (member1 X) (ac_c1 cs).
Proof. by apply: (members_struct (gs_1 G) (gs_1' G) _ (swc_members (gs_N1 G) (gs_S1 G))). Qed.
Lemma std_2 : reads_members (member2 X) (ac_c2 cs).
Proof. by apply: (members_struct (gs_2 G) (gs_2' G) _ (swc_members (gs_N2 G) (gs_S2 G))). Qed.
Lemma std_F : good_codec (ac_fr cs).
Proof.
have [b a _] := fpc_members (gs_NF G) (fun _ => true); split=> [m v x r _|s _]; first exact: b.
by apply: a; elim: s => [|x s IH]; constructor.
Qed.
Lemma std_T : reads_members (fun x => st_ok X x) (ac_out cs).
Proof. exact: (fpc_members (gs_NT G)). Qed.
Lemma std_read : elements_read cs any (member1 X) (member2 X) (fun x => st_ok X x).
Proof. by split; [case: std_F | case: std_1 | case: std_2 | case: std_T]. Qed.
Lemma std_one1 : one_at Yes (regular1 X) (ac_c1 cs).
Proof. exact: (one_struct (gs_1 G) (gs_1' G) (fun _ h => h) (@swc_one _ _ (gs_N1 G) (st_S1 X))). Qed.
Lemma std_one2 : one_at Yes (regular2 X) (ac_c2 cs).
Proof. exact: (one_struct (gs_2 G) (gs_2' G) (fun _ h => h) (@swc_one _ _ (gs_N2 G) (st_S2 X))). Qed.
Lemma std_oneF m : one_at m any (ac_fr cs).
Proof. by apply: one_canon; exact: (fpc_canon (gs_NF G)). Qed.
Lemma std_oneT m : one_at m any (ac_out cs).
Proof. by apply: one_canon; exact: (fpc_canon (gs_NT G)). Qed.
Lemma std_other1 a : member1 X a -> other No (ac_c1 cs) a.
Proof. by move=> h; apply: (other_struct (gs_1 G)); exact: (swc_uncompressed (gs_N1 G) h). Qed.
Lemma std_other2 a : member2 X a -> other No (ac_c2 cs) a.
Proof. by move=> h; apply: (other_struct (gs_2 G)); exact: (swc_uncompressed (gs_N2 G) h). Qed.
End Standard.

Lemma members_ext T (D D' : T -> Prop) c : (forall x, D' x <-> D x) -> reads_members D c -> reads_members D' c.
Proof.
move=> h [b a [v1 v2]]; split.
- by move=> m v x r /h; exact: b.
- by move=> s hs; apply: a; apply: List.Forall_impl hs => x /h.
by split=> [m bs x r /v1 /h //|s /v2]; apply: List.Forall_impl => x /h.
Qed.
Lemma forall_any2 T (M : seq (seq T)) : List.Forall (List.Forall any) M.
Proof. by elim: M => [|r M IH]; constructor=> //; exact: forall_any. Qed.
Lemma std_commit1 (F : fieldType) (A : ark F) (X : standard A) : good_standard X ->
  twice No (fun x => ark_commit1_all any (member1 X) x /\ ark_commit1_fits x) (fun _ => False) (ark_commit1_codec (standard_codecs X)).
Proof.
move=> G; have [tf t1 t2 tt] := std_read G.
have tc1 : twice No (ark_com1_all (member1 X)) (fun _ => False) (ark_com1_codec (standard_codecs X)).
  by apply: (twice_struct _ _ _ (twice_pair (twice_none No t1) (twice_none No t1))) => [[]|y|y].
apply: (twice_struct _ _ _ (twice_pair (twice_vec tc1) (twice_vec (twice_vec (twice_none No tf))))); [by case| |by []].
exact (fun y h => let: conj ha hb := h in let: (conj a0 a1) := ha in let: (conj b0 b1) := hb in (conj (conj b0 a0) (conj (proj1 b1) (forall_and (proj2 b1) a1)))).
Qed.
Lemma k_prime_field :
  forall p n0 n : nat, prime p -> (p <= 256 ^ n0)%N -> (4 * p <= 256 ^ n)%N -> good_numbering (fp_numbering p n0 n).
Proof.
exact: fp_good.
Qed.
Lemma k_extension :
  forall (K L : Type) (coefs : L -> K * K) (of_coefs : K * K -> L) (N : numbering K), cancel coefs of_coefs -> cancel of_coefs coefs ->
  good_numbering N -> good_numbering (ext_numbering coefs of_coefs N).
Proof.
exact: ext_good.
Qed.
Lemma k_field_members :
  forall (K : Type) (N : numbering K) (ok : K -> bool), good_numbering N -> reads_members (fun x => ok x) (fp_codec N ok).
Proof.
by move=> K N ok G; exact: fpc_members.
Qed.
Lemma k_field_canonical :
  forall (K : Type) (N : numbering K) (ok : K -> bool), good_numbering N -> SpecCodec.canonical (fp_codec N ok).
Proof.
by move=> K N ok G; exact: fpc_canon.
Qed.
Lemma k_field_size :
  forall (K : Type) (N : numbering K) (ok : K -> bool), size_exact (fp_codec N ok).
Proof.
by move=> K N ok; exact: fpc_size.
Qed.
Lemma k_field_cuttable :
  forall (K : Type) (N : numbering K) (ok : K -> bool), good_numbering N -> cuttable_element (fp_codec N ok).
Proof.
by move=> K N ok G; exact: fpc_cuttable.
Qed.
Lemma k_point_members :
  forall (K : fieldType) (N : numbering K) (C : sw K), good_numbering N -> good_sqrt C -> reads_members (in_group C) (sw_codec N C).
Proof.
by move=> K N C G; exact: swc_members.
Qed.
Lemma k_point_lawful :
  forall (K : fieldType) (N : numbering K) (C : sw K), good_numbering N -> good_sqrt C -> lawful (on_curve C) (sw_codec N C).
Proof.
by move=> K N C G; exact: swc_lawful.
Qed.
Lemma k_point_size :
  forall (K : fieldType) (N : numbering K) (C : sw K), size_exact (sw_codec N C).
Proof.
by move=> K N C; exact: swc_size.
Qed.
Lemma k_point_cut :
  forall (K : fieldType) (N : numbering K) (C : sw K), good_numbering N -> cut_short any (sw_codec N C).
Proof.
by move=> K N C G; exact: swc_cut.
Qed.
Lemma k_point_errors :
  forall (K : fieldType) (N : numbering K) (C : sw K), errors_in (fun e => e <> NotEnoughSpace) (sw_codec N C).
Proof.
by move=> K N C; exact: swc_errors.
Qed.
Lemma k_point_one :
  forall (K : fieldType) (N : numbering K) (C : sw K), good_numbering N -> one_at Yes (@two_valued K) (sw_codec N C).
Proof.
by move=> K N C G; exact: swc_one.
Qed.
Lemma k_point_exact :
  forall (K : fieldType) (N : numbering K) (C : sw K) P, good_numbering N -> good_sqrt C -> in_group C P -> (other Yes (sw_codec N C) P <-> ~ two_valued P).
Proof.
by move=> K N C P G; exact: swc_exact.
Qed.
Lemma k_point_uncompressed :
  forall (K : fieldType) (N : numbering K) (C : sw K) P, good_numbering N -> in_group C P -> other No (sw_codec N C) P.
Proof.
by move=> K N C P G; exact: swc_uncompressed.
Qed.
Lemma k_point_canonical_refuted :
  forall (K : fieldType) (N : numbering K) (C : sw K), good_numbering N -> ~ SpecCodec.canonical (sw_codec N C).
Proof.
by move=> K N C G; exact: swc_not_canonical.
Qed.
Lemma k_transports :
  forall (E : pairing) (A : ark (Fr E)) (r1 : repr (G1 E) (C1 A)) (r2 : repr (G2 E) (C2 A)) (rt : GT E -> out A -> Prop) (X : standard A), good_standard X ->
  (forall a, (exists x, ra r1 x a) <-> member1 X a) -> (forall a, (exists x, ra r2 x a) <-> member2 X a) -> (forall o, (exists x, rt x o) <-> st_ok X o) ->
  transports r1 r2 rt (standard_codecs X).
Proof.
move=> E A r1 r2 rt X G h1 h2 ht; split.
- exact: std_F.
- exact: (members_ext _ (std_1 G)).
- exact: (members_ext _ (std_2 G)).
exact: (members_ext _ (std_T G)).
Qed.
Lemma k_commit1_uncompressed :
  forall (F : fieldType) (A : ark F) (X : standard A) (x : ark_Commit1 A), good_standard X -> List.Forall (ark_com1_all (member1 X)) (ark_coms x) -> ark_commit1_fits x ->
  ark_coms x <> [::] -> other No (ark_commit1_codec (standard_codecs X)) x.
Proof.
move=> F A X x G hx fx ne; apply: (k_commit1_other (std_read G)) fx _; first by split=> //; exact: forall_any2.
left; case: (ark_coms x) hx ne => // c s /List.Forall_cons_iff[[h _] _] _; constructor; left; exact: std_other1.
Qed.
Lemma k_commit1_compressed :
  forall (F : fieldType) (A : ark F) (X : standard A), good_standard X ->
  one_at Yes (fun x : ark_Commit1 A => List.Forall (ark_com1_all (regular1 X)) (ark_coms x)) (ark_commit1_codec (standard_codecs X)).
Proof.
move=> F A X G v bs x r hx; apply: (k_commit1_one (@std_oneF _ _ _ G Yes) (std_one1 G) (std_one2 G) (@std_oneT _ _ _ G Yes)).
by split=> //; exact: forall_any2.
Qed.
Lemma k_commit2_uncompressed :
  forall (F : fieldType) (A : ark F) (X : standard A) (x : ark_Commit2 A), good_standard X -> List.Forall (ark_com2_all (member2 X)) (ark_coms x) -> ark_commit2_fits x ->
  ark_coms x <> [::] -> other No (ark_commit2_codec (standard_codecs X)) x.
Proof.
move=> F A X x G hx fx ne; apply: (k_commit2_other (std_read G)) fx _; first by split=> //; exact: forall_any2.
left; case: (ark_coms x) hx ne => // c s /List.Forall_cons_iff[[h _] _] _; constructor; left; exact: std_other2.
Qed.
Lemma k_commit2_compressed :
  forall (F : fieldType) (A : ark F) (X : standard A), good_standard X ->
  one_at Yes (fun x : ark_Commit2 A => List.Forall (ark_com2_all (regular2 X)) (ark_coms x)) (ark_commit2_codec (standard_codecs X)).
Proof.
move=> F A X G v bs x r hx; apply: (k_commit2_one (@std_oneF _ _ _ G Yes) (std_one1 G) (std_one2 G) (@std_oneT _ _ _ G Yes)).
by split=> //; exact: forall_any2.
Qed.
Lemma k_equproof_uncompressed :
  forall (F : fieldType) (A : ark F) (X : standard A) (x : ark_EquProof A), good_standard X -> List.Forall (ark_com2_all (member2 X)) (ark_pi x) -> List.Forall (ark_com1_all (member1 X)) (ark_theta x) ->
  ark_equproof_fits x -> ark_pi x <> [::] \/ ark_theta x <> [::] -> other No (ark_equproof_codec (standard_codecs X)) x.
Proof.
move=> F A X x G hp ht fx ne; apply: (k_equproof_other (std_read G)) fx _; first by split=> //; split=> //; exact: forall_any2.
case: ne => ne.
- left; case: (ark_pi x) hp ne => // c s /List.Forall_cons_iff[[h _] _] _; constructor; left; exact: std_other2.
right; left; case: (ark_theta x) ht ne => // c s /List.Forall_cons_iff[[h _] _] _; constructor; left; exact: std_other1.
Qed.
Lemma k_equproof_compressed :
  forall (F : fieldType) (A : ark F) (X : standard A), good_standard X ->
  one_at Yes (fun x : ark_EquProof A => List.Forall (ark_com2_all (regular2 X)) (ark_pi x) /\ List.Forall (ark_com1_all (regular1 X)) (ark_theta x)) (ark_equproof_codec (standard_codecs X)).
Proof.
move=> F A X G v bs x r [hp ht]; apply: (k_equproof_one (@std_oneF _ _ _ G Yes) (std_one1 G) (std_one2 G) (@std_oneT _ _ _ G Yes)).
by split=> //; split=> //; exact: forall_any2.
Qed.
Lemma k_proof_malleable :
  forall (F : fieldType) (A : ark F) (X : standard A) (p : ark_CProof A), good_standard X -> List.Forall (ark_com1_all (member1 X)) (ark_coms (ark_xcoms p)) -> ark_commit1_fits (ark_xcoms p) ->
  ark_coms (ark_xcoms p) <> [::] ->
  exists2 bs, bs <> ark_send (standard_codecs X) No p & forall v, ark_read (standard_codecs X) No v bs = ark_read (standard_codecs X) No v (ark_send (standard_codecs X) No p).
Proof.
move=> F A X p G hx fx ne; have [bs hb rd] := k_commit1_uncompressed G hx fx ne.
rewrite /ark_send; set rest := ser (ark_commit2_codec _) _ _ ++ _.
exists (bs ++ rest) => [e|v]; first by apply: hb; apply: (List.app_inv_tail rest); exact: e.
have [b1 _ _] : twice No (fun x => ark_commit1_all any (member1 X) x /\ ark_commit1_fits x) (fun _ => False) (ark_commit1_codec (standard_codecs X)) by exact: std_commit1.
rewrite /ark_read rd b1 //; split=> //; split=> //; exact: forall_any2.
Qed.

Lemma top_byte n (bs : seq byte) : (n < size bs)%N -> (le_val (take n.+1 bs) %/ (64 * 256 ^ n) = to_nat (nth x00 bs n) %/ 64)%N.
Proof.
elim: n bs => [|n IH] [|b bs] // hs.
  have -> : take 1 (b :: bs) = [:: b] by rewrite /= take0.
  have -> : le_val [:: b] = to_nat b by apply: addn0.
  by rewrite expn0 muln1.
have -> : le_val (take n.+2 (b :: bs)) = (to_nat b + le_val (take n.+1 bs) * 256)%N by [].
have -> : nth x00 (b :: bs) n.+1 = nth x00 bs n by [].
rewrite -IH //.
have hb : (to_nat b < 256)%N by rewrite ltnS; apply/leP; exact: to_nat_bounded.
by rewrite expnS mulnCA divnMA divnDMl // (divn_small hb) add0n.
Qed.

Lemma k_field_io : forall (K : Type) (N : numbering K) (ok : K -> bool) m v bs,
  de (fp_codec N ok) m v bs = DErr IoError <-> (size bs < plain_len N)%N.
Proof.
move=> K N ok m v bs; rewrite /= /fp_de; case: ltnP => h; first by [].
by case: (unnum N _) => [x|] /=; case: v => //=; case: (ok x).
Qed.

Lemma fpf_io K (N : numbering K) bs : fpf_de N bs = DErr IoError <-> (size bs < flag_len N)%N.
Proof.
rewrite /fpf_de; case: ltnP => h; first by [].
by case: (_ %/ _)%N => [|[|[|?]]] //; case: (unnum N _).
Qed.

Lemma k_point_io : forall (K : fieldType) (N : numbering K) (C : sw K) v bs,
  (de (sw_codec N C) Yes v bs = DErr IoError <-> (size bs < flag_len N)%N) /\
  (de (sw_codec N C) No v bs = DErr IoError <->
    (size bs < plain_len N)%N \/ (size bs < plain_len N + flag_len N)%N /\ unnum N (le_val (take (plain_len N) bs)) <> None).
Proof.
move=> K N C v bs; rewrite /= /sw_de; split.
  rewrite -fpf_io; case: (fpf_de N bs) => [[x f] r|e] /=; last by split=> -[->].
  by case: f; case: (get_ys N C x) => [[y y']|]; case: v => //=; case: ifP => //; rewrite /sw_chk; case: ifP.
rewrite /fp_de; case: ltnP => h1 /=; first by split=> // _; left.
case: (unnum N _) => [x|] /=; last by split=> // -[|[]].
have -> : (size bs < plain_len N + flag_len N)%N = (size (drop (plain_len N) bs) < flag_len N)%N.
  by rewrite size_drop -[in LHS](subnKC h1) ltn_add2l.
rewrite -fpf_io; case: (fpf_de N _) => [[y f] r|e] /=; last by split=> [[->]|[|[[->]]]] //; right.
by split; [|case=> // -[]]; case: f; case: v => //=; case: ifP.
Qed.

Lemma k_point_flags : forall (K : fieldType) (N : numbering K) (C : sw K) v bs, good_numbering N ->
  de (sw_codec N C) Yes v bs = DErr UnexpectedFlags <-> (flag_len N <= size bs)%N /\ (192 <= to_nat (nth x00 bs (flag_len N).-1))%N.
Proof.
move=> K N C v bs hN; rewrite /= /sw_de /fpf_de; case: ltnP => h /=; first by split=> // -[].
have h0 : (0 < flag_len N)%N.
  by have := flag_unit4 hN; rewrite /flag_unit; case: (flag_len N) => //; rewrite expn0.
have := @top_byte (flag_len N).-1 bs; rewrite prednK // => /(_ h); rewrite -/(flag_unit N) => ->.
have -> : (192 <= to_nat (nth x00 bs (flag_len N).-1))%N = (3 <= to_nat (nth x00 bs (flag_len N).-1) %/ 64)%N by rewrite leq_divRL.
have : (to_nat (nth x00 bs (flag_len N).-1) %/ 64 <= 3)%N.
  by rewrite -ltnS ltn_divLR // ltnS; apply/leP; exact: to_nat_bounded.
case: (_ %/ _)%N => [|[|[|[|?]]]] // _.
all: split; last by case.
all: case: (unnum N _) => [x|] //=.
all: by try (case: (get_ys N C x) => [[y y']|] //=); case: v => //=; rewrite /sw_chk; case: ifP.
Qed.
