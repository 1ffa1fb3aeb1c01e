(** Completeness of [prove] on commitments built by the library; systems of equations:
    completeness, soundness, witness indistinguishability, simulation. *)
From mathcomp Require Import all_ssreflect all_algebra.
From Verif Require Import Base BaseLemmas Group DataStructures MatLemmas CoreAlg ComLemmas.
From Verif Require Import Generator Commit Statement Prove Verify Spec SpecApi SpecMat SpecVerify SpecHide SpecSxdh SpecMulti.
From Verif Require Import ProveLemmas CommitLemmas Holds Complete Main Draws GenProps CapLemmas SoundGen Extract HideCore HideTape Hiding HideProps ApiLemmas Sxdh MultiLemmas.
Set Implicit Arguments.
Unset Strict Implicit.
Unset Printing Implicit Defensive.
Import GRing.Theory.
Local Open Scope ring_scope.

Section Built.
Context {E : pairing}.
Implicit Types crs : CRS E.
Lemma built1_G1 crs X c : built1 crs [seq inl x | x <- X] c -> made_G1 crs X c.
Proof.
move=> /built1_made[h1 h2 h3]; rewrite !size_map in h1 h2 h3; split=> // i hi.
by have := h3 i hi; rewrite (nth_map 0).
Qed.
Lemma built1_B1 crs X c : built1 crs [seq inr x | x <- X] c -> made_B1 crs X c.
Proof.
move=> /built1_made[h1 h2 h3]; rewrite !size_map in h1 h2 h3; split=> // i hi.
by have := h3 i hi; rewrite (nth_map 0).
Qed.
Lemma built2_G2 crs X c : built2 crs [seq inl x | x <- X] c -> made_G2 crs X c.
Proof.
move=> /built2_made[h1 h2 h3]; rewrite !size_map in h1 h2 h3; split=> // i hi.
by have := h3 i hi; rewrite (nth_map 0).
Qed.
Lemma built2_B2 crs X c : built2 crs [seq inr x | x <- X] c -> made_B2 crs X c.
Proof.
move=> /built2_made[h1 h2 h3]; rewrite !size_map in h1 h2 h3; split=> // i hi.
by have := h3 i hi; rewrite (nth_map 0).
Qed.
End Built.

Lemma ppe_built_complete : forall (E : pairing) (R : rng E) (sch sch' : sched)
  (q : PPE E) (X : seq (G1 E)) (Y : seq (G2 E)) (cx : Commit1 E) (cy : Commit2 E) (crs : CRS E) (s : rst R),
  bilinear E -> valid_sched sch -> valid_sched sch' -> two_keys crs ->
  built1 crs [seq inl x | x <- X] cx -> built2 crs [seq inl y | y <- Y] cy ->
  (0 < size X)%N -> (0 < size Y)%N -> ppe_wf q (size X) (size Y) -> ppe_holds q X Y ->
  exists pf s', ppe_prove sch q X Y cx cy crs s = Ok (pf, s') /\
    ppe_verify sch' q (mkCProof cx cy [:: pf]) crs = Ok true.
Proof.
move=> E R sch sch' q X Y cx cy crs s hb vs vs' tk /built1_G1 mx /built2_G2 my hX hY wf hh.
have /isokP[[pf s'] e] := ppe_prove_total vs s hX hY wf tk mx my.
have [b hv hbb] := ppe_dec vs hb vs' mx my e.
by exists pf, s'; split=> //; rewrite hv; congr Ok; apply/hbb.
Qed.
Lemma ppe_built_dec : forall (E : pairing) (R : rng E) (sch sch' : sched)
  (q : PPE E) (X : seq (G1 E)) (Y : seq (G2 E)) (cx : Commit1 E) (cy : Commit2 E) (crs : CRS E) (s : rst R),
  bilinear E -> valid_sched sch -> valid_sched sch' -> two_keys crs ->
  built1 crs [seq inl x | x <- X] cx -> built2 crs [seq inl y | y <- Y] cy ->
  (0 < size X)%N -> (0 < size Y)%N -> ppe_wf q (size X) (size Y) -> 
  exists pf s' b, [/\ ppe_prove sch q X Y cx cy crs s = Ok (pf, s'),
    ppe_verify sch' q (mkCProof cx cy [:: pf]) crs = Ok b & b <-> ppe_holds q X Y].
Proof.
move=> E R sch sch' q X Y cx cy crs s hb vs vs' tk /built1_G1 mx /built2_G2 my hX hY wf .
have /isokP[[pf s'] e] := ppe_prove_total vs s hX hY wf tk mx my.
have [b hv hbb] := ppe_dec vs hb vs' mx my e.
by exists pf, s', b.
Qed.

Lemma ms1_built_complete : forall (E : pairing) (R : rng E) (sch sch' : sched)
  (q : MSMEG1 E) (X : seq (G1 E)) (Y : seq (Fr E)) (cx : Commit1 E) (cy : Commit2 E) (crs : CRS E) (s : rst R),
  bilinear E -> valid_sched sch -> valid_sched sch' -> two_keys crs ->
  built1 crs [seq inl x | x <- X] cx -> built2 crs [seq inr y | y <- Y] cy ->
  (0 < size X)%N -> (0 < size Y)%N -> ms1_wf q (size X) (size Y) -> ms1_holds q X Y ->
  exists pf s', ms1_prove sch q X Y cx cy crs s = Ok (pf, s') /\
    ms1_verify sch' q (mkCProof cx cy [:: pf]) crs = Ok true.
Proof.
move=> E R sch sch' q X Y cx cy crs s hb vs vs' tk /built1_G1 mx /built2_B2 my hX hY wf hh.
have /isokP[[pf s'] e] := ms1_prove_total vs s hX hY wf tk mx my.
by exists pf, s'; split=> //; exact: (ms1_ok vs hb vs' mx my e).
Qed.
Lemma ms1_built_dec : forall (E : pairing) (R : rng E) (sch sch' : sched)
  (q : MSMEG1 E) (X : seq (G1 E)) (Y : seq (Fr E)) (cx : Commit1 E) (cy : Commit2 E) (crs : CRS E) (s : rst R),
  bilinear E -> nondegenerate E -> valid_sched sch -> valid_sched sch' -> two_keys crs ->
  built1 crs [seq inl x | x <- X] cx -> built2 crs [seq inr y | y <- Y] cy ->
  (0 < size X)%N -> (0 < size Y)%N -> ms1_wf q (size X) (size Y) -> v2 crs + (0, g2_gen crs) != 0 -> 
  exists pf s' b, [/\ ms1_prove sch q X Y cx cy crs s = Ok (pf, s'),
    ms1_verify sch' q (mkCProof cx cy [:: pf]) crs = Ok b & b <-> ms1_holds q X Y].
Proof.
move=> E R sch sch' q X Y cx cy crs s hb hnd vs vs' tk /built1_G1 mx /built2_B2 my hX hY wf g2 .
have /isokP[[pf s'] e] := ms1_prove_total vs s hX hY wf tk mx my.
have [|b hv hbb] := ms1_dec vs hb vs' hnd (crs := crs) _ mx my e.
- by rewrite s2map1.
by exists pf, s', b.
Qed.

Lemma ms2_built_complete : forall (E : pairing) (R : rng E) (sch sch' : sched)
  (q : MSMEG2 E) (X : seq (Fr E)) (Y : seq (G2 E)) (cx : Commit1 E) (cy : Commit2 E) (crs : CRS E) (s : rst R),
  bilinear E -> valid_sched sch -> valid_sched sch' -> two_keys crs ->
  built1 crs [seq inr x | x <- X] cx -> built2 crs [seq inl y | y <- Y] cy ->
  (0 < size X)%N -> (0 < size Y)%N -> ms2_wf q (size X) (size Y) -> ms2_holds q X Y ->
  exists pf s', ms2_prove sch q X Y cx cy crs s = Ok (pf, s') /\
    ms2_verify sch' q (mkCProof cx cy [:: pf]) crs = Ok true.
Proof.
move=> E R sch sch' q X Y cx cy crs s hb vs vs' tk /built1_B1 mx /built2_G2 my hX hY wf hh.
have /isokP[[pf s'] e] := ms2_prove_total vs s hX hY wf tk mx my.
by exists pf, s'; split=> //; exact: (ms2_ok vs hb vs' mx my e).
Qed.
Lemma ms2_built_dec : forall (E : pairing) (R : rng E) (sch sch' : sched)
  (q : MSMEG2 E) (X : seq (Fr E)) (Y : seq (G2 E)) (cx : Commit1 E) (cy : Commit2 E) (crs : CRS E) (s : rst R),
  bilinear E -> nondegenerate E -> valid_sched sch -> valid_sched sch' -> two_keys crs ->
  built1 crs [seq inr x | x <- X] cx -> built2 crs [seq inl y | y <- Y] cy ->
  (0 < size X)%N -> (0 < size Y)%N -> ms2_wf q (size X) (size Y) -> u2 crs + (0, g1_gen crs) != 0 -> 
  exists pf s' b, [/\ ms2_prove sch q X Y cx cy crs s = Ok (pf, s'),
    ms2_verify sch' q (mkCProof cx cy [:: pf]) crs = Ok b & b <-> ms2_holds q X Y].
Proof.
move=> E R sch sch' q X Y cx cy crs s hb hnd vs vs' tk /built1_B1 mx /built2_G2 my hX hY wf g1 .
have /isokP[[pf s'] e] := ms2_prove_total vs s hX hY wf tk mx my.
have [|b hv hbb] := ms2_dec vs hb vs' hnd (crs := crs) _ mx my e.
- by rewrite s1map1.
by exists pf, s', b.
Qed.

Lemma quad_built_complete : forall (E : pairing) (R : rng E) (sch sch' : sched)
  (q : QuadEqu E) (X : seq (Fr E)) (Y : seq (Fr E)) (cx : Commit1 E) (cy : Commit2 E) (crs : CRS E) (s : rst R),
  bilinear E -> valid_sched sch -> valid_sched sch' -> two_keys crs ->
  built1 crs [seq inr x | x <- X] cx -> built2 crs [seq inr y | y <- Y] cy ->
  (0 < size X)%N -> (0 < size Y)%N -> quad_wf q (size X) (size Y) -> quad_holds q X Y ->
  exists pf s', quad_prove sch q X Y cx cy crs s = Ok (pf, s') /\
    quad_verify sch' q (mkCProof cx cy [:: pf]) crs = Ok true.
Proof.
move=> E R sch sch' q X Y cx cy crs s hb vs vs' tk /built1_B1 mx /built2_B2 my hX hY wf hh.
have /isokP[[pf s'] e] := quad_prove_total vs s hX hY wf tk mx my.
by exists pf, s'; split=> //; exact: (quad_ok vs hb vs' mx my e).
Qed.
Lemma quad_built_dec : forall (E : pairing) (R : rng E) (sch sch' : sched)
  (q : QuadEqu E) (X : seq (Fr E)) (Y : seq (Fr E)) (cx : Commit1 E) (cy : Commit2 E) (crs : CRS E) (s : rst R),
  bilinear E -> nondegenerate E -> valid_sched sch -> valid_sched sch' -> two_keys crs ->
  built1 crs [seq inr x | x <- X] cx -> built2 crs [seq inr y | y <- Y] cy ->
  (0 < size X)%N -> (0 < size Y)%N -> quad_wf q (size X) (size Y) -> u2 crs + (0, g1_gen crs) != 0 -> v2 crs + (0, g2_gen crs) != 0 -> 
  exists pf s' b, [/\ quad_prove sch q X Y cx cy crs s = Ok (pf, s'),
    quad_verify sch' q (mkCProof cx cy [:: pf]) crs = Ok b & b <-> quad_holds q X Y].
Proof.
move=> E R sch sch' q X Y cx cy crs s hb hnd vs vs' tk /built1_B1 mx /built2_B2 my hX hY wf g1 g2 .
have /isokP[[pf s'] e] := quad_prove_total vs s hX hY wf tk mx my.
have [||b hv hbb] := quad_dec vs hb vs' hnd (crs := crs) _ _ mx my e.
- by rewrite s1map1.
- by rewrite s2map1.
by exists pf, s', b.
Qed.


Section System.
Context {E : pairing}.
Implicit Types (crs : CRS E) (v : assign E) (q : eqn E) (c : coms4 E).

(** The commitments are commitments to the assignment, with their randomness. *)
Definition made4 crs v c : Prop :=
  [/\ made_G1 crs (aX v) (cX c), made_B1 crs (ax v) (cx c), made_G2 crs (aY v) (cY c) & made_B2 crs (ay v) (cy c)].

Lemma commit_all_made (R : rng E) v crs (s s' : rst R) c : commit_all v crs s = Ok (c, s') -> made4 crs v c.
Proof.
have nil (G : lmodType (Fr E)) (V : Type) (cm : CRS E -> V -> seq (Fr E) -> com G -> Prop) dv : made_of cm dv crs [::] (mkCommit [::] [::]).
  by split.
move=> /bind_ok[[a s1] h1] /bind_ok[[b s2] h2] /bind_ok[[d s3] h3] /bind_ok[[e s4] h4] [<- _]; split; cbn [cX cx cY cy].
- by move: h1; case: (aX v) => [[<- _]|x X]; [exact: nil | exact: batch_made_G1].
- by move: h2; case: (ax v) => [[<- _]|x X]; [exact: nil | exact: batch_made_B1].
- by move: h3; case: (aY v) => [[<- _]|x X]; [exact: nil | exact: batch_made_G2].
- by move: h4; case: (ay v) => [[<- _]|x X]; [exact: nil | exact: batch_made_B2].
Qed.

Section Run.
Variables (R : rng E) (sch sch' : sched) (crs : CRS E) (v : assign E) (c : coms4 E).
Hypotheses (hb : bilinear E) (vs : valid_sched sch) (vs' : valid_sched sch') (tk : two_keys crs) (mc : made4 crs v c).

Lemma eqn_run q (s : rst R) : eqn_wf q v -> exists pf s', eqn_prove sch q v c crs s = Ok (pf, s').
Proof.
case: mc => m1 m2 m3 m4; case: q => q [hX hY wf]; rewrite /eqn_prove.
- by have /isokP[[pf s'] e] := ppe_prove_total vs s hX hY wf tk m1 m3; exists pf, s'.
- by have /isokP[[pf s'] e] := ms1_prove_total vs s hX hY wf tk m1 m4; exists pf, s'.
- by have /isokP[[pf s'] e] := ms2_prove_total vs s hX hY wf tk m2 m3; exists pf, s'.
- by have /isokP[[pf s'] e] := quad_prove_total vs s hX hY wf tk m2 m4; exists pf, s'.
Qed.

Lemma eqn_ok q (s s' : rst R) pf : eqn_prove sch q v c crs s = Ok (pf, s') -> eqn_holds q v ->
  eqn_verify sch' q c pf crs = Ok true.
Proof.
case: mc => m1 m2 m3 m4; case: q => q; rewrite /eqn_prove /eqn_verify /eqn_holds => h hh.
- by have [b -> hbb] := ppe_dec vs hb vs' m1 m3 h; congr Ok; apply/hbb.
- exact: (ms1_ok vs hb vs' m1 m4 h).
- exact: (ms2_ok vs hb vs' m2 m3 h).
- exact: (quad_ok vs hb vs' m2 m4 h).
Qed.

Lemma system_ok qs (s : rst R) : every (fun q => eqn_wf q v) qs -> every (fun q => eqn_holds q v) qs ->
  exists pfs s', prove_all sch qs v c crs s = Ok (pfs, s') /\ verify_system sch' qs c pfs crs = Ok true.
Proof.
elim: qs s => [|q qs IH] s; first by move=> _ _; exists [::], s.
move=> [wf wfs] [hq hqs]; have [pf [s1 e1]] := eqn_run s wf.
have [pfs [s2 [e2 e3]]] := IH s1 wfs hqs; exists (pf :: pfs), s2; split.
  by rewrite [LHS]/= e1 bind_Ok; cbv beta iota; rewrite e2 bind_Ok.
by rewrite [LHS]/= (eqn_ok e1 hq) bind_Ok.
Qed.

Hypotheses (hnd : nondegenerate E) (g1 : u2 crs + (0, g1_gen crs) != 0) (g2 : v2 crs + (0, g2_gen crs) != 0).
Lemma eqn_dec q (s s' : rst R) pf : eqn_prove sch q v c crs s = Ok (pf, s') ->
  exists2 b, eqn_verify sch' q c pf crs = Ok b & b <-> eqn_holds q v.
Proof.
case: mc => m1 m2 m3 m4; case: q => q; rewrite /eqn_prove /eqn_verify /eqn_holds => h.
- exact: (ppe_dec vs hb vs' m1 m3 h).
- by apply: (ms1_dec vs hb vs' hnd _ m1 m4 h); rewrite s2map1.
- by apply: (ms2_dec vs hb vs' hnd _ m2 m3 h); rewrite s1map1.
- by apply: (quad_dec vs hb vs' hnd _ _ m2 m4 h); rewrite ?s1map1 ?s2map1.
Qed.
Lemma system_dec qs (s : rst R) : every (fun q => eqn_wf q v) qs ->
  exists pfs s' b, [/\ prove_all sch qs v c crs s = Ok (pfs, s'), verify_system sch' qs c pfs crs = Ok b
    & b <-> every (fun q => eqn_holds q v) qs].
Proof.
elim: qs s => [|q qs IH] s; first by move=> _; exists [::], s, true.
move=> [wf wfs]; have [pf [s1 e1]] := eqn_run s wf.
have [b hv hbb] := eqn_dec e1.
have [pfs [s2 [b' [e2 e3 hb']]]] := IH s1 wfs; exists (pf :: pfs), s2, (b && b'); split.
- by rewrite [LHS]/= e1 bind_Ok; cbv beta iota; rewrite e2 bind_Ok.
- by rewrite [LHS]/= hv bind_Ok; case: (b).
split=> [/andP[/hbb a /hb' d] //|[/hbb a /hb' d]]; by apply/andP.
Qed.
End Run.

Lemma k_C57_complete (R : rng E) (sch sch' : sched) qs v crs (s : rst R) :
  bilinear E -> valid_sched sch -> valid_sched sch' -> two_keys crs ->
  every (fun q => eqn_wf q v) qs -> every (fun q => eqn_holds q v) qs ->
  exists c pfs s', prove_system sch qs v crs s = Ok ((c, pfs), s') /\ verify_system sch' qs c pfs crs = Ok true.
Proof.
move=> hb vs vs' tk wf hh; have e := @commit_all_Ok E R v crs s tk.
have [pfs [s' [e1 e2]]] := system_ok hb vs vs' tk (commit_all_made e) (after (n0 v) s) wf hh.
exists (comsof v crs (drawn s)), pfs, s'; split=> //.
by rewrite /prove_system e bind_Ok; cbv beta iota; rewrite e1 bind_Ok.
Qed.

Lemma k_C57_decides (R : rng E) (sch sch' : sched) qs v crs (s : rst R) :
  bilinear E -> nondegenerate E -> valid_sched sch -> valid_sched sch' -> two_keys crs ->
  u2 crs + (0, g1_gen crs) != 0 -> v2 crs + (0, g2_gen crs) != 0 ->
  every (fun q => eqn_wf q v) qs ->
  exists c pfs s' b, [/\ prove_system sch qs v crs s = Ok ((c, pfs), s'), verify_system sch' qs c pfs crs = Ok b
    & b <-> every (fun q => eqn_holds q v) qs].
Proof.
move=> hb hnd vs vs' tk g1 g2 wf; have e := @commit_all_Ok E R v crs s tk.
have [pfs [s' [b [e1 e2 e3]]]] := system_dec hb vs vs' tk (commit_all_made e) hnd g1 g2 (after (n0 v) s) wf.
exists (comsof v crs (drawn s)), pfs, s', b; split=> //.
by rewrite /prove_system e bind_Ok; cbv beta iota; rewrite e1 bind_Ok.
Qed.

Lemma k_C57_built (R : rng E) (sch sch' : sched) qs v c crs (s : rst R) :
  bilinear E -> valid_sched sch -> valid_sched sch' -> two_keys crs ->
  built1 crs [seq inl x | x <- aX v] (cX c) -> built1 crs [seq inr x | x <- ax v] (cx c) ->
  built2 crs [seq inl y | y <- aY v] (cY c) -> built2 crs [seq inr y | y <- ay v] (cy c) ->
  every (fun q => eqn_wf q v) qs -> every (fun q => eqn_holds q v) qs ->
  exists pfs s', prove_all sch qs v c crs s = Ok (pfs, s') /\ verify_system sch' qs c pfs crs = Ok true.
Proof.
move=> hb vs vs' tk /built1_G1 m1 /built1_B1 m2 /built2_G2 m3 /built2_B2 m4 wf hh.
have mc : made4 crs v c by split.
exact: (system_ok hb vs vs' tk mc s wf hh).
Qed.

Lemma k_C57_sound (R : rng E) (sch : sched) (s s' : rst R) crs :
  bilinear E -> nondegenerate E -> cyclic (G1 E) -> cyclic (G2 E) -> valid_sched sch ->
  generate_crs s = (crs, s') -> g1_gen crs != 0 -> g2_gen crs != 0 ->
  forall c, exists v,
  [/\ commits_G1 crs (coms (cX c)) (aX v), commits_B1 crs (coms (cx c)) (ax v),
      commits_G2 crs (coms (cY c)) (aY v) & commits_B2 crs (coms (cy c)) (ay v)] /\
  forall qs pfs, verify_system sch qs c pfs crs = Ok true ->
    size pfs = size qs /\ every (fun q => eqn_holds q v) qs.
Proof.
move=> hb hnd c1 c2 vs /generate_binding bk g1 g2 c.
have [X [x [Y [y [h [j1 j2 j3 j4]]]]]] := joint hb vs hnd bk c1 c2 g1 g2 (coms (cX c)) (coms (cx c)) (coms (cY c)) (coms (cy c)).
exists (mkAssign X x Y y); split=> //; elim=> [|q qs IH] [|pf pfs] //=.
move=> /bind_ok[[] // hv] /IH[-> hqs]; split=> //; split=> //.
case: q hv => q; rewrite /eqn_verify /eqn_holds => hv.
- by apply: (j1 _ _ _ _ hv).
- by apply: (j2 _ _ _ _ hv).
- by apply: (j3 _ _ _ _ hv).
- by apply: (j4 _ _ _ _ hv).
Qed.
End System.

Section Hide.
Context {E : pairing}.
Variables (sch sch' : sched) (crs : CRS E).
Hypotheses (vs : valid_sched sch) (vs' : valid_sched sch').
Hypotheses (hb : bilinear E) (hn : nondegenerate E) (hc1 : cyclic (G1 E)) (hc2 : cyclic (G2 E)).
Hypotheses (hp : proper_crs crs).
Notation f := (comT_pairing : Com1 E -> Com2 E -> ComT E).
Let fb := comT_pairing_bilin hb.

Lemma pubpf0 (g : EquProof E) : pubpf (correct_pf [::] [::] g) = pubpf g.
Proof.
rewrite /pubpf /correct_pf; cbn [pi theta equ_type]; congr (_, _, _).
  by apply: (@eq_from_nth _ 0); rewrite size_mkseq // => i hi; rewrite nth_mkseq // nth_nil addr0.
by apply: (@eq_from_nth _ 0); rewrite size_mkseq // => i hi; rewrite nth_mkseq // nth_nil addr0.
Qed.

Lemma every_map (A B : Type) (h : A -> B) (P : B -> Prop) L : every P [seq h x | x <- L] <-> every (fun x => P (h x)) L.
Proof. by elim: L => //= x L [IH1 IH2]; split=> -[a b]; split=> //; [exact: IH1 | exact: IH2]. Qed.
Lemma every_and (A : Type) (P Q : A -> Prop) L : every P L -> every Q L -> every (fun x => P x /\ Q x) L.
Proof. by elim: L => //= x L IH [a b] [c d]; split=> //; exact: IH. Qed.

(** Results of [prove_all] have one proof per equation. *)
Lemma prove_all_size (R : rng E) sch0 qs v c (s s' : rst R) pfs : prove_all sch0 qs v c crs s = Ok (pfs, s') -> size pfs = size qs.
Proof.
elim: qs s s' pfs => [|q qs IH] s s' pfs /=; first by case=> <-.
by move=> /bind_ok[[pf s1] _] /bind_ok[[l s2] h] [<- _] /=; rewrite (IH _ _ _ h).
Qed.

Lemma system_wi qs v v' : hiding_crs crs -> same_sizes v v' -> every (fun q => eqn_wf q v) qs ->
  every (fun q => eqn_holds q v) qs -> every (fun q => eqn_holds q v') qs ->
  same_output (system_draws qs v) public_system public_system
    (fun R s => prove_system (R := R) sch qs v crs s) (fun R s => prove_system (R := R) sch' qs v' crs s).
Proof.
move=> hh hs wf h h'.
pose L : seq (eqn E * (seq (Com2 E) * seq (Com1 E))) := [seq (q, ([::], [::])) | q <- qs].
have eL : [seq t.1 | t <- L] = qs by rewrite /L -map_comp map_id.
have [|phi [hphi hE]] := @sys_hide E sch sch' crs vs vs' hb hn hc1 hc2 hp v v' L hh hs.
  apply/every_map; apply: every_impl (every_and wf (every_and h h')) => q [wq [hq hq']]; split=> //=.
  have sp k kx ky (T : lmodType (Fr E)) (w : nat -> T) : spanned k w kx (nth 0 ([::] : seq T)).
    by apply: eq_spanned (@spanned0 _ _ _ _ _) => i _; rewrite nth_nil.
  have z1 k : \sum_(0 <= i < k) f (nth 0 (crs_u crs) i) (nth 0 [::] i) = 0.
    by rewrite big1 // => i _; rewrite nth_nil (bil0r fb).
  have z2 k : \sum_(0 <= i < k) f (nth 0 [::] i) (nth 0 (crs_v crs) i) = 0.
    by rewrite big1 // => i _; rewrite nth_nil (bil0l fb).
  case: q {wq} hq hq' => q hq hq'; split; rewrite ?z1 ?z2 ?addr0; try exact: sp.
  - by rewrite (proj1 (ppe_holdsE _ _ _ hb) hq) (proj1 (ppe_holdsE _ _ _ hb) hq').
  - by rewrite (proj1 (ms1_holdsE _ _ _) hq) (proj1 (ms1_holdsE _ _ _) hq').
  - by rewrite (proj1 (ms2_holdsE _ _ _) hq) (proj1 (ms2_holdsE _ _ _) hq').
  - by rewrite (proj1 (quad_holdsE _ _ _) hq) (proj1 (quad_holdsE _ _ _) hq').
rewrite eL in phi hphi hE *; exists phi; split=> // R R' s z /hE ->.
case e : (prove_system _ _ _ _ z) => [[[c pfs] z']|//]; rewrite /seen /public_system; cbn [fst snd]; congr (Ok (_, _)).
move: e => /bind_ok[[c0 s1] _] /bind_ok[[l s2] /prove_all_size hsz] [_ <- _].
rewrite /L; elim: qs l hsz {wf h h' L eL phi hphi hE} => [|q qs IH] [|pf l] //= [/IH e].
by rewrite e; congr (_ :: _); exact: pubpf0.
Qed.

Lemma system_zk (qs : seq (eqn E * gt_form E)) v a1 a2 t1 t2 : hiding_crs_with crs a1 a2 t1 t2 ->
  every (fun q => eqn_wf q.1 v) qs -> every (fun q => eqn_holds q.1 v) qs -> every (fun q => eqn_form crs q.1 q.2) qs ->
  same_output (system_draws [seq q.1 | q <- qs] v) public_system (fun p => public_system (fix_system t1 t2 crs qs p))
    (fun R s => prove_system (R := R) sch [seq q.1 | q <- qs] v crs s)
    (fun R s => prove_system (R := R) sch' [seq q.1 | q <- qs] (zero_assign v) crs s).
Proof.
move=> hw wf h hf; have hh : hiding_crs crs by exists a1, a2, t1, t2.
pose L : seq (eqn E * (seq (Com2 E) * seq (Com1 E))) := [seq (q.1, (fix_dp t1 t2 crs q.1 q.2, fix_dt t1 t2 q.1 q.2)) | q <- qs].
have eL : [seq t.1 | t <- L] = [seq q.1 | q <- qs] by rewrite /L -map_comp; apply: eq_map.
have hs : same_sizes v (zero_assign v) by split; rewrite /= size_nseq.
have [|phi [hphi hE]] := @sys_hide E sch sch' crs vs vs' hb hn hc1 hc2 hp v (zero_assign v) L hh hs.
  apply/every_map; apply: every_impl (every_and wf (every_and h hf)) => -[q g] [wq [hq hg]]; split=> //=.
  have sp k kx (T : lmodType (Fr E)) (w : nat -> T) : spanned k w kx (nth 0 ([::] : seq T)).
    by apply: eq_spanned (@spanned0 _ _ _ _ _) => i _; rewrite nth_nil.
  case: q wq hq hg => q wq hq hg; rewrite /eqn_diff /zero_assign /fix_dp /fix_dt; cbn [aX ax aY ay fst snd] in *.
  - split; [exact: span_v | exact: span_u |].
    by rewrite ppe_val0 // (proj1 (ppe_holdsE _ _ _ hb) hq) (ppe_cancel hb hw hg).
  - split; [exact: sp | exact: span_u |].
    by rewrite ms1_val0 // (proj1 (ms1_holdsE _ _ _) hq) (ms1_cancel hb _ hw) -[com1_linear_map 0]/(0 : Com1 E) (bil0l fb).
  - split; [exact: span_v | exact: sp |].
    by rewrite ms2_val0 // (proj1 (ms2_holdsE _ _ _) hq) (ms2_cancel hb _ hw) -[com2_linear_map 0]/(0 : Com2 E) (bil0r fb).
  - split; [| exact: sp |].
    + exists (fun i _ => if i is 0%N then - (t1 * t2 * quad_target q) else 0) => -[|//] _.
      by rewrite /lin big_nat1 /= scaleNr.
    by rewrite quad_val0 // (proj1 (quad_holdsE _ _ _) hq) (quad_cancel hb _ hw) scale0r (bil0r fb).
rewrite eL in phi hphi hE *; exists phi; split=> // R R' s z /hE ->.
case e : (prove_system _ _ _ _ z) => [[[c pfs] z']|//]; rewrite /seen /public_system /fix_system; cbn [fst snd]; congr (Ok (_, map _ _)).
rewrite /L; elim: qs pfs {wf h hf L eL phi hphi hE e} => [|[q g] qs IH] [|pf l] //=.
by rewrite IH.
Qed.
End Hide.

Import Order.Theory Num.Theory.
Lemma tapes_ext (F : finFieldType) (A B C : lmodType F) (e : A -> B -> C) N N' T T' O (view : T -> O) (view' : T' -> O)
  (f : forall R : rng (Pairing e), rst R -> res (T * rst R)) (g : forall R : rng (Pairing e), rst R -> res (T' * rst R)) :
  N' = N -> same_output N' view view' f g -> forall D, tapes N view f D = tapes N view' g D.
Proof. by move=> <-; exact: same_tapes. Qed.

Lemma system_comp_wi : forall (F : finFieldType) (A B C : lmodType F) (e : A -> B -> C), let E := Pairing e in
  forall (O1 O2 W : finType) (s1 : O1 -> A) (s2 : O2 -> B) (D : W -> CRS E -> pred _) (sch sch' : sched) (N : nat)
  (qs : W -> CRS E -> seq (eqn E)) (v v' : W -> CRS E -> assign E),
  bilinear E -> nondegenerate E -> cyclic (G1 E) -> cyclic (G2 E) -> valid_sched sch -> valid_sched sch' ->
  (forall w crs, proper_crs crs -> system_draws (qs w crs) (v w crs) = N) ->
  (forall w crs, proper_crs crs -> [/\ same_sizes (v w crs) (v' w crs), every (fun q => eqn_wf q (v w crs)) (qs w crs),
     every (fun q => eqn_holds q (v w crs)) (qs w crs) & every (fun q => eqn_holds q (v' w crs)) (qs w crs)]) ->
  let B1 := proof_test (N := N) D public_system (fun w crs R s => prove_system (R := R) sch (qs w crs) (v w crs) crs s) in
  let B2 := proof_test (N := N) D public_system (fun w crs R s => prove_system (R := R) sch' (qs w crs) (v' w crs) crs s) in
  is_true (`|game s1 s2 real_crs B1 - game s1 s2 real_crs B2| <= key_adv s1 s2 B1 + key_adv s1 s2 B2 + bad_point s1 s2).
Proof.
move=> F A B C e E O1 O2 W s1 s2 D sch sch' N qs v v' hb hn hc1 hc2 vs vs' hN hq B1 B2.
apply: (@wi_step F A B C e O1 O2 W s1 s2 _ _ N D public_system) => w crs hh hp D'.
have [hs wf h1 h2] := hq w crs hp.
apply: (tapes_ext (hN w crs hp)); exact: system_wi.
Qed.
Lemma system_comp_wi_ddh : forall (F : finFieldType) (A B C : lmodType F) (e : A -> B -> C), let E := Pairing e in
  forall (O1 O2 W : finType) (s1 : O1 -> A) (s2 : O2 -> B) (D : W -> CRS E -> pred _) (sch sch' : sched) (N : nat)
  (qs : W -> CRS E -> seq (eqn E)) (v v' : W -> CRS E -> assign E),
  bilinear E -> nondegenerate E -> cyclic (G1 E) -> cyclic (G2 E) -> valid_sched sch -> valid_sched sch' ->
  (forall w crs, proper_crs crs -> system_draws (qs w crs) (v w crs) = N) ->
  (forall w crs, proper_crs crs -> [/\ same_sizes (v w crs) (v' w crs), every (fun q => eqn_wf q (v w crs)) (qs w crs),
     every (fun q => eqn_holds q (v w crs)) (qs w crs) & every (fun q => eqn_holds q (v' w crs)) (qs w crs)]) ->
  let B1 := proof_test (N := N) D public_system (fun w crs R s => prove_system (R := R) sch (qs w crs) (v w crs) crs s) in
  let B2 := proof_test (N := N) D public_system (fun w crs R s => prove_system (R := R) sch' (qs w crs) (v' w crs) crs s) in
  is_true (`|game s1 s2 real_crs B1 - game s1 s2 real_crs B2| <= 
    (ddh_adv s1 (ddh1 s2 B1) + ddh_adv s1 (ddh2 s2 B1) + ddh_adv s2 (ddh3 s1 B1) + ddh_adv s2 (ddh4 s1 B1))
    + (ddh_adv s1 (ddh1 s2 B2) + ddh_adv s1 (ddh2 s2 B2) + ddh_adv s2 (ddh3 s1 B2) + ddh_adv s2 (ddh4 s1 B2)) + bad_point s1 s2).
Proof.
move=> F A B C e E O1 O2 W s1 s2 D sch sch' N qs v v' hb hn hc1 hc2 vs vs' hN hq B1 B2.
have := @system_comp_wi F A B C e O1 O2 W s1 s2 D sch sch' N qs v v' hb hn hc1 hc2 vs vs' hN hq.
rewrite -/B1 -/B2; cbv zeta => h; apply: le_trans h _.
apply: ler_add => //; apply: ler_add; exact: key_adv_ddh.
Qed.
Lemma system_comp_zk : forall (F : finFieldType) (A B C : lmodType F) (e : A -> B -> C), let E := Pairing e in
  forall (O1 O2 W : finType) (s1 : O1 -> A) (s2 : O2 -> B) (D : W -> CRS E -> pred _) (sch sch' : sched) (N : nat)
  (qs : W -> CRS E -> seq (eqn E * gt_form E)) (v : W -> CRS E -> assign E),
  bilinear E -> nondegenerate E -> cyclic (G1 E) -> cyclic (G2 E) -> valid_sched sch -> valid_sched sch' ->
  (forall w crs, proper_crs crs -> system_draws [seq q.1 | q <- qs w crs] (v w crs) = N) ->
  (forall w crs, proper_crs crs -> [/\ every (fun q => eqn_wf q.1 (v w crs)) (qs w crs),
     every (fun q => eqn_holds q.1 (v w crs)) (qs w crs) & every (fun q => eqn_form crs q.1 q.2) (qs w crs)]) ->
  let B1 := proof_test (N := N) D public_system (fun w crs R s => prove_system (R := R) sch [seq q.1 | q <- qs w crs] (v w crs) crs s) in
  is_true (`|game s1 s2 real_crs B1 -
    sim_game N D s1 s2 (fun t1 t2 w crs p => public_system (fix_system (E := E) t1 t2 crs (qs w crs) p))
      (fun w crs R s => prove_system (R := R) sch' [seq q.1 | q <- qs w crs] (zero_assign (v w crs)) crs s)| <= key_adv s1 s2 B1 + bad_point s1 s2).
Proof.
move=> F A B C e E O1 O2 W s1 s2 D sch sch' N qs v hb hn hc1 hc2 vs vs' hN hq B1.
apply: (@zk_step F A B C e O1 O2 W s1 s2 _ _ N D public_system) => w crs a1 a2 t1 t2 hh hp D'.
have [wf h1 h2] := hq w crs hp.
apply: (tapes_ext (hN w crs hp)); exact: (system_zk vs vs' hb hn hc1 hc2 hp hh wf h1 h2).
Qed.
Lemma system_comp_zk_ddh : forall (F : finFieldType) (A B C : lmodType F) (e : A -> B -> C), let E := Pairing e in
  forall (O1 O2 W : finType) (s1 : O1 -> A) (s2 : O2 -> B) (D : W -> CRS E -> pred _) (sch sch' : sched) (N : nat)
  (qs : W -> CRS E -> seq (eqn E * gt_form E)) (v : W -> CRS E -> assign E),
  bilinear E -> nondegenerate E -> cyclic (G1 E) -> cyclic (G2 E) -> valid_sched sch -> valid_sched sch' ->
  (forall w crs, proper_crs crs -> system_draws [seq q.1 | q <- qs w crs] (v w crs) = N) ->
  (forall w crs, proper_crs crs -> [/\ every (fun q => eqn_wf q.1 (v w crs)) (qs w crs),
     every (fun q => eqn_holds q.1 (v w crs)) (qs w crs) & every (fun q => eqn_form crs q.1 q.2) (qs w crs)]) ->
  let B1 := proof_test (N := N) D public_system (fun w crs R s => prove_system (R := R) sch [seq q.1 | q <- qs w crs] (v w crs) crs s) in
  is_true (`|game s1 s2 real_crs B1 -
    sim_game N D s1 s2 (fun t1 t2 w crs p => public_system (fix_system (E := E) t1 t2 crs (qs w crs) p))
      (fun w crs R s => prove_system (R := R) sch' [seq q.1 | q <- qs w crs] (zero_assign (v w crs)) crs s)| <= 
    (ddh_adv s1 (ddh1 s2 B1) + ddh_adv s1 (ddh2 s2 B1) + ddh_adv s2 (ddh3 s1 B1) + ddh_adv s2 (ddh4 s1 B1)) + bad_point s1 s2).
Proof.
move=> F A B C e E O1 O2 W s1 s2 D sch sch' N qs v hb hn hc1 hc2 vs vs' hN hq B1.
have := @system_comp_zk F A B C e O1 O2 W s1 s2 D sch sch' N qs v hb hn hc1 hc2 vs vs' hN hq.
rewrite -/B1; cbv zeta => h; apply: le_trans h _.
apply: ler_add => //; exact: key_adv_ddh.
Qed.
