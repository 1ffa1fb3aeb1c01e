(** Serialization of the types of /repo/src. *)
From mathcomp Require Import all_ssreflect all_algebra.
From Coq Require Import Strings.Byte.
From Verif Require Import Base Group DataStructures Commit Statement Codec SpecCodec CodecLemmas.
From Verif Require Import Generator Prove Verify Spec SpecApi CommitLemmas MatLemmas ComLemmas BaseLemmas CoreAlg ProveLemmas CommitProps ApiLemmas.
Set Implicit Arguments.
Unset Strict Implicit.
Unset Printing Implicit Defensive.

Lemma accepts_any T (D : T -> Prop) (c : codec T) : accepts any c -> accepts D c.
Proof. by move=> h s _; apply: h; exact: forall_any. Qed.

Section Good.
Variables (T : Type) (c : codec T).
Hypothesis h : good_codec c.
Lemma vec_acc : accepts any (vec_codec c).
Proof. by move=> ss _; case: h => _ ha; apply: ha; exact: forall_any. Qed.
Lemma good_vec : reads_back short (vec_codec c).
Proof. by case: h => hb ha m v s r hs; apply: (vec_back hb ha); split=> //; exact: forall_any. Qed.
Lemma good_mat : reads_back short_mat (mat_codec c).
Proof. by move=> m v s r hs; apply: (vec_back good_vec (accepts_any vec_acc)). Qed.
End Good.
Lemma yields_vec T (c : codec T) : yields short (vec_codec c).
Proof. by move=> m v bs x r /(vec_yields (@any_yields _ c))[]. Qed.
Lemma yields_mat T (c : codec T) : yields short_mat (mat_codec c).
Proof. exact: vec_yields (@yields_vec _ c). Qed.

Lemma good_com1 E (cs : codecs E) : good_codec (c_g1 cs) -> good_codec (com1_codec cs).
Proof.
case=> hb ha; split.
  by apply: (struct_back _ _ (pair_back hb hb)) => // -[].
by apply: (struct_accepts _ _ (pair_accepts ha ha)).
Qed.
Lemma good_com2 E (cs : codecs E) : good_codec (c_g2 cs) -> good_codec (com2_codec cs).
Proof.
case=> hb ha; split.
  by apply: (struct_back _ _ (pair_back hb hb)) => // -[].
by apply: (struct_accepts _ _ (pair_accepts ha ha)).
Qed.

Lemma com1_back E (cs : codecs E) : good_codec (c_g1 cs) -> reads_back any (com1_codec cs).
Proof. by move=> h; case: (good_com1 h). Qed.
Lemma com1_canon E (cs : codecs E) : canonical (c_g1 cs) -> canonical (com1_codec cs).
Proof. by move=> h; apply: (struct_canon _ (pair_canon h h)) => -[]. Qed.
Lemma com1_size E (cs : codecs E) : size_exact (c_g1 cs) -> size_exact (com1_codec cs).
Proof. by move=> h; exact: (struct_size _ _ (pair_size h h)). Qed.
Lemma com1_yields E (cs : codecs E) : yields any (com1_codec cs).
Proof. exact: any_yields. Qed.
Lemma com1_validates E (cs : codecs E) P : validates P (c_g1 cs) -> validates (com1_all P) (com1_codec cs).
Proof. by move=> h; apply: (struct_validates _ _ (pair_validates h h)) => // -[]. Qed.
Lemma com2_back E (cs : codecs E) : good_codec (c_g2 cs) -> reads_back any (com2_codec cs).
Proof. by move=> h; case: (good_com2 h). Qed.
Lemma com2_canon E (cs : codecs E) : canonical (c_g2 cs) -> canonical (com2_codec cs).
Proof. by move=> h; apply: (struct_canon _ (pair_canon h h)) => -[]. Qed.
Lemma com2_size E (cs : codecs E) : size_exact (c_g2 cs) -> size_exact (com2_codec cs).
Proof. by move=> h; exact: (struct_size _ _ (pair_size h h)). Qed.
Lemma com2_yields E (cs : codecs E) : yields any (com2_codec cs).
Proof. exact: any_yields. Qed.
Lemma com2_validates E (cs : codecs E) P : validates P (c_g2 cs) -> validates (com2_all P) (com2_codec cs).
Proof. by move=> h; apply: (struct_validates _ _ (pair_validates h h)) => // -[]. Qed.
Lemma crs_back E (cs : codecs E) : elements_ok cs good_codec -> reads_back crs_fits (crs_codec cs).
Proof.
move=> [hF h1 h2 hT]; apply: (struct_back _ _ (pair_back (good_vec (good_com1 h1)) (pair_back (good_vec (good_com2 h2)) (pair_back (proj1 h1) (pair_back (proj1 h2) (proj1 hT)))))); first by case.
exact: (fun x h => (conj (proj1 h) (conj (proj2 h) (conj Logic.I (conj Logic.I Logic.I))))).
Qed.
Lemma crs_canon E (cs : codecs E) : elements_ok cs (fun T c => canonical c) -> canonical (crs_codec cs).
Proof. by move=> [hF h1 h2 hT]; apply: (struct_canon _ (pair_canon (vec_canon (com1_canon h1)) (pair_canon (vec_canon (com2_canon h2)) (pair_canon h1 (pair_canon h2 hT))))) => -[? [? [? []]]]. Qed.
Lemma crs_size E (cs : codecs E) : elements_ok cs (fun T c => size_exact c) -> size_exact (crs_codec cs).
Proof. by move=> [hF h1 h2 hT]; exact: (struct_size _ _ (pair_size (vec_size (com1_size h1)) (pair_size (vec_size (com2_size h2)) (pair_size h1 (pair_size h2 hT))))). Qed.
Lemma crs_yields E (cs : codecs E) : yields crs_fits (crs_codec cs).
Proof.
apply: (struct_yields _ _ (pair_yields (@yields_vec _ _) (pair_yields (@yields_vec _ _) (pair_yields (@any_yields _ _) (pair_yields (@any_yields _ _) (@any_yields _ _)))))); first by move=> [? [? [? []]]].
exact: (fun x h => (conj (proj1 h) (proj1 (proj2 h)))).
Qed.
Lemma crs_validates E (cs : codecs E) PF P1 P2 PT : validates PF (c_fr cs) -> validates P1 (c_g1 cs) ->
  validates P2 (c_g2 cs) -> validates PT (c_gt cs) -> validates (crs_all P1 P2 PT) (crs_codec cs).
Proof.
move=> hF h1 h2 hT; apply: (struct_validates _ _ (pair_validates (vec_validates (com1_validates h1)) (pair_validates (vec_validates (com2_validates h2)) (pair_validates h1 (pair_validates h2 hT))))); first by move=> [? [? [? []]]].
exact: (fun x h => (conj (proj1 h) (conj (proj1 (proj2 h)) (conj (proj1 (proj2 (proj2 h))) (conj (proj1 (proj2 (proj2 (proj2 h)))) (proj2 (proj2 (proj2 (proj2 h))))))))).
Qed.
Lemma commit1_back E (cs : codecs E) : elements_ok cs good_codec -> reads_back commit1_fits (commit1_codec cs).
Proof.
move=> [hF h1 h2 hT]; apply: (struct_back _ _ (pair_back (good_vec (good_com1 h1)) (good_mat hF))); first by case.
exact: (fun x h => (conj (proj1 h) (proj2 h))).
Qed.
Lemma commit1_canon E (cs : codecs E) : elements_ok cs (fun T c => canonical c) -> canonical (commit1_codec cs).
Proof. by move=> [hF h1 h2 hT]; apply: (struct_canon _ (pair_canon (vec_canon (com1_canon h1)) (vec_canon (vec_canon hF)))) => -[]. Qed.
Lemma commit1_size E (cs : codecs E) : elements_ok cs (fun T c => size_exact c) -> size_exact (commit1_codec cs).
Proof. by move=> [hF h1 h2 hT]; exact: (struct_size _ _ (pair_size (vec_size (com1_size h1)) (vec_size (vec_size hF)))). Qed.
Lemma commit1_yields E (cs : codecs E) : yields commit1_fits (commit1_codec cs).
Proof.
apply: (struct_yields _ _ (pair_yields (@yields_vec _ _) (@yields_mat _ _))); first by move=> [].
exact: (fun x h => (conj (proj1 h) (proj2 h))).
Qed.
Lemma commit1_validates E (cs : codecs E) PF P1 P2 PT : validates PF (c_fr cs) -> validates P1 (c_g1 cs) ->
  validates P2 (c_g2 cs) -> validates PT (c_gt cs) -> validates (commit1_all PF P1) (commit1_codec cs).
Proof.
move=> hF h1 h2 hT; apply: (struct_validates _ _ (pair_validates (vec_validates (com1_validates h1)) (vec_validates (vec_validates hF)))); first by move=> [].
exact: (fun x h => (conj (proj1 h) (proj2 h))).
Qed.
Lemma commit2_back E (cs : codecs E) : elements_ok cs good_codec -> reads_back commit2_fits (commit2_codec cs).
Proof.
move=> [hF h1 h2 hT]; apply: (struct_back _ _ (pair_back (good_vec (good_com2 h2)) (good_mat hF))); first by case.
exact: (fun x h => (conj (proj1 h) (proj2 h))).
Qed.
Lemma commit2_canon E (cs : codecs E) : elements_ok cs (fun T c => canonical c) -> canonical (commit2_codec cs).
Proof. by move=> [hF h1 h2 hT]; apply: (struct_canon _ (pair_canon (vec_canon (com2_canon h2)) (vec_canon (vec_canon hF)))) => -[]. Qed.
Lemma commit2_size E (cs : codecs E) : elements_ok cs (fun T c => size_exact c) -> size_exact (commit2_codec cs).
Proof. by move=> [hF h1 h2 hT]; exact: (struct_size _ _ (pair_size (vec_size (com2_size h2)) (vec_size (vec_size hF)))). Qed.
Lemma commit2_yields E (cs : codecs E) : yields commit2_fits (commit2_codec cs).
Proof.
apply: (struct_yields _ _ (pair_yields (@yields_vec _ _) (@yields_mat _ _))); first by move=> [].
exact: (fun x h => (conj (proj1 h) (proj2 h))).
Qed.
Lemma commit2_validates E (cs : codecs E) PF P1 P2 PT : validates PF (c_fr cs) -> validates P1 (c_g1 cs) ->
  validates P2 (c_g2 cs) -> validates PT (c_gt cs) -> validates (commit2_all PF P2) (commit2_codec cs).
Proof.
move=> hF h1 h2 hT; apply: (struct_validates _ _ (pair_validates (vec_validates (com2_validates h2)) (vec_validates (vec_validates hF)))); first by move=> [].
exact: (fun x h => (conj (proj1 h) (proj2 h))).
Qed.
Lemma equproof_back E (cs : codecs E) : elements_ok cs good_codec -> reads_back equproof_fits (equproof_codec cs).
Proof.
move=> [hF h1 h2 hT]; apply: (struct_back _ _ (pair_back (good_vec (good_com2 h2)) (pair_back (good_vec (good_com1 h1)) (pair_back equtype_back (good_mat hF))))); first by case.
exact: (fun x h => (conj (proj1 h) (conj (proj1 (proj2 h)) (conj Logic.I (proj2 (proj2 h)))))).
Qed.
Lemma equproof_canon E (cs : codecs E) : elements_ok cs (fun T c => canonical c) -> canonical (equproof_codec cs).
Proof. by move=> [hF h1 h2 hT]; apply: (struct_canon _ (pair_canon (vec_canon (com2_canon h2)) (pair_canon (vec_canon (com1_canon h1)) (pair_canon equtype_canon (vec_canon (vec_canon hF)))))) => -[? [? []]]. Qed.
Lemma equproof_size E (cs : codecs E) : elements_ok cs (fun T c => size_exact c) -> size_exact (equproof_codec cs).
Proof. by move=> [hF h1 h2 hT]; exact: (struct_size _ _ (pair_size (vec_size (com2_size h2)) (pair_size (vec_size (com1_size h1)) (pair_size equtype_size (vec_size (vec_size hF)))))). Qed.
Lemma equproof_yields E (cs : codecs E) : yields equproof_fits (equproof_codec cs).
Proof.
apply: (struct_yields _ _ (pair_yields (@yields_vec _ _) (pair_yields (@yields_vec _ _) (pair_yields (@any_yields _ _) (@yields_mat _ _))))); first by move=> [? [? []]].
exact: (fun x h => (conj (proj1 h) (conj (proj1 (proj2 h)) (proj2 (proj2 (proj2 h)))))).
Qed.
Lemma equproof_validates E (cs : codecs E) PF P1 P2 PT : validates PF (c_fr cs) -> validates P1 (c_g1 cs) ->
  validates P2 (c_g2 cs) -> validates PT (c_gt cs) -> validates (equproof_all PF P1 P2) (equproof_codec cs).
Proof.
move=> hF h1 h2 hT; apply: (struct_validates _ _ (pair_validates (vec_validates (com2_validates h2)) (pair_validates (vec_validates (com1_validates h1)) (pair_validates equtype_validates (vec_validates (vec_validates hF)))))); first by move=> [? [? []]].
exact: (fun x h => (conj (proj1 h) (conj (proj1 (proj2 h)) (proj2 (proj2 (proj2 h)))))).
Qed.
Lemma ppe_back E (cs : codecs E) : elements_ok cs good_codec -> reads_back ppe_fits (ppe_codec cs).
Proof.
move=> [hF h1 h2 hT]; apply: (struct_back _ _ (pair_back (good_vec h1) (pair_back (good_vec h2) (pair_back (good_mat hF) (proj1 hT))))); first by case.
exact: (fun x h => (conj (proj1 h) (conj (proj1 (proj2 h)) (conj (proj2 (proj2 h)) Logic.I)))).
Qed.
Lemma ppe_canon E (cs : codecs E) : elements_ok cs (fun T c => canonical c) -> canonical (ppe_codec cs).
Proof. by move=> [hF h1 h2 hT]; apply: (struct_canon _ (pair_canon (vec_canon h1) (pair_canon (vec_canon h2) (pair_canon (vec_canon (vec_canon hF)) hT)))) => -[? [? []]]. Qed.
Lemma ppe_size E (cs : codecs E) : elements_ok cs (fun T c => size_exact c) -> size_exact (ppe_codec cs).
Proof. by move=> [hF h1 h2 hT]; exact: (struct_size _ _ (pair_size (vec_size h1) (pair_size (vec_size h2) (pair_size (vec_size (vec_size hF)) hT)))). Qed.
Lemma ppe_yields E (cs : codecs E) : yields ppe_fits (ppe_codec cs).
Proof.
apply: (struct_yields _ _ (pair_yields (@yields_vec _ _) (pair_yields (@yields_vec _ _) (pair_yields (@yields_mat _ _) (@any_yields _ _))))); first by move=> [? [? []]].
exact: (fun x h => (conj (proj1 h) (conj (proj1 (proj2 h)) (proj1 (proj2 (proj2 h)))))).
Qed.
Lemma ppe_validates E (cs : codecs E) PF P1 P2 PT : validates PF (c_fr cs) -> validates P1 (c_g1 cs) ->
  validates P2 (c_g2 cs) -> validates PT (c_gt cs) -> validates (ppe_all PF P1 P2 PT) (ppe_codec cs).
Proof.
move=> hF h1 h2 hT; apply: (struct_validates _ _ (pair_validates (vec_validates h1) (pair_validates (vec_validates h2) (pair_validates (vec_validates (vec_validates hF)) hT)))); first by move=> [? [? []]].
exact: (fun x h => (conj (proj1 h) (conj (proj1 (proj2 h)) (conj (proj1 (proj2 (proj2 h))) (proj2 (proj2 (proj2 h))))))).
Qed.
Lemma ms1_back E (cs : codecs E) : elements_ok cs good_codec -> reads_back ms1_fits (ms1_codec cs).
Proof.
move=> [hF h1 h2 hT]; apply: (struct_back _ _ (pair_back (good_vec h1) (pair_back (good_vec hF) (pair_back (good_mat hF) (proj1 h1))))); first by case.
exact: (fun x h => (conj (proj1 h) (conj (proj1 (proj2 h)) (conj (proj2 (proj2 h)) Logic.I)))).
Qed.
Lemma ms1_canon E (cs : codecs E) : elements_ok cs (fun T c => canonical c) -> canonical (ms1_codec cs).
Proof. by move=> [hF h1 h2 hT]; apply: (struct_canon _ (pair_canon (vec_canon h1) (pair_canon (vec_canon hF) (pair_canon (vec_canon (vec_canon hF)) h1)))) => -[? [? []]]. Qed.
Lemma ms1_size E (cs : codecs E) : elements_ok cs (fun T c => size_exact c) -> size_exact (ms1_codec cs).
Proof. by move=> [hF h1 h2 hT]; exact: (struct_size _ _ (pair_size (vec_size h1) (pair_size (vec_size hF) (pair_size (vec_size (vec_size hF)) h1)))). Qed.
Lemma ms1_yields E (cs : codecs E) : yields ms1_fits (ms1_codec cs).
Proof.
apply: (struct_yields _ _ (pair_yields (@yields_vec _ _) (pair_yields (@yields_vec _ _) (pair_yields (@yields_mat _ _) (@any_yields _ _))))); first by move=> [? [? []]].
exact: (fun x h => (conj (proj1 h) (conj (proj1 (proj2 h)) (proj1 (proj2 (proj2 h)))))).
Qed.
Lemma ms1_validates E (cs : codecs E) PF P1 P2 PT : validates PF (c_fr cs) -> validates P1 (c_g1 cs) ->
  validates P2 (c_g2 cs) -> validates PT (c_gt cs) -> validates (ms1_all PF P1) (ms1_codec cs).
Proof.
move=> hF h1 h2 hT; apply: (struct_validates _ _ (pair_validates (vec_validates h1) (pair_validates (vec_validates hF) (pair_validates (vec_validates (vec_validates hF)) h1)))); first by move=> [? [? []]].
exact: (fun x h => (conj (proj1 h) (conj (proj1 (proj2 h)) (conj (proj1 (proj2 (proj2 h))) (proj2 (proj2 (proj2 h))))))).
Qed.
Lemma ms2_back E (cs : codecs E) : elements_ok cs good_codec -> reads_back ms2_fits (ms2_codec cs).
Proof.
move=> [hF h1 h2 hT]; apply: (struct_back _ _ (pair_back (good_vec hF) (pair_back (good_vec h2) (pair_back (good_mat hF) (proj1 h2))))); first by case.
exact: (fun x h => (conj (proj1 h) (conj (proj1 (proj2 h)) (conj (proj2 (proj2 h)) Logic.I)))).
Qed.
Lemma ms2_canon E (cs : codecs E) : elements_ok cs (fun T c => canonical c) -> canonical (ms2_codec cs).
Proof. by move=> [hF h1 h2 hT]; apply: (struct_canon _ (pair_canon (vec_canon hF) (pair_canon (vec_canon h2) (pair_canon (vec_canon (vec_canon hF)) h2)))) => -[? [? []]]. Qed.
Lemma ms2_size E (cs : codecs E) : elements_ok cs (fun T c => size_exact c) -> size_exact (ms2_codec cs).
Proof. by move=> [hF h1 h2 hT]; exact: (struct_size _ _ (pair_size (vec_size hF) (pair_size (vec_size h2) (pair_size (vec_size (vec_size hF)) h2)))). Qed.
Lemma ms2_yields E (cs : codecs E) : yields ms2_fits (ms2_codec cs).
Proof.
apply: (struct_yields _ _ (pair_yields (@yields_vec _ _) (pair_yields (@yields_vec _ _) (pair_yields (@yields_mat _ _) (@any_yields _ _))))); first by move=> [? [? []]].
exact: (fun x h => (conj (proj1 h) (conj (proj1 (proj2 h)) (proj1 (proj2 (proj2 h)))))).
Qed.
Lemma ms2_validates E (cs : codecs E) PF P1 P2 PT : validates PF (c_fr cs) -> validates P1 (c_g1 cs) ->
  validates P2 (c_g2 cs) -> validates PT (c_gt cs) -> validates (ms2_all PF P2) (ms2_codec cs).
Proof.
move=> hF h1 h2 hT; apply: (struct_validates _ _ (pair_validates (vec_validates hF) (pair_validates (vec_validates h2) (pair_validates (vec_validates (vec_validates hF)) h2)))); first by move=> [? [? []]].
exact: (fun x h => (conj (proj1 h) (conj (proj1 (proj2 h)) (conj (proj1 (proj2 (proj2 h))) (proj2 (proj2 (proj2 h))))))).
Qed.
Lemma quad_back E (cs : codecs E) : elements_ok cs good_codec -> reads_back quad_fits (quad_codec cs).
Proof.
move=> [hF h1 h2 hT]; apply: (struct_back _ _ (pair_back (good_vec hF) (pair_back (good_vec hF) (pair_back (good_mat hF) (proj1 hF))))); first by case.
exact: (fun x h => (conj (proj1 h) (conj (proj1 (proj2 h)) (conj (proj2 (proj2 h)) Logic.I)))).
Qed.
Lemma quad_canon E (cs : codecs E) : elements_ok cs (fun T c => canonical c) -> canonical (quad_codec cs).
Proof. by move=> [hF h1 h2 hT]; apply: (struct_canon _ (pair_canon (vec_canon hF) (pair_canon (vec_canon hF) (pair_canon (vec_canon (vec_canon hF)) hF)))) => -[? [? []]]. Qed.
Lemma quad_size E (cs : codecs E) : elements_ok cs (fun T c => size_exact c) -> size_exact (quad_codec cs).
Proof. by move=> [hF h1 h2 hT]; exact: (struct_size _ _ (pair_size (vec_size hF) (pair_size (vec_size hF) (pair_size (vec_size (vec_size hF)) hF)))). Qed.
Lemma quad_yields E (cs : codecs E) : yields quad_fits (quad_codec cs).
Proof.
apply: (struct_yields _ _ (pair_yields (@yields_vec _ _) (pair_yields (@yields_vec _ _) (pair_yields (@yields_mat _ _) (@any_yields _ _))))); first by move=> [? [? []]].
exact: (fun x h => (conj (proj1 h) (conj (proj1 (proj2 h)) (proj1 (proj2 (proj2 h)))))).
Qed.
Lemma quad_validates E (cs : codecs E) PF P1 P2 PT : validates PF (c_fr cs) -> validates P1 (c_g1 cs) ->
  validates P2 (c_g2 cs) -> validates PT (c_gt cs) -> validates (quad_all PF) (quad_codec cs).
Proof.
move=> hF h1 h2 hT; apply: (struct_validates _ _ (pair_validates (vec_validates hF) (pair_validates (vec_validates hF) (pair_validates (vec_validates (vec_validates hF)) hF)))); first by move=> [? [? []]].
exact: (fun x h => (conj (proj1 h) (conj (proj1 (proj2 h)) (conj (proj1 (proj2 (proj2 h))) (proj2 (proj2 (proj2 h))))))).
Qed.

Lemma receive_sent E T (cs : codecs E) (cq : codec T) D verify m v q crs cx cy pf :
  elements_ok cs good_codec -> reads_back D cq -> D q -> crs_fits crs -> commit1_fits cx -> commit2_fits cy ->
  equproof_fits pf ->
  receive cs cq verify m v (sent cs cq m q crs cx cy pf) = DOk (verify q (mkCProof cx cy [:: pf]) crs) [::].
Proof.
move=> he hq hD h1 h2 h3 h4; rewrite /receive /sent hq // /dbind (crs_back he) // (commit1_back he) //.
by rewrite (commit2_back he) // -[ser (equproof_codec cs) m pf]cats0 (equproof_back he).
Qed.

Lemma small2 : 2 < 2 ^ 64. Proof. by apply: (@ltn_trans 64); [| exact: ltn_expl]. Qed.
Lemma small1 : 1 < 2 ^ 64. Proof. by apply: (@ltn_trans 2); [| exact: small2]. Qed.

Lemma short_rows T n (M : matrix T) : n < 2 ^ 64 -> all (fun r => size r == n) M -> List.Forall short M.
Proof.
move=> hn; elim: M => [|r M IH] /=; first by constructor.
by case/andP=> /eqP hr /IH; constructor=> //; rewrite /short hr.
Qed.

Lemma commit_G1_fits E (R : rng E) X crs (s s' : rst R) c :
  batch_commit_G1 X crs s = Ok (c, s') -> short X -> commit1_fits c.
Proof.
move=> h hX; have : isok (batch_commit_G1 X crs s) by rewrite h.
rewrite isok_batch_commit_G1 => /andP[h0 /eqP hk]; move: h; rewrite batch_commit_G1_Ok // => -[<- _].
split; first by rewrite /short size_mkseq.
split; first by rewrite /short /= size_mkmat.
apply: (short_rows small2); have := rect_mkmat (size X) 2 (fun i j => drawn s (2 * i + j)%N).
by case/andP.
Qed.

Lemma G1_bytes E (cs : codecs E) (m : Compress) : elements_ok cs good_codec ->
  exists recover : CRS E -> seq byte -> seq (G1 E),
  forall (R : rng E) (s s' : rst R) crs c X, short X ->
    batch_commit_G1 X crs s = Ok (c, s') -> recover crs (ser (commit1_codec cs) m c) = X.
Proof.
move=> he; have [f hf] := @G1_recovers E.
exists (fun crs bs => if de (commit1_codec cs) m VNo bs is DOk c _ then f crs c else [::]).
move=> R s s' crs c X hX h; rewrite -[ser _ _ _]cats0 (commit1_back he); last exact: commit_G1_fits h hX.
by case: (hf R s s' crs c) => _; apply.
Qed.

Lemma commit_G2_fits E (R : rng E) X crs (s s' : rst R) c :
  batch_commit_G2 X crs s = Ok (c, s') -> short X -> commit2_fits c.
Proof.
move=> h hX; have : isok (batch_commit_G2 X crs s) by rewrite h.
rewrite isok_batch_commit_G2 => /andP[h0 /eqP hk]; move: h; rewrite batch_commit_G2_Ok // => -[<- _].
split; first by rewrite /short size_mkseq.
split; first by rewrite /short /= size_mkmat.
apply: (short_rows small2); have := rect_mkmat (size X) 2 (fun i j => drawn s (2 * i + j)%N).
by case/andP.
Qed.

Lemma G2_bytes E (cs : codecs E) (m : Compress) : elements_ok cs good_codec ->
  exists recover : CRS E -> seq byte -> seq (G2 E),
  forall (R : rng E) (s s' : rst R) crs c X, short X ->
    batch_commit_G2 X crs s = Ok (c, s') -> recover crs (ser (commit2_codec cs) m c) = X.
Proof.
move=> he; have [f hf] := @G2_recovers E.
exists (fun crs bs => if de (commit2_codec cs) m VNo bs is DOk c _ then f crs c else [::]).
move=> R s s' crs c X hX h; rewrite -[ser _ _ _]cats0 (commit2_back he); last exact: commit_G2_fits h hX.
by case: (hf R s s' crs c) => _; apply.
Qed.

Lemma le_bytes_iota k n : le_bytes k n = [seq byte_of ((n %/ 256 ^ i) %% 256)%N | i <- iota 0 k].
Proof.
elim: k n => [//|k IH] n; rewrite /= IH expn0 divn1; congr (_ :: _).
  by rewrite /byte_of modn_mod.
rewrite -[1%N]/(0 + 1)%N addnC iotaDl -map_comp; apply: eq_map => i /=.
by rewrite -divnMA -expnS.
Qed.
Lemma lay64 n : u64_ser n = le64 n.
Proof.
rewrite /u64_ser /le64 le_bytes_iota; apply: eq_map => i; rewrite /byte_of /byte_at modn_mod.
by case: of_nat.
Qed.
Lemma lay_vecE T (c : codec T) el m s : (forall x, ser c m x = el x) -> ser (vec_codec c) m s = lay_vec el s.
Proof. by move=> h; rewrite /lay_vec -lay64 /= -(eq_map h). Qed.
Lemma lay_matE T (c : codec T) m M : ser (mat_codec c) m M = lay_mat (ser c m) M.
Proof. by apply: lay_vecE => x; apply: lay_vecE. Qed.
Lemma lay_com1E E (cs : codecs E) m x : ser (com1_codec cs) m x = lay_com (ser (c_g1 cs) m) x.
Proof. by []. Qed.
Lemma lay_com2E E (cs : codecs E) m x : ser (com2_codec cs) m x = lay_com (ser (c_g2 cs) m) x.
Proof. by []. Qed.

Lemma crs_layout E (cs : codecs E) m x : ser (crs_codec cs) m x = lay_vec (lay_com (ser (c_g1 cs) m)) (crs_u x) ++ lay_vec (lay_com (ser (c_g2 cs) m)) (crs_v x) ++ (ser (c_g1 cs) m) (g1_gen x) ++ (ser (c_g2 cs) m) (g2_gen x) ++ (ser (c_gt cs) m) (gt_gen x).
Proof.
change (ser (vec_codec (com1_codec cs)) m (crs_u x) ++ ser (vec_codec (com2_codec cs)) m (crs_v x) ++ ser (c_g1 cs) m (g1_gen x) ++ ser (c_g2 cs) m (g2_gen x) ++ ser (c_gt cs) m (gt_gen x) = lay_vec (lay_com (ser (c_g1 cs) m)) (crs_u x) ++ lay_vec (lay_com (ser (c_g2 cs) m)) (crs_v x) ++ (ser (c_g1 cs) m) (g1_gen x) ++ (ser (c_g2 cs) m) (g2_gen x) ++ (ser (c_gt cs) m) (gt_gen x)).
rewrite [ser (vec_codec (com1_codec cs)) m (crs_u x)](lay_vecE _ (lay_com1E cs m)).
rewrite [ser (vec_codec (com2_codec cs)) m (crs_v x)](lay_vecE _ (lay_com2E cs m)).
by [].
Qed.

Lemma commit1_layout E (cs : codecs E) m x : ser (commit1_codec cs) m x = lay_vec (lay_com (ser (c_g1 cs) m)) (coms x) ++ lay_mat (ser (c_fr cs) m) (crand x).
Proof.
change (ser (vec_codec (com1_codec cs)) m (coms x) ++ ser (mat_codec (c_fr cs)) m (crand x) = lay_vec (lay_com (ser (c_g1 cs) m)) (coms x) ++ lay_mat (ser (c_fr cs) m) (crand x)).
rewrite [ser (vec_codec (com1_codec cs)) m (coms x)](lay_vecE _ (lay_com1E cs m)).
rewrite [ser (mat_codec (c_fr cs)) m (crand x)]lay_matE.
by [].
Qed.

Lemma commit2_layout E (cs : codecs E) m x : ser (commit2_codec cs) m x = lay_vec (lay_com (ser (c_g2 cs) m)) (coms x) ++ lay_mat (ser (c_fr cs) m) (crand x).
Proof.
change (ser (vec_codec (com2_codec cs)) m (coms x) ++ ser (mat_codec (c_fr cs)) m (crand x) = lay_vec (lay_com (ser (c_g2 cs) m)) (coms x) ++ lay_mat (ser (c_fr cs) m) (crand x)).
rewrite [ser (vec_codec (com2_codec cs)) m (coms x)](lay_vecE _ (lay_com2E cs m)).
rewrite [ser (mat_codec (c_fr cs)) m (crand x)]lay_matE.
by [].
Qed.

Lemma equproof_layout E (cs : codecs E) m x : ser (equproof_codec cs) m x = lay_vec (lay_com (ser (c_g2 cs) m)) (pi x) ++ lay_vec (lay_com (ser (c_g1 cs) m)) (theta x) ++ lay_tag (equ_type x) ++ lay_mat (ser (c_fr cs) m) (pf_rand x).
Proof.
change (ser (vec_codec (com2_codec cs)) m (pi x) ++ ser (vec_codec (com1_codec cs)) m (theta x) ++ ser (equtype_codec) m (equ_type x) ++ ser (mat_codec (c_fr cs)) m (pf_rand x) = lay_vec (lay_com (ser (c_g2 cs) m)) (pi x) ++ lay_vec (lay_com (ser (c_g1 cs) m)) (theta x) ++ lay_tag (equ_type x) ++ lay_mat (ser (c_fr cs) m) (pf_rand x)).
rewrite [ser (vec_codec (com2_codec cs)) m (pi x)](lay_vecE _ (lay_com2E cs m)).
rewrite [ser (vec_codec (com1_codec cs)) m (theta x)](lay_vecE _ (lay_com1E cs m)).
rewrite [ser (mat_codec (c_fr cs)) m (pf_rand x)]lay_matE.
by [].
Qed.

Lemma ppe_layout E (cs : codecs E) m x : ser (ppe_codec cs) m x = lay_vec (ser (c_g1 cs) m) (ppe_a x) ++ lay_vec (ser (c_g2 cs) m) (ppe_b x) ++ lay_mat (ser (c_fr cs) m) (ppe_gamma x) ++ (ser (c_gt cs) m) (ppe_target x).
Proof.
change (ser (vec_codec (c_g1 cs)) m (ppe_a x) ++ ser (vec_codec (c_g2 cs)) m (ppe_b x) ++ ser (mat_codec (c_fr cs)) m (ppe_gamma x) ++ ser (c_gt cs) m (ppe_target x) = lay_vec (ser (c_g1 cs) m) (ppe_a x) ++ lay_vec (ser (c_g2 cs) m) (ppe_b x) ++ lay_mat (ser (c_fr cs) m) (ppe_gamma x) ++ (ser (c_gt cs) m) (ppe_target x)).
rewrite [ser (vec_codec (c_g1 cs)) m (ppe_a x)](lay_vecE _ (fun x : G1 E => erefl (ser (c_g1 cs) m x))).
rewrite [ser (vec_codec (c_g2 cs)) m (ppe_b x)](lay_vecE _ (fun x : G2 E => erefl (ser (c_g2 cs) m x))).
rewrite [ser (mat_codec (c_fr cs)) m (ppe_gamma x)]lay_matE.
by [].
Qed.

Lemma ms1_layout E (cs : codecs E) m x : ser (ms1_codec cs) m x = lay_vec (ser (c_g1 cs) m) (ms1_a x) ++ lay_vec (ser (c_fr cs) m) (ms1_b x) ++ lay_mat (ser (c_fr cs) m) (ms1_gamma x) ++ (ser (c_g1 cs) m) (ms1_target x).
Proof.
change (ser (vec_codec (c_g1 cs)) m (ms1_a x) ++ ser (vec_codec (c_fr cs)) m (ms1_b x) ++ ser (mat_codec (c_fr cs)) m (ms1_gamma x) ++ ser (c_g1 cs) m (ms1_target x) = lay_vec (ser (c_g1 cs) m) (ms1_a x) ++ lay_vec (ser (c_fr cs) m) (ms1_b x) ++ lay_mat (ser (c_fr cs) m) (ms1_gamma x) ++ (ser (c_g1 cs) m) (ms1_target x)).
rewrite [ser (vec_codec (c_g1 cs)) m (ms1_a x)](lay_vecE _ (fun x : G1 E => erefl (ser (c_g1 cs) m x))).
rewrite [ser (vec_codec (c_fr cs)) m (ms1_b x)](lay_vecE _ (fun x : Fr E => erefl (ser (c_fr cs) m x))).
rewrite [ser (mat_codec (c_fr cs)) m (ms1_gamma x)]lay_matE.
by [].
Qed.

Lemma ms2_layout E (cs : codecs E) m x : ser (ms2_codec cs) m x = lay_vec (ser (c_fr cs) m) (ms2_a x) ++ lay_vec (ser (c_g2 cs) m) (ms2_b x) ++ lay_mat (ser (c_fr cs) m) (ms2_gamma x) ++ (ser (c_g2 cs) m) (ms2_target x).
Proof.
change (ser (vec_codec (c_fr cs)) m (ms2_a x) ++ ser (vec_codec (c_g2 cs)) m (ms2_b x) ++ ser (mat_codec (c_fr cs)) m (ms2_gamma x) ++ ser (c_g2 cs) m (ms2_target x) = lay_vec (ser (c_fr cs) m) (ms2_a x) ++ lay_vec (ser (c_g2 cs) m) (ms2_b x) ++ lay_mat (ser (c_fr cs) m) (ms2_gamma x) ++ (ser (c_g2 cs) m) (ms2_target x)).
rewrite [ser (vec_codec (c_fr cs)) m (ms2_a x)](lay_vecE _ (fun x : Fr E => erefl (ser (c_fr cs) m x))).
rewrite [ser (vec_codec (c_g2 cs)) m (ms2_b x)](lay_vecE _ (fun x : G2 E => erefl (ser (c_g2 cs) m x))).
rewrite [ser (mat_codec (c_fr cs)) m (ms2_gamma x)]lay_matE.
by [].
Qed.

Lemma quad_layout E (cs : codecs E) m x : ser (quad_codec cs) m x = lay_vec (ser (c_fr cs) m) (quad_a x) ++ lay_vec (ser (c_fr cs) m) (quad_b x) ++ lay_mat (ser (c_fr cs) m) (quad_gamma x) ++ (ser (c_fr cs) m) (quad_target x).
Proof.
change (ser (vec_codec (c_fr cs)) m (quad_a x) ++ ser (vec_codec (c_fr cs)) m (quad_b x) ++ ser (mat_codec (c_fr cs)) m (quad_gamma x) ++ ser (c_fr cs) m (quad_target x) = lay_vec (ser (c_fr cs) m) (quad_a x) ++ lay_vec (ser (c_fr cs) m) (quad_b x) ++ lay_mat (ser (c_fr cs) m) (quad_gamma x) ++ (ser (c_fr cs) m) (quad_target x)).
rewrite [ser (vec_codec (c_fr cs)) m (quad_a x)](lay_vecE _ (fun x : Fr E => erefl (ser (c_fr cs) m x))).
rewrite [ser (vec_codec (c_fr cs)) m (quad_b x)](lay_vecE _ (fun x : Fr E => erefl (ser (c_fr cs) m x))).
rewrite [ser (mat_codec (c_fr cs)) m (quad_gamma x)]lay_matE.
by [].
Qed.

Lemma equtype_lay m t : ser equtype_codec m t = lay_tag t. Proof. by case: t. Qed.
Lemma equtype_bad m v b r : (3 < to_nat b)%N -> de equtype_codec m v (b :: r) = DErr InvalidData. Proof. by case: b. Qed.
Lemma equtype_empty m v : de equtype_codec m v [::] = DErr IoError. Proof. by []. Qed.
Lemma equtype_one m t : ssize equtype_codec m t = 1%N /\ size (ser equtype_codec m t) = 1%N. Proof. by []. Qed.

Lemma com1_one E (cs : codecs E) : canonical (c_g1 cs) -> one_encoding (com1_codec cs).
Proof. by move=> h; apply: canonical_one; exact: com1_canon. Qed.
Lemma com1_prefix E (cs : codecs E) : canonical (c_g1 cs) -> good_codec (c_g1 cs) -> prefix_free any (com1_codec cs).
Proof. by move=> h h'; apply: (@canonical_prefix _ any); [exact: com1_yields|exact: com1_back|exact: com1_canon]. Qed.

Lemma com2_one E (cs : codecs E) : canonical (c_g2 cs) -> one_encoding (com2_codec cs).
Proof. by move=> h; apply: canonical_one; exact: com2_canon. Qed.
Lemma com2_prefix E (cs : codecs E) : canonical (c_g2 cs) -> good_codec (c_g2 cs) -> prefix_free any (com2_codec cs).
Proof. by move=> h h'; apply: (@canonical_prefix _ any); [exact: com2_yields|exact: com2_back|exact: com2_canon]. Qed.

Lemma crs_one E (cs : codecs E) : elements_ok cs (fun T c => canonical c) -> one_encoding (crs_codec cs).
Proof. by move=> h; apply: canonical_one; exact: crs_canon. Qed.
Lemma crs_prefix E (cs : codecs E) : elements_ok cs (fun T c => canonical c) -> elements_ok cs good_codec -> prefix_free crs_fits (crs_codec cs).
Proof. by move=> h h'; apply: (@canonical_prefix _ crs_fits); [exact: crs_yields|exact: crs_back|exact: crs_canon]. Qed.

Lemma commit1_one E (cs : codecs E) : elements_ok cs (fun T c => canonical c) -> one_encoding (commit1_codec cs).
Proof. by move=> h; apply: canonical_one; exact: commit1_canon. Qed.
Lemma commit1_prefix E (cs : codecs E) : elements_ok cs (fun T c => canonical c) -> elements_ok cs good_codec -> prefix_free commit1_fits (commit1_codec cs).
Proof. by move=> h h'; apply: (@canonical_prefix _ commit1_fits); [exact: commit1_yields|exact: commit1_back|exact: commit1_canon]. Qed.

Lemma commit2_one E (cs : codecs E) : elements_ok cs (fun T c => canonical c) -> one_encoding (commit2_codec cs).
Proof. by move=> h; apply: canonical_one; exact: commit2_canon. Qed.
Lemma commit2_prefix E (cs : codecs E) : elements_ok cs (fun T c => canonical c) -> elements_ok cs good_codec -> prefix_free commit2_fits (commit2_codec cs).
Proof. by move=> h h'; apply: (@canonical_prefix _ commit2_fits); [exact: commit2_yields|exact: commit2_back|exact: commit2_canon]. Qed.

Lemma equproof_one E (cs : codecs E) : elements_ok cs (fun T c => canonical c) -> one_encoding (equproof_codec cs).
Proof. by move=> h; apply: canonical_one; exact: equproof_canon. Qed.
Lemma equproof_prefix E (cs : codecs E) : elements_ok cs (fun T c => canonical c) -> elements_ok cs good_codec -> prefix_free equproof_fits (equproof_codec cs).
Proof. by move=> h h'; apply: (@canonical_prefix _ equproof_fits); [exact: equproof_yields|exact: equproof_back|exact: equproof_canon]. Qed.

Lemma ppe_one E (cs : codecs E) : elements_ok cs (fun T c => canonical c) -> one_encoding (ppe_codec cs).
Proof. by move=> h; apply: canonical_one; exact: ppe_canon. Qed.
Lemma ppe_prefix E (cs : codecs E) : elements_ok cs (fun T c => canonical c) -> elements_ok cs good_codec -> prefix_free ppe_fits (ppe_codec cs).
Proof. by move=> h h'; apply: (@canonical_prefix _ ppe_fits); [exact: ppe_yields|exact: ppe_back|exact: ppe_canon]. Qed.

Lemma ms1_one E (cs : codecs E) : elements_ok cs (fun T c => canonical c) -> one_encoding (ms1_codec cs).
Proof. by move=> h; apply: canonical_one; exact: ms1_canon. Qed.
Lemma ms1_prefix E (cs : codecs E) : elements_ok cs (fun T c => canonical c) -> elements_ok cs good_codec -> prefix_free ms1_fits (ms1_codec cs).
Proof. by move=> h h'; apply: (@canonical_prefix _ ms1_fits); [exact: ms1_yields|exact: ms1_back|exact: ms1_canon]. Qed.

Lemma ms2_one E (cs : codecs E) : elements_ok cs (fun T c => canonical c) -> one_encoding (ms2_codec cs).
Proof. by move=> h; apply: canonical_one; exact: ms2_canon. Qed.
Lemma ms2_prefix E (cs : codecs E) : elements_ok cs (fun T c => canonical c) -> elements_ok cs good_codec -> prefix_free ms2_fits (ms2_codec cs).
Proof. by move=> h h'; apply: (@canonical_prefix _ ms2_fits); [exact: ms2_yields|exact: ms2_back|exact: ms2_canon]. Qed.

Lemma quad_one E (cs : codecs E) : elements_ok cs (fun T c => canonical c) -> one_encoding (quad_codec cs).
Proof. by move=> h; apply: canonical_one; exact: quad_canon. Qed.
Lemma quad_prefix E (cs : codecs E) : elements_ok cs (fun T c => canonical c) -> elements_ok cs good_codec -> prefix_free quad_fits (quad_codec cs).
Proof. by move=> h h'; apply: (@canonical_prefix _ quad_fits); [exact: quad_yields|exact: quad_back|exact: quad_canon]. Qed.

Lemma ppe_transport E (cs : codecs E) sch m v (q : PPE E) crs cx cy pf : elements_ok cs good_codec ->
  ppe_fits q -> crs_fits crs -> commit1_fits cx -> commit2_fits cy -> equproof_fits pf ->
  receive cs (ppe_codec cs) (ppe_verify sch) m v (sent cs (ppe_codec cs) m q crs cx cy pf)
  = DOk (ppe_verify sch q (mkCProof cx cy [:: pf]) crs) [::].
Proof. by move=> he; apply: (@receive_sent _ _ cs (ppe_codec cs) (@ppe_fits E) (ppe_verify sch) m v q crs cx cy pf he); exact: ppe_back. Qed.

Lemma ms1_transport E (cs : codecs E) sch m v (q : MSMEG1 E) crs cx cy pf : elements_ok cs good_codec ->
  ms1_fits q -> crs_fits crs -> commit1_fits cx -> commit2_fits cy -> equproof_fits pf ->
  receive cs (ms1_codec cs) (ms1_verify sch) m v (sent cs (ms1_codec cs) m q crs cx cy pf)
  = DOk (ms1_verify sch q (mkCProof cx cy [:: pf]) crs) [::].
Proof. by move=> he; apply: (@receive_sent _ _ cs (ms1_codec cs) (@ms1_fits E) (ms1_verify sch) m v q crs cx cy pf he); exact: ms1_back. Qed.

Lemma ms2_transport E (cs : codecs E) sch m v (q : MSMEG2 E) crs cx cy pf : elements_ok cs good_codec ->
  ms2_fits q -> crs_fits crs -> commit1_fits cx -> commit2_fits cy -> equproof_fits pf ->
  receive cs (ms2_codec cs) (ms2_verify sch) m v (sent cs (ms2_codec cs) m q crs cx cy pf)
  = DOk (ms2_verify sch q (mkCProof cx cy [:: pf]) crs) [::].
Proof. by move=> he; apply: (@receive_sent _ _ cs (ms2_codec cs) (@ms2_fits E) (ms2_verify sch) m v q crs cx cy pf he); exact: ms2_back. Qed.

Lemma quad_transport E (cs : codecs E) sch m v (q : QuadEqu E) crs cx cy pf : elements_ok cs good_codec ->
  quad_fits q -> crs_fits crs -> commit1_fits cx -> commit2_fits cy -> equproof_fits pf ->
  receive cs (quad_codec cs) (quad_verify sch) m v (sent cs (quad_codec cs) m q crs cx cy pf)
  = DOk (quad_verify sch q (mkCProof cx cy [:: pf]) crs) [::].
Proof. by move=> he; apply: (@receive_sent _ _ cs (quad_codec cs) (@quad_fits E) (quad_verify sch) m v q crs cx cy pf he); exact: quad_back. Qed.
