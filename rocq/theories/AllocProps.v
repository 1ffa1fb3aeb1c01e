(** Lemmas about reading each struct with allocation. *)
From mathcomp Require Import all_ssreflect all_algebra.
From Coq Require Import Strings.Byte.
From Verif Require Import Base Group DataStructures Generator Commit Statement Prove Verify Codec SpecCodec CodecLemmas CodecProps CodecAlloc SpecAlloc AllocLemmas.
Set Implicit Arguments.
Unset Strict Implicit.
Unset Printing Implicit Defensive.

Lemma cat5 T (a b c d e r : seq T) : (a ++ b ++ c ++ d ++ e) ++ r = a ++ (b ++ (c ++ (d ++ (e ++ r)))).
Proof. by rewrite -!catA. Qed.
Lemma rbind_ok A B (a : A) r (k : A -> seq byte -> option (dres B)) : rbind (Some (DOk a r)) k = k a r.
Proof. by []. Qed.
Lemma vec_any' T (D : seq T -> Prop) (c : codec T) : accepts any c -> accepts D (vec_codec c).
Proof. by move=> h s _; apply: h; exact: forall_any. Qed.
Lemma all_rows T (q : pred nat) (M : matrix T) : List.Forall short M -> all (fun row => q (size row)) M ->
  List.Forall (fun s => short s /\ q (size s)) M.
Proof. by elim: M => [|s M IH]; [constructor | move=> /List.Forall_cons_iff[h1 h2] /andP[h3 h4]; constructor; [split | exact: IH]]. Qed.

(** Each struct. *)
Section Structs.
Context {E : pairing} (cs : codecs E) (p : room).

Lemma com1_agrees : agrees (com1_codec cs) (com1_rd cs).
Proof. by apply/struct_agrees/pair_agrees; exact: plain_agrees. Qed.
Lemma com2_agrees : agrees (com2_codec cs) (com2_rd cs).
Proof. by apply/struct_agrees/pair_agrees; exact: plain_agrees. Qed.
Lemma com1s_agrees : agrees (vec_codec (com1_codec cs)) (com1s_rd cs p).
Proof. exact/vec_agrees/com1_agrees. Qed.
Lemma com2s_agrees : agrees (vec_codec (com2_codec cs)) (com2s_rd cs p).
Proof. exact/vec_agrees/com2_agrees. Qed.
Lemma g1s_agrees : agrees (vec_codec (c_g1 cs)) (g1s_rd cs p).
Proof. exact/vec_agrees/plain_agrees. Qed.
Lemma g2s_agrees : agrees (vec_codec (c_g2 cs)) (g2s_rd cs p).
Proof. exact/vec_agrees/plain_agrees. Qed.
Lemma frs_agrees : agrees (vec_codec (c_fr cs)) (frs_rd cs p).
Proof. exact/vec_agrees/plain_agrees. Qed.
Lemma mat_agrees : agrees (mat_codec (c_fr cs)) (mat_rd cs p).
Proof. exact/vec_agrees/vec_agrees/plain_agrees. Qed.

Section Total.
Hypothesis hp : all_rooms p all_lengths.
Lemma com1_total : total (com1_rd cs). Proof. by apply/struct_total/pair_total; exact: plain_total. Qed.
Lemma com2_total : total (com2_rd cs). Proof. by apply/struct_total/pair_total; exact: plain_total. Qed.
Lemma com1s_total : total (com1s_rd cs p). Proof. case: hp => h _ _; exact: (@vec_total _ _ _ _ h com1_total). Qed.
Lemma com2s_total : total (com2s_rd cs p). Proof. case: hp => _ h _; exact: (@vec_total _ _ _ _ h com2_total). Qed.
Lemma g1s_total : total (g1s_rd cs p). Proof. case: hp => _ _ [h _ _ _]; exact: (@vec_total _ _ _ _ h (@plain_total _ _)). Qed.
Lemma g2s_total : total (g2s_rd cs p). Proof. case: hp => _ _ [_ h _ _]; exact: (@vec_total _ _ _ _ h (@plain_total _ _)). Qed.
Lemma frs_total : total (frs_rd cs p). Proof. case: hp => _ _ [_ _ h _]; exact: (@vec_total _ _ _ _ h (@plain_total _ _)). Qed.
Lemma mat_total : total (mat_rd cs p). Proof. case: hp => _ _ [_ _ _ h]; exact: (@vec_total _ _ _ _ h frs_total). Qed.
End Total.

Section Eats.
Hypothesis he : elements_ok cs eats.
Lemma fr_eats : eats (c_fr cs). Proof. by case: he. Qed.
Lemma g1_eats : eats (c_g1 cs). Proof. by case: he. Qed.
Lemma g2_eats : eats (c_g2 cs). Proof. by case: he. Qed.
Lemma gt_eats : eats (c_gt cs). Proof. by case: he. Qed.
Lemma com1_eats : eats (com1_codec cs). Proof. by apply/struct_eats/pair_eats; exact: g1_eats. Qed.
Lemma com2_eats : eats (com2_codec cs). Proof. by apply/struct_eats/pair_eats; exact: g2_eats. Qed.
Lemma com1s_eats : eats (vec_codec (com1_codec cs)). Proof. exact/vec_eats/com1_eats. Qed.
Lemma com2s_eats : eats (vec_codec (com2_codec cs)). Proof. exact/vec_eats/com2_eats. Qed.
Lemma g1s_eats : eats (vec_codec (c_g1 cs)). Proof. exact/vec_eats/g1_eats. Qed.
Lemma g2s_eats : eats (vec_codec (c_g2 cs)). Proof. exact/vec_eats/g2_eats. Qed.
Lemma frs_eats : eats (vec_codec (c_fr cs)). Proof. exact/vec_eats/fr_eats. Qed.
Lemma mat_eats : eats (mat_codec (c_fr cs)). Proof. exact/vec_eats/frs_eats. Qed.

Section Oks.
Variable oks : seq (pred nat).
Lemma com1_blames : blames oks (com1_rd cs).
Proof. apply/struct_blames/(pair_blames (ca := c_g1 cs) g1_eats (@plain_agrees _ _)); exact: plain_blames. Qed.
Lemma com1_errs : only_errors oks (com1_codec cs) (com1_rd cs).
Proof. apply/struct_errs/(pair_errs g1_eats (@plain_agrees _ _)); exact: plain_errs. Qed.
Lemma com2_blames : blames oks (com2_rd cs).
Proof. apply/struct_blames/(pair_blames (ca := c_g2 cs) g2_eats (@plain_agrees _ _)); exact: plain_blames. Qed.
Lemma com2_errs : only_errors oks (com2_codec cs) (com2_rd cs).
Proof. apply/struct_errs/(pair_errs g2_eats (@plain_agrees _ _)); exact: plain_errs. Qed.
Lemma com1s_blames : (forall n, ~~ r_com1 p n -> refuses oks n) -> blames oks (com1s_rd cs p).
Proof. by move=> h; exact: (vec_blames h com1_eats com1_agrees com1_blames). Qed.
Lemma com1s_errs : (forall n, ~~ r_com1 p n -> refuses oks n) -> only_errors oks (vec_codec (com1_codec cs)) (com1s_rd cs p).
Proof. by move=> h; exact: (vec_errs h com1_eats com1_agrees com1_errs). Qed.
Lemma com2s_blames : (forall n, ~~ r_com2 p n -> refuses oks n) -> blames oks (com2s_rd cs p).
Proof. by move=> h; exact: (vec_blames h com2_eats com2_agrees com2_blames). Qed.
Lemma com2s_errs : (forall n, ~~ r_com2 p n -> refuses oks n) -> only_errors oks (vec_codec (com2_codec cs)) (com2s_rd cs p).
Proof. by move=> h; exact: (vec_errs h com2_eats com2_agrees com2_errs). Qed.
Lemma g1s_blames : (forall n, ~~ r_g1 p n -> refuses oks n) -> blames oks (g1s_rd cs p).
Proof. by move=> h; exact: (vec_blames h g1_eats (@plain_agrees _ _) (@plain_blames oks _ _)). Qed.
Lemma g1s_errs : (forall n, ~~ r_g1 p n -> refuses oks n) -> only_errors oks (vec_codec (c_g1 cs)) (g1s_rd cs p).
Proof. by move=> h; exact: (vec_errs h g1_eats (@plain_agrees _ _) (@plain_errs oks _ _)). Qed.
Lemma g2s_blames : (forall n, ~~ r_g2 p n -> refuses oks n) -> blames oks (g2s_rd cs p).
Proof. by move=> h; exact: (vec_blames h g2_eats (@plain_agrees _ _) (@plain_blames oks _ _)). Qed.
Lemma g2s_errs : (forall n, ~~ r_g2 p n -> refuses oks n) -> only_errors oks (vec_codec (c_g2 cs)) (g2s_rd cs p).
Proof. by move=> h; exact: (vec_errs h g2_eats (@plain_agrees _ _) (@plain_errs oks _ _)). Qed.
Lemma frs_blames : (forall n, ~~ r_fr p n -> refuses oks n) -> blames oks (frs_rd cs p).
Proof. by move=> h; exact: (vec_blames h fr_eats (@plain_agrees _ _) (@plain_blames oks _ _)). Qed.
Lemma frs_errs : (forall n, ~~ r_fr p n -> refuses oks n) -> only_errors oks (vec_codec (c_fr cs)) (frs_rd cs p).
Proof. by move=> h; exact: (vec_errs h fr_eats (@plain_agrees _ _) (@plain_errs oks _ _)). Qed.
Lemma mat_blames : (forall n, ~~ r_row p n -> refuses oks n) -> (forall n, ~~ r_fr p n -> refuses oks n) -> blames oks (mat_rd cs p).
Proof. by move=> h h'; exact: (vec_blames h frs_eats frs_agrees (frs_blames h')). Qed.
Lemma mat_errs : (forall n, ~~ r_row p n -> refuses oks n) -> (forall n, ~~ r_fr p n -> refuses oks n) -> only_errors oks (mat_codec (c_fr cs)) (mat_rd cs p).
Proof. by move=> h h'; exact: (vec_errs h frs_eats frs_agrees (frs_errs h')). Qed.
End Oks.
End Eats.

Section Back.
Hypothesis hg : elements_ok cs good_codec.
Lemma fr_gets : gets_back any (c_fr cs) (plain_rd (c_fr cs)).
Proof. by case: hg => -[a1 a2] [b1 b2] [d1 d2] [e1 e2]; apply: plain_gets. Qed.
Lemma fr_acc : accepts any (c_fr cs).
Proof. by case: hg => -[a1 a2] [b1 b2] [d1 d2] [e1 e2]. Qed.
Lemma g1_gets : gets_back any (c_g1 cs) (plain_rd (c_g1 cs)).
Proof. by case: hg => -[a1 a2] [b1 b2] [d1 d2] [e1 e2]; apply: plain_gets. Qed.
Lemma g1_acc : accepts any (c_g1 cs).
Proof. by case: hg => -[a1 a2] [b1 b2] [d1 d2] [e1 e2]. Qed.
Lemma g2_gets : gets_back any (c_g2 cs) (plain_rd (c_g2 cs)).
Proof. by case: hg => -[a1 a2] [b1 b2] [d1 d2] [e1 e2]; apply: plain_gets. Qed.
Lemma g2_acc : accepts any (c_g2 cs).
Proof. by case: hg => -[a1 a2] [b1 b2] [d1 d2] [e1 e2]. Qed.
Lemma gt_gets : gets_back any (c_gt cs) (plain_rd (c_gt cs)).
Proof. by case: hg => -[a1 a2] [b1 b2] [d1 d2] [e1 e2]; apply: plain_gets. Qed.
Lemma gt_acc : accepts any (c_gt cs).
Proof. by case: hg => -[a1 a2] [b1 b2] [d1 d2] [e1 e2]. Qed.
Lemma com1_acc : accepts any (com1_codec cs).
Proof. by apply/struct_any/pair_any; exact: g1_acc. Qed.
Lemma com1_gets : gets_back any (com1_codec cs) (com1_rd cs).
Proof. by apply: struct_gets (pair_gets g1_gets g1_gets) => [[]|] //. Qed.
Lemma com2_acc : accepts any (com2_codec cs).
Proof. by apply/struct_any/pair_any; exact: g2_acc. Qed.
Lemma com2_gets : gets_back any (com2_codec cs) (com2_rd cs).
Proof. by apply: struct_gets (pair_gets g2_gets g2_gets) => [[]|] //. Qed.
Lemma com1s_gets : gets_back (fun s => short s /\ r_com1 p (size s)) (vec_codec (com1_codec cs)) (com1s_rd cs p).
Proof. by apply: gets_any (vec_gets (ok := r_com1 p) com1_gets com1_acc) => s [hs ho]; split; [exact: hs | exact: ho | exact: forall_any]. Qed.
Lemma com2s_gets : gets_back (fun s => short s /\ r_com2 p (size s)) (vec_codec (com2_codec cs)) (com2s_rd cs p).
Proof. by apply: gets_any (vec_gets (ok := r_com2 p) com2_gets com2_acc) => s [hs ho]; split; [exact: hs | exact: ho | exact: forall_any]. Qed.
Lemma g1s_gets : gets_back (fun s => short s /\ r_g1 p (size s)) (vec_codec (c_g1 cs)) (g1s_rd cs p).
Proof. by apply: gets_any (vec_gets (ok := r_g1 p) g1_gets g1_acc) => s [hs ho]; split; [exact: hs | exact: ho | exact: forall_any]. Qed.
Lemma g2s_gets : gets_back (fun s => short s /\ r_g2 p (size s)) (vec_codec (c_g2 cs)) (g2s_rd cs p).
Proof. by apply: gets_any (vec_gets (ok := r_g2 p) g2_gets g2_acc) => s [hs ho]; split; [exact: hs | exact: ho | exact: forall_any]. Qed.
Lemma frs_gets : gets_back (fun s => short s /\ r_fr p (size s)) (vec_codec (c_fr cs)) (frs_rd cs p).
Proof. by apply: gets_any (vec_gets (ok := r_fr p) fr_gets fr_acc) => s [hs ho]; split; [exact: hs | exact: ho | exact: forall_any]. Qed.
Lemma mat_gets : gets_back (fun M => short_mat M /\ mat_room p M) (mat_codec (c_fr cs)) (mat_rd cs p).
Proof.
apply: gets_any (vec_gets (ok := r_row p) frs_gets (vec_any' fr_acc)) => M [[hs hM] /andP[ho ha]]; split; [exact: hs | exact: ho |].
exact: all_rows hM ha.
Qed.
End Back.

(** [CRS]. *)
Lemma crs_agrees : agrees (crs_codec cs) (crs_rd cs p).
Proof. apply: struct_agrees; exact: (pair_agrees com1s_agrees (pair_agrees com2s_agrees (pair_agrees (@plain_agrees _ _) (pair_agrees (@plain_agrees _ _) (@plain_agrees _ _))))). Qed.
Lemma crs_total : all_rooms p all_lengths -> forall m v bs, crs_rd cs p m v bs = Some (de (crs_codec cs) m v bs).
Proof. move=> hp; apply: (agrees_total crs_agrees); apply: struct_total; exact: (pair_total (com1s_total hp) (pair_total (com2s_total hp) (pair_total (@plain_total _ _) (pair_total (@plain_total _ _) (@plain_total _ _))))). Qed.
Lemma crs_blames : elements_ok cs eats -> blames [:: r_com1 p; r_com2 p] (crs_rd cs p).
Proof.
move=> he.
have h_r_com1 n : ~~ r_com1 p n -> refuses [:: r_com1 p; r_com2 p] n by move=> h; rewrite /refuses /= h ?orbT.
have h_r_com2 n : ~~ r_com2 p n -> refuses [:: r_com1 p; r_com2 p] n by move=> h; rewrite /refuses /= h ?orbT.
apply: struct_blames; exact: (pair_blames (com1s_eats he) com1s_agrees (com1s_blames he h_r_com1) (pair_blames (com2s_eats he) com2s_agrees (com2s_blames he h_r_com2) (pair_blames (g1_eats he) (@plain_agrees _ _) (@plain_blames _ _ _) (pair_blames (g2_eats he) (@plain_agrees _ _) (@plain_blames _ _ _) (@plain_blames _ _ _))))).
Qed.
Lemma crs_errs : elements_ok cs eats -> only_errors [:: r_com1 p; r_com2 p] (crs_codec cs) (crs_rd cs p).
Proof.
move=> he.
have h_r_com1 n : ~~ r_com1 p n -> refuses [:: r_com1 p; r_com2 p] n by move=> h; rewrite /refuses /= h ?orbT.
have h_r_com2 n : ~~ r_com2 p n -> refuses [:: r_com1 p; r_com2 p] n by move=> h; rewrite /refuses /= h ?orbT.
apply: struct_errs; exact: (pair_errs (com1s_eats he) com1s_agrees (com1s_errs he h_r_com1) (pair_errs (com2s_eats he) com2s_agrees (com2s_errs he h_r_com2) (pair_errs (g1_eats he) (@plain_agrees _ _) (@plain_errs _ _ _) (pair_errs (g2_eats he) (@plain_agrees _ _) (@plain_errs _ _ _) (@plain_errs _ _ _))))).
Qed.
Lemma crs_gets : elements_ok cs good_codec -> gets_back (fun x => crs_fits x /\ crs_room p x) (crs_codec cs) (crs_rd cs p).
Proof.
move=> hg; apply: struct_gets (pair_gets (com1s_gets hg) (pair_gets (com2s_gets hg) (pair_gets (g1_gets hg) (pair_gets (g2_gets hg) (gt_gets hg))))) ; first by case.
move=> x [[h1 h2] /andP[h3 h4]]; exact: (conj (conj h1 h3) (conj (conj h2 h4) (conj Logic.I (conj Logic.I Logic.I)))).
Qed.
Lemma crs_falls : falls_to (r_com1 p) (crs_rd cs p).
Proof. apply/struct_falls/pair_falls; exact: vec_falls. Qed.
Lemma crs_harmless : elements_ok cs eats -> harmless (crs_codec cs).
Proof. move=> he; apply/struct_harmless/pair_harmless/vec_harmless; exact: com1_eats. Qed.

(** [Commit1]. *)
Lemma commit1_agrees : agrees (commit1_codec cs) (commit1_rd cs p).
Proof. apply: struct_agrees; exact: (pair_agrees com1s_agrees mat_agrees). Qed.
Lemma commit1_total : all_rooms p all_lengths -> forall m v bs, commit1_rd cs p m v bs = Some (de (commit1_codec cs) m v bs).
Proof. move=> hp; apply: (agrees_total commit1_agrees); apply: struct_total; exact: (pair_total (com1s_total hp) (mat_total hp)). Qed.
Lemma commit1_blames : elements_ok cs eats -> blames [:: r_com1 p; r_row p; r_fr p] (commit1_rd cs p).
Proof.
move=> he.
have h_r_com1 n : ~~ r_com1 p n -> refuses [:: r_com1 p; r_row p; r_fr p] n by move=> h; rewrite /refuses /= h ?orbT.
have h_r_row n : ~~ r_row p n -> refuses [:: r_com1 p; r_row p; r_fr p] n by move=> h; rewrite /refuses /= h ?orbT.
have h_r_fr n : ~~ r_fr p n -> refuses [:: r_com1 p; r_row p; r_fr p] n by move=> h; rewrite /refuses /= h ?orbT.
apply: struct_blames; exact: (pair_blames (com1s_eats he) com1s_agrees (com1s_blames he h_r_com1) (mat_blames he h_r_row h_r_fr)).
Qed.
Lemma commit1_errs : elements_ok cs eats -> only_errors [:: r_com1 p; r_row p; r_fr p] (commit1_codec cs) (commit1_rd cs p).
Proof.
move=> he.
have h_r_com1 n : ~~ r_com1 p n -> refuses [:: r_com1 p; r_row p; r_fr p] n by move=> h; rewrite /refuses /= h ?orbT.
have h_r_row n : ~~ r_row p n -> refuses [:: r_com1 p; r_row p; r_fr p] n by move=> h; rewrite /refuses /= h ?orbT.
have h_r_fr n : ~~ r_fr p n -> refuses [:: r_com1 p; r_row p; r_fr p] n by move=> h; rewrite /refuses /= h ?orbT.
apply: struct_errs; exact: (pair_errs (com1s_eats he) com1s_agrees (com1s_errs he h_r_com1) (mat_errs he h_r_row h_r_fr)).
Qed.
Lemma commit1_gets : elements_ok cs good_codec -> gets_back (fun x => commit1_fits x /\ commit1_room p x) (commit1_codec cs) (commit1_rd cs p).
Proof.
move=> hg; apply: struct_gets (pair_gets (com1s_gets hg) (mat_gets hg)) ; first by case.
move=> x [[h1 h2] /andP[h3 h4]]; exact: (conj (conj h1 h3) (conj h2 h4)).
Qed.
Lemma commit1_falls : falls_to (r_com1 p) (commit1_rd cs p).
Proof. apply/struct_falls/pair_falls; exact: vec_falls. Qed.
Lemma commit1_harmless : elements_ok cs eats -> harmless (commit1_codec cs).
Proof. move=> he; apply/struct_harmless/pair_harmless/vec_harmless; exact: com1_eats. Qed.

(** [Commit2]. *)
Lemma commit2_agrees : agrees (commit2_codec cs) (commit2_rd cs p).
Proof. apply: struct_agrees; exact: (pair_agrees com2s_agrees mat_agrees). Qed.
Lemma commit2_total : all_rooms p all_lengths -> forall m v bs, commit2_rd cs p m v bs = Some (de (commit2_codec cs) m v bs).
Proof. move=> hp; apply: (agrees_total commit2_agrees); apply: struct_total; exact: (pair_total (com2s_total hp) (mat_total hp)). Qed.
Lemma commit2_blames : elements_ok cs eats -> blames [:: r_com2 p; r_row p; r_fr p] (commit2_rd cs p).
Proof.
move=> he.
have h_r_com2 n : ~~ r_com2 p n -> refuses [:: r_com2 p; r_row p; r_fr p] n by move=> h; rewrite /refuses /= h ?orbT.
have h_r_row n : ~~ r_row p n -> refuses [:: r_com2 p; r_row p; r_fr p] n by move=> h; rewrite /refuses /= h ?orbT.
have h_r_fr n : ~~ r_fr p n -> refuses [:: r_com2 p; r_row p; r_fr p] n by move=> h; rewrite /refuses /= h ?orbT.
apply: struct_blames; exact: (pair_blames (com2s_eats he) com2s_agrees (com2s_blames he h_r_com2) (mat_blames he h_r_row h_r_fr)).
Qed.
Lemma commit2_errs : elements_ok cs eats -> only_errors [:: r_com2 p; r_row p; r_fr p] (commit2_codec cs) (commit2_rd cs p).
Proof.
move=> he.
have h_r_com2 n : ~~ r_com2 p n -> refuses [:: r_com2 p; r_row p; r_fr p] n by move=> h; rewrite /refuses /= h ?orbT.
have h_r_row n : ~~ r_row p n -> refuses [:: r_com2 p; r_row p; r_fr p] n by move=> h; rewrite /refuses /= h ?orbT.
have h_r_fr n : ~~ r_fr p n -> refuses [:: r_com2 p; r_row p; r_fr p] n by move=> h; rewrite /refuses /= h ?orbT.
apply: struct_errs; exact: (pair_errs (com2s_eats he) com2s_agrees (com2s_errs he h_r_com2) (mat_errs he h_r_row h_r_fr)).
Qed.
Lemma commit2_gets : elements_ok cs good_codec -> gets_back (fun x => commit2_fits x /\ commit2_room p x) (commit2_codec cs) (commit2_rd cs p).
Proof.
move=> hg; apply: struct_gets (pair_gets (com2s_gets hg) (mat_gets hg)) ; first by case.
move=> x [[h1 h2] /andP[h3 h4]]; exact: (conj (conj h1 h3) (conj h2 h4)).
Qed.
Lemma commit2_falls : falls_to (r_com2 p) (commit2_rd cs p).
Proof. apply/struct_falls/pair_falls; exact: vec_falls. Qed.
Lemma commit2_harmless : elements_ok cs eats -> harmless (commit2_codec cs).
Proof. move=> he; apply/struct_harmless/pair_harmless/vec_harmless; exact: com2_eats. Qed.

(** [EquProof]. *)
Lemma equproof_agrees : agrees (equproof_codec cs) (equproof_rd cs p).
Proof. apply: struct_agrees; exact: (pair_agrees com2s_agrees (pair_agrees com1s_agrees (pair_agrees (@plain_agrees _ _) mat_agrees))). Qed.
Lemma equproof_total : all_rooms p all_lengths -> forall m v bs, equproof_rd cs p m v bs = Some (de (equproof_codec cs) m v bs).
Proof. move=> hp; apply: (agrees_total equproof_agrees); apply: struct_total; exact: (pair_total (com2s_total hp) (pair_total (com1s_total hp) (pair_total (@plain_total _ _) (mat_total hp)))). Qed.
Lemma equproof_blames : elements_ok cs eats -> blames [:: r_com2 p; r_com1 p; r_row p; r_fr p] (equproof_rd cs p).
Proof.
move=> he.
have h_r_com2 n : ~~ r_com2 p n -> refuses [:: r_com2 p; r_com1 p; r_row p; r_fr p] n by move=> h; rewrite /refuses /= h ?orbT.
have h_r_com1 n : ~~ r_com1 p n -> refuses [:: r_com2 p; r_com1 p; r_row p; r_fr p] n by move=> h; rewrite /refuses /= h ?orbT.
have h_r_row n : ~~ r_row p n -> refuses [:: r_com2 p; r_com1 p; r_row p; r_fr p] n by move=> h; rewrite /refuses /= h ?orbT.
have h_r_fr n : ~~ r_fr p n -> refuses [:: r_com2 p; r_com1 p; r_row p; r_fr p] n by move=> h; rewrite /refuses /= h ?orbT.
apply: struct_blames; exact: (pair_blames (com2s_eats he) com2s_agrees (com2s_blames he h_r_com2) (pair_blames (com1s_eats he) com1s_agrees (com1s_blames he h_r_com1) (pair_blames equtype_eats (@plain_agrees _ _) (@plain_blames _ _ _) (mat_blames he h_r_row h_r_fr)))).
Qed.
Lemma equproof_errs : elements_ok cs eats -> only_errors [:: r_com2 p; r_com1 p; r_row p; r_fr p] (equproof_codec cs) (equproof_rd cs p).
Proof.
move=> he.
have h_r_com2 n : ~~ r_com2 p n -> refuses [:: r_com2 p; r_com1 p; r_row p; r_fr p] n by move=> h; rewrite /refuses /= h ?orbT.
have h_r_com1 n : ~~ r_com1 p n -> refuses [:: r_com2 p; r_com1 p; r_row p; r_fr p] n by move=> h; rewrite /refuses /= h ?orbT.
have h_r_row n : ~~ r_row p n -> refuses [:: r_com2 p; r_com1 p; r_row p; r_fr p] n by move=> h; rewrite /refuses /= h ?orbT.
have h_r_fr n : ~~ r_fr p n -> refuses [:: r_com2 p; r_com1 p; r_row p; r_fr p] n by move=> h; rewrite /refuses /= h ?orbT.
apply: struct_errs; exact: (pair_errs (com2s_eats he) com2s_agrees (com2s_errs he h_r_com2) (pair_errs (com1s_eats he) com1s_agrees (com1s_errs he h_r_com1) (pair_errs equtype_eats (@plain_agrees _ _) (@plain_errs _ _ _) (mat_errs he h_r_row h_r_fr)))).
Qed.
Lemma equproof_gets : elements_ok cs good_codec -> gets_back (fun x => equproof_fits x /\ equproof_room p x) (equproof_codec cs) (equproof_rd cs p).
Proof.
move=> hg; apply: struct_gets (pair_gets (com2s_gets hg) (pair_gets (com1s_gets hg) (pair_gets (plain_gets equtype_back) (mat_gets hg)))) ; first by case.
move=> x [[h1 [h2 h3]] /and3P[h4 h5 h6]]; exact: (conj (conj h1 h4) (conj (conj h2 h5) (conj Logic.I (conj h3 h6)))).
Qed.
Lemma equproof_falls : falls_to (r_com2 p) (equproof_rd cs p).
Proof. apply/struct_falls/pair_falls; exact: vec_falls. Qed.
Lemma equproof_harmless : elements_ok cs eats -> harmless (equproof_codec cs).
Proof. move=> he; apply/struct_harmless/pair_harmless/vec_harmless; exact: com2_eats. Qed.

(** [PPE]. *)
Lemma ppe_agrees : agrees (ppe_codec cs) (ppe_rd cs p).
Proof. apply: struct_agrees; exact: (pair_agrees g1s_agrees (pair_agrees g2s_agrees (pair_agrees mat_agrees (@plain_agrees _ _)))). Qed.
Lemma ppe_total : all_rooms p all_lengths -> forall m v bs, ppe_rd cs p m v bs = Some (de (ppe_codec cs) m v bs).
Proof. move=> hp; apply: (agrees_total ppe_agrees); apply: struct_total; exact: (pair_total (g1s_total hp) (pair_total (g2s_total hp) (pair_total (mat_total hp) (@plain_total _ _)))). Qed.
Lemma ppe_blames : elements_ok cs eats -> blames [:: r_g1 p; r_g2 p; r_row p; r_fr p] (ppe_rd cs p).
Proof.
move=> he.
have h_r_g1 n : ~~ r_g1 p n -> refuses [:: r_g1 p; r_g2 p; r_row p; r_fr p] n by move=> h; rewrite /refuses /= h ?orbT.
have h_r_g2 n : ~~ r_g2 p n -> refuses [:: r_g1 p; r_g2 p; r_row p; r_fr p] n by move=> h; rewrite /refuses /= h ?orbT.
have h_r_row n : ~~ r_row p n -> refuses [:: r_g1 p; r_g2 p; r_row p; r_fr p] n by move=> h; rewrite /refuses /= h ?orbT.
have h_r_fr n : ~~ r_fr p n -> refuses [:: r_g1 p; r_g2 p; r_row p; r_fr p] n by move=> h; rewrite /refuses /= h ?orbT.
apply: struct_blames; exact: (pair_blames (g1s_eats he) g1s_agrees (g1s_blames he h_r_g1) (pair_blames (g2s_eats he) g2s_agrees (g2s_blames he h_r_g2) (pair_blames (mat_eats he) mat_agrees (mat_blames he h_r_row h_r_fr) (@plain_blames _ _ _)))).
Qed.
Lemma ppe_errs : elements_ok cs eats -> only_errors [:: r_g1 p; r_g2 p; r_row p; r_fr p] (ppe_codec cs) (ppe_rd cs p).
Proof.
move=> he.
have h_r_g1 n : ~~ r_g1 p n -> refuses [:: r_g1 p; r_g2 p; r_row p; r_fr p] n by move=> h; rewrite /refuses /= h ?orbT.
have h_r_g2 n : ~~ r_g2 p n -> refuses [:: r_g1 p; r_g2 p; r_row p; r_fr p] n by move=> h; rewrite /refuses /= h ?orbT.
have h_r_row n : ~~ r_row p n -> refuses [:: r_g1 p; r_g2 p; r_row p; r_fr p] n by move=> h; rewrite /refuses /= h ?orbT.
have h_r_fr n : ~~ r_fr p n -> refuses [:: r_g1 p; r_g2 p; r_row p; r_fr p] n by move=> h; rewrite /refuses /= h ?orbT.
apply: struct_errs; exact: (pair_errs (g1s_eats he) g1s_agrees (g1s_errs he h_r_g1) (pair_errs (g2s_eats he) g2s_agrees (g2s_errs he h_r_g2) (pair_errs (mat_eats he) mat_agrees (mat_errs he h_r_row h_r_fr) (@plain_errs _ _ _)))).
Qed.
Lemma ppe_gets : elements_ok cs good_codec -> gets_back (fun x => ppe_fits x /\ ppe_room p x) (ppe_codec cs) (ppe_rd cs p).
Proof.
move=> hg; apply: struct_gets (pair_gets (g1s_gets hg) (pair_gets (g2s_gets hg) (pair_gets (mat_gets hg) (gt_gets hg)))) ; first by case.
move=> x [[h1 [h2 h3]] /and3P[h4 h5 h6]]; exact: (conj (conj h1 h4) (conj (conj h2 h5) (conj (conj h3 h6) Logic.I))).
Qed.
Lemma ppe_falls : falls_to (r_g1 p) (ppe_rd cs p).
Proof. apply/struct_falls/pair_falls; exact: vec_falls. Qed.
Lemma ppe_harmless : elements_ok cs eats -> harmless (ppe_codec cs).
Proof. move=> he; apply/struct_harmless/pair_harmless/vec_harmless; exact: g1_eats. Qed.

(** [MSMEG1]. *)
Lemma ms1_agrees : agrees (ms1_codec cs) (ms1_rd cs p).
Proof. apply: struct_agrees; exact: (pair_agrees g1s_agrees (pair_agrees frs_agrees (pair_agrees mat_agrees (@plain_agrees _ _)))). Qed.
Lemma ms1_total : all_rooms p all_lengths -> forall m v bs, ms1_rd cs p m v bs = Some (de (ms1_codec cs) m v bs).
Proof. move=> hp; apply: (agrees_total ms1_agrees); apply: struct_total; exact: (pair_total (g1s_total hp) (pair_total (frs_total hp) (pair_total (mat_total hp) (@plain_total _ _)))). Qed.
Lemma ms1_blames : elements_ok cs eats -> blames [:: r_g1 p; r_fr p; r_row p] (ms1_rd cs p).
Proof.
move=> he.
have h_r_g1 n : ~~ r_g1 p n -> refuses [:: r_g1 p; r_fr p; r_row p] n by move=> h; rewrite /refuses /= h ?orbT.
have h_r_fr n : ~~ r_fr p n -> refuses [:: r_g1 p; r_fr p; r_row p] n by move=> h; rewrite /refuses /= h ?orbT.
have h_r_row n : ~~ r_row p n -> refuses [:: r_g1 p; r_fr p; r_row p] n by move=> h; rewrite /refuses /= h ?orbT.
apply: struct_blames; exact: (pair_blames (g1s_eats he) g1s_agrees (g1s_blames he h_r_g1) (pair_blames (frs_eats he) frs_agrees (frs_blames he h_r_fr) (pair_blames (mat_eats he) mat_agrees (mat_blames he h_r_row h_r_fr) (@plain_blames _ _ _)))).
Qed.
Lemma ms1_errs : elements_ok cs eats -> only_errors [:: r_g1 p; r_fr p; r_row p] (ms1_codec cs) (ms1_rd cs p).
Proof.
move=> he.
have h_r_g1 n : ~~ r_g1 p n -> refuses [:: r_g1 p; r_fr p; r_row p] n by move=> h; rewrite /refuses /= h ?orbT.
have h_r_fr n : ~~ r_fr p n -> refuses [:: r_g1 p; r_fr p; r_row p] n by move=> h; rewrite /refuses /= h ?orbT.
have h_r_row n : ~~ r_row p n -> refuses [:: r_g1 p; r_fr p; r_row p] n by move=> h; rewrite /refuses /= h ?orbT.
apply: struct_errs; exact: (pair_errs (g1s_eats he) g1s_agrees (g1s_errs he h_r_g1) (pair_errs (frs_eats he) frs_agrees (frs_errs he h_r_fr) (pair_errs (mat_eats he) mat_agrees (mat_errs he h_r_row h_r_fr) (@plain_errs _ _ _)))).
Qed.
Lemma ms1_gets : elements_ok cs good_codec -> gets_back (fun x => ms1_fits x /\ ms1_room p x) (ms1_codec cs) (ms1_rd cs p).
Proof.
move=> hg; apply: struct_gets (pair_gets (g1s_gets hg) (pair_gets (frs_gets hg) (pair_gets (mat_gets hg) (g1_gets hg)))) ; first by case.
move=> x [[h1 [h2 h3]] /and3P[h4 h5 h6]]; exact: (conj (conj h1 h4) (conj (conj h2 h5) (conj (conj h3 h6) Logic.I))).
Qed.
Lemma ms1_falls : falls_to (r_g1 p) (ms1_rd cs p).
Proof. apply/struct_falls/pair_falls; exact: vec_falls. Qed.
Lemma ms1_harmless : elements_ok cs eats -> harmless (ms1_codec cs).
Proof. move=> he; apply/struct_harmless/pair_harmless/vec_harmless; exact: g1_eats. Qed.

(** [MSMEG2]. *)
Lemma ms2_agrees : agrees (ms2_codec cs) (ms2_rd cs p).
Proof. apply: struct_agrees; exact: (pair_agrees frs_agrees (pair_agrees g2s_agrees (pair_agrees mat_agrees (@plain_agrees _ _)))). Qed.
Lemma ms2_total : all_rooms p all_lengths -> forall m v bs, ms2_rd cs p m v bs = Some (de (ms2_codec cs) m v bs).
Proof. move=> hp; apply: (agrees_total ms2_agrees); apply: struct_total; exact: (pair_total (frs_total hp) (pair_total (g2s_total hp) (pair_total (mat_total hp) (@plain_total _ _)))). Qed.
Lemma ms2_blames : elements_ok cs eats -> blames [:: r_fr p; r_g2 p; r_row p] (ms2_rd cs p).
Proof.
move=> he.
have h_r_fr n : ~~ r_fr p n -> refuses [:: r_fr p; r_g2 p; r_row p] n by move=> h; rewrite /refuses /= h ?orbT.
have h_r_g2 n : ~~ r_g2 p n -> refuses [:: r_fr p; r_g2 p; r_row p] n by move=> h; rewrite /refuses /= h ?orbT.
have h_r_row n : ~~ r_row p n -> refuses [:: r_fr p; r_g2 p; r_row p] n by move=> h; rewrite /refuses /= h ?orbT.
apply: struct_blames; exact: (pair_blames (frs_eats he) frs_agrees (frs_blames he h_r_fr) (pair_blames (g2s_eats he) g2s_agrees (g2s_blames he h_r_g2) (pair_blames (mat_eats he) mat_agrees (mat_blames he h_r_row h_r_fr) (@plain_blames _ _ _)))).
Qed.
Lemma ms2_errs : elements_ok cs eats -> only_errors [:: r_fr p; r_g2 p; r_row p] (ms2_codec cs) (ms2_rd cs p).
Proof.
move=> he.
have h_r_fr n : ~~ r_fr p n -> refuses [:: r_fr p; r_g2 p; r_row p] n by move=> h; rewrite /refuses /= h ?orbT.
have h_r_g2 n : ~~ r_g2 p n -> refuses [:: r_fr p; r_g2 p; r_row p] n by move=> h; rewrite /refuses /= h ?orbT.
have h_r_row n : ~~ r_row p n -> refuses [:: r_fr p; r_g2 p; r_row p] n by move=> h; rewrite /refuses /= h ?orbT.
apply: struct_errs; exact: (pair_errs (frs_eats he) frs_agrees (frs_errs he h_r_fr) (pair_errs (g2s_eats he) g2s_agrees (g2s_errs he h_r_g2) (pair_errs (mat_eats he) mat_agrees (mat_errs he h_r_row h_r_fr) (@plain_errs _ _ _)))).
Qed.
Lemma ms2_gets : elements_ok cs good_codec -> gets_back (fun x => ms2_fits x /\ ms2_room p x) (ms2_codec cs) (ms2_rd cs p).
Proof.
move=> hg; apply: struct_gets (pair_gets (frs_gets hg) (pair_gets (g2s_gets hg) (pair_gets (mat_gets hg) (g2_gets hg)))) ; first by case.
move=> x [[h1 [h2 h3]] /and3P[h4 h5 h6]]; exact: (conj (conj h1 h4) (conj (conj h2 h5) (conj (conj h3 h6) Logic.I))).
Qed.
Lemma ms2_falls : falls_to (r_fr p) (ms2_rd cs p).
Proof. apply/struct_falls/pair_falls; exact: vec_falls. Qed.
Lemma ms2_harmless : elements_ok cs eats -> harmless (ms2_codec cs).
Proof. move=> he; apply/struct_harmless/pair_harmless/vec_harmless; exact: fr_eats. Qed.

(** [QuadEqu]. *)
Lemma quad_agrees : agrees (quad_codec cs) (quad_rd cs p).
Proof. apply: struct_agrees; exact: (pair_agrees frs_agrees (pair_agrees frs_agrees (pair_agrees mat_agrees (@plain_agrees _ _)))). Qed.
Lemma quad_total : all_rooms p all_lengths -> forall m v bs, quad_rd cs p m v bs = Some (de (quad_codec cs) m v bs).
Proof. move=> hp; apply: (agrees_total quad_agrees); apply: struct_total; exact: (pair_total (frs_total hp) (pair_total (frs_total hp) (pair_total (mat_total hp) (@plain_total _ _)))). Qed.
Lemma quad_blames : elements_ok cs eats -> blames [:: r_fr p; r_row p] (quad_rd cs p).
Proof.
move=> he.
have h_r_fr n : ~~ r_fr p n -> refuses [:: r_fr p; r_row p] n by move=> h; rewrite /refuses /= h ?orbT.
have h_r_row n : ~~ r_row p n -> refuses [:: r_fr p; r_row p] n by move=> h; rewrite /refuses /= h ?orbT.
apply: struct_blames; exact: (pair_blames (frs_eats he) frs_agrees (frs_blames he h_r_fr) (pair_blames (frs_eats he) frs_agrees (frs_blames he h_r_fr) (pair_blames (mat_eats he) mat_agrees (mat_blames he h_r_row h_r_fr) (@plain_blames _ _ _)))).
Qed.
Lemma quad_errs : elements_ok cs eats -> only_errors [:: r_fr p; r_row p] (quad_codec cs) (quad_rd cs p).
Proof.
move=> he.
have h_r_fr n : ~~ r_fr p n -> refuses [:: r_fr p; r_row p] n by move=> h; rewrite /refuses /= h ?orbT.
have h_r_row n : ~~ r_row p n -> refuses [:: r_fr p; r_row p] n by move=> h; rewrite /refuses /= h ?orbT.
apply: struct_errs; exact: (pair_errs (frs_eats he) frs_agrees (frs_errs he h_r_fr) (pair_errs (frs_eats he) frs_agrees (frs_errs he h_r_fr) (pair_errs (mat_eats he) mat_agrees (mat_errs he h_r_row h_r_fr) (@plain_errs _ _ _)))).
Qed.
Lemma quad_gets : elements_ok cs good_codec -> gets_back (fun x => quad_fits x /\ quad_room p x) (quad_codec cs) (quad_rd cs p).
Proof.
move=> hg; apply: struct_gets (pair_gets (frs_gets hg) (pair_gets (frs_gets hg) (pair_gets (mat_gets hg) (fr_gets hg)))) ; first by case.
move=> x [[h1 [h2 h3]] /and3P[h4 h5 h6]]; exact: (conj (conj h1 h4) (conj (conj h2 h5) (conj (conj h3 h6) Logic.I))).
Qed.
Lemma quad_falls : falls_to (r_fr p) (quad_rd cs p).
Proof. apply/struct_falls/pair_falls; exact: vec_falls. Qed.
Lemma quad_harmless : elements_ok cs eats -> harmless (quad_codec cs).
Proof. move=> he; apply/struct_harmless/pair_harmless/vec_harmless; exact: fr_eats. Qed.

(** The receiver. *)
Section Receive.
Context {Q : Type} (cq : codec Q) (rq : reader Q) (verify : Q -> CProof E -> CRS E -> res bool).
Lemma receive_agrees m v bs y : agrees cq rq -> receive_rd p cs rq verify m v bs = Some y -> y = receive cs cq verify m v bs.
Proof.
move=> h; apply: bind_agrees => [z /h //|q r z]; apply: bind_agrees => [w /crs_agrees //|crs r1 w].
apply: bind_agrees => [z' /commit1_agrees //|cx r2 z']; apply: bind_agrees => [w' /commit2_agrees //|cy r3 w'].
by apply: bind_agrees => [z2 /equproof_agrees //|pf r4 z2 []].
Qed.
Lemma receive_gets (D : Q -> Prop) m v q crs cx cy pf rest : elements_ok cs good_codec -> gets_back D cq rq -> D q ->
  crs_fits crs -> crs_room p crs -> commit1_fits cx -> commit1_room p cx -> commit2_fits cy -> commit2_room p cy ->
  equproof_fits pf -> equproof_room p pf ->
  receive_rd p cs rq verify m v (sent cs cq m q crs cx cy pf ++ rest) = Some (DOk (verify q (mkCProof cx cy [:: pf]) crs) rest).
Proof.
move=> hg hq dq c1 c2 x1 x2 y1 y2 p1 p2; rewrite /receive_rd /sent cat5 (hq m v q _ dq) rbind_ok.
rewrite (crs_gets hg m v _ (conj c1 c2)) rbind_ok (commit1_gets hg m v _ (conj x1 x2)) rbind_ok.
by rewrite (commit2_gets hg m v _ (conj y1 y2)) rbind_ok (equproof_gets hg m v _ (conj p1 p2)) rbind_ok.
Qed.
End Receive.
End Structs.

(** Statements of P_Alloc.v. *)
Lemma k_C90_crs_agrees : forall (E : pairing) (cs : codecs E) (p : room), agrees (crs_codec cs) (crs_rd cs p).
Proof. exact: @crs_agrees. Qed.
Lemma k_C90_crs_enough : forall (E : pairing) (cs : codecs E) (p : room) m v bs, all_rooms p all_lengths ->
  crs_rd cs p m v bs = Some (de (crs_codec cs) m v bs).
Proof. by move=> E cs p m v bs hp; exact: crs_total. Qed.
Lemma k_C90_crs_back : forall (E : pairing) (cs : codecs E) (p : room), elements_ok cs good_codec ->
  gets_back (fun x => crs_fits x /\ crs_room p x) (crs_codec cs) (crs_rd cs p).
Proof. exact: @crs_gets. Qed.
Lemma k_C90_crs_blame : forall (E : pairing) (cs : codecs E) (p : room), elements_ok cs eats ->
  blames [:: r_com1 p; r_com2 p] (crs_rd cs p).
Proof. exact: @crs_blames. Qed.
Lemma k_C90_crs_errors : forall (E : pairing) (cs : codecs E) (p : room), elements_ok cs eats ->
  only_errors [:: r_com1 p; r_com2 p] (crs_codec cs) (crs_rd cs p).
Proof. exact: @crs_errs. Qed.
Lemma k_C90_crs_total_refuted : forall (E : pairing) (cs : codecs E) (p : room), elements_ok cs eats -> forall n,
  (0 < n < 2 ^ 64)%N -> ~~ r_com1 p n -> forall m v,
  (forall rest, crs_rd cs p m v (le64 n ++ rest) = None) /\ exists e, de (crs_codec cs) m v (le64 n) = DErr e.
Proof. move=> E cs p he n hn ho m v; split=> [rest|]; last exact: crs_harmless he m v n hn.
by apply: crs_falls ho; case/andP: hn. Qed.
Lemma k_C90_commit1_agrees : forall (E : pairing) (cs : codecs E) (p : room), agrees (commit1_codec cs) (commit1_rd cs p).
Proof. exact: @commit1_agrees. Qed.
Lemma k_C90_commit1_enough : forall (E : pairing) (cs : codecs E) (p : room) m v bs, all_rooms p all_lengths ->
  commit1_rd cs p m v bs = Some (de (commit1_codec cs) m v bs).
Proof. by move=> E cs p m v bs hp; exact: commit1_total. Qed.
Lemma k_C90_commit1_back : forall (E : pairing) (cs : codecs E) (p : room), elements_ok cs good_codec ->
  gets_back (fun x => commit1_fits x /\ commit1_room p x) (commit1_codec cs) (commit1_rd cs p).
Proof. exact: @commit1_gets. Qed.
Lemma k_C90_commit1_blame : forall (E : pairing) (cs : codecs E) (p : room), elements_ok cs eats ->
  blames [:: r_com1 p; r_row p; r_fr p] (commit1_rd cs p).
Proof. exact: @commit1_blames. Qed.
Lemma k_C90_commit1_errors : forall (E : pairing) (cs : codecs E) (p : room), elements_ok cs eats ->
  only_errors [:: r_com1 p; r_row p; r_fr p] (commit1_codec cs) (commit1_rd cs p).
Proof. exact: @commit1_errs. Qed.
Lemma k_C90_commit1_total_refuted : forall (E : pairing) (cs : codecs E) (p : room), elements_ok cs eats -> forall n,
  (0 < n < 2 ^ 64)%N -> ~~ r_com1 p n -> forall m v,
  (forall rest, commit1_rd cs p m v (le64 n ++ rest) = None) /\ exists e, de (commit1_codec cs) m v (le64 n) = DErr e.
Proof. move=> E cs p he n hn ho m v; split=> [rest|]; last exact: commit1_harmless he m v n hn.
by apply: commit1_falls ho; case/andP: hn. Qed.
Lemma k_C90_commit2_agrees : forall (E : pairing) (cs : codecs E) (p : room), agrees (commit2_codec cs) (commit2_rd cs p).
Proof. exact: @commit2_agrees. Qed.
Lemma k_C90_commit2_enough : forall (E : pairing) (cs : codecs E) (p : room) m v bs, all_rooms p all_lengths ->
  commit2_rd cs p m v bs = Some (de (commit2_codec cs) m v bs).
Proof. by move=> E cs p m v bs hp; exact: commit2_total. Qed.
Lemma k_C90_commit2_back : forall (E : pairing) (cs : codecs E) (p : room), elements_ok cs good_codec ->
  gets_back (fun x => commit2_fits x /\ commit2_room p x) (commit2_codec cs) (commit2_rd cs p).
Proof. exact: @commit2_gets. Qed.
Lemma k_C90_commit2_blame : forall (E : pairing) (cs : codecs E) (p : room), elements_ok cs eats ->
  blames [:: r_com2 p; r_row p; r_fr p] (commit2_rd cs p).
Proof. exact: @commit2_blames. Qed.
Lemma k_C90_commit2_errors : forall (E : pairing) (cs : codecs E) (p : room), elements_ok cs eats ->
  only_errors [:: r_com2 p; r_row p; r_fr p] (commit2_codec cs) (commit2_rd cs p).
Proof. exact: @commit2_errs. Qed.
Lemma k_C90_commit2_total_refuted : forall (E : pairing) (cs : codecs E) (p : room), elements_ok cs eats -> forall n,
  (0 < n < 2 ^ 64)%N -> ~~ r_com2 p n -> forall m v,
  (forall rest, commit2_rd cs p m v (le64 n ++ rest) = None) /\ exists e, de (commit2_codec cs) m v (le64 n) = DErr e.
Proof. move=> E cs p he n hn ho m v; split=> [rest|]; last exact: commit2_harmless he m v n hn.
by apply: commit2_falls ho; case/andP: hn. Qed.
Lemma k_C90_equproof_agrees : forall (E : pairing) (cs : codecs E) (p : room), agrees (equproof_codec cs) (equproof_rd cs p).
Proof. exact: @equproof_agrees. Qed.
Lemma k_C90_equproof_enough : forall (E : pairing) (cs : codecs E) (p : room) m v bs, all_rooms p all_lengths ->
  equproof_rd cs p m v bs = Some (de (equproof_codec cs) m v bs).
Proof. by move=> E cs p m v bs hp; exact: equproof_total. Qed.
Lemma k_C90_equproof_back : forall (E : pairing) (cs : codecs E) (p : room), elements_ok cs good_codec ->
  gets_back (fun x => equproof_fits x /\ equproof_room p x) (equproof_codec cs) (equproof_rd cs p).
Proof. exact: @equproof_gets. Qed.
Lemma k_C90_equproof_blame : forall (E : pairing) (cs : codecs E) (p : room), elements_ok cs eats ->
  blames [:: r_com2 p; r_com1 p; r_row p; r_fr p] (equproof_rd cs p).
Proof. exact: @equproof_blames. Qed.
Lemma k_C90_equproof_errors : forall (E : pairing) (cs : codecs E) (p : room), elements_ok cs eats ->
  only_errors [:: r_com2 p; r_com1 p; r_row p; r_fr p] (equproof_codec cs) (equproof_rd cs p).
Proof. exact: @equproof_errs. Qed.
Lemma k_C90_equproof_total_refuted : forall (E : pairing) (cs : codecs E) (p : room), elements_ok cs eats -> forall n,
  (0 < n < 2 ^ 64)%N -> ~~ r_com2 p n -> forall m v,
  (forall rest, equproof_rd cs p m v (le64 n ++ rest) = None) /\ exists e, de (equproof_codec cs) m v (le64 n) = DErr e.
Proof. move=> E cs p he n hn ho m v; split=> [rest|]; last exact: equproof_harmless he m v n hn.
by apply: equproof_falls ho; case/andP: hn. Qed.
Lemma k_C90_ppe_agrees : forall (E : pairing) (cs : codecs E) (p : room), agrees (ppe_codec cs) (ppe_rd cs p).
Proof. exact: @ppe_agrees. Qed.
Lemma k_C90_ppe_enough : forall (E : pairing) (cs : codecs E) (p : room) m v bs, all_rooms p all_lengths ->
  ppe_rd cs p m v bs = Some (de (ppe_codec cs) m v bs).
Proof. by move=> E cs p m v bs hp; exact: ppe_total. Qed.
Lemma k_C90_ppe_back : forall (E : pairing) (cs : codecs E) (p : room), elements_ok cs good_codec ->
  gets_back (fun x => ppe_fits x /\ ppe_room p x) (ppe_codec cs) (ppe_rd cs p).
Proof. exact: @ppe_gets. Qed.
Lemma k_C90_ppe_blame : forall (E : pairing) (cs : codecs E) (p : room), elements_ok cs eats ->
  blames [:: r_g1 p; r_g2 p; r_row p; r_fr p] (ppe_rd cs p).
Proof. exact: @ppe_blames. Qed.
Lemma k_C90_ppe_errors : forall (E : pairing) (cs : codecs E) (p : room), elements_ok cs eats ->
  only_errors [:: r_g1 p; r_g2 p; r_row p; r_fr p] (ppe_codec cs) (ppe_rd cs p).
Proof. exact: @ppe_errs. Qed.
Lemma k_C90_ppe_total_refuted : forall (E : pairing) (cs : codecs E) (p : room), elements_ok cs eats -> forall n,
  (0 < n < 2 ^ 64)%N -> ~~ r_g1 p n -> forall m v,
  (forall rest, ppe_rd cs p m v (le64 n ++ rest) = None) /\ exists e, de (ppe_codec cs) m v (le64 n) = DErr e.
Proof. move=> E cs p he n hn ho m v; split=> [rest|]; last exact: ppe_harmless he m v n hn.
by apply: ppe_falls ho; case/andP: hn. Qed.
Lemma k_C90_ms1_agrees : forall (E : pairing) (cs : codecs E) (p : room), agrees (ms1_codec cs) (ms1_rd cs p).
Proof. exact: @ms1_agrees. Qed.
Lemma k_C90_ms1_enough : forall (E : pairing) (cs : codecs E) (p : room) m v bs, all_rooms p all_lengths ->
  ms1_rd cs p m v bs = Some (de (ms1_codec cs) m v bs).
Proof. by move=> E cs p m v bs hp; exact: ms1_total. Qed.
Lemma k_C90_ms1_back : forall (E : pairing) (cs : codecs E) (p : room), elements_ok cs good_codec ->
  gets_back (fun x => ms1_fits x /\ ms1_room p x) (ms1_codec cs) (ms1_rd cs p).
Proof. exact: @ms1_gets. Qed.
Lemma k_C90_ms1_blame : forall (E : pairing) (cs : codecs E) (p : room), elements_ok cs eats ->
  blames [:: r_g1 p; r_fr p; r_row p] (ms1_rd cs p).
Proof. exact: @ms1_blames. Qed.
Lemma k_C90_ms1_errors : forall (E : pairing) (cs : codecs E) (p : room), elements_ok cs eats ->
  only_errors [:: r_g1 p; r_fr p; r_row p] (ms1_codec cs) (ms1_rd cs p).
Proof. exact: @ms1_errs. Qed.
Lemma k_C90_ms1_total_refuted : forall (E : pairing) (cs : codecs E) (p : room), elements_ok cs eats -> forall n,
  (0 < n < 2 ^ 64)%N -> ~~ r_g1 p n -> forall m v,
  (forall rest, ms1_rd cs p m v (le64 n ++ rest) = None) /\ exists e, de (ms1_codec cs) m v (le64 n) = DErr e.
Proof. move=> E cs p he n hn ho m v; split=> [rest|]; last exact: ms1_harmless he m v n hn.
by apply: ms1_falls ho; case/andP: hn. Qed.
Lemma k_C90_ms2_agrees : forall (E : pairing) (cs : codecs E) (p : room), agrees (ms2_codec cs) (ms2_rd cs p).
Proof. exact: @ms2_agrees. Qed.
Lemma k_C90_ms2_enough : forall (E : pairing) (cs : codecs E) (p : room) m v bs, all_rooms p all_lengths ->
  ms2_rd cs p m v bs = Some (de (ms2_codec cs) m v bs).
Proof. by move=> E cs p m v bs hp; exact: ms2_total. Qed.
Lemma k_C90_ms2_back : forall (E : pairing) (cs : codecs E) (p : room), elements_ok cs good_codec ->
  gets_back (fun x => ms2_fits x /\ ms2_room p x) (ms2_codec cs) (ms2_rd cs p).
Proof. exact: @ms2_gets. Qed.
Lemma k_C90_ms2_blame : forall (E : pairing) (cs : codecs E) (p : room), elements_ok cs eats ->
  blames [:: r_fr p; r_g2 p; r_row p] (ms2_rd cs p).
Proof. exact: @ms2_blames. Qed.
Lemma k_C90_ms2_errors : forall (E : pairing) (cs : codecs E) (p : room), elements_ok cs eats ->
  only_errors [:: r_fr p; r_g2 p; r_row p] (ms2_codec cs) (ms2_rd cs p).
Proof. exact: @ms2_errs. Qed.
Lemma k_C90_ms2_total_refuted : forall (E : pairing) (cs : codecs E) (p : room), elements_ok cs eats -> forall n,
  (0 < n < 2 ^ 64)%N -> ~~ r_fr p n -> forall m v,
  (forall rest, ms2_rd cs p m v (le64 n ++ rest) = None) /\ exists e, de (ms2_codec cs) m v (le64 n) = DErr e.
Proof. move=> E cs p he n hn ho m v; split=> [rest|]; last exact: ms2_harmless he m v n hn.
by apply: ms2_falls ho; case/andP: hn. Qed.
Lemma k_C90_quad_agrees : forall (E : pairing) (cs : codecs E) (p : room), agrees (quad_codec cs) (quad_rd cs p).
Proof. exact: @quad_agrees. Qed.
Lemma k_C90_quad_enough : forall (E : pairing) (cs : codecs E) (p : room) m v bs, all_rooms p all_lengths ->
  quad_rd cs p m v bs = Some (de (quad_codec cs) m v bs).
Proof. by move=> E cs p m v bs hp; exact: quad_total. Qed.
Lemma k_C90_quad_back : forall (E : pairing) (cs : codecs E) (p : room), elements_ok cs good_codec ->
  gets_back (fun x => quad_fits x /\ quad_room p x) (quad_codec cs) (quad_rd cs p).
Proof. exact: @quad_gets. Qed.
Lemma k_C90_quad_blame : forall (E : pairing) (cs : codecs E) (p : room), elements_ok cs eats ->
  blames [:: r_fr p; r_row p] (quad_rd cs p).
Proof. exact: @quad_blames. Qed.
Lemma k_C90_quad_errors : forall (E : pairing) (cs : codecs E) (p : room), elements_ok cs eats ->
  only_errors [:: r_fr p; r_row p] (quad_codec cs) (quad_rd cs p).
Proof. exact: @quad_errs. Qed.
Lemma k_C90_quad_total_refuted : forall (E : pairing) (cs : codecs E) (p : room), elements_ok cs eats -> forall n,
  (0 < n < 2 ^ 64)%N -> ~~ r_fr p n -> forall m v,
  (forall rest, quad_rd cs p m v (le64 n ++ rest) = None) /\ exists e, de (quad_codec cs) m v (le64 n) = DErr e.
Proof. move=> E cs p he n hn ho m v; split=> [rest|]; last exact: quad_harmless he m v n hn.
by apply: quad_falls ho; case/andP: hn. Qed.
Lemma k_C90_capacity : forall sz, (0 < sz)%N -> ~~ capacity sz (2 ^ 63).
Proof. by move=> sz h; rewrite /capacity -leqNgt leq_pmulr. Qed.
Lemma k_C90_receive : forall (E : pairing) (cs : codecs E) (p : room) (Q : Type) (cq : codec Q) (rq : reader Q)
  (verify : Q -> CProof E -> CRS E -> res bool) m v bs y, agrees cq rq ->
  receive_rd p cs rq verify m v bs = Some y -> y = receive cs cq verify m v bs.
Proof. exact: @receive_agrees. Qed.
Lemma k_C90_receive_sent : forall (E : pairing) (cs : codecs E) (p : room) (Q : Type) (cq : codec Q) (rq : reader Q)
  (verify : Q -> CProof E -> CRS E -> res bool) (D : Q -> Prop) m v q crs cx cy pf rest,
  elements_ok cs good_codec -> gets_back D cq rq -> D q ->
  crs_fits crs -> crs_room p crs -> commit1_fits cx -> commit1_room p cx -> commit2_fits cy -> commit2_room p cy ->
  equproof_fits pf -> equproof_room p pf ->
  receive_rd p cs rq verify m v (sent cs cq m q crs cx cy pf ++ rest) = Some (DOk (verify q (mkCProof cx cy [:: pf]) crs) rest).
Proof. move=> E cs p Q cq rq verify D m v q crs cx cy pf rest; exact: receive_gets. Qed.
