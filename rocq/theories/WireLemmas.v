(** Serialization over affine points. *)
From mathcomp Require Import all_ssreflect all_algebra.
From Coq Require Import Strings.Byte.
From Verif Require Import Base Group DataStructures Generator Commit Statement Prove Verify Spec Codec SpecCodec Ark SpecArk ArkCodec SpecWire CodecLemmas CodecProps ArkRel.
Set Implicit Arguments.
Unset Strict Implicit.
Unset Printing Implicit Defensive.
Import GRing.Theory.
Local Open Scope ring_scope.

Lemma exists_rseq X Y (r : X -> Y -> Prop) s : List.Forall (fun a => exists x, r x a) s <-> exists xs, rseq r xs s.
Proof.
split; first by elim=> [|a {}s [x hx] _ [xs h]]; [exists [::] | exists (x :: xs)].
by case=> xs; elim: xs s => [|x xs IH] [|a s] //= [hx hs]; constructor; [exists x | exact: IH].
Qed.

Lemma exists_rcom (F : fieldType) (G : lmodType F) (C : curve F) (r : repr G C) (d : ark_com C) :
  (exists x, ra r x d.1) /\ (exists x, ra r x d.2) <-> exists c, rcom r c d.
Proof. by split=> [[[x hx] [y hy]]|[[x y] [/= hx hy]]]; [exists (x, y) | split; [exists x | exists y]]. Qed.

Lemma validates_iff T (P Q : T -> Prop) c : (forall x, P x -> Q x) -> validates P c -> validates Q c.
Proof.
move=> h [h1 h2]; split=> [m bs x r /h1/h //|s /h2 hs].
by elim: hs => // x l hx _; constructor=> //; exact: h.
Qed.
Lemma validates_any T (c : codec T) : validates any c.
Proof. by split=> // s _; exact: forall_any. Qed.

Section Wire.
Context {E : pairing} {A : ark (Fr E)} {r1 : repr (G1 E) (C1 A)} {r2 : repr (G2 E) (C2 A)} {rt : GT E -> out A -> Prop}.
Context {cs : ark_codecs A}.
Hypothesis H : transports r1 r2 rt cs.
Local Notation D1 := (fun a => exists x, ra r1 x a).
Local Notation D2 := (fun a => exists x, ra r2 x a).
Local Notation DT := (fun a => exists x, rt x a).
Local Notation K1 := (fun d => exists c, rcom r1 c d).
Local Notation K2 := (fun d => exists c, rcom r2 c d).

Lemma com1_members : reads_members K1 (ark_com1_codec cs).
Proof.
have [hb ha hv] := tr_c1 H; split.
- by apply: (struct_back _ _ (pair_back hb hb)) => [[]|d /exists_rcom].
- by apply: (struct_accepts _ _ (pair_accepts ha ha)) => d /exists_rcom.
- by apply: (struct_validates _ _ (pair_validates hv hv)) => [[]|d /exists_rcom].
Qed.
Lemma com2_members : reads_members K2 (ark_com2_codec cs).
Proof.
have [hb ha hv] := tr_c2 H; split.
- by apply: (struct_back _ _ (pair_back hb hb)) => [[]|d /exists_rcom].
- by apply: (struct_accepts _ _ (pair_accepts ha ha)) => d /exists_rcom.
- by apply: (struct_validates _ _ (pair_validates hv hv)) => [[]|d /exists_rcom].
Qed.

Lemma vec_members T (D : T -> Prop) c : reads_members D c -> reads_back (fun s => short s /\ List.Forall D s) (vec_codec c) /\
  validates (List.Forall D) (vec_codec c).
Proof. by case=> hb ha hv; split; [exact: vec_back | exact: vec_validates]. Qed.
Lemma mv1 : reads_back (fun s => short s /\ List.Forall D1 s) (vec_codec (ac_c1 cs)) /\ validates (List.Forall D1) (vec_codec (ac_c1 cs)).
Proof. exact: vec_members (tr_c1 H). Qed.
Lemma mv2 : reads_back (fun s => short s /\ List.Forall D2 s) (vec_codec (ac_c2 cs)) /\ validates (List.Forall D2) (vec_codec (ac_c2 cs)).
Proof. exact: vec_members (tr_c2 H). Qed.
Lemma mvc1 : reads_back (fun s => short s /\ List.Forall K1 s) (vec_codec (ark_com1_codec cs)) /\ validates (List.Forall K1) (vec_codec (ark_com1_codec cs)).
Proof. exact: vec_members com1_members. Qed.
Lemma mvc2 : reads_back (fun s => short s /\ List.Forall K2 s) (vec_codec (ark_com2_codec cs)) /\ validates (List.Forall K2) (vec_codec (ark_com2_codec cs)).
Proof. exact: vec_members com2_members. Qed.
Lemma mc1 : reads_back D1 (ac_c1 cs) /\ validates D1 (ac_c1 cs). Proof. by case: (tr_c1 H). Qed.
Lemma mc2 : reads_back D2 (ac_c2 cs) /\ validates D2 (ac_c2 cs). Proof. by case: (tr_c2 H). Qed.
Lemma mout : reads_back DT (ac_out cs) /\ validates DT (ac_out cs). Proof. by case: (tr_out H). Qed.
Lemma mf : reads_back any (ac_fr cs) /\ validates any (ac_fr cs). Proof. by split; [case: (tr_fr H) | exact: validates_any]. Qed.
Lemma mvf : reads_back short (vec_codec (ac_fr cs)) /\ validates any (vec_codec (ac_fr cs)).
Proof. by split; [exact: (good_vec (tr_fr H)) | exact: validates_any]. Qed.
Lemma mmf : reads_back short_mat (mat_codec (ac_fr cs)) /\ validates any (mat_codec (ac_fr cs)).
Proof. by split; [exact: (good_mat (tr_fr H)) | exact: validates_any]. Qed.
Lemma mty : reads_back any equtype_codec /\ validates any equtype_codec.
Proof. by split; [exact: equtype_back | exact: validates_any]. Qed.

Lemma crs_represent : validates (fun d => exists c : CRS E, rcrs r1 r2 rt c d) (ark_crs_codec cs).
Proof.
have [m0b m0v] := mvc1; have [m1b m1v] := mvc2; have [m2b m2v] := mc1; have [m3b m3v] := mc2; have [m4b m4v] := mout; 
apply: (struct_validates _ _ (pair_validates m0v (pair_validates m1v (pair_validates m2v (pair_validates m3v m4v))))) => [[? [? [? [? ?]]]]|[a0 a1 a2 a3 a4] /= [z0 [z1 [z2 [z3 z4]]]]] //.
move/exists_rseq: z0 => [x0 h0]; move/exists_rseq: z1 => [x1 h1]; case: z2 => x2 h2; case: z3 => x3 h3; case: z4 => x4 h4; by exists (mkCRS x0 x1 x2 x3 x4).
Qed.
Lemma crs_roundtrip : reads_back (fun d => (exists c : CRS E, rcrs r1 r2 rt c d) /\ ark_crs_fits d) (ark_crs_codec cs).
Proof.
have [m0b m0v] := mvc1; have [m1b m1v] := mvc2; have [m2b m2v] := mc1; have [m3b m3v] := mc2; have [m4b m4v] := mout; 
apply: (struct_back _ _ (pair_back m0b (pair_back m1b (pair_back m2b (pair_back m3b m4b))))); [by case | move=> d [[c [h0 h1 h2 h3 h4]] [s0 s1]]].
split; [(split; [exact: s0 | apply/exists_rseq; eexists; exact: h0]) | split; [(split; [exact: s1 | apply/exists_rseq; eexists; exact: h1]) | split; [(eexists; exact: h2) | split; [(eexists; exact: h3) | (eexists; exact: h4)]]]].
Qed.

Lemma commit1_represent : validates (fun d => exists c : Commit1 E, rcommit r1 c d) (ark_commit1_codec cs).
Proof.
have [m0b m0v] := mvc1; have [m1b m1v] := mmf; 
apply: (struct_validates _ _ (pair_validates m0v m1v)) => [[? ?]|[a0 a1] /= [z0 z1]] //.
move/exists_rseq: z0 => [x0 h0]; by exists (mkCommit x0 a1).
Qed.
Lemma commit1_roundtrip : reads_back (fun d => (exists c : Commit1 E, rcommit r1 c d) /\ ark_commit1_fits d) (ark_commit1_codec cs).
Proof.
have [m0b m0v] := mvc1; have [m1b m1v] := mmf; 
apply: (struct_back _ _ (pair_back m0b m1b)); [by case | move=> d [[c [h0 h1]] [s0 s1]]].
split; [(split; [exact: s0 | apply/exists_rseq; eexists; exact: h0]) | exact: s1].
Qed.

Lemma commit2_represent : validates (fun d => exists c : Commit2 E, rcommit r2 c d) (ark_commit2_codec cs).
Proof.
have [m0b m0v] := mvc2; have [m1b m1v] := mmf; 
apply: (struct_validates _ _ (pair_validates m0v m1v)) => [[? ?]|[a0 a1] /= [z0 z1]] //.
move/exists_rseq: z0 => [x0 h0]; by exists (mkCommit x0 a1).
Qed.
Lemma commit2_roundtrip : reads_back (fun d => (exists c : Commit2 E, rcommit r2 c d) /\ ark_commit2_fits d) (ark_commit2_codec cs).
Proof.
have [m0b m0v] := mvc2; have [m1b m1v] := mmf; 
apply: (struct_back _ _ (pair_back m0b m1b)); [by case | move=> d [[c [h0 h1]] [s0 s1]]].
split; [(split; [exact: s0 | apply/exists_rseq; eexists; exact: h0]) | exact: s1].
Qed.

Lemma equproof_represent : validates (fun d => exists c : EquProof E, requproof r1 r2 c d) (ark_equproof_codec cs).
Proof.
have [m0b m0v] := mvc2; have [m1b m1v] := mvc1; have [m2b m2v] := mty; have [m3b m3v] := mmf; 
apply: (struct_validates _ _ (pair_validates m0v (pair_validates m1v (pair_validates m2v m3v)))) => [[? [? [? ?]]]|[a0 a1 a2 a3] /= [z0 [z1 [z2 z3]]]] //.
move/exists_rseq: z0 => [x0 h0]; move/exists_rseq: z1 => [x1 h1]; by exists (mkEquProof x0 x1 a2 a3).
Qed.
Lemma equproof_roundtrip : reads_back (fun d => (exists c : EquProof E, requproof r1 r2 c d) /\ ark_equproof_fits d) (ark_equproof_codec cs).
Proof.
have [m0b m0v] := mvc2; have [m1b m1v] := mvc1; have [m2b m2v] := mty; have [m3b m3v] := mmf; 
apply: (struct_back _ _ (pair_back m0b (pair_back m1b (pair_back m2b m3b)))); [by case | move=> d [[c [h0 h1 h2 h3]] [s0 [s1 s3]]]].
split; [(split; [exact: s0 | apply/exists_rseq; eexists; exact: h0]) | split; [(split; [exact: s1 | apply/exists_rseq; eexists; exact: h1]) | split; [exact: Logic.I | exact: s3]]].
Qed.

Lemma ppe_represent : validates (fun d => exists c : PPE E, rppe r1 r2 rt c d) (ark_ppe_codec cs).
Proof.
have [m0b m0v] := mv1; have [m1b m1v] := mv2; have [m2b m2v] := mmf; have [m3b m3v] := mout; 
apply: (struct_validates _ _ (pair_validates m0v (pair_validates m1v (pair_validates m2v m3v)))) => [[? [? [? ?]]]|[a0 a1 a2 a3] /= [z0 [z1 [z2 z3]]]] //.
move/exists_rseq: z0 => [x0 h0]; move/exists_rseq: z1 => [x1 h1]; case: z3 => x3 h3; by exists (mkPPE x0 x1 a2 x3).
Qed.
Lemma ppe_roundtrip : reads_back (fun d => (exists c : PPE E, rppe r1 r2 rt c d) /\ ark_ppe_fits d) (ark_ppe_codec cs).
Proof.
have [m0b m0v] := mv1; have [m1b m1v] := mv2; have [m2b m2v] := mmf; have [m3b m3v] := mout; 
apply: (struct_back _ _ (pair_back m0b (pair_back m1b (pair_back m2b m3b)))); [by case | move=> d [[c [h0 h1 h2 h3]] [s0 [s1 s2]]]].
split; [(split; [exact: s0 | apply/exists_rseq; eexists; exact: h0]) | split; [(split; [exact: s1 | apply/exists_rseq; eexists; exact: h1]) | split; [exact: s2 | (eexists; exact: h3)]]].
Qed.

Lemma ms1_represent : validates (fun d => exists c : MSMEG1 E, rms1 r1 c d) (ark_ms1_codec cs).
Proof.
have [m0b m0v] := mv1; have [m1b m1v] := mvf; have [m2b m2v] := mmf; have [m3b m3v] := mc1; 
apply: (struct_validates _ _ (pair_validates m0v (pair_validates m1v (pair_validates m2v m3v)))) => [[? [? [? ?]]]|[a0 a1 a2 a3] /= [z0 [z1 [z2 z3]]]] //.
move/exists_rseq: z0 => [x0 h0]; case: z3 => x3 h3; by exists (mkMSMEG1 x0 a1 a2 x3).
Qed.
Lemma ms1_roundtrip : reads_back (fun d => (exists c : MSMEG1 E, rms1 r1 c d) /\ ark_ms1_fits d) (ark_ms1_codec cs).
Proof.
have [m0b m0v] := mv1; have [m1b m1v] := mvf; have [m2b m2v] := mmf; have [m3b m3v] := mc1; 
apply: (struct_back _ _ (pair_back m0b (pair_back m1b (pair_back m2b m3b)))); [by case | move=> d [[c [h0 h1 h2 h3]] [s0 [s1 s2]]]].
split; [(split; [exact: s0 | apply/exists_rseq; eexists; exact: h0]) | split; [exact: s1 | split; [exact: s2 | (eexists; exact: h3)]]].
Qed.

Lemma ms2_represent : validates (fun d => exists c : MSMEG2 E, rms2 r2 c d) (ark_ms2_codec cs).
Proof.
have [m0b m0v] := mvf; have [m1b m1v] := mv2; have [m2b m2v] := mmf; have [m3b m3v] := mc2; 
apply: (struct_validates _ _ (pair_validates m0v (pair_validates m1v (pair_validates m2v m3v)))) => [[? [? [? ?]]]|[a0 a1 a2 a3] /= [z0 [z1 [z2 z3]]]] //.
move/exists_rseq: z1 => [x1 h1]; case: z3 => x3 h3; by exists (mkMSMEG2 a0 x1 a2 x3).
Qed.
Lemma ms2_roundtrip : reads_back (fun d => (exists c : MSMEG2 E, rms2 r2 c d) /\ ark_ms2_fits d) (ark_ms2_codec cs).
Proof.
have [m0b m0v] := mvf; have [m1b m1v] := mv2; have [m2b m2v] := mmf; have [m3b m3v] := mc2; 
apply: (struct_back _ _ (pair_back m0b (pair_back m1b (pair_back m2b m3b)))); [by case | move=> d [[c [h0 h1 h2 h3]] [s0 [s1 s2]]]].
split; [exact: s0 | split; [(split; [exact: s1 | apply/exists_rseq; eexists; exact: h1]) | split; [exact: s2 | (eexists; exact: h3)]]].
Qed.

Lemma quad_represent : validates (fun d => exists c : QuadEqu E, rquad c d) (ark_quad_codec cs).
Proof.
have [m0b m0v] := mvf; have [m1b m1v] := mvf; have [m2b m2v] := mmf; have [m3b m3v] := mf; 
apply: (struct_validates _ _ (pair_validates m0v (pair_validates m1v (pair_validates m2v m3v)))) => [[? [? [? ?]]]|[a0 a1 a2 a3] /= [z0 [z1 [z2 z3]]]] //.
by exists (mkQuadEqu a0 a1 a2 a3).
Qed.
Lemma quad_roundtrip : reads_back (fun d => (exists c : QuadEqu E, rquad c d) /\ ark_quad_fits d) (ark_quad_codec cs).
Proof.
have [m0b m0v] := mvf; have [m1b m1v] := mvf; have [m2b m2v] := mmf; have [m3b m3v] := mf; 
apply: (struct_back _ _ (pair_back m0b (pair_back m1b (pair_back m2b m3b)))); [by case | move=> d [[c [h0 h1 h2 h3]] [s0 [s1 s2]]]].
split; [exact: s0 | split; [exact: s1 | split; [exact: s2 | exact: Logic.I]]].
Qed.

Lemma read_represent m bs p' rest : ark_read cs m VYes bs = DOk p' rest -> exists p, rcproof r1 r2 p p'.
Proof.
case/dbind_ok=> cx [? /(proj1 commit1_represent)[c hc]] /dbind_ok[cy [? /(proj1 commit2_represent)[d hd]]].
case/dbind_ok=> pf [? /(proj1 equproof_represent)[f hf]] [<- _].
by exists (mkCProof c d [:: f]); split.
Qed.

Lemma read_send m v p p' : rcproof r1 r2 p p' -> size (ark_equ_proofs p') = 1%N ->
  ark_commit1_fits (ark_xcoms p') -> ark_commit2_fits (ark_ycoms p') -> List.Forall ark_equproof_fits (ark_equ_proofs p') ->
  ark_read cs m v (ark_send cs m p') = DOk p' [::].
Proof.
case: p' => cx cy [|pf [|? ?]] //; case: p => x y ps [/= hx hy hp] _ fx fy /List.Forall_cons_iff[ff _].
have [f hf] : exists f, requproof r1 r2 f pf by case: ps hp => [|f ?] // [hf _]; exists f.
rewrite /ark_read /ark_send [ark_xcoms _]/= [ark_ycoms _]/= [ark_equ_proofs _]/=.
rewrite commit1_roundtrip; last by split; [exists x | exact: fx].
rewrite /dbind commit2_roundtrip; last by split; [exists y | exact: fy].
rewrite /flatten [foldr _ _ _]/= equproof_roundtrip; last by split; [exists f | exact: ff].
by [].
Qed.
End Wire.
