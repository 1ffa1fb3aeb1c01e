(** Proofs that are sent as bytes. *)
From mathcomp Require Import all_ssreflect all_algebra.
From Coq Require Import Strings.Byte.
From Verif Require Import Base Group DataStructures Generator Commit Statement Prove Verify Spec.
From Verif Require Import SpecFormula FormulaProps Codec SpecCodec Ark SpecArk ArkRel ArkLemmas ArkTransfer ArkCodec SpecWire WireLemmas.
Set Implicit Arguments.
Unset Strict Implicit.
Unset Printing Implicit Defensive.
Import GRing.Theory.
Local Open Scope ring_scope.

Section Sizes.
Context {E : pairing} {A : ark (Fr E)} {r1 : repr (G1 E) (C1 A)} {r2 : repr (G2 E) (C2 A)}.

Lemma rshort X Y (r : X -> Y -> Prop) s t : rseq r s t -> short s -> short t.
Proof. by move=> h; rewrite /short (rsize h). Qed.
Lemma small_short T (s : seq T) n : (n < 64)%N -> size s = n -> short s.
Proof. by move=> h e; rewrite /short e; apply: (ltn_trans h); exact: ltn_expl. Qed.
Lemma table_short T m n (f : nat -> nat -> T) k : (n < 64)%N -> (m < 2 ^ k)%N -> (k <= 64)%N -> short_mat (table m n f).
Proof.
move=> hn hm hk; split; first by rewrite /short size_mkseq; apply: (leq_trans hm); rewrite leq_exp2l.
rewrite /table /mkseq; elim: (iota 0 m) => [|i s IH]; constructor=> //.
by apply: (small_short hn); rewrite size_mkseq.
Qed.
Lemma table_fits T m n (f : nat -> nat -> T) : (n < 64)%N -> (m < 2 ^ 64)%N -> short_mat (table m n f).
Proof. by move=> hn hm; exact: (table_short f hn hm (leqnn _)). Qed.
Lemma table_fits' T U V n (f : nat -> nat -> T) (g : U -> V) X : (n < 64)%N -> short X -> short_mat (table (size (map g X)) n f).
Proof. by move=> hn hX; apply: table_fits hn _; rewrite size_map; exact: hX. Qed.
Lemma lt2 m : (m < 3)%N -> (m < 2 ^ 64)%N.
Proof. by move=> h; apply: (leq_trans h); apply: (@leq_trans (2 ^ 2)%N) => //; rewrite leq_exp2l. Qed.

Lemma fits_rel (p : CProof E) (p' : ark_CProof A) : rcproof r1 r2 p p' -> size (equ_proofs p) = 1%N ->
  commit1_fits (xcoms p) -> commit2_fits (ycoms p) -> List.Forall equproof_fits (equ_proofs p) ->
  [/\ size (ark_equ_proofs p') = 1%N, ark_commit1_fits (ark_xcoms p'), ark_commit2_fits (ark_ycoms p')
    & List.Forall ark_equproof_fits (ark_equ_proofs p')].
Proof.
case=> -[h1 h2] [h3 h4] h5 e [f1 f2] [f3 f4] f5; split.
- by rewrite -(rsize h5).
- by split; [exact: rshort h1 f1 | rewrite -h2].
- by split; [exact: rshort h3 f3 | rewrite -h4].
- elim: (equ_proofs p) (ark_equ_proofs p') h5 f5 {e} => [|f s IH] [|g t] //= [[k1 k2 _ k4] hs] /List.Forall_cons_iff[[g1 [g2 g3]] gs].
  by constructor; [split; [exact: rshort k1 g1 | split; [exact: rshort k2 g2 | rewrite -k4]] | exact: IH].
Qed.
End Sizes.

Section Wire.
Context {E : pairing} {A : ark (Fr E)} {r1 : repr (G1 E) (C1 A)} {r2 : repr (G2 E) (C2 A)} {rt : GT E -> out A -> Prop}.
Hypothesis I : implements r1 r2 rt.

Lemma ppe_honest_fits (R : rng E) sch (q : PPE E) (X : seq (G1 E)) (Y : seq (G2 E)) crs (s s' : rst R) p : valid_sched sch ->
  ppe_commit_and_prove sch q X Y crs s = Ok (p, s') -> short X -> short Y ->
  [/\ size (equ_proofs p) = 1%N, commit1_fits (xcoms p), commit2_fits (ycoms p) & List.Forall equproof_fits (equ_proofs p)].
Proof.
move=> vs; rewrite FormulaProps.ppe_cap_total //; cbv zeta => e hX hY; have [-> _] := checked_ok e; clear e; split; first by [].
- by split; [rewrite /short size_mkseq size_map; exact: hX | exact: table_fits'].
- by split; [rewrite /short size_mkseq size_map; exact: hY | exact: table_fits'].
- apply: List.Forall_cons; last exact: List.Forall_nil.
  split; [by apply: (@small_short _ _ 2); last exact: size_mkseq | split; [by apply: (@small_short _ _ 2); last exact: size_mkseq | ]].
  by apply: table_fits; [ | apply: lt2].
Qed.

Lemma ppe_wire_decides cs (R' : ark_rng A) sch sch' (q : PPE E) f (X : seq (G1 E)) (Y : seq (G2 E)) a b crs d (t : ark_rst R') :
  bilinear E -> valid_sched sch -> valid_sched sch' -> transports r1 r2 rt cs ->
  rppe r1 r2 rt q f -> rseq (ra r1) X a -> rseq (ra r2) Y b -> rcrs r1 r2 rt crs d ->
  (0 < size X)%N -> (0 < size Y)%N -> short X -> short Y -> ppe_wf q (size X) (size Y) -> two_keys crs -> 
  exists p t' o, [/\ ark_ppe_commit_and_prove sch f a b d t = Ok (p, t'),
    forall m v, ark_check cs (fun p => ark_ppe_verify sch' f p d) m v (ark_send cs m p) = Some (Ok o) & o <-> ppe_holds q X Y].
Proof.
move=> hb vs vs' hc hq hx hy hK sx sy lx ly hwf htk .
have [p [t' [o [h1 h2 h3]]]] := ppe_ark_decides I t hb vs vs' hq hx hy hK sx sy hwf htk .
exists p, t', o; split; [exact: h1 | | exact: h3].
move: (rppe_commit_and_prove I (@scalars_of_alike _ _ 0 0 R') sch hq hx hy hK (erefl t)).
rewrite h1; case h : (ppe_commit_and_prove _ _ _ _ _ _) => [[p0 s0]|e] // [hp _] m v.
have [w1 w2 w3 w4] := ppe_honest_fits vs h lx ly.
have [j1 j2 j3 j4] := fits_rel hp w1 w2 w3 w4.
by rewrite /ark_check (read_send hc m v hp j1 j2 j3 j4) h2.
Qed.

Lemma ppe_wire_sound (R' : ark_rng A) sch (t t' : ark_rst R') d P1 P2 :
  bilinear E -> valid_sched sch -> ark_generate_crs t = (d, t') ->
  rp r1 P1 (ark_rand_g1 t).1 -> rp r2 P2 (ark_rand_g2 (ark_rand_g1 t).2).1 -> 
  exists (ex1 : Com1 E -> G1 E) (ex2 : Com2 E -> G2 E),
  [/\ forall (R2 : ark_rng A) X a (z z' : ark_rst R2) c c', rseq (ra r1) X a -> ark_batch_commit_G1 a d z = Ok (c', z') ->
        rseq (rcom r1) c (ark_coms c') -> map ex1 c = X,
      forall (R2 : ark_rng A) Y b (z z' : ark_rst R2) c c', rseq (ra r2) Y b -> ark_batch_commit_G2 b d z = Ok (c', z') ->
        rseq (rcom r2) c (ark_coms c') -> map ex2 c = Y
    & forall cs q f m bs, transports r1 r2 rt cs -> rppe r1 r2 rt q f ->
        ark_check cs (fun p => ark_ppe_verify sch f p d) m VYes bs = Some (Ok true) ->
        exists p p', [/\ ark_read cs m VYes bs = DOk p' [::], rcproof r1 r2 p p'
          & ppe_holds q (map ex1 (coms (xcoms p))) (map ex2 (coms (ycoms p)))]].
Proof.
move=> hb vs hd h1 h2 ; have [ex1 [ex2 [k1 k2 k3]]] := ppe_ark_sound I hb vs hd h1 h2 .
exists ex1, ex2; split; [exact: k1 | exact: k2 | move=> cs q f m bs hc hq].
rewrite /ark_check; case hr : (ark_read _ _ _ _) => [p' [|? ?]|] // [hv].
have [p hp] := read_represent hc hr; exists p, p'; split=> //; exact: k3 hq hp hv.
Qed.

Lemma ms1_honest_fits (R : rng E) sch (q : MSMEG1 E) (X : seq (G1 E)) (Y : seq (Fr E)) crs (s s' : rst R) p : valid_sched sch ->
  ms1_commit_and_prove sch q X Y crs s = Ok (p, s') -> short X -> short Y ->
  [/\ size (equ_proofs p) = 1%N, commit1_fits (xcoms p), commit2_fits (ycoms p) & List.Forall equproof_fits (equ_proofs p)].
Proof.
move=> vs; rewrite FormulaProps.ms1_cap_total //; cbv zeta => e hX hY; have [-> _] := checked_ok e; clear e; split; first by [].
- by split; [rewrite /short size_mkseq size_map; exact: hX | exact: table_fits'].
- by split; [rewrite /short size_mkseq size_map; exact: hY | exact: table_fits'].
- apply: List.Forall_cons; last exact: List.Forall_nil.
  split; [by apply: (@small_short _ _ 2); last exact: size_mkseq | split; [by apply: (@small_short _ _ 1); last exact: size_mkseq | ]].
  by apply: table_fits; [ | apply: lt2].
Qed.

Lemma ms1_wire_decides cs (R' : ark_rng A) sch sch' (q : MSMEG1 E) f (X : seq (G1 E)) (Y : seq (Fr E)) a crs d (t : ark_rst R') :
  bilinear E -> nondegenerate E -> valid_sched sch -> valid_sched sch' -> transports r1 r2 rt cs ->
  rms1 r1 q f -> rseq (ra r1) X a -> rcrs r1 r2 rt crs d ->
  (0 < size X)%N -> (0 < size Y)%N -> short X -> short Y -> ms1_wf q (size X) (size Y) -> two_keys crs -> v2 crs + (0, g2_gen crs) != 0 ->
  exists p t' o, [/\ ark_ms1_commit_and_prove sch f a Y d t = Ok (p, t'),
    forall m v, ark_check cs (fun p => ark_ms1_verify sch' f p d) m v (ark_send cs m p) = Some (Ok o) & o <-> ms1_holds q X Y].
Proof.
move=> hb hn vs vs' hc hq hx hK sx sy lx ly hwf htk k1.
have [p [t' [o [h1 h2 h3]]]] := ms1_ark_decides I t hb hn vs vs' hq hx hK sx sy hwf htk k1.
exists p, t', o; split; [exact: h1 | | exact: h3].
move: (rms1_commit_and_prove I (@scalars_of_alike _ _ 0 0 R') sch Y hq hx hK (erefl t)).
rewrite h1; case h : (ms1_commit_and_prove _ _ _ _ _ _) => [[p0 s0]|e] // [hp _] m v.
have [w1 w2 w3 w4] := ms1_honest_fits vs h lx ly.
have [j1 j2 j3 j4] := fits_rel hp w1 w2 w3 w4.
by rewrite /ark_check (read_send hc m v hp j1 j2 j3 j4) h2.
Qed.

Lemma ms1_wire_sound (R' : ark_rng A) sch (t t' : ark_rst R') d P1 P2 :
  bilinear E -> valid_sched sch -> ark_generate_crs t = (d, t') ->
  rp r1 P1 (ark_rand_g1 t).1 -> rp r2 P2 (ark_rand_g2 (ark_rand_g1 t).2).1 -> nondegenerate E -> cyclic (G2 E) -> P2 != 0 -> 
  exists (ex1 : Com1 E -> G1 E) (ex2 : Com2 E -> Fr E),
  [/\ forall (R2 : ark_rng A) X a (z z' : ark_rst R2) c c', rseq (ra r1) X a -> ark_batch_commit_G1 a d z = Ok (c', z') ->
        rseq (rcom r1) c (ark_coms c') -> map ex1 c = X,
      forall (R2 : ark_rng A) Y (z z' : ark_rst R2) c c', ark_batch_commit_scalar_to_B2 Y d z = Ok (c', z') ->
        rseq (rcom r2) c (ark_coms c') -> map ex2 c = Y
    & forall cs q f m bs, transports r1 r2 rt cs -> rms1 r1 q f ->
        ark_check cs (fun p => ark_ms1_verify sch f p d) m VYes bs = Some (Ok true) ->
        exists p p', [/\ ark_read cs m VYes bs = DOk p' [::], rcproof r1 r2 p p'
          & ms1_holds q (map ex1 (coms (xcoms p))) (map ex2 (coms (ycoms p)))]].
Proof.
move=> hb vs hd h1 h2 hn hc2 hP2; have [ex1 [ex2 [k1 k2 k3]]] := ms1_ark_sound I hb vs hd h1 h2 hn hc2 hP2.
exists ex1, ex2; split; [exact: k1 | exact: k2 | move=> cs q f m bs hc hq].
rewrite /ark_check; case hr : (ark_read _ _ _ _) => [p' [|? ?]|] // [hv].
have [p hp] := read_represent hc hr; exists p, p'; split=> //; exact: k3 hq hp hv.
Qed.

Lemma ms2_honest_fits (R : rng E) sch (q : MSMEG2 E) (X : seq (Fr E)) (Y : seq (G2 E)) crs (s s' : rst R) p : valid_sched sch ->
  ms2_commit_and_prove sch q X Y crs s = Ok (p, s') -> short X -> short Y ->
  [/\ size (equ_proofs p) = 1%N, commit1_fits (xcoms p), commit2_fits (ycoms p) & List.Forall equproof_fits (equ_proofs p)].
Proof.
move=> vs; rewrite FormulaProps.ms2_cap_total //; cbv zeta => e hX hY; have [-> _] := checked_ok e; clear e; split; first by [].
- by split; [rewrite /short size_mkseq size_map; exact: hX | exact: table_fits'].
- by split; [rewrite /short size_mkseq size_map; exact: hY | exact: table_fits'].
- apply: List.Forall_cons; last exact: List.Forall_nil.
  split; [by apply: (@small_short _ _ 1); last exact: size_mkseq | split; [by apply: (@small_short _ _ 2); last exact: size_mkseq | ]].
  by apply: table_fits; [ | apply: lt2].
Qed.

Lemma ms2_wire_decides cs (R' : ark_rng A) sch sch' (q : MSMEG2 E) f (X : seq (Fr E)) (Y : seq (G2 E)) b crs d (t : ark_rst R') :
  bilinear E -> nondegenerate E -> valid_sched sch -> valid_sched sch' -> transports r1 r2 rt cs ->
  rms2 r2 q f -> rseq (ra r2) Y b -> rcrs r1 r2 rt crs d ->
  (0 < size X)%N -> (0 < size Y)%N -> short X -> short Y -> ms2_wf q (size X) (size Y) -> two_keys crs -> u2 crs + (0, g1_gen crs) != 0 ->
  exists p t' o, [/\ ark_ms2_commit_and_prove sch f X b d t = Ok (p, t'),
    forall m v, ark_check cs (fun p => ark_ms2_verify sch' f p d) m v (ark_send cs m p) = Some (Ok o) & o <-> ms2_holds q X Y].
Proof.
move=> hb hn vs vs' hc hq hy hK sx sy lx ly hwf htk k1.
have [p [t' [o [h1 h2 h3]]]] := ms2_ark_decides I t hb hn vs vs' hq hy hK sx sy hwf htk k1.
exists p, t', o; split; [exact: h1 | | exact: h3].
move: (rms2_commit_and_prove I (@scalars_of_alike _ _ 0 0 R') sch X hq hy hK (erefl t)).
rewrite h1; case h : (ms2_commit_and_prove _ _ _ _ _ _) => [[p0 s0]|e] // [hp _] m v.
have [w1 w2 w3 w4] := ms2_honest_fits vs h lx ly.
have [j1 j2 j3 j4] := fits_rel hp w1 w2 w3 w4.
by rewrite /ark_check (read_send hc m v hp j1 j2 j3 j4) h2.
Qed.

Lemma ms2_wire_sound (R' : ark_rng A) sch (t t' : ark_rst R') d P1 P2 :
  bilinear E -> valid_sched sch -> ark_generate_crs t = (d, t') ->
  rp r1 P1 (ark_rand_g1 t).1 -> rp r2 P2 (ark_rand_g2 (ark_rand_g1 t).2).1 -> nondegenerate E -> cyclic (G1 E) -> P1 != 0 -> 
  exists (ex1 : Com1 E -> Fr E) (ex2 : Com2 E -> G2 E),
  [/\ forall (R2 : ark_rng A) X (z z' : ark_rst R2) c c', ark_batch_commit_scalar_to_B1 X d z = Ok (c', z') ->
        rseq (rcom r1) c (ark_coms c') -> map ex1 c = X,
      forall (R2 : ark_rng A) Y b (z z' : ark_rst R2) c c', rseq (ra r2) Y b -> ark_batch_commit_G2 b d z = Ok (c', z') ->
        rseq (rcom r2) c (ark_coms c') -> map ex2 c = Y
    & forall cs q f m bs, transports r1 r2 rt cs -> rms2 r2 q f ->
        ark_check cs (fun p => ark_ms2_verify sch f p d) m VYes bs = Some (Ok true) ->
        exists p p', [/\ ark_read cs m VYes bs = DOk p' [::], rcproof r1 r2 p p'
          & ms2_holds q (map ex1 (coms (xcoms p))) (map ex2 (coms (ycoms p)))]].
Proof.
move=> hb vs hd h1 h2 hn hc1 hP1; have [ex1 [ex2 [k1 k2 k3]]] := ms2_ark_sound I hb vs hd h1 h2 hn hc1 hP1.
exists ex1, ex2; split; [exact: k1 | exact: k2 | move=> cs q f m bs hc hq].
rewrite /ark_check; case hr : (ark_read _ _ _ _) => [p' [|? ?]|] // [hv].
have [p hp] := read_represent hc hr; exists p, p'; split=> //; exact: k3 hq hp hv.
Qed.

Lemma quad_honest_fits (R : rng E) sch (q : QuadEqu E) (X : seq (Fr E)) (Y : seq (Fr E)) crs (s s' : rst R) p : valid_sched sch ->
  quad_commit_and_prove sch q X Y crs s = Ok (p, s') -> short X -> short Y ->
  [/\ size (equ_proofs p) = 1%N, commit1_fits (xcoms p), commit2_fits (ycoms p) & List.Forall equproof_fits (equ_proofs p)].
Proof.
move=> vs; rewrite FormulaProps.quad_cap_total //; cbv zeta => e hX hY; have [-> _] := checked_ok e; clear e; split; first by [].
- by split; [rewrite /short size_mkseq size_map; exact: hX | exact: table_fits'].
- by split; [rewrite /short size_mkseq size_map; exact: hY | exact: table_fits'].
- apply: List.Forall_cons; last exact: List.Forall_nil.
  split; [by apply: (@small_short _ _ 1); last exact: size_mkseq | split; [by apply: (@small_short _ _ 1); last exact: size_mkseq | ]].
  by apply: table_fits; [ | apply: lt2].
Qed.

Lemma quad_wire_decides cs (R' : ark_rng A) sch sch' (q : QuadEqu E) f (X : seq (Fr E)) (Y : seq (Fr E)) crs d (t : ark_rst R') :
  bilinear E -> nondegenerate E -> valid_sched sch -> valid_sched sch' -> transports r1 r2 rt cs ->
  rquad q f -> rcrs r1 r2 rt crs d ->
  (0 < size X)%N -> (0 < size Y)%N -> short X -> short Y -> quad_wf q (size X) (size Y) -> two_keys crs -> u2 crs + (0, g1_gen crs) != 0 -> v2 crs + (0, g2_gen crs) != 0 ->
  exists p t' o, [/\ ark_quad_commit_and_prove sch f X Y d t = Ok (p, t'),
    forall m v, ark_check cs (fun p => ark_quad_verify sch' f p d) m v (ark_send cs m p) = Some (Ok o) & o <-> quad_holds q X Y].
Proof.
move=> hb hn vs vs' hc hq  hK sx sy lx ly hwf htk k1 k2.
have [p [t' [o [h1 h2 h3]]]] := quad_ark_decides I t hb hn vs vs' hq  hK sx sy hwf htk k1 k2.
exists p, t', o; split; [exact: h1 | | exact: h3].
move: (rquad_commit_and_prove I (@scalars_of_alike _ _ 0 0 R') sch X Y hq  hK (erefl t)).
rewrite h1; case h : (quad_commit_and_prove _ _ _ _ _ _) => [[p0 s0]|e] // [hp _] m v.
have [w1 w2 w3 w4] := quad_honest_fits vs h lx ly.
have [j1 j2 j3 j4] := fits_rel hp w1 w2 w3 w4.
by rewrite /ark_check (read_send hc m v hp j1 j2 j3 j4) h2.
Qed.

Lemma quad_wire_sound (R' : ark_rng A) sch (t t' : ark_rst R') d P1 P2 :
  bilinear E -> valid_sched sch -> ark_generate_crs t = (d, t') ->
  rp r1 P1 (ark_rand_g1 t).1 -> rp r2 P2 (ark_rand_g2 (ark_rand_g1 t).2).1 -> nondegenerate E -> cyclic (G1 E) -> cyclic (G2 E) -> P1 != 0 -> P2 != 0 -> 
  exists (ex1 : Com1 E -> Fr E) (ex2 : Com2 E -> Fr E),
  [/\ forall (R2 : ark_rng A) X (z z' : ark_rst R2) c c', ark_batch_commit_scalar_to_B1 X d z = Ok (c', z') ->
        rseq (rcom r1) c (ark_coms c') -> map ex1 c = X,
      forall (R2 : ark_rng A) Y (z z' : ark_rst R2) c c', ark_batch_commit_scalar_to_B2 Y d z = Ok (c', z') ->
        rseq (rcom r2) c (ark_coms c') -> map ex2 c = Y
    & forall cs q f m bs, transports r1 r2 rt cs -> rquad q f ->
        ark_check cs (fun p => ark_quad_verify sch f p d) m VYes bs = Some (Ok true) ->
        exists p p', [/\ ark_read cs m VYes bs = DOk p' [::], rcproof r1 r2 p p'
          & quad_holds q (map ex1 (coms (xcoms p))) (map ex2 (coms (ycoms p)))]].
Proof.
move=> hb vs hd h1 h2 hn hc1 hc2 hP1 hP2; have [ex1 [ex2 [k1 k2 k3]]] := quad_ark_sound I hb vs hd h1 h2 hn hc1 hc2 hP1 hP2.
exists ex1, ex2; split; [exact: k1 | exact: k2 | move=> cs q f m bs hc hq].
rewrite /ark_check; case hr : (ark_read _ _ _ _) => [p' [|? ?]|] // [hv].
have [p hp] := read_represent hc hr; exists p, p'; split=> //; exact: k3 hq hp hv.
Qed.
End Wire.
