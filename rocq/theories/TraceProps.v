(** Proofs of the theorems of [P_Trace.v]. *)
From mathcomp Require Import all_ssreflect all_algebra.
From Verif Require Import Base Group DataStructures Commit Statement Derived Verify.
From Verif Require Import Ark SpecArk ArkRel SpecTrace TraceLemmas TraceCost.
Set Implicit Arguments.
Unset Strict Implicit.
Unset Printing Implicit Defensive.
Import GRing.Theory.
Local Open Scope ring_scope.

Lemma rseq_mapE S T U (f : S -> U) (g : T -> U) s t : rseq (fun a b => f a = g b) s t -> map f s = map g t.
Proof. by elim: s t => [|x s IH] [|y t] //= [-> /IH ->]. Qed.

Lemma forget_ok (F : fieldType) (A : ark F) :
  link_ok (forget A) (fun (a : prj (C1 (traced A))) b => a.1 = b) (fun (a : prj (C2 (traced A))) b => a.1 = b).
Proof.
split=> //=.
- by split=> //= [a b c d -> -> | a b -> | a b c d -> ->].
- by split=> //= [a b c d <- <- | a b <- | a b <- | a b c d <- <- | a b k l <- <- | a b <-].
- by split=> //= [a b c d <- <- | a b <- | a b <- | a b c d <- <- | a b k l <- <- | a b <-].
- by move=> a b c d <- <-.
- by move=> a b c d <- <-.
- move=> s t s' t' h h'.
  have e : [seq a.1 | a <- s] = t by rewrite -[RHS]map_id; apply: (rseq_mapE (g := id)).
  have e' : [seq a.1 | a <- s'] = t' by rewrite -[RHS]map_id; apply: (rseq_mapE (g := id)).
  by rewrite e e'.
Qed.
Section ForgetRng.
Context (F : fieldType) (A : ark F) (R : ark_rng A).
Local Notation TR := (@traced_rng F A (fun x y => @out_eq _ A x.1 y.1) R).
Lemma forget_D (s : ark_rst TR) t : forget_rst s t -> rpair (lf (forget A)) (@forget_rst F A _ R) (ark_rand_fr s) (ark_rand_fr t).
Proof. by case: s => s n; rewrite /forget_rst /= => <-; case: (ark_rand_fr s). Qed.
Lemma forget_D1 (s : ark_rst TR) t : forget_rst s t ->
  rpair (fun (a : prj (C1 (traced A))) b => a.1 = b) (@forget_rst F A _ R) (ark_rand_g1 s) (ark_rand_g1 t).
Proof. by case: s => s n; rewrite /forget_rst /= => <-; case: (ark_rand_g1 s). Qed.
Lemma forget_D2 (s : ark_rst TR) t : forget_rst s t ->
  rpair (fun (a : prj (C2 (traced A))) b => a.1 = b) (@forget_rst F A _ R) (ark_rand_g2 s) (ark_rand_g2 t).
Proof. by case: s => s n; rewrite /forget_rst /= => <-; case: (ark_rand_g2 s). Qed.
Lemma forget_DT a b c d : lo (forget A) a b -> lo (forget A) c d -> out_eq a c = out_eq b d.
Proof. by rewrite /= => <- <-. Qed.
End ForgetRng.

Lemma alike_ok (F F' : fieldType) (A : ark F) (A' : ark F') (eqo : cmp A) (eqo' : cmp A') :
  link_ok (@alike F F' A A' eqo eqo')
    (fun (a : prj (C1 (traced_with eqo))) (b : prj (C1 (traced_with eqo'))) => a.2 = b.2)
    (fun (a : prj (C2 (traced_with eqo))) (b : prj (C2 (traced_with eqo'))) => a.2 = b.2).
Proof.
split=> //=.
- by split=> //= [a b c d -> -> | a b -> | a b -> | a b c d -> -> | a b k l -> | a b ->].
- by split=> //= [a b c d -> -> | a b -> | a b -> | a b c d -> -> | a b k l -> | a b ->].
- by move=> a b c d -> ->.
- by move=> a b c d -> ->.
- by move=> s t s' t' /rseq_mapE h /rseq_mapE h'; congr MultiPair.
Qed.
Section AlikeRng.
Context (F F' : fieldType) (A : ark F) (A' : ark F') (eqo : cmp A) (eqo' : cmp A') (R : ark_rng A) (R' : ark_rng A').
Local Notation TR := (@traced_rng F A eqo R).
Local Notation TR' := (@traced_rng F' A' eqo' R').
Local Notation st := (@alike_rst F F' A A' eqo eqo' R R').
Lemma alike_D (s : ark_rst TR) (t : ark_rst TR') : st s t ->
  rpair (lf (@alike F F' A A' eqo eqo')) st (ark_rand_fr s) (ark_rand_fr t).
Proof.
case: s t => [s n] [t m]; rewrite /alike_rst /= => <-.
by case: (ark_rand_fr s) => ? ?; case: (ark_rand_fr t).
Qed.
Lemma alike_D1 (s : ark_rst TR) (t : ark_rst TR') : st s t ->
  rpair (fun (a : prj (C1 (traced_with eqo))) (b : prj (C1 (traced_with eqo'))) => a.2 = b.2) st
    (ark_rand_g1 s) (ark_rand_g1 t).
Proof.
case: s t => [s n] [t m]; rewrite /alike_rst /= => <-.
by case: (ark_rand_g1 s) => ? ?; case: (ark_rand_g1 t).
Qed.
Lemma alike_D2 (s : ark_rst TR) (t : ark_rst TR') : st s t ->
  rpair (fun (a : prj (C2 (traced_with eqo))) (b : prj (C2 (traced_with eqo'))) => a.2 = b.2) st
    (ark_rand_g2 s) (ark_rand_g2 t).
Proof.
case: s t => [s n] [t m]; rewrite /alike_rst /= => <-.
by case: (ark_rand_g2 s) => ? ?; case: (ark_rand_g2 t).
Qed.
End AlikeRng.
Lemma alike_DT (F F' : fieldType) (A : ark F) (A' : ark F') (P : expr -> expr -> bool)
  (a : out (watched A P)) (b : out (watched A' P)) (c : out (watched A P)) (d : out (watched A' P)) :
  lo (alike_watched A A' P) a b -> lo (alike_watched A A' P) c d -> out_eq a c = out_eq b d.
Proof. by rewrite /= => -> ->. Qed.

(** ** Named inputs *)
Lemma rseq_true S T (s : seq S) (t : seq T) : size s = size t -> rseq (fun _ _ => True) s t.
Proof. by elim: s t => [|x s IH] [|y t] //= [] /IH. Qed.
Lemma rmat_true S T (M : matrix S) (N : matrix T) : same_dims M N -> rmat (fun _ _ => True) M N.
Proof.
rewrite /same_dims; elim: M N => [|r M IH] [|r' N] //= [hr h].
by split; [apply: rseq_true | apply: IH].
Qed.
Lemma rseq_zip S T U V (P : S * U -> T * V -> Prop) (Q : S -> T -> Prop) (R : U -> V -> Prop) s t u v :
  (forall a b c d, Q a b -> R c d -> P (a, c) (b, d)) -> rseq Q s t -> rseq R u v -> rseq P (zip s u) (zip t v).
Proof.
move=> H; elim: s t u v => [|a s IH] [|b t] [|c u] [|d v] //= [h hs] [h' hu].
by split; [apply: H | apply: IH].
Qed.
Lemma named_alike S T k (s : seq S) (t : seq T) : size s = size t ->
  rseq (fun a b : _ * expr => a.2 = b.2) (named k s) (named k t).
Proof.
move=> e; rewrite /named -e; apply: (rseq_zip (Q := fun _ _ => True) (R := eq)) => //; first exact: rseq_true.
exact: rseq_eq.
Qed.
Lemma named_forget S k (s : seq S) : rseq (fun (a : S * expr) b => a.1 = b) (named k s) s.
Proof.
rewrite /named; have : size [seq Inp k i | i <- iota 0 (size s)] = size s by rewrite size_map size_iota.
move: [seq _ | _ <- _] => l; elim: s l => [|x s IH] [|y l] //= [e]; split=> //; exact: IH.
Qed.
Section NamedForget.
Context (F : fieldType) (A : ark F).
Local Notation eqo := (fun x y => @out_eq _ A x.1 y.1).
Lemma coms1_forget k (s : seq (ark_Com1 A)) : rseq (lcom1 (forget A)) (named_coms1 eqo k s) s.
Proof.
have h1 := named_forget k [seq c.1 | c <- s]; have h2 := named_forget k.+1 [seq c.2 | c <- s].
rewrite /named_coms1; move: h1 h2; move: (named _ _) (named _ _) => u v.
elim: s u v => [|[a b] s IH] [|x u] [|y v] //= [e h] [e' h']; split; [by split | exact: IH].
Qed.
Lemma coms2_forget k (s : seq (ark_Com2 A)) : rseq (lcom2 (forget A)) (named_coms2 eqo k s) s.
Proof.
have h1 := named_forget k [seq c.1 | c <- s]; have h2 := named_forget k.+1 [seq c.2 | c <- s].
rewrite /named_coms2; move: h1 h2; move: (named _ _) (named _ _) => u v.
elim: s u v => [|[a b] s IH] [|x u] [|y v] //= [e h] [e' h']; split; [by split | exact: IH].
Qed.
Lemma crs_forget c : lcrs (forget A) (named_crs eqo c) c.
Proof. by split; [apply: coms1_forget | apply: coms2_forget | | | ]. Qed.
Lemma rmat_eq T (M : matrix T) : rmat eq M M.
Proof. by elim: M => //= r M IH; split; [apply: rseq_eq | ]. Qed.
Lemma ppe_forget e : lppe (forget A) (named_ppe eqo e) e.
Proof. by split; [apply: named_forget | apply: named_forget | apply: rmat_eq |]. Qed.
Lemma ms1_forget e : lms1 (forget A) (named_ms1 eqo e) e.
Proof. by split; [apply: named_forget | apply: rseq_eq | apply: rmat_eq |]. Qed.
Lemma ms2_forget e : lms2 (forget A) (named_ms2 eqo e) e.
Proof. by split; [apply: rseq_eq | apply: named_forget | apply: rmat_eq |]. Qed.
Lemma quad_forget e : lquad (forget A) e e.
Proof. by split; [apply: rseq_eq | apply: rseq_eq | apply: rmat_eq |]. Qed.
Lemma commit1_forget k c : lcommit1 (forget A) (named_commit1 eqo k c) c.
Proof. by split; [apply: coms1_forget | apply: rmat_eq]. Qed.
Lemma commit2_forget k c : lcommit2 (forget A) (named_commit2 eqo k c) c.
Proof. by split; [apply: coms2_forget | apply: rmat_eq]. Qed.
Lemma proofs_forget k ps : rseq (lequproof (forget A)) (named_proofs eqo k ps) ps.
Proof.
elim: ps k => //= p ps IH k; split=> //.
by split; [apply: coms2_forget | apply: coms1_forget | | apply: rmat_eq].
Qed.
Lemma cproof_forget p : lcproof (forget A) (named_cproof eqo p) p.
Proof. by split; [apply: commit1_forget | apply: commit2_forget | apply: proofs_forget]. Qed.
End NamedForget.

Section NamedAlike.
Context (F F' : fieldType) (A : ark F) (A' : ark F') (eqo : cmp A) (eqo' : cmp A').
Local Notation L := (@alike F F' A A' eqo eqo').
Lemma coms1_alike k s t : size s = size t -> rseq (lcom1 L) (named_coms1 eqo k s) (named_coms1 eqo' k t).
Proof.
move=> e; apply: rseq_zip (named_alike k _) (named_alike k.+1 _); last by rewrite !size_map.
  by move=> a b c d h h'; split.
by rewrite !size_map.
Qed.
Lemma coms2_alike k s t : size s = size t -> rseq (lcom2 L) (named_coms2 eqo k s) (named_coms2 eqo' k t).
Proof.
move=> e; apply: rseq_zip (named_alike k _) (named_alike k.+1 _); last by rewrite !size_map.
  by move=> a b c d h h'; split.
by rewrite !size_map.
Qed.
Lemma crs_alike c d : same_crs c d -> lcrs L (named_crs eqo c) (named_crs eqo' d).
Proof. by case=> h1 h2; split=> //; [apply: coms1_alike | apply: coms2_alike]. Qed.
Lemma ppe_alike e f : same_ppe e f -> lppe L (named_ppe eqo e) (named_ppe eqo' f).
Proof. by case=> h1 h2 h3; split=> //; [apply: named_alike | apply: named_alike | apply: rmat_true]. Qed.
Lemma ms1_alike e f : same_ms1 e f -> lms1 L (named_ms1 eqo e) (named_ms1 eqo' f).
Proof. by case=> h1 h2 h3; split=> //; [apply: named_alike | apply: rseq_true | apply: rmat_true]. Qed.
Lemma ms2_alike e f : same_ms2 e f -> lms2 L (named_ms2 eqo e) (named_ms2 eqo' f).
Proof. by case=> h1 h2 h3; split=> //; [apply: rseq_true | apply: named_alike | apply: rmat_true]. Qed.
Lemma quad_alike e f : same_quad e f -> lquad L e f.
Proof. by case=> h1 h2 h3; split=> //; [apply: rseq_true | apply: rseq_true | apply: rmat_true]. Qed.
Lemma cproof_alike p q : same_cproof p q -> lcproof L (named_cproof eqo p) (named_cproof eqo' q).
Proof.
case=> -[h1 h2] [h3 h4] h5; split.
- by split; [apply: coms1_alike | apply: rmat_true].
- by split; [apply: coms2_alike | apply: rmat_true].
rewrite /named_cproof /=; move: h5; move: (ark_equ_proofs p) (ark_equ_proofs q) 20%N.
elim=> [|f s IH] [|g t] //= k [[e1 e2 e3 e4] hs]; split; last exact: IH.
by split=> //; [apply: coms2_alike | apply: coms1_alike | apply: rmat_true].
Qed.
End NamedAlike.
Lemma traced_draw_fr (F : fieldType) (A : ark F) (eqo : cmp A) (R : ark_rng A) (s : ark_rst (traced_rng eqo R)) :
  (ark_rand_fr s).2.2 = s.2.+1.
Proof. by case: s => s n /=; case: (ark_rand_fr s). Qed.
Lemma post_ok T (P : T -> Prop) m x : post P m -> m = Ok x -> P x.
Proof. by move=> h e; rewrite e in h. Qed.

Lemma size_named T k (s : seq T) : size (named k s) = size s.
Proof. by rewrite /named size_zip size_map size_iota minnn. Qed.
Lemma k_traced_generate_crs :
  forall (F : fieldType) (A : ark F) (R : ark_rng A) s t,
  (@forget_rst F A _ R) s t -> rpair (lcrs (forget A)) (@forget_rst F A _ R) (ark_generate_crs s) (ark_generate_crs t).
Proof.
move=> F A R s t h; exact: (sgenerate_crs (@forget_ok F A) (@forget_D F A R) (@forget_D1 F A R) (@forget_D2 F A R) h).
Qed.
Lemma k_alike_generate_crs :
  forall (F F' : fieldType) (A : ark F) (A' : ark F') (eqo : cmp A) (eqo' : cmp A') (R : ark_rng A) (R' : ark_rng A') s t,
  (@alike_rst F F' A A' eqo eqo' R R') s t -> rpair (lcrs (@alike F F' A A' eqo eqo')) (@alike_rst F F' A A' eqo eqo' R R') (ark_generate_crs s) (ark_generate_crs t).
Proof.
move=> F F' A A' eqo eqo' R R' s t h; exact: (sgenerate_crs (@alike_ok F F' A A' eqo eqo') (@alike_D F F' A A' eqo eqo' R R') (@alike_D1 F F' A A' eqo eqo' R R') (@alike_D2 F F' A A' eqo eqo' R R') h).
Qed.
Lemma k_traced_commit_G1 :
  forall (F : fieldType) (A : ark F) (R : ark_rng A) x y c d s t,
  la1 (forget A) x y -> lcrs (forget A) c d -> (@forget_rst F A _ R) s t ->
  rres (rpair (lcommit1 (forget A)) (@forget_rst F A _ R)) (ark_commit_G1 x c s) (ark_commit_G1 y d t).
Proof.
move=> F A R x y c d s t h hc hs; exact: (scommit_G1 (@forget_ok F A) (@forget_D F A R) h hc hs).
Qed.
Lemma k_alike_commit_G1 :
  forall (F F' : fieldType) (A : ark F) (A' : ark F') (eqo : cmp A) (eqo' : cmp A') (R : ark_rng A) (R' : ark_rng A') x y c d s t,
  la1 (@alike F F' A A' eqo eqo') x y -> lcrs (@alike F F' A A' eqo eqo') c d -> (@alike_rst F F' A A' eqo eqo' R R') s t ->
  rres (rpair (lcommit1 (@alike F F' A A' eqo eqo')) (@alike_rst F F' A A' eqo eqo' R R')) (ark_commit_G1 x c s) (ark_commit_G1 y d t).
Proof.
move=> F F' A A' eqo eqo' R R' x y c d s t h hc hs; exact: (scommit_G1 (@alike_ok F F' A A' eqo eqo') (@alike_D F F' A A' eqo eqo' R R') h hc hs).
Qed.
Lemma k_traced_batch_commit_G1 :
  forall (F : fieldType) (A : ark F) (R : ark_rng A) x y c d s t,
  rseq (la1 (forget A)) x y -> lcrs (forget A) c d -> (@forget_rst F A _ R) s t ->
  rres (rpair (lcommit1 (forget A)) (@forget_rst F A _ R)) (ark_batch_commit_G1 x c s) (ark_batch_commit_G1 y d t).
Proof.
move=> F A R x y c d s t h hc hs; exact: (sbatch_commit_G1 (@forget_ok F A) (@forget_D F A R) h hc hs).
Qed.
Lemma k_alike_batch_commit_G1 :
  forall (F F' : fieldType) (A : ark F) (A' : ark F') (eqo : cmp A) (eqo' : cmp A') (R : ark_rng A) (R' : ark_rng A') x y c d s t,
  rseq (la1 (@alike F F' A A' eqo eqo')) x y -> lcrs (@alike F F' A A' eqo eqo') c d -> (@alike_rst F F' A A' eqo eqo' R R') s t ->
  rres (rpair (lcommit1 (@alike F F' A A' eqo eqo')) (@alike_rst F F' A A' eqo eqo' R R')) (ark_batch_commit_G1 x c s) (ark_batch_commit_G1 y d t).
Proof.
move=> F F' A A' eqo eqo' R R' x y c d s t h hc hs; exact: (sbatch_commit_G1 (@alike_ok F F' A A' eqo eqo') (@alike_D F F' A A' eqo eqo' R R') h hc hs).
Qed.
Lemma k_traced_commit_scalar_to_B1 :
  forall (F : fieldType) (A : ark F) (R : ark_rng A) x y c d s t,
  lf (forget A) x y -> lcrs (forget A) c d -> (@forget_rst F A _ R) s t ->
  rres (rpair (lcommit1 (forget A)) (@forget_rst F A _ R)) (ark_commit_scalar_to_B1 x c s) (ark_commit_scalar_to_B1 y d t).
Proof.
move=> F A R x y c d s t h hc hs; exact: (scommit_scalar_to_B1 (@forget_ok F A) (@forget_D F A R) h hc hs).
Qed.
Lemma k_alike_commit_scalar_to_B1 :
  forall (F F' : fieldType) (A : ark F) (A' : ark F') (eqo : cmp A) (eqo' : cmp A') (R : ark_rng A) (R' : ark_rng A') x y c d s t,
  lf (@alike F F' A A' eqo eqo') x y -> lcrs (@alike F F' A A' eqo eqo') c d -> (@alike_rst F F' A A' eqo eqo' R R') s t ->
  rres (rpair (lcommit1 (@alike F F' A A' eqo eqo')) (@alike_rst F F' A A' eqo eqo' R R')) (ark_commit_scalar_to_B1 x c s) (ark_commit_scalar_to_B1 y d t).
Proof.
move=> F F' A A' eqo eqo' R R' x y c d s t h hc hs; exact: (scommit_scalar_to_B1 (@alike_ok F F' A A' eqo eqo') (@alike_D F F' A A' eqo eqo' R R') h hc hs).
Qed.
Lemma k_traced_batch_commit_scalar_to_B1 :
  forall (F : fieldType) (A : ark F) (R : ark_rng A) x y c d s t,
  rseq (lf (forget A)) x y -> lcrs (forget A) c d -> (@forget_rst F A _ R) s t ->
  rres (rpair (lcommit1 (forget A)) (@forget_rst F A _ R)) (ark_batch_commit_scalar_to_B1 x c s) (ark_batch_commit_scalar_to_B1 y d t).
Proof.
move=> F A R x y c d s t h hc hs; exact: (sbatch_commit_scalar_to_B1 (@forget_ok F A) (@forget_D F A R) h hc hs).
Qed.
Lemma k_alike_batch_commit_scalar_to_B1 :
  forall (F F' : fieldType) (A : ark F) (A' : ark F') (eqo : cmp A) (eqo' : cmp A') (R : ark_rng A) (R' : ark_rng A') x y c d s t,
  rseq (lf (@alike F F' A A' eqo eqo')) x y -> lcrs (@alike F F' A A' eqo eqo') c d -> (@alike_rst F F' A A' eqo eqo' R R') s t ->
  rres (rpair (lcommit1 (@alike F F' A A' eqo eqo')) (@alike_rst F F' A A' eqo eqo' R R')) (ark_batch_commit_scalar_to_B1 x c s) (ark_batch_commit_scalar_to_B1 y d t).
Proof.
move=> F F' A A' eqo eqo' R R' x y c d s t h hc hs; exact: (sbatch_commit_scalar_to_B1 (@alike_ok F F' A A' eqo eqo') (@alike_D F F' A A' eqo eqo' R R') h hc hs).
Qed.
Lemma k_traced_commit_G2 :
  forall (F : fieldType) (A : ark F) (R : ark_rng A) x y c d s t,
  la2 (forget A) x y -> lcrs (forget A) c d -> (@forget_rst F A _ R) s t ->
  rres (rpair (lcommit2 (forget A)) (@forget_rst F A _ R)) (ark_commit_G2 x c s) (ark_commit_G2 y d t).
Proof.
move=> F A R x y c d s t h hc hs; exact: (scommit_G2 (@forget_ok F A) (@forget_D F A R) h hc hs).
Qed.
Lemma k_alike_commit_G2 :
  forall (F F' : fieldType) (A : ark F) (A' : ark F') (eqo : cmp A) (eqo' : cmp A') (R : ark_rng A) (R' : ark_rng A') x y c d s t,
  la2 (@alike F F' A A' eqo eqo') x y -> lcrs (@alike F F' A A' eqo eqo') c d -> (@alike_rst F F' A A' eqo eqo' R R') s t ->
  rres (rpair (lcommit2 (@alike F F' A A' eqo eqo')) (@alike_rst F F' A A' eqo eqo' R R')) (ark_commit_G2 x c s) (ark_commit_G2 y d t).
Proof.
move=> F F' A A' eqo eqo' R R' x y c d s t h hc hs; exact: (scommit_G2 (@alike_ok F F' A A' eqo eqo') (@alike_D F F' A A' eqo eqo' R R') h hc hs).
Qed.
Lemma k_traced_batch_commit_G2 :
  forall (F : fieldType) (A : ark F) (R : ark_rng A) x y c d s t,
  rseq (la2 (forget A)) x y -> lcrs (forget A) c d -> (@forget_rst F A _ R) s t ->
  rres (rpair (lcommit2 (forget A)) (@forget_rst F A _ R)) (ark_batch_commit_G2 x c s) (ark_batch_commit_G2 y d t).
Proof.
move=> F A R x y c d s t h hc hs; exact: (sbatch_commit_G2 (@forget_ok F A) (@forget_D F A R) h hc hs).
Qed.
Lemma k_alike_batch_commit_G2 :
  forall (F F' : fieldType) (A : ark F) (A' : ark F') (eqo : cmp A) (eqo' : cmp A') (R : ark_rng A) (R' : ark_rng A') x y c d s t,
  rseq (la2 (@alike F F' A A' eqo eqo')) x y -> lcrs (@alike F F' A A' eqo eqo') c d -> (@alike_rst F F' A A' eqo eqo' R R') s t ->
  rres (rpair (lcommit2 (@alike F F' A A' eqo eqo')) (@alike_rst F F' A A' eqo eqo' R R')) (ark_batch_commit_G2 x c s) (ark_batch_commit_G2 y d t).
Proof.
move=> F F' A A' eqo eqo' R R' x y c d s t h hc hs; exact: (sbatch_commit_G2 (@alike_ok F F' A A' eqo eqo') (@alike_D F F' A A' eqo eqo' R R') h hc hs).
Qed.
Lemma k_traced_commit_scalar_to_B2 :
  forall (F : fieldType) (A : ark F) (R : ark_rng A) x y c d s t,
  lf (forget A) x y -> lcrs (forget A) c d -> (@forget_rst F A _ R) s t ->
  rres (rpair (lcommit2 (forget A)) (@forget_rst F A _ R)) (ark_commit_scalar_to_B2 x c s) (ark_commit_scalar_to_B2 y d t).
Proof.
move=> F A R x y c d s t h hc hs; exact: (scommit_scalar_to_B2 (@forget_ok F A) (@forget_D F A R) h hc hs).
Qed.
Lemma k_alike_commit_scalar_to_B2 :
  forall (F F' : fieldType) (A : ark F) (A' : ark F') (eqo : cmp A) (eqo' : cmp A') (R : ark_rng A) (R' : ark_rng A') x y c d s t,
  lf (@alike F F' A A' eqo eqo') x y -> lcrs (@alike F F' A A' eqo eqo') c d -> (@alike_rst F F' A A' eqo eqo' R R') s t ->
  rres (rpair (lcommit2 (@alike F F' A A' eqo eqo')) (@alike_rst F F' A A' eqo eqo' R R')) (ark_commit_scalar_to_B2 x c s) (ark_commit_scalar_to_B2 y d t).
Proof.
move=> F F' A A' eqo eqo' R R' x y c d s t h hc hs; exact: (scommit_scalar_to_B2 (@alike_ok F F' A A' eqo eqo') (@alike_D F F' A A' eqo eqo' R R') h hc hs).
Qed.
Lemma k_traced_batch_commit_scalar_to_B2 :
  forall (F : fieldType) (A : ark F) (R : ark_rng A) x y c d s t,
  rseq (lf (forget A)) x y -> lcrs (forget A) c d -> (@forget_rst F A _ R) s t ->
  rres (rpair (lcommit2 (forget A)) (@forget_rst F A _ R)) (ark_batch_commit_scalar_to_B2 x c s) (ark_batch_commit_scalar_to_B2 y d t).
Proof.
move=> F A R x y c d s t h hc hs; exact: (sbatch_commit_scalar_to_B2 (@forget_ok F A) (@forget_D F A R) h hc hs).
Qed.
Lemma k_alike_batch_commit_scalar_to_B2 :
  forall (F F' : fieldType) (A : ark F) (A' : ark F') (eqo : cmp A) (eqo' : cmp A') (R : ark_rng A) (R' : ark_rng A') x y c d s t,
  rseq (lf (@alike F F' A A' eqo eqo')) x y -> lcrs (@alike F F' A A' eqo eqo') c d -> (@alike_rst F F' A A' eqo eqo' R R') s t ->
  rres (rpair (lcommit2 (@alike F F' A A' eqo eqo')) (@alike_rst F F' A A' eqo eqo' R R')) (ark_batch_commit_scalar_to_B2 x c s) (ark_batch_commit_scalar_to_B2 y d t).
Proof.
move=> F F' A A' eqo eqo' R R' x y c d s t h hc hs; exact: (sbatch_commit_scalar_to_B2 (@alike_ok F F' A A' eqo eqo') (@alike_D F F' A A' eqo eqo' R R') h hc hs).
Qed.
Lemma k_traced_ppe_prove :
  forall (F : fieldType) (A : ark F) (R : ark_rng A) sch e f xs xs' ys ys' x x' y y' c d s t,
  lppe (forget A) e f -> rseq (la1 (forget A)) xs xs' -> rseq (la2 (forget A)) ys ys' -> lcommit1 (forget A) x x' -> lcommit2 (forget A) y y' -> lcrs (forget A) c d ->
  (@forget_rst F A _ R) s t ->
  rres (rpair (lequproof (forget A)) (@forget_rst F A _ R)) (ark_ppe_prove sch e xs ys x y c s) (ark_ppe_prove sch f xs' ys' x' y' d t).
Proof.
move=> F A R sch e f xs xs' ys ys' x x' y y' c d s t he hx hy hcx hcy hc hs; exact: (sppe_prove (@forget_ok F A) (@forget_D F A R) sch he hx hy hcx hcy hc hs).
Qed.
Lemma k_alike_ppe_prove :
  forall (F F' : fieldType) (A : ark F) (A' : ark F') (eqo : cmp A) (eqo' : cmp A') (R : ark_rng A) (R' : ark_rng A') sch e f xs xs' ys ys' x x' y y' c d s t,
  lppe (@alike F F' A A' eqo eqo') e f -> rseq (la1 (@alike F F' A A' eqo eqo')) xs xs' -> rseq (la2 (@alike F F' A A' eqo eqo')) ys ys' -> lcommit1 (@alike F F' A A' eqo eqo') x x' -> lcommit2 (@alike F F' A A' eqo eqo') y y' -> lcrs (@alike F F' A A' eqo eqo') c d ->
  (@alike_rst F F' A A' eqo eqo' R R') s t ->
  rres (rpair (lequproof (@alike F F' A A' eqo eqo')) (@alike_rst F F' A A' eqo eqo' R R')) (ark_ppe_prove sch e xs ys x y c s) (ark_ppe_prove sch f xs' ys' x' y' d t).
Proof.
move=> F F' A A' eqo eqo' R R' sch e f xs xs' ys ys' x x' y y' c d s t he hx hy hcx hcy hc hs; exact: (sppe_prove (@alike_ok F F' A A' eqo eqo') (@alike_D F F' A A' eqo eqo' R R') sch he hx hy hcx hcy hc hs).
Qed.
Lemma k_traced_ppe_commit_and_prove :
  forall (F : fieldType) (A : ark F) (R : ark_rng A) sch e f xs xs' ys ys' c d s t,
  lppe (forget A) e f -> rseq (la1 (forget A)) xs xs' -> rseq (la2 (forget A)) ys ys' -> lcrs (forget A) c d -> (@forget_rst F A _ R) s t ->
  rres (rpair (lcproof (forget A)) (@forget_rst F A _ R)) (ark_ppe_commit_and_prove sch e xs ys c s) (ark_ppe_commit_and_prove sch f xs' ys' d t).
Proof.
move=> F A R sch e f xs xs' ys ys' c d s t he hx hy hc hs; exact: (sppe_commit_and_prove (@forget_ok F A) (@forget_D F A R) sch he hx hy hc hs).
Qed.
Lemma k_alike_ppe_commit_and_prove :
  forall (F F' : fieldType) (A : ark F) (A' : ark F') (eqo : cmp A) (eqo' : cmp A') (R : ark_rng A) (R' : ark_rng A') sch e f xs xs' ys ys' c d s t,
  lppe (@alike F F' A A' eqo eqo') e f -> rseq (la1 (@alike F F' A A' eqo eqo')) xs xs' -> rseq (la2 (@alike F F' A A' eqo eqo')) ys ys' -> lcrs (@alike F F' A A' eqo eqo') c d -> (@alike_rst F F' A A' eqo eqo' R R') s t ->
  rres (rpair (lcproof (@alike F F' A A' eqo eqo')) (@alike_rst F F' A A' eqo eqo' R R')) (ark_ppe_commit_and_prove sch e xs ys c s) (ark_ppe_commit_and_prove sch f xs' ys' d t).
Proof.
move=> F F' A A' eqo eqo' R R' sch e f xs xs' ys ys' c d s t he hx hy hc hs; exact: (sppe_commit_and_prove (@alike_ok F F' A A' eqo eqo') (@alike_D F F' A A' eqo eqo' R R') sch he hx hy hc hs).
Qed.
Lemma k_traced_ppe_verify :
  forall (F : fieldType) (A : ark F) sch e f p q c d,
  lppe (forget A) e f -> lcproof (forget A) p q -> lcrs (forget A) c d ->
  ark_ppe_verify sch e p c = ark_ppe_verify sch f q d.
Proof.
move=> F A sch e f p q c d he hp hc; exact: (sppe_verify (@forget_ok F A) (@forget_DT F A) sch he hp hc).
Qed.
Lemma k_alike_ppe_verify :
  forall (F F' : fieldType) (A : ark F) (A' : ark F') (P : expr -> expr -> bool) sch
  (e : ark_PPE (watched A P)) (f : ark_PPE (watched A' P))
  (p : ark_CProof (watched A P)) (q : ark_CProof (watched A' P)) c d,
  lppe (alike_watched A A' P) e f -> lcproof (alike_watched A A' P) p q -> lcrs (alike_watched A A' P) c d ->
  ark_ppe_verify sch e p c = ark_ppe_verify sch f q d.
Proof.
move=> F F' A A' P sch e f p q c d he hp hc; exact: (sppe_verify (@alike_ok F F' A A' _ _) (@alike_DT F F' A A' P) sch he hp hc).
Qed.
Lemma k_traced_ms1_prove :
  forall (F : fieldType) (A : ark F) (R : ark_rng A) sch e f xs xs' ys ys' x x' y y' c d s t,
  lms1 (forget A) e f -> rseq (la1 (forget A)) xs xs' -> rseq (lf (forget A)) ys ys' -> lcommit1 (forget A) x x' -> lcommit2 (forget A) y y' -> lcrs (forget A) c d ->
  (@forget_rst F A _ R) s t ->
  rres (rpair (lequproof (forget A)) (@forget_rst F A _ R)) (ark_ms1_prove sch e xs ys x y c s) (ark_ms1_prove sch f xs' ys' x' y' d t).
Proof.
move=> F A R sch e f xs xs' ys ys' x x' y y' c d s t he hx hy hcx hcy hc hs; exact: (sms1_prove (@forget_ok F A) (@forget_D F A R) sch he hx hy hcx hcy hc hs).
Qed.
Lemma k_alike_ms1_prove :
  forall (F F' : fieldType) (A : ark F) (A' : ark F') (eqo : cmp A) (eqo' : cmp A') (R : ark_rng A) (R' : ark_rng A') sch e f xs xs' ys ys' x x' y y' c d s t,
  lms1 (@alike F F' A A' eqo eqo') e f -> rseq (la1 (@alike F F' A A' eqo eqo')) xs xs' -> rseq (lf (@alike F F' A A' eqo eqo')) ys ys' -> lcommit1 (@alike F F' A A' eqo eqo') x x' -> lcommit2 (@alike F F' A A' eqo eqo') y y' -> lcrs (@alike F F' A A' eqo eqo') c d ->
  (@alike_rst F F' A A' eqo eqo' R R') s t ->
  rres (rpair (lequproof (@alike F F' A A' eqo eqo')) (@alike_rst F F' A A' eqo eqo' R R')) (ark_ms1_prove sch e xs ys x y c s) (ark_ms1_prove sch f xs' ys' x' y' d t).
Proof.
move=> F F' A A' eqo eqo' R R' sch e f xs xs' ys ys' x x' y y' c d s t he hx hy hcx hcy hc hs; exact: (sms1_prove (@alike_ok F F' A A' eqo eqo') (@alike_D F F' A A' eqo eqo' R R') sch he hx hy hcx hcy hc hs).
Qed.
Lemma k_traced_ms1_commit_and_prove :
  forall (F : fieldType) (A : ark F) (R : ark_rng A) sch e f xs xs' ys ys' c d s t,
  lms1 (forget A) e f -> rseq (la1 (forget A)) xs xs' -> rseq (lf (forget A)) ys ys' -> lcrs (forget A) c d -> (@forget_rst F A _ R) s t ->
  rres (rpair (lcproof (forget A)) (@forget_rst F A _ R)) (ark_ms1_commit_and_prove sch e xs ys c s) (ark_ms1_commit_and_prove sch f xs' ys' d t).
Proof.
move=> F A R sch e f xs xs' ys ys' c d s t he hx hy hc hs; exact: (sms1_commit_and_prove (@forget_ok F A) (@forget_D F A R) sch he hx hy hc hs).
Qed.
Lemma k_alike_ms1_commit_and_prove :
  forall (F F' : fieldType) (A : ark F) (A' : ark F') (eqo : cmp A) (eqo' : cmp A') (R : ark_rng A) (R' : ark_rng A') sch e f xs xs' ys ys' c d s t,
  lms1 (@alike F F' A A' eqo eqo') e f -> rseq (la1 (@alike F F' A A' eqo eqo')) xs xs' -> rseq (lf (@alike F F' A A' eqo eqo')) ys ys' -> lcrs (@alike F F' A A' eqo eqo') c d -> (@alike_rst F F' A A' eqo eqo' R R') s t ->
  rres (rpair (lcproof (@alike F F' A A' eqo eqo')) (@alike_rst F F' A A' eqo eqo' R R')) (ark_ms1_commit_and_prove sch e xs ys c s) (ark_ms1_commit_and_prove sch f xs' ys' d t).
Proof.
move=> F F' A A' eqo eqo' R R' sch e f xs xs' ys ys' c d s t he hx hy hc hs; exact: (sms1_commit_and_prove (@alike_ok F F' A A' eqo eqo') (@alike_D F F' A A' eqo eqo' R R') sch he hx hy hc hs).
Qed.
Lemma k_traced_ms1_verify :
  forall (F : fieldType) (A : ark F) sch e f p q c d,
  lms1 (forget A) e f -> lcproof (forget A) p q -> lcrs (forget A) c d ->
  ark_ms1_verify sch e p c = ark_ms1_verify sch f q d.
Proof.
move=> F A sch e f p q c d he hp hc; exact: (sms1_verify (@forget_ok F A) (@forget_DT F A) sch he hp hc).
Qed.
Lemma k_alike_ms1_verify :
  forall (F F' : fieldType) (A : ark F) (A' : ark F') (P : expr -> expr -> bool) sch
  (e : ark_MSMEG1 (watched A P)) (f : ark_MSMEG1 (watched A' P))
  (p : ark_CProof (watched A P)) (q : ark_CProof (watched A' P)) c d,
  lms1 (alike_watched A A' P) e f -> lcproof (alike_watched A A' P) p q -> lcrs (alike_watched A A' P) c d ->
  ark_ms1_verify sch e p c = ark_ms1_verify sch f q d.
Proof.
move=> F F' A A' P sch e f p q c d he hp hc; exact: (sms1_verify (@alike_ok F F' A A' _ _) (@alike_DT F F' A A' P) sch he hp hc).
Qed.
Lemma k_traced_ms2_prove :
  forall (F : fieldType) (A : ark F) (R : ark_rng A) sch e f xs xs' ys ys' x x' y y' c d s t,
  lms2 (forget A) e f -> rseq (lf (forget A)) xs xs' -> rseq (la2 (forget A)) ys ys' -> lcommit1 (forget A) x x' -> lcommit2 (forget A) y y' -> lcrs (forget A) c d ->
  (@forget_rst F A _ R) s t ->
  rres (rpair (lequproof (forget A)) (@forget_rst F A _ R)) (ark_ms2_prove sch e xs ys x y c s) (ark_ms2_prove sch f xs' ys' x' y' d t).
Proof.
move=> F A R sch e f xs xs' ys ys' x x' y y' c d s t he hx hy hcx hcy hc hs; exact: (sms2_prove (@forget_ok F A) (@forget_D F A R) sch he hx hy hcx hcy hc hs).
Qed.
Lemma k_alike_ms2_prove :
  forall (F F' : fieldType) (A : ark F) (A' : ark F') (eqo : cmp A) (eqo' : cmp A') (R : ark_rng A) (R' : ark_rng A') sch e f xs xs' ys ys' x x' y y' c d s t,
  lms2 (@alike F F' A A' eqo eqo') e f -> rseq (lf (@alike F F' A A' eqo eqo')) xs xs' -> rseq (la2 (@alike F F' A A' eqo eqo')) ys ys' -> lcommit1 (@alike F F' A A' eqo eqo') x x' -> lcommit2 (@alike F F' A A' eqo eqo') y y' -> lcrs (@alike F F' A A' eqo eqo') c d ->
  (@alike_rst F F' A A' eqo eqo' R R') s t ->
  rres (rpair (lequproof (@alike F F' A A' eqo eqo')) (@alike_rst F F' A A' eqo eqo' R R')) (ark_ms2_prove sch e xs ys x y c s) (ark_ms2_prove sch f xs' ys' x' y' d t).
Proof.
move=> F F' A A' eqo eqo' R R' sch e f xs xs' ys ys' x x' y y' c d s t he hx hy hcx hcy hc hs; exact: (sms2_prove (@alike_ok F F' A A' eqo eqo') (@alike_D F F' A A' eqo eqo' R R') sch he hx hy hcx hcy hc hs).
Qed.
Lemma k_traced_ms2_commit_and_prove :
  forall (F : fieldType) (A : ark F) (R : ark_rng A) sch e f xs xs' ys ys' c d s t,
  lms2 (forget A) e f -> rseq (lf (forget A)) xs xs' -> rseq (la2 (forget A)) ys ys' -> lcrs (forget A) c d -> (@forget_rst F A _ R) s t ->
  rres (rpair (lcproof (forget A)) (@forget_rst F A _ R)) (ark_ms2_commit_and_prove sch e xs ys c s) (ark_ms2_commit_and_prove sch f xs' ys' d t).
Proof.
move=> F A R sch e f xs xs' ys ys' c d s t he hx hy hc hs; exact: (sms2_commit_and_prove (@forget_ok F A) (@forget_D F A R) sch he hx hy hc hs).
Qed.
Lemma k_alike_ms2_commit_and_prove :
  forall (F F' : fieldType) (A : ark F) (A' : ark F') (eqo : cmp A) (eqo' : cmp A') (R : ark_rng A) (R' : ark_rng A') sch e f xs xs' ys ys' c d s t,
  lms2 (@alike F F' A A' eqo eqo') e f -> rseq (lf (@alike F F' A A' eqo eqo')) xs xs' -> rseq (la2 (@alike F F' A A' eqo eqo')) ys ys' -> lcrs (@alike F F' A A' eqo eqo') c d -> (@alike_rst F F' A A' eqo eqo' R R') s t ->
  rres (rpair (lcproof (@alike F F' A A' eqo eqo')) (@alike_rst F F' A A' eqo eqo' R R')) (ark_ms2_commit_and_prove sch e xs ys c s) (ark_ms2_commit_and_prove sch f xs' ys' d t).
Proof.
move=> F F' A A' eqo eqo' R R' sch e f xs xs' ys ys' c d s t he hx hy hc hs; exact: (sms2_commit_and_prove (@alike_ok F F' A A' eqo eqo') (@alike_D F F' A A' eqo eqo' R R') sch he hx hy hc hs).
Qed.
Lemma k_traced_ms2_verify :
  forall (F : fieldType) (A : ark F) sch e f p q c d,
  lms2 (forget A) e f -> lcproof (forget A) p q -> lcrs (forget A) c d ->
  ark_ms2_verify sch e p c = ark_ms2_verify sch f q d.
Proof.
move=> F A sch e f p q c d he hp hc; exact: (sms2_verify (@forget_ok F A) (@forget_DT F A) sch he hp hc).
Qed.
Lemma k_alike_ms2_verify :
  forall (F F' : fieldType) (A : ark F) (A' : ark F') (P : expr -> expr -> bool) sch
  (e : ark_MSMEG2 (watched A P)) (f : ark_MSMEG2 (watched A' P))
  (p : ark_CProof (watched A P)) (q : ark_CProof (watched A' P)) c d,
  lms2 (alike_watched A A' P) e f -> lcproof (alike_watched A A' P) p q -> lcrs (alike_watched A A' P) c d ->
  ark_ms2_verify sch e p c = ark_ms2_verify sch f q d.
Proof.
move=> F F' A A' P sch e f p q c d he hp hc; exact: (sms2_verify (@alike_ok F F' A A' _ _) (@alike_DT F F' A A' P) sch he hp hc).
Qed.
Lemma k_traced_quad_prove :
  forall (F : fieldType) (A : ark F) (R : ark_rng A) sch e f xs xs' ys ys' x x' y y' c d s t,
  lquad (forget A) e f -> rseq (lf (forget A)) xs xs' -> rseq (lf (forget A)) ys ys' -> lcommit1 (forget A) x x' -> lcommit2 (forget A) y y' -> lcrs (forget A) c d ->
  (@forget_rst F A _ R) s t ->
  rres (rpair (lequproof (forget A)) (@forget_rst F A _ R)) (ark_quad_prove sch e xs ys x y c s) (ark_quad_prove sch f xs' ys' x' y' d t).
Proof.
move=> F A R sch e f xs xs' ys ys' x x' y y' c d s t he hx hy hcx hcy hc hs; exact: (squad_prove (@forget_ok F A) (@forget_D F A R) sch he hx hy hcx hcy hc hs).
Qed.
Lemma k_alike_quad_prove :
  forall (F F' : fieldType) (A : ark F) (A' : ark F') (eqo : cmp A) (eqo' : cmp A') (R : ark_rng A) (R' : ark_rng A') sch e f xs xs' ys ys' x x' y y' c d s t,
  lquad (@alike F F' A A' eqo eqo') e f -> rseq (lf (@alike F F' A A' eqo eqo')) xs xs' -> rseq (lf (@alike F F' A A' eqo eqo')) ys ys' -> lcommit1 (@alike F F' A A' eqo eqo') x x' -> lcommit2 (@alike F F' A A' eqo eqo') y y' -> lcrs (@alike F F' A A' eqo eqo') c d ->
  (@alike_rst F F' A A' eqo eqo' R R') s t ->
  rres (rpair (lequproof (@alike F F' A A' eqo eqo')) (@alike_rst F F' A A' eqo eqo' R R')) (ark_quad_prove sch e xs ys x y c s) (ark_quad_prove sch f xs' ys' x' y' d t).
Proof.
move=> F F' A A' eqo eqo' R R' sch e f xs xs' ys ys' x x' y y' c d s t he hx hy hcx hcy hc hs; exact: (squad_prove (@alike_ok F F' A A' eqo eqo') (@alike_D F F' A A' eqo eqo' R R') sch he hx hy hcx hcy hc hs).
Qed.
Lemma k_traced_quad_commit_and_prove :
  forall (F : fieldType) (A : ark F) (R : ark_rng A) sch e f xs xs' ys ys' c d s t,
  lquad (forget A) e f -> rseq (lf (forget A)) xs xs' -> rseq (lf (forget A)) ys ys' -> lcrs (forget A) c d -> (@forget_rst F A _ R) s t ->
  rres (rpair (lcproof (forget A)) (@forget_rst F A _ R)) (ark_quad_commit_and_prove sch e xs ys c s) (ark_quad_commit_and_prove sch f xs' ys' d t).
Proof.
move=> F A R sch e f xs xs' ys ys' c d s t he hx hy hc hs; exact: (squad_commit_and_prove (@forget_ok F A) (@forget_D F A R) sch he hx hy hc hs).
Qed.
Lemma k_alike_quad_commit_and_prove :
  forall (F F' : fieldType) (A : ark F) (A' : ark F') (eqo : cmp A) (eqo' : cmp A') (R : ark_rng A) (R' : ark_rng A') sch e f xs xs' ys ys' c d s t,
  lquad (@alike F F' A A' eqo eqo') e f -> rseq (lf (@alike F F' A A' eqo eqo')) xs xs' -> rseq (lf (@alike F F' A A' eqo eqo')) ys ys' -> lcrs (@alike F F' A A' eqo eqo') c d -> (@alike_rst F F' A A' eqo eqo' R R') s t ->
  rres (rpair (lcproof (@alike F F' A A' eqo eqo')) (@alike_rst F F' A A' eqo eqo' R R')) (ark_quad_commit_and_prove sch e xs ys c s) (ark_quad_commit_and_prove sch f xs' ys' d t).
Proof.
move=> F F' A A' eqo eqo' R R' sch e f xs xs' ys ys' c d s t he hx hy hc hs; exact: (squad_commit_and_prove (@alike_ok F F' A A' eqo eqo') (@alike_D F F' A A' eqo eqo' R R') sch he hx hy hc hs).
Qed.
Lemma k_traced_quad_verify :
  forall (F : fieldType) (A : ark F) sch e f p q c d,
  lquad (forget A) e f -> lcproof (forget A) p q -> lcrs (forget A) c d ->
  ark_quad_verify sch e p c = ark_quad_verify sch f q d.
Proof.
move=> F A sch e f p q c d he hp hc; exact: (squad_verify (@forget_ok F A) (@forget_DT F A) sch he hp hc).
Qed.
Lemma k_alike_quad_verify :
  forall (F F' : fieldType) (A : ark F) (A' : ark F') (P : expr -> expr -> bool) sch
  (e : ark_QuadEqu F) (f : ark_QuadEqu F')
  (p : ark_CProof (watched A P)) (q : ark_CProof (watched A' P)) c d,
  lquad (alike_watched A A' P) e f -> lcproof (alike_watched A A' P) p q -> lcrs (alike_watched A A' P) c d ->
  ark_quad_verify sch e p c = ark_quad_verify sch f q d.
Proof.
move=> F F' A A' P sch e f p q c d he hp hc; exact: (squad_verify (@alike_ok F F' A A' _ _) (@alike_DT F F' A A' P) sch he hp hc).
Qed.
Lemma k_named_ppe_commit_and_prove :
  forall (F : fieldType) (A : ark F) (R : ark_rng A) sch (e : ark_PPE A) (xs : seq (aff (C1 A))) (ys : seq (aff (C2 A))) c (s : ark_rst R),
  rres (rpair (lcproof (forget A)) (@forget_rst F A _ R))
    (ark_ppe_commit_and_prove (A := traced A) (R := traced_rng (fun x y => @out_eq _ A x.1 y.1) R) sch (named_ppe (fun x y => @out_eq _ A x.1 y.1) e) (named 10 xs) (named 11 ys) (named_crs (fun x y => @out_eq _ A x.1 y.1) c) (s, 0%N))
    (ark_ppe_commit_and_prove sch e xs ys c s).
Proof.
move=> F A R sch e xs ys c s.
exact: (k_traced_ppe_commit_and_prove sch (@ppe_forget F A e) (named_forget 10 xs) (named_forget 11 ys) (@crs_forget F A c) (erefl : forget_rst ((s, 0%N) : ark_rst (traced_rng _ R)) s)).
Qed.
Lemma k_named_ms1_commit_and_prove :
  forall (F : fieldType) (A : ark F) (R : ark_rng A) sch (e : ark_MSMEG1 A) (xs : seq (aff (C1 A))) (ys : seq F) c (s : ark_rst R),
  rres (rpair (lcproof (forget A)) (@forget_rst F A _ R))
    (ark_ms1_commit_and_prove (A := traced A) (R := traced_rng (fun x y => @out_eq _ A x.1 y.1) R) sch (named_ms1 (fun x y => @out_eq _ A x.1 y.1) e) (named 10 xs) ys (named_crs (fun x y => @out_eq _ A x.1 y.1) c) (s, 0%N))
    (ark_ms1_commit_and_prove sch e xs ys c s).
Proof.
move=> F A R sch e xs ys c s.
exact: (k_traced_ms1_commit_and_prove sch (@ms1_forget F A e) (named_forget 10 xs) (rseq_eq _) (@crs_forget F A c) (erefl : forget_rst ((s, 0%N) : ark_rst (traced_rng _ R)) s)).
Qed.
Lemma k_named_ms2_commit_and_prove :
  forall (F : fieldType) (A : ark F) (R : ark_rng A) sch (e : ark_MSMEG2 A) (xs : seq F) (ys : seq (aff (C2 A))) c (s : ark_rst R),
  rres (rpair (lcproof (forget A)) (@forget_rst F A _ R))
    (ark_ms2_commit_and_prove (A := traced A) (R := traced_rng (fun x y => @out_eq _ A x.1 y.1) R) sch (named_ms2 (fun x y => @out_eq _ A x.1 y.1) e) xs (named 11 ys) (named_crs (fun x y => @out_eq _ A x.1 y.1) c) (s, 0%N))
    (ark_ms2_commit_and_prove sch e xs ys c s).
Proof.
move=> F A R sch e xs ys c s.
exact: (k_traced_ms2_commit_and_prove sch (@ms2_forget F A e) (rseq_eq _) (named_forget 11 ys) (@crs_forget F A c) (erefl : forget_rst ((s, 0%N) : ark_rst (traced_rng _ R)) s)).
Qed.
Lemma k_named_quad_commit_and_prove :
  forall (F : fieldType) (A : ark F) (R : ark_rng A) sch (e : ark_QuadEqu F) (xs : seq F) (ys : seq F) c (s : ark_rst R),
  rres (rpair (lcproof (forget A)) (@forget_rst F A _ R))
    (ark_quad_commit_and_prove (A := traced A) (R := traced_rng (fun x y => @out_eq _ A x.1 y.1) R) sch e xs ys (named_crs (fun x y => @out_eq _ A x.1 y.1) c) (s, 0%N))
    (ark_quad_commit_and_prove sch e xs ys c s).
Proof.
move=> F A R sch e xs ys c s.
exact: (k_traced_quad_commit_and_prove sch (@quad_forget F A e) (rseq_eq _) (rseq_eq _) (@crs_forget F A c) (erefl : forget_rst ((s, 0%N) : ark_rst (traced_rng _ R)) s)).
Qed.
Lemma k_sizes_ppe_commit_and_prove :
  forall (F F' : fieldType) (A : ark F) (A' : ark F') (eqo : cmp A) (eqo' : cmp A') (R : ark_rng A) (R' : ark_rng A')
  sch (e : ark_PPE A) (f : ark_PPE A') (xs : seq (aff (C1 A))) (xs' : seq (aff (C1 A'))) (ys : seq (aff (C2 A))) (ys' : seq (aff (C2 A'))) c d (s : ark_rst R) (t : ark_rst R') n,
  same_ppe e f -> size xs = size xs' -> size ys = size ys' -> same_crs c d ->
  rres (rpair (lcproof (@alike F F' A A' eqo eqo')) (@alike_rst F F' A A' eqo eqo' R R'))
    (ark_ppe_commit_and_prove (A := traced_with eqo) (R := traced_rng eqo R) sch (named_ppe eqo e) (named 10 xs) (named 11 ys) (named_crs eqo c) (s, n))
    (ark_ppe_commit_and_prove (A := traced_with eqo') (R := traced_rng eqo' R') sch (named_ppe eqo' f) (named 10 xs') (named 11 ys') (named_crs eqo' d) (t, n)).
Proof.
move=> F F' A A' eqo eqo' R R' sch e f xs xs' ys ys' c d s t n he hx hy hc.
exact: (k_alike_ppe_commit_and_prove sch (@ppe_alike F F' A A' eqo eqo' e f he) (named_alike 10 hx) (named_alike 11 hy) (@crs_alike F F' A A' eqo eqo' c d hc) (erefl : @alike_rst F F' A A' eqo eqo' R R' (s, n) (t, n))).
Qed.
Lemma k_sizes_ppe_verify :
  forall (F F' : fieldType) (A : ark F) (A' : ark F') (P : expr -> expr -> bool) sch
  (e : ark_PPE A) (f : ark_PPE A') (p : ark_CProof A) (q : ark_CProof A') c d,
  same_ppe e f -> same_cproof p q -> same_crs c d ->
  ark_ppe_verify (A := watched A P) sch (named_ppe (fun x y => P x.2 y.2) e) (named_cproof (fun x y => P x.2 y.2) p) (named_crs (fun x y => P x.2 y.2) c) =
  ark_ppe_verify (A := watched A' P) sch (named_ppe (fun x y => P x.2 y.2) f) (named_cproof (fun x y => P x.2 y.2) q) (named_crs (fun x y => P x.2 y.2) d).
Proof.
move=> F F' A A' P sch e f p q c d he hp hc.
exact: (@k_alike_ppe_verify F F' A A' P sch _ _ _ _ _ _ (@ppe_alike F F' A A' _ _ e f he) (@cproof_alike F F' A A' _ _ p q hp) (@crs_alike F F' A A' _ _ c d hc)).
Qed.
Lemma k_sizes_ms1_commit_and_prove :
  forall (F F' : fieldType) (A : ark F) (A' : ark F') (eqo : cmp A) (eqo' : cmp A') (R : ark_rng A) (R' : ark_rng A')
  sch (e : ark_MSMEG1 A) (f : ark_MSMEG1 A') (xs : seq (aff (C1 A))) (xs' : seq (aff (C1 A'))) (ys : seq F) (ys' : seq F') c d (s : ark_rst R) (t : ark_rst R') n,
  same_ms1 e f -> size xs = size xs' -> size ys = size ys' -> same_crs c d ->
  rres (rpair (lcproof (@alike F F' A A' eqo eqo')) (@alike_rst F F' A A' eqo eqo' R R'))
    (ark_ms1_commit_and_prove (A := traced_with eqo) (R := traced_rng eqo R) sch (named_ms1 eqo e) (named 10 xs) ys (named_crs eqo c) (s, n))
    (ark_ms1_commit_and_prove (A := traced_with eqo') (R := traced_rng eqo' R') sch (named_ms1 eqo' f) (named 10 xs') ys' (named_crs eqo' d) (t, n)).
Proof.
move=> F F' A A' eqo eqo' R R' sch e f xs xs' ys ys' c d s t n he hx hy hc.
exact: (k_alike_ms1_commit_and_prove sch (@ms1_alike F F' A A' eqo eqo' e f he) (named_alike 10 hx) (rseq_true hy) (@crs_alike F F' A A' eqo eqo' c d hc) (erefl : @alike_rst F F' A A' eqo eqo' R R' (s, n) (t, n))).
Qed.
Lemma k_sizes_ms1_verify :
  forall (F F' : fieldType) (A : ark F) (A' : ark F') (P : expr -> expr -> bool) sch
  (e : ark_MSMEG1 A) (f : ark_MSMEG1 A') (p : ark_CProof A) (q : ark_CProof A') c d,
  same_ms1 e f -> same_cproof p q -> same_crs c d ->
  ark_ms1_verify (A := watched A P) sch (named_ms1 (fun x y => P x.2 y.2) e) (named_cproof (fun x y => P x.2 y.2) p) (named_crs (fun x y => P x.2 y.2) c) =
  ark_ms1_verify (A := watched A' P) sch (named_ms1 (fun x y => P x.2 y.2) f) (named_cproof (fun x y => P x.2 y.2) q) (named_crs (fun x y => P x.2 y.2) d).
Proof.
move=> F F' A A' P sch e f p q c d he hp hc.
exact: (@k_alike_ms1_verify F F' A A' P sch _ _ _ _ _ _ (@ms1_alike F F' A A' _ _ e f he) (@cproof_alike F F' A A' _ _ p q hp) (@crs_alike F F' A A' _ _ c d hc)).
Qed.
Lemma k_sizes_ms2_commit_and_prove :
  forall (F F' : fieldType) (A : ark F) (A' : ark F') (eqo : cmp A) (eqo' : cmp A') (R : ark_rng A) (R' : ark_rng A')
  sch (e : ark_MSMEG2 A) (f : ark_MSMEG2 A') (xs : seq F) (xs' : seq F') (ys : seq (aff (C2 A))) (ys' : seq (aff (C2 A'))) c d (s : ark_rst R) (t : ark_rst R') n,
  same_ms2 e f -> size xs = size xs' -> size ys = size ys' -> same_crs c d ->
  rres (rpair (lcproof (@alike F F' A A' eqo eqo')) (@alike_rst F F' A A' eqo eqo' R R'))
    (ark_ms2_commit_and_prove (A := traced_with eqo) (R := traced_rng eqo R) sch (named_ms2 eqo e) xs (named 11 ys) (named_crs eqo c) (s, n))
    (ark_ms2_commit_and_prove (A := traced_with eqo') (R := traced_rng eqo' R') sch (named_ms2 eqo' f) xs' (named 11 ys') (named_crs eqo' d) (t, n)).
Proof.
move=> F F' A A' eqo eqo' R R' sch e f xs xs' ys ys' c d s t n he hx hy hc.
exact: (k_alike_ms2_commit_and_prove sch (@ms2_alike F F' A A' eqo eqo' e f he) (rseq_true hx) (named_alike 11 hy) (@crs_alike F F' A A' eqo eqo' c d hc) (erefl : @alike_rst F F' A A' eqo eqo' R R' (s, n) (t, n))).
Qed.
Lemma k_sizes_ms2_verify :
  forall (F F' : fieldType) (A : ark F) (A' : ark F') (P : expr -> expr -> bool) sch
  (e : ark_MSMEG2 A) (f : ark_MSMEG2 A') (p : ark_CProof A) (q : ark_CProof A') c d,
  same_ms2 e f -> same_cproof p q -> same_crs c d ->
  ark_ms2_verify (A := watched A P) sch (named_ms2 (fun x y => P x.2 y.2) e) (named_cproof (fun x y => P x.2 y.2) p) (named_crs (fun x y => P x.2 y.2) c) =
  ark_ms2_verify (A := watched A' P) sch (named_ms2 (fun x y => P x.2 y.2) f) (named_cproof (fun x y => P x.2 y.2) q) (named_crs (fun x y => P x.2 y.2) d).
Proof.
move=> F F' A A' P sch e f p q c d he hp hc.
exact: (@k_alike_ms2_verify F F' A A' P sch _ _ _ _ _ _ (@ms2_alike F F' A A' _ _ e f he) (@cproof_alike F F' A A' _ _ p q hp) (@crs_alike F F' A A' _ _ c d hc)).
Qed.
Lemma k_sizes_quad_commit_and_prove :
  forall (F F' : fieldType) (A : ark F) (A' : ark F') (eqo : cmp A) (eqo' : cmp A') (R : ark_rng A) (R' : ark_rng A')
  sch (e : ark_QuadEqu F) (f : ark_QuadEqu F') (xs : seq F) (xs' : seq F') (ys : seq F) (ys' : seq F') c d (s : ark_rst R) (t : ark_rst R') n,
  same_quad e f -> size xs = size xs' -> size ys = size ys' -> same_crs c d ->
  rres (rpair (lcproof (@alike F F' A A' eqo eqo')) (@alike_rst F F' A A' eqo eqo' R R'))
    (ark_quad_commit_and_prove (A := traced_with eqo) (R := traced_rng eqo R) sch e xs ys (named_crs eqo c) (s, n))
    (ark_quad_commit_and_prove (A := traced_with eqo') (R := traced_rng eqo' R') sch f xs' ys' (named_crs eqo' d) (t, n)).
Proof.
move=> F F' A A' eqo eqo' R R' sch e f xs xs' ys ys' c d s t n he hx hy hc.
exact: (k_alike_quad_commit_and_prove sch (@quad_alike F F' A A' eqo eqo' e f he) (rseq_true hx) (rseq_true hy) (@crs_alike F F' A A' eqo eqo' c d hc) (erefl : @alike_rst F F' A A' eqo eqo' R R' (s, n) (t, n))).
Qed.
Lemma k_sizes_quad_verify :
  forall (F F' : fieldType) (A : ark F) (A' : ark F') (P : expr -> expr -> bool) sch
  (e : ark_QuadEqu F) (f : ark_QuadEqu F') (p : ark_CProof A) (q : ark_CProof A') c d,
  same_quad e f -> same_cproof p q -> same_crs c d ->
  ark_quad_verify (A := watched A P) sch e (named_cproof (fun x y => P x.2 y.2) p) (named_crs (fun x y => P x.2 y.2) c) =
  ark_quad_verify (A := watched A' P) sch f (named_cproof (fun x y => P x.2 y.2) q) (named_crs (fun x y => P x.2 y.2) d).
Proof.
move=> F F' A A' P sch e f p q c d he hp hc.
exact: (@k_alike_quad_verify F F' A A' P sch _ _ _ _ _ _ (@quad_alike F F' A A' _ _ e f he) (@cproof_alike F F' A A' _ _ p q hp) (@crs_alike F F' A A' _ _ c d hc)).
Qed.
Lemma k_generate_crs_expr :
  forall (F : fieldType) (A : ark F) (eqo : cmp A) (R : ark_rng A) (s : ark_rst R),
  let r := ark_generate_crs (R := traced_rng eqo R) (s, 0%N) in
  let key p := [:: (ToA p, ToA (MulP p)); (ToA (MulP p), ToA (SubP (MulP (MulP p)) ZeroP))] in
  [/\ [seq (c.1.2, c.2.2) | c <- ark_crs_u r.1] = key (Drawn 0),
      [seq (c.1.2, c.2.2) | c <- ark_crs_v r.1] = key (Drawn 1),
      (ark_g1_gen r.1).2 = ToA (Drawn 0) /\ (ark_g2_gen r.1).2 = ToA (Drawn 1),
      (ark_gt_gen r.1).2 = Pair (ToA (Drawn 0)) (ToA (Drawn 1))
    & r.2.2 = 6%N].
Proof.
move=> F A eqo R s; rewrite /ark_generate_crs /=.
case: (ark_rand_g1 s) => p1 s1; case: (ark_rand_g2 s1) => p2 s2.
case: (ark_rand_fr s2) => a1 s3; case: (ark_rand_fr s3) => a2 s4; case: (ark_rand_fr s4) => t1 s5.
by case: (ark_rand_fr s5).
Qed.
Lemma k_cost_commit_G1 :
  forall (F : fieldType) (A : ark F) (eqo : cmp A) (R : ark_rng A) (w : op -> nat) (x : aff (C1 A)) c (s : ark_rst (traced_rng eqo R)) r t,
  ark_commit_G1 (A := traced_with eqo) (x, Inp 10 0) (named_crs eqo c) s = Ok (r, t) ->
  com_costs w (ark_coms r) (w OZeroA + times_cost w + plus_cost w + times_cost w + plus_cost w) (times_cost w + plus_cost w + times_cost w + plus_cost w) /\ t.2 = (s.2 + 2)%N.
Proof.
move=> F A eqo R w x c s r t hr.
have [h1 h2] := post_ok (@cost_commit_G1 F A eqo w (traced_rng eqo R) (fun s => s.2) (@traced_draw_fr F A eqo R) (x, Inp 10 0) c s erefl) hr.
by split=> //; apply: All_In h1.
Qed.
Lemma k_cost_batch_commit_G1 :
  forall (F : fieldType) (A : ark F) (eqo : cmp A) (R : ark_rng A) (w : op -> nat) (x : seq (aff (C1 A))) c (s : ark_rst (traced_rng eqo R)) r t,
  ark_batch_commit_G1 (A := traced_with eqo) (named 10 x) (named_crs eqo c) s = Ok (r, t) ->
  com_costs w (ark_coms r) (w OZeroA + comb_cost w (size (ark_crs_u c)) 0 + plus_cost w) (comb_cost w (size (ark_crs_u c)) 0 + plus_cost w) /\ t.2 = (s.2 + 2 * size x)%N.
Proof.
move=> F A eqo R w x c s r t hr.
have [h1 h2] := post_ok (@cost_batch_commit_G1 F A eqo w (traced_rng eqo R) (fun s => s.2) (@traced_draw_fr F A eqo R) (named 10 x) c s (named_free w 10 x)) hr.
rewrite size_named in h2.
by split=> //; apply: All_In h1.
Qed.
Lemma k_cost_commit_scalar_to_B1 :
  forall (F : fieldType) (A : ark F) (eqo : cmp A) (R : ark_rng A) (w : op -> nat) (x : F) c (s : ark_rst (traced_rng eqo R)) r t,
  ark_commit_scalar_to_B1 (A := traced_with eqo) x (named_crs eqo c) s = Ok (r, t) ->
  com_costs w (ark_coms r) (scalar_cost1 w + times_cost w + plus_cost w) (scalar_cost2 w + times_cost w + plus_cost w) /\ t.2 = (s.2 + 1)%N.
Proof.
move=> F A eqo R w x c s r t hr.
have [h1 h2] := post_ok (@cost_commit_scalar_to_B1 F A eqo w (traced_rng eqo R) (fun s => s.2) (@traced_draw_fr F A eqo R) x c s) hr.
by split=> //; apply: All_In h1.
Qed.
Lemma k_cost_batch_commit_scalar_to_B1 :
  forall (F : fieldType) (A : ark F) (eqo : cmp A) (R : ark_rng A) (w : op -> nat) (x : seq F) c (s : ark_rst (traced_rng eqo R)) r t,
  ark_batch_commit_scalar_to_B1 (A := traced_with eqo) x (named_crs eqo c) s = Ok (r, t) ->
  com_costs w (ark_coms r) (scalar_cost1 w + times_cost w + plus_cost w) (scalar_cost2 w + times_cost w + plus_cost w) /\ t.2 = (s.2 + size x)%N.
Proof.
move=> F A eqo R w x c s r t hr.
have [h1 h2] := post_ok (@cost_batch_commit_scalar_to_B1 F A eqo w (traced_rng eqo R) (fun s => s.2) (@traced_draw_fr F A eqo R) x c s) hr.
by split=> //; apply: All_In h1.
Qed.
Lemma k_cost_commit_G2 :
  forall (F : fieldType) (A : ark F) (eqo : cmp A) (R : ark_rng A) (w : op -> nat) (x : aff (C2 A)) c (s : ark_rst (traced_rng eqo R)) r t,
  ark_commit_G2 (A := traced_with eqo) (x, Inp 10 0) (named_crs eqo c) s = Ok (r, t) ->
  com_costs w (ark_coms r) (w OZeroA + times_cost w + plus_cost w + times_cost w + plus_cost w) (times_cost w + plus_cost w + times_cost w + plus_cost w) /\ t.2 = (s.2 + 2)%N.
Proof.
move=> F A eqo R w x c s r t hr.
have [h1 h2] := post_ok (@cost_commit_G2 F A eqo w (traced_rng eqo R) (fun s => s.2) (@traced_draw_fr F A eqo R) (x, Inp 10 0) c s erefl) hr.
by split=> //; apply: All_In h1.
Qed.
Lemma k_cost_batch_commit_G2 :
  forall (F : fieldType) (A : ark F) (eqo : cmp A) (R : ark_rng A) (w : op -> nat) (x : seq (aff (C2 A))) c (s : ark_rst (traced_rng eqo R)) r t,
  ark_batch_commit_G2 (A := traced_with eqo) (named 10 x) (named_crs eqo c) s = Ok (r, t) ->
  com_costs w (ark_coms r) (w OZeroA + comb_cost w (size (ark_crs_v c)) 0 + plus_cost w) (comb_cost w (size (ark_crs_v c)) 0 + plus_cost w) /\ t.2 = (s.2 + 2 * size x)%N.
Proof.
move=> F A eqo R w x c s r t hr.
have [h1 h2] := post_ok (@cost_batch_commit_G2 F A eqo w (traced_rng eqo R) (fun s => s.2) (@traced_draw_fr F A eqo R) (named 10 x) c s (named_free w 10 x)) hr.
rewrite size_named in h2.
by split=> //; apply: All_In h1.
Qed.
Lemma k_cost_commit_scalar_to_B2 :
  forall (F : fieldType) (A : ark F) (eqo : cmp A) (R : ark_rng A) (w : op -> nat) (x : F) c (s : ark_rst (traced_rng eqo R)) r t,
  ark_commit_scalar_to_B2 (A := traced_with eqo) x (named_crs eqo c) s = Ok (r, t) ->
  com_costs w (ark_coms r) (scalar_cost1 w + times_cost w + plus_cost w) (scalar_cost2 w + times_cost w + plus_cost w) /\ t.2 = (s.2 + 1)%N.
Proof.
move=> F A eqo R w x c s r t hr.
have [h1 h2] := post_ok (@cost_commit_scalar_to_B2 F A eqo w (traced_rng eqo R) (fun s => s.2) (@traced_draw_fr F A eqo R) x c s) hr.
by split=> //; apply: All_In h1.
Qed.
Lemma k_cost_batch_commit_scalar_to_B2 :
  forall (F : fieldType) (A : ark F) (eqo : cmp A) (R : ark_rng A) (w : op -> nat) (x : seq F) c (s : ark_rst (traced_rng eqo R)) r t,
  ark_batch_commit_scalar_to_B2 (A := traced_with eqo) x (named_crs eqo c) s = Ok (r, t) ->
  com_costs w (ark_coms r) (scalar_cost1 w + times_cost w + plus_cost w) (scalar_cost2 w + times_cost w + plus_cost w) /\ t.2 = (s.2 + size x)%N.
Proof.
move=> F A eqo R w x c s r t hr.
have [h1 h2] := post_ok (@cost_batch_commit_scalar_to_B2 F A eqo w (traced_rng eqo R) (fun s => s.2) (@traced_draw_fr F A eqo R) x c s) hr.
by split=> //; apply: All_In h1.
Qed.
Lemma k_cost_ppe_prove :
  forall (F : fieldType) (A : ark F) (eqo : cmp A) (R : ark_rng A) (w : op -> nat) sch (e : ark_PPE A) (xs : seq (aff (C1 A))) (ys : seq (aff (C2 A))) x y c (s : ark_rst (traced_rng eqo R)) r t,
  ark_ppe_prove (A := traced_with eqo) sch (named_ppe eqo e) (named 10 xs) (named 11 ys) x y (named_crs eqo c) s = Ok (r, t) ->
  [/\ com_costs w (ark_pi r) (comb_cost w (size (ark_ppe_b e)) (w OZeroA) + comb_cost w (size ys) (w OZeroA) + plus_cost w + comb_cost w (size (ark_crs_v c)) 0 + plus_cost w) (comb_cost w (size (ark_ppe_b e)) 0 + comb_cost w (size ys) 0 + plus_cost w + comb_cost w (size (ark_crs_v c)) 0 + plus_cost w),
      com_costs w (ark_theta r) (comb_cost w (size (ark_ppe_a e)) (w OZeroA) + comb_cost w (size xs) (w OZeroA) + plus_cost w + comb_cost w (size (ark_crs_u c)) 0 + plus_cost w) (comb_cost w (size (ark_ppe_a e)) 0 + comb_cost w (size xs) 0 + plus_cost w + comb_cost w (size (ark_crs_u c)) 0 + plus_cost w)
    & t.2 = (s.2 + 4)%N].
Proof.
move=> F A eqo R w sch e xs ys x y c s r t hr.
have [h1 h2 h3] := post_ok (@cost_ppe_prove F A eqo w (traced_rng eqo R) (fun s => s.2) (@traced_draw_fr F A eqo R) sch e (named 10 xs) (named 11 ys) x y c s (named_free w 10 xs) (named_free w 11 ys)) hr.
rewrite size_named in h2.
rewrite size_named in h1.
by split=> //; [apply: All_In h1 | apply: All_In h2].
Qed.
Lemma k_cost_ms1_prove :
  forall (F : fieldType) (A : ark F) (eqo : cmp A) (R : ark_rng A) (w : op -> nat) sch (e : ark_MSMEG1 A) (xs : seq (aff (C1 A))) (ys : seq F) x y c (s : ark_rst (traced_rng eqo R)) r t,
  ark_ms1_prove (A := traced_with eqo) sch (named_ms1 eqo e) (named 10 xs) ys x y (named_crs eqo c) s = Ok (r, t) ->
  [/\ com_costs w (ark_pi r) (comb_cost w (size (ark_ms1_b e)) (scalar_cost1 w) + comb_cost w (size ys) (scalar_cost1 w) + plus_cost w + comb_cost w 1 0 + plus_cost w) (comb_cost w (size (ark_ms1_b e)) (scalar_cost2 w) + comb_cost w (size ys) (scalar_cost2 w) + plus_cost w + comb_cost w 1 0 + plus_cost w),
      com_costs w (ark_theta r) (comb_cost w (size (ark_ms1_a e)) (w OZeroA) + comb_cost w (size xs) (w OZeroA) + plus_cost w + comb_cost w (size (ark_crs_u c)) 0 + plus_cost w) (comb_cost w (size (ark_ms1_a e)) 0 + comb_cost w (size xs) 0 + plus_cost w + comb_cost w (size (ark_crs_u c)) 0 + plus_cost w)
    & t.2 = (s.2 + 2)%N].
Proof.
move=> F A eqo R w sch e xs ys x y c s r t hr.
have [h1 h2 h3] := post_ok (@cost_ms1_prove F A eqo w (traced_rng eqo R) (fun s => s.2) (@traced_draw_fr F A eqo R) sch e (named 10 xs) ys x y c s (named_free w 10 xs)) hr.
rewrite size_named in h2.
by split=> //; [apply: All_In h1 | apply: All_In h2].
Qed.
Lemma k_cost_ms2_prove :
  forall (F : fieldType) (A : ark F) (eqo : cmp A) (R : ark_rng A) (w : op -> nat) sch (e : ark_MSMEG2 A) (xs : seq F) (ys : seq (aff (C2 A))) x y c (s : ark_rst (traced_rng eqo R)) r t,
  ark_ms2_prove (A := traced_with eqo) sch (named_ms2 eqo e) xs (named 11 ys) x y (named_crs eqo c) s = Ok (r, t) ->
  [/\ com_costs w (ark_pi r) (comb_cost w (size (ark_ms2_b e)) (w OZeroA) + comb_cost w (size ys) (w OZeroA) + plus_cost w + comb_cost w (size (ark_crs_v c)) 0 + plus_cost w) (comb_cost w (size (ark_ms2_b e)) 0 + comb_cost w (size ys) 0 + plus_cost w + comb_cost w (size (ark_crs_v c)) 0 + plus_cost w),
      com_costs w (ark_theta r) (comb_cost w (size (ark_ms2_a e)) (scalar_cost1 w) + comb_cost w (size xs) (scalar_cost1 w) + plus_cost w + comb_cost w 1 0 + plus_cost w) (comb_cost w (size (ark_ms2_a e)) (scalar_cost2 w) + comb_cost w (size xs) (scalar_cost2 w) + plus_cost w + comb_cost w 1 0 + plus_cost w)
    & t.2 = (s.2 + 2)%N].
Proof.
move=> F A eqo R w sch e xs ys x y c s r t hr.
have [h1 h2 h3] := post_ok (@cost_ms2_prove F A eqo w (traced_rng eqo R) (fun s => s.2) (@traced_draw_fr F A eqo R) sch e xs (named 11 ys) x y c s (named_free w 11 ys)) hr.
rewrite size_named in h1.
by split=> //; [apply: All_In h1 | apply: All_In h2].
Qed.
Lemma k_cost_quad_prove :
  forall (F : fieldType) (A : ark F) (eqo : cmp A) (R : ark_rng A) (w : op -> nat) sch (e : ark_QuadEqu F) (xs : seq F) (ys : seq F) x y c (s : ark_rst (traced_rng eqo R)) r t,
  ark_quad_prove (A := traced_with eqo) sch e xs ys x y (named_crs eqo c) s = Ok (r, t) ->
  [/\ com_costs w (ark_pi r) (comb_cost w (size (ark_quad_b e)) (scalar_cost1 w) + comb_cost w (size ys) (scalar_cost1 w) + plus_cost w + comb_cost w 1 0 + plus_cost w) (comb_cost w (size (ark_quad_b e)) (scalar_cost2 w) + comb_cost w (size ys) (scalar_cost2 w) + plus_cost w + comb_cost w 1 0 + plus_cost w),
      com_costs w (ark_theta r) (comb_cost w (size (ark_quad_a e)) (scalar_cost1 w) + comb_cost w (size xs) (scalar_cost1 w) + plus_cost w + comb_cost w 1 0 + plus_cost w) (comb_cost w (size (ark_quad_a e)) (scalar_cost2 w) + comb_cost w (size xs) (scalar_cost2 w) + plus_cost w + comb_cost w 1 0 + plus_cost w)
    & t.2 = (s.2 + 1)%N].
Proof.
move=> F A eqo R w sch e xs ys x y c s r t hr.
have [h1 h2 h3] := post_ok (@cost_quad_prove F A eqo w (traced_rng eqo R) (fun s => s.2) (@traced_draw_fr F A eqo R) sch e xs ys x y c s ) hr.
by split=> //; [apply: All_In h1 | apply: All_In h2].
Qed.
Lemma k_pairs_ppe_verify :
  forall (F : fieldType) (A : ark F) sch (e : ark_PPE A) (p : ark_CProof A) f c b,
  ark_equ_proofs p = [:: f] ->
  let P l r := ((cost pairings l == size (ark_ppe_a e) + size (ark_coms (ark_xcoms p)) + size (ark_coms (ark_xcoms p)))
    && (cost pairings r == size (ark_crs_u c) + size (ark_theta f)))%N in
  let eqo (x y : out A * expr) := P x.2 y.2 in
  ark_ppe_verify (A := watched A P) sch (named_ppe eqo e) (named_cproof eqo p) (named_crs eqo c) = Ok b -> b = true.
Proof.
move=> F A sch e p f c b hp P eqo hb.
apply: (post_ok (@pairs_ppe_verify F A P sch e p f c hp _) hb).
by move=> l r h1 h2; rewrite /P h1 h2 !eqxx.
Qed.
Lemma k_pairs_ms1_verify :
  forall (F : fieldType) (A : ark F) sch (e : ark_MSMEG1 A) (p : ark_CProof A) f c b,
  ark_equ_proofs p = [:: f] ->
  let P l r := ((cost pairings l == size (ark_ms1_a e) + size (ark_coms (ark_xcoms p)) + size (ark_coms (ark_xcoms p)))
    && (cost pairings r == 1 + size (ark_crs_u c) + 1))%N in
  let eqo (x y : out A * expr) := P x.2 y.2 in
  ark_ms1_verify (A := watched A P) sch (named_ms1 eqo e) (named_cproof eqo p) (named_crs eqo c) = Ok b -> b = true.
Proof.
move=> F A sch e p f c b hp P eqo hb.
apply: (post_ok (@pairs_ms1_verify F A P sch e p f c hp _) hb).
by move=> l r h1 h2; rewrite /P h1 h2 !eqxx.
Qed.
Lemma k_pairs_ms2_verify :
  forall (F : fieldType) (A : ark F) sch (e : ark_MSMEG2 A) (p : ark_CProof A) f c b,
  ark_equ_proofs p = [:: f] ->
  let P l r := ((cost pairings l == size (ark_ms2_a e) + size (ark_coms (ark_xcoms p)) + size (ark_coms (ark_xcoms p)))
    && (cost pairings r == 1 + 1 + size (ark_theta f)))%N in
  let eqo (x y : out A * expr) := P x.2 y.2 in
  ark_ms2_verify (A := watched A P) sch (named_ms2 eqo e) (named_cproof eqo p) (named_crs eqo c) = Ok b -> b = true.
Proof.
move=> F A sch e p f c b hp P eqo hb.
apply: (post_ok (@pairs_ms2_verify F A P sch e p f c hp _) hb).
by move=> l r h1 h2; rewrite /P h1 h2 !eqxx.
Qed.
Lemma k_pairs_quad_verify :
  forall (F : fieldType) (A : ark F) sch (e : ark_QuadEqu F) (p : ark_CProof A) f c b,
  ark_equ_proofs p = [:: f] ->
  let P l r := ((cost pairings l == size (ark_quad_a e) + size (ark_coms (ark_xcoms p)) + size (ark_coms (ark_xcoms p)))
    && (cost pairings r == 1 + 1 + 1))%N in
  let eqo (x y : out A * expr) := P x.2 y.2 in
  ark_quad_verify (A := watched A P) sch e (named_cproof eqo p) (named_crs eqo c) = Ok b -> b = true.
Proof.
move=> F A sch e p f c b hp P eqo hb.
apply: (post_ok (@pairs_quad_verify F A P sch e p f c hp _) hb).
by move=> l r h1 h2; rewrite /P h1 h2 !eqxx.
Qed.
