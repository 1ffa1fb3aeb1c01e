(** What the operations of the matrix and proof code cost: lemmas about the
    results of runs that do not panic. *)
From mathcomp Require Import all_ssreflect all_algebra.
From Verif Require Import Base Group DataStructures Commit Statement Derived Verify.
From Verif Require Import Ark SpecArk ArkRel SpecTrace.
Set Implicit Arguments.
Unset Strict Implicit.
Unset Printing Implicit Defensive.
Import GRing.Theory.

(** [P] holds of what [m] returns, if it returns. *)
Definition post {T} (P : T -> Prop) (m : res T) : Prop := if m is Ok x then P x else True.
Lemma pbind S T (Q : S -> Prop) (P : T -> Prop) m k :
  post Q m -> (forall x, Q x -> post P (k x)) -> post P (bind m k).
Proof. by case: m => //= x h H; apply: H. Qed.
Lemma pany T (m : res T) : post (fun _ => True) m.
Proof. by case: m. Qed.
Lemma pweak S (P Q : S -> Prop) m : post Q m -> (forall x, Q x -> P x) -> post P m.
Proof. by case: m => //= x h H; apply: H. Qed.

(** [P] holds of all entries. *)
Fixpoint All {T} (P : T -> Prop) (s : seq T) : Prop := if s is x :: s' then P x /\ All P s' else True.
Lemma All_In T (P : T -> Prop) s : All P s -> forall x, List.In x s -> P x.
Proof. by elim: s => //= x s IH [h hs] y [<- //|]; apply: IH. Qed.
Lemma All_cat T (P : T -> Prop) s t : All P s -> All P t -> All P (s ++ t).
Proof. by elim: s => //= x s IH [h hs] ht; split=> //; apply: IH. Qed.
Lemma All_any T s : All (fun _ : T => True) s.
Proof. by elim: s. Qed.
Lemma All_weak T (P Q : T -> Prop) s : All Q s -> (forall x, Q x -> P x) -> All P s.
Proof. by move=> + H; elim: s => //= x s IH [h hs]; split; [apply: H | apply: IH]. Qed.
Lemma All_and T (P Q : T -> Prop) s : All P s -> All Q s -> All (fun x => P x /\ Q x) s.
Proof. by elim: s => //= x s IH [h hs] [h' hs']; split=> //; apply: IH. Qed.
Lemma All_map S T (P : T -> Prop) (Q : S -> Prop) (f : S -> T) s :
  (forall x, Q x -> P (f x)) -> All Q s -> All P (map f s).
Proof. by move=> H; elim: s => //= x s IH [h hs]; split; [apply: H | apply: IH]. Qed.
Lemma All_mapi S T (P : T -> Prop) (f : S -> T) s : (forall x, P (f x)) -> All P (map f s).
Proof. by move=> H; elim: s => //= x s IH; split. Qed.
Lemma All_nseq T (P : T -> Prop) n x : P x -> All P (nseq n x).
Proof. by move=> h; elim: n. Qed.
Lemma All_nth T (P : T -> Prop) s x i : All P s -> P x -> P (nth x s i).
Proof.
elim: s i => [|y s IH] i; first by rewrite nth_nil.
by case: i => [|i] [h hs] hx //=; apply: IH.
Qed.
Lemma All_set_nth T (P : T -> Prop) s x i y : All P s -> P x -> P y -> All P (set_nth x s i y).
Proof.
elim: s i => [|z s IH] i /=; last by case: i => [|i] /= [h hs] hx hy; split=> //; apply: IH.
by move=> _ hx hy; case: i => [|i] //=; split=> //; elim: i => //= i IH; split.
Qed.
Lemma pidx T (P : T -> Prop) s i : All P s -> post P (idx s i).
Proof. by elim: s i => [|x s IH] [|i] //= [h hs] //; apply: IH. Qed.
Lemma pmapM S T (Q : S -> Prop) (P : T -> Prop) f s :
  (forall x, Q x -> post P (f x)) -> All Q s -> post (All P) (mapM f s).
Proof.
move=> H; elim: s => //= x s IH [h hs].
by apply: pbind (H _ h) _ => y hy; apply: pbind (IH hs) _.
Qed.
Lemma pmapMi S T (P : T -> Prop) (f : S -> res T) s : (forall x, post P (f x)) -> post (All P) (mapM f s).
Proof. by move=> H; apply: (pmapM (Q := fun _ => True)) (All_any s) => x _; apply: H. Qed.
Lemma pfoldM A S (P : S -> Prop) (f : S -> A -> res S) a s :
  P a -> (forall b x, P b -> post P (f b x)) -> post P (foldM f a s).
Proof. by move=> h H; elim: s a h => //= x s IH a h; apply: pbind (H _ _ h) _. Qed.

Definition OptP {T} (P : T -> Prop) (o : option T) : Prop := if o is Some x then P x else True.
Lemma ppar_collect T (P : T -> Prop) ord r c f :
  (forall i j, post P (f i j)) -> post (All (All P)) (par_collect ord r c f).
Proof.
move=> H; apply: (pbind (Q := All (All (OptP P)))).
  apply: pfoldM => [|b ij hb]; first by apply: All_nseq; apply: All_nseq.
  apply: pbind (H _ _) _ => v hv /=; apply: All_set_nth => //.
  apply: All_set_nth => //; exact: All_nth.
move=> b hb; apply: pmapM hb => row hrow; apply: pmapM hrow => -[x|] //=.
Qed.

Section Mat.
Context {T S : Type} (mu : T -> nat) (z p t : nat).
Variables (tz : T) (ta : T -> T -> T) (ts : T -> S -> T).
Hypothesis mz : mu tz = z.
Hypothesis ma : forall a b, mu (ta a b) = (mu a + mu b + p)%N.
Hypothesis ms : forall a k, mu (ts a k) = (mu a + t)%N.
Local Notation costs c := (fun x : T => mu x = c).

Lemma psumM A (f : A -> res T) c s : (forall i, post (costs c) (f i)) ->
  post (costs (z + size s * (c + p)))%N (sumM tz ta f s).
Proof.
move=> H; rewrite -mz /sumM; move: tz; elim: s => [|i s IH] a /=; first by rewrite mul0n addn0.
case: (f i) (H i) => //= x hx; apply: pweak (IH _) _ => y ->.
by rewrite ma hx mulSn !addnA.
Qed.

Lemma pmat_left_mul ord M (B : matrix S) par c : All (All (costs c)) M ->
  post (All (All (costs (z + size M * (c + t + p)))%N)) (mat_left_mul tz ta ts ord M B par).
Proof.
move=> h; rewrite /mat_left_mul; case: ifP => // _; case: ifP => // _.
apply: pbind (pany _) _ => l0 _; apply: pbind (pany _) _ => _ _; apply: pbind (pany _) _ => s0 _.
have hc i j : post (costs (z + size M * (c + t + p))%N)
   (let! row := idx B i in let dim := size M in sumM tz ta (fun k => let! sk := idx M k in let! x := idx sk j in let! c := idx row k in Ok (ts x c)) (iota 0 dim)).
  apply: pbind (pany _) _ => row _ /=; rewrite -{1}(size_iota 0 (size M)); apply: psumM => k.
  apply: pbind (pidx k h) _ => sk hsk; apply: pbind (pidx j hsk) _ => x hx.
  by apply: pbind (pany _) _ => b _ /=; rewrite ms hx.
case: par; first exact: ppar_collect.
by apply: pmapMi => i; apply: pmapMi => j.
Qed.

Lemma pmat_add M N c d : All (All (costs c)) M -> All (All (costs d)) N ->
  post (All (All (costs (c + d + p)%N))) (mat_add ta M N).
Proof.
move=> h h'; do 4 apply: pbind (pany _) _ => ? _.
apply: pmapMi => i; apply: pmapMi => j.
apply: pbind (pidx i h) _ => r hr; apply: pbind (pidx j hr) _ => a ha.
apply: pbind (pidx i h') _ => r' hr'; apply: pbind (pidx j hr') _ => b hb /=.
by rewrite ma ha hb.
Qed.
End Mat.

Lemma pcol_vec_to_vec T (P : T -> Prop) M : All (All P) M -> post (All P) (col_vec_to_vec M).
Proof.
move=> h; rewrite /col_vec_to_vec; case: ifP => _; first exact: pidx.
by apply: pmapM h => r hr; apply: pidx.
Qed.
Lemma Avec_to_col_vec T (P : T -> Prop) s : All P s -> All (All P) (vec_to_col_vec s).
Proof. by apply: All_map => x hx; split. Qed.
Lemma size_vec_to_col_vec T (s : seq T) : size (vec_to_col_vec s) = size s.
Proof. exact: size_map. Qed.

Lemma pand T (P Q : T -> Prop) m : post P m -> post Q m -> post (fun x => P x /\ Q x) m.
Proof. by case: m. Qed.
Lemma Aand T (P Q : T -> Prop) M : All (All P) M -> All (All Q) M -> All (All (fun x => P x /\ Q x)) M.
Proof. by elim: M => //= r M IH [h hs] [h' hs']; split; [apply: All_and | apply: IH]. Qed.
Lemma Aweak T (P Q : T -> Prop) M : All (All Q) M -> (forall x, Q x -> P x) -> All (All P) M.
Proof. by move=> h H; apply: All_weak h _ => r hr; apply: All_weak hr _. Qed.
Lemma pmapM_size S T (f : S -> res T) s : post (fun t => size t = size s) (mapM f s).
Proof. by elim: s => //= x s IH; apply: pbind (pany _) _ => y _; apply: pbind IH _ => t /= ->. Qed.

Lemma passert_eq a b : post (fun _ => a = b) (assert_eq a b).
Proof. by rewrite /assert_eq; case: eqP. Qed.

(** ** Costs of commitments *)
Section Com.
Context {F : fieldType} {C : curve F} (w : op -> nat).
Local Notation K := (ark_com (traced_curve C)).
Definition cc (c d : nat) (x : K) : Prop := cost w x.1.2 = c /\ cost w x.2.2 = d.

Lemma cc_zero : cc (w OZeroA) (w OZeroA) ark_com_zero.
Proof. by []. Qed.
Lemma cc_add a b c d x y : cc a b x -> cc c d y ->
  cc (a + c + plus_cost w)%N (b + d + plus_cost w)%N (ark_com_add x y).
Proof. by case=> h1 h2 [h3 h4]; split; rewrite /= ?h1 ?h2 ?h3 ?h4 /plus_cost !addnA. Qed.
Lemma cc_mul a b x k : cc a b x -> cc (a + times_cost w)%N (b + times_cost w)%N (ark_com_scalar_mul x k).
Proof. by case=> h1 h2; split; rewrite /= ?h1 ?h2 /times_cost !addnA. Qed.

Lemma pcmat_left_mul ord (M : matrix K) B par c d : All (All (cc c d)) M ->
  post (All (All (cc (comb_cost w (size M) c) (comb_cost w (size M) d)))) (ark_cmat_left_mul ord M B par).
Proof.
move=> h.
have h1 : All (All (fun x : K => cost w x.1.2 = c)) M by apply: Aweak h _ => x [].
have h2 : All (All (fun x : K => cost w x.2.2 = d)) M by apply: Aweak h _ => x [].
apply: (pweak (Q := fun N => All (All (fun x : K => cost w x.1.2 = comb_cost w (size M) c)) N
  /\ All (All (fun x : K => cost w x.2.2 = comb_cost w (size M) d)) N)); last by move=> N [? ?]; apply: Aand.
apply: pand; rewrite /comb_cost.
- apply: (pmat_left_mul (mu := fun x : K => cost w x.1.2)) h1 => // a b /=.
    by rewrite /plus_cost !addnA.
  by rewrite /times_cost !addnA.
- apply: (pmat_left_mul (mu := fun x : K => cost w x.2.2)) h2 => // a b /=.
    by rewrite /plus_cost !addnA.
  by rewrite /times_cost !addnA.
Qed.
Lemma pcmat_add (M N : matrix K) a b c d : All (All (cc a b)) M -> All (All (cc c d)) N ->
  post (All (All (cc (a + c + plus_cost w)%N (b + d + plus_cost w)%N))) (ark_cmat_add M N).
Proof.
move=> h h'; do 4 apply: pbind (pany _) _ => ? _.
apply: pmapMi => i; apply: pmapMi => j.
apply: pbind (pidx i h) _ => r hr; apply: pbind (pidx j hr) _ => x hx.
by apply: pbind (pidx i h') _ => r' hr'; apply: pbind (pidx j hr') _ => y hy /=; apply: cc_add.
Qed.
End Com.

(** ** Named inputs *)
Lemma size_named T k (s : seq T) : size (named k s) = size s.
Proof. by rewrite size_zip size_map size_iota minnn. Qed.
Lemma All_zip S T (P : S * T -> Prop) (Q : S -> Prop) (R : T -> Prop) s t :
  (forall x y, Q x -> R y -> P (x, y)) -> All Q s -> All R t -> All P (zip s t).
Proof. by move=> H; elim: s t => [|x s IH] [|y t] //= [h hs] [h' ht]; split; [apply: H | apply: IH]. Qed.
Lemma named_free T w k (s : seq T) : All (fun x => cost w x.2 = 0%N) (named k s).
Proof.
apply: (All_zip (Q := fun _ => True) (R := fun e => cost w e = 0%N)) => //; first exact: All_any.
exact: All_mapi.
Qed.

Section Runs.
Context {F : fieldType} {A : ark F} (eqo : cmp A) (w : op -> nat).
Local Notation T := (traced_with eqo).
Local Notation z := (w OZeroA).
Local Notation free := (fun x => cost w x.2 = 0%N).

Lemma size_named_coms1 k s : size (named_coms1 eqo k s) = size s.
Proof. by rewrite size_zip !size_named !size_map minnn. Qed.
Lemma size_named_coms2 k s : size (named_coms2 eqo k s) = size s.
Proof. by rewrite size_zip !size_named !size_map minnn. Qed.
Lemma named_coms1_free k s : All (@cc _ (C1 A) w 0 0) (named_coms1 eqo k s).
Proof. by apply: All_zip (named_free w k _) (named_free w k.+1 _) => x y hx hy; split. Qed.
Lemma named_coms2_free k s : All (@cc _ (C2 A) w 0 0) (named_coms2 eqo k s).
Proof. by apply: All_zip (named_free w k _) (named_free w k.+1 _) => x y hx hy; split. Qed.

Lemma plin1 (s : seq (aff (C1 T))) : All free s -> All (@cc _ (C1 A) w z 0) (ark_com1_batch_linear_map s).
Proof. by apply: All_map => x hx; split. Qed.
Lemma plin2 (s : seq (aff (C2 T))) : All free s -> All (@cc _ (C2 A) w z 0) (ark_com2_batch_linear_map s).
Proof. by apply: All_map => x hx; split. Qed.
(** The map of a scalar into B1 or B2: [u1 + (0, P)] times the scalar. *)
Definition scal1 := (z + plus_cost w + times_cost w)%N.
Definition scal2 := (plus_cost w + times_cost w)%N.
Lemma pscal1 c k : post (@cc _ (C1 A) w scal1 scal2) (ark_com1_scalar_linear_map k (named_crs eqo c)).
Proof.
apply: pbind (pidx 1 (named_coms1_free 0 _)) _ => u hu.
have hl : @cc _ (C1 A) w z 0 (ark_com1_linear_map (A := T) (ark_g1_gen (named_crs eqo c))) by split.
exact: (cc_mul k (cc_add hu hl)).
Qed.
Lemma pscal2 c k : post (@cc _ (C2 A) w scal1 scal2) (ark_com2_scalar_linear_map k (named_crs eqo c)).
Proof.
apply: pbind (pidx 1 (named_coms2_free 2 _)) _ => u hu.
have hl : @cc _ (C2 A) w z 0 (ark_com2_linear_map (A := T) (ark_g2_gen (named_crs eqo c))) by split.
exact: (cc_mul k (cc_add hu hl)).
Qed.
Lemma pbscal1 c ks : post (fun s => All (@cc _ (C1 A) w scal1 scal2) s /\ size s = size ks)
  (ark_com1_batch_scalar_linear_map ks (named_crs eqo c)).
Proof. apply: pand; [by apply: pmapMi => k; apply: pscal1 | exact: pmapM_size]. Qed.
Lemma pbscal2 c ks : post (fun s => All (@cc _ (C2 A) w scal1 scal2) s /\ size s = size ks)
  (ark_com2_batch_scalar_linear_map ks (named_crs eqo c)).
Proof. apply: pand; [by apply: pmapMi => k; apply: pscal2 | exact: pmapM_size]. Qed.

Lemma pkey_at S (P : S -> Prop) s i : All P s -> post P (key_at s i).
Proof. by move=> h; apply: pbind (pidx i (Avec_to_col_vec h)) _ => r hr; apply: pidx. Qed.

Section Rng.
(** A generator that counts its draws. *)
Context (TR : ark_rng T) (cnt : ark_rst TR -> nat).
Hypothesis draw_fr : forall s, cnt (ark_rand_fr s).2 = (cnt s).+1.
Lemma draw2_count m (s : ark_rst TR) : cnt (ark_draw_rows2 m s).2 = (cnt s + 2 * m)%N.
Proof.
elim: m s => [|m IH] s /=; first by rewrite addn0.
move: (draw_fr s); case: (ark_rand_fr s) => ? s1 /= h1.
move: (draw_fr s1); case: (ark_rand_fr s1) => ? s2 /= h2.
move: (IH s2); case: (ark_draw_rows2 _ _) => ? s3 /= ->.
by rewrite h2 h1 mulnS addnA addn2.
Qed.
Lemma draw1_count m (s : ark_rst TR) : cnt (ark_draw_rows1 m s).2 = (cnt s + m)%N.
Proof.
elim: m s => [|m IH] s /=; first by rewrite addn0.
move: (draw_fr s); case: (ark_rand_fr s) => ? s1 /= h1.
move: (IH s1); case: (ark_draw_rows1 _ _) => ? s3 /= ->.
by rewrite h1 addSnnS.
Qed.

Lemma cost_commit_G1 (x : aff (C1 T)) c (s : ark_rst TR) : cost w x.2 = 0%N ->
  post (fun r => All (@cc _ (C1 A) w (z + times_cost w + plus_cost w + times_cost w + plus_cost w)%N
      (times_cost w + plus_cost w + times_cost w + plus_cost w)%N) (ark_coms r.1) /\ cnt r.2 = (cnt s + 2)%N)
    (ark_commit_G1 x (named_crs eqo c) s).
Proof.
move=> hx; rewrite /ark_commit_G1.
move: (draw_fr s); case: (ark_rand_fr s) => k1 s1 /= h1.
move: (draw_fr s1); case: (ark_rand_fr s1) => k2 s2 /= h2.
apply: pbind (pkey_at 0 (named_coms1_free 0 _)) _ => u0 hu0; apply: pbind (pkey_at 1 (named_coms1_free 0 _)) _ => u1 hu1.
have hl : @cc _ (C1 A) w z 0 (ark_com1_linear_map (A := T) x) by split.
split; last by rewrite /= h2 h1 addn2.
split=> //; have [e1 e2] := cc_add (cc_add hl (cc_mul k1 hu0)) (cc_mul k2 hu1).
by split; [rewrite e1 | rewrite e2]; rewrite !add0n.
Qed.
Lemma cost_batch_commit_G1 (x : seq (aff (C1 T))) c (s : ark_rst TR) : All free x ->
  post (fun r => All (@cc _ (C1 A) w (z + comb_cost w (size (ark_crs_u c)) 0 + plus_cost w)%N
      (comb_cost w (size (ark_crs_u c)) 0 + plus_cost w)%N) (ark_coms r.1) /\ cnt r.2 = (cnt s + 2 * size x)%N)
    (ark_batch_commit_G1 x (named_crs eqo c) s).
Proof.
move=> hx; rewrite /ark_batch_commit_G1.
move: (draw2_count (size x) s); case: (ark_draw_rows2 _ _) => rr s1 /= h1.
have hu := Avec_to_col_vec (named_coms1_free 0 (ark_crs_u c)).
apply: pbind (pcmat_left_mul no_ord rr false hu) _ => ru.
rewrite size_vec_to_col_vec size_named_coms1 => hru.
apply: pbind (pcmat_add (Avec_to_col_vec (plin1 hx)) hru) _ => cs hcs.
apply: pbind (pcol_vec_to_vec hcs) _ => cv hcv.
by split.
Qed.
Lemma cost_commit_scalar_to_B1 x c (s : ark_rst TR) :
  post (fun r => All (@cc _ (C1 A) w (scal1 + times_cost w + plus_cost w)%N
      (scal2 + times_cost w + plus_cost w)%N) (ark_coms r.1) /\ cnt r.2 = (cnt s + 1)%N)
    (ark_commit_scalar_to_B1 x (named_crs eqo c) s).
Proof.
rewrite /ark_commit_scalar_to_B1.
move: (draw_fr s); case: (ark_rand_fr s) => k1 s1 /= h1.
apply: pbind (pscal1 c x) _ => y hy; apply: pbind (pkey_at 0 (named_coms1_free 0 _)) _ => u0 hu0.
split; last by rewrite /= h1 addn1.
split=> //; have [e1 e2] := cc_add hy (cc_mul k1 hu0).
by split; [rewrite e1 | rewrite e2]; rewrite !add0n.
Qed.
Lemma cost_batch_commit_scalar_to_B1 x c (s : ark_rst TR) :
  post (fun r => All (@cc _ (C1 A) w (scal1 + times_cost w + plus_cost w)%N
      (scal2 + times_cost w + plus_cost w)%N) (ark_coms r.1) /\ cnt r.2 = (cnt s + size x)%N)
    (ark_batch_commit_scalar_to_B1 x (named_crs eqo c) s).
Proof.
rewrite /ark_batch_commit_scalar_to_B1.
move: (draw1_count (size x) s); case: (ark_draw_rows1 _ _) => rr s1 /= h1.
apply: pbind (pbscal1 c x) _ => y [hy _]; apply: pbind (pany _) _ => rv _.
apply: (pbind (Q := All (@cc _ (C1 A) w (0 + times_cost w)%N (0 + times_cost w)%N))).
  by apply: pmapMi => k; apply: pbind (pkey_at 0 (named_coms1_free 0 _)) _ => u hu; apply: cc_mul.
move=> ru hru; apply: pbind (pcmat_add (Avec_to_col_vec hy) (Avec_to_col_vec hru)) _ => cs hcs.
apply: pbind (pcol_vec_to_vec hcs) _ => cv hcv.
by split.
Qed.

Lemma cost_commit_G2 (x : aff (C2 T)) c (s : ark_rst TR) : cost w x.2 = 0%N ->
  post (fun r => All (@cc _ (C2 A) w (z + times_cost w + plus_cost w + times_cost w + plus_cost w)%N
      (times_cost w + plus_cost w + times_cost w + plus_cost w)%N) (ark_coms r.1) /\ cnt r.2 = (cnt s + 2)%N)
    (ark_commit_G2 x (named_crs eqo c) s).
Proof.
move=> hx; rewrite /ark_commit_G2.
move: (draw_fr s); case: (ark_rand_fr s) => k1 s1 /= h1.
move: (draw_fr s1); case: (ark_rand_fr s1) => k2 s2 /= h2.
apply: pbind (pkey_at 0 (named_coms2_free 2 _)) _ => u0 hu0; apply: pbind (pkey_at 1 (named_coms2_free 2 _)) _ => u1 hu1.
have hl : @cc _ (C2 A) w z 0 (ark_com2_linear_map (A := T) x) by split.
split; last by rewrite /= h2 h1 addn2.
split=> //; have [e1 e2] := cc_add (cc_add hl (cc_mul k1 hu0)) (cc_mul k2 hu1).
by split; [rewrite e1 | rewrite e2]; rewrite !add0n.
Qed.
Lemma cost_batch_commit_G2 (x : seq (aff (C2 T))) c (s : ark_rst TR) : All free x ->
  post (fun r => All (@cc _ (C2 A) w (z + comb_cost w (size (ark_crs_v c)) 0 + plus_cost w)%N
      (comb_cost w (size (ark_crs_v c)) 0 + plus_cost w)%N) (ark_coms r.1) /\ cnt r.2 = (cnt s + 2 * size x)%N)
    (ark_batch_commit_G2 x (named_crs eqo c) s).
Proof.
move=> hx; rewrite /ark_batch_commit_G2.
move: (draw2_count (size x) s); case: (ark_draw_rows2 _ _) => rr s1 /= h1.
have hu := Avec_to_col_vec (named_coms2_free 2 (ark_crs_v c)).
apply: pbind (pcmat_left_mul no_ord rr false hu) _ => ru.
rewrite size_vec_to_col_vec size_named_coms2 => hru.
apply: pbind (pcmat_add (Avec_to_col_vec (plin2 hx)) hru) _ => cs hcs.
apply: pbind (pcol_vec_to_vec hcs) _ => cv hcv.
by split.
Qed.
Lemma cost_commit_scalar_to_B2 x c (s : ark_rst TR) :
  post (fun r => All (@cc _ (C2 A) w (scal1 + times_cost w + plus_cost w)%N
      (scal2 + times_cost w + plus_cost w)%N) (ark_coms r.1) /\ cnt r.2 = (cnt s + 1)%N)
    (ark_commit_scalar_to_B2 x (named_crs eqo c) s).
Proof.
rewrite /ark_commit_scalar_to_B2.
move: (draw_fr s); case: (ark_rand_fr s) => k1 s1 /= h1.
apply: pbind (pscal2 c x) _ => y hy; apply: pbind (pkey_at 0 (named_coms2_free 2 _)) _ => u0 hu0.
split; last by rewrite /= h1 addn1.
split=> //; have [e1 e2] := cc_add hy (cc_mul k1 hu0).
by split; [rewrite e1 | rewrite e2]; rewrite !add0n.
Qed.
Lemma cost_batch_commit_scalar_to_B2 x c (s : ark_rst TR) :
  post (fun r => All (@cc _ (C2 A) w (scal1 + times_cost w + plus_cost w)%N
      (scal2 + times_cost w + plus_cost w)%N) (ark_coms r.1) /\ cnt r.2 = (cnt s + size x)%N)
    (ark_batch_commit_scalar_to_B2 x (named_crs eqo c) s).
Proof.
rewrite /ark_batch_commit_scalar_to_B2.
move: (draw1_count (size x) s); case: (ark_draw_rows1 _ _) => rr s1 /= h1.
apply: pbind (pbscal2 c x) _ => y [hy _]; apply: pbind (pany _) _ => rv _.
apply: (pbind (Q := All (@cc _ (C2 A) w (0 + times_cost w)%N (0 + times_cost w)%N))).
  by apply: pmapMi => k; apply: pbind (pkey_at 0 (named_coms2_free 2 _)) _ => u hu; apply: cc_mul.
move=> ru hru; apply: pbind (pcmat_add (Avec_to_col_vec hy) (Avec_to_col_vec hru)) _ => cs hcs.
apply: pbind (pcol_vec_to_vec hcs) _ => cv hcv.
by split.
Qed.

Ltac pA := lazymatch goal with
  | |- All (All _) (vec_to_col_vec _) => eapply Avec_to_col_vec; pA
  | |- All (All _) [:: [:: _]] => split; [split; [eassumption | exact Logic.I] | exact Logic.I]
  | |- All _ (ark_com1_batch_linear_map _) => eapply plin1; pA
  | |- All _ (ark_com2_batch_linear_map _) => eapply plin2; pA
  | |- All _ (ark_crs_u _) => exact: named_coms1_free
  | |- All _ (named_coms1 _ _ _) => exact: named_coms1_free
  | |- All _ (named_coms2 _ _ _) => exact: named_coms2_free
  | |- All _ (ark_crs_v _) => exact: named_coms2_free
  | |- All _ (named _ _) => exact: named_free
  | |- _ => eassumption
  end.
Ltac ps :=
  lazymatch goal with
  | |- post _ (let (_, _) := ark_rand_fr ?s in _) =>
      move: (draw_fr s); case: (ark_rand_fr s) => ? ? /= ?
  | |- post _ (bind ?m _) => eapply pbind; [lazymatch m with
    | ark_cmat_left_mul _ _ _ _ => eapply pcmat_left_mul; pA
    | ark_cmat_add _ _ => eapply pcmat_add; pA
    | col_vec_to_vec _ => eapply pcol_vec_to_vec; pA
    | ark_com1_batch_scalar_linear_map _ _ => exact: pbscal1
    | ark_com2_batch_scalar_linear_map _ _ => exact: pbscal2
    | idx (ark_crs_u _) _ => eapply pidx; pA
    | idx (named_coms1 _ _ _) _ => eapply pidx; pA
    | idx (named_coms2 _ _ _) _ => eapply pidx; pA
    | idx (ark_crs_v _) _ => eapply pidx; pA
    | _ => exact: pany
    end | lazymatch m with
    | ark_com1_batch_scalar_linear_map _ _ => intros ? [? ?]
    | ark_com2_batch_scalar_linear_map _ _ => intros ? [? ?]
    | ark_cmat_left_mul _ _ _ _ =>
        let H := fresh in intros ? H;
        rewrite /= ?size_vec_to_col_vec ?size_map ?size_named ?size_named_coms1 ?size_named_coms2 in H
    | _ => intros ? ?
    end]
  end; cbv beta iota zeta.

Lemma cost_ppe_prove sch (e : ark_PPE A) (xs : seq (aff (C1 T))) (ys : seq (aff (C2 T))) x y c (s : ark_rst TR) (hx : All free xs) (hy : All free ys) :
  post (fun r : ark_EquProof T * ark_rst TR => [/\ All (@cc _ (C2 A) w (comb_cost w (size (ark_ppe_b e)) z + comb_cost w (size ys) z + plus_cost w + comb_cost w (size (ark_crs_v c)) 0 + plus_cost w)%N (comb_cost w (size (ark_ppe_b e)) 0 + comb_cost w (size ys) 0 + plus_cost w + comb_cost w (size (ark_crs_v c)) 0 + plus_cost w)%N) (ark_pi r.1),
      All (@cc _ (C1 A) w (comb_cost w (size (ark_ppe_a e)) z + comb_cost w (size xs) z + plus_cost w + comb_cost w (size (ark_crs_u c)) 0 + plus_cost w)%N (comb_cost w (size (ark_ppe_a e)) 0 + comb_cost w (size xs) 0 + plus_cost w + comb_cost w (size (ark_crs_u c)) 0 + plus_cost w)%N) (ark_theta r.1) & cnt r.2 = (cnt s + 4)%N])
    (ark_ppe_prove sch (named_ppe eqo e) xs ys x y (named_crs eqo c) s).
Proof.
rewrite /ark_ppe_prove; repeat ps.
repeat match goal with e : size ?l = size ?k |- context [size ?k] => rewrite -e end.
split=> /=; [eassumption | eassumption | rewrite ?addn4 ?addn2 ?addn1; congruence].
Qed.

Lemma cost_ms1_prove sch (e : ark_MSMEG1 A) (xs : seq (aff (C1 T))) (ys : seq (F)) x y c (s : ark_rst TR) (hx : All free xs) :
  post (fun r : ark_EquProof T * ark_rst TR => [/\ All (@cc _ (C2 A) w (comb_cost w (size (ark_ms1_b e)) scal1 + comb_cost w (size ys) scal1 + plus_cost w + comb_cost w 1 0 + plus_cost w)%N (comb_cost w (size (ark_ms1_b e)) scal2 + comb_cost w (size ys) scal2 + plus_cost w + comb_cost w 1 0 + plus_cost w)%N) (ark_pi r.1),
      All (@cc _ (C1 A) w (comb_cost w (size (ark_ms1_a e)) z + comb_cost w (size xs) z + plus_cost w + comb_cost w (size (ark_crs_u c)) 0 + plus_cost w)%N (comb_cost w (size (ark_ms1_a e)) 0 + comb_cost w (size xs) 0 + plus_cost w + comb_cost w (size (ark_crs_u c)) 0 + plus_cost w)%N) (ark_theta r.1) & cnt r.2 = (cnt s + 2)%N])
    (ark_ms1_prove sch (named_ms1 eqo e) xs ys x y (named_crs eqo c) s).
Proof.
rewrite /ark_ms1_prove; repeat ps.
repeat match goal with e : size ?l = size ?k |- context [size ?k] => rewrite -e end.
split=> /=; [eassumption | eassumption | rewrite ?addn4 ?addn2 ?addn1; congruence].
Qed.

Lemma cost_ms2_prove sch (e : ark_MSMEG2 A) (xs : seq (F)) (ys : seq (aff (C2 T))) x y c (s : ark_rst TR) (hy : All free ys) :
  post (fun r : ark_EquProof T * ark_rst TR => [/\ All (@cc _ (C2 A) w (comb_cost w (size (ark_ms2_b e)) z + comb_cost w (size ys) z + plus_cost w + comb_cost w (size (ark_crs_v c)) 0 + plus_cost w)%N (comb_cost w (size (ark_ms2_b e)) 0 + comb_cost w (size ys) 0 + plus_cost w + comb_cost w (size (ark_crs_v c)) 0 + plus_cost w)%N) (ark_pi r.1),
      All (@cc _ (C1 A) w (comb_cost w (size (ark_ms2_a e)) scal1 + comb_cost w (size xs) scal1 + plus_cost w + comb_cost w 1 0 + plus_cost w)%N (comb_cost w (size (ark_ms2_a e)) scal2 + comb_cost w (size xs) scal2 + plus_cost w + comb_cost w 1 0 + plus_cost w)%N) (ark_theta r.1) & cnt r.2 = (cnt s + 2)%N])
    (ark_ms2_prove sch (named_ms2 eqo e) xs ys x y (named_crs eqo c) s).
Proof.
rewrite /ark_ms2_prove; repeat ps.
repeat match goal with e : size ?l = size ?k |- context [size ?k] => rewrite -e end.
split=> /=; [eassumption | eassumption | rewrite ?addn4 ?addn2 ?addn1; congruence].
Qed.

Lemma cost_quad_prove sch (e : ark_QuadEqu F) (xs : seq (F)) (ys : seq (F)) x y c (s : ark_rst TR) :
  post (fun r : ark_EquProof T * ark_rst TR => [/\ All (@cc _ (C2 A) w (comb_cost w (size (ark_quad_b e)) scal1 + comb_cost w (size ys) scal1 + plus_cost w + comb_cost w 1 0 + plus_cost w)%N (comb_cost w (size (ark_quad_b e)) scal2 + comb_cost w (size ys) scal2 + plus_cost w + comb_cost w 1 0 + plus_cost w)%N) (ark_pi r.1),
      All (@cc _ (C1 A) w (comb_cost w (size (ark_quad_a e)) scal1 + comb_cost w (size xs) scal1 + plus_cost w + comb_cost w 1 0 + plus_cost w)%N (comb_cost w (size (ark_quad_a e)) scal2 + comb_cost w (size xs) scal2 + plus_cost w + comb_cost w 1 0 + plus_cost w)%N) (ark_theta r.1) & cnt r.2 = (cnt s + 1)%N])
    (ark_quad_prove sch (e) xs ys x y (named_crs eqo c) s).
Proof.
rewrite /ark_quad_prove; repeat ps.
repeat match goal with e : size ?l = size ?k |- context [size ?k] => rewrite -e end.
split=> /=; [eassumption | eassumption | rewrite ?addn4 ?addn2 ?addn1; congruence].
Qed.
End Rng.
End Runs.

(** ** The pairings of verify *)
Section Verify.
Context {F : fieldType} {A : ark F} (P : expr -> expr -> bool).
Local Notation T := (watched A P).
Local Notation eqo := (fun x y : out A * expr => P x.2 y.2).
Local Notation z1 := (@cc F (C1 A) pairings 0 0).
Local Notation z2 := (@cc F (C2 A) pairings 0 0).
Definition tc (k : nat) (x : ark_ComT T) : Prop :=
  [/\ cost pairings (ark_t0 x).2 = k, cost pairings (ark_t1 x).2 = k, cost pairings (ark_t2 x).2 = k
    & cost pairings (ark_t3 x).2 = k].
Lemma tc_add a b x y : tc a x -> tc b y -> tc (a + b)%N (ark_comT_add x y).
Proof. by case=> h1 h2 h3 h4 [k1 k2 k3 k4]; split; rewrite /= ?h1 ?h2 ?h3 ?h4 ?k1 ?k2 ?k3 ?k4 addn0. Qed.
Lemma tc_pairing x y : z1 x -> z2 y -> tc 1 (ark_comT_pairing (A := T) x y).
Proof. by case=> h1 h2 [h3 h4]; split; rewrite /= ?h1 ?h2 ?h3 ?h4. Qed.
Lemma sum_free S (s : seq S) (f : S -> expr) :
  All (fun x => cost pairings (f x) = 0%N) s -> sumn [seq cost pairings (f x) | x <- s] = 0%N.
Proof. by elim: s => //= x s IH [-> /IH ->]. Qed.
Lemma tc_sum xs ys : All z1 xs -> All z2 ys -> post (tc (size xs)) (ark_comT_pairing_sum (A := T) xs ys).
Proof.
move=> h h'; apply: pbind (pany _) _ => _ _ /=.
have e1 : All (fun x => cost pairings x.1.2 = 0%N) xs by apply: All_weak h _ => x [].
have e2 : All (fun x => cost pairings x.2.2 = 0%N) xs by apply: All_weak h _ => x [].
have e3 : All (fun x => cost pairings x.1.2 = 0%N) ys by apply: All_weak h' _ => x [].
have e4 : All (fun x => cost pairings x.2.2 = 0%N) ys by apply: All_weak h' _ => x [].
have := (sum_free e1, sum_free e2, sum_free e3, sum_free e4).
by case=> -[[f1 f2] f3] f4; split; rewrite /= -!map_comp !size_map ?f1 ?f2 ?f3 ?f4.
Qed.
Lemma tc_ppe t : cost pairings t.2 = 0%N -> tc 0 (ark_linear_map_PPE (A := T) t).
Proof. by move=> h; split. Qed.
Lemma vscal1 c k : post z1 (ark_com1_scalar_linear_map k (named_crs eqo c)).
Proof. exact: (pscal1 eqo pairings c k). Qed.
Lemma vscal2 c k : post z2 (ark_com2_scalar_linear_map k (named_crs eqo c)).
Proof. exact: (pscal2 eqo pairings c k). Qed.
Lemma vbscal1 c k : post (fun s => All z1 s /\ size s = size k) (ark_com1_batch_scalar_linear_map k (named_crs eqo c)).
Proof. exact: (pbscal1 eqo pairings c k). Qed.
Lemma vbscal2 c k : post (fun s => All z2 s /\ size s = size k) (ark_com2_batch_scalar_linear_map k (named_crs eqo c)).
Proof. exact: (pbscal2 eqo pairings c k). Qed.
Lemma tc_ms1 t c : cost pairings t.2 = 0%N -> post (tc 1) (ark_linear_map_MSMEG1 (A := T) t (named_crs eqo c)).
Proof. by move=> h; apply: pbind (vscal2 c _) _ => y hy; apply: tc_pairing => //; split. Qed.
Lemma tc_ms2 t c : cost pairings t.2 = 0%N -> post (tc 1) (ark_linear_map_MSMEG2 (A := T) t (named_crs eqo c)).
Proof. by move=> h; apply: pbind (vscal1 c _) _ => y hy; apply: tc_pairing => //; split. Qed.
Lemma tc_quad t c : post (tc 1) (ark_linear_map_quad (A := T) t (named_crs eqo c)).
Proof.
apply: pbind (vscal1 c _) _ => x hx; apply: pbind (vscal2 c _) _ => y hy.
by apply: tc_pairing => //; have := cc_mul t hy.
Qed.
Lemma vleft2 ord M B par : All (All z2) M -> post (All (All z2)) (ark_cmat_left_mul ord M B par).
Proof.
move=> h; apply: pweak (pcmat_left_mul ord B par h) _ => N.
have -> : comb_cost pairings (size M) 0 = 0%N by exact: muln0.
by [].
Qed.
Lemma tc_eq a b x y : (forall l r, cost pairings l = a -> cost pairings r = b -> P l r) ->
  tc a x -> tc b y -> ark_comT_eq x y.
Proof. by move=> H [h1 h2 h3 h4] [k1 k2 k3 k4]; rewrite /ark_comT_eq /= !H. Qed.

Ltac vA := lazymatch goal with
  | |- All (All _) (vec_to_col_vec _) => eapply Avec_to_col_vec; vA
  | |- All _ (ark_com1_batch_linear_map _) => eapply (plin1 (w := pairings)); vA
  | |- All _ (ark_com2_batch_linear_map _) => eapply (plin2 (w := pairings)); vA
  | |- All _ (named_coms1 _ _ _) => exact: (named_coms1_free _ pairings)
  | |- All _ (named_coms2 _ _ _) => exact: (named_coms2_free _ pairings)
  | |- All _ (named _ _) => exact: named_free
  | |- _ => eassumption
  end.
Ltac vs :=
  lazymatch goal with
  | |- post _ (bind ?m _) => eapply pbind; [lazymatch m with
    | ark_cmat_left_mul _ _ _ _ => eapply vleft2; vA
    | ark_comT_pairing_sum _ _ => eapply tc_sum; vA
    | col_vec_to_vec _ => eapply pcol_vec_to_vec; vA
    | ark_com1_batch_scalar_linear_map _ _ => exact: vbscal1
    | ark_com2_batch_scalar_linear_map _ _ => exact: vbscal2
    | ark_linear_map_MSMEG1 _ _ => exact: tc_ms1
    | ark_linear_map_MSMEG2 _ _ => exact: tc_ms2
    | ark_linear_map_quad _ _ => exact: tc_quad
    | idx (named_coms1 _ _ _) _ => eapply pidx; vA
    | idx (named_coms2 _ _ _) _ => eapply pidx; vA
    | _ => exact: pany
    end | lazymatch m with
    | ark_com1_batch_scalar_linear_map _ _ => intros ? [? ?]
    | ark_com2_batch_scalar_linear_map _ _ => intros ? [? ?]
    | ark_comT_pairing_sum _ _ =>
        let H := fresh in intros ? H;
        rewrite /= ?size_map ?size_named ?size_named_coms1 ?size_named_coms2 in H
    | _ => intros ? ?
    end]
  end; cbv beta iota zeta.

Lemma pairs_ppe_verify sch (e : ark_PPE A) (p : ark_CProof A) f c : ark_equ_proofs p = [:: f] ->
  (forall l r, cost pairings l = (size (ark_ppe_a e) + size (ark_coms (ark_xcoms p)) + size (ark_coms (ark_xcoms p)))%N ->
     cost pairings r = (size (ark_crs_u c) + size (ark_theta f))%N -> P l r) ->
  post (fun b => b = true) (ark_ppe_verify sch (named_ppe eqo e) (named_cproof eqo p) (named_crs eqo c)).
Proof.
case: p => -[xc xr] [yc yr] ps /= -> H; rewrite /ark_ppe_verify /=; repeat vs.
repeat match goal with e : size ?l = size ?k |- _ => rewrite -e in H end.
rewrite -[size (ark_crs_u c)]add0n in H.
apply: (tc_eq H); repeat (first [eassumption | apply: tc_add | apply: tc_pairing | exact: tc_ppe]).
Qed.

Lemma pairs_ms1_verify sch (e : ark_MSMEG1 A) (p : ark_CProof A) f c : ark_equ_proofs p = [:: f] ->
  (forall l r, cost pairings l = (size (ark_ms1_a e) + size (ark_coms (ark_xcoms p)) + size (ark_coms (ark_xcoms p)))%N ->
     cost pairings r = (1 + size (ark_crs_u c) + 1)%N -> P l r) ->
  post (fun b => b = true) (ark_ms1_verify sch (named_ms1 eqo e) (named_cproof eqo p) (named_crs eqo c)).
Proof.
case: p => -[xc xr] [yc yr] ps /= -> H; rewrite /ark_ms1_verify /=; repeat vs.
repeat match goal with e : size ?l = size ?k |- _ => rewrite -e in H end.
apply: (tc_eq H); repeat (first [eassumption | apply: tc_add | apply: tc_pairing | exact: tc_ppe]).
Qed.

Lemma pairs_ms2_verify sch (e : ark_MSMEG2 A) (p : ark_CProof A) f c : ark_equ_proofs p = [:: f] ->
  (forall l r, cost pairings l = (size (ark_ms2_a e) + size (ark_coms (ark_xcoms p)) + size (ark_coms (ark_xcoms p)))%N ->
     cost pairings r = (1 + 1 + size (ark_theta f))%N -> P l r) ->
  post (fun b => b = true) (ark_ms2_verify sch (named_ms2 eqo e) (named_cproof eqo p) (named_crs eqo c)).
Proof.
case: p => -[xc xr] [yc yr] ps /= -> H; rewrite /ark_ms2_verify /=; repeat vs.
repeat match goal with e : size ?l = size ?k |- _ => rewrite -e in H end.
apply: (tc_eq H); repeat (first [eassumption | apply: tc_add | apply: tc_pairing | exact: tc_ppe]).
Qed.

Lemma pairs_quad_verify sch (e : ark_QuadEqu F) (p : ark_CProof A) f c : ark_equ_proofs p = [:: f] ->
  (forall l r, cost pairings l = (size (ark_quad_a e) + size (ark_coms (ark_xcoms p)) + size (ark_coms (ark_xcoms p)))%N ->
     cost pairings r = (1 + 1 + 1)%N -> P l r) ->
  post (fun b => b = true) (ark_quad_verify sch (e) (named_cproof eqo p) (named_crs eqo c)).
Proof.
case: p => -[xc xr] [yc yr] ps /= -> H; rewrite /ark_quad_verify /=; repeat vs.
repeat match goal with e : size ?l = size ?k |- _ => rewrite -e in H end.
apply: (tc_eq H); repeat (first [eassumption | apply: tc_add | apply: tc_pairing | exact: tc_ppe]).
Qed.
End Verify.
