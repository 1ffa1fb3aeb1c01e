(** Matrix laws for the instances of the library. *)
From mathcomp Require Import all_ssreflect all_algebra.
From Verif Require Import Base BaseLemmas Group DataStructures MatLemmas Spec SpecMat MatProps.
Set Implicit Arguments.
Unset Strict Implicit.
Unset Printing Implicit Defensive.
Import GRing.Theory.
Local Open Scope ring_scope.

Section ComLaws.
Context {F : fieldType} {G : lmodType F}.
Implicit Types (x y : com G) (c d : F).
Lemma csmDl x y c : com_scalar_mul (x + y) c = com_scalar_mul x c + com_scalar_mul y c.
Proof. exact: (scalerDr c x y). Qed.
Lemma csmDr x c d : com_scalar_mul x (c + d) = com_scalar_mul x c + com_scalar_mul x d.
Proof. exact: (scalerDl x c d). Qed.
Lemma csmA x c d : com_scalar_mul (com_scalar_mul x c) d = com_scalar_mul x (c * d).
Proof. by rewrite mulrC; exact: (scalerA d c x). Qed.
Lemma csm1 x : com_scalar_mul x 1 = x.
Proof. exact: (scale1r x). Qed.
End ComLaws.
Ltac com_law := match goal with
  | |- com_scalar_mul (_ + _) _ = _ => apply csmDl
  | |- com_scalar_mul _ (_ + _) = _ => apply csmDr
  | |- com_scalar_mul (com_scalar_mul _ _) _ = _ => apply csmA
  | |- com_scalar_mul _ 1 = _ => apply csm1
  end.

Lemma m_C21_field_right : forall (F : fieldType) (ord ord' : nat -> nat -> order), valid_ord ord ->
  forall (A : matrix F) (B : matrix F), fmat_right_mul ord A B true = fmat_right_mul ord' A B false.
Proof. move=> F ord ord' vo A B; exact: (right_mul_par_seq 0 +%R *%R ord' A B true vo). Qed.
Lemma m_C21_field_left : forall (F : fieldType) (ord ord' : nat -> nat -> order), valid_ord ord ->
  forall (A : matrix F) (B : matrix F), fmat_left_mul ord A B true = fmat_left_mul ord' A B false.
Proof. move=> F ord ord' vo A B; exact: (left_mul_par_seq 0 +%R *%R ord' A B true vo). Qed.
Lemma m_C22_field_right_value : forall (F : fieldType) (ord : nat -> nat -> order) (par : bool), valid_ord ord ->
  forall m n p (M : matrix F) (A : matrix F), (0 < m)%N -> (0 < n)%N -> (0 < p)%N -> dims m n M -> dims n p A ->
  exists2 P, fmat_right_mul ord M A par = Ok P
    & is_mat m p P (fun i j => \sum_(k < n) at_ M i k * at_ A k j).
Proof. move=> *; first [ exact: (rm_value *%R) | eapply (rm_value *%R); try (match goal with |- dims _ _ _ => eassumption end); eassumption ]. Qed.
Lemma m_C22_field_left_value : forall (F : fieldType) (ord : nat -> nat -> order) (par : bool), valid_ord ord ->
  forall m n p (M : matrix F) (A : matrix F), (0 < m)%N -> (0 < n)%N -> (0 < p)%N -> dims m n A -> dims n p M ->
  exists2 P, fmat_left_mul ord M A par = Ok P
    & is_mat m p P (fun i j => \sum_(k < n) at_ A i k * at_ M k j).
Proof. move=> F ord par vo m n p M A hm hn hp hA hM.
have [P hP [hd h]] := lm_value *%R par vo hm hn hp hA hM.
exists P => //; split=> // i j hi hj; rewrite h //; apply: eq_bigr => k _; exact: mulrC. Qed.
Lemma m_C22_field_right_assoc : forall (F : fieldType) (ord ord' ord2 ord3 : nat -> nat -> order) (par par' par2 par3 : bool), valid_ord ord -> valid_ord ord' -> valid_ord ord2 -> valid_ord ord3 ->
  forall m n p q (M : matrix F) (A B : matrix F), (0 < m)%N -> (0 < n)%N -> (0 < p)%N -> (0 < q)%N ->
  dims m n M -> dims n p A -> dims p q B ->
  agree (let! MA := fmat_right_mul ord M A par in fmat_right_mul ord' MA B par')
        (let! AB := fmat_right_mul ord2 A B par2 in fmat_right_mul ord3 M AB par3).
Proof. move=> *; apply: (rm_assoc (sm := *%R)); try (match goal with |- dims _ _ _ => eassumption end); eauto; move=> *; by rewrite ?mulrDl ?mulrDr ?mulrA ?mulr1. Qed.
Lemma m_C22_field_left_assoc : forall (F : fieldType) (ord ord' ord2 ord3 : nat -> nat -> order) (par par' par2 par3 : bool), valid_ord ord -> valid_ord ord' -> valid_ord ord2 -> valid_ord ord3 ->
  forall m n p q (M : matrix F) (A B : matrix F), (0 < m)%N -> (0 < n)%N -> (0 < p)%N -> (0 < q)%N ->
  dims m n A -> dims n p B -> dims p q M ->
  agree (let! BM := fmat_left_mul ord M B par in fmat_left_mul ord' BM A par')
        (let! AB := fmat_right_mul ord2 A B par2 in fmat_left_mul ord3 M AB par3).
Proof. move=> *; apply: (lm_assoc (sm := *%R)); try (match goal with |- dims _ _ _ => eassumption end); eauto; move=> *; by rewrite ?mulrDl ?mulrDr ?mulrA ?mulr1. Qed.
Lemma m_C22_field_left_right : forall (F : fieldType) (ord ord' ord2 ord3 : nat -> nat -> order) (par par' par2 par3 : bool), valid_ord ord -> valid_ord ord' -> valid_ord ord2 -> valid_ord ord3 ->
  forall m n p q (M : matrix F) (A B : matrix F), (0 < m)%N -> (0 < n)%N -> (0 < p)%N -> (0 < q)%N ->
  dims m n A -> dims n p M -> dims p q B ->
  agree (let! AM := fmat_left_mul ord M A par in fmat_right_mul ord' AM B par')
        (let! MB := fmat_right_mul ord2 M B par2 in fmat_left_mul ord3 MB A par3).
Proof. move=> *; apply: (lm_rm (sm := *%R)); try (match goal with |- dims _ _ _ => eassumption end); eauto; move=> *; by rewrite ?mulrDl ?mulrDr ?mulrA ?mulr1. Qed.
Lemma m_C22_field_right_addl : forall (F : fieldType) (ord ord' ord2 : nat -> nat -> order) (par par' par2 : bool), valid_ord ord -> valid_ord ord' -> valid_ord ord2 ->
  forall m n p (M N : matrix F) (A : matrix F), (0 < m)%N -> (0 < n)%N -> (0 < p)%N ->
  dims m n M -> dims m n N -> dims n p A ->
  agree (let! Z := fmat_add M N in fmat_right_mul ord Z A par)
        (let! MA := fmat_right_mul ord' M A par' in let! NA := fmat_right_mul ord2 N A par2 in fmat_add MA NA).
Proof. move=> *; apply: (rm_addl (sm := *%R)); try (match goal with |- dims _ _ _ => eassumption end); eauto; move=> *; by rewrite ?mulrDl ?mulrDr ?mulrA ?mulr1. Qed.
Lemma m_C22_field_right_addr : forall (F : fieldType) (ord ord' ord2 : nat -> nat -> order) (par par' par2 : bool), valid_ord ord -> valid_ord ord' -> valid_ord ord2 ->
  forall m n p (M : matrix F) (A B : matrix F), (0 < m)%N -> (0 < n)%N -> (0 < p)%N ->
  dims m n M -> dims n p A -> dims n p B ->
  agree (let! Z := fmat_add A B in fmat_right_mul ord M Z par)
        (let! MA := fmat_right_mul ord' M A par' in let! MB := fmat_right_mul ord2 M B par2 in fmat_add MA MB).
Proof. move=> *; apply: (rm_addr (sm := *%R)); try (match goal with |- dims _ _ _ => eassumption end); eauto; move=> *; by rewrite ?mulrDl ?mulrDr ?mulrA ?mulr1. Qed.
Lemma m_C22_field_left_addl : forall (F : fieldType) (ord ord' ord2 : nat -> nat -> order) (par par' par2 : bool), valid_ord ord -> valid_ord ord' -> valid_ord ord2 ->
  forall m n p (M N : matrix F) (A : matrix F), (0 < m)%N -> (0 < n)%N -> (0 < p)%N ->
  dims m n A -> dims n p M -> dims n p N ->
  agree (let! Z := fmat_add M N in fmat_left_mul ord Z A par)
        (let! AM := fmat_left_mul ord' M A par' in let! AN := fmat_left_mul ord2 N A par2 in fmat_add AM AN).
Proof. move=> *; apply: (lm_addl (sm := *%R)); try (match goal with |- dims _ _ _ => eassumption end); eauto; move=> *; by rewrite ?mulrDl ?mulrDr ?mulrA ?mulr1. Qed.
Lemma m_C22_field_left_addr : forall (F : fieldType) (ord ord' ord2 : nat -> nat -> order) (par par' par2 : bool), valid_ord ord -> valid_ord ord' -> valid_ord ord2 ->
  forall m n p (M : matrix F) (A B : matrix F), (0 < m)%N -> (0 < n)%N -> (0 < p)%N ->
  dims m n A -> dims m n B -> dims n p M ->
  agree (let! Z := fmat_add A B in fmat_left_mul ord M Z par)
        (let! AM := fmat_left_mul ord' M A par' in let! BM := fmat_left_mul ord2 M B par2 in fmat_add AM BM).
Proof. move=> *; apply: (lm_addr (sm := *%R)); try (match goal with |- dims _ _ _ => eassumption end); eauto; move=> *; by rewrite ?mulrDl ?mulrDr ?mulrA ?mulr1. Qed.
Lemma m_C23_field_add_value : forall (F : fieldType) m n (M N : matrix F), (0 < m)%N -> dims m n M -> dims m n N ->
  exists2 P, fmat_add M N = Ok P & is_mat m n P (fun i j => at_ M i j + at_ N i j).
Proof. move=> F *; eapply (add_value (V := F)); try (match goal with |- dims _ _ _ => eassumption end); eassumption. Qed.
Lemma m_C23_field_add_comm : forall (F : fieldType) m n (M N : matrix F), (0 < m)%N -> dims m n M -> dims m n N ->
  agree (fmat_add M N) (fmat_add N M).
Proof. move=> F *; eapply (add_comm (V := F)); try (match goal with |- dims _ _ _ => eassumption end); eassumption. Qed.
Lemma m_C23_field_add_assoc : forall (F : fieldType) m n (M N P : matrix F), (0 < m)%N -> dims m n M -> dims m n N -> dims m n P ->
  agree (let! MN := fmat_add M N in fmat_add MN P) (let! NP := fmat_add N P in fmat_add M NP).
Proof. move=> F *; eapply (add_assoc (V := F)); try (match goal with |- dims _ _ _ => eassumption end); eassumption. Qed.
Lemma m_C23_field_neg_value : forall (F : fieldType) m n (M : matrix F), dims m n M ->
  exists2 P, fmat_neg M = Ok P & is_mat m n P (fun i j => - at_ M i j).
Proof. move=> F *; eapply (neg_value (V := F)); try (match goal with |- dims _ _ _ => eassumption end); eassumption. Qed.
Lemma m_C23_field_add_neg : forall (F : fieldType) m n (M : matrix F), (0 < m)%N -> dims m n M ->
  (let! N := fmat_neg M in fmat_add M N) = Ok (zero_mat m n).
Proof. move=> F *; eapply (add_neg (V := F)); try (match goal with |- dims _ _ _ => eassumption end); eassumption. Qed.
Lemma m_C23_field_add_zero : forall (F : fieldType) m n (M : matrix F), (0 < m)%N -> dims m n M -> fmat_add M (zero_mat m n) = Ok M.
Proof. move=> F *; eapply (add_zero (V := F)); try (match goal with |- dims _ _ _ => eassumption end); eassumption. Qed.
Lemma m_C23_field_scalar_value : forall (F : fieldType) m n (M : matrix F) k, (0 < m)%N -> dims m n M ->
  exists2 P, fmat_scalar_mul M k = Ok P & is_mat m n P (fun i j => at_ M i j * k).
Proof. move=> *; first [ exact: (smul_value *%R) | eapply (smul_value *%R); try (match goal with |- dims _ _ _ => eassumption end); eassumption ]. Qed.
Lemma m_C23_field_scalar_addl : forall (F : fieldType) m n (M N : matrix F) k, (0 < m)%N -> dims m n M -> dims m n N ->
  agree (let! Z := fmat_add M N in fmat_scalar_mul Z k)
        (let! Mk := fmat_scalar_mul M k in let! Nk := fmat_scalar_mul N k in fmat_add Mk Nk).
Proof. move=> *; apply: (smul_addl (sm := *%R)); try (match goal with |- dims _ _ _ => eassumption end); eauto; move=> *; by rewrite ?mulrDl ?mulrDr ?mulrA ?mulr1. Qed.
Lemma m_C23_field_scalar_addr : forall (F : fieldType) m n (M : matrix F) k l, (0 < m)%N -> dims m n M ->
  agree (fmat_scalar_mul M (k + l)) (let! Mk := fmat_scalar_mul M k in let! Ml := fmat_scalar_mul M l in fmat_add Mk Ml).
Proof. move=> *; apply: (smul_addr (sm := *%R)); try (match goal with |- dims _ _ _ => eassumption end); eauto; move=> *; by rewrite ?mulrDl ?mulrDr ?mulrA ?mulr1. Qed.
Lemma m_C23_field_scalar_mul : forall (F : fieldType) m n (M : matrix F) k l, (0 < m)%N -> dims m n M ->
  agree (fmat_scalar_mul M (k * l)) (let! Mk := fmat_scalar_mul M k in fmat_scalar_mul Mk l).
Proof. move=> *; apply: (smul_mul (sm := *%R)); try (match goal with |- dims _ _ _ => eassumption end); eauto; move=> *; by rewrite ?mulrDl ?mulrDr ?mulrA ?mulr1. Qed.
Lemma m_C23_field_scalar_one : forall (F : fieldType) m n (M : matrix F), (0 < m)%N -> dims m n M -> fmat_scalar_mul M 1 = Ok M.
Proof. move=> *; apply: (smul_one (sm := *%R)); try (match goal with |- dims _ _ _ => eassumption end); eauto; move=> *; by rewrite ?mulrDl ?mulrDr ?mulrA ?mulr1. Qed.
Lemma m_C24_field_transpose_value : forall (F : fieldType) m n (M : matrix F), (0 < m)%N -> dims m n M ->
  exists2 P, fmat_transpose M = Ok P & is_mat n m P (fun i j => at_ M j i).
Proof. move=> F *; eapply (tr_value (V := F)); try (match goal with |- dims _ _ _ => eassumption end); eassumption. Qed.
Lemma m_C24_field_transpose_involutive : forall (F : fieldType) m n (M : matrix F), (0 < m)%N -> (0 < n)%N -> dims m n M ->
  (let! Mt := fmat_transpose M in fmat_transpose Mt) = Ok M.
Proof. move=> F *; eapply (tr_tr (V := F)); try (match goal with |- dims _ _ _ => eassumption end); eassumption. Qed.
Lemma m_C24_field_transpose_right : forall (F : fieldType) (ord ord' : nat -> nat -> order) (par par' : bool), valid_ord ord -> valid_ord ord' ->
  forall m n p (M : matrix F) (A : matrix F), (0 < m)%N -> (0 < n)%N -> (0 < p)%N -> dims m n M -> dims n p A ->
  agree (let! MA := fmat_right_mul ord M A par in fmat_transpose MA)
        (let! Mt := fmat_transpose M in let! At := fmat_transpose A in fmat_left_mul ord' Mt At par').
Proof. move=> *; first [ exact: (tr_rm *%R) | eapply (tr_rm *%R); try (match goal with |- dims _ _ _ => eassumption end); eassumption ]. Qed.
Lemma m_C24_field_transpose_left : forall (F : fieldType) (ord ord' : nat -> nat -> order) (par par' : bool), valid_ord ord -> valid_ord ord' ->
  forall m n p (M : matrix F) (A : matrix F), (0 < m)%N -> (0 < n)%N -> (0 < p)%N -> dims m n A -> dims n p M ->
  agree (let! AM := fmat_left_mul ord M A par in fmat_transpose AM)
        (let! Mt := fmat_transpose M in let! At := fmat_transpose A in fmat_right_mul ord' Mt At par').
Proof. move=> *; first [ exact: (tr_lm *%R) | eapply (tr_lm *%R); try (match goal with |- dims _ _ _ => eassumption end); eassumption ]. Qed.
Lemma m_C25_field_add : forall (F : fieldType) (A B : matrix F),
  (returns (fmat_add A B) <->
   [/\ size A = size B, (0 < size A)%N, size (mrow A 0) = size (mrow B 0)
     & forall i, (i < size A)%N -> (size (mrow A 0) <= size (mrow A i))%N /\ (size (mrow A 0) <= size (mrow B i))%N]) /\
  (forall C, fmat_add A B = Ok C -> is_mat (size A) (size (mrow A 0)) C (fun i j => at_ A i j + at_ B i j)).
Proof. move=> F *; eapply (add_exact (V := F)); try (match goal with |- dims _ _ _ => eassumption end); eassumption. Qed.
Lemma m_C25_field_neg : forall (F : fieldType) (A : matrix F), fmat_neg A = Ok [seq [seq - x | x <- r] | r <- A].
Proof. move=> *; exact: (mat_negE 0). Qed.
Lemma m_C25_field_scalar_mul : forall (F : fieldType) (A : matrix F) k,
  (returns (fmat_scalar_mul A k) <->
   (0 < size A)%N /\ forall i, (i < size A)%N -> (size (mrow A 0) <= size (mrow A i))%N) /\
  (forall C, fmat_scalar_mul A k = Ok C -> is_mat (size A) (size (mrow A 0)) C (fun i j => at_ A i j * k)).
Proof. move=> *; first [ exact: (smul_exact *%R) | eapply (smul_exact *%R); try (match goal with |- dims _ _ _ => eassumption end); eassumption ]. Qed.
Lemma m_C25_field_transpose : forall (F : fieldType) (A : matrix F),
  (returns (fmat_transpose A) <->
   (0 < size A)%N /\ forall i, (i < size A)%N -> (size (mrow A i) <= size (mrow A 0))%N) /\
  (forall C, fmat_transpose A = Ok C -> size C = size (mrow A 0) /\
     forall i, (i < size C)%N -> mrow C i = [seq nth 0 r i | r <- A & (i < size r)%N]).
Proof. move=> F *; eapply (tr_exact (V := F)); try (match goal with |- dims _ _ _ => eassumption end); eassumption. Qed.
Lemma m_C25_field_right_mul : forall (F : fieldType) (ord : nat -> nat -> order) (par : bool), valid_ord ord -> forall (A : matrix F) (B : matrix F),
  (A = [::] \/ mrow A 0 = [::] \/ B = [::] \/ mrow B 0 = [::] -> fmat_right_mul ord A B par = Ok [::]) /\
  (A <> [::] -> mrow A 0 <> [::] -> B <> [::] -> mrow B 0 <> [::] ->
   (returns (fmat_right_mul ord A B par) <->
    [/\ size (mrow A 0) = size B, (forall i, (i < size A)%N -> (size B <= size (mrow A i))%N) & (forall i, (i < size B)%N -> (size (mrow B 0) <= size (mrow B i))%N)]) /\
   (forall C, fmat_right_mul ord A B par = Ok C ->
      is_mat (size A) (size (mrow B 0)) C (fun i j => \sum_(k < size B) at_ A i k * at_ B k j))).
Proof. move=> *; first [ exact: (rm_exact *%R) | eapply (rm_exact *%R); try (match goal with |- dims _ _ _ => eassumption end); eassumption ]. Qed.
Lemma m_C25_field_left_mul : forall (F : fieldType) (ord : nat -> nat -> order) (par : bool), valid_ord ord -> forall (A : matrix F) (L : matrix F),
  (L = [::] \/ mrow L 0 = [::] \/ A = [::] \/ mrow A 0 = [::] -> fmat_left_mul ord A L par = Ok [::]) /\
  (L <> [::] -> mrow L 0 <> [::] -> A <> [::] -> mrow A 0 <> [::] ->
   (returns (fmat_left_mul ord A L par) <->
    [/\ size (mrow L 0) = size A, (forall i, (i < size L)%N -> (size A <= size (mrow L i))%N) & (forall i, (i < size A)%N -> (size (mrow A 0) <= size (mrow A i))%N)]) /\
   (forall C, fmat_left_mul ord A L par = Ok C ->
      is_mat (size L) (size (mrow A 0)) C (fun i j => \sum_(k < size A) at_ L i k * at_ A k j))).
Proof. move=> F ord par vo A L; have [h0 h] := lm_exact *%R par vo A L; split=> // h1 h2 h3 h4.
have [e hC] := h h1 h2 h3 h4; split=> // C /hC; apply: eq_is_mat => i j _ _.
by apply: eq_bigr => k _; exact: mulrC. Qed.
Lemma m_C21_com_right : forall (F : fieldType) (G : lmodType F) (ord ord' : nat -> nat -> order), valid_ord ord ->
  forall (A : matrix (com G)) (B : matrix F), cmat_right_mul ord A B true = cmat_right_mul ord' A B false.
Proof. move=> F G ord ord' vo A B; exact: (right_mul_par_seq com_zero com_add com_scalar_mul ord' A B true vo). Qed.
Lemma m_C21_com_left : forall (F : fieldType) (G : lmodType F) (ord ord' : nat -> nat -> order), valid_ord ord ->
  forall (A : matrix (com G)) (B : matrix F), cmat_left_mul ord A B true = cmat_left_mul ord' A B false.
Proof. move=> F G ord ord' vo A B; exact: (left_mul_par_seq com_zero com_add com_scalar_mul ord' A B true vo). Qed.
Lemma m_C22_com_right_value : forall (F : fieldType) (G : lmodType F) (ord : nat -> nat -> order) (par : bool), valid_ord ord ->
  forall m n p (M : matrix (com G)) (A : matrix F), (0 < m)%N -> (0 < n)%N -> (0 < p)%N -> dims m n M -> dims n p A ->
  exists2 P, cmat_right_mul ord M A par = Ok P
    & is_mat m p P (fun i j => \sum_(k < n) at_ A k j *: at_ M i k).
Proof. move=> *; first [ exact: (rm_value com_scalar_mul) | eapply (rm_value com_scalar_mul); try (match goal with |- dims _ _ _ => eassumption end); eassumption ]. Qed.
Lemma m_C22_com_left_value : forall (F : fieldType) (G : lmodType F) (ord : nat -> nat -> order) (par : bool), valid_ord ord ->
  forall m n p (M : matrix (com G)) (A : matrix F), (0 < m)%N -> (0 < n)%N -> (0 < p)%N -> dims m n A -> dims n p M ->
  exists2 P, cmat_left_mul ord M A par = Ok P
    & is_mat m p P (fun i j => \sum_(k < n) at_ A i k *: at_ M k j).
Proof. move=> *; first [ exact: (lm_value com_scalar_mul) | eapply (lm_value com_scalar_mul); try (match goal with |- dims _ _ _ => eassumption end); eassumption ]. Qed.
Lemma m_C22_com_right_assoc : forall (F : fieldType) (G : lmodType F) (ord ord' ord2 ord3 : nat -> nat -> order) (par par' par2 par3 : bool), valid_ord ord -> valid_ord ord' -> valid_ord ord2 -> valid_ord ord3 ->
  forall m n p q (M : matrix (com G)) (A B : matrix F), (0 < m)%N -> (0 < n)%N -> (0 < p)%N -> (0 < q)%N ->
  dims m n M -> dims n p A -> dims p q B ->
  agree (let! MA := cmat_right_mul ord M A par in cmat_right_mul ord' MA B par')
        (let! AB := fmat_right_mul ord2 A B par2 in cmat_right_mul ord3 M AB par3).
Proof. move=> *; apply: rm_assoc; try (match goal with |- dims _ _ _ => eassumption end); eauto; intros; com_law. Qed.
Lemma m_C22_com_left_assoc : forall (F : fieldType) (G : lmodType F) (ord ord' ord2 ord3 : nat -> nat -> order) (par par' par2 par3 : bool), valid_ord ord -> valid_ord ord' -> valid_ord ord2 -> valid_ord ord3 ->
  forall m n p q (M : matrix (com G)) (A B : matrix F), (0 < m)%N -> (0 < n)%N -> (0 < p)%N -> (0 < q)%N ->
  dims m n A -> dims n p B -> dims p q M ->
  agree (let! BM := cmat_left_mul ord M B par in cmat_left_mul ord' BM A par')
        (let! AB := fmat_right_mul ord2 A B par2 in cmat_left_mul ord3 M AB par3).
Proof. move=> *; apply: lm_assoc; try (match goal with |- dims _ _ _ => eassumption end); eauto; intros; com_law. Qed.
Lemma m_C22_com_left_right : forall (F : fieldType) (G : lmodType F) (ord ord' ord2 ord3 : nat -> nat -> order) (par par' par2 par3 : bool), valid_ord ord -> valid_ord ord' -> valid_ord ord2 -> valid_ord ord3 ->
  forall m n p q (M : matrix (com G)) (A B : matrix F), (0 < m)%N -> (0 < n)%N -> (0 < p)%N -> (0 < q)%N ->
  dims m n A -> dims n p M -> dims p q B ->
  agree (let! AM := cmat_left_mul ord M A par in cmat_right_mul ord' AM B par')
        (let! MB := cmat_right_mul ord2 M B par2 in cmat_left_mul ord3 MB A par3).
Proof. move=> *; apply: lm_rm; try (match goal with |- dims _ _ _ => eassumption end); eauto; intros; com_law. Qed.
Lemma m_C22_com_right_addl : forall (F : fieldType) (G : lmodType F) (ord ord' ord2 : nat -> nat -> order) (par par' par2 : bool), valid_ord ord -> valid_ord ord' -> valid_ord ord2 ->
  forall m n p (M N : matrix (com G)) (A : matrix F), (0 < m)%N -> (0 < n)%N -> (0 < p)%N ->
  dims m n M -> dims m n N -> dims n p A ->
  agree (let! Z := cmat_add M N in cmat_right_mul ord Z A par)
        (let! MA := cmat_right_mul ord' M A par' in let! NA := cmat_right_mul ord2 N A par2 in cmat_add MA NA).
Proof. move=> *; apply: rm_addl; try (match goal with |- dims _ _ _ => eassumption end); eauto; intros; com_law. Qed.
Lemma m_C22_com_right_addr : forall (F : fieldType) (G : lmodType F) (ord ord' ord2 : nat -> nat -> order) (par par' par2 : bool), valid_ord ord -> valid_ord ord' -> valid_ord ord2 ->
  forall m n p (M : matrix (com G)) (A B : matrix F), (0 < m)%N -> (0 < n)%N -> (0 < p)%N ->
  dims m n M -> dims n p A -> dims n p B ->
  agree (let! Z := fmat_add A B in cmat_right_mul ord M Z par)
        (let! MA := cmat_right_mul ord' M A par' in let! MB := cmat_right_mul ord2 M B par2 in cmat_add MA MB).
Proof. move=> *; apply: rm_addr; try (match goal with |- dims _ _ _ => eassumption end); eauto; intros; com_law. Qed.
Lemma m_C22_com_left_addl : forall (F : fieldType) (G : lmodType F) (ord ord' ord2 : nat -> nat -> order) (par par' par2 : bool), valid_ord ord -> valid_ord ord' -> valid_ord ord2 ->
  forall m n p (M N : matrix (com G)) (A : matrix F), (0 < m)%N -> (0 < n)%N -> (0 < p)%N ->
  dims m n A -> dims n p M -> dims n p N ->
  agree (let! Z := cmat_add M N in cmat_left_mul ord Z A par)
        (let! AM := cmat_left_mul ord' M A par' in let! AN := cmat_left_mul ord2 N A par2 in cmat_add AM AN).
Proof. move=> *; apply: lm_addl; try (match goal with |- dims _ _ _ => eassumption end); eauto; intros; com_law. Qed.
Lemma m_C22_com_left_addr : forall (F : fieldType) (G : lmodType F) (ord ord' ord2 : nat -> nat -> order) (par par' par2 : bool), valid_ord ord -> valid_ord ord' -> valid_ord ord2 ->
  forall m n p (M : matrix (com G)) (A B : matrix F), (0 < m)%N -> (0 < n)%N -> (0 < p)%N ->
  dims m n A -> dims m n B -> dims n p M ->
  agree (let! Z := fmat_add A B in cmat_left_mul ord M Z par)
        (let! AM := cmat_left_mul ord' M A par' in let! BM := cmat_left_mul ord2 M B par2 in cmat_add AM BM).
Proof. move=> *; apply: lm_addr; try (match goal with |- dims _ _ _ => eassumption end); eauto; intros; com_law. Qed.
Lemma m_C23_com_add_value : forall (F : fieldType) (G : lmodType F) m n (M N : matrix (com G)), (0 < m)%N -> dims m n M -> dims m n N ->
  exists2 P, cmat_add M N = Ok P & is_mat m n P (fun i j => at_ M i j + at_ N i j).
Proof. move=> F G *; eapply (add_value (V := pair_zmodType G G)); try (match goal with |- dims _ _ _ => eassumption end); eassumption. Qed.
Lemma m_C23_com_add_comm : forall (F : fieldType) (G : lmodType F) m n (M N : matrix (com G)), (0 < m)%N -> dims m n M -> dims m n N ->
  agree (cmat_add M N) (cmat_add N M).
Proof. move=> F G *; eapply (add_comm (V := pair_zmodType G G)); try (match goal with |- dims _ _ _ => eassumption end); eassumption. Qed.
Lemma m_C23_com_add_assoc : forall (F : fieldType) (G : lmodType F) m n (M N P : matrix (com G)), (0 < m)%N -> dims m n M -> dims m n N -> dims m n P ->
  agree (let! MN := cmat_add M N in cmat_add MN P) (let! NP := cmat_add N P in cmat_add M NP).
Proof. move=> F G *; eapply (add_assoc (V := pair_zmodType G G)); try (match goal with |- dims _ _ _ => eassumption end); eassumption. Qed.
Lemma m_C23_com_neg_value : forall (F : fieldType) (G : lmodType F) m n (M : matrix (com G)), dims m n M ->
  exists2 P, cmat_neg M = Ok P & is_mat m n P (fun i j => - at_ M i j).
Proof. move=> F G *; eapply (neg_value (V := pair_zmodType G G)); try (match goal with |- dims _ _ _ => eassumption end); eassumption. Qed.
Lemma m_C23_com_add_neg : forall (F : fieldType) (G : lmodType F) m n (M : matrix (com G)), (0 < m)%N -> dims m n M ->
  (let! N := cmat_neg M in cmat_add M N) = Ok (zero_mat m n).
Proof. move=> F G *; eapply (add_neg (V := pair_zmodType G G)); try (match goal with |- dims _ _ _ => eassumption end); eassumption. Qed.
Lemma m_C23_com_add_zero : forall (F : fieldType) (G : lmodType F) m n (M : matrix (com G)), (0 < m)%N -> dims m n M -> cmat_add M (zero_mat m n) = Ok M.
Proof. move=> F G *; eapply (add_zero (V := pair_zmodType G G)); try (match goal with |- dims _ _ _ => eassumption end); eassumption. Qed.
Lemma m_C23_com_scalar_value : forall (F : fieldType) (G : lmodType F) m n (M : matrix (com G)) k, (0 < m)%N -> dims m n M ->
  exists2 P, cmat_scalar_mul M k = Ok P & is_mat m n P (fun i j => k *: at_ M i j).
Proof. move=> *; first [ exact: (smul_value com_scalar_mul) | eapply (smul_value com_scalar_mul); try (match goal with |- dims _ _ _ => eassumption end); eassumption ]. Qed.
Lemma m_C23_com_scalar_addl : forall (F : fieldType) (G : lmodType F) m n (M N : matrix (com G)) k, (0 < m)%N -> dims m n M -> dims m n N ->
  agree (let! Z := cmat_add M N in cmat_scalar_mul Z k)
        (let! Mk := cmat_scalar_mul M k in let! Nk := cmat_scalar_mul N k in cmat_add Mk Nk).
Proof. move=> *; apply: smul_addl; try (match goal with |- dims _ _ _ => eassumption end); eauto; intros; com_law. Qed.
Lemma m_C23_com_scalar_addr : forall (F : fieldType) (G : lmodType F) m n (M : matrix (com G)) k l, (0 < m)%N -> dims m n M ->
  agree (cmat_scalar_mul M (k + l)) (let! Mk := cmat_scalar_mul M k in let! Ml := cmat_scalar_mul M l in cmat_add Mk Ml).
Proof. move=> *; apply: smul_addr; try (match goal with |- dims _ _ _ => eassumption end); eauto; intros; com_law. Qed.
Lemma m_C23_com_scalar_mul : forall (F : fieldType) (G : lmodType F) m n (M : matrix (com G)) k l, (0 < m)%N -> dims m n M ->
  agree (cmat_scalar_mul M (k * l)) (let! Mk := cmat_scalar_mul M k in cmat_scalar_mul Mk l).
Proof. move=> *; apply: smul_mul; try (match goal with |- dims _ _ _ => eassumption end); eauto; intros; com_law. Qed.
Lemma m_C23_com_scalar_one : forall (F : fieldType) (G : lmodType F) m n (M : matrix (com G)), (0 < m)%N -> dims m n M -> cmat_scalar_mul M 1 = Ok M.
Proof. move=> *; apply: smul_one; try (match goal with |- dims _ _ _ => eassumption end); eauto; intros; com_law. Qed.
Lemma m_C24_com_transpose_value : forall (F : fieldType) (G : lmodType F) m n (M : matrix (com G)), (0 < m)%N -> dims m n M ->
  exists2 P, cmat_transpose M = Ok P & is_mat n m P (fun i j => at_ M j i).
Proof. move=> F G *; eapply (tr_value (V := pair_zmodType G G)); try (match goal with |- dims _ _ _ => eassumption end); eassumption. Qed.
Lemma m_C24_com_transpose_involutive : forall (F : fieldType) (G : lmodType F) m n (M : matrix (com G)), (0 < m)%N -> (0 < n)%N -> dims m n M ->
  (let! Mt := cmat_transpose M in cmat_transpose Mt) = Ok M.
Proof. move=> F G *; eapply (tr_tr (V := pair_zmodType G G)); try (match goal with |- dims _ _ _ => eassumption end); eassumption. Qed.
Lemma m_C24_com_transpose_right : forall (F : fieldType) (G : lmodType F) (ord ord' : nat -> nat -> order) (par par' : bool), valid_ord ord -> valid_ord ord' ->
  forall m n p (M : matrix (com G)) (A : matrix F), (0 < m)%N -> (0 < n)%N -> (0 < p)%N -> dims m n M -> dims n p A ->
  agree (let! MA := cmat_right_mul ord M A par in cmat_transpose MA)
        (let! Mt := cmat_transpose M in let! At := fmat_transpose A in cmat_left_mul ord' Mt At par').
Proof. move=> *; first [ exact: (tr_rm com_scalar_mul) | eapply (tr_rm com_scalar_mul); try (match goal with |- dims _ _ _ => eassumption end); eassumption ]. Qed.
Lemma m_C24_com_transpose_left : forall (F : fieldType) (G : lmodType F) (ord ord' : nat -> nat -> order) (par par' : bool), valid_ord ord -> valid_ord ord' ->
  forall m n p (M : matrix (com G)) (A : matrix F), (0 < m)%N -> (0 < n)%N -> (0 < p)%N -> dims m n A -> dims n p M ->
  agree (let! AM := cmat_left_mul ord M A par in cmat_transpose AM)
        (let! Mt := cmat_transpose M in let! At := fmat_transpose A in cmat_right_mul ord' Mt At par').
Proof. move=> *; first [ exact: (tr_lm com_scalar_mul) | eapply (tr_lm com_scalar_mul); try (match goal with |- dims _ _ _ => eassumption end); eassumption ]. Qed.
Lemma m_C25_com_add : forall (F : fieldType) (G : lmodType F) (A B : matrix (com G)),
  (returns (cmat_add A B) <->
   [/\ size A = size B, (0 < size A)%N, size (mrow A 0) = size (mrow B 0)
     & forall i, (i < size A)%N -> (size (mrow A 0) <= size (mrow A i))%N /\ (size (mrow A 0) <= size (mrow B i))%N]) /\
  (forall C, cmat_add A B = Ok C -> is_mat (size A) (size (mrow A 0)) C (fun i j => at_ A i j + at_ B i j)).
Proof. move=> F G *; eapply (add_exact (V := pair_zmodType G G)); try (match goal with |- dims _ _ _ => eassumption end); eassumption. Qed.
Lemma m_C25_com_neg : forall (F : fieldType) (G : lmodType F) (A : matrix (com G)), cmat_neg A = Ok [seq [seq - x | x <- r] | r <- A].
Proof. move=> *; exact: (mat_negE 0). Qed.
Lemma m_C25_com_scalar_mul : forall (F : fieldType) (G : lmodType F) (A : matrix (com G)) k,
  (returns (cmat_scalar_mul A k) <->
   (0 < size A)%N /\ forall i, (i < size A)%N -> (size (mrow A 0) <= size (mrow A i))%N) /\
  (forall C, cmat_scalar_mul A k = Ok C -> is_mat (size A) (size (mrow A 0)) C (fun i j => k *: at_ A i j)).
Proof. move=> *; first [ exact: (smul_exact com_scalar_mul) | eapply (smul_exact com_scalar_mul); try (match goal with |- dims _ _ _ => eassumption end); eassumption ]. Qed.
Lemma m_C25_com_transpose : forall (F : fieldType) (G : lmodType F) (A : matrix (com G)),
  (returns (cmat_transpose A) <->
   (0 < size A)%N /\ forall i, (i < size A)%N -> (size (mrow A i) <= size (mrow A 0))%N) /\
  (forall C, cmat_transpose A = Ok C -> size C = size (mrow A 0) /\
     forall i, (i < size C)%N -> mrow C i = [seq nth 0 r i | r <- A & (i < size r)%N]).
Proof. move=> F G *; eapply (tr_exact (V := pair_zmodType G G)); try (match goal with |- dims _ _ _ => eassumption end); eassumption. Qed.
Lemma m_C25_com_right_mul : forall (F : fieldType) (G : lmodType F) (ord : nat -> nat -> order) (par : bool), valid_ord ord -> forall (A : matrix (com G)) (B : matrix F),
  (A = [::] \/ mrow A 0 = [::] \/ B = [::] \/ mrow B 0 = [::] -> cmat_right_mul ord A B par = Ok [::]) /\
  (A <> [::] -> mrow A 0 <> [::] -> B <> [::] -> mrow B 0 <> [::] ->
   (returns (cmat_right_mul ord A B par) <->
    [/\ size (mrow A 0) = size B, (forall i, (i < size A)%N -> (size B <= size (mrow A i))%N) & (forall i, (i < size B)%N -> (size (mrow B 0) <= size (mrow B i))%N)]) /\
   (forall C, cmat_right_mul ord A B par = Ok C ->
      is_mat (size A) (size (mrow B 0)) C (fun i j => \sum_(k < size B) at_ B k j *: at_ A i k))).
Proof. move=> *; first [ exact: (rm_exact com_scalar_mul) | eapply (rm_exact com_scalar_mul); try (match goal with |- dims _ _ _ => eassumption end); eassumption ]. Qed.
Lemma m_C25_com_left_mul : forall (F : fieldType) (G : lmodType F) (ord : nat -> nat -> order) (par : bool), valid_ord ord -> forall (A : matrix (com G)) (L : matrix F),
  (L = [::] \/ mrow L 0 = [::] \/ A = [::] \/ mrow A 0 = [::] -> cmat_left_mul ord A L par = Ok [::]) /\
  (L <> [::] -> mrow L 0 <> [::] -> A <> [::] -> mrow A 0 <> [::] ->
   (returns (cmat_left_mul ord A L par) <->
    [/\ size (mrow L 0) = size A, (forall i, (i < size L)%N -> (size A <= size (mrow L i))%N) & (forall i, (i < size A)%N -> (size (mrow A 0) <= size (mrow A i))%N)]) /\
   (forall C, cmat_left_mul ord A L par = Ok C ->
      is_mat (size L) (size (mrow A 0)) C (fun i j => \sum_(k < size A) at_ L i k *: at_ A k j))).
Proof. move=> *; first [ exact: (lm_exact com_scalar_mul) | eapply (lm_exact com_scalar_mul); try (match goal with |- dims _ _ _ => eassumption end); eassumption ]. Qed.
Lemma m_C25_col_vec_to_vec : forall (T : Type) (M : matrix T),
  (returns (col_vec_to_vec M) <-> size M = 1%N \/ forall i, (i < size M)%N -> mrow M i <> [::]) /\
  (size M = 1%N -> col_vec_to_vec M = Ok (mrow M 0)) /\
  (size M <> 1%N -> forall v, col_vec_to_vec M = Ok v ->
     size v = size M /\ forall d i, (i < size M)%N -> nth d v i = head d (mrow M i)).
Proof. exact: @cvv_exact. Qed.

Lemma ok_eqP (T : eqType) (r : res T) x : (if r is Ok y then y == x else false) -> r = Ok x.
Proof. by case: r => // y /eqP->. Qed.
Ltac ok_eq := try by [apply: ok_eqP; vm_compute | vm_compute].
Lemma com_fromK (F : fieldType) (G : lmodType F) (c : com G) : com_from (com_as_col_vec c) = Ok c.
Proof. by case: c. Qed.
Lemma com_from_exact (F : fieldType) (G : lmodType F) (M : matrix G) :
  (returns (com_from M) <-> [/\ size M = 2%N, size (mrow M 0) = 1%N & size (mrow M 1) = 1%N]) /\
  (forall c, com_from M = Ok c -> M = [:: [:: c.1]; [:: c.2]]).
Proof.
case: M => [|[|x [|x' r]] [|[|y [|y' s]] [|r' t]]] //=; split; try by [].
all: try (by split=> [[c]|[]] //).
- by split=> // _; exists (x, y).
- by move=> c [<-].
Qed.
Lemma as_vecE (F : fieldType) (G : lmodType F) (c : com G) :
  col_vec_to_vec (com_as_col_vec c) = Ok (com_as_vec c) /\ com_from (vec_to_col_vec (com_as_vec c)) = Ok c.
Proof. by case: c. Qed.

Lemma comT_fromK (E : pairing) (t : ComT E) : comT_from (comT_as_matrix t) = Ok t.
Proof. by case: t => -[? ?] [? ?]. Qed.
Lemma comT_from_exact (E : pairing) (M : matrix (GT E)) :
  (returns (comT_from M) <-> [/\ size M = 2%N, size (mrow M 0) = 2%N & size (mrow M 1) = 2%N]) /\
  (forall t, comT_from M = Ok t -> M = [:: [:: t0 t; t1 t]; [:: t2 t; t3 t]]).
Proof.
case: M => [|[|a [|b [|c' r]]] [|[|c [|d [|d' s]]] [|r' t]]] //=; split; try by [].
all: try (by split=> [[z]|[]] //).
- by split=> // _; exists (mkComT a b c d).
- by move=> t [<-].
Qed.
