(** C91: the group operations that each function performs do not depend on the values it is given or draws, only on sizes. *)
From mathcomp Require Import all_ssreflect all_algebra.
From Verif Require Import Base BaseLemmas Group DataStructures Generator Commit Statement Derived Prove Verify.
From Verif Require Import Ark SpecArk ArkRel SpecTrace TraceProps Concrete Concrete2 Concrete13 Concrete21.
Set Implicit Arguments.
Unset Strict Implicit.
Unset Printing Implicit Defensive.
Import GRing.Theory.
Local Open Scope ring_scope.

(** Recording the expressions does not change what [generate_crs] returns. *)
Theorem C91_traced_generate_crs :
  forall (F : fieldType) (A : ark F) (R : ark_rng A) s t,
  (@forget_rst F A _ R) s t -> rpair (lcrs (forget A)) (@forget_rst F A _ R) (ark_generate_crs s) (ark_generate_crs t).
Proof. exact k_traced_generate_crs. Qed.
Print Assumptions C91_traced_generate_crs.

Example C91_traced_generate_crs_case :
  (@forget_rst F7 tark teq tctr) (0%N, 0%N) 0%N /\ (ark_generate_crs (R := tctr) 0%N).1 = tcrs.
Proof. split; [exact: erefl | exact: erefl]. Qed.

(** The operations by which [generate_crs] computes each point do not depend on what is drawn. *)
Theorem C91_alike_generate_crs :
  forall (F F' : fieldType) (A : ark F) (A' : ark F') (eqo : cmp A) (eqo' : cmp A') (R : ark_rng A) (R' : ark_rng A') s t,
  (@alike_rst F F' A A' eqo eqo' R R') s t -> rpair (lcrs (@alike F F' A A' eqo eqo')) (@alike_rst F F' A A' eqo eqo' R R') (ark_generate_crs s) (ark_generate_crs t).
Proof. exact k_alike_generate_crs. Qed.
Print Assumptions C91_alike_generate_crs.

Example C91_alike_generate_crs_case :
  [/\ (@alike_rst F7 F7 tark tark teq teq tctr tctr') st0 st0',
      [seq (c.1.2, c.2.2) | c <- ark_crs_u (ark_generate_crs (R := TR1) st0).1] = [seq (c.1.2, c.2.2) | c <- ark_crs_u (ark_generate_crs (R := TR2) st0').1]
    & bare (ark_crs_u (ark_generate_crs (R := TR1) st0).1) != bare (ark_crs_u (ark_generate_crs (R := TR2) st0').1)].
Proof. split; [exact: erefl | by vm_compute | by vm_compute]. Qed.

(** Recording the expressions does not change what [commit_G1] returns. *)
Theorem C91_traced_commit_G1 :
  forall (F : fieldType) (A : ark F) (R : ark_rng A) x y c d s t,
  la1 (forget A) x y -> lcrs (forget A) c d -> (@forget_rst F A _ R) s t ->
  rres (rpair (lcommit1 (forget A)) (@forget_rst F A _ R)) (ark_commit_G1 x c s) (ark_commit_G1 y d t).
Proof. exact k_traced_commit_G1. Qed.
Print Assumptions C91_traced_commit_G1.

Example C91_traced_commit_G1_case :
  [/\ la1 (forget tark) (n7 3, false, Inp 10 0) (n7 3, false),
      lcrs (forget tark) (named_crs teq tcrs) tcrs,
      (@forget_rst F7 tark teq tctr) st0 6%N
    & isok (ark_commit_G1 (A := tark) (R := tctr) (n7 3, false) tcrs 6%N)].
Proof. split; [exact: erefl | exact: (@crs_forget F7 tark tcrs) | exact: erefl | by vm_compute]. Qed.

(** The operations of [commit_G1] do not depend on the point, on the key or on what is drawn. *)
Theorem C91_alike_commit_G1 :
  forall (F F' : fieldType) (A : ark F) (A' : ark F') (eqo : cmp A) (eqo' : cmp A') (R : ark_rng A) (R' : ark_rng A') x y c d s t,
  la1 (@alike F F' A A' eqo eqo') x y -> lcrs (@alike F F' A A' eqo eqo') c d -> (@alike_rst F F' A A' eqo eqo' R R') s t ->
  rres (rpair (lcommit1 (@alike F F' A A' eqo eqo')) (@alike_rst F F' A A' eqo eqo' R R')) (ark_commit_G1 x c s) (ark_commit_G1 y d t).
Proof. exact k_alike_commit_G1. Qed.
Print Assumptions C91_alike_commit_G1.

Example C91_alike_commit_G1_case :
  [/\ la1 (@alike F7 F7 tark tark teq teq) ((n7 3, false, Inp 10 0) : aff (C1 (traced_with teq))) ((n7 5, false, Inp 10 0) : aff (C1 (traced_with teq))),
      lcrs (@alike F7 F7 tark tark teq teq) (named_crs teq tcrs) (named_crs teq tcrsh),
      (@alike_rst F7 F7 tark tark teq teq tctr tctr') st0 st0',
      omap (fun c : ark_Commit1 (traced_with teq) => bare_expr (ark_coms c)) (out_of (ark_commit_G1 (A := traced_with teq) (R := TR1) ((n7 3, false, Inp 10 0) : aff (C1 (traced_with teq))) (named_crs teq tcrs) st0)) = omap (fun c : ark_Commit1 (traced_with teq) => bare_expr (ark_coms c)) (out_of (ark_commit_G1 (A := traced_with teq) (R := TR2) ((n7 5, false, Inp 10 0) : aff (C1 (traced_with teq))) (named_crs teq tcrsh) st0'))
    & omap (fun c : ark_Commit1 (traced_with teq) => bare (ark_coms c)) (out_of (ark_commit_G1 (A := traced_with teq) (R := TR1) ((n7 3, false, Inp 10 0) : aff (C1 (traced_with teq))) (named_crs teq tcrs) st0)) != omap (fun c : ark_Commit1 (traced_with teq) => bare (ark_coms c)) (out_of (ark_commit_G1 (A := traced_with teq) (R := TR2) ((n7 5, false, Inp 10 0) : aff (C1 (traced_with teq))) (named_crs teq tcrsh) st0'))].
Proof. split; [exact: erefl | exact: (@crs_alike F7 F7 tark tark teq teq _ _ same_tcrs) | exact: erefl | by vm_compute | by vm_compute]. Qed.

(** The same for [batch_commit_G1]. *)
Theorem C91_traced_batch_commit_G1 :
  forall (F : fieldType) (A : ark F) (R : ark_rng A) x y c d s t,
  rseq (la1 (forget A)) x y -> lcrs (forget A) c d -> (@forget_rst F A _ R) s t ->
  rres (rpair (lcommit1 (forget A)) (@forget_rst F A _ R)) (ark_batch_commit_G1 x c s) (ark_batch_commit_G1 y d t).
Proof. exact k_traced_batch_commit_G1. Qed.
Print Assumptions C91_traced_batch_commit_G1.

Example C91_traced_batch_commit_G1_case :
  [/\ rseq (la1 (forget tark)) (named 10 (lift xs0)) (lift xs0),
      lcrs (forget tark) (named_crs teq tcrs) tcrs,
      (@forget_rst F7 tark teq tctr) st0 6%N
    & isok (ark_batch_commit_G1 (A := tark) (R := tctr) (lift xs0) tcrs 6%N)].
Proof. split; [exact: named_forget | exact: (@crs_forget F7 tark tcrs) | exact: erefl | by vm_compute]. Qed.

(** The operations of [batch_commit_G1] depend only on the number of points. *)
Theorem C91_alike_batch_commit_G1 :
  forall (F F' : fieldType) (A : ark F) (A' : ark F') (eqo : cmp A) (eqo' : cmp A') (R : ark_rng A) (R' : ark_rng A') x y c d s t,
  rseq (la1 (@alike F F' A A' eqo eqo')) x y -> lcrs (@alike F F' A A' eqo eqo') c d -> (@alike_rst F F' A A' eqo eqo' R R') s t ->
  rres (rpair (lcommit1 (@alike F F' A A' eqo eqo')) (@alike_rst F F' A A' eqo eqo' R R')) (ark_batch_commit_G1 x c s) (ark_batch_commit_G1 y d t).
Proof. exact k_alike_batch_commit_G1. Qed.
Print Assumptions C91_alike_batch_commit_G1.

Example C91_alike_batch_commit_G1_case :
  [/\ rseq (la1 (@alike F7 F7 tark tark teq teq)) (named 10 (lift xs0)) (named 10 (lift xs1)),
      lcrs (@alike F7 F7 tark tark teq teq) (named_crs teq tcrs) (named_crs teq tcrsh),
      (@alike_rst F7 F7 tark tark teq teq tctr tctr') st0 st0',
      omap (fun c : ark_Commit1 (traced_with teq) => bare_expr (ark_coms c)) (out_of (ark_batch_commit_G1 (A := traced_with teq) (R := TR1) (named 10 (lift xs0)) (named_crs teq tcrs) st0)) = omap (fun c : ark_Commit1 (traced_with teq) => bare_expr (ark_coms c)) (out_of (ark_batch_commit_G1 (A := traced_with teq) (R := TR2) (named 10 (lift xs1)) (named_crs teq tcrsh) st0'))
    & omap (fun c : ark_Commit1 (traced_with teq) => bare (ark_coms c)) (out_of (ark_batch_commit_G1 (A := traced_with teq) (R := TR1) (named 10 (lift xs0)) (named_crs teq tcrs) st0)) != omap (fun c : ark_Commit1 (traced_with teq) => bare (ark_coms c)) (out_of (ark_batch_commit_G1 (A := traced_with teq) (R := TR2) (named 10 (lift xs1)) (named_crs teq tcrsh) st0'))].
Proof. split; [exact: named_alike | exact: (@crs_alike F7 F7 tark tark teq teq _ _ same_tcrs) | exact: erefl | by vm_compute | by vm_compute]. Qed.

(** The same for [commit_scalar_to_B1]. *)
Theorem C91_traced_commit_scalar_to_B1 :
  forall (F : fieldType) (A : ark F) (R : ark_rng A) x y c d s t,
  lf (forget A) x y -> lcrs (forget A) c d -> (@forget_rst F A _ R) s t ->
  rres (rpair (lcommit1 (forget A)) (@forget_rst F A _ R)) (ark_commit_scalar_to_B1 x c s) (ark_commit_scalar_to_B1 y d t).
Proof. exact k_traced_commit_scalar_to_B1. Qed.
Print Assumptions C91_traced_commit_scalar_to_B1.

Example C91_traced_commit_scalar_to_B1_case :
  [/\ lf (forget tark) (n7 3) (n7 3),
      lcrs (forget tark) (named_crs teq tcrs) tcrs,
      (@forget_rst F7 tark teq tctr) st0 6%N
    & isok (ark_commit_scalar_to_B1 (A := tark) (R := tctr) (n7 3) tcrs 6%N)].
Proof. split; [exact: erefl | exact: (@crs_forget F7 tark tcrs) | exact: erefl | by vm_compute]. Qed.

(** The operations of [commit_scalar_to_B1] do not depend on the scalar. *)
Theorem C91_alike_commit_scalar_to_B1 :
  forall (F F' : fieldType) (A : ark F) (A' : ark F') (eqo : cmp A) (eqo' : cmp A') (R : ark_rng A) (R' : ark_rng A') x y c d s t,
  lf (@alike F F' A A' eqo eqo') x y -> lcrs (@alike F F' A A' eqo eqo') c d -> (@alike_rst F F' A A' eqo eqo' R R') s t ->
  rres (rpair (lcommit1 (@alike F F' A A' eqo eqo')) (@alike_rst F F' A A' eqo eqo' R R')) (ark_commit_scalar_to_B1 x c s) (ark_commit_scalar_to_B1 y d t).
Proof. exact k_alike_commit_scalar_to_B1. Qed.
Print Assumptions C91_alike_commit_scalar_to_B1.

Example C91_alike_commit_scalar_to_B1_case :
  [/\ lf (@alike F7 F7 tark tark teq teq) (n7 3) (n7 5),
      lcrs (@alike F7 F7 tark tark teq teq) (named_crs teq tcrs) (named_crs teq tcrsh),
      (@alike_rst F7 F7 tark tark teq teq tctr tctr') st0 st0',
      omap (fun c : ark_Commit1 (traced_with teq) => bare_expr (ark_coms c)) (out_of (ark_commit_scalar_to_B1 (A := traced_with teq) (R := TR1) (n7 3) (named_crs teq tcrs) st0)) = omap (fun c : ark_Commit1 (traced_with teq) => bare_expr (ark_coms c)) (out_of (ark_commit_scalar_to_B1 (A := traced_with teq) (R := TR2) (n7 5) (named_crs teq tcrsh) st0'))
    & omap (fun c : ark_Commit1 (traced_with teq) => bare (ark_coms c)) (out_of (ark_commit_scalar_to_B1 (A := traced_with teq) (R := TR1) (n7 3) (named_crs teq tcrs) st0)) != omap (fun c : ark_Commit1 (traced_with teq) => bare (ark_coms c)) (out_of (ark_commit_scalar_to_B1 (A := traced_with teq) (R := TR2) (n7 5) (named_crs teq tcrsh) st0'))].
Proof. split; [exact: I | exact: (@crs_alike F7 F7 tark tark teq teq _ _ same_tcrs) | exact: erefl | by vm_compute | by vm_compute]. Qed.

(** The same for [batch_commit_scalar_to_B1]. *)
Theorem C91_traced_batch_commit_scalar_to_B1 :
  forall (F : fieldType) (A : ark F) (R : ark_rng A) x y c d s t,
  rseq (lf (forget A)) x y -> lcrs (forget A) c d -> (@forget_rst F A _ R) s t ->
  rres (rpair (lcommit1 (forget A)) (@forget_rst F A _ R)) (ark_batch_commit_scalar_to_B1 x c s) (ark_batch_commit_scalar_to_B1 y d t).
Proof. exact k_traced_batch_commit_scalar_to_B1. Qed.
Print Assumptions C91_traced_batch_commit_scalar_to_B1.

Example C91_traced_batch_commit_scalar_to_B1_case :
  [/\ rseq (lf (forget tark)) xs0 xs0,
      lcrs (forget tark) (named_crs teq tcrs) tcrs,
      (@forget_rst F7 tark teq tctr) st0 6%N
    & isok (ark_batch_commit_scalar_to_B1 (A := tark) (R := tctr) xs0 tcrs 6%N)].
Proof. split; [exact: rseq_eq | exact: (@crs_forget F7 tark tcrs) | exact: erefl | by vm_compute]. Qed.

(** The operations of [batch_commit_scalar_to_B1] depend only on the number of scalars. *)
Theorem C91_alike_batch_commit_scalar_to_B1 :
  forall (F F' : fieldType) (A : ark F) (A' : ark F') (eqo : cmp A) (eqo' : cmp A') (R : ark_rng A) (R' : ark_rng A') x y c d s t,
  rseq (lf (@alike F F' A A' eqo eqo')) x y -> lcrs (@alike F F' A A' eqo eqo') c d -> (@alike_rst F F' A A' eqo eqo' R R') s t ->
  rres (rpair (lcommit1 (@alike F F' A A' eqo eqo')) (@alike_rst F F' A A' eqo eqo' R R')) (ark_batch_commit_scalar_to_B1 x c s) (ark_batch_commit_scalar_to_B1 y d t).
Proof. exact k_alike_batch_commit_scalar_to_B1. Qed.
Print Assumptions C91_alike_batch_commit_scalar_to_B1.

Example C91_alike_batch_commit_scalar_to_B1_case :
  [/\ rseq (lf (@alike F7 F7 tark tark teq teq)) xs0 xs1,
      lcrs (@alike F7 F7 tark tark teq teq) (named_crs teq tcrs) (named_crs teq tcrsh),
      (@alike_rst F7 F7 tark tark teq teq tctr tctr') st0 st0',
      omap (fun c : ark_Commit1 (traced_with teq) => bare_expr (ark_coms c)) (out_of (ark_batch_commit_scalar_to_B1 (A := traced_with teq) (R := TR1) xs0 (named_crs teq tcrs) st0)) = omap (fun c : ark_Commit1 (traced_with teq) => bare_expr (ark_coms c)) (out_of (ark_batch_commit_scalar_to_B1 (A := traced_with teq) (R := TR2) xs1 (named_crs teq tcrsh) st0'))
    & omap (fun c : ark_Commit1 (traced_with teq) => bare (ark_coms c)) (out_of (ark_batch_commit_scalar_to_B1 (A := traced_with teq) (R := TR1) xs0 (named_crs teq tcrs) st0)) != omap (fun c : ark_Commit1 (traced_with teq) => bare (ark_coms c)) (out_of (ark_batch_commit_scalar_to_B1 (A := traced_with teq) (R := TR2) xs1 (named_crs teq tcrsh) st0'))].
Proof. split; [exact: rseq_true | exact: (@crs_alike F7 F7 tark tark teq teq _ _ same_tcrs) | exact: erefl | by vm_compute | by vm_compute]. Qed.

(** Recording the expressions does not change what [commit_G2] returns. *)
Theorem C91_traced_commit_G2 :
  forall (F : fieldType) (A : ark F) (R : ark_rng A) x y c d s t,
  la2 (forget A) x y -> lcrs (forget A) c d -> (@forget_rst F A _ R) s t ->
  rres (rpair (lcommit2 (forget A)) (@forget_rst F A _ R)) (ark_commit_G2 x c s) (ark_commit_G2 y d t).
Proof. exact k_traced_commit_G2. Qed.
Print Assumptions C91_traced_commit_G2.

Example C91_traced_commit_G2_case :
  [/\ la2 (forget tark) (n7 3, false, Inp 10 0) (n7 3, false),
      lcrs (forget tark) (named_crs teq tcrs) tcrs,
      (@forget_rst F7 tark teq tctr) st0 6%N
    & isok (ark_commit_G2 (A := tark) (R := tctr) (n7 3, false) tcrs 6%N)].
Proof. split; [exact: erefl | exact: (@crs_forget F7 tark tcrs) | exact: erefl | by vm_compute]. Qed.

(** The operations of [commit_G2] do not depend on the point, on the key or on what is drawn. *)
Theorem C91_alike_commit_G2 :
  forall (F F' : fieldType) (A : ark F) (A' : ark F') (eqo : cmp A) (eqo' : cmp A') (R : ark_rng A) (R' : ark_rng A') x y c d s t,
  la2 (@alike F F' A A' eqo eqo') x y -> lcrs (@alike F F' A A' eqo eqo') c d -> (@alike_rst F F' A A' eqo eqo' R R') s t ->
  rres (rpair (lcommit2 (@alike F F' A A' eqo eqo')) (@alike_rst F F' A A' eqo eqo' R R')) (ark_commit_G2 x c s) (ark_commit_G2 y d t).
Proof. exact k_alike_commit_G2. Qed.
Print Assumptions C91_alike_commit_G2.

Example C91_alike_commit_G2_case :
  [/\ la2 (@alike F7 F7 tark tark teq teq) ((n7 3, false, Inp 10 0) : aff (C2 (traced_with teq))) ((n7 5, false, Inp 10 0) : aff (C2 (traced_with teq))),
      lcrs (@alike F7 F7 tark tark teq teq) (named_crs teq tcrs) (named_crs teq tcrsh),
      (@alike_rst F7 F7 tark tark teq teq tctr tctr') st0 st0',
      omap (fun c : ark_Commit2 (traced_with teq) => bare_expr (ark_coms c)) (out_of (ark_commit_G2 (A := traced_with teq) (R := TR1) ((n7 3, false, Inp 10 0) : aff (C2 (traced_with teq))) (named_crs teq tcrs) st0)) = omap (fun c : ark_Commit2 (traced_with teq) => bare_expr (ark_coms c)) (out_of (ark_commit_G2 (A := traced_with teq) (R := TR2) ((n7 5, false, Inp 10 0) : aff (C2 (traced_with teq))) (named_crs teq tcrsh) st0'))
    & omap (fun c : ark_Commit2 (traced_with teq) => bare (ark_coms c)) (out_of (ark_commit_G2 (A := traced_with teq) (R := TR1) ((n7 3, false, Inp 10 0) : aff (C2 (traced_with teq))) (named_crs teq tcrs) st0)) != omap (fun c : ark_Commit2 (traced_with teq) => bare (ark_coms c)) (out_of (ark_commit_G2 (A := traced_with teq) (R := TR2) ((n7 5, false, Inp 10 0) : aff (C2 (traced_with teq))) (named_crs teq tcrsh) st0'))].
Proof. split; [exact: erefl | exact: (@crs_alike F7 F7 tark tark teq teq _ _ same_tcrs) | exact: erefl | by vm_compute | by vm_compute]. Qed.

(** The same for [batch_commit_G2]. *)
Theorem C91_traced_batch_commit_G2 :
  forall (F : fieldType) (A : ark F) (R : ark_rng A) x y c d s t,
  rseq (la2 (forget A)) x y -> lcrs (forget A) c d -> (@forget_rst F A _ R) s t ->
  rres (rpair (lcommit2 (forget A)) (@forget_rst F A _ R)) (ark_batch_commit_G2 x c s) (ark_batch_commit_G2 y d t).
Proof. exact k_traced_batch_commit_G2. Qed.
Print Assumptions C91_traced_batch_commit_G2.

Example C91_traced_batch_commit_G2_case :
  [/\ rseq (la2 (forget tark)) (named 10 (lift xs0)) (lift xs0),
      lcrs (forget tark) (named_crs teq tcrs) tcrs,
      (@forget_rst F7 tark teq tctr) st0 6%N
    & isok (ark_batch_commit_G2 (A := tark) (R := tctr) (lift xs0) tcrs 6%N)].
Proof. split; [exact: named_forget | exact: (@crs_forget F7 tark tcrs) | exact: erefl | by vm_compute]. Qed.

(** The operations of [batch_commit_G2] depend only on the number of points. *)
Theorem C91_alike_batch_commit_G2 :
  forall (F F' : fieldType) (A : ark F) (A' : ark F') (eqo : cmp A) (eqo' : cmp A') (R : ark_rng A) (R' : ark_rng A') x y c d s t,
  rseq (la2 (@alike F F' A A' eqo eqo')) x y -> lcrs (@alike F F' A A' eqo eqo') c d -> (@alike_rst F F' A A' eqo eqo' R R') s t ->
  rres (rpair (lcommit2 (@alike F F' A A' eqo eqo')) (@alike_rst F F' A A' eqo eqo' R R')) (ark_batch_commit_G2 x c s) (ark_batch_commit_G2 y d t).
Proof. exact k_alike_batch_commit_G2. Qed.
Print Assumptions C91_alike_batch_commit_G2.

Example C91_alike_batch_commit_G2_case :
  [/\ rseq (la2 (@alike F7 F7 tark tark teq teq)) (named 10 (lift xs0)) (named 10 (lift xs1)),
      lcrs (@alike F7 F7 tark tark teq teq) (named_crs teq tcrs) (named_crs teq tcrsh),
      (@alike_rst F7 F7 tark tark teq teq tctr tctr') st0 st0',
      omap (fun c : ark_Commit2 (traced_with teq) => bare_expr (ark_coms c)) (out_of (ark_batch_commit_G2 (A := traced_with teq) (R := TR1) (named 10 (lift xs0)) (named_crs teq tcrs) st0)) = omap (fun c : ark_Commit2 (traced_with teq) => bare_expr (ark_coms c)) (out_of (ark_batch_commit_G2 (A := traced_with teq) (R := TR2) (named 10 (lift xs1)) (named_crs teq tcrsh) st0'))
    & omap (fun c : ark_Commit2 (traced_with teq) => bare (ark_coms c)) (out_of (ark_batch_commit_G2 (A := traced_with teq) (R := TR1) (named 10 (lift xs0)) (named_crs teq tcrs) st0)) != omap (fun c : ark_Commit2 (traced_with teq) => bare (ark_coms c)) (out_of (ark_batch_commit_G2 (A := traced_with teq) (R := TR2) (named 10 (lift xs1)) (named_crs teq tcrsh) st0'))].
Proof. split; [exact: named_alike | exact: (@crs_alike F7 F7 tark tark teq teq _ _ same_tcrs) | exact: erefl | by vm_compute | by vm_compute]. Qed.

(** The same for [commit_scalar_to_B2]. *)
Theorem C91_traced_commit_scalar_to_B2 :
  forall (F : fieldType) (A : ark F) (R : ark_rng A) x y c d s t,
  lf (forget A) x y -> lcrs (forget A) c d -> (@forget_rst F A _ R) s t ->
  rres (rpair (lcommit2 (forget A)) (@forget_rst F A _ R)) (ark_commit_scalar_to_B2 x c s) (ark_commit_scalar_to_B2 y d t).
Proof. exact k_traced_commit_scalar_to_B2. Qed.
Print Assumptions C91_traced_commit_scalar_to_B2.

Example C91_traced_commit_scalar_to_B2_case :
  [/\ lf (forget tark) (n7 3) (n7 3),
      lcrs (forget tark) (named_crs teq tcrs) tcrs,
      (@forget_rst F7 tark teq tctr) st0 6%N
    & isok (ark_commit_scalar_to_B2 (A := tark) (R := tctr) (n7 3) tcrs 6%N)].
Proof. split; [exact: erefl | exact: (@crs_forget F7 tark tcrs) | exact: erefl | by vm_compute]. Qed.

(** The operations of [commit_scalar_to_B2] do not depend on the scalar. *)
Theorem C91_alike_commit_scalar_to_B2 :
  forall (F F' : fieldType) (A : ark F) (A' : ark F') (eqo : cmp A) (eqo' : cmp A') (R : ark_rng A) (R' : ark_rng A') x y c d s t,
  lf (@alike F F' A A' eqo eqo') x y -> lcrs (@alike F F' A A' eqo eqo') c d -> (@alike_rst F F' A A' eqo eqo' R R') s t ->
  rres (rpair (lcommit2 (@alike F F' A A' eqo eqo')) (@alike_rst F F' A A' eqo eqo' R R')) (ark_commit_scalar_to_B2 x c s) (ark_commit_scalar_to_B2 y d t).
Proof. exact k_alike_commit_scalar_to_B2. Qed.
Print Assumptions C91_alike_commit_scalar_to_B2.

Example C91_alike_commit_scalar_to_B2_case :
  [/\ lf (@alike F7 F7 tark tark teq teq) (n7 3) (n7 5),
      lcrs (@alike F7 F7 tark tark teq teq) (named_crs teq tcrs) (named_crs teq tcrsh),
      (@alike_rst F7 F7 tark tark teq teq tctr tctr') st0 st0',
      omap (fun c : ark_Commit2 (traced_with teq) => bare_expr (ark_coms c)) (out_of (ark_commit_scalar_to_B2 (A := traced_with teq) (R := TR1) (n7 3) (named_crs teq tcrs) st0)) = omap (fun c : ark_Commit2 (traced_with teq) => bare_expr (ark_coms c)) (out_of (ark_commit_scalar_to_B2 (A := traced_with teq) (R := TR2) (n7 5) (named_crs teq tcrsh) st0'))
    & omap (fun c : ark_Commit2 (traced_with teq) => bare (ark_coms c)) (out_of (ark_commit_scalar_to_B2 (A := traced_with teq) (R := TR1) (n7 3) (named_crs teq tcrs) st0)) != omap (fun c : ark_Commit2 (traced_with teq) => bare (ark_coms c)) (out_of (ark_commit_scalar_to_B2 (A := traced_with teq) (R := TR2) (n7 5) (named_crs teq tcrsh) st0'))].
Proof. split; [exact: I | exact: (@crs_alike F7 F7 tark tark teq teq _ _ same_tcrs) | exact: erefl | by vm_compute | by vm_compute]. Qed.

(** The same for [batch_commit_scalar_to_B2]. *)
Theorem C91_traced_batch_commit_scalar_to_B2 :
  forall (F : fieldType) (A : ark F) (R : ark_rng A) x y c d s t,
  rseq (lf (forget A)) x y -> lcrs (forget A) c d -> (@forget_rst F A _ R) s t ->
  rres (rpair (lcommit2 (forget A)) (@forget_rst F A _ R)) (ark_batch_commit_scalar_to_B2 x c s) (ark_batch_commit_scalar_to_B2 y d t).
Proof. exact k_traced_batch_commit_scalar_to_B2. Qed.
Print Assumptions C91_traced_batch_commit_scalar_to_B2.

Example C91_traced_batch_commit_scalar_to_B2_case :
  [/\ rseq (lf (forget tark)) xs0 xs0,
      lcrs (forget tark) (named_crs teq tcrs) tcrs,
      (@forget_rst F7 tark teq tctr) st0 6%N
    & isok (ark_batch_commit_scalar_to_B2 (A := tark) (R := tctr) xs0 tcrs 6%N)].
Proof. split; [exact: rseq_eq | exact: (@crs_forget F7 tark tcrs) | exact: erefl | by vm_compute]. Qed.

(** The operations of [batch_commit_scalar_to_B2] depend only on the number of scalars. *)
Theorem C91_alike_batch_commit_scalar_to_B2 :
  forall (F F' : fieldType) (A : ark F) (A' : ark F') (eqo : cmp A) (eqo' : cmp A') (R : ark_rng A) (R' : ark_rng A') x y c d s t,
  rseq (lf (@alike F F' A A' eqo eqo')) x y -> lcrs (@alike F F' A A' eqo eqo') c d -> (@alike_rst F F' A A' eqo eqo' R R') s t ->
  rres (rpair (lcommit2 (@alike F F' A A' eqo eqo')) (@alike_rst F F' A A' eqo eqo' R R')) (ark_batch_commit_scalar_to_B2 x c s) (ark_batch_commit_scalar_to_B2 y d t).
Proof. exact k_alike_batch_commit_scalar_to_B2. Qed.
Print Assumptions C91_alike_batch_commit_scalar_to_B2.

Example C91_alike_batch_commit_scalar_to_B2_case :
  [/\ rseq (lf (@alike F7 F7 tark tark teq teq)) xs0 xs1,
      lcrs (@alike F7 F7 tark tark teq teq) (named_crs teq tcrs) (named_crs teq tcrsh),
      (@alike_rst F7 F7 tark tark teq teq tctr tctr') st0 st0',
      omap (fun c : ark_Commit2 (traced_with teq) => bare_expr (ark_coms c)) (out_of (ark_batch_commit_scalar_to_B2 (A := traced_with teq) (R := TR1) xs0 (named_crs teq tcrs) st0)) = omap (fun c : ark_Commit2 (traced_with teq) => bare_expr (ark_coms c)) (out_of (ark_batch_commit_scalar_to_B2 (A := traced_with teq) (R := TR2) xs1 (named_crs teq tcrsh) st0'))
    & omap (fun c : ark_Commit2 (traced_with teq) => bare (ark_coms c)) (out_of (ark_batch_commit_scalar_to_B2 (A := traced_with teq) (R := TR1) xs0 (named_crs teq tcrs) st0)) != omap (fun c : ark_Commit2 (traced_with teq) => bare (ark_coms c)) (out_of (ark_batch_commit_scalar_to_B2 (A := traced_with teq) (R := TR2) xs1 (named_crs teq tcrsh) st0'))].
Proof. split; [exact: rseq_true | exact: (@crs_alike F7 F7 tark tark teq teq _ _ same_tcrs) | exact: erefl | by vm_compute | by vm_compute]. Qed.

(** Recording the expressions does not change what [prove] returns, for the pairing-product equation. *)
Theorem C91_traced_ppe_prove :
  forall (F : fieldType) (A : ark F) (R : ark_rng A) sch e f xs xs' ys ys' x x' y y' c d s t,
  lppe (forget A) e f -> rseq (la1 (forget A)) xs xs' -> rseq (la2 (forget A)) ys ys' -> lcommit1 (forget A) x x' -> lcommit2 (forget A) y y' -> lcrs (forget A) c d ->
  (@forget_rst F A _ R) s t ->
  rres (rpair (lequproof (forget A)) (@forget_rst F A _ R)) (ark_ppe_prove sch e xs ys x y c s) (ark_ppe_prove sch f xs' ys' x' y' d t).
Proof. exact k_traced_ppe_prove. Qed.
Print Assumptions C91_traced_ppe_prove.

Example C91_traced_ppe_prove_case :
  [/\ lppe (forget tark) (named_ppe teq tppe) tppe,
      rseq (la1 (forget tark)) (named 10 (lift xs0)) (lift xs0),
      rseq (la2 (forget tark)) (named 11 (lift ys0)) (lift ys0),
      lcommit1 (forget tark) (named_commit1 teq 12 (ark_xcoms tp_ppe)) (ark_xcoms tp_ppe)
    & [/\ lcommit2 (forget tark) (named_commit2 teq 14 (ark_ycoms tp_ppe)) (ark_ycoms tp_ppe),
      lcrs (forget tark) (named_crs teq tcrs) tcrs,
      (@forget_rst F7 tark teq tctr) st0 6%N
    & isok (ark_ppe_prove (A := traced_with teq) (R := TR1) bwd (named_ppe teq tppe) (named 10 (lift xs0)) (named 11 (lift ys0)) (named_commit1 teq 12 (ark_xcoms tp_ppe)) (named_commit2 teq 14 (ark_ycoms tp_ppe)) (named_crs teq tcrs) st0)]].
Proof. split; [exact: (@ppe_forget F7 tark tppe) | exact: named_forget | exact: named_forget | exact: (@commit1_forget F7 tark 12 _) | split; [exact: (@commit2_forget F7 tark 14 _) | exact: (@crs_forget F7 tark tcrs) | exact: erefl | by vm_compute]]. Qed.

(** The operations of [prove] depend only on sizes, for the pairing-product equation: not on the witness, the equation, the commitments, the key or what is drawn. *)
Theorem C91_alike_ppe_prove :
  forall (F F' : fieldType) (A : ark F) (A' : ark F') (eqo : cmp A) (eqo' : cmp A') (R : ark_rng A) (R' : ark_rng A') sch e f xs xs' ys ys' x x' y y' c d s t,
  lppe (@alike F F' A A' eqo eqo') e f -> rseq (la1 (@alike F F' A A' eqo eqo')) xs xs' -> rseq (la2 (@alike F F' A A' eqo eqo')) ys ys' -> lcommit1 (@alike F F' A A' eqo eqo') x x' -> lcommit2 (@alike F F' A A' eqo eqo') y y' -> lcrs (@alike F F' A A' eqo eqo') c d ->
  (@alike_rst F F' A A' eqo eqo' R R') s t ->
  rres (rpair (lequproof (@alike F F' A A' eqo eqo')) (@alike_rst F F' A A' eqo eqo' R R')) (ark_ppe_prove sch e xs ys x y c s) (ark_ppe_prove sch f xs' ys' x' y' d t).
Proof. exact k_alike_ppe_prove. Qed.
Print Assumptions C91_alike_ppe_prove.

Example C91_alike_ppe_prove_case :
  [/\ lppe (@alike F7 F7 tark tark teq teq) (named_ppe teq tppe) (named_ppe teq tppe'),
      rseq (la1 (@alike F7 F7 tark tark teq teq)) (named 10 (lift xs0)) (named 10 (lift xs1)),
      rseq (la2 (@alike F7 F7 tark tark teq teq)) (named 11 (lift ys0)) (named 11 (lift ys1)),
      lcommit1 (@alike F7 F7 tark tark teq teq) (named_commit1 teq 12 (ark_xcoms tp_ppe)) (named_commit1 teq 12 (ark_xcoms tp_ppe'))
    & [/\ lcommit2 (@alike F7 F7 tark tark teq teq) (named_commit2 teq 14 (ark_ycoms tp_ppe)) (named_commit2 teq 14 (ark_ycoms tp_ppe')),
      lcrs (@alike F7 F7 tark tark teq teq) (named_crs teq tcrs) (named_crs teq tcrsh),
      (@alike_rst F7 F7 tark tark teq teq tctr tctr') st0 st0',
      omap (fun p : ark_EquProof (traced_with teq) => bare_expr (ark_pi p)) (out_of (ark_ppe_prove (A := traced_with teq) (R := TR1) bwd (named_ppe teq tppe) (named 10 (lift xs0)) (named 11 (lift ys0)) (named_commit1 teq 12 (ark_xcoms tp_ppe)) (named_commit2 teq 14 (ark_ycoms tp_ppe)) (named_crs teq tcrs) st0)) = omap (fun p : ark_EquProof (traced_with teq) => bare_expr (ark_pi p)) (out_of (ark_ppe_prove (A := traced_with teq) (R := TR2) bwd (named_ppe teq tppe') (named 10 (lift xs1)) (named 11 (lift ys1)) (named_commit1 teq 12 (ark_xcoms tp_ppe')) (named_commit2 teq 14 (ark_ycoms tp_ppe')) (named_crs teq tcrsh) st0'))
    & omap (fun p : ark_EquProof (traced_with teq) => bare (ark_pi p)) (out_of (ark_ppe_prove (A := traced_with teq) (R := TR1) bwd (named_ppe teq tppe) (named 10 (lift xs0)) (named 11 (lift ys0)) (named_commit1 teq 12 (ark_xcoms tp_ppe)) (named_commit2 teq 14 (ark_ycoms tp_ppe)) (named_crs teq tcrs) st0)) != omap (fun p : ark_EquProof (traced_with teq) => bare (ark_pi p)) (out_of (ark_ppe_prove (A := traced_with teq) (R := TR2) bwd (named_ppe teq tppe') (named 10 (lift xs1)) (named 11 (lift ys1)) (named_commit1 teq 12 (ark_xcoms tp_ppe')) (named_commit2 teq 14 (ark_ycoms tp_ppe')) (named_crs teq tcrsh) st0'))]].
Proof. split; [exact: (@ppe_alike F7 F7 tark tark teq teq _ _ same_tppe) | exact: named_alike | exact: named_alike | by case: (@cproof_alike F7 F7 tark tark teq teq _ _ same_tp_ppe) | split; [by case: (@cproof_alike F7 F7 tark tark teq teq _ _ same_tp_ppe) | exact: (@crs_alike F7 F7 tark tark teq teq _ _ same_tcrs) | exact: erefl | by vm_compute | by vm_compute]]. Qed.

(** The same for [commit_and_prove], for the pairing-product equation. *)
Theorem C91_traced_ppe_commit_and_prove :
  forall (F : fieldType) (A : ark F) (R : ark_rng A) sch e f xs xs' ys ys' c d s t,
  lppe (forget A) e f -> rseq (la1 (forget A)) xs xs' -> rseq (la2 (forget A)) ys ys' -> lcrs (forget A) c d -> (@forget_rst F A _ R) s t ->
  rres (rpair (lcproof (forget A)) (@forget_rst F A _ R)) (ark_ppe_commit_and_prove sch e xs ys c s) (ark_ppe_commit_and_prove sch f xs' ys' d t).
Proof. exact k_traced_ppe_commit_and_prove. Qed.
Print Assumptions C91_traced_ppe_commit_and_prove.

Example C91_traced_ppe_commit_and_prove_case :
  [/\ lppe (forget tark) (named_ppe teq tppe) tppe,
      rseq (la1 (forget tark)) (named 10 (lift xs0)) (lift xs0),
      rseq (la2 (forget tark)) (named 11 (lift ys0)) (lift ys0),
      lcrs (forget tark) (named_crs teq tcrs) tcrs
    & (@forget_rst F7 tark teq tctr) st0 6%N /\ isok (ark_ppe_commit_and_prove (A := traced_with teq) (R := TR1) bwd (named_ppe teq tppe) (named 10 (lift xs0)) (named 11 (lift ys0)) (named_crs teq tcrs) st0)].
Proof. split; [exact: (@ppe_forget F7 tark tppe) | exact: named_forget | exact: named_forget | exact: (@crs_forget F7 tark tcrs) | split; [exact: erefl | by vm_compute]]. Qed.

(** The operations of [commit_and_prove] depend only on sizes, for the pairing-product equation. *)
Theorem C91_alike_ppe_commit_and_prove :
  forall (F F' : fieldType) (A : ark F) (A' : ark F') (eqo : cmp A) (eqo' : cmp A') (R : ark_rng A) (R' : ark_rng A') sch e f xs xs' ys ys' c d s t,
  lppe (@alike F F' A A' eqo eqo') e f -> rseq (la1 (@alike F F' A A' eqo eqo')) xs xs' -> rseq (la2 (@alike F F' A A' eqo eqo')) ys ys' -> lcrs (@alike F F' A A' eqo eqo') c d -> (@alike_rst F F' A A' eqo eqo' R R') s t ->
  rres (rpair (lcproof (@alike F F' A A' eqo eqo')) (@alike_rst F F' A A' eqo eqo' R R')) (ark_ppe_commit_and_prove sch e xs ys c s) (ark_ppe_commit_and_prove sch f xs' ys' d t).
Proof. exact k_alike_ppe_commit_and_prove. Qed.
Print Assumptions C91_alike_ppe_commit_and_prove.

Example C91_alike_ppe_commit_and_prove_case :
  [/\ lppe (@alike F7 F7 tark tark teq teq) (named_ppe teq tppe) (named_ppe teq tppe'),
      rseq (la1 (@alike F7 F7 tark tark teq teq)) (named 10 (lift xs0)) (named 10 (lift xs1)),
      rseq (la2 (@alike F7 F7 tark tark teq teq)) (named 11 (lift ys0)) (named 11 (lift ys1)),
      lcrs (@alike F7 F7 tark tark teq teq) (named_crs teq tcrs) (named_crs teq tcrsh)
    & [/\ (@alike_rst F7 F7 tark tark teq teq tctr tctr') st0 st0',
      isok (ark_ppe_commit_and_prove (A := traced_with teq) (R := TR1) bwd (named_ppe teq tppe) (named 10 (lift xs0)) (named 11 (lift ys0)) (named_crs teq tcrs) st0)
    & isok (ark_ppe_commit_and_prove (A := traced_with teq) (R := TR2) bwd (named_ppe teq tppe') (named 10 (lift xs1)) (named 11 (lift ys1)) (named_crs teq tcrsh) st0')]].
Proof. split; [exact: (@ppe_alike F7 F7 tark tark teq teq _ _ same_tppe) | exact: named_alike | exact: named_alike | exact: (@crs_alike F7 F7 tark tark teq teq _ _ same_tcrs) | split; [exact: erefl | by vm_compute | by vm_compute]]. Qed.

(** Recording the expressions does not change what [verify] answers, for the pairing-product equation. *)
Theorem C91_traced_ppe_verify :
  forall (F : fieldType) (A : ark F) sch e f p q c d,
  lppe (forget A) e f -> lcproof (forget A) p q -> lcrs (forget A) c d ->
  ark_ppe_verify sch e p c = ark_ppe_verify sch f q d.
Proof. exact k_traced_ppe_verify. Qed.
Print Assumptions C91_traced_ppe_verify.

Example C91_traced_ppe_verify_case :
  [/\ lppe (forget tark) (named_ppe teq tppe) tppe,
      lcproof (forget tark) (named_cproof teq tp_ppe) tp_ppe,
      lcrs (forget tark) (named_crs teq tcrs) tcrs
    & ark_ppe_verify (A := traced_with teq) bwd (named_ppe teq tppe) (named_cproof teq tp_ppe) (named_crs teq tcrs) = Ok true].
Proof. split; [exact: (@ppe_forget F7 tark tppe) | exact: (@cproof_forget F7 tark tp_ppe) | exact: (@crs_forget F7 tark tcrs) | by vm_compute]. Qed.

(** The operations of [verify] depend only on sizes, for the pairing-product equation: an observer that is shown the expressions of the two sides, in place of the comparison, cannot tell the runs apart. *)
Theorem C91_alike_ppe_verify :
  forall (F F' : fieldType) (A : ark F) (A' : ark F') (P : expr -> expr -> bool) sch
  (e : ark_PPE (watched A P)) (f : ark_PPE (watched A' P))
  (p : ark_CProof (watched A P)) (q : ark_CProof (watched A' P)) c d,
  lppe (alike_watched A A' P) e f -> lcproof (alike_watched A A' P) p q -> lcrs (alike_watched A A' P) c d ->
  ark_ppe_verify sch e p c = ark_ppe_verify sch f q d.
Proof. exact k_alike_ppe_verify. Qed.
Print Assumptions C91_alike_ppe_verify.

Example C91_alike_ppe_verify_case :
  [/\ lppe (alike_watched tark tark (watch 5 4)) (named_ppe (fun x y => (watch 5 4) x.2 y.2) tppe) (named_ppe (fun x y => (watch 5 4) x.2 y.2) tppe'),
      lcproof (alike_watched tark tark (watch 5 4)) (named_cproof (fun x y => (watch 5 4) x.2 y.2) tp_ppe) (named_cproof (fun x y => (watch 5 4) x.2 y.2) tp_ppe'),
      lcrs (alike_watched tark tark (watch 5 4)) (named_crs (fun x y => (watch 5 4) x.2 y.2) tcrs) (named_crs (fun x y => (watch 5 4) x.2 y.2) tcrsh),
      ark_ppe_verify (A := watched tark (watch 5 4)) bwd (named_ppe (fun x y => (watch 5 4) x.2 y.2) tppe) (named_cproof (fun x y => (watch 5 4) x.2 y.2) tp_ppe) (named_crs (fun x y => (watch 5 4) x.2 y.2) tcrs) = Ok true
    & ark_ppe_verify (A := watched tark (watch 5 5)) bwd (named_ppe (fun x y => (watch 5 5) x.2 y.2) tppe) (named_cproof (fun x y => (watch 5 5) x.2 y.2) tp_ppe) (named_crs (fun x y => (watch 5 5) x.2 y.2) tcrs) = Ok false].
Proof. split; [exact: (@ppe_alike F7 F7 tark tark _ _ _ _ same_tppe) | exact: (@cproof_alike F7 F7 tark tark _ _ _ _ same_tp_ppe) | exact: (@crs_alike F7 F7 tark tark _ _ _ _ same_tcrs) | by vm_compute | by vm_compute]. Qed.

(** Recording the expressions does not change what [prove] returns, for the multi-scalar equation in G1. *)
Theorem C91_traced_ms1_prove :
  forall (F : fieldType) (A : ark F) (R : ark_rng A) sch e f xs xs' ys ys' x x' y y' c d s t,
  lms1 (forget A) e f -> rseq (la1 (forget A)) xs xs' -> rseq (lf (forget A)) ys ys' -> lcommit1 (forget A) x x' -> lcommit2 (forget A) y y' -> lcrs (forget A) c d ->
  (@forget_rst F A _ R) s t ->
  rres (rpair (lequproof (forget A)) (@forget_rst F A _ R)) (ark_ms1_prove sch e xs ys x y c s) (ark_ms1_prove sch f xs' ys' x' y' d t).
Proof. exact k_traced_ms1_prove. Qed.
Print Assumptions C91_traced_ms1_prove.

Example C91_traced_ms1_prove_case :
  [/\ lms1 (forget tark) (named_ms1 teq tms1) tms1,
      rseq (la1 (forget tark)) (named 10 (lift xs0)) (lift xs0),
      rseq (lf (forget tark)) ys0 (ys0),
      lcommit1 (forget tark) (named_commit1 teq 12 (ark_xcoms tp_ms1)) (ark_xcoms tp_ms1)
    & [/\ lcommit2 (forget tark) (named_commit2 teq 14 (ark_ycoms tp_ms1)) (ark_ycoms tp_ms1),
      lcrs (forget tark) (named_crs teq tcrs) tcrs,
      (@forget_rst F7 tark teq tctr) st0 6%N
    & isok (ark_ms1_prove (A := traced_with teq) (R := TR1) bwd (named_ms1 teq tms1) (named 10 (lift xs0)) ys0 (named_commit1 teq 12 (ark_xcoms tp_ms1)) (named_commit2 teq 14 (ark_ycoms tp_ms1)) (named_crs teq tcrs) st0)]].
Proof. split; [exact: (@ms1_forget F7 tark tms1) | exact: named_forget | exact: rseq_eq | exact: (@commit1_forget F7 tark 12 _) | split; [exact: (@commit2_forget F7 tark 14 _) | exact: (@crs_forget F7 tark tcrs) | exact: erefl | by vm_compute]]. Qed.

(** The operations of [prove] depend only on sizes, for the multi-scalar equation in G1: not on the witness, the equation, the commitments, the key or what is drawn. *)
Theorem C91_alike_ms1_prove :
  forall (F F' : fieldType) (A : ark F) (A' : ark F') (eqo : cmp A) (eqo' : cmp A') (R : ark_rng A) (R' : ark_rng A') sch e f xs xs' ys ys' x x' y y' c d s t,
  lms1 (@alike F F' A A' eqo eqo') e f -> rseq (la1 (@alike F F' A A' eqo eqo')) xs xs' -> rseq (lf (@alike F F' A A' eqo eqo')) ys ys' -> lcommit1 (@alike F F' A A' eqo eqo') x x' -> lcommit2 (@alike F F' A A' eqo eqo') y y' -> lcrs (@alike F F' A A' eqo eqo') c d ->
  (@alike_rst F F' A A' eqo eqo' R R') s t ->
  rres (rpair (lequproof (@alike F F' A A' eqo eqo')) (@alike_rst F F' A A' eqo eqo' R R')) (ark_ms1_prove sch e xs ys x y c s) (ark_ms1_prove sch f xs' ys' x' y' d t).
Proof. exact k_alike_ms1_prove. Qed.
Print Assumptions C91_alike_ms1_prove.

Example C91_alike_ms1_prove_case :
  [/\ lms1 (@alike F7 F7 tark tark teq teq) (named_ms1 teq tms1) (named_ms1 teq tms1'),
      rseq (la1 (@alike F7 F7 tark tark teq teq)) (named 10 (lift xs0)) (named 10 (lift xs1)),
      rseq (lf (@alike F7 F7 tark tark teq teq)) ys0 ys1,
      lcommit1 (@alike F7 F7 tark tark teq teq) (named_commit1 teq 12 (ark_xcoms tp_ms1)) (named_commit1 teq 12 (ark_xcoms tp_ms1'))
    & [/\ lcommit2 (@alike F7 F7 tark tark teq teq) (named_commit2 teq 14 (ark_ycoms tp_ms1)) (named_commit2 teq 14 (ark_ycoms tp_ms1')),
      lcrs (@alike F7 F7 tark tark teq teq) (named_crs teq tcrs) (named_crs teq tcrsh),
      (@alike_rst F7 F7 tark tark teq teq tctr tctr') st0 st0',
      omap (fun p : ark_EquProof (traced_with teq) => bare_expr (ark_pi p)) (out_of (ark_ms1_prove (A := traced_with teq) (R := TR1) bwd (named_ms1 teq tms1) (named 10 (lift xs0)) ys0 (named_commit1 teq 12 (ark_xcoms tp_ms1)) (named_commit2 teq 14 (ark_ycoms tp_ms1)) (named_crs teq tcrs) st0)) = omap (fun p : ark_EquProof (traced_with teq) => bare_expr (ark_pi p)) (out_of (ark_ms1_prove (A := traced_with teq) (R := TR2) bwd (named_ms1 teq tms1') (named 10 (lift xs1)) ys1 (named_commit1 teq 12 (ark_xcoms tp_ms1')) (named_commit2 teq 14 (ark_ycoms tp_ms1')) (named_crs teq tcrsh) st0'))
    & omap (fun p : ark_EquProof (traced_with teq) => bare (ark_pi p)) (out_of (ark_ms1_prove (A := traced_with teq) (R := TR1) bwd (named_ms1 teq tms1) (named 10 (lift xs0)) ys0 (named_commit1 teq 12 (ark_xcoms tp_ms1)) (named_commit2 teq 14 (ark_ycoms tp_ms1)) (named_crs teq tcrs) st0)) != omap (fun p : ark_EquProof (traced_with teq) => bare (ark_pi p)) (out_of (ark_ms1_prove (A := traced_with teq) (R := TR2) bwd (named_ms1 teq tms1') (named 10 (lift xs1)) ys1 (named_commit1 teq 12 (ark_xcoms tp_ms1')) (named_commit2 teq 14 (ark_ycoms tp_ms1')) (named_crs teq tcrsh) st0'))]].
Proof. split; [exact: (@ms1_alike F7 F7 tark tark teq teq _ _ same_tms1) | exact: named_alike | exact: rseq_true | by case: (@cproof_alike F7 F7 tark tark teq teq _ _ same_tp_ms1) | split; [by case: (@cproof_alike F7 F7 tark tark teq teq _ _ same_tp_ms1) | exact: (@crs_alike F7 F7 tark tark teq teq _ _ same_tcrs) | exact: erefl | by vm_compute | by vm_compute]]. Qed.

(** The same for [commit_and_prove], for the multi-scalar equation in G1. *)
Theorem C91_traced_ms1_commit_and_prove :
  forall (F : fieldType) (A : ark F) (R : ark_rng A) sch e f xs xs' ys ys' c d s t,
  lms1 (forget A) e f -> rseq (la1 (forget A)) xs xs' -> rseq (lf (forget A)) ys ys' -> lcrs (forget A) c d -> (@forget_rst F A _ R) s t ->
  rres (rpair (lcproof (forget A)) (@forget_rst F A _ R)) (ark_ms1_commit_and_prove sch e xs ys c s) (ark_ms1_commit_and_prove sch f xs' ys' d t).
Proof. exact k_traced_ms1_commit_and_prove. Qed.
Print Assumptions C91_traced_ms1_commit_and_prove.

Example C91_traced_ms1_commit_and_prove_case :
  [/\ lms1 (forget tark) (named_ms1 teq tms1) tms1,
      rseq (la1 (forget tark)) (named 10 (lift xs0)) (lift xs0),
      rseq (lf (forget tark)) ys0 (ys0),
      lcrs (forget tark) (named_crs teq tcrs) tcrs
    & (@forget_rst F7 tark teq tctr) st0 6%N /\ isok (ark_ms1_commit_and_prove (A := traced_with teq) (R := TR1) bwd (named_ms1 teq tms1) (named 10 (lift xs0)) ys0 (named_crs teq tcrs) st0)].
Proof. split; [exact: (@ms1_forget F7 tark tms1) | exact: named_forget | exact: rseq_eq | exact: (@crs_forget F7 tark tcrs) | split; [exact: erefl | by vm_compute]]. Qed.

(** The operations of [commit_and_prove] depend only on sizes, for the multi-scalar equation in G1. *)
Theorem C91_alike_ms1_commit_and_prove :
  forall (F F' : fieldType) (A : ark F) (A' : ark F') (eqo : cmp A) (eqo' : cmp A') (R : ark_rng A) (R' : ark_rng A') sch e f xs xs' ys ys' c d s t,
  lms1 (@alike F F' A A' eqo eqo') e f -> rseq (la1 (@alike F F' A A' eqo eqo')) xs xs' -> rseq (lf (@alike F F' A A' eqo eqo')) ys ys' -> lcrs (@alike F F' A A' eqo eqo') c d -> (@alike_rst F F' A A' eqo eqo' R R') s t ->
  rres (rpair (lcproof (@alike F F' A A' eqo eqo')) (@alike_rst F F' A A' eqo eqo' R R')) (ark_ms1_commit_and_prove sch e xs ys c s) (ark_ms1_commit_and_prove sch f xs' ys' d t).
Proof. exact k_alike_ms1_commit_and_prove. Qed.
Print Assumptions C91_alike_ms1_commit_and_prove.

Example C91_alike_ms1_commit_and_prove_case :
  [/\ lms1 (@alike F7 F7 tark tark teq teq) (named_ms1 teq tms1) (named_ms1 teq tms1'),
      rseq (la1 (@alike F7 F7 tark tark teq teq)) (named 10 (lift xs0)) (named 10 (lift xs1)),
      rseq (lf (@alike F7 F7 tark tark teq teq)) ys0 ys1,
      lcrs (@alike F7 F7 tark tark teq teq) (named_crs teq tcrs) (named_crs teq tcrsh)
    & [/\ (@alike_rst F7 F7 tark tark teq teq tctr tctr') st0 st0',
      isok (ark_ms1_commit_and_prove (A := traced_with teq) (R := TR1) bwd (named_ms1 teq tms1) (named 10 (lift xs0)) ys0 (named_crs teq tcrs) st0)
    & isok (ark_ms1_commit_and_prove (A := traced_with teq) (R := TR2) bwd (named_ms1 teq tms1') (named 10 (lift xs1)) ys1 (named_crs teq tcrsh) st0')]].
Proof. split; [exact: (@ms1_alike F7 F7 tark tark teq teq _ _ same_tms1) | exact: named_alike | exact: rseq_true | exact: (@crs_alike F7 F7 tark tark teq teq _ _ same_tcrs) | split; [exact: erefl | by vm_compute | by vm_compute]]. Qed.

(** Recording the expressions does not change what [verify] answers, for the multi-scalar equation in G1. *)
Theorem C91_traced_ms1_verify :
  forall (F : fieldType) (A : ark F) sch e f p q c d,
  lms1 (forget A) e f -> lcproof (forget A) p q -> lcrs (forget A) c d ->
  ark_ms1_verify sch e p c = ark_ms1_verify sch f q d.
Proof. exact k_traced_ms1_verify. Qed.
Print Assumptions C91_traced_ms1_verify.

Example C91_traced_ms1_verify_case :
  [/\ lms1 (forget tark) (named_ms1 teq tms1) tms1,
      lcproof (forget tark) (named_cproof teq tp_ms1) tp_ms1,
      lcrs (forget tark) (named_crs teq tcrs) tcrs
    & ark_ms1_verify (A := traced_with teq) bwd (named_ms1 teq tms1) (named_cproof teq tp_ms1) (named_crs teq tcrs) = Ok true].
Proof. split; [exact: (@ms1_forget F7 tark tms1) | exact: (@cproof_forget F7 tark tp_ms1) | exact: (@crs_forget F7 tark tcrs) | by vm_compute]. Qed.

(** The operations of [verify] depend only on sizes, for the multi-scalar equation in G1: an observer that is shown the expressions of the two sides, in place of the comparison, cannot tell the runs apart. *)
Theorem C91_alike_ms1_verify :
  forall (F F' : fieldType) (A : ark F) (A' : ark F') (P : expr -> expr -> bool) sch
  (e : ark_MSMEG1 (watched A P)) (f : ark_MSMEG1 (watched A' P))
  (p : ark_CProof (watched A P)) (q : ark_CProof (watched A' P)) c d,
  lms1 (alike_watched A A' P) e f -> lcproof (alike_watched A A' P) p q -> lcrs (alike_watched A A' P) c d ->
  ark_ms1_verify sch e p c = ark_ms1_verify sch f q d.
Proof. exact k_alike_ms1_verify. Qed.
Print Assumptions C91_alike_ms1_verify.

Example C91_alike_ms1_verify_case :
  [/\ lms1 (alike_watched tark tark (watch 5 4)) (named_ms1 (fun x y => (watch 5 4) x.2 y.2) tms1) (named_ms1 (fun x y => (watch 5 4) x.2 y.2) tms1'),
      lcproof (alike_watched tark tark (watch 5 4)) (named_cproof (fun x y => (watch 5 4) x.2 y.2) tp_ms1) (named_cproof (fun x y => (watch 5 4) x.2 y.2) tp_ms1'),
      lcrs (alike_watched tark tark (watch 5 4)) (named_crs (fun x y => (watch 5 4) x.2 y.2) tcrs) (named_crs (fun x y => (watch 5 4) x.2 y.2) tcrsh),
      ark_ms1_verify (A := watched tark (watch 5 4)) bwd (named_ms1 (fun x y => (watch 5 4) x.2 y.2) tms1) (named_cproof (fun x y => (watch 5 4) x.2 y.2) tp_ms1) (named_crs (fun x y => (watch 5 4) x.2 y.2) tcrs) = Ok true
    & ark_ms1_verify (A := watched tark (watch 5 5)) bwd (named_ms1 (fun x y => (watch 5 5) x.2 y.2) tms1) (named_cproof (fun x y => (watch 5 5) x.2 y.2) tp_ms1) (named_crs (fun x y => (watch 5 5) x.2 y.2) tcrs) = Ok false].
Proof. split; [exact: (@ms1_alike F7 F7 tark tark _ _ _ _ same_tms1) | exact: (@cproof_alike F7 F7 tark tark _ _ _ _ same_tp_ms1) | exact: (@crs_alike F7 F7 tark tark _ _ _ _ same_tcrs) | by vm_compute | by vm_compute]. Qed.

(** Recording the expressions does not change what [prove] returns, for the multi-scalar equation in G2. *)
Theorem C91_traced_ms2_prove :
  forall (F : fieldType) (A : ark F) (R : ark_rng A) sch e f xs xs' ys ys' x x' y y' c d s t,
  lms2 (forget A) e f -> rseq (lf (forget A)) xs xs' -> rseq (la2 (forget A)) ys ys' -> lcommit1 (forget A) x x' -> lcommit2 (forget A) y y' -> lcrs (forget A) c d ->
  (@forget_rst F A _ R) s t ->
  rres (rpair (lequproof (forget A)) (@forget_rst F A _ R)) (ark_ms2_prove sch e xs ys x y c s) (ark_ms2_prove sch f xs' ys' x' y' d t).
Proof. exact k_traced_ms2_prove. Qed.
Print Assumptions C91_traced_ms2_prove.

Example C91_traced_ms2_prove_case :
  [/\ lms2 (forget tark) (named_ms2 teq tms2) tms2,
      rseq (lf (forget tark)) xs0 (xs0),
      rseq (la2 (forget tark)) (named 11 (lift ys0)) (lift ys0),
      lcommit1 (forget tark) (named_commit1 teq 12 (ark_xcoms tp_ms2)) (ark_xcoms tp_ms2)
    & [/\ lcommit2 (forget tark) (named_commit2 teq 14 (ark_ycoms tp_ms2)) (ark_ycoms tp_ms2),
      lcrs (forget tark) (named_crs teq tcrs) tcrs,
      (@forget_rst F7 tark teq tctr) st0 6%N
    & isok (ark_ms2_prove (A := traced_with teq) (R := TR1) bwd (named_ms2 teq tms2) xs0 (named 11 (lift ys0)) (named_commit1 teq 12 (ark_xcoms tp_ms2)) (named_commit2 teq 14 (ark_ycoms tp_ms2)) (named_crs teq tcrs) st0)]].
Proof. split; [exact: (@ms2_forget F7 tark tms2) | exact: rseq_eq | exact: named_forget | exact: (@commit1_forget F7 tark 12 _) | split; [exact: (@commit2_forget F7 tark 14 _) | exact: (@crs_forget F7 tark tcrs) | exact: erefl | by vm_compute]]. Qed.

(** The operations of [prove] depend only on sizes, for the multi-scalar equation in G2: not on the witness, the equation, the commitments, the key or what is drawn. *)
Theorem C91_alike_ms2_prove :
  forall (F F' : fieldType) (A : ark F) (A' : ark F') (eqo : cmp A) (eqo' : cmp A') (R : ark_rng A) (R' : ark_rng A') sch e f xs xs' ys ys' x x' y y' c d s t,
  lms2 (@alike F F' A A' eqo eqo') e f -> rseq (lf (@alike F F' A A' eqo eqo')) xs xs' -> rseq (la2 (@alike F F' A A' eqo eqo')) ys ys' -> lcommit1 (@alike F F' A A' eqo eqo') x x' -> lcommit2 (@alike F F' A A' eqo eqo') y y' -> lcrs (@alike F F' A A' eqo eqo') c d ->
  (@alike_rst F F' A A' eqo eqo' R R') s t ->
  rres (rpair (lequproof (@alike F F' A A' eqo eqo')) (@alike_rst F F' A A' eqo eqo' R R')) (ark_ms2_prove sch e xs ys x y c s) (ark_ms2_prove sch f xs' ys' x' y' d t).
Proof. exact k_alike_ms2_prove. Qed.
Print Assumptions C91_alike_ms2_prove.

Example C91_alike_ms2_prove_case :
  [/\ lms2 (@alike F7 F7 tark tark teq teq) (named_ms2 teq tms2) (named_ms2 teq tms2'),
      rseq (lf (@alike F7 F7 tark tark teq teq)) xs0 xs1,
      rseq (la2 (@alike F7 F7 tark tark teq teq)) (named 11 (lift ys0)) (named 11 (lift ys1)),
      lcommit1 (@alike F7 F7 tark tark teq teq) (named_commit1 teq 12 (ark_xcoms tp_ms2)) (named_commit1 teq 12 (ark_xcoms tp_ms2'))
    & [/\ lcommit2 (@alike F7 F7 tark tark teq teq) (named_commit2 teq 14 (ark_ycoms tp_ms2)) (named_commit2 teq 14 (ark_ycoms tp_ms2')),
      lcrs (@alike F7 F7 tark tark teq teq) (named_crs teq tcrs) (named_crs teq tcrsh),
      (@alike_rst F7 F7 tark tark teq teq tctr tctr') st0 st0',
      omap (fun p : ark_EquProof (traced_with teq) => bare_expr (ark_pi p)) (out_of (ark_ms2_prove (A := traced_with teq) (R := TR1) bwd (named_ms2 teq tms2) xs0 (named 11 (lift ys0)) (named_commit1 teq 12 (ark_xcoms tp_ms2)) (named_commit2 teq 14 (ark_ycoms tp_ms2)) (named_crs teq tcrs) st0)) = omap (fun p : ark_EquProof (traced_with teq) => bare_expr (ark_pi p)) (out_of (ark_ms2_prove (A := traced_with teq) (R := TR2) bwd (named_ms2 teq tms2') xs1 (named 11 (lift ys1)) (named_commit1 teq 12 (ark_xcoms tp_ms2')) (named_commit2 teq 14 (ark_ycoms tp_ms2')) (named_crs teq tcrsh) st0'))
    & omap (fun p : ark_EquProof (traced_with teq) => bare (ark_pi p)) (out_of (ark_ms2_prove (A := traced_with teq) (R := TR1) bwd (named_ms2 teq tms2) xs0 (named 11 (lift ys0)) (named_commit1 teq 12 (ark_xcoms tp_ms2)) (named_commit2 teq 14 (ark_ycoms tp_ms2)) (named_crs teq tcrs) st0)) != omap (fun p : ark_EquProof (traced_with teq) => bare (ark_pi p)) (out_of (ark_ms2_prove (A := traced_with teq) (R := TR2) bwd (named_ms2 teq tms2') xs1 (named 11 (lift ys1)) (named_commit1 teq 12 (ark_xcoms tp_ms2')) (named_commit2 teq 14 (ark_ycoms tp_ms2')) (named_crs teq tcrsh) st0'))]].
Proof. split; [exact: (@ms2_alike F7 F7 tark tark teq teq _ _ same_tms2) | exact: rseq_true | exact: named_alike | by case: (@cproof_alike F7 F7 tark tark teq teq _ _ same_tp_ms2) | split; [by case: (@cproof_alike F7 F7 tark tark teq teq _ _ same_tp_ms2) | exact: (@crs_alike F7 F7 tark tark teq teq _ _ same_tcrs) | exact: erefl | by vm_compute | by vm_compute]]. Qed.

(** The same for [commit_and_prove], for the multi-scalar equation in G2. *)
Theorem C91_traced_ms2_commit_and_prove :
  forall (F : fieldType) (A : ark F) (R : ark_rng A) sch e f xs xs' ys ys' c d s t,
  lms2 (forget A) e f -> rseq (lf (forget A)) xs xs' -> rseq (la2 (forget A)) ys ys' -> lcrs (forget A) c d -> (@forget_rst F A _ R) s t ->
  rres (rpair (lcproof (forget A)) (@forget_rst F A _ R)) (ark_ms2_commit_and_prove sch e xs ys c s) (ark_ms2_commit_and_prove sch f xs' ys' d t).
Proof. exact k_traced_ms2_commit_and_prove. Qed.
Print Assumptions C91_traced_ms2_commit_and_prove.

Example C91_traced_ms2_commit_and_prove_case :
  [/\ lms2 (forget tark) (named_ms2 teq tms2) tms2,
      rseq (lf (forget tark)) xs0 (xs0),
      rseq (la2 (forget tark)) (named 11 (lift ys0)) (lift ys0),
      lcrs (forget tark) (named_crs teq tcrs) tcrs
    & (@forget_rst F7 tark teq tctr) st0 6%N /\ isok (ark_ms2_commit_and_prove (A := traced_with teq) (R := TR1) bwd (named_ms2 teq tms2) xs0 (named 11 (lift ys0)) (named_crs teq tcrs) st0)].
Proof. split; [exact: (@ms2_forget F7 tark tms2) | exact: rseq_eq | exact: named_forget | exact: (@crs_forget F7 tark tcrs) | split; [exact: erefl | by vm_compute]]. Qed.

(** The operations of [commit_and_prove] depend only on sizes, for the multi-scalar equation in G2. *)
Theorem C91_alike_ms2_commit_and_prove :
  forall (F F' : fieldType) (A : ark F) (A' : ark F') (eqo : cmp A) (eqo' : cmp A') (R : ark_rng A) (R' : ark_rng A') sch e f xs xs' ys ys' c d s t,
  lms2 (@alike F F' A A' eqo eqo') e f -> rseq (lf (@alike F F' A A' eqo eqo')) xs xs' -> rseq (la2 (@alike F F' A A' eqo eqo')) ys ys' -> lcrs (@alike F F' A A' eqo eqo') c d -> (@alike_rst F F' A A' eqo eqo' R R') s t ->
  rres (rpair (lcproof (@alike F F' A A' eqo eqo')) (@alike_rst F F' A A' eqo eqo' R R')) (ark_ms2_commit_and_prove sch e xs ys c s) (ark_ms2_commit_and_prove sch f xs' ys' d t).
Proof. exact k_alike_ms2_commit_and_prove. Qed.
Print Assumptions C91_alike_ms2_commit_and_prove.

Example C91_alike_ms2_commit_and_prove_case :
  [/\ lms2 (@alike F7 F7 tark tark teq teq) (named_ms2 teq tms2) (named_ms2 teq tms2'),
      rseq (lf (@alike F7 F7 tark tark teq teq)) xs0 xs1,
      rseq (la2 (@alike F7 F7 tark tark teq teq)) (named 11 (lift ys0)) (named 11 (lift ys1)),
      lcrs (@alike F7 F7 tark tark teq teq) (named_crs teq tcrs) (named_crs teq tcrsh)
    & [/\ (@alike_rst F7 F7 tark tark teq teq tctr tctr') st0 st0',
      isok (ark_ms2_commit_and_prove (A := traced_with teq) (R := TR1) bwd (named_ms2 teq tms2) xs0 (named 11 (lift ys0)) (named_crs teq tcrs) st0)
    & isok (ark_ms2_commit_and_prove (A := traced_with teq) (R := TR2) bwd (named_ms2 teq tms2') xs1 (named 11 (lift ys1)) (named_crs teq tcrsh) st0')]].
Proof. split; [exact: (@ms2_alike F7 F7 tark tark teq teq _ _ same_tms2) | exact: rseq_true | exact: named_alike | exact: (@crs_alike F7 F7 tark tark teq teq _ _ same_tcrs) | split; [exact: erefl | by vm_compute | by vm_compute]]. Qed.

(** Recording the expressions does not change what [verify] answers, for the multi-scalar equation in G2. *)
Theorem C91_traced_ms2_verify :
  forall (F : fieldType) (A : ark F) sch e f p q c d,
  lms2 (forget A) e f -> lcproof (forget A) p q -> lcrs (forget A) c d ->
  ark_ms2_verify sch e p c = ark_ms2_verify sch f q d.
Proof. exact k_traced_ms2_verify. Qed.
Print Assumptions C91_traced_ms2_verify.

Example C91_traced_ms2_verify_case :
  [/\ lms2 (forget tark) (named_ms2 teq tms2) tms2,
      lcproof (forget tark) (named_cproof teq tp_ms2) tp_ms2,
      lcrs (forget tark) (named_crs teq tcrs) tcrs
    & ark_ms2_verify (A := traced_with teq) bwd (named_ms2 teq tms2) (named_cproof teq tp_ms2) (named_crs teq tcrs) = Ok true].
Proof. split; [exact: (@ms2_forget F7 tark tms2) | exact: (@cproof_forget F7 tark tp_ms2) | exact: (@crs_forget F7 tark tcrs) | by vm_compute]. Qed.

(** The operations of [verify] depend only on sizes, for the multi-scalar equation in G2: an observer that is shown the expressions of the two sides, in place of the comparison, cannot tell the runs apart. *)
Theorem C91_alike_ms2_verify :
  forall (F F' : fieldType) (A : ark F) (A' : ark F') (P : expr -> expr -> bool) sch
  (e : ark_MSMEG2 (watched A P)) (f : ark_MSMEG2 (watched A' P))
  (p : ark_CProof (watched A P)) (q : ark_CProof (watched A' P)) c d,
  lms2 (alike_watched A A' P) e f -> lcproof (alike_watched A A' P) p q -> lcrs (alike_watched A A' P) c d ->
  ark_ms2_verify sch e p c = ark_ms2_verify sch f q d.
Proof. exact k_alike_ms2_verify. Qed.
Print Assumptions C91_alike_ms2_verify.

Example C91_alike_ms2_verify_case :
  [/\ lms2 (alike_watched tark tark (watch 5 4)) (named_ms2 (fun x y => (watch 5 4) x.2 y.2) tms2) (named_ms2 (fun x y => (watch 5 4) x.2 y.2) tms2'),
      lcproof (alike_watched tark tark (watch 5 4)) (named_cproof (fun x y => (watch 5 4) x.2 y.2) tp_ms2) (named_cproof (fun x y => (watch 5 4) x.2 y.2) tp_ms2'),
      lcrs (alike_watched tark tark (watch 5 4)) (named_crs (fun x y => (watch 5 4) x.2 y.2) tcrs) (named_crs (fun x y => (watch 5 4) x.2 y.2) tcrsh),
      ark_ms2_verify (A := watched tark (watch 5 4)) bwd (named_ms2 (fun x y => (watch 5 4) x.2 y.2) tms2) (named_cproof (fun x y => (watch 5 4) x.2 y.2) tp_ms2) (named_crs (fun x y => (watch 5 4) x.2 y.2) tcrs) = Ok true
    & ark_ms2_verify (A := watched tark (watch 5 5)) bwd (named_ms2 (fun x y => (watch 5 5) x.2 y.2) tms2) (named_cproof (fun x y => (watch 5 5) x.2 y.2) tp_ms2) (named_crs (fun x y => (watch 5 5) x.2 y.2) tcrs) = Ok false].
Proof. split; [exact: (@ms2_alike F7 F7 tark tark _ _ _ _ same_tms2) | exact: (@cproof_alike F7 F7 tark tark _ _ _ _ same_tp_ms2) | exact: (@crs_alike F7 F7 tark tark _ _ _ _ same_tcrs) | by vm_compute | by vm_compute]. Qed.

(** Recording the expressions does not change what [prove] returns, for the quadratic equation. *)
Theorem C91_traced_quad_prove :
  forall (F : fieldType) (A : ark F) (R : ark_rng A) sch e f xs xs' ys ys' x x' y y' c d s t,
  lquad (forget A) e f -> rseq (lf (forget A)) xs xs' -> rseq (lf (forget A)) ys ys' -> lcommit1 (forget A) x x' -> lcommit2 (forget A) y y' -> lcrs (forget A) c d ->
  (@forget_rst F A _ R) s t ->
  rres (rpair (lequproof (forget A)) (@forget_rst F A _ R)) (ark_quad_prove sch e xs ys x y c s) (ark_quad_prove sch f xs' ys' x' y' d t).
Proof. exact k_traced_quad_prove. Qed.
Print Assumptions C91_traced_quad_prove.

Example C91_traced_quad_prove_case :
  [/\ lquad (forget tark) tquad tquad,
      rseq (lf (forget tark)) xs0 (xs0),
      rseq (lf (forget tark)) ys0 (ys0),
      lcommit1 (forget tark) (named_commit1 teq 12 (ark_xcoms tp_quad)) (ark_xcoms tp_quad)
    & [/\ lcommit2 (forget tark) (named_commit2 teq 14 (ark_ycoms tp_quad)) (ark_ycoms tp_quad),
      lcrs (forget tark) (named_crs teq tcrs) tcrs,
      (@forget_rst F7 tark teq tctr) st0 6%N
    & isok (ark_quad_prove (A := traced_with teq) (R := TR1) bwd tquad xs0 ys0 (named_commit1 teq 12 (ark_xcoms tp_quad)) (named_commit2 teq 14 (ark_ycoms tp_quad)) (named_crs teq tcrs) st0)]].
Proof. split; [exact: (@quad_forget F7 tark tquad) | exact: rseq_eq | exact: rseq_eq | exact: (@commit1_forget F7 tark 12 _) | split; [exact: (@commit2_forget F7 tark 14 _) | exact: (@crs_forget F7 tark tcrs) | exact: erefl | by vm_compute]]. Qed.

(** The operations of [prove] depend only on sizes, for the quadratic equation: not on the witness, the equation, the commitments, the key or what is drawn. *)
Theorem C91_alike_quad_prove :
  forall (F F' : fieldType) (A : ark F) (A' : ark F') (eqo : cmp A) (eqo' : cmp A') (R : ark_rng A) (R' : ark_rng A') sch e f xs xs' ys ys' x x' y y' c d s t,
  lquad (@alike F F' A A' eqo eqo') e f -> rseq (lf (@alike F F' A A' eqo eqo')) xs xs' -> rseq (lf (@alike F F' A A' eqo eqo')) ys ys' -> lcommit1 (@alike F F' A A' eqo eqo') x x' -> lcommit2 (@alike F F' A A' eqo eqo') y y' -> lcrs (@alike F F' A A' eqo eqo') c d ->
  (@alike_rst F F' A A' eqo eqo' R R') s t ->
  rres (rpair (lequproof (@alike F F' A A' eqo eqo')) (@alike_rst F F' A A' eqo eqo' R R')) (ark_quad_prove sch e xs ys x y c s) (ark_quad_prove sch f xs' ys' x' y' d t).
Proof. exact k_alike_quad_prove. Qed.
Print Assumptions C91_alike_quad_prove.

Example C91_alike_quad_prove_case :
  [/\ lquad (@alike F7 F7 tark tark teq teq) tquad tquad',
      rseq (lf (@alike F7 F7 tark tark teq teq)) xs0 xs1,
      rseq (lf (@alike F7 F7 tark tark teq teq)) ys0 ys1,
      lcommit1 (@alike F7 F7 tark tark teq teq) (named_commit1 teq 12 (ark_xcoms tp_quad)) (named_commit1 teq 12 (ark_xcoms tp_quad'))
    & [/\ lcommit2 (@alike F7 F7 tark tark teq teq) (named_commit2 teq 14 (ark_ycoms tp_quad)) (named_commit2 teq 14 (ark_ycoms tp_quad')),
      lcrs (@alike F7 F7 tark tark teq teq) (named_crs teq tcrs) (named_crs teq tcrsh),
      (@alike_rst F7 F7 tark tark teq teq tctr tctr') st0 st0',
      omap (fun p : ark_EquProof (traced_with teq) => bare_expr (ark_pi p)) (out_of (ark_quad_prove (A := traced_with teq) (R := TR1) bwd tquad xs0 ys0 (named_commit1 teq 12 (ark_xcoms tp_quad)) (named_commit2 teq 14 (ark_ycoms tp_quad)) (named_crs teq tcrs) st0)) = omap (fun p : ark_EquProof (traced_with teq) => bare_expr (ark_pi p)) (out_of (ark_quad_prove (A := traced_with teq) (R := TR2) bwd tquad' xs1 ys1 (named_commit1 teq 12 (ark_xcoms tp_quad')) (named_commit2 teq 14 (ark_ycoms tp_quad')) (named_crs teq tcrsh) st0'))
    & omap (fun p : ark_EquProof (traced_with teq) => bare (ark_pi p)) (out_of (ark_quad_prove (A := traced_with teq) (R := TR1) bwd tquad xs0 ys0 (named_commit1 teq 12 (ark_xcoms tp_quad)) (named_commit2 teq 14 (ark_ycoms tp_quad)) (named_crs teq tcrs) st0)) != omap (fun p : ark_EquProof (traced_with teq) => bare (ark_pi p)) (out_of (ark_quad_prove (A := traced_with teq) (R := TR2) bwd tquad' xs1 ys1 (named_commit1 teq 12 (ark_xcoms tp_quad')) (named_commit2 teq 14 (ark_ycoms tp_quad')) (named_crs teq tcrsh) st0'))]].
Proof. split; [exact: (@quad_alike F7 F7 tark tark teq teq _ _ same_tquad) | exact: rseq_true | exact: rseq_true | by case: (@cproof_alike F7 F7 tark tark teq teq _ _ same_tp_quad) | split; [by case: (@cproof_alike F7 F7 tark tark teq teq _ _ same_tp_quad) | exact: (@crs_alike F7 F7 tark tark teq teq _ _ same_tcrs) | exact: erefl | by vm_compute | by vm_compute]]. Qed.

(** The same for [commit_and_prove], for the quadratic equation. *)
Theorem C91_traced_quad_commit_and_prove :
  forall (F : fieldType) (A : ark F) (R : ark_rng A) sch e f xs xs' ys ys' c d s t,
  lquad (forget A) e f -> rseq (lf (forget A)) xs xs' -> rseq (lf (forget A)) ys ys' -> lcrs (forget A) c d -> (@forget_rst F A _ R) s t ->
  rres (rpair (lcproof (forget A)) (@forget_rst F A _ R)) (ark_quad_commit_and_prove sch e xs ys c s) (ark_quad_commit_and_prove sch f xs' ys' d t).
Proof. exact k_traced_quad_commit_and_prove. Qed.
Print Assumptions C91_traced_quad_commit_and_prove.

Example C91_traced_quad_commit_and_prove_case :
  [/\ lquad (forget tark) tquad tquad,
      rseq (lf (forget tark)) xs0 (xs0),
      rseq (lf (forget tark)) ys0 (ys0),
      lcrs (forget tark) (named_crs teq tcrs) tcrs
    & (@forget_rst F7 tark teq tctr) st0 6%N /\ isok (ark_quad_commit_and_prove (A := traced_with teq) (R := TR1) bwd tquad xs0 ys0 (named_crs teq tcrs) st0)].
Proof. split; [exact: (@quad_forget F7 tark tquad) | exact: rseq_eq | exact: rseq_eq | exact: (@crs_forget F7 tark tcrs) | split; [exact: erefl | by vm_compute]]. Qed.

(** The operations of [commit_and_prove] depend only on sizes, for the quadratic equation. *)
Theorem C91_alike_quad_commit_and_prove :
  forall (F F' : fieldType) (A : ark F) (A' : ark F') (eqo : cmp A) (eqo' : cmp A') (R : ark_rng A) (R' : ark_rng A') sch e f xs xs' ys ys' c d s t,
  lquad (@alike F F' A A' eqo eqo') e f -> rseq (lf (@alike F F' A A' eqo eqo')) xs xs' -> rseq (lf (@alike F F' A A' eqo eqo')) ys ys' -> lcrs (@alike F F' A A' eqo eqo') c d -> (@alike_rst F F' A A' eqo eqo' R R') s t ->
  rres (rpair (lcproof (@alike F F' A A' eqo eqo')) (@alike_rst F F' A A' eqo eqo' R R')) (ark_quad_commit_and_prove sch e xs ys c s) (ark_quad_commit_and_prove sch f xs' ys' d t).
Proof. exact k_alike_quad_commit_and_prove. Qed.
Print Assumptions C91_alike_quad_commit_and_prove.

Example C91_alike_quad_commit_and_prove_case :
  [/\ lquad (@alike F7 F7 tark tark teq teq) tquad tquad',
      rseq (lf (@alike F7 F7 tark tark teq teq)) xs0 xs1,
      rseq (lf (@alike F7 F7 tark tark teq teq)) ys0 ys1,
      lcrs (@alike F7 F7 tark tark teq teq) (named_crs teq tcrs) (named_crs teq tcrsh)
    & [/\ (@alike_rst F7 F7 tark tark teq teq tctr tctr') st0 st0',
      isok (ark_quad_commit_and_prove (A := traced_with teq) (R := TR1) bwd tquad xs0 ys0 (named_crs teq tcrs) st0)
    & isok (ark_quad_commit_and_prove (A := traced_with teq) (R := TR2) bwd tquad' xs1 ys1 (named_crs teq tcrsh) st0')]].
Proof. split; [exact: (@quad_alike F7 F7 tark tark teq teq _ _ same_tquad) | exact: rseq_true | exact: rseq_true | exact: (@crs_alike F7 F7 tark tark teq teq _ _ same_tcrs) | split; [exact: erefl | by vm_compute | by vm_compute]]. Qed.

(** Recording the expressions does not change what [verify] answers, for the quadratic equation. *)
Theorem C91_traced_quad_verify :
  forall (F : fieldType) (A : ark F) sch e f p q c d,
  lquad (forget A) e f -> lcproof (forget A) p q -> lcrs (forget A) c d ->
  ark_quad_verify sch e p c = ark_quad_verify sch f q d.
Proof. exact k_traced_quad_verify. Qed.
Print Assumptions C91_traced_quad_verify.

Example C91_traced_quad_verify_case :
  [/\ lquad (forget tark) tquad tquad,
      lcproof (forget tark) (named_cproof teq tp_quad) tp_quad,
      lcrs (forget tark) (named_crs teq tcrs) tcrs
    & ark_quad_verify (A := traced_with teq) bwd tquad (named_cproof teq tp_quad) (named_crs teq tcrs) = Ok true].
Proof. split; [exact: (@quad_forget F7 tark tquad) | exact: (@cproof_forget F7 tark tp_quad) | exact: (@crs_forget F7 tark tcrs) | by vm_compute]. Qed.

(** The operations of [verify] depend only on sizes, for the quadratic equation: an observer that is shown the expressions of the two sides, in place of the comparison, cannot tell the runs apart. *)
Theorem C91_alike_quad_verify :
  forall (F F' : fieldType) (A : ark F) (A' : ark F') (P : expr -> expr -> bool) sch
  (e : ark_QuadEqu F) (f : ark_QuadEqu F')
  (p : ark_CProof (watched A P)) (q : ark_CProof (watched A' P)) c d,
  lquad (alike_watched A A' P) e f -> lcproof (alike_watched A A' P) p q -> lcrs (alike_watched A A' P) c d ->
  ark_quad_verify sch e p c = ark_quad_verify sch f q d.
Proof. exact k_alike_quad_verify. Qed.
Print Assumptions C91_alike_quad_verify.

Example C91_alike_quad_verify_case :
  [/\ lquad (alike_watched tark tark (watch 5 3)) tquad tquad',
      lcproof (alike_watched tark tark (watch 5 3)) (named_cproof (fun x y => (watch 5 3) x.2 y.2) tp_quad) (named_cproof (fun x y => (watch 5 3) x.2 y.2) tp_quad'),
      lcrs (alike_watched tark tark (watch 5 3)) (named_crs (fun x y => (watch 5 3) x.2 y.2) tcrs) (named_crs (fun x y => (watch 5 3) x.2 y.2) tcrsh),
      ark_quad_verify (A := watched tark (watch 5 3)) bwd tquad (named_cproof (fun x y => (watch 5 3) x.2 y.2) tp_quad) (named_crs (fun x y => (watch 5 3) x.2 y.2) tcrs) = Ok true
    & ark_quad_verify (A := watched tark (watch 5 4)) bwd tquad (named_cproof (fun x y => (watch 5 4) x.2 y.2) tp_quad) (named_crs (fun x y => (watch 5 4) x.2 y.2) tcrs) = Ok false].
Proof. split; [exact: (@quad_alike F7 F7 tark tark _ _ _ _ same_tquad) | exact: (@cproof_alike F7 F7 tark tark _ _ _ _ same_tp_quad) | exact: (@crs_alike F7 F7 tark tark _ _ _ _ same_tcrs) | by vm_compute | by vm_compute]. Qed.

(** The run of [commit_and_prove] on named inputs is the run itself with names, for the pairing-product equation. *)
Theorem C91_named_ppe_commit_and_prove :
  forall (F : fieldType) (A : ark F) (R : ark_rng A) sch (e : ark_PPE A) (xs : seq (aff (C1 A))) (ys : seq (aff (C2 A))) c (s : ark_rst R),
  rres (rpair (lcproof (forget A)) (@forget_rst F A _ R))
    (ark_ppe_commit_and_prove (A := traced A) (R := traced_rng (fun x y => @out_eq _ A x.1 y.1) R) sch (named_ppe (fun x y => @out_eq _ A x.1 y.1) e) (named 10 xs) (named 11 ys) (named_crs (fun x y => @out_eq _ A x.1 y.1) c) (s, 0%N))
    (ark_ppe_commit_and_prove sch e xs ys c s).
Proof. exact k_named_ppe_commit_and_prove. Qed.
Print Assumptions C91_named_ppe_commit_and_prove.

Example C91_named_ppe_commit_and_prove_case :
  isok (ark_ppe_commit_and_prove (A := traced_with teq) (R := TR1) bwd (named_ppe teq tppe) (named 10 (lift xs0)) (named 11 (lift ys0)) (named_crs teq tcrs) st0).
Proof. by vm_compute. Qed.

(** The run of [commit_and_prove] on named inputs is the run itself with names, for the multi-scalar equation in G1. *)
Theorem C91_named_ms1_commit_and_prove :
  forall (F : fieldType) (A : ark F) (R : ark_rng A) sch (e : ark_MSMEG1 A) (xs : seq (aff (C1 A))) (ys : seq F) c (s : ark_rst R),
  rres (rpair (lcproof (forget A)) (@forget_rst F A _ R))
    (ark_ms1_commit_and_prove (A := traced A) (R := traced_rng (fun x y => @out_eq _ A x.1 y.1) R) sch (named_ms1 (fun x y => @out_eq _ A x.1 y.1) e) (named 10 xs) ys (named_crs (fun x y => @out_eq _ A x.1 y.1) c) (s, 0%N))
    (ark_ms1_commit_and_prove sch e xs ys c s).
Proof. exact k_named_ms1_commit_and_prove. Qed.
Print Assumptions C91_named_ms1_commit_and_prove.

Example C91_named_ms1_commit_and_prove_case :
  isok (ark_ms1_commit_and_prove (A := traced_with teq) (R := TR1) bwd (named_ms1 teq tms1) (named 10 (lift xs0)) ys0 (named_crs teq tcrs) st0).
Proof. by vm_compute. Qed.

(** The run of [commit_and_prove] on named inputs is the run itself with names, for the multi-scalar equation in G2. *)
Theorem C91_named_ms2_commit_and_prove :
  forall (F : fieldType) (A : ark F) (R : ark_rng A) sch (e : ark_MSMEG2 A) (xs : seq F) (ys : seq (aff (C2 A))) c (s : ark_rst R),
  rres (rpair (lcproof (forget A)) (@forget_rst F A _ R))
    (ark_ms2_commit_and_prove (A := traced A) (R := traced_rng (fun x y => @out_eq _ A x.1 y.1) R) sch (named_ms2 (fun x y => @out_eq _ A x.1 y.1) e) xs (named 11 ys) (named_crs (fun x y => @out_eq _ A x.1 y.1) c) (s, 0%N))
    (ark_ms2_commit_and_prove sch e xs ys c s).
Proof. exact k_named_ms2_commit_and_prove. Qed.
Print Assumptions C91_named_ms2_commit_and_prove.

Example C91_named_ms2_commit_and_prove_case :
  isok (ark_ms2_commit_and_prove (A := traced_with teq) (R := TR1) bwd (named_ms2 teq tms2) xs0 (named 11 (lift ys0)) (named_crs teq tcrs) st0).
Proof. by vm_compute. Qed.

(** The run of [commit_and_prove] on named inputs is the run itself with names, for the quadratic equation. *)
Theorem C91_named_quad_commit_and_prove :
  forall (F : fieldType) (A : ark F) (R : ark_rng A) sch (e : ark_QuadEqu F) (xs : seq F) (ys : seq F) c (s : ark_rst R),
  rres (rpair (lcproof (forget A)) (@forget_rst F A _ R))
    (ark_quad_commit_and_prove (A := traced A) (R := traced_rng (fun x y => @out_eq _ A x.1 y.1) R) sch e xs ys (named_crs (fun x y => @out_eq _ A x.1 y.1) c) (s, 0%N))
    (ark_quad_commit_and_prove sch e xs ys c s).
Proof. exact k_named_quad_commit_and_prove. Qed.
Print Assumptions C91_named_quad_commit_and_prove.

Example C91_named_quad_commit_and_prove_case :
  isok (ark_quad_commit_and_prove (A := traced_with teq) (R := TR1) bwd tquad xs0 ys0 (named_crs teq tcrs) st0).
Proof. by vm_compute. Qed.

(** Two runs of [commit_and_prove] on inputs of the same sizes, over any two fields and pairings and with any two generators, compute each point by the same expression, for the pairing-product equation. *)
Theorem C91_sizes_ppe_commit_and_prove :
  forall (F F' : fieldType) (A : ark F) (A' : ark F') (eqo : cmp A) (eqo' : cmp A') (R : ark_rng A) (R' : ark_rng A')
  sch (e : ark_PPE A) (f : ark_PPE A') (xs : seq (aff (C1 A))) (xs' : seq (aff (C1 A'))) (ys : seq (aff (C2 A))) (ys' : seq (aff (C2 A'))) c d (s : ark_rst R) (t : ark_rst R') n,
  same_ppe e f -> size xs = size xs' -> size ys = size ys' -> same_crs c d ->
  rres (rpair (lcproof (@alike F F' A A' eqo eqo')) (@alike_rst F F' A A' eqo eqo' R R'))
    (ark_ppe_commit_and_prove (A := traced_with eqo) (R := traced_rng eqo R) sch (named_ppe eqo e) (named 10 xs) (named 11 ys) (named_crs eqo c) (s, n))
    (ark_ppe_commit_and_prove (A := traced_with eqo') (R := traced_rng eqo' R') sch (named_ppe eqo' f) (named 10 xs') (named 11 ys') (named_crs eqo' d) (t, n)).
Proof. exact k_sizes_ppe_commit_and_prove. Qed.
Print Assumptions C91_sizes_ppe_commit_and_prove.

Example C91_sizes_ppe_commit_and_prove_case :
  [/\ same_ppe tppe tppe',
      size (lift xs0) = size (lift xs1),
      size (lift ys0) = size (lift ys1),
      same_crs tcrs tcrsh
    & (isok (ark_ppe_commit_and_prove (A := traced_with teq) (R := TR1) bwd (named_ppe teq tppe) (named 10 (lift xs0)) (named 11 (lift ys0)) (named_crs teq tcrs) st0)) && (isok (ark_ppe_commit_and_prove (A := traced_with teq) (R := TR2) bwd (named_ppe teq tppe') (named 10 (lift xs1)) (named 11 (lift ys1)) (named_crs teq tcrsh) st0'))].
Proof. split; [by [] | by [] | by [] | by [] | by vm_compute]. Qed.

(** ... and an observer of [verify] cannot tell equations, keys and proofs of the same sizes apart. *)
Theorem C91_sizes_ppe_verify :
  forall (F F' : fieldType) (A : ark F) (A' : ark F') (P : expr -> expr -> bool) sch
  (e : ark_PPE A) (f : ark_PPE A') (p : ark_CProof A) (q : ark_CProof A') c d,
  same_ppe e f -> same_cproof p q -> same_crs c d ->
  ark_ppe_verify (A := watched A P) sch (named_ppe (fun x y => P x.2 y.2) e) (named_cproof (fun x y => P x.2 y.2) p) (named_crs (fun x y => P x.2 y.2) c) =
  ark_ppe_verify (A := watched A' P) sch (named_ppe (fun x y => P x.2 y.2) f) (named_cproof (fun x y => P x.2 y.2) q) (named_crs (fun x y => P x.2 y.2) d).
Proof. exact k_sizes_ppe_verify. Qed.
Print Assumptions C91_sizes_ppe_verify.

Example C91_sizes_ppe_verify_case :
  [/\ same_ppe tppe tppe',
      same_cproof tp_ppe tp_ppe',
      same_crs tcrs tcrsh
    & ark_ppe_verify (A := watched tark (watch 5 4)) bwd (named_ppe (fun x y => (watch 5 4) x.2 y.2) tppe') (named_cproof (fun x y => (watch 5 4) x.2 y.2) tp_ppe') (named_crs (fun x y => (watch 5 4) x.2 y.2) tcrsh) = Ok true].
Proof. split; [by [] | exact: same_tp_ppe | by [] | by vm_compute]. Qed.

(** Two runs of [commit_and_prove] on inputs of the same sizes, over any two fields and pairings and with any two generators, compute each point by the same expression, for the multi-scalar equation in G1. *)
Theorem C91_sizes_ms1_commit_and_prove :
  forall (F F' : fieldType) (A : ark F) (A' : ark F') (eqo : cmp A) (eqo' : cmp A') (R : ark_rng A) (R' : ark_rng A')
  sch (e : ark_MSMEG1 A) (f : ark_MSMEG1 A') (xs : seq (aff (C1 A))) (xs' : seq (aff (C1 A'))) (ys : seq F) (ys' : seq F') c d (s : ark_rst R) (t : ark_rst R') n,
  same_ms1 e f -> size xs = size xs' -> size ys = size ys' -> same_crs c d ->
  rres (rpair (lcproof (@alike F F' A A' eqo eqo')) (@alike_rst F F' A A' eqo eqo' R R'))
    (ark_ms1_commit_and_prove (A := traced_with eqo) (R := traced_rng eqo R) sch (named_ms1 eqo e) (named 10 xs) ys (named_crs eqo c) (s, n))
    (ark_ms1_commit_and_prove (A := traced_with eqo') (R := traced_rng eqo' R') sch (named_ms1 eqo' f) (named 10 xs') ys' (named_crs eqo' d) (t, n)).
Proof. exact k_sizes_ms1_commit_and_prove. Qed.
Print Assumptions C91_sizes_ms1_commit_and_prove.

Example C91_sizes_ms1_commit_and_prove_case :
  [/\ same_ms1 tms1 tms1',
      size (lift xs0) = size (lift xs1),
      size (ys0) = size (ys1),
      same_crs tcrs tcrsh
    & (isok (ark_ms1_commit_and_prove (A := traced_with teq) (R := TR1) bwd (named_ms1 teq tms1) (named 10 (lift xs0)) ys0 (named_crs teq tcrs) st0)) && (isok (ark_ms1_commit_and_prove (A := traced_with teq) (R := TR2) bwd (named_ms1 teq tms1') (named 10 (lift xs1)) ys1 (named_crs teq tcrsh) st0'))].
Proof. split; [by [] | by [] | by [] | by [] | by vm_compute]. Qed.

(** ... and an observer of [verify] cannot tell equations, keys and proofs of the same sizes apart. *)
Theorem C91_sizes_ms1_verify :
  forall (F F' : fieldType) (A : ark F) (A' : ark F') (P : expr -> expr -> bool) sch
  (e : ark_MSMEG1 A) (f : ark_MSMEG1 A') (p : ark_CProof A) (q : ark_CProof A') c d,
  same_ms1 e f -> same_cproof p q -> same_crs c d ->
  ark_ms1_verify (A := watched A P) sch (named_ms1 (fun x y => P x.2 y.2) e) (named_cproof (fun x y => P x.2 y.2) p) (named_crs (fun x y => P x.2 y.2) c) =
  ark_ms1_verify (A := watched A' P) sch (named_ms1 (fun x y => P x.2 y.2) f) (named_cproof (fun x y => P x.2 y.2) q) (named_crs (fun x y => P x.2 y.2) d).
Proof. exact k_sizes_ms1_verify. Qed.
Print Assumptions C91_sizes_ms1_verify.

Example C91_sizes_ms1_verify_case :
  [/\ same_ms1 tms1 tms1',
      same_cproof tp_ms1 tp_ms1',
      same_crs tcrs tcrsh
    & ark_ms1_verify (A := watched tark (watch 5 4)) bwd (named_ms1 (fun x y => (watch 5 4) x.2 y.2) tms1') (named_cproof (fun x y => (watch 5 4) x.2 y.2) tp_ms1') (named_crs (fun x y => (watch 5 4) x.2 y.2) tcrsh) = Ok true].
Proof. split; [by [] | exact: same_tp_ms1 | by [] | by vm_compute]. Qed.

(** Two runs of [commit_and_prove] on inputs of the same sizes, over any two fields and pairings and with any two generators, compute each point by the same expression, for the multi-scalar equation in G2. *)
Theorem C91_sizes_ms2_commit_and_prove :
  forall (F F' : fieldType) (A : ark F) (A' : ark F') (eqo : cmp A) (eqo' : cmp A') (R : ark_rng A) (R' : ark_rng A')
  sch (e : ark_MSMEG2 A) (f : ark_MSMEG2 A') (xs : seq F) (xs' : seq F') (ys : seq (aff (C2 A))) (ys' : seq (aff (C2 A'))) c d (s : ark_rst R) (t : ark_rst R') n,
  same_ms2 e f -> size xs = size xs' -> size ys = size ys' -> same_crs c d ->
  rres (rpair (lcproof (@alike F F' A A' eqo eqo')) (@alike_rst F F' A A' eqo eqo' R R'))
    (ark_ms2_commit_and_prove (A := traced_with eqo) (R := traced_rng eqo R) sch (named_ms2 eqo e) xs (named 11 ys) (named_crs eqo c) (s, n))
    (ark_ms2_commit_and_prove (A := traced_with eqo') (R := traced_rng eqo' R') sch (named_ms2 eqo' f) xs' (named 11 ys') (named_crs eqo' d) (t, n)).
Proof. exact k_sizes_ms2_commit_and_prove. Qed.
Print Assumptions C91_sizes_ms2_commit_and_prove.

Example C91_sizes_ms2_commit_and_prove_case :
  [/\ same_ms2 tms2 tms2',
      size (xs0) = size (xs1),
      size (lift ys0) = size (lift ys1),
      same_crs tcrs tcrsh
    & (isok (ark_ms2_commit_and_prove (A := traced_with teq) (R := TR1) bwd (named_ms2 teq tms2) xs0 (named 11 (lift ys0)) (named_crs teq tcrs) st0)) && (isok (ark_ms2_commit_and_prove (A := traced_with teq) (R := TR2) bwd (named_ms2 teq tms2') xs1 (named 11 (lift ys1)) (named_crs teq tcrsh) st0'))].
Proof. split; [by [] | by [] | by [] | by [] | by vm_compute]. Qed.

(** ... and an observer of [verify] cannot tell equations, keys and proofs of the same sizes apart. *)
Theorem C91_sizes_ms2_verify :
  forall (F F' : fieldType) (A : ark F) (A' : ark F') (P : expr -> expr -> bool) sch
  (e : ark_MSMEG2 A) (f : ark_MSMEG2 A') (p : ark_CProof A) (q : ark_CProof A') c d,
  same_ms2 e f -> same_cproof p q -> same_crs c d ->
  ark_ms2_verify (A := watched A P) sch (named_ms2 (fun x y => P x.2 y.2) e) (named_cproof (fun x y => P x.2 y.2) p) (named_crs (fun x y => P x.2 y.2) c) =
  ark_ms2_verify (A := watched A' P) sch (named_ms2 (fun x y => P x.2 y.2) f) (named_cproof (fun x y => P x.2 y.2) q) (named_crs (fun x y => P x.2 y.2) d).
Proof. exact k_sizes_ms2_verify. Qed.
Print Assumptions C91_sizes_ms2_verify.

Example C91_sizes_ms2_verify_case :
  [/\ same_ms2 tms2 tms2',
      same_cproof tp_ms2 tp_ms2',
      same_crs tcrs tcrsh
    & ark_ms2_verify (A := watched tark (watch 5 4)) bwd (named_ms2 (fun x y => (watch 5 4) x.2 y.2) tms2') (named_cproof (fun x y => (watch 5 4) x.2 y.2) tp_ms2') (named_crs (fun x y => (watch 5 4) x.2 y.2) tcrsh) = Ok true].
Proof. split; [by [] | exact: same_tp_ms2 | by [] | by vm_compute]. Qed.

(** Two runs of [commit_and_prove] on inputs of the same sizes, over any two fields and pairings and with any two generators, compute each point by the same expression, for the quadratic equation. *)
Theorem C91_sizes_quad_commit_and_prove :
  forall (F F' : fieldType) (A : ark F) (A' : ark F') (eqo : cmp A) (eqo' : cmp A') (R : ark_rng A) (R' : ark_rng A')
  sch (e : ark_QuadEqu F) (f : ark_QuadEqu F') (xs : seq F) (xs' : seq F') (ys : seq F) (ys' : seq F') c d (s : ark_rst R) (t : ark_rst R') n,
  same_quad e f -> size xs = size xs' -> size ys = size ys' -> same_crs c d ->
  rres (rpair (lcproof (@alike F F' A A' eqo eqo')) (@alike_rst F F' A A' eqo eqo' R R'))
    (ark_quad_commit_and_prove (A := traced_with eqo) (R := traced_rng eqo R) sch e xs ys (named_crs eqo c) (s, n))
    (ark_quad_commit_and_prove (A := traced_with eqo') (R := traced_rng eqo' R') sch f xs' ys' (named_crs eqo' d) (t, n)).
Proof. exact k_sizes_quad_commit_and_prove. Qed.
Print Assumptions C91_sizes_quad_commit_and_prove.

Example C91_sizes_quad_commit_and_prove_case :
  [/\ same_quad tquad tquad',
      size (xs0) = size (xs1),
      size (ys0) = size (ys1),
      same_crs tcrs tcrsh
    & (isok (ark_quad_commit_and_prove (A := traced_with teq) (R := TR1) bwd tquad xs0 ys0 (named_crs teq tcrs) st0)) && (isok (ark_quad_commit_and_prove (A := traced_with teq) (R := TR2) bwd tquad' xs1 ys1 (named_crs teq tcrsh) st0'))].
Proof. split; [by [] | by [] | by [] | by [] | by vm_compute]. Qed.

(** ... and an observer of [verify] cannot tell equations, keys and proofs of the same sizes apart. *)
Theorem C91_sizes_quad_verify :
  forall (F F' : fieldType) (A : ark F) (A' : ark F') (P : expr -> expr -> bool) sch
  (e : ark_QuadEqu F) (f : ark_QuadEqu F') (p : ark_CProof A) (q : ark_CProof A') c d,
  same_quad e f -> same_cproof p q -> same_crs c d ->
  ark_quad_verify (A := watched A P) sch e (named_cproof (fun x y => P x.2 y.2) p) (named_crs (fun x y => P x.2 y.2) c) =
  ark_quad_verify (A := watched A' P) sch f (named_cproof (fun x y => P x.2 y.2) q) (named_crs (fun x y => P x.2 y.2) d).
Proof. exact k_sizes_quad_verify. Qed.
Print Assumptions C91_sizes_quad_verify.

Example C91_sizes_quad_verify_case :
  [/\ same_quad tquad tquad',
      same_cproof tp_quad tp_quad',
      same_crs tcrs tcrsh
    & ark_quad_verify (A := watched tark (watch 5 3)) bwd tquad' (named_cproof (fun x y => (watch 5 3) x.2 y.2) tp_quad') (named_crs (fun x y => (watch 5 3) x.2 y.2) tcrsh) = Ok true].
Proof. split; [by [] | exact: same_tp_quad | by [] | by vm_compute]. Qed.

(** The expressions of the key: two draws of points and four of scalars, six multiplications, and one pairing. *)
Theorem C91_generate_crs_expr :
  forall (F : fieldType) (A : ark F) (eqo : cmp A) (R : ark_rng A) (s : ark_rst R),
  let r := ark_generate_crs (R := traced_rng eqo R) (s, 0%N) in
  let key p := [:: (ToA p, ToA (MulP p)); (ToA (MulP p), ToA (SubP (MulP (MulP p)) ZeroP))] in
  [/\ [seq (c.1.2, c.2.2) | c <- ark_crs_u r.1] = key (Drawn 0),
      [seq (c.1.2, c.2.2) | c <- ark_crs_v r.1] = key (Drawn 1),
      (ark_g1_gen r.1).2 = ToA (Drawn 0) /\ (ark_g2_gen r.1).2 = ToA (Drawn 1),
      (ark_gt_gen r.1).2 = Pair (ToA (Drawn 0)) (ToA (Drawn 1))
    & r.2.2 = 6%N].
Proof. exact k_generate_crs_expr. Qed.
Print Assumptions C91_generate_crs_expr.

Example C91_generate_crs_expr_case :
  [seq (c.1.2, c.2.2) | c <- ark_crs_u (ark_generate_crs (R := TR1) (0%N, 0%N)).1] = [:: (ToA (Drawn 0), ToA (MulP (Drawn 0))); (ToA (MulP (Drawn 0)), ToA (SubP (MulP (MulP (Drawn 0))) ZeroP))] /\ counted muls (ark_crs_u (ark_generate_crs (R := TR1) (0%N, 0%N)).1) = [:: (0, 1); (1, 2)]%N.
Proof. split; [by vm_compute | by vm_compute]. Qed.

(** The operations of [commit_G1], weighed by any [w]: the cost of the two components of the commitment, and two draws. *)
Theorem C91_cost_commit_G1 :
  forall (F : fieldType) (A : ark F) (eqo : cmp A) (R : ark_rng A) (w : op -> nat) (x : aff (C1 A)) c (s : ark_rst (traced_rng eqo R)) r t,
  ark_commit_G1 (A := traced_with eqo) (x, Inp 10 0) (named_crs eqo c) s = Ok (r, t) ->
  com_costs w (ark_coms r) (w OZeroA + times_cost w + plus_cost w + times_cost w + plus_cost w) (times_cost w + plus_cost w + times_cost w + plus_cost w) /\ t.2 = (s.2 + 2)%N.
Proof. exact k_cost_commit_G1. Qed.
Print Assumptions C91_cost_commit_G1.

Example C91_cost_commit_G1_case :
  omap (fun c : ark_Commit1 (traced_with teq) => counted muls (ark_coms c)) (out_of (ark_commit_G1 (A := traced_with teq) (R := TR1) ((n7 3, false, Inp 10 0) : aff (C1 (traced_with teq))) (named_crs teq tcrs) st0)) = Some (nseq 1 (2, 2)%N) /\ if ark_commit_G1 (A := traced_with teq) (R := TR1) ((n7 3, false, Inp 10 0) : aff (C1 (traced_with teq))) (named_crs teq tcrs) st0 is Ok r then r.2.2 = 2%N else False.
Proof. split; [by vm_compute | by vm_compute]. Qed.

(** The same for [batch_commit_G1]: each commitment has the same cost, and two draws per point. *)
Theorem C91_cost_batch_commit_G1 :
  forall (F : fieldType) (A : ark F) (eqo : cmp A) (R : ark_rng A) (w : op -> nat) (x : seq (aff (C1 A))) c (s : ark_rst (traced_rng eqo R)) r t,
  ark_batch_commit_G1 (A := traced_with eqo) (named 10 x) (named_crs eqo c) s = Ok (r, t) ->
  com_costs w (ark_coms r) (w OZeroA + comb_cost w (size (ark_crs_u c)) 0 + plus_cost w) (comb_cost w (size (ark_crs_u c)) 0 + plus_cost w) /\ t.2 = (s.2 + 2 * size x)%N.
Proof. exact k_cost_batch_commit_G1. Qed.
Print Assumptions C91_cost_batch_commit_G1.

Example C91_cost_batch_commit_G1_case :
  omap (fun c : ark_Commit1 (traced_with teq) => counted muls (ark_coms c)) (out_of (ark_batch_commit_G1 (A := traced_with teq) (R := TR1) (named 10 (lift xs0)) (named_crs teq tcrs) st0)) = Some (nseq 2 (2, 2)%N) /\ if ark_batch_commit_G1 (A := traced_with teq) (R := TR1) (named 10 (lift xs0)) (named_crs teq tcrs) st0 is Ok r then r.2.2 = 4%N else False.
Proof. split; [by vm_compute | by vm_compute]. Qed.

(** The same for [commit_scalar_to_B1]: one draw. *)
Theorem C91_cost_commit_scalar_to_B1 :
  forall (F : fieldType) (A : ark F) (eqo : cmp A) (R : ark_rng A) (w : op -> nat) (x : F) c (s : ark_rst (traced_rng eqo R)) r t,
  ark_commit_scalar_to_B1 (A := traced_with eqo) x (named_crs eqo c) s = Ok (r, t) ->
  com_costs w (ark_coms r) (scalar_cost1 w + times_cost w + plus_cost w) (scalar_cost2 w + times_cost w + plus_cost w) /\ t.2 = (s.2 + 1)%N.
Proof. exact k_cost_commit_scalar_to_B1. Qed.
Print Assumptions C91_cost_commit_scalar_to_B1.

Example C91_cost_commit_scalar_to_B1_case :
  omap (fun c : ark_Commit1 (traced_with teq) => counted muls (ark_coms c)) (out_of (ark_commit_scalar_to_B1 (A := traced_with teq) (R := TR1) (n7 3) (named_crs teq tcrs) st0)) = Some (nseq 1 (2, 2)%N) /\ if ark_commit_scalar_to_B1 (A := traced_with teq) (R := TR1) (n7 3) (named_crs teq tcrs) st0 is Ok r then r.2.2 = 1%N else False.
Proof. split; [by vm_compute | by vm_compute]. Qed.

(** The same for [batch_commit_scalar_to_B1]: one draw per scalar. *)
Theorem C91_cost_batch_commit_scalar_to_B1 :
  forall (F : fieldType) (A : ark F) (eqo : cmp A) (R : ark_rng A) (w : op -> nat) (x : seq F) c (s : ark_rst (traced_rng eqo R)) r t,
  ark_batch_commit_scalar_to_B1 (A := traced_with eqo) x (named_crs eqo c) s = Ok (r, t) ->
  com_costs w (ark_coms r) (scalar_cost1 w + times_cost w + plus_cost w) (scalar_cost2 w + times_cost w + plus_cost w) /\ t.2 = (s.2 + size x)%N.
Proof. exact k_cost_batch_commit_scalar_to_B1. Qed.
Print Assumptions C91_cost_batch_commit_scalar_to_B1.

Example C91_cost_batch_commit_scalar_to_B1_case :
  omap (fun c : ark_Commit1 (traced_with teq) => counted muls (ark_coms c)) (out_of (ark_batch_commit_scalar_to_B1 (A := traced_with teq) (R := TR1) xs0 (named_crs teq tcrs) st0)) = Some (nseq 2 (2, 2)%N) /\ if ark_batch_commit_scalar_to_B1 (A := traced_with teq) (R := TR1) xs0 (named_crs teq tcrs) st0 is Ok r then r.2.2 = 2%N else False.
Proof. split; [by vm_compute | by vm_compute]. Qed.

(** The operations of [commit_G2], weighed by any [w]: the cost of the two components of the commitment, and two draws. *)
Theorem C91_cost_commit_G2 :
  forall (F : fieldType) (A : ark F) (eqo : cmp A) (R : ark_rng A) (w : op -> nat) (x : aff (C2 A)) c (s : ark_rst (traced_rng eqo R)) r t,
  ark_commit_G2 (A := traced_with eqo) (x, Inp 10 0) (named_crs eqo c) s = Ok (r, t) ->
  com_costs w (ark_coms r) (w OZeroA + times_cost w + plus_cost w + times_cost w + plus_cost w) (times_cost w + plus_cost w + times_cost w + plus_cost w) /\ t.2 = (s.2 + 2)%N.
Proof. exact k_cost_commit_G2. Qed.
Print Assumptions C91_cost_commit_G2.

Example C91_cost_commit_G2_case :
  omap (fun c : ark_Commit2 (traced_with teq) => counted muls (ark_coms c)) (out_of (ark_commit_G2 (A := traced_with teq) (R := TR1) ((n7 3, false, Inp 10 0) : aff (C2 (traced_with teq))) (named_crs teq tcrs) st0)) = Some (nseq 1 (2, 2)%N) /\ if ark_commit_G2 (A := traced_with teq) (R := TR1) ((n7 3, false, Inp 10 0) : aff (C2 (traced_with teq))) (named_crs teq tcrs) st0 is Ok r then r.2.2 = 2%N else False.
Proof. split; [by vm_compute | by vm_compute]. Qed.

(** The same for [batch_commit_G2]: each commitment has the same cost, and two draws per point. *)
Theorem C91_cost_batch_commit_G2 :
  forall (F : fieldType) (A : ark F) (eqo : cmp A) (R : ark_rng A) (w : op -> nat) (x : seq (aff (C2 A))) c (s : ark_rst (traced_rng eqo R)) r t,
  ark_batch_commit_G2 (A := traced_with eqo) (named 10 x) (named_crs eqo c) s = Ok (r, t) ->
  com_costs w (ark_coms r) (w OZeroA + comb_cost w (size (ark_crs_v c)) 0 + plus_cost w) (comb_cost w (size (ark_crs_v c)) 0 + plus_cost w) /\ t.2 = (s.2 + 2 * size x)%N.
Proof. exact k_cost_batch_commit_G2. Qed.
Print Assumptions C91_cost_batch_commit_G2.

Example C91_cost_batch_commit_G2_case :
  omap (fun c : ark_Commit2 (traced_with teq) => counted muls (ark_coms c)) (out_of (ark_batch_commit_G2 (A := traced_with teq) (R := TR1) (named 10 (lift xs0)) (named_crs teq tcrs) st0)) = Some (nseq 2 (2, 2)%N) /\ if ark_batch_commit_G2 (A := traced_with teq) (R := TR1) (named 10 (lift xs0)) (named_crs teq tcrs) st0 is Ok r then r.2.2 = 4%N else False.
Proof. split; [by vm_compute | by vm_compute]. Qed.

(** The same for [commit_scalar_to_B2]: one draw. *)
Theorem C91_cost_commit_scalar_to_B2 :
  forall (F : fieldType) (A : ark F) (eqo : cmp A) (R : ark_rng A) (w : op -> nat) (x : F) c (s : ark_rst (traced_rng eqo R)) r t,
  ark_commit_scalar_to_B2 (A := traced_with eqo) x (named_crs eqo c) s = Ok (r, t) ->
  com_costs w (ark_coms r) (scalar_cost1 w + times_cost w + plus_cost w) (scalar_cost2 w + times_cost w + plus_cost w) /\ t.2 = (s.2 + 1)%N.
Proof. exact k_cost_commit_scalar_to_B2. Qed.
Print Assumptions C91_cost_commit_scalar_to_B2.

Example C91_cost_commit_scalar_to_B2_case :
  omap (fun c : ark_Commit2 (traced_with teq) => counted muls (ark_coms c)) (out_of (ark_commit_scalar_to_B2 (A := traced_with teq) (R := TR1) (n7 3) (named_crs teq tcrs) st0)) = Some (nseq 1 (2, 2)%N) /\ if ark_commit_scalar_to_B2 (A := traced_with teq) (R := TR1) (n7 3) (named_crs teq tcrs) st0 is Ok r then r.2.2 = 1%N else False.
Proof. split; [by vm_compute | by vm_compute]. Qed.

(** The same for [batch_commit_scalar_to_B2]: one draw per scalar. *)
Theorem C91_cost_batch_commit_scalar_to_B2 :
  forall (F : fieldType) (A : ark F) (eqo : cmp A) (R : ark_rng A) (w : op -> nat) (x : seq F) c (s : ark_rst (traced_rng eqo R)) r t,
  ark_batch_commit_scalar_to_B2 (A := traced_with eqo) x (named_crs eqo c) s = Ok (r, t) ->
  com_costs w (ark_coms r) (scalar_cost1 w + times_cost w + plus_cost w) (scalar_cost2 w + times_cost w + plus_cost w) /\ t.2 = (s.2 + size x)%N.
Proof. exact k_cost_batch_commit_scalar_to_B2. Qed.
Print Assumptions C91_cost_batch_commit_scalar_to_B2.

Example C91_cost_batch_commit_scalar_to_B2_case :
  omap (fun c : ark_Commit2 (traced_with teq) => counted muls (ark_coms c)) (out_of (ark_batch_commit_scalar_to_B2 (A := traced_with teq) (R := TR1) xs0 (named_crs teq tcrs) st0)) = Some (nseq 2 (2, 2)%N) /\ if ark_batch_commit_scalar_to_B2 (A := traced_with teq) (R := TR1) xs0 (named_crs teq tcrs) st0 is Ok r then r.2.2 = 2%N else False.
Proof. split; [by vm_compute | by vm_compute]. Qed.

(** The operations of [prove] for the pairing-product equation: the costs depend on the numbers of constants, of variables and of key entries only. *)
Theorem C91_cost_ppe_prove :
  forall (F : fieldType) (A : ark F) (eqo : cmp A) (R : ark_rng A) (w : op -> nat) sch (e : ark_PPE A) (xs : seq (aff (C1 A))) (ys : seq (aff (C2 A))) x y c (s : ark_rst (traced_rng eqo R)) r t,
  ark_ppe_prove (A := traced_with eqo) sch (named_ppe eqo e) (named 10 xs) (named 11 ys) x y (named_crs eqo c) s = Ok (r, t) ->
  [/\ com_costs w (ark_pi r) (comb_cost w (size (ark_ppe_b e)) (w OZeroA) + comb_cost w (size ys) (w OZeroA) + plus_cost w + comb_cost w (size (ark_crs_v c)) 0 + plus_cost w) (comb_cost w (size (ark_ppe_b e)) 0 + comb_cost w (size ys) 0 + plus_cost w + comb_cost w (size (ark_crs_v c)) 0 + plus_cost w),
      com_costs w (ark_theta r) (comb_cost w (size (ark_ppe_a e)) (w OZeroA) + comb_cost w (size xs) (w OZeroA) + plus_cost w + comb_cost w (size (ark_crs_u c)) 0 + plus_cost w) (comb_cost w (size (ark_ppe_a e)) 0 + comb_cost w (size xs) 0 + plus_cost w + comb_cost w (size (ark_crs_u c)) 0 + plus_cost w)
    & t.2 = (s.2 + 4)%N].
Proof. exact k_cost_ppe_prove. Qed.
Print Assumptions C91_cost_ppe_prove.

Example C91_cost_ppe_prove_case :
  omap (fun p : ark_EquProof (traced_with teq) => (counted muls (ark_pi p), counted muls (ark_theta p))) (out_of (ark_ppe_prove (A := traced_with teq) (R := TR1) bwd (named_ppe teq tppe) (named 10 (lift xs0)) (named 11 (lift ys0)) (named_commit1 teq 12 (ark_xcoms tp_ppe)) (named_commit2 teq 14 (ark_ycoms tp_ppe)) (named_crs teq tcrs) st0)) = Some ((nseq 2 (5, 5))%N, (nseq 2 (5, 5))%N) /\ if ark_ppe_prove (A := traced_with teq) (R := TR1) bwd (named_ppe teq tppe) (named 10 (lift xs0)) (named 11 (lift ys0)) (named_commit1 teq 12 (ark_xcoms tp_ppe)) (named_commit2 teq 14 (ark_ycoms tp_ppe)) (named_crs teq tcrs) st0 is Ok r then r.2.2 = 4%N else False.
Proof. split; [by vm_compute | by vm_compute]. Qed.

(** The operations of [prove] for the multi-scalar equation in G1: the costs depend on the numbers of constants, of variables and of key entries only. *)
Theorem C91_cost_ms1_prove :
  forall (F : fieldType) (A : ark F) (eqo : cmp A) (R : ark_rng A) (w : op -> nat) sch (e : ark_MSMEG1 A) (xs : seq (aff (C1 A))) (ys : seq F) x y c (s : ark_rst (traced_rng eqo R)) r t,
  ark_ms1_prove (A := traced_with eqo) sch (named_ms1 eqo e) (named 10 xs) ys x y (named_crs eqo c) s = Ok (r, t) ->
  [/\ com_costs w (ark_pi r) (comb_cost w (size (ark_ms1_b e)) (scalar_cost1 w) + comb_cost w (size ys) (scalar_cost1 w) + plus_cost w + comb_cost w 1 0 + plus_cost w) (comb_cost w (size (ark_ms1_b e)) (scalar_cost2 w) + comb_cost w (size ys) (scalar_cost2 w) + plus_cost w + comb_cost w 1 0 + plus_cost w),
      com_costs w (ark_theta r) (comb_cost w (size (ark_ms1_a e)) (w OZeroA) + comb_cost w (size xs) (w OZeroA) + plus_cost w + comb_cost w (size (ark_crs_u c)) 0 + plus_cost w) (comb_cost w (size (ark_ms1_a e)) 0 + comb_cost w (size xs) 0 + plus_cost w + comb_cost w (size (ark_crs_u c)) 0 + plus_cost w)
    & t.2 = (s.2 + 2)%N].
Proof. exact k_cost_ms1_prove. Qed.
Print Assumptions C91_cost_ms1_prove.

Example C91_cost_ms1_prove_case :
  omap (fun p : ark_EquProof (traced_with teq) => (counted muls (ark_pi p), counted muls (ark_theta p))) (out_of (ark_ms1_prove (A := traced_with teq) (R := TR1) bwd (named_ms1 teq tms1) (named 10 (lift xs0)) ys0 (named_commit1 teq 12 (ark_xcoms tp_ms1)) (named_commit2 teq 14 (ark_ycoms tp_ms1)) (named_crs teq tcrs) st0)) = Some ((nseq 2 (7, 7))%N, [:: (5, 5)]%N) /\ if ark_ms1_prove (A := traced_with teq) (R := TR1) bwd (named_ms1 teq tms1) (named 10 (lift xs0)) ys0 (named_commit1 teq 12 (ark_xcoms tp_ms1)) (named_commit2 teq 14 (ark_ycoms tp_ms1)) (named_crs teq tcrs) st0 is Ok r then r.2.2 = 2%N else False.
Proof. split; [by vm_compute | by vm_compute]. Qed.

(** The operations of [prove] for the multi-scalar equation in G2: the costs depend on the numbers of constants, of variables and of key entries only. *)
Theorem C91_cost_ms2_prove :
  forall (F : fieldType) (A : ark F) (eqo : cmp A) (R : ark_rng A) (w : op -> nat) sch (e : ark_MSMEG2 A) (xs : seq F) (ys : seq (aff (C2 A))) x y c (s : ark_rst (traced_rng eqo R)) r t,
  ark_ms2_prove (A := traced_with eqo) sch (named_ms2 eqo e) xs (named 11 ys) x y (named_crs eqo c) s = Ok (r, t) ->
  [/\ com_costs w (ark_pi r) (comb_cost w (size (ark_ms2_b e)) (w OZeroA) + comb_cost w (size ys) (w OZeroA) + plus_cost w + comb_cost w (size (ark_crs_v c)) 0 + plus_cost w) (comb_cost w (size (ark_ms2_b e)) 0 + comb_cost w (size ys) 0 + plus_cost w + comb_cost w (size (ark_crs_v c)) 0 + plus_cost w),
      com_costs w (ark_theta r) (comb_cost w (size (ark_ms2_a e)) (scalar_cost1 w) + comb_cost w (size xs) (scalar_cost1 w) + plus_cost w + comb_cost w 1 0 + plus_cost w) (comb_cost w (size (ark_ms2_a e)) (scalar_cost2 w) + comb_cost w (size xs) (scalar_cost2 w) + plus_cost w + comb_cost w 1 0 + plus_cost w)
    & t.2 = (s.2 + 2)%N].
Proof. exact k_cost_ms2_prove. Qed.
Print Assumptions C91_cost_ms2_prove.

Example C91_cost_ms2_prove_case :
  omap (fun p : ark_EquProof (traced_with teq) => (counted muls (ark_pi p), counted muls (ark_theta p))) (out_of (ark_ms2_prove (A := traced_with teq) (R := TR1) bwd (named_ms2 teq tms2) xs0 (named 11 (lift ys0)) (named_commit1 teq 12 (ark_xcoms tp_ms2)) (named_commit2 teq 14 (ark_ycoms tp_ms2)) (named_crs teq tcrs) st0)) = Some ([:: (5, 5)]%N, (nseq 2 (7, 7))%N) /\ if ark_ms2_prove (A := traced_with teq) (R := TR1) bwd (named_ms2 teq tms2) xs0 (named 11 (lift ys0)) (named_commit1 teq 12 (ark_xcoms tp_ms2)) (named_commit2 teq 14 (ark_ycoms tp_ms2)) (named_crs teq tcrs) st0 is Ok r then r.2.2 = 2%N else False.
Proof. split; [by vm_compute | by vm_compute]. Qed.

(** The operations of [prove] for the quadratic equation: the costs depend on the numbers of constants, of variables and of key entries only. *)
Theorem C91_cost_quad_prove :
  forall (F : fieldType) (A : ark F) (eqo : cmp A) (R : ark_rng A) (w : op -> nat) sch (e : ark_QuadEqu F) (xs : seq F) (ys : seq F) x y c (s : ark_rst (traced_rng eqo R)) r t,
  ark_quad_prove (A := traced_with eqo) sch e xs ys x y (named_crs eqo c) s = Ok (r, t) ->
  [/\ com_costs w (ark_pi r) (comb_cost w (size (ark_quad_b e)) (scalar_cost1 w) + comb_cost w (size ys) (scalar_cost1 w) + plus_cost w + comb_cost w 1 0 + plus_cost w) (comb_cost w (size (ark_quad_b e)) (scalar_cost2 w) + comb_cost w (size ys) (scalar_cost2 w) + plus_cost w + comb_cost w 1 0 + plus_cost w),
      com_costs w (ark_theta r) (comb_cost w (size (ark_quad_a e)) (scalar_cost1 w) + comb_cost w (size xs) (scalar_cost1 w) + plus_cost w + comb_cost w 1 0 + plus_cost w) (comb_cost w (size (ark_quad_a e)) (scalar_cost2 w) + comb_cost w (size xs) (scalar_cost2 w) + plus_cost w + comb_cost w 1 0 + plus_cost w)
    & t.2 = (s.2 + 1)%N].
Proof. exact k_cost_quad_prove. Qed.
Print Assumptions C91_cost_quad_prove.

Example C91_cost_quad_prove_case :
  omap (fun p : ark_EquProof (traced_with teq) => (counted muls (ark_pi p), counted muls (ark_theta p))) (out_of (ark_quad_prove (A := traced_with teq) (R := TR1) bwd tquad xs0 ys0 (named_commit1 teq 12 (ark_xcoms tp_quad)) (named_commit2 teq 14 (ark_ycoms tp_quad)) (named_crs teq tcrs) st0)) = Some ([:: (7, 7)]%N, [:: (7, 7)]%N) /\ if ark_quad_prove (A := traced_with teq) (R := TR1) bwd tquad xs0 ys0 (named_commit1 teq 12 (ark_xcoms tp_quad)) (named_commit2 teq 14 (ark_ycoms tp_quad)) (named_crs teq tcrs) st0 is Ok r then r.2.2 = 1%N else False.
Proof. split; [by vm_compute | by vm_compute]. Qed.

(** The pairings of [verify] for the pairing-product equation: every comparison is between two outputs computed with these numbers of pairings. *)
Theorem C91_pairs_ppe_verify :
  forall (F : fieldType) (A : ark F) sch (e : ark_PPE A) (p : ark_CProof A) f c b,
  ark_equ_proofs p = [:: f] ->
  let P l r := ((cost pairings l == size (ark_ppe_a e) + size (ark_coms (ark_xcoms p)) + size (ark_coms (ark_xcoms p)))
    && (cost pairings r == size (ark_crs_u c) + size (ark_theta f)))%N in
  let eqo (x y : out A * expr) := P x.2 y.2 in
  ark_ppe_verify (A := watched A P) sch (named_ppe eqo e) (named_cproof eqo p) (named_crs eqo c) = Ok b -> b = true.
Proof. exact k_pairs_ppe_verify. Qed.
Print Assumptions C91_pairs_ppe_verify.

Example C91_pairs_ppe_verify_case :
  [/\ size (ark_equ_proofs tp_ppe) = 1%N,
      ark_ppe_verify (A := watched tark (watch 5 4)) bwd (named_ppe (fun x y => (watch 5 4) x.2 y.2) tppe) (named_cproof (fun x y => (watch 5 4) x.2 y.2) tp_ppe) (named_crs (fun x y => (watch 5 4) x.2 y.2) tcrs) = Ok true
    & ark_ppe_verify (A := watched tark (watch 5 5)) bwd (named_ppe (fun x y => (watch 5 5) x.2 y.2) tppe) (named_cproof (fun x y => (watch 5 5) x.2 y.2) tp_ppe) (named_crs (fun x y => (watch 5 5) x.2 y.2) tcrs) = Ok false].
Proof. split; [by vm_compute | by vm_compute | by vm_compute]. Qed.

(** The pairings of [verify] for the multi-scalar equation in G1: every comparison is between two outputs computed with these numbers of pairings. *)
Theorem C91_pairs_ms1_verify :
  forall (F : fieldType) (A : ark F) sch (e : ark_MSMEG1 A) (p : ark_CProof A) f c b,
  ark_equ_proofs p = [:: f] ->
  let P l r := ((cost pairings l == size (ark_ms1_a e) + size (ark_coms (ark_xcoms p)) + size (ark_coms (ark_xcoms p)))
    && (cost pairings r == 1 + size (ark_crs_u c) + 1))%N in
  let eqo (x y : out A * expr) := P x.2 y.2 in
  ark_ms1_verify (A := watched A P) sch (named_ms1 eqo e) (named_cproof eqo p) (named_crs eqo c) = Ok b -> b = true.
Proof. exact k_pairs_ms1_verify. Qed.
Print Assumptions C91_pairs_ms1_verify.

Example C91_pairs_ms1_verify_case :
  [/\ size (ark_equ_proofs tp_ms1) = 1%N,
      ark_ms1_verify (A := watched tark (watch 5 4)) bwd (named_ms1 (fun x y => (watch 5 4) x.2 y.2) tms1) (named_cproof (fun x y => (watch 5 4) x.2 y.2) tp_ms1) (named_crs (fun x y => (watch 5 4) x.2 y.2) tcrs) = Ok true
    & ark_ms1_verify (A := watched tark (watch 5 5)) bwd (named_ms1 (fun x y => (watch 5 5) x.2 y.2) tms1) (named_cproof (fun x y => (watch 5 5) x.2 y.2) tp_ms1) (named_crs (fun x y => (watch 5 5) x.2 y.2) tcrs) = Ok false].
Proof. split; [by vm_compute | by vm_compute | by vm_compute]. Qed.

(** The pairings of [verify] for the multi-scalar equation in G2: every comparison is between two outputs computed with these numbers of pairings. *)
Theorem C91_pairs_ms2_verify :
  forall (F : fieldType) (A : ark F) sch (e : ark_MSMEG2 A) (p : ark_CProof A) f c b,
  ark_equ_proofs p = [:: f] ->
  let P l r := ((cost pairings l == size (ark_ms2_a e) + size (ark_coms (ark_xcoms p)) + size (ark_coms (ark_xcoms p)))
    && (cost pairings r == 1 + 1 + size (ark_theta f)))%N in
  let eqo (x y : out A * expr) := P x.2 y.2 in
  ark_ms2_verify (A := watched A P) sch (named_ms2 eqo e) (named_cproof eqo p) (named_crs eqo c) = Ok b -> b = true.
Proof. exact k_pairs_ms2_verify. Qed.
Print Assumptions C91_pairs_ms2_verify.

Example C91_pairs_ms2_verify_case :
  [/\ size (ark_equ_proofs tp_ms2) = 1%N,
      ark_ms2_verify (A := watched tark (watch 5 4)) bwd (named_ms2 (fun x y => (watch 5 4) x.2 y.2) tms2) (named_cproof (fun x y => (watch 5 4) x.2 y.2) tp_ms2) (named_crs (fun x y => (watch 5 4) x.2 y.2) tcrs) = Ok true
    & ark_ms2_verify (A := watched tark (watch 5 5)) bwd (named_ms2 (fun x y => (watch 5 5) x.2 y.2) tms2) (named_cproof (fun x y => (watch 5 5) x.2 y.2) tp_ms2) (named_crs (fun x y => (watch 5 5) x.2 y.2) tcrs) = Ok false].
Proof. split; [by vm_compute | by vm_compute | by vm_compute]. Qed.

(** The pairings of [verify] for the quadratic equation: every comparison is between two outputs computed with these numbers of pairings. *)
Theorem C91_pairs_quad_verify :
  forall (F : fieldType) (A : ark F) sch (e : ark_QuadEqu F) (p : ark_CProof A) f c b,
  ark_equ_proofs p = [:: f] ->
  let P l r := ((cost pairings l == size (ark_quad_a e) + size (ark_coms (ark_xcoms p)) + size (ark_coms (ark_xcoms p)))
    && (cost pairings r == 1 + 1 + 1))%N in
  let eqo (x y : out A * expr) := P x.2 y.2 in
  ark_quad_verify (A := watched A P) sch e (named_cproof eqo p) (named_crs eqo c) = Ok b -> b = true.
Proof. exact k_pairs_quad_verify. Qed.
Print Assumptions C91_pairs_quad_verify.

Example C91_pairs_quad_verify_case :
  [/\ size (ark_equ_proofs tp_quad) = 1%N,
      ark_quad_verify (A := watched tark (watch 5 3)) bwd tquad (named_cproof (fun x y => (watch 5 3) x.2 y.2) tp_quad) (named_crs (fun x y => (watch 5 3) x.2 y.2) tcrs) = Ok true
    & ark_quad_verify (A := watched tark (watch 5 4)) bwd tquad (named_cproof (fun x y => (watch 5 4) x.2 y.2) tp_quad) (named_crs (fun x y => (watch 5 4) x.2 y.2) tcrs) = Ok false].
Proof. split; [by vm_compute | by vm_compute | by vm_compute]. Qed.

