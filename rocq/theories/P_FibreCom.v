(** C98: which random tapes make a commitment function return the same commitments. *)
From mathcomp Require Import all_ssreflect all_algebra.
From Verif Require Import Base BaseLemmas Group DataStructures Generator Commit Statement Prove Verify Spec SpecHide FibreCom Concrete Concrete7 Concrete25 Concrete29 Concrete30.
Set Implicit Arguments.
Unset Strict Implicit.
Unset Printing Implicit Defensive.
Import GRing.Theory.
Local Open Scope ring_scope.

(** [batch_commit_G1] under a binding key. *)
Theorem C98_G1_binding : forall (E : pairing) (R R' : rng E) (X : seq (G1 E)) (crs : CRS E) a1 a2 t1 t2 (s s' : rst R) (z z' : rst R') c d,
  binding_crs_with crs a1 a2 t1 t2 -> proper_crs crs ->
  batch_commit_G1 X crs s = Ok (c, s') -> batch_commit_G1 X crs z = Ok (d, z') ->
  (coms d = coms c <-> forall i, (i < size X)%N ->
     drawn z (2 * i) + t1 * drawn z (2 * i).+1 = drawn s (2 * i) + t1 * drawn s (2 * i).+1).
Proof. exact: @k_C98_G1_binding. Qed.
Print Assumptions C98_G1_binding.

Example C98_G1_binding_case : fibc_G1 crs0 [:: n7 1; n7 2; n7 3; n7 4] [:: n7 4; n7 3; n7 3; n7 4] && ~~ fibc_G1 crs0 [:: n7 1; n7 2; n7 3; n7 4] [:: n7 2; n7 2; n7 3; n7 4].
Proof. by vm_compute. Qed.

(** [batch_commit_G1] under a hiding key. *)
Theorem C98_G1_hiding : forall (E : pairing) (R R' : rng E) (X : seq (G1 E)) (crs : CRS E) (s s' : rst R) (z z' : rst R') c d,
  hiding_crs crs -> proper_crs crs ->
  batch_commit_G1 X crs s = Ok (c, s') -> batch_commit_G1 X crs z = Ok (d, z') ->
  (coms d = coms c <-> forall i, (i < 2 * size X)%N -> drawn z i = drawn s i).
Proof. exact: @k_C98_G1_hiding. Qed.
Print Assumptions C98_G1_hiding.

Example C98_G1_hiding_case : fibc_G1 crsh [:: n7 1; n7 2; n7 3; n7 4] [:: n7 1; n7 2; n7 3; n7 4] && ~~ fibc_G1 crsh [:: n7 1; n7 2; n7 3; n7 4] [:: n7 4; n7 3; n7 3; n7 4].
Proof. by vm_compute. Qed.

(** [batch_commit_scalar_to_B1] under any key with [u1] not zero. *)
Theorem C98_B1 : forall (E : pairing) (R R' : rng E) (X : seq (Fr E)) (crs : CRS E) (s s' : rst R) (z z' : rst R') c d,
  nth 0 (crs_u crs) 0 != 0 ->
  batch_commit_scalar_to_B1 X crs s = Ok (c, s') -> batch_commit_scalar_to_B1 X crs z = Ok (d, z') ->
  (coms d = coms c <-> forall i, (i < size X)%N -> drawn z i = drawn s i).
Proof. exact: @k_C98_B1. Qed.
Print Assumptions C98_B1.

Example C98_B1_case : fibc_B1 crs0 [:: n7 1; n7 2] [:: n7 1; n7 2] && ~~ fibc_B1 crs0 [:: n7 1; n7 2] [:: n7 3; n7 2].
Proof. by vm_compute. Qed.

(** [batch_commit_G2] under a binding key. *)
Theorem C98_G2_binding : forall (E : pairing) (R R' : rng E) (X : seq (G2 E)) (crs : CRS E) a1 a2 t1 t2 (s s' : rst R) (z z' : rst R') c d,
  binding_crs_with crs a1 a2 t1 t2 -> proper_crs crs ->
  batch_commit_G2 X crs s = Ok (c, s') -> batch_commit_G2 X crs z = Ok (d, z') ->
  (coms d = coms c <-> forall i, (i < size X)%N ->
     drawn z (2 * i) + t2 * drawn z (2 * i).+1 = drawn s (2 * i) + t2 * drawn s (2 * i).+1).
Proof. exact: @k_C98_G2_binding. Qed.
Print Assumptions C98_G2_binding.

Example C98_G2_binding_case : fibc_G2 crs0 [:: n7 1; n7 2; n7 3; n7 4] [:: n7 3; n7 3; n7 3; n7 4] && ~~ fibc_G2 crs0 [:: n7 1; n7 2; n7 3; n7 4] [:: n7 2; n7 2; n7 3; n7 4].
Proof. by vm_compute. Qed.

(** [batch_commit_G2] under a hiding key. *)
Theorem C98_G2_hiding : forall (E : pairing) (R R' : rng E) (X : seq (G2 E)) (crs : CRS E) (s s' : rst R) (z z' : rst R') c d,
  hiding_crs crs -> proper_crs crs ->
  batch_commit_G2 X crs s = Ok (c, s') -> batch_commit_G2 X crs z = Ok (d, z') ->
  (coms d = coms c <-> forall i, (i < 2 * size X)%N -> drawn z i = drawn s i).
Proof. exact: @k_C98_G2_hiding. Qed.
Print Assumptions C98_G2_hiding.

Example C98_G2_hiding_case : fibc_G2 crsh [:: n7 1; n7 2; n7 3; n7 4] [:: n7 1; n7 2; n7 3; n7 4] && ~~ fibc_G2 crsh [:: n7 1; n7 2; n7 3; n7 4] [:: n7 4; n7 3; n7 3; n7 4].
Proof. by vm_compute. Qed.

(** [batch_commit_scalar_to_B2] under any key with [v1] not zero. *)
Theorem C98_B2 : forall (E : pairing) (R R' : rng E) (X : seq (Fr E)) (crs : CRS E) (s s' : rst R) (z z' : rst R') c d,
  nth 0 (crs_v crs) 0 != 0 ->
  batch_commit_scalar_to_B2 X crs s = Ok (c, s') -> batch_commit_scalar_to_B2 X crs z = Ok (d, z') ->
  (coms d = coms c <-> forall i, (i < size X)%N -> drawn z i = drawn s i).
Proof. exact: @k_C98_B2. Qed.
Print Assumptions C98_B2.

Example C98_B2_case : fibc_B2 crs0 [:: n7 1; n7 2] [:: n7 1; n7 2] && ~~ fibc_B2 crs0 [:: n7 1; n7 2] [:: n7 3; n7 2].
Proof. by vm_compute. Qed.

(** Over a finite field: the number of tapes which give commitments that were returned. *)
Theorem C98_G1_counts : forall (F : finFieldType) (A B C : lmodType F) (e : A -> B -> C), let E := Pairing e in
  forall (R : rng E) (X : seq (G1 E)) (crs : CRS E) (s s' : rst R) c,
  binding_crs crs -> proper_crs crs -> batch_commit_G1 X crs s = Ok (c, s') ->
  tapes (2 * size X) (fun d => coms d) (fun R s => batch_commit_G1 (R := R) X crs s)
    (fun r => if r is Ok v then v == coms c else false) = (#|F| ^ size X)%N.
Proof. exact: @k_C98_G1_counts. Qed.
Print Assumptions C98_G1_counts.

Example C98_G1_counts_case := fun c s' => @C98_G1_counts [finFieldType of F7] F7o F7o F7o (fun x y : F7 => x * y) ctr xs0 crs0 6%N s' c crs0_bind crs0_prop.

(** Over a finite field: the number of tapes which give commitments that were returned. *)
Theorem C98_G2_counts : forall (F : finFieldType) (A B C : lmodType F) (e : A -> B -> C), let E := Pairing e in
  forall (R : rng E) (X : seq (G2 E)) (crs : CRS E) (s s' : rst R) c,
  binding_crs crs -> proper_crs crs -> batch_commit_G2 X crs s = Ok (c, s') ->
  tapes (2 * size X) (fun d => coms d) (fun R s => batch_commit_G2 (R := R) X crs s)
    (fun r => if r is Ok v then v == coms c else false) = (#|F| ^ size X)%N.
Proof. exact: @k_C98_G2_counts. Qed.
Print Assumptions C98_G2_counts.

Example C98_G2_counts_case := fun c s' => @C98_G2_counts [finFieldType of F7] F7o F7o F7o (fun x y : F7 => x * y) ctr ys0 crs0 6%N s' c crs0_bind crs0_prop.
