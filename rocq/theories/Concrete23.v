(** Values over the curve of Concrete22. Not a model of any code in /repo. *)
From mathcomp Require Import all_ssreflect all_algebra.
From Coq Require Import Strings.Byte.
From Verif Require Import Base Group DataStructures Generator Commit Statement Prove Verify Spec Concrete Codec SpecCodec SpecCodec2 Ark SpecArk ArkCodec SpecWire SpecTwice CodecLemmas Concrete3 Formats SpecFormats FormatsLemmas TwiceProps FormatsProps Concrete22.
Set Implicit Arguments.
Unset Strict Implicit.
Unset Printing Implicit Defensive.
Import GRing.Theory.
Local Open Scope ring_scope.

Definition reg13 (P : pt13) : bool := if P is Some (x, y) then y != - y else false.
Lemma reg1P (a : pt13) : reg13 a = true -> regular1 sstd a. Proof. by case: a => // -[x y] /eqP. Qed.
Lemma reg2P (a : pt13) : reg13 a = true -> regular2 sstd a. Proof. exact: reg1P. Qed.
Lemma mem1P (a : pt13) : member13 a = true -> member1 sstd a. Proof. by move/member13P. Qed.
Lemma mem2P (a : pt13) : member13 a = true -> member2 sstd a. Proof. by move/member13P. Qed.
Ltac each := unfold ark_crs_all, ark_commit1_all, ark_commit2_all, ark_equproof_all, ark_ppe_all, ark_ms1_all, ark_ms2_all, ark_quad_all; repeat match goal with
  | |- regular1 _ _ => apply reg1P; vm_compute; reflexivity
  | |- regular2 _ _ => apply reg2P; vm_compute; reflexivity
  | |- member1 _ _ => apply mem1P; vm_compute; reflexivity
  | |- member2 _ _ => apply mem2P; vm_compute; reflexivity
  | |- any _ => exact Logic.I
  | |- is_true _ => reflexivity
  | |- _ /\ _ => split
  | |- ark_com1_all _ _ => split
  | |- ark_com2_all _ _ => split
  | |- List.Forall _ _ => constructor
  end.
Lemma s_oneF : one_at Yes any (ac_fr (standard_codecs sstd)). Proof. exact: (@std_oneF _ _ _ sstd_good). Qed.
Lemma s_oneT : one_at Yes any (ac_out (standard_codecs sstd)). Proof. exact: (@std_oneT _ _ _ sstd_good). Qed.
(** Scalars modulo 7, read from any byte. *)
Definition loose_codec : codec F7 :=
  Codec (fun _ x => [:: byte_of (val x)])
    (fun _ _ bs => if bs is b :: r then DOk ((le_val [:: b])%:R : F7) r else DErr IoError) (fun _ _ => 1%N) (fun _ => None) (fun _ => None).
Definition loose_codecs : ark_codecs sark :=
  @ArkCodecs _ sark loose_codec (ac_c1 (standard_codecs sstd)) (ac_c2 (standard_codecs sstd)) (ac_out (standard_codecs sstd)).
Lemma loose_read : elements_read loose_codecs any (member1 sstd) (member2 sstd) (fun x => st_ok sstd x).
Proof.
have [_ h1 h2 h3] := std_read sstd_good; split=> //; split=> //.
move=> m v x r _ /=; congr (DOk _ _); apply/eqP; move: x.
by apply: (each7 (P := fun x => (le_val [:: byte_of (val x)])%:R == x)); vm_compute.
Qed.
Lemma loose_other m (x : F7) : other m loose_codec x.
Proof.
exists [:: byte_of (val x + 7)] => [|v r] /=.
  move/(congr1 le_val)/eqP; apply/negP; move: x.
  by apply: (each7 (P := fun x => le_val [:: byte_of (val x + 7)] != le_val [:: byte_of (val x)])); vm_compute.
congr (DOk _ _); apply/eqP; move: x.
by apply: (each7 (P := fun x => (le_val [:: byte_of (val x + 7)])%:R == x)); vm_compute.
Qed.
Definition s_com1 : ark_Com1 sark := (pt (n7 1), pt (n7 3)).
Definition s_crs : ark_CRS sark := ark_mkCRS (A := sark) [:: (pt (n7 2), pt (n7 3)); (pt (n7 1), pt (n7 6))] [:: (pt (n7 5), pt (n7 4))] (pt (n7 1)) (pt (n7 2)) (n7 2).
Lemma s_crs_reg : ark_crs_all (A := sark) (regular1 sstd) (regular2 sstd) any s_crs.
Proof. each. Qed.
Lemma s_crs_mem : ark_crs_all (A := sark) (member1 sstd) (member2 sstd) (fun x => st_ok sstd x) s_crs.
Proof. each. Qed.
Lemma s_crs_fits : ark_crs_fits s_crs.
Proof. by split; exact: shortP. Qed.
Definition s_commit1 : ark_Commit1 sark := ark_mkCommit (C := scv) [:: (pt (n7 1), pt (n7 3))] [:: [:: n7 5; n7 6]].
Lemma s_commit1_reg : ark_commit1_all (A := sark) any (regular1 sstd) s_commit1.
Proof. each. Qed.
Lemma s_commit1_mem : ark_commit1_all (A := sark) any (member1 sstd) s_commit1.
Proof. each. Qed.
Lemma s_commit1_fits : ark_commit1_fits s_commit1.
Proof. by split; [exact: shortP|exact: short_matP]. Qed.
Definition s_commit2 : ark_Commit2 sark := ark_mkCommit (C := scv) [:: (pt (n7 1), pt (n7 3))] [:: [:: n7 5; n7 6]].
Lemma s_commit2_reg : ark_commit2_all (A := sark) any (regular2 sstd) s_commit2.
Proof. each. Qed.
Lemma s_commit2_mem : ark_commit2_all (A := sark) any (member2 sstd) s_commit2.
Proof. each. Qed.
Lemma s_commit2_fits : ark_commit2_fits s_commit2.
Proof. by split; [exact: shortP|exact: short_matP]. Qed.
Definition s_equproof : ark_EquProof sark := ark_mkEquProof (A := sark) [:: (pt (n7 2), pt (n7 5))] [:: (pt (n7 1), pt (n7 6))] Quadratic [:: [:: n7 5]].
Lemma s_equproof_reg : ark_equproof_all (A := sark) any (regular1 sstd) (regular2 sstd) s_equproof.
Proof. each. Qed.
Lemma s_equproof_mem : ark_equproof_all (A := sark) any (member1 sstd) (member2 sstd) s_equproof.
Proof. each. Qed.
Lemma s_equproof_fits : ark_equproof_fits s_equproof.
Proof. by split; [exact: shortP|split; [exact: shortP|exact: short_matP]]. Qed.
Definition s_ppe : ark_PPE sark := ark_mkPPE (A := sark) [:: pt (n7 2)] [:: pt (n7 5); pt (n7 6)] [:: [:: n7 5; n7 0]] (n7 3).
Lemma s_ppe_reg : ark_ppe_all (A := sark) any (regular1 sstd) (regular2 sstd) any s_ppe.
Proof. each. Qed.
Lemma s_ppe_mem : ark_ppe_all (A := sark) any (member1 sstd) (member2 sstd) (fun x => st_ok sstd x) s_ppe.
Proof. each. Qed.
Lemma s_ppe_fits : ark_ppe_fits s_ppe.
Proof. by split; [exact: shortP|split; [exact: shortP|exact: short_matP]]. Qed.
Definition s_ms1 : ark_MSMEG1 sark := ark_mkMSMEG1 (A := sark) [:: pt (n7 2)] [:: n7 5; n7 6] [:: [:: n7 5; n7 0]] (pt (n7 3)).
Lemma s_ms1_reg : ark_ms1_all (A := sark) any (regular1 sstd) s_ms1.
Proof. each. Qed.
Lemma s_ms1_mem : ark_ms1_all (A := sark) any (member1 sstd) s_ms1.
Proof. each. Qed.
Lemma s_ms1_fits : ark_ms1_fits s_ms1.
Proof. by split; [exact: shortP|split; [exact: shortP|exact: short_matP]]. Qed.
Definition s_ms2 : ark_MSMEG2 sark := ark_mkMSMEG2 (A := sark) [:: n7 2] [:: pt (n7 5); pt (n7 6)] [:: [:: n7 5; n7 0]] (pt (n7 3)).
Lemma s_ms2_reg : ark_ms2_all (A := sark) any (regular2 sstd) s_ms2.
Proof. each. Qed.
Lemma s_ms2_mem : ark_ms2_all (A := sark) any (member2 sstd) s_ms2.
Proof. each. Qed.
Lemma s_ms2_fits : ark_ms2_fits s_ms2.
Proof. by split; [exact: shortP|split; [exact: shortP|exact: short_matP]]. Qed.
Definition s_quad : ark_QuadEqu F7 := ark_mkQuadEqu [:: n7 2] [:: n7 5; n7 6] [:: [:: n7 5; n7 0]] (n7 3).
Lemma s_quad_reg : ark_quad_all any s_quad.
Proof. each. Qed.
Lemma s_quad_mem : ark_quad_all any s_quad.
Proof. each. Qed.
Lemma s_quad_fits : ark_quad_fits s_quad.
Proof. by split; [exact: shortP|split; [exact: shortP|exact: short_matP]]. Qed.
Lemma small_fits : short_mat [:: [:: n7 5; n7 6]]. Proof. exact: short_matP. Qed.
Definition sproof : ark_CProof sark := ark_mkCProof s_commit1 s_commit2 [:: s_equproof].
