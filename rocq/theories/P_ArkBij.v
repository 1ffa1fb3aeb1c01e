(** C99 over affine and projective points. *)
From mathcomp Require Import all_ssreflect all_algebra.
From Verif Require Import Base BaseLemmas Group DataStructures Generator Commit Statement Prove Verify Spec SpecVerify SpecHide SpecBij Complete CapLemmas ExistProps BijStages Concrete Concrete4 Concrete7.
From Verif Require Import Ark SpecArk SpecArkBij ArkRel ArkLemmas ArkTransfer ArkBij Concrete13 Concrete25 Concrete27 Concrete28.
Set Implicit Arguments.
Unset Strict Implicit.
Unset Printing Implicit Defensive.
Import GRing.Theory.
Local Open Scope ring_scope.

Theorem C99_ppe_ark : forall (E : pairing) (A : ark (Fr E)) (r1 : repr (G1 E) (C1 A)) (r2 : repr (G2 E) (C2 A)) (rt : GT E -> out A -> Prop)
  sch sch' (q : PPE E) f (X : seq (G1 E)) (Y : seq (G2 E)) a b crs d p p' (pf : EquProof E), implements r1 r2 rt ->
  bilinear E -> nondegenerate E -> cyclic (G1 E) -> cyclic (G2 E) -> valid_sched sch -> valid_sched sch' ->
  canonical r1 -> canonical r2 -> rppe r1 r2 rt q f -> rseq (ra r1) X a -> rseq (ra r2) Y b -> rcrs r1 r2 rt crs d -> rcproof r1 r2 p p' ->
  hiding_crs crs -> proper_crs crs -> (0 < size X)%N -> (0 < size Y)%N -> ppe_wf q (size X) (size Y) -> ppe_holds q X Y ->
  size (coms (xcoms p)) = size X -> size (coms (ycoms p)) = size Y -> equ_proofs p = [:: pf] ->
  equ_type pf = PairingProduct -> size (pi pf) = 2%N -> size (theta pf) = 2%N ->
  (ark_ppe_verify sch' f p' d = Ok true <->
   exists! t : (2 * size X + (2 * size Y + 4)).-tuple (Fr E),
     ark_gives (fun R s => ark_ppe_commit_and_prove (R := R) sch f a b d s) p' t).
Proof. move=> E A r1 r2 rt sch sch' q f X Y a b crs d p p' pf I; exact: (k_C99_ppe_ark I). Qed.
Print Assumptions C99_ppe_ark.

Example C99_ppe_ark_case : exists p, ark_ppe_verify fwd tppe p tcrsh = Ok true /\
  (exists! t : (2 * size xs0 + (2 * size ys0 + 4)).-tuple (Fr toy), ark_gives (fun R s => ark_ppe_commit_and_prove (R := R) bwd tppe (lift xs0) (lift ys0) tcrsh s) p t).
Proof.
pose R := @ark_tape toy tark; pose s := [:: n7 3; n7 1; n7 6] : ark_rst R.
have [c [s' [e acc]]] := ppe_cap_complete fwd_valid fwd_valid toy_bilinear (q := ppe0) (X := xs0) (Y := ys0) (s : rst (scalars_of 0 0 R)) isT isT ppe0_wf crsh_two ppe0_holds.
have [s1 [s2 [pf [e1 e2 e3 e4]]]] := proj1 (ppe_cap_steps _ _ _ _ _ _ _ _) e.
have [h1 [h2 h3]] := ppe_prove_sizes fwd_valid e3; have [sx _ _] := batch_made_G1 e1; have [sy _ _] := batch_made_G2 e2.
have := rppe_commit_and_prove tark_ok (@scalars_of_alike toy tark 0 0 R) fwd tppe_rel (lift_rel xs0) (lift_rel ys0) tcrsh_rel (erefl s).
rewrite e; case: (ark_ppe_commit_and_prove _ _ _ _ _ _) => [[w s3]|//] [/= hw _].
rewrite -(rppe_verify tark_ok fwd tppe_rel hw tcrsh_rel) in acc.
exists w; split=> //.
exact: ((@C99_ppe_ark toy tark trepr trepr _ bwd fwd ppe0 tppe xs0 ys0 (lift xs0) (lift ys0) crsh tcrsh c w pf tark_ok toy_bilinear toy_nondegenerate toy_cyclic toy_cyclic bwd_valid fwd_valid
  trepr_canonical trepr_canonical tppe_rel (lift_rel _) (lift_rel _) tcrsh_rel hw crsh_hid crsh_prop isT isT ppe0_wf ppe0_holds sx sy e4 h1 h2 h3).1 acc).
Qed.

Theorem C99_ms1_ark : forall (E : pairing) (A : ark (Fr E)) (r1 : repr (G1 E) (C1 A)) (r2 : repr (G2 E) (C2 A)) (rt : GT E -> out A -> Prop)
  sch sch' (q : MSMEG1 E) f (X : seq (G1 E)) (Y : seq (Fr E)) a crs d p p' (pf : EquProof E), implements r1 r2 rt ->
  bilinear E -> nondegenerate E -> cyclic (G1 E) -> cyclic (G2 E) -> valid_sched sch -> valid_sched sch' ->
  canonical r1 -> canonical r2 -> rms1 r1 q f -> rseq (ra r1) X a -> rcrs r1 r2 rt crs d -> rcproof r1 r2 p p' ->
  hiding_crs crs -> proper_crs crs -> (0 < size X)%N -> (0 < size Y)%N -> ms1_wf q (size X) (size Y) -> ms1_holds q X Y ->
  size (coms (xcoms p)) = size X -> size (coms (ycoms p)) = size Y -> equ_proofs p = [:: pf] ->
  equ_type pf = MultiScalarG1 -> size (pi pf) = 2%N -> size (theta pf) = 1%N ->
  ([/\ ark_ms1_verify sch' f p' d = Ok true & multiples (v1 crs) (coms (ycoms p))] <->
   exists! t : (2 * size X + (size Y + 2)).-tuple (Fr E),
     ark_gives (fun R s => ark_ms1_commit_and_prove (R := R) sch f a Y d s) p' t).
Proof. move=> E A r1 r2 rt sch sch' q f X Y a crs d p p' pf I; exact: (k_C99_ms1_ark I). Qed.
Print Assumptions C99_ms1_ark.

Example C99_ms1_ark_case : exists p, ark_ms1_verify fwd tms1 p tcrsh = Ok true /\
  (exists! t : (2 * size xs0 + (size ys0 + 2)).-tuple (Fr toy), ark_gives (fun R s => ark_ms1_commit_and_prove (R := R) bwd tms1 (lift xs0) ys0 tcrsh s) p t).
Proof.
pose R := @ark_tape toy tark; pose s := [:: n7 3; n7 1; n7 6] : ark_rst R.
have [c [s' [e acc]]] := ms1_cap_complete fwd_valid fwd_valid toy_bilinear (q := ms10) (X := xs0) (Y := ys0) (s : rst (scalars_of 0 0 R)) isT isT ms10_wf crsh_two ms10_holds.
have [s1 [s2 [pf [e1 e2 e3 e4]]]] := proj1 (ms1_cap_steps _ _ _ _ _ _ _ _) e.
have [h1 [h2 h3]] := ms1_prove_sizes fwd_valid e3; have [sx _ _] := batch_made_G1 e1; have [sy _ _] := batch_made_B2 e2.
have := rms1_commit_and_prove tark_ok (@scalars_of_alike toy tark 0 0 R) fwd ys0 tms1_rel (lift_rel xs0) tcrsh_rel (erefl s).
rewrite e; case: (ark_ms1_commit_and_prove _ _ _ _ _ _) => [[w s3]|//] [/= hw _].
rewrite -(rms1_verify tark_ok fwd tms1_rel hw tcrsh_rel) in acc.
exists w; split=> //.
exact: ((@C99_ms1_ark toy tark trepr trepr _ bwd fwd ms10 tms1 xs0 ys0 (lift xs0) crsh tcrsh c w pf tark_ok toy_bilinear toy_nondegenerate toy_cyclic toy_cyclic bwd_valid fwd_valid
  trepr_canonical trepr_canonical tms1_rel (lift_rel _) tcrsh_rel hw crsh_hid crsh_prop isT isT ms10_wf ms10_holds sx sy e4 h1 h2 h3).1 (conj acc (mult_B2 crsh_hid e2))).
Qed.

Theorem C99_ms2_ark : forall (E : pairing) (A : ark (Fr E)) (r1 : repr (G1 E) (C1 A)) (r2 : repr (G2 E) (C2 A)) (rt : GT E -> out A -> Prop)
  sch sch' (q : MSMEG2 E) f (X : seq (Fr E)) (Y : seq (G2 E)) b crs d p p' (pf : EquProof E), implements r1 r2 rt ->
  bilinear E -> nondegenerate E -> cyclic (G1 E) -> cyclic (G2 E) -> valid_sched sch -> valid_sched sch' ->
  canonical r1 -> canonical r2 -> rms2 r2 q f -> rseq (ra r2) Y b -> rcrs r1 r2 rt crs d -> rcproof r1 r2 p p' ->
  hiding_crs crs -> proper_crs crs -> (0 < size X)%N -> (0 < size Y)%N -> ms2_wf q (size X) (size Y) -> ms2_holds q X Y ->
  size (coms (xcoms p)) = size X -> size (coms (ycoms p)) = size Y -> equ_proofs p = [:: pf] ->
  equ_type pf = MultiScalarG2 -> size (pi pf) = 1%N -> size (theta pf) = 2%N ->
  ([/\ ark_ms2_verify sch' f p' d = Ok true & multiples (u1 crs) (coms (xcoms p))] <->
   exists! t : (size X + (2 * size Y + 2)).-tuple (Fr E),
     ark_gives (fun R s => ark_ms2_commit_and_prove (R := R) sch f X b d s) p' t).
Proof. move=> E A r1 r2 rt sch sch' q f X Y b crs d p p' pf I; exact: (k_C99_ms2_ark I). Qed.
Print Assumptions C99_ms2_ark.

Example C99_ms2_ark_case : exists p, ark_ms2_verify fwd tms2 p tcrsh = Ok true /\
  (exists! t : (size xs0 + (2 * size ys0 + 2)).-tuple (Fr toy), ark_gives (fun R s => ark_ms2_commit_and_prove (R := R) bwd tms2 xs0 (lift ys0) tcrsh s) p t).
Proof.
pose R := @ark_tape toy tark; pose s := [:: n7 3; n7 1; n7 6] : ark_rst R.
have [c [s' [e acc]]] := ms2_cap_complete fwd_valid fwd_valid toy_bilinear (q := ms20) (X := xs0) (Y := ys0) (s : rst (scalars_of 0 0 R)) isT isT ms20_wf crsh_two ms20_holds.
have [s1 [s2 [pf [e1 e2 e3 e4]]]] := proj1 (ms2_cap_steps _ _ _ _ _ _ _ _) e.
have [h1 [h2 h3]] := ms2_prove_sizes fwd_valid e3; have [sx _ _] := batch_made_B1 e1; have [sy _ _] := batch_made_G2 e2.
have := rms2_commit_and_prove tark_ok (@scalars_of_alike toy tark 0 0 R) fwd xs0 tms2_rel (lift_rel ys0) tcrsh_rel (erefl s).
rewrite e; case: (ark_ms2_commit_and_prove _ _ _ _ _ _) => [[w s3]|//] [/= hw _].
rewrite -(rms2_verify tark_ok fwd tms2_rel hw tcrsh_rel) in acc.
exists w; split=> //.
exact: ((@C99_ms2_ark toy tark trepr trepr _ bwd fwd ms20 tms2 xs0 ys0 (lift ys0) crsh tcrsh c w pf tark_ok toy_bilinear toy_nondegenerate toy_cyclic toy_cyclic bwd_valid fwd_valid
  trepr_canonical trepr_canonical tms2_rel (lift_rel _) tcrsh_rel hw crsh_hid crsh_prop isT isT ms20_wf ms20_holds sx sy e4 h1 h2 h3).1 (conj acc (mult_B1 crsh_hid e1))).
Qed.

Theorem C99_quad_ark : forall (E : pairing) (A : ark (Fr E)) (r1 : repr (G1 E) (C1 A)) (r2 : repr (G2 E) (C2 A)) (rt : GT E -> out A -> Prop)
  sch sch' (q : QuadEqu E) f (X : seq (Fr E)) (Y : seq (Fr E)) crs d p p' (pf : EquProof E), implements r1 r2 rt ->
  bilinear E -> nondegenerate E -> cyclic (G1 E) -> cyclic (G2 E) -> valid_sched sch -> valid_sched sch' ->
  canonical r1 -> canonical r2 -> rquad q f -> rcrs r1 r2 rt crs d -> rcproof r1 r2 p p' ->
  hiding_crs crs -> proper_crs crs -> (0 < size X)%N -> (0 < size Y)%N -> quad_wf q (size X) (size Y) -> quad_holds q X Y ->
  size (coms (xcoms p)) = size X -> size (coms (ycoms p)) = size Y -> equ_proofs p = [:: pf] ->
  equ_type pf = Quadratic -> size (pi pf) = 1%N -> size (theta pf) = 1%N ->
  ([/\ ark_quad_verify sch' f p' d = Ok true, multiples (u1 crs) (coms (xcoms p)) & multiples (v1 crs) (coms (ycoms p))] <->
   exists! t : (size X + (size Y + 1)).-tuple (Fr E),
     ark_gives (fun R s => ark_quad_commit_and_prove (R := R) sch f X Y d s) p' t).
Proof. move=> E A r1 r2 rt sch sch' q f X Y crs d p p' pf I; exact: (k_C99_quad_ark I). Qed.
Print Assumptions C99_quad_ark.

Example C99_quad_ark_case : exists p, ark_quad_verify fwd tquad p tcrsh = Ok true /\
  (exists! t : (size xs0 + (size ys0 + 1)).-tuple (Fr toy), ark_gives (fun R s => ark_quad_commit_and_prove (R := R) bwd tquad xs0 ys0 tcrsh s) p t).
Proof.
pose R := @ark_tape toy tark; pose s := [:: n7 3; n7 1; n7 6] : ark_rst R.
have [c [s' [e acc]]] := quad_cap_complete fwd_valid fwd_valid toy_bilinear (q := quad0) (X := xs0) (Y := ys0) (s : rst (scalars_of 0 0 R)) isT isT quad0_wf crsh_two quad0_holds.
have [s1 [s2 [pf [e1 e2 e3 e4]]]] := proj1 (quad_cap_steps _ _ _ _ _ _ _ _) e.
have [h1 [h2 h3]] := quad_prove_sizes fwd_valid e3; have [sx _ _] := batch_made_B1 e1; have [sy _ _] := batch_made_B2 e2.
have := rquad_commit_and_prove tark_ok (@scalars_of_alike toy tark 0 0 R) fwd xs0 ys0 tquad_rel tcrsh_rel (erefl s).
rewrite e; case: (ark_quad_commit_and_prove _ _ _ _ _ _) => [[w s3]|//] [/= hw _].
rewrite -(rquad_verify tark_ok fwd tquad_rel hw tcrsh_rel) in acc.
exists w; split=> //.
exact: ((@C99_quad_ark toy tark trepr trepr _ bwd fwd quad0 tquad xs0 ys0 crsh tcrsh c w pf tark_ok toy_bilinear toy_nondegenerate toy_cyclic toy_cyclic bwd_valid fwd_valid
  trepr_canonical trepr_canonical tquad_rel tcrsh_rel hw crsh_hid crsh_prop isT isT quad0_wf quad0_holds sx sy e4 h1 h2 h3).1 (And3 acc (mult_B1 crsh_hid e1) (mult_B2 crsh_hid e2))).
Qed.
