(** Specifications for values that are sent as bytes, over affine points. *)
From mathcomp Require Import all_ssreflect all_algebra.
From Coq Require Import Strings.Byte.
From Verif Require Import Base Group DataStructures Generator Commit Statement Prove Verify Spec Codec SpecCodec Ark SpecArk ArkCodec.
Set Implicit Arguments.
Unset Strict Implicit.
Unset Printing Implicit Defensive.
Import GRing.Theory.
Local Open Scope ring_scope.

(** The values in [D], and no others, are written, read back and pass validation. *)
Definition reads_members {T} (D : T -> Prop) (c : codec T) : Prop :=
  [/\ reads_back D c, accepts D c & validates D c].

(** What is assumed of the element types: validation accepts the points that
    represent group elements, and no others; without validation other points
    may be read. *)
Record transports (E : pairing) (A : ark (Fr E)) (r1 : repr (G1 E) (C1 A)) (r2 : repr (G2 E) (C2 A))
  (rt : GT E -> out A -> Prop) (cs : ark_codecs A) : Prop := Transports {
  tr_fr : good_codec (ac_fr cs);
  tr_c1 : reads_members (fun a => exists x, ra r1 x a) (ac_c1 cs);
  tr_c2 : reads_members (fun a => exists x, ra r2 x a) (ac_c2 cs);
  tr_out : reads_members (fun a => exists x, rt x a) (ac_out cs)
}.

Section Fits.
Context {F : fieldType} {A : ark F}.
(** The vectors of a value have lengths that a [u64] can hold. *)
Definition ark_crs_fits (x : ark_CRS A) : Prop := short (ark_crs_u x) /\ short (ark_crs_v x).
Definition ark_commit1_fits (x : ark_Commit1 A) : Prop := short (ark_coms x) /\ short_mat (ark_crand x).
Definition ark_commit2_fits (x : ark_Commit2 A) : Prop := short (ark_coms x) /\ short_mat (ark_crand x).
Definition ark_equproof_fits (x : ark_EquProof A) : Prop := short (ark_pi x) /\ short (ark_theta x) /\ short_mat (ark_pf_rand x).
Definition ark_ppe_fits (x : ark_PPE A) : Prop := short (ark_ppe_a x) /\ short (ark_ppe_b x) /\ short_mat (ark_ppe_gamma x).
Definition ark_ms1_fits (x : ark_MSMEG1 A) : Prop := short (ark_ms1_a x) /\ short (ark_ms1_b x) /\ short_mat (ark_ms1_gamma x).
Definition ark_ms2_fits (x : ark_MSMEG2 A) : Prop := short (ark_ms2_a x) /\ short (ark_ms2_b x) /\ short_mat (ark_ms2_gamma x).
Definition ark_quad_fits (x : ark_QuadEqu F) : Prop := short (ark_quad_a x) /\ short (ark_quad_b x) /\ short_mat (ark_quad_gamma x).
End Fits.

Section Wire.
Context {F : fieldType} {A : ark F} (cs : ark_codecs A).
(** A prover sends the commitments and one proof. *)
Definition ark_send (m : Compress) (p : ark_CProof A) : seq byte :=
  ser (ark_commit1_codec cs) m (ark_xcoms p) ++ ser (ark_commit2_codec cs) m (ark_ycoms p) ++
  flatten [seq ser (ark_equproof_codec cs) m f | f <- ark_equ_proofs p].
(** A verifier reads them. *)
Definition ark_read (m : Compress) (v : Validate) (bs : seq byte) : dres (ark_CProof A) :=
  dbind (de (ark_commit1_codec cs) m v bs) (fun cx r =>
  dbind (de (ark_commit2_codec cs) m v r) (fun cy r =>
  dbind (de (ark_equproof_codec cs) m v r) (fun pf r => DOk (ark_mkCProof cx cy [:: pf]) r))).
(** It verifies what it has read and expects nothing to follow. *)
Definition ark_check (verify : ark_CProof A -> res bool) (m : Compress) (v : Validate) (bs : seq byte) : option (res bool) :=
  if ark_read m v bs is DOk p [::] then Some (verify p) else None.
End Wire.
