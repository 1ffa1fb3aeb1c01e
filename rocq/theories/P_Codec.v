(** C15 (bytes), C39-C43, C51, C52: serialization. *)
From mathcomp Require Import all_ssreflect all_algebra.
From Coq Require Import Strings.Byte.
From Verif Require Import Base Group DataStructures Generator Commit Statement Prove Verify Codec Spec SpecCodec.
From Verif Require Import Concrete Concrete2 Concrete3 MatInst CodecLemmas CodecProps.
Set Implicit Arguments.
Unset Strict Implicit.
Unset Printing Implicit Defensive.
Import GRing.Theory.
Local Open Scope ring_scope.

(** C39: the encoding of an equation type. *)
Theorem C39_bytes : forall m t, ser equtype_codec m t = lay_tag t.
Proof. exact: equtype_lay. Qed.
Print Assumptions C39_bytes.

Theorem C39_reads_back : reads_back any equtype_codec.
Proof. exact: equtype_back. Qed.
Print Assumptions C39_reads_back.

Theorem C39_canonical : canonical equtype_codec.
Proof. exact: equtype_canon. Qed.
Print Assumptions C39_canonical.

Theorem C39_rejects : forall m v b r, (3 < to_nat b)%N -> de equtype_codec m v (b :: r) = DErr InvalidData.
Proof. exact: equtype_bad. Qed.
Print Assumptions C39_rejects.

Example C39_rejects_case := @C39_rejects Yes VYes xc8 [:: x01] isT.

Theorem C39_empty : forall m v, de equtype_codec m v [::] = DErr IoError.
Proof. exact: equtype_empty. Qed.
Print Assumptions C39_empty.

Theorem C39_size : forall m t, ssize equtype_codec m t = 1%N /\ size (ser equtype_codec m t) = 1%N.
Proof. exact: equtype_one. Qed.
Print Assumptions C39_size.

Example C39_case : ser equtype_codec No Quadratic = [:: x03] /\ de equtype_codec Yes VYes [:: x02; xff] = DOk MultiScalarG2 [:: xff]
  /\ de equtype_codec Yes VYes [:: x04] = DErr InvalidData.
Proof.
by [].
Qed.

(** C40: what was written is read back. *)
Theorem C40_com1 : forall (E : pairing) (cs : codecs E), good_codec (c_g1 cs) ->
  reads_back any (com1_codec cs).
Proof. exact: @com1_back. Qed.
Print Assumptions C40_com1.

Example C40_com1_case : exists bs, ser (com1_codec (toys predT)) Yes ((n7 3, n7 5) : Com1 toy) = bs /\ (1 < size bs)%N /\
  de (com1_codec (toys predT)) Yes VYes (bs ++ [:: xff]) = DOk ((n7 3, n7 5) : Com1 toy) [:: xff].
Proof.
exists (ser (com1_codec (toys predT)) Yes ((n7 3, n7 5) : Com1 toy)); split; [by []|split; [by []|]].
exact: (@C40_com1 toy (toys predT) (@toy_back predT (fun _ => isT)) Yes VYes _ _ Logic.I).
Qed.

Theorem C40_com2 : forall (E : pairing) (cs : codecs E), good_codec (c_g2 cs) ->
  reads_back any (com2_codec cs).
Proof. exact: @com2_back. Qed.
Print Assumptions C40_com2.

Example C40_com2_case : exists bs, ser (com2_codec (toys predT)) Yes ((n7 4, n7 0) : Com2 toy) = bs /\ (1 < size bs)%N /\
  de (com2_codec (toys predT)) Yes VYes (bs ++ [:: xff]) = DOk ((n7 4, n7 0) : Com2 toy) [:: xff].
Proof.
exists (ser (com2_codec (toys predT)) Yes ((n7 4, n7 0) : Com2 toy)); split; [by []|split; [by []|]].
exact: (@C40_com2 toy (toys predT) (@toy_back predT (fun _ => isT)) Yes VYes _ _ Logic.I).
Qed.

Theorem C40_crs : forall (E : pairing) (cs : codecs E), elements_ok cs good_codec ->
  reads_back crs_fits (crs_codec cs).
Proof. exact: @crs_back. Qed.
Print Assumptions C40_crs.

Example C40_crs_case : exists bs, ser (crs_codec (toys predT)) Yes crs0 = bs /\ (1 < size bs)%N /\
  de (crs_codec (toys predT)) Yes VYes (bs ++ [:: xff]) = DOk crs0 [:: xff].
Proof.
exists (ser (crs_codec (toys predT)) Yes crs0); split; [by []|split; [by []|]].
exact: (@C40_crs toy (toys predT) toys_good Yes VYes _ _ crs_case_fits).
Qed.

Theorem C40_commit1 : forall (E : pairing) (cs : codecs E), elements_ok cs good_codec ->
  reads_back commit1_fits (commit1_codec cs).
Proof. exact: @commit1_back. Qed.
Print Assumptions C40_commit1.

Example C40_commit1_case : exists bs, ser (commit1_codec (toys predT)) Yes (xcoms ppe_p0) = bs /\ (1 < size bs)%N /\
  de (commit1_codec (toys predT)) Yes VYes (bs ++ [:: xff]) = DOk (xcoms ppe_p0) [:: xff].
Proof.
exists (ser (commit1_codec (toys predT)) Yes (xcoms ppe_p0)); split; [by []|split; [by []|]].
exact: (@C40_commit1 toy (toys predT) toys_good Yes VYes _ _ commit1_case_fits).
Qed.

Theorem C40_commit2 : forall (E : pairing) (cs : codecs E), elements_ok cs good_codec ->
  reads_back commit2_fits (commit2_codec cs).
Proof. exact: @commit2_back. Qed.
Print Assumptions C40_commit2.

Example C40_commit2_case : exists bs, ser (commit2_codec (toys predT)) Yes (ycoms ppe_p0) = bs /\ (1 < size bs)%N /\
  de (commit2_codec (toys predT)) Yes VYes (bs ++ [:: xff]) = DOk (ycoms ppe_p0) [:: xff].
Proof.
exists (ser (commit2_codec (toys predT)) Yes (ycoms ppe_p0)); split; [by []|split; [by []|]].
exact: (@C40_commit2 toy (toys predT) toys_good Yes VYes _ _ commit2_case_fits).
Qed.

Theorem C40_equproof : forall (E : pairing) (cs : codecs E), elements_ok cs good_codec ->
  reads_back equproof_fits (equproof_codec cs).
Proof. exact: @equproof_back. Qed.
Print Assumptions C40_equproof.

Example C40_equproof_case : exists bs, ser (equproof_codec (toys predT)) Yes (pf_of ppe_p0) = bs /\ (1 < size bs)%N /\
  de (equproof_codec (toys predT)) Yes VYes (bs ++ [:: xff]) = DOk (pf_of ppe_p0) [:: xff].
Proof.
exists (ser (equproof_codec (toys predT)) Yes (pf_of ppe_p0)); split; [by []|split; [by []|]].
exact: (@C40_equproof toy (toys predT) toys_good Yes VYes _ _ equproof_case_fits).
Qed.

Theorem C40_ppe : forall (E : pairing) (cs : codecs E), elements_ok cs good_codec ->
  reads_back ppe_fits (ppe_codec cs).
Proof. exact: @ppe_back. Qed.
Print Assumptions C40_ppe.

Example C40_ppe_case : exists bs, ser (ppe_codec (toys predT)) Yes ppe0 = bs /\ (1 < size bs)%N /\
  de (ppe_codec (toys predT)) Yes VYes (bs ++ [:: xff]) = DOk ppe0 [:: xff].
Proof.
exists (ser (ppe_codec (toys predT)) Yes ppe0); split; [by []|split; [by []|]].
exact: (@C40_ppe toy (toys predT) toys_good Yes VYes _ _ ppe_case_fits).
Qed.

Theorem C40_ms1 : forall (E : pairing) (cs : codecs E), elements_ok cs good_codec ->
  reads_back ms1_fits (ms1_codec cs).
Proof. exact: @ms1_back. Qed.
Print Assumptions C40_ms1.

Example C40_ms1_case : exists bs, ser (ms1_codec (toys predT)) Yes ms10 = bs /\ (1 < size bs)%N /\
  de (ms1_codec (toys predT)) Yes VYes (bs ++ [:: xff]) = DOk ms10 [:: xff].
Proof.
exists (ser (ms1_codec (toys predT)) Yes ms10); split; [by []|split; [by []|]].
exact: (@C40_ms1 toy (toys predT) toys_good Yes VYes _ _ ms1_case_fits).
Qed.

Theorem C40_ms2 : forall (E : pairing) (cs : codecs E), elements_ok cs good_codec ->
  reads_back ms2_fits (ms2_codec cs).
Proof. exact: @ms2_back. Qed.
Print Assumptions C40_ms2.

Example C40_ms2_case : exists bs, ser (ms2_codec (toys predT)) Yes ms20 = bs /\ (1 < size bs)%N /\
  de (ms2_codec (toys predT)) Yes VYes (bs ++ [:: xff]) = DOk ms20 [:: xff].
Proof.
exists (ser (ms2_codec (toys predT)) Yes ms20); split; [by []|split; [by []|]].
exact: (@C40_ms2 toy (toys predT) toys_good Yes VYes _ _ ms2_case_fits).
Qed.

Theorem C40_quad : forall (E : pairing) (cs : codecs E), elements_ok cs good_codec ->
  reads_back quad_fits (quad_codec cs).
Proof. exact: @quad_back. Qed.
Print Assumptions C40_quad.

Example C40_quad_case : exists bs, ser (quad_codec (toys predT)) Yes quad0 = bs /\ (1 < size bs)%N /\
  de (quad_codec (toys predT)) Yes VYes (bs ++ [:: xff]) = DOk quad0 [:: xff].
Proof.
exists (ser (quad_codec (toys predT)) Yes quad0); split; [by []|split; [by []|]].
exact: (@C40_quad toy (toys predT) toys_good Yes VYes _ _ quad_case_fits).
Qed.

(** C41: one encoding per value, and no proper prefix of an encoding is read. *)
Theorem C41_com1_canonical : forall (E : pairing) (cs : codecs E), canonical (c_g1 cs) ->
  canonical (com1_codec cs).
Proof. exact: @com1_canon. Qed.
Print Assumptions C41_com1_canonical.

Example C41_com1_canonical_case := @C41_com1_canonical toy (toys predT) (@toy_canon predT).

Theorem C41_com1_one : forall (E : pairing) (cs : codecs E), canonical (c_g1 cs) ->
  one_encoding (com1_codec cs).
Proof. exact: @com1_one. Qed.
Print Assumptions C41_com1_one.

Example C41_com1_one_case := @C41_com1_one toy (toys predT) (@toy_canon predT).

Theorem C41_com1_prefix : forall (E : pairing) (cs : codecs E), canonical (c_g1 cs) ->
  good_codec (c_g1 cs) -> prefix_free any (com1_codec cs).
Proof. exact: @com1_prefix. Qed.
Print Assumptions C41_com1_prefix.

Example C41_com1_case : exists bs, ser (com1_codec (toys predT)) No ((n7 3, n7 5) : Com1 toy) = bs /\ (1 < size bs)%N /\
  (forall m v y r t, m = No -> bs = take (size bs).-1 bs ++ t -> de (com1_codec (toys predT)) m v (take (size bs).-1 bs) = DOk y r -> t = [::]).
Proof.
exists (ser (com1_codec (toys predT)) No ((n7 3, n7 5) : Com1 toy)); split; [by []|split; [by []|]] => m v y r t -> e h.
exact: (proj1 (@C41_com1_prefix toy (toys predT) (@toy_canon predT) (@toy_back predT (fun _ => isT)) No v ((n7 3, n7 5) : Com1 toy) _ t y r Logic.I e h)).
Qed.

Theorem C41_com2_canonical : forall (E : pairing) (cs : codecs E), canonical (c_g2 cs) ->
  canonical (com2_codec cs).
Proof. exact: @com2_canon. Qed.
Print Assumptions C41_com2_canonical.

Example C41_com2_canonical_case := @C41_com2_canonical toy (toys predT) (@toy_canon predT).

Theorem C41_com2_one : forall (E : pairing) (cs : codecs E), canonical (c_g2 cs) ->
  one_encoding (com2_codec cs).
Proof. exact: @com2_one. Qed.
Print Assumptions C41_com2_one.

Example C41_com2_one_case := @C41_com2_one toy (toys predT) (@toy_canon predT).

Theorem C41_com2_prefix : forall (E : pairing) (cs : codecs E), canonical (c_g2 cs) ->
  good_codec (c_g2 cs) -> prefix_free any (com2_codec cs).
Proof. exact: @com2_prefix. Qed.
Print Assumptions C41_com2_prefix.

Example C41_com2_case : exists bs, ser (com2_codec (toys predT)) No ((n7 4, n7 0) : Com2 toy) = bs /\ (1 < size bs)%N /\
  (forall m v y r t, m = No -> bs = take (size bs).-1 bs ++ t -> de (com2_codec (toys predT)) m v (take (size bs).-1 bs) = DOk y r -> t = [::]).
Proof.
exists (ser (com2_codec (toys predT)) No ((n7 4, n7 0) : Com2 toy)); split; [by []|split; [by []|]] => m v y r t -> e h.
exact: (proj1 (@C41_com2_prefix toy (toys predT) (@toy_canon predT) (@toy_back predT (fun _ => isT)) No v ((n7 4, n7 0) : Com2 toy) _ t y r Logic.I e h)).
Qed.

Theorem C41_crs_canonical : forall (E : pairing) (cs : codecs E), elements_ok cs (fun T c => canonical c) ->
  canonical (crs_codec cs).
Proof. exact: @crs_canon. Qed.
Print Assumptions C41_crs_canonical.

Example C41_crs_canonical_case := @C41_crs_canonical toy (toys predT) (toys_canon predT).

Theorem C41_crs_one : forall (E : pairing) (cs : codecs E), elements_ok cs (fun T c => canonical c) ->
  one_encoding (crs_codec cs).
Proof. exact: @crs_one. Qed.
Print Assumptions C41_crs_one.

Example C41_crs_one_case := @C41_crs_one toy (toys predT) (toys_canon predT).

Theorem C41_crs_prefix : forall (E : pairing) (cs : codecs E), elements_ok cs (fun T c => canonical c) ->
  elements_ok cs good_codec -> prefix_free crs_fits (crs_codec cs).
Proof. exact: @crs_prefix. Qed.
Print Assumptions C41_crs_prefix.

Example C41_crs_case : exists bs, ser (crs_codec (toys predT)) No crs0 = bs /\ (1 < size bs)%N /\
  (forall m v y r t, m = No -> bs = take (size bs).-1 bs ++ t -> de (crs_codec (toys predT)) m v (take (size bs).-1 bs) = DOk y r -> t = [::]).
Proof.
exists (ser (crs_codec (toys predT)) No crs0); split; [by []|split; [by []|]] => m v y r t -> e h.
exact: (proj1 (@C41_crs_prefix toy (toys predT) (toys_canon predT) toys_good No v crs0 _ t y r crs_case_fits e h)).
Qed.

Theorem C41_commit1_canonical : forall (E : pairing) (cs : codecs E), elements_ok cs (fun T c => canonical c) ->
  canonical (commit1_codec cs).
Proof. exact: @commit1_canon. Qed.
Print Assumptions C41_commit1_canonical.

Example C41_commit1_canonical_case := @C41_commit1_canonical toy (toys predT) (toys_canon predT).

Theorem C41_commit1_one : forall (E : pairing) (cs : codecs E), elements_ok cs (fun T c => canonical c) ->
  one_encoding (commit1_codec cs).
Proof. exact: @commit1_one. Qed.
Print Assumptions C41_commit1_one.

Example C41_commit1_one_case := @C41_commit1_one toy (toys predT) (toys_canon predT).

Theorem C41_commit1_prefix : forall (E : pairing) (cs : codecs E), elements_ok cs (fun T c => canonical c) ->
  elements_ok cs good_codec -> prefix_free commit1_fits (commit1_codec cs).
Proof. exact: @commit1_prefix. Qed.
Print Assumptions C41_commit1_prefix.

Example C41_commit1_case : exists bs, ser (commit1_codec (toys predT)) No (xcoms ppe_p0) = bs /\ (1 < size bs)%N /\
  (forall m v y r t, m = No -> bs = take (size bs).-1 bs ++ t -> de (commit1_codec (toys predT)) m v (take (size bs).-1 bs) = DOk y r -> t = [::]).
Proof.
exists (ser (commit1_codec (toys predT)) No (xcoms ppe_p0)); split; [by []|split; [by []|]] => m v y r t -> e h.
exact: (proj1 (@C41_commit1_prefix toy (toys predT) (toys_canon predT) toys_good No v (xcoms ppe_p0) _ t y r commit1_case_fits e h)).
Qed.

Theorem C41_commit2_canonical : forall (E : pairing) (cs : codecs E), elements_ok cs (fun T c => canonical c) ->
  canonical (commit2_codec cs).
Proof. exact: @commit2_canon. Qed.
Print Assumptions C41_commit2_canonical.

Example C41_commit2_canonical_case := @C41_commit2_canonical toy (toys predT) (toys_canon predT).

Theorem C41_commit2_one : forall (E : pairing) (cs : codecs E), elements_ok cs (fun T c => canonical c) ->
  one_encoding (commit2_codec cs).
Proof. exact: @commit2_one. Qed.
Print Assumptions C41_commit2_one.

Example C41_commit2_one_case := @C41_commit2_one toy (toys predT) (toys_canon predT).

Theorem C41_commit2_prefix : forall (E : pairing) (cs : codecs E), elements_ok cs (fun T c => canonical c) ->
  elements_ok cs good_codec -> prefix_free commit2_fits (commit2_codec cs).
Proof. exact: @commit2_prefix. Qed.
Print Assumptions C41_commit2_prefix.

Example C41_commit2_case : exists bs, ser (commit2_codec (toys predT)) No (ycoms ppe_p0) = bs /\ (1 < size bs)%N /\
  (forall m v y r t, m = No -> bs = take (size bs).-1 bs ++ t -> de (commit2_codec (toys predT)) m v (take (size bs).-1 bs) = DOk y r -> t = [::]).
Proof.
exists (ser (commit2_codec (toys predT)) No (ycoms ppe_p0)); split; [by []|split; [by []|]] => m v y r t -> e h.
exact: (proj1 (@C41_commit2_prefix toy (toys predT) (toys_canon predT) toys_good No v (ycoms ppe_p0) _ t y r commit2_case_fits e h)).
Qed.

Theorem C41_equproof_canonical : forall (E : pairing) (cs : codecs E), elements_ok cs (fun T c => canonical c) ->
  canonical (equproof_codec cs).
Proof. exact: @equproof_canon. Qed.
Print Assumptions C41_equproof_canonical.

Example C41_equproof_canonical_case := @C41_equproof_canonical toy (toys predT) (toys_canon predT).

Theorem C41_equproof_one : forall (E : pairing) (cs : codecs E), elements_ok cs (fun T c => canonical c) ->
  one_encoding (equproof_codec cs).
Proof. exact: @equproof_one. Qed.
Print Assumptions C41_equproof_one.

Example C41_equproof_one_case := @C41_equproof_one toy (toys predT) (toys_canon predT).

Theorem C41_equproof_prefix : forall (E : pairing) (cs : codecs E), elements_ok cs (fun T c => canonical c) ->
  elements_ok cs good_codec -> prefix_free equproof_fits (equproof_codec cs).
Proof. exact: @equproof_prefix. Qed.
Print Assumptions C41_equproof_prefix.

Example C41_equproof_case : exists bs, ser (equproof_codec (toys predT)) No (pf_of ppe_p0) = bs /\ (1 < size bs)%N /\
  (forall m v y r t, m = No -> bs = take (size bs).-1 bs ++ t -> de (equproof_codec (toys predT)) m v (take (size bs).-1 bs) = DOk y r -> t = [::]).
Proof.
exists (ser (equproof_codec (toys predT)) No (pf_of ppe_p0)); split; [by []|split; [by []|]] => m v y r t -> e h.
exact: (proj1 (@C41_equproof_prefix toy (toys predT) (toys_canon predT) toys_good No v (pf_of ppe_p0) _ t y r equproof_case_fits e h)).
Qed.

Theorem C41_ppe_canonical : forall (E : pairing) (cs : codecs E), elements_ok cs (fun T c => canonical c) ->
  canonical (ppe_codec cs).
Proof. exact: @ppe_canon. Qed.
Print Assumptions C41_ppe_canonical.

Example C41_ppe_canonical_case := @C41_ppe_canonical toy (toys predT) (toys_canon predT).

Theorem C41_ppe_one : forall (E : pairing) (cs : codecs E), elements_ok cs (fun T c => canonical c) ->
  one_encoding (ppe_codec cs).
Proof. exact: @ppe_one. Qed.
Print Assumptions C41_ppe_one.

Example C41_ppe_one_case := @C41_ppe_one toy (toys predT) (toys_canon predT).

Theorem C41_ppe_prefix : forall (E : pairing) (cs : codecs E), elements_ok cs (fun T c => canonical c) ->
  elements_ok cs good_codec -> prefix_free ppe_fits (ppe_codec cs).
Proof. exact: @ppe_prefix. Qed.
Print Assumptions C41_ppe_prefix.

Example C41_ppe_case : exists bs, ser (ppe_codec (toys predT)) No ppe0 = bs /\ (1 < size bs)%N /\
  (forall m v y r t, m = No -> bs = take (size bs).-1 bs ++ t -> de (ppe_codec (toys predT)) m v (take (size bs).-1 bs) = DOk y r -> t = [::]).
Proof.
exists (ser (ppe_codec (toys predT)) No ppe0); split; [by []|split; [by []|]] => m v y r t -> e h.
exact: (proj1 (@C41_ppe_prefix toy (toys predT) (toys_canon predT) toys_good No v ppe0 _ t y r ppe_case_fits e h)).
Qed.

Theorem C41_ms1_canonical : forall (E : pairing) (cs : codecs E), elements_ok cs (fun T c => canonical c) ->
  canonical (ms1_codec cs).
Proof. exact: @ms1_canon. Qed.
Print Assumptions C41_ms1_canonical.

Example C41_ms1_canonical_case := @C41_ms1_canonical toy (toys predT) (toys_canon predT).

Theorem C41_ms1_one : forall (E : pairing) (cs : codecs E), elements_ok cs (fun T c => canonical c) ->
  one_encoding (ms1_codec cs).
Proof. exact: @ms1_one. Qed.
Print Assumptions C41_ms1_one.

Example C41_ms1_one_case := @C41_ms1_one toy (toys predT) (toys_canon predT).

Theorem C41_ms1_prefix : forall (E : pairing) (cs : codecs E), elements_ok cs (fun T c => canonical c) ->
  elements_ok cs good_codec -> prefix_free ms1_fits (ms1_codec cs).
Proof. exact: @ms1_prefix. Qed.
Print Assumptions C41_ms1_prefix.

Example C41_ms1_case : exists bs, ser (ms1_codec (toys predT)) No ms10 = bs /\ (1 < size bs)%N /\
  (forall m v y r t, m = No -> bs = take (size bs).-1 bs ++ t -> de (ms1_codec (toys predT)) m v (take (size bs).-1 bs) = DOk y r -> t = [::]).
Proof.
exists (ser (ms1_codec (toys predT)) No ms10); split; [by []|split; [by []|]] => m v y r t -> e h.
exact: (proj1 (@C41_ms1_prefix toy (toys predT) (toys_canon predT) toys_good No v ms10 _ t y r ms1_case_fits e h)).
Qed.

Theorem C41_ms2_canonical : forall (E : pairing) (cs : codecs E), elements_ok cs (fun T c => canonical c) ->
  canonical (ms2_codec cs).
Proof. exact: @ms2_canon. Qed.
Print Assumptions C41_ms2_canonical.

Example C41_ms2_canonical_case := @C41_ms2_canonical toy (toys predT) (toys_canon predT).

Theorem C41_ms2_one : forall (E : pairing) (cs : codecs E), elements_ok cs (fun T c => canonical c) ->
  one_encoding (ms2_codec cs).
Proof. exact: @ms2_one. Qed.
Print Assumptions C41_ms2_one.

Example C41_ms2_one_case := @C41_ms2_one toy (toys predT) (toys_canon predT).

Theorem C41_ms2_prefix : forall (E : pairing) (cs : codecs E), elements_ok cs (fun T c => canonical c) ->
  elements_ok cs good_codec -> prefix_free ms2_fits (ms2_codec cs).
Proof. exact: @ms2_prefix. Qed.
Print Assumptions C41_ms2_prefix.

Example C41_ms2_case : exists bs, ser (ms2_codec (toys predT)) No ms20 = bs /\ (1 < size bs)%N /\
  (forall m v y r t, m = No -> bs = take (size bs).-1 bs ++ t -> de (ms2_codec (toys predT)) m v (take (size bs).-1 bs) = DOk y r -> t = [::]).
Proof.
exists (ser (ms2_codec (toys predT)) No ms20); split; [by []|split; [by []|]] => m v y r t -> e h.
exact: (proj1 (@C41_ms2_prefix toy (toys predT) (toys_canon predT) toys_good No v ms20 _ t y r ms2_case_fits e h)).
Qed.

Theorem C41_quad_canonical : forall (E : pairing) (cs : codecs E), elements_ok cs (fun T c => canonical c) ->
  canonical (quad_codec cs).
Proof. exact: @quad_canon. Qed.
Print Assumptions C41_quad_canonical.

Example C41_quad_canonical_case := @C41_quad_canonical toy (toys predT) (toys_canon predT).

Theorem C41_quad_one : forall (E : pairing) (cs : codecs E), elements_ok cs (fun T c => canonical c) ->
  one_encoding (quad_codec cs).
Proof. exact: @quad_one. Qed.
Print Assumptions C41_quad_one.

Example C41_quad_one_case := @C41_quad_one toy (toys predT) (toys_canon predT).

Theorem C41_quad_prefix : forall (E : pairing) (cs : codecs E), elements_ok cs (fun T c => canonical c) ->
  elements_ok cs good_codec -> prefix_free quad_fits (quad_codec cs).
Proof. exact: @quad_prefix. Qed.
Print Assumptions C41_quad_prefix.

Example C41_quad_case : exists bs, ser (quad_codec (toys predT)) No quad0 = bs /\ (1 < size bs)%N /\
  (forall m v y r t, m = No -> bs = take (size bs).-1 bs ++ t -> de (quad_codec (toys predT)) m v (take (size bs).-1 bs) = DOk y r -> t = [::]).
Proof.
exists (ser (quad_codec (toys predT)) No quad0); split; [by []|split; [by []|]] => m v y r t -> e h.
exact: (proj1 (@C41_quad_prefix toy (toys predT) (toys_canon predT) toys_good No v quad0 _ t y r quad_case_fits e h)).
Qed.

(** C42: the announced size is the number of bytes written. *)
Theorem C42_com1 : forall (E : pairing) (cs : codecs E), size_exact (c_g1 cs) ->
  size_exact (com1_codec cs).
Proof. exact: @com1_size. Qed.
Print Assumptions C42_com1.

Example C42_com1_case : size_exact (c_g1 (toys predT)) /\ ssize (com1_codec (toys predT)) Yes ((n7 3, n7 5) : Com1 toy) != ssize (com1_codec (toys predT)) No ((n7 3, n7 5) : Com1 toy).
Proof.
by split; [exact: (@toy_size predT)|].
Qed.

Theorem C42_com2 : forall (E : pairing) (cs : codecs E), size_exact (c_g2 cs) ->
  size_exact (com2_codec cs).
Proof. exact: @com2_size. Qed.
Print Assumptions C42_com2.

Example C42_com2_case : size_exact (c_g2 (toys predT)) /\ ssize (com2_codec (toys predT)) Yes ((n7 4, n7 0) : Com2 toy) != ssize (com2_codec (toys predT)) No ((n7 4, n7 0) : Com2 toy).
Proof.
by split; [exact: (@toy_size predT)|].
Qed.

Theorem C42_crs : forall (E : pairing) (cs : codecs E), elements_ok cs (fun T c => size_exact c) ->
  size_exact (crs_codec cs).
Proof. exact: @crs_size. Qed.
Print Assumptions C42_crs.

Example C42_crs_case : elements_ok (toys predT) (fun T c => size_exact c) /\ ssize (crs_codec (toys predT)) Yes crs0 != ssize (crs_codec (toys predT)) No crs0.
Proof.
by split; [exact: (toys_size predT)|].
Qed.

Theorem C42_commit1 : forall (E : pairing) (cs : codecs E), elements_ok cs (fun T c => size_exact c) ->
  size_exact (commit1_codec cs).
Proof. exact: @commit1_size. Qed.
Print Assumptions C42_commit1.

Example C42_commit1_case : elements_ok (toys predT) (fun T c => size_exact c) /\ ssize (commit1_codec (toys predT)) Yes (xcoms ppe_p0) != ssize (commit1_codec (toys predT)) No (xcoms ppe_p0).
Proof.
by split; [exact: (toys_size predT)|].
Qed.

Theorem C42_commit2 : forall (E : pairing) (cs : codecs E), elements_ok cs (fun T c => size_exact c) ->
  size_exact (commit2_codec cs).
Proof. exact: @commit2_size. Qed.
Print Assumptions C42_commit2.

Example C42_commit2_case : elements_ok (toys predT) (fun T c => size_exact c) /\ ssize (commit2_codec (toys predT)) Yes (ycoms ppe_p0) != ssize (commit2_codec (toys predT)) No (ycoms ppe_p0).
Proof.
by split; [exact: (toys_size predT)|].
Qed.

Theorem C42_equproof : forall (E : pairing) (cs : codecs E), elements_ok cs (fun T c => size_exact c) ->
  size_exact (equproof_codec cs).
Proof. exact: @equproof_size. Qed.
Print Assumptions C42_equproof.

Example C42_equproof_case : elements_ok (toys predT) (fun T c => size_exact c) /\ ssize (equproof_codec (toys predT)) Yes (pf_of ppe_p0) != ssize (equproof_codec (toys predT)) No (pf_of ppe_p0).
Proof.
by split; [exact: (toys_size predT)|].
Qed.

Theorem C42_ppe : forall (E : pairing) (cs : codecs E), elements_ok cs (fun T c => size_exact c) ->
  size_exact (ppe_codec cs).
Proof. exact: @ppe_size. Qed.
Print Assumptions C42_ppe.

Example C42_ppe_case : elements_ok (toys predT) (fun T c => size_exact c) /\ ssize (ppe_codec (toys predT)) Yes ppe0 != ssize (ppe_codec (toys predT)) No ppe0.
Proof.
by split; [exact: (toys_size predT)|].
Qed.

Theorem C42_ms1 : forall (E : pairing) (cs : codecs E), elements_ok cs (fun T c => size_exact c) ->
  size_exact (ms1_codec cs).
Proof. exact: @ms1_size. Qed.
Print Assumptions C42_ms1.

Example C42_ms1_case : elements_ok (toys predT) (fun T c => size_exact c) /\ ssize (ms1_codec (toys predT)) Yes ms10 != ssize (ms1_codec (toys predT)) No ms10.
Proof.
by split; [exact: (toys_size predT)|].
Qed.

Theorem C42_ms2 : forall (E : pairing) (cs : codecs E), elements_ok cs (fun T c => size_exact c) ->
  size_exact (ms2_codec cs).
Proof. exact: @ms2_size. Qed.
Print Assumptions C42_ms2.

Example C42_ms2_case : elements_ok (toys predT) (fun T c => size_exact c) /\ ssize (ms2_codec (toys predT)) Yes ms20 != ssize (ms2_codec (toys predT)) No ms20.
Proof.
by split; [exact: (toys_size predT)|].
Qed.

Theorem C42_quad : forall (E : pairing) (cs : codecs E), elements_ok cs (fun T c => size_exact c) ->
  size_exact (quad_codec cs).
Proof. exact: @quad_size. Qed.
Print Assumptions C42_quad.

Example C42_quad_case : elements_ok (toys predT) (fun T c => size_exact c) /\ ssize (quad_codec (toys predT)) Yes quad0 != ssize (quad_codec (toys predT)) No quad0.
Proof.
by split; [exact: (toys_size predT)|].
Qed.

(** C43: verification gives the same outcome after transport. *)
Theorem C43_ppe : forall (E : pairing) (cs : codecs E) (sch : sched) (m : Compress) (v : Validate)
  (q : PPE E) (crs : CRS E) (cx : Commit1 E) (cy : Commit2 E) (pf : EquProof E), elements_ok cs good_codec ->
  ppe_fits q -> crs_fits crs -> commit1_fits cx -> commit2_fits cy -> equproof_fits pf ->
  receive cs (ppe_codec cs) (ppe_verify sch) m v (sent cs (ppe_codec cs) m q crs cx cy pf)
  = DOk (ppe_verify sch q (mkCProof cx cy [:: pf]) crs) [::].
Proof. exact: @ppe_transport. Qed.
Print Assumptions C43_ppe.

Example C43_ppe_case : receive (toys predT) (ppe_codec (toys predT)) (ppe_verify fwd) No VYes
  (sent (toys predT) (ppe_codec (toys predT)) No ppe0 crs0 (xcoms ppe_p0) (ycoms ppe_p0) (pf_of ppe_p0)) = DOk (Ok true) [::].
Proof.
rewrite (@C43_ppe toy (toys predT) fwd No VYes _ _ _ _ _ toys_good ppe_case_fits crs_case_fits commit1_case_fits commit2_case_fits equproof_case_fits).
by congr DOk; exact: ppe_p0_ok.
Qed.

Theorem C43_ms1 : forall (E : pairing) (cs : codecs E) (sch : sched) (m : Compress) (v : Validate)
  (q : MSMEG1 E) (crs : CRS E) (cx : Commit1 E) (cy : Commit2 E) (pf : EquProof E), elements_ok cs good_codec ->
  ms1_fits q -> crs_fits crs -> commit1_fits cx -> commit2_fits cy -> equproof_fits pf ->
  receive cs (ms1_codec cs) (ms1_verify sch) m v (sent cs (ms1_codec cs) m q crs cx cy pf)
  = DOk (ms1_verify sch q (mkCProof cx cy [:: pf]) crs) [::].
Proof. exact: @ms1_transport. Qed.
Print Assumptions C43_ms1.

Example C43_ms1_case : receive (toys predT) (ms1_codec (toys predT)) (ms1_verify fwd) No VYes
  (sent (toys predT) (ms1_codec (toys predT)) No ms10 crs0 (xcoms ms1_p0) (ycoms ms1_p0) (pf_of ms1_p0)) = DOk (Ok true) [::].
Proof.
rewrite (@C43_ms1 toy (toys predT) fwd No VYes _ _ _ _ _ toys_good ms1_case_fits crs_case_fits commit1_ms1_case_fits commit2_ms1_case_fits equproof_ms1_case_fits).
by congr DOk; exact: ms1_p0_ok.
Qed.

Theorem C43_ms2 : forall (E : pairing) (cs : codecs E) (sch : sched) (m : Compress) (v : Validate)
  (q : MSMEG2 E) (crs : CRS E) (cx : Commit1 E) (cy : Commit2 E) (pf : EquProof E), elements_ok cs good_codec ->
  ms2_fits q -> crs_fits crs -> commit1_fits cx -> commit2_fits cy -> equproof_fits pf ->
  receive cs (ms2_codec cs) (ms2_verify sch) m v (sent cs (ms2_codec cs) m q crs cx cy pf)
  = DOk (ms2_verify sch q (mkCProof cx cy [:: pf]) crs) [::].
Proof. exact: @ms2_transport. Qed.
Print Assumptions C43_ms2.

Example C43_ms2_case : receive (toys predT) (ms2_codec (toys predT)) (ms2_verify fwd) No VYes
  (sent (toys predT) (ms2_codec (toys predT)) No ms20 crs0 (xcoms ms2_p0) (ycoms ms2_p0) (pf_of ms2_p0)) = DOk (Ok true) [::].
Proof.
rewrite (@C43_ms2 toy (toys predT) fwd No VYes _ _ _ _ _ toys_good ms2_case_fits crs_case_fits commit1_ms2_case_fits commit2_ms2_case_fits equproof_ms2_case_fits).
by congr DOk; exact: ms2_p0_ok.
Qed.

Theorem C43_quad : forall (E : pairing) (cs : codecs E) (sch : sched) (m : Compress) (v : Validate)
  (q : QuadEqu E) (crs : CRS E) (cx : Commit1 E) (cy : Commit2 E) (pf : EquProof E), elements_ok cs good_codec ->
  quad_fits q -> crs_fits crs -> commit1_fits cx -> commit2_fits cy -> equproof_fits pf ->
  receive cs (quad_codec cs) (quad_verify sch) m v (sent cs (quad_codec cs) m q crs cx cy pf)
  = DOk (quad_verify sch q (mkCProof cx cy [:: pf]) crs) [::].
Proof. exact: @quad_transport. Qed.
Print Assumptions C43_quad.

Example C43_quad_case : receive (toys predT) (quad_codec (toys predT)) (quad_verify fwd) No VYes
  (sent (toys predT) (quad_codec (toys predT)) No quad0 crs0 (xcoms quad_p0) (ycoms quad_p0) (pf_of quad_p0)) = DOk (Ok true) [::].
Proof.
rewrite (@C43_quad toy (toys predT) fwd No VYes _ _ _ _ _ toys_good quad_case_fits crs_case_fits commit1_quad_case_fits commit2_quad_case_fits equproof_quad_case_fits).
by congr DOk; exact: quad_p0_ok.
Qed.

(** C15 (refuted): the committed elements are computed from the bytes of the commitments and the reference string, under any key. *)
Theorem C15_G1_bytes_secret_refuted : forall (E : pairing) (cs : codecs E) (m : Compress), elements_ok cs good_codec ->
  exists recover : CRS E -> seq byte -> seq (G1 E),
  forall (R : rng E) (s s' : rst R) (crs : CRS E) (c : Commit1 E) (X : seq (G1 E)), short X ->
    batch_commit_G1 X crs s = Ok (c, s') -> recover crs (ser (commit1_codec cs) m c) = X.
Proof. exact: @G1_bytes. Qed.
Print Assumptions C15_G1_bytes_secret_refuted.

Example C15_G1_bytes_secret_refuted_case := @C15_G1_bytes_secret_refuted toy (toys predT) Yes toys_good.

Theorem C15_G2_bytes_secret_refuted : forall (E : pairing) (cs : codecs E) (m : Compress), elements_ok cs good_codec ->
  exists recover : CRS E -> seq byte -> seq (G2 E),
  forall (R : rng E) (s s' : rst R) (crs : CRS E) (c : Commit2 E) (X : seq (G2 E)), short X ->
    batch_commit_G2 X crs s = Ok (c, s') -> recover crs (ser (commit2_codec cs) m c) = X.
Proof. exact: @G2_bytes. Qed.
Print Assumptions C15_G2_bytes_secret_refuted.

Example C15_G2_bytes_secret_refuted_case := @C15_G2_bytes_secret_refuted toy (toys predT) Yes toys_good.

Example C15_bytes_case : short xs0 /\ exists c, batch_commit_G1 (E := toy) (R := ctr) xs0 crsh 3%N = Ok (c, 7%N).
Proof.
split; first by apply: shortP.
case e: (batch_commit_G1 (E := toy) (R := ctr) xs0 crsh 3%N) => [[c n]|//].
have <- : n = 7%N by case: e => _ <-.
by exists c.
Qed.

(** C51: reading with validation accepts only values all of whose elements are valid. *)
Theorem C51_com1 : forall (E : pairing) (cs : codecs E) (P : G1 E -> Prop), validates P (c_g1 cs) ->
  validates (com1_all P) (com1_codec cs).
Proof. exact: @com1_validates. Qed.
Print Assumptions C51_com1.

Example C51_com1_case := @C51_com1 toy (toys nonzero) nonzero (toy_validates nonzero).

Theorem C51_com2 : forall (E : pairing) (cs : codecs E) (P : G2 E -> Prop), validates P (c_g2 cs) ->
  validates (com2_all P) (com2_codec cs).
Proof. exact: @com2_validates. Qed.
Print Assumptions C51_com2.

Example C51_com2_case := @C51_com2 toy (toys nonzero) nonzero (toy_validates nonzero).

Theorem C51_crs : forall (E : pairing) (cs : codecs E) (PF : Fr E -> Prop) (P1 : G1 E -> Prop) (P2 : G2 E -> Prop)
  (PT : GT E -> Prop), validates PF (c_fr cs) -> validates P1 (c_g1 cs) -> validates P2 (c_g2 cs) -> validates PT (c_gt cs) ->
  validates (crs_all P1 P2 PT) (crs_codec cs).
Proof. exact: @crs_validates. Qed.
Print Assumptions C51_crs.

Example C51_crs_case := @C51_crs toy (toys nonzero) nonzero nonzero nonzero nonzero (toy_validates nonzero) (toy_validates nonzero) (toy_validates nonzero) (toy_validates nonzero).

Theorem C51_commit1 : forall (E : pairing) (cs : codecs E) (PF : Fr E -> Prop) (P1 : G1 E -> Prop) (P2 : G2 E -> Prop)
  (PT : GT E -> Prop), validates PF (c_fr cs) -> validates P1 (c_g1 cs) -> validates P2 (c_g2 cs) -> validates PT (c_gt cs) ->
  validates (commit1_all PF P1) (commit1_codec cs).
Proof. exact: @commit1_validates. Qed.
Print Assumptions C51_commit1.

Example C51_commit1_case := @C51_commit1 toy (toys nonzero) nonzero nonzero nonzero nonzero (toy_validates nonzero) (toy_validates nonzero) (toy_validates nonzero) (toy_validates nonzero).

Theorem C51_commit2 : forall (E : pairing) (cs : codecs E) (PF : Fr E -> Prop) (P1 : G1 E -> Prop) (P2 : G2 E -> Prop)
  (PT : GT E -> Prop), validates PF (c_fr cs) -> validates P1 (c_g1 cs) -> validates P2 (c_g2 cs) -> validates PT (c_gt cs) ->
  validates (commit2_all PF P2) (commit2_codec cs).
Proof. exact: @commit2_validates. Qed.
Print Assumptions C51_commit2.

Example C51_commit2_case := @C51_commit2 toy (toys nonzero) nonzero nonzero nonzero nonzero (toy_validates nonzero) (toy_validates nonzero) (toy_validates nonzero) (toy_validates nonzero).

Theorem C51_equproof : forall (E : pairing) (cs : codecs E) (PF : Fr E -> Prop) (P1 : G1 E -> Prop) (P2 : G2 E -> Prop)
  (PT : GT E -> Prop), validates PF (c_fr cs) -> validates P1 (c_g1 cs) -> validates P2 (c_g2 cs) -> validates PT (c_gt cs) ->
  validates (equproof_all PF P1 P2) (equproof_codec cs).
Proof. exact: @equproof_validates. Qed.
Print Assumptions C51_equproof.

Example C51_equproof_case := @C51_equproof toy (toys nonzero) nonzero nonzero nonzero nonzero (toy_validates nonzero) (toy_validates nonzero) (toy_validates nonzero) (toy_validates nonzero).

Theorem C51_ppe : forall (E : pairing) (cs : codecs E) (PF : Fr E -> Prop) (P1 : G1 E -> Prop) (P2 : G2 E -> Prop)
  (PT : GT E -> Prop), validates PF (c_fr cs) -> validates P1 (c_g1 cs) -> validates P2 (c_g2 cs) -> validates PT (c_gt cs) ->
  validates (ppe_all PF P1 P2 PT) (ppe_codec cs).
Proof. exact: @ppe_validates. Qed.
Print Assumptions C51_ppe.

Example C51_ppe_case := @C51_ppe toy (toys nonzero) nonzero nonzero nonzero nonzero (toy_validates nonzero) (toy_validates nonzero) (toy_validates nonzero) (toy_validates nonzero).

Theorem C51_ms1 : forall (E : pairing) (cs : codecs E) (PF : Fr E -> Prop) (P1 : G1 E -> Prop) (P2 : G2 E -> Prop)
  (PT : GT E -> Prop), validates PF (c_fr cs) -> validates P1 (c_g1 cs) -> validates P2 (c_g2 cs) -> validates PT (c_gt cs) ->
  validates (ms1_all PF P1) (ms1_codec cs).
Proof. exact: @ms1_validates. Qed.
Print Assumptions C51_ms1.

Example C51_ms1_case := @C51_ms1 toy (toys nonzero) nonzero nonzero nonzero nonzero (toy_validates nonzero) (toy_validates nonzero) (toy_validates nonzero) (toy_validates nonzero).

Theorem C51_ms2 : forall (E : pairing) (cs : codecs E) (PF : Fr E -> Prop) (P1 : G1 E -> Prop) (P2 : G2 E -> Prop)
  (PT : GT E -> Prop), validates PF (c_fr cs) -> validates P1 (c_g1 cs) -> validates P2 (c_g2 cs) -> validates PT (c_gt cs) ->
  validates (ms2_all PF P2) (ms2_codec cs).
Proof. exact: @ms2_validates. Qed.
Print Assumptions C51_ms2.

Example C51_ms2_case := @C51_ms2 toy (toys nonzero) nonzero nonzero nonzero nonzero (toy_validates nonzero) (toy_validates nonzero) (toy_validates nonzero) (toy_validates nonzero).

Theorem C51_quad : forall (E : pairing) (cs : codecs E) (PF : Fr E -> Prop) (P1 : G1 E -> Prop) (P2 : G2 E -> Prop)
  (PT : GT E -> Prop), validates PF (c_fr cs) -> validates P1 (c_g1 cs) -> validates P2 (c_g2 cs) -> validates PT (c_gt cs) ->
  validates (quad_all PF) (quad_codec cs).
Proof. exact: @quad_validates. Qed.
Print Assumptions C51_quad.

Example C51_case : [/\ validates nonzero (toy_codec nonzero),
  de (ms1_codec (toys nonzero)) Yes VYes (ser (ms1_codec (toys nonzero)) Yes (mkMSMEG1 (E := toy) [:: n7 1] [:: n7 2] [:: [:: n7 3]] (n7 4)))
    = DOk (mkMSMEG1 (E := toy) [:: n7 1] [:: n7 2] [:: [:: n7 3]] (n7 4)) [::],
  de (ms1_codec (toys nonzero)) Yes VNo (ser (ms1_codec (toys nonzero)) Yes (mkMSMEG1 (E := toy) [:: n7 1] [:: n7 2] [:: [:: n7 0]] (n7 4)))
    = DOk (mkMSMEG1 (E := toy) [:: n7 1] [:: n7 2] [:: [:: n7 0]] (n7 4)) [::] &
  de (ms1_codec (toys nonzero)) Yes VYes (ser (ms1_codec (toys nonzero)) Yes (mkMSMEG1 (E := toy) [:: n7 1] [:: n7 2] [:: [:: n7 0]] (n7 4)))
    = DErr InvalidData].
Proof.
by split; first exact: toy_validates.
Qed.

(** C52: the layout of the bytes. *)
Theorem C52_com1 : forall (E : pairing) (cs : codecs E) m x, ser (com1_codec cs) m x = lay_com (ser (c_g1 cs) m) x.
Proof. exact: @lay_com1E. Qed.
Print Assumptions C52_com1.

Theorem C52_com2 : forall (E : pairing) (cs : codecs E) m x, ser (com2_codec cs) m x = lay_com (ser (c_g2 cs) m) x.
Proof. exact: @lay_com2E. Qed.
Print Assumptions C52_com2.

Theorem C52_crs : forall (E : pairing) (cs : codecs E) m x, ser (crs_codec cs) m x =
  lay_vec (lay_com (ser (c_g1 cs) m)) (crs_u x) ++ lay_vec (lay_com (ser (c_g2 cs) m)) (crs_v x) ++ (ser (c_g1 cs) m) (g1_gen x) ++ (ser (c_g2 cs) m) (g2_gen x) ++ (ser (c_gt cs) m) (gt_gen x).
Proof. exact: @crs_layout. Qed.
Print Assumptions C52_crs.

Theorem C52_commit1 : forall (E : pairing) (cs : codecs E) m x, ser (commit1_codec cs) m x =
  lay_vec (lay_com (ser (c_g1 cs) m)) (coms x) ++ lay_mat (ser (c_fr cs) m) (crand x).
Proof. exact: @commit1_layout. Qed.
Print Assumptions C52_commit1.

Theorem C52_commit2 : forall (E : pairing) (cs : codecs E) m x, ser (commit2_codec cs) m x =
  lay_vec (lay_com (ser (c_g2 cs) m)) (coms x) ++ lay_mat (ser (c_fr cs) m) (crand x).
Proof. exact: @commit2_layout. Qed.
Print Assumptions C52_commit2.

Theorem C52_equproof : forall (E : pairing) (cs : codecs E) m x, ser (equproof_codec cs) m x =
  lay_vec (lay_com (ser (c_g2 cs) m)) (pi x) ++ lay_vec (lay_com (ser (c_g1 cs) m)) (theta x) ++ lay_tag (equ_type x) ++ lay_mat (ser (c_fr cs) m) (pf_rand x).
Proof. exact: @equproof_layout. Qed.
Print Assumptions C52_equproof.

Theorem C52_ppe : forall (E : pairing) (cs : codecs E) m x, ser (ppe_codec cs) m x =
  lay_vec (ser (c_g1 cs) m) (ppe_a x) ++ lay_vec (ser (c_g2 cs) m) (ppe_b x) ++ lay_mat (ser (c_fr cs) m) (ppe_gamma x) ++ (ser (c_gt cs) m) (ppe_target x).
Proof. exact: @ppe_layout. Qed.
Print Assumptions C52_ppe.

Theorem C52_ms1 : forall (E : pairing) (cs : codecs E) m x, ser (ms1_codec cs) m x =
  lay_vec (ser (c_g1 cs) m) (ms1_a x) ++ lay_vec (ser (c_fr cs) m) (ms1_b x) ++ lay_mat (ser (c_fr cs) m) (ms1_gamma x) ++ (ser (c_g1 cs) m) (ms1_target x).
Proof. exact: @ms1_layout. Qed.
Print Assumptions C52_ms1.

Theorem C52_ms2 : forall (E : pairing) (cs : codecs E) m x, ser (ms2_codec cs) m x =
  lay_vec (ser (c_fr cs) m) (ms2_a x) ++ lay_vec (ser (c_g2 cs) m) (ms2_b x) ++ lay_mat (ser (c_fr cs) m) (ms2_gamma x) ++ (ser (c_g2 cs) m) (ms2_target x).
Proof. exact: @ms2_layout. Qed.
Print Assumptions C52_ms2.

Theorem C52_quad : forall (E : pairing) (cs : codecs E) m x, ser (quad_codec cs) m x =
  lay_vec (ser (c_fr cs) m) (quad_a x) ++ lay_vec (ser (c_fr cs) m) (quad_b x) ++ lay_mat (ser (c_fr cs) m) (quad_gamma x) ++ (ser (c_fr cs) m) (quad_target x).
Proof. exact: @quad_layout. Qed.
Print Assumptions C52_quad.

Example C52_case : ser (ms1_codec (toys predT)) Yes (mkMSMEG1 (E := toy) [:: n7 1; n7 5] [:: n7 2] [:: [:: n7 3]] (n7 4)) =
  [:: x02; x00; x00; x00; x00; x00; x00; x00; x01; x05; x01; x00; x00; x00; x00; x00; x00; x00; x02;
      x01; x00; x00; x00; x00; x00; x00; x00; x01; x00; x00; x00; x00; x00; x00; x00; x03; x04].
Proof.
by [].
Qed.

