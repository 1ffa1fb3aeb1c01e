(** C90: reading with allocation. *)
From mathcomp Require Import all_ssreflect all_algebra.
From Coq Require Import Strings.Byte.
From Verif Require Import Base Group DataStructures Generator Commit Statement Prove Verify Codec SpecCodec CodecAlloc SpecAlloc AllocProps Concrete Concrete2 MatInst Concrete3 Concrete20.
Set Implicit Arguments.
Unset Strict Implicit.
Unset Printing Implicit Defensive.
Import GRing.Theory.
Local Open Scope ring_scope.

(** Reading reference strings: a result does not depend on the room there is. *)
Theorem C90_crs_agrees : forall (E : pairing) (cs : codecs E) (p : room), agrees (crs_codec cs) (crs_rd cs p).
Proof. exact k_C90_crs_agrees. Qed.
Print Assumptions C90_crs_agrees.

(** In the small memory the eight bytes of [bomb] give no result, and a value with short vectors is read. *)
Example C90_crs_agrees_case : crs_rd (toys predT) tight Yes VNo bomb = None /\
  exists y, crs_rd (toys predT) tight Yes VYes (ser (crs_codec (toys predT)) Yes crs0) = Some y /\ y = de (crs_codec (toys predT)) Yes VYes (ser (crs_codec (toys predT)) Yes crs0).
Proof.
split; first by rewrite bomb_bytes -[le64 _]cats0; apply: (@crs_falls toy (toys predT) tight); [case/andP: two63 | exact: small_full].
have e := @crs_gets toy (toys predT) tight toys_good Yes VYes crs0 [::] (conj crs_case_fits isT).
rewrite cats0 in e; exists (DOk crs0 [::]); split; first exact: e.
exact: (@C90_crs_agrees toy (toys predT) tight Yes VYes _ _ e).
Qed.

(** With room for every length, allocation can be ignored. *)
Theorem C90_crs_enough : forall (E : pairing) (cs : codecs E) (p : room) m v bs, all_rooms p all_lengths ->
  crs_rd cs p m v bs = Some (de (crs_codec cs) m v bs).
Proof. exact k_C90_crs_enough. Qed.
Print Assumptions C90_crs_enough.

Example C90_crs_enough_case : crs_rd (toys predT) (Room predT predT predT predT predT predT) Yes VYes bomb = Some (de (crs_codec (toys predT)) Yes VYes bomb).
Proof. by apply: C90_crs_enough; split; [by move=> n | by move=> n | split; by move=> n]. Qed.

(** What was written is read back if there is room for it. *)
Theorem C90_crs_back : forall (E : pairing) (cs : codecs E) (p : room), elements_ok cs good_codec ->
  gets_back (fun x => crs_fits x /\ crs_room p x) (crs_codec cs) (crs_rd cs p).
Proof. exact k_C90_crs_back. Qed.
Print Assumptions C90_crs_back.

Example C90_crs_back_case : crs_rd (toys predT) tight No VYes (ser (crs_codec (toys predT)) No crs0 ++ bomb) = Some (DOk crs0 bomb).
Proof. exact: (@C90_crs_back toy (toys predT) tight toys_good No VYes crs0 bomb (conj crs_case_fits isT)). Qed.

(** Reading ends without a result only if the input announces a length that is refused. *)
Theorem C90_crs_blame : forall (E : pairing) (cs : codecs E) (p : room), elements_ok cs eats ->
  blames [:: r_com1 p; r_com2 p] (crs_rd cs p).
Proof. exact k_C90_crs_blame. Qed.
Print Assumptions C90_crs_blame.

Example C90_crs_blame_case : crs_rd (toys predT) rust Yes VYes (bomb ++ [:: x01]) = None /\ exists a n b, bomb ++ [:: x01] = a ++ le64 n ++ b /\ ~~ (n <= 8)%N.
Proof.
have e : crs_rd (toys predT) rust Yes VYes (bomb ++ [:: x01]) = None.
  by rewrite bomb_bytes; apply: (@crs_falls toy (toys predT) rust); [case/andP: two63 | exact: rust_full].
split; first exact: e.
have [a [n [b [eb h]]]] := @C90_crs_blame toy (toys predT) rust toys_eat Yes VYes _ e.
exists a, n, b; split; first exact: eb.
by apply: contraL h => hn; rewrite /refuses /rust /= !capacity_small.
Qed.

(** If there is room for as many items as the input has bytes, it then was an error anyway. *)
Theorem C90_crs_errors : forall (E : pairing) (cs : codecs E) (p : room), elements_ok cs eats ->
  only_errors [:: r_com1 p; r_com2 p] (crs_codec cs) (crs_rd cs p).
Proof. exact k_C90_crs_errors. Qed.
Print Assumptions C90_crs_errors.

Example C90_crs_errors_case : crs_rd (toys predT) rust No VYes bomb = None /\ exists e, de (crs_codec (toys predT)) No VYes bomb = DErr e.
Proof.
have e : crs_rd (toys predT) rust No VYes bomb = None.
  by rewrite bomb_bytes -[le64 _]cats0; apply: (@crs_falls toy (toys predT) rust); [case/andP: two63 | exact: rust_full].
split; first exact: e.
by apply: (@C90_crs_errors toy (toys predT) rust toys_eat No VYes bomb _ e) => n hn; rewrite /refuses /rust /= !capacity_small.
Qed.

(** Reading does not always end with a result: any refused length, at the start of the input, ends it, where without allocation there is an error. *)
Theorem C90_crs_total_refuted : forall (E : pairing) (cs : codecs E) (p : room), elements_ok cs eats -> forall n,
  (0 < n < 2 ^ 64)%N -> ~~ r_com1 p n -> forall m v,
  (forall rest, crs_rd cs p m v (le64 n ++ rest) = None) /\ exists e, de (crs_codec cs) m v (le64 n) = DErr e.
Proof. exact k_C90_crs_total_refuted. Qed.
Print Assumptions C90_crs_total_refuted.

(** The limit of Rust. *)
Example C90_crs_total_case : crs_rd (toys predT) rust Yes VYes bomb = None.
Proof.
rewrite bomb_bytes -[le64 _]cats0.
exact: (proj1 (@C90_crs_total_refuted toy (toys predT) rust toys_eat _ two63 (@rust_full 2 isT) Yes VYes)).
Qed.

(** Reading commitments in B1: a result does not depend on the room there is. *)
Theorem C90_commit1_agrees : forall (E : pairing) (cs : codecs E) (p : room), agrees (commit1_codec cs) (commit1_rd cs p).
Proof. exact k_C90_commit1_agrees. Qed.
Print Assumptions C90_commit1_agrees.

(** In the small memory the eight bytes of [bomb] give no result, and a value with short vectors is read. *)
Example C90_commit1_agrees_case : commit1_rd (toys predT) tight Yes VNo bomb = None /\
  exists y, commit1_rd (toys predT) tight Yes VYes (ser (commit1_codec (toys predT)) Yes (xcoms ppe_p0)) = Some y /\ y = de (commit1_codec (toys predT)) Yes VYes (ser (commit1_codec (toys predT)) Yes (xcoms ppe_p0)).
Proof.
split; first by rewrite bomb_bytes -[le64 _]cats0; apply: (@commit1_falls toy (toys predT) tight); [case/andP: two63 | exact: small_full].
have e := @commit1_gets toy (toys predT) tight toys_good Yes VYes (xcoms ppe_p0) [::] (conj commit1_case_fits isT).
rewrite cats0 in e; exists (DOk (xcoms ppe_p0) [::]); split; first exact: e.
exact: (@C90_commit1_agrees toy (toys predT) tight Yes VYes _ _ e).
Qed.

(** With room for every length, allocation can be ignored. *)
Theorem C90_commit1_enough : forall (E : pairing) (cs : codecs E) (p : room) m v bs, all_rooms p all_lengths ->
  commit1_rd cs p m v bs = Some (de (commit1_codec cs) m v bs).
Proof. exact k_C90_commit1_enough. Qed.
Print Assumptions C90_commit1_enough.

Example C90_commit1_enough_case : commit1_rd (toys predT) (Room predT predT predT predT predT predT) Yes VYes bomb = Some (de (commit1_codec (toys predT)) Yes VYes bomb).
Proof. by apply: C90_commit1_enough; split; [by move=> n | by move=> n | split; by move=> n]. Qed.

(** What was written is read back if there is room for it. *)
Theorem C90_commit1_back : forall (E : pairing) (cs : codecs E) (p : room), elements_ok cs good_codec ->
  gets_back (fun x => commit1_fits x /\ commit1_room p x) (commit1_codec cs) (commit1_rd cs p).
Proof. exact k_C90_commit1_back. Qed.
Print Assumptions C90_commit1_back.

Example C90_commit1_back_case : commit1_rd (toys predT) tight No VYes (ser (commit1_codec (toys predT)) No (xcoms ppe_p0) ++ bomb) = Some (DOk (xcoms ppe_p0) bomb).
Proof. exact: (@C90_commit1_back toy (toys predT) tight toys_good No VYes (xcoms ppe_p0) bomb (conj commit1_case_fits isT)). Qed.

(** Reading ends without a result only if the input announces a length that is refused. *)
Theorem C90_commit1_blame : forall (E : pairing) (cs : codecs E) (p : room), elements_ok cs eats ->
  blames [:: r_com1 p; r_row p; r_fr p] (commit1_rd cs p).
Proof. exact k_C90_commit1_blame. Qed.
Print Assumptions C90_commit1_blame.

Example C90_commit1_blame_case : commit1_rd (toys predT) rust Yes VYes (bomb ++ [:: x01]) = None /\ exists a n b, bomb ++ [:: x01] = a ++ le64 n ++ b /\ ~~ (n <= 8)%N.
Proof.
have e : commit1_rd (toys predT) rust Yes VYes (bomb ++ [:: x01]) = None.
  by rewrite bomb_bytes; apply: (@commit1_falls toy (toys predT) rust); [case/andP: two63 | exact: rust_full].
split; first exact: e.
have [a [n [b [eb h]]]] := @C90_commit1_blame toy (toys predT) rust toys_eat Yes VYes _ e.
exists a, n, b; split; first exact: eb.
by apply: contraL h => hn; rewrite /refuses /rust /= !capacity_small.
Qed.

(** If there is room for as many items as the input has bytes, it then was an error anyway. *)
Theorem C90_commit1_errors : forall (E : pairing) (cs : codecs E) (p : room), elements_ok cs eats ->
  only_errors [:: r_com1 p; r_row p; r_fr p] (commit1_codec cs) (commit1_rd cs p).
Proof. exact k_C90_commit1_errors. Qed.
Print Assumptions C90_commit1_errors.

Example C90_commit1_errors_case : commit1_rd (toys predT) rust No VYes bomb = None /\ exists e, de (commit1_codec (toys predT)) No VYes bomb = DErr e.
Proof.
have e : commit1_rd (toys predT) rust No VYes bomb = None.
  by rewrite bomb_bytes -[le64 _]cats0; apply: (@commit1_falls toy (toys predT) rust); [case/andP: two63 | exact: rust_full].
split; first exact: e.
by apply: (@C90_commit1_errors toy (toys predT) rust toys_eat No VYes bomb _ e) => n hn; rewrite /refuses /rust /= !capacity_small.
Qed.

(** Reading does not always end with a result: any refused length, at the start of the input, ends it, where without allocation there is an error. *)
Theorem C90_commit1_total_refuted : forall (E : pairing) (cs : codecs E) (p : room), elements_ok cs eats -> forall n,
  (0 < n < 2 ^ 64)%N -> ~~ r_com1 p n -> forall m v,
  (forall rest, commit1_rd cs p m v (le64 n ++ rest) = None) /\ exists e, de (commit1_codec cs) m v (le64 n) = DErr e.
Proof. exact k_C90_commit1_total_refuted. Qed.
Print Assumptions C90_commit1_total_refuted.

(** The limit of Rust. *)
Example C90_commit1_total_case : commit1_rd (toys predT) rust Yes VYes bomb = None.
Proof.
rewrite bomb_bytes -[le64 _]cats0.
exact: (proj1 (@C90_commit1_total_refuted toy (toys predT) rust toys_eat _ two63 (@rust_full 2 isT) Yes VYes)).
Qed.

(** Reading commitments in B2: a result does not depend on the room there is. *)
Theorem C90_commit2_agrees : forall (E : pairing) (cs : codecs E) (p : room), agrees (commit2_codec cs) (commit2_rd cs p).
Proof. exact k_C90_commit2_agrees. Qed.
Print Assumptions C90_commit2_agrees.

(** In the small memory the eight bytes of [bomb] give no result, and a value with short vectors is read. *)
Example C90_commit2_agrees_case : commit2_rd (toys predT) tight Yes VNo bomb = None /\
  exists y, commit2_rd (toys predT) tight Yes VYes (ser (commit2_codec (toys predT)) Yes (ycoms ppe_p0)) = Some y /\ y = de (commit2_codec (toys predT)) Yes VYes (ser (commit2_codec (toys predT)) Yes (ycoms ppe_p0)).
Proof.
split; first by rewrite bomb_bytes -[le64 _]cats0; apply: (@commit2_falls toy (toys predT) tight); [case/andP: two63 | exact: small_full].
have e := @commit2_gets toy (toys predT) tight toys_good Yes VYes (ycoms ppe_p0) [::] (conj commit2_case_fits isT).
rewrite cats0 in e; exists (DOk (ycoms ppe_p0) [::]); split; first exact: e.
exact: (@C90_commit2_agrees toy (toys predT) tight Yes VYes _ _ e).
Qed.

(** With room for every length, allocation can be ignored. *)
Theorem C90_commit2_enough : forall (E : pairing) (cs : codecs E) (p : room) m v bs, all_rooms p all_lengths ->
  commit2_rd cs p m v bs = Some (de (commit2_codec cs) m v bs).
Proof. exact k_C90_commit2_enough. Qed.
Print Assumptions C90_commit2_enough.

Example C90_commit2_enough_case : commit2_rd (toys predT) (Room predT predT predT predT predT predT) Yes VYes bomb = Some (de (commit2_codec (toys predT)) Yes VYes bomb).
Proof. by apply: C90_commit2_enough; split; [by move=> n | by move=> n | split; by move=> n]. Qed.

(** What was written is read back if there is room for it. *)
Theorem C90_commit2_back : forall (E : pairing) (cs : codecs E) (p : room), elements_ok cs good_codec ->
  gets_back (fun x => commit2_fits x /\ commit2_room p x) (commit2_codec cs) (commit2_rd cs p).
Proof. exact k_C90_commit2_back. Qed.
Print Assumptions C90_commit2_back.

Example C90_commit2_back_case : commit2_rd (toys predT) tight No VYes (ser (commit2_codec (toys predT)) No (ycoms ppe_p0) ++ bomb) = Some (DOk (ycoms ppe_p0) bomb).
Proof. exact: (@C90_commit2_back toy (toys predT) tight toys_good No VYes (ycoms ppe_p0) bomb (conj commit2_case_fits isT)). Qed.

(** Reading ends without a result only if the input announces a length that is refused. *)
Theorem C90_commit2_blame : forall (E : pairing) (cs : codecs E) (p : room), elements_ok cs eats ->
  blames [:: r_com2 p; r_row p; r_fr p] (commit2_rd cs p).
Proof. exact k_C90_commit2_blame. Qed.
Print Assumptions C90_commit2_blame.

Example C90_commit2_blame_case : commit2_rd (toys predT) rust Yes VYes (bomb ++ [:: x01]) = None /\ exists a n b, bomb ++ [:: x01] = a ++ le64 n ++ b /\ ~~ (n <= 8)%N.
Proof.
have e : commit2_rd (toys predT) rust Yes VYes (bomb ++ [:: x01]) = None.
  by rewrite bomb_bytes; apply: (@commit2_falls toy (toys predT) rust); [case/andP: two63 | exact: rust_full].
split; first exact: e.
have [a [n [b [eb h]]]] := @C90_commit2_blame toy (toys predT) rust toys_eat Yes VYes _ e.
exists a, n, b; split; first exact: eb.
by apply: contraL h => hn; rewrite /refuses /rust /= !capacity_small.
Qed.

(** If there is room for as many items as the input has bytes, it then was an error anyway. *)
Theorem C90_commit2_errors : forall (E : pairing) (cs : codecs E) (p : room), elements_ok cs eats ->
  only_errors [:: r_com2 p; r_row p; r_fr p] (commit2_codec cs) (commit2_rd cs p).
Proof. exact k_C90_commit2_errors. Qed.
Print Assumptions C90_commit2_errors.

Example C90_commit2_errors_case : commit2_rd (toys predT) rust No VYes bomb = None /\ exists e, de (commit2_codec (toys predT)) No VYes bomb = DErr e.
Proof.
have e : commit2_rd (toys predT) rust No VYes bomb = None.
  by rewrite bomb_bytes -[le64 _]cats0; apply: (@commit2_falls toy (toys predT) rust); [case/andP: two63 | exact: rust_full].
split; first exact: e.
by apply: (@C90_commit2_errors toy (toys predT) rust toys_eat No VYes bomb _ e) => n hn; rewrite /refuses /rust /= !capacity_small.
Qed.

(** Reading does not always end with a result: any refused length, at the start of the input, ends it, where without allocation there is an error. *)
Theorem C90_commit2_total_refuted : forall (E : pairing) (cs : codecs E) (p : room), elements_ok cs eats -> forall n,
  (0 < n < 2 ^ 64)%N -> ~~ r_com2 p n -> forall m v,
  (forall rest, commit2_rd cs p m v (le64 n ++ rest) = None) /\ exists e, de (commit2_codec cs) m v (le64 n) = DErr e.
Proof. exact k_C90_commit2_total_refuted. Qed.
Print Assumptions C90_commit2_total_refuted.

(** The limit of Rust. *)
Example C90_commit2_total_case : commit2_rd (toys predT) rust Yes VYes bomb = None.
Proof.
rewrite bomb_bytes -[le64 _]cats0.
exact: (proj1 (@C90_commit2_total_refuted toy (toys predT) rust toys_eat _ two63 (@rust_full 2 isT) Yes VYes)).
Qed.

(** Reading proofs: a result does not depend on the room there is. *)
Theorem C90_equproof_agrees : forall (E : pairing) (cs : codecs E) (p : room), agrees (equproof_codec cs) (equproof_rd cs p).
Proof. exact k_C90_equproof_agrees. Qed.
Print Assumptions C90_equproof_agrees.

(** In the small memory the eight bytes of [bomb] give no result, and a value with short vectors is read. *)
Example C90_equproof_agrees_case : equproof_rd (toys predT) tight Yes VNo bomb = None /\
  exists y, equproof_rd (toys predT) tight Yes VYes (ser (equproof_codec (toys predT)) Yes (pf_of ppe_p0)) = Some y /\ y = de (equproof_codec (toys predT)) Yes VYes (ser (equproof_codec (toys predT)) Yes (pf_of ppe_p0)).
Proof.
split; first by rewrite bomb_bytes -[le64 _]cats0; apply: (@equproof_falls toy (toys predT) tight); [case/andP: two63 | exact: small_full].
have e := @equproof_gets toy (toys predT) tight toys_good Yes VYes (pf_of ppe_p0) [::] (conj equproof_case_fits isT).
rewrite cats0 in e; exists (DOk (pf_of ppe_p0) [::]); split; first exact: e.
exact: (@C90_equproof_agrees toy (toys predT) tight Yes VYes _ _ e).
Qed.

(** With room for every length, allocation can be ignored. *)
Theorem C90_equproof_enough : forall (E : pairing) (cs : codecs E) (p : room) m v bs, all_rooms p all_lengths ->
  equproof_rd cs p m v bs = Some (de (equproof_codec cs) m v bs).
Proof. exact k_C90_equproof_enough. Qed.
Print Assumptions C90_equproof_enough.

Example C90_equproof_enough_case : equproof_rd (toys predT) (Room predT predT predT predT predT predT) Yes VYes bomb = Some (de (equproof_codec (toys predT)) Yes VYes bomb).
Proof. by apply: C90_equproof_enough; split; [by move=> n | by move=> n | split; by move=> n]. Qed.

(** What was written is read back if there is room for it. *)
Theorem C90_equproof_back : forall (E : pairing) (cs : codecs E) (p : room), elements_ok cs good_codec ->
  gets_back (fun x => equproof_fits x /\ equproof_room p x) (equproof_codec cs) (equproof_rd cs p).
Proof. exact k_C90_equproof_back. Qed.
Print Assumptions C90_equproof_back.

Example C90_equproof_back_case : equproof_rd (toys predT) tight No VYes (ser (equproof_codec (toys predT)) No (pf_of ppe_p0) ++ bomb) = Some (DOk (pf_of ppe_p0) bomb).
Proof. exact: (@C90_equproof_back toy (toys predT) tight toys_good No VYes (pf_of ppe_p0) bomb (conj equproof_case_fits isT)). Qed.

(** Reading ends without a result only if the input announces a length that is refused. *)
Theorem C90_equproof_blame : forall (E : pairing) (cs : codecs E) (p : room), elements_ok cs eats ->
  blames [:: r_com2 p; r_com1 p; r_row p; r_fr p] (equproof_rd cs p).
Proof. exact k_C90_equproof_blame. Qed.
Print Assumptions C90_equproof_blame.

Example C90_equproof_blame_case : equproof_rd (toys predT) rust Yes VYes (bomb ++ [:: x01]) = None /\ exists a n b, bomb ++ [:: x01] = a ++ le64 n ++ b /\ ~~ (n <= 8)%N.
Proof.
have e : equproof_rd (toys predT) rust Yes VYes (bomb ++ [:: x01]) = None.
  by rewrite bomb_bytes; apply: (@equproof_falls toy (toys predT) rust); [case/andP: two63 | exact: rust_full].
split; first exact: e.
have [a [n [b [eb h]]]] := @C90_equproof_blame toy (toys predT) rust toys_eat Yes VYes _ e.
exists a, n, b; split; first exact: eb.
by apply: contraL h => hn; rewrite /refuses /rust /= !capacity_small.
Qed.

(** If there is room for as many items as the input has bytes, it then was an error anyway. *)
Theorem C90_equproof_errors : forall (E : pairing) (cs : codecs E) (p : room), elements_ok cs eats ->
  only_errors [:: r_com2 p; r_com1 p; r_row p; r_fr p] (equproof_codec cs) (equproof_rd cs p).
Proof. exact k_C90_equproof_errors. Qed.
Print Assumptions C90_equproof_errors.

Example C90_equproof_errors_case : equproof_rd (toys predT) rust No VYes bomb = None /\ exists e, de (equproof_codec (toys predT)) No VYes bomb = DErr e.
Proof.
have e : equproof_rd (toys predT) rust No VYes bomb = None.
  by rewrite bomb_bytes -[le64 _]cats0; apply: (@equproof_falls toy (toys predT) rust); [case/andP: two63 | exact: rust_full].
split; first exact: e.
by apply: (@C90_equproof_errors toy (toys predT) rust toys_eat No VYes bomb _ e) => n hn; rewrite /refuses /rust /= !capacity_small.
Qed.

(** Reading does not always end with a result: any refused length, at the start of the input, ends it, where without allocation there is an error. *)
Theorem C90_equproof_total_refuted : forall (E : pairing) (cs : codecs E) (p : room), elements_ok cs eats -> forall n,
  (0 < n < 2 ^ 64)%N -> ~~ r_com2 p n -> forall m v,
  (forall rest, equproof_rd cs p m v (le64 n ++ rest) = None) /\ exists e, de (equproof_codec cs) m v (le64 n) = DErr e.
Proof. exact k_C90_equproof_total_refuted. Qed.
Print Assumptions C90_equproof_total_refuted.

(** The limit of Rust. *)
Example C90_equproof_total_case : equproof_rd (toys predT) rust Yes VYes bomb = None.
Proof.
rewrite bomb_bytes -[le64 _]cats0.
exact: (proj1 (@C90_equproof_total_refuted toy (toys predT) rust toys_eat _ two63 (@rust_full 2 isT) Yes VYes)).
Qed.

(** Reading pairing product equations: a result does not depend on the room there is. *)
Theorem C90_ppe_agrees : forall (E : pairing) (cs : codecs E) (p : room), agrees (ppe_codec cs) (ppe_rd cs p).
Proof. exact k_C90_ppe_agrees. Qed.
Print Assumptions C90_ppe_agrees.

(** In the small memory the eight bytes of [bomb] give no result, and a value with short vectors is read. *)
Example C90_ppe_agrees_case : ppe_rd (toys predT) tight Yes VNo bomb = None /\
  exists y, ppe_rd (toys predT) tight Yes VYes (ser (ppe_codec (toys predT)) Yes ppe0) = Some y /\ y = de (ppe_codec (toys predT)) Yes VYes (ser (ppe_codec (toys predT)) Yes ppe0).
Proof.
split; first by rewrite bomb_bytes -[le64 _]cats0; apply: (@ppe_falls toy (toys predT) tight); [case/andP: two63 | exact: small_full].
have e := @ppe_gets toy (toys predT) tight toys_good Yes VYes ppe0 [::] (conj ppe_case_fits isT).
rewrite cats0 in e; exists (DOk ppe0 [::]); split; first exact: e.
exact: (@C90_ppe_agrees toy (toys predT) tight Yes VYes _ _ e).
Qed.

(** With room for every length, allocation can be ignored. *)
Theorem C90_ppe_enough : forall (E : pairing) (cs : codecs E) (p : room) m v bs, all_rooms p all_lengths ->
  ppe_rd cs p m v bs = Some (de (ppe_codec cs) m v bs).
Proof. exact k_C90_ppe_enough. Qed.
Print Assumptions C90_ppe_enough.

Example C90_ppe_enough_case : ppe_rd (toys predT) (Room predT predT predT predT predT predT) Yes VYes bomb = Some (de (ppe_codec (toys predT)) Yes VYes bomb).
Proof. by apply: C90_ppe_enough; split; [by move=> n | by move=> n | split; by move=> n]. Qed.

(** What was written is read back if there is room for it. *)
Theorem C90_ppe_back : forall (E : pairing) (cs : codecs E) (p : room), elements_ok cs good_codec ->
  gets_back (fun x => ppe_fits x /\ ppe_room p x) (ppe_codec cs) (ppe_rd cs p).
Proof. exact k_C90_ppe_back. Qed.
Print Assumptions C90_ppe_back.

Example C90_ppe_back_case : ppe_rd (toys predT) tight No VYes (ser (ppe_codec (toys predT)) No ppe0 ++ bomb) = Some (DOk ppe0 bomb).
Proof. exact: (@C90_ppe_back toy (toys predT) tight toys_good No VYes ppe0 bomb (conj ppe_case_fits isT)). Qed.

(** Reading ends without a result only if the input announces a length that is refused. *)
Theorem C90_ppe_blame : forall (E : pairing) (cs : codecs E) (p : room), elements_ok cs eats ->
  blames [:: r_g1 p; r_g2 p; r_row p; r_fr p] (ppe_rd cs p).
Proof. exact k_C90_ppe_blame. Qed.
Print Assumptions C90_ppe_blame.

Example C90_ppe_blame_case : ppe_rd (toys predT) rust Yes VYes (bomb ++ [:: x01]) = None /\ exists a n b, bomb ++ [:: x01] = a ++ le64 n ++ b /\ ~~ (n <= 8)%N.
Proof.
have e : ppe_rd (toys predT) rust Yes VYes (bomb ++ [:: x01]) = None.
  by rewrite bomb_bytes; apply: (@ppe_falls toy (toys predT) rust); [case/andP: two63 | exact: rust_full].
split; first exact: e.
have [a [n [b [eb h]]]] := @C90_ppe_blame toy (toys predT) rust toys_eat Yes VYes _ e.
exists a, n, b; split; first exact: eb.
by apply: contraL h => hn; rewrite /refuses /rust /= !capacity_small.
Qed.

(** If there is room for as many items as the input has bytes, it then was an error anyway. *)
Theorem C90_ppe_errors : forall (E : pairing) (cs : codecs E) (p : room), elements_ok cs eats ->
  only_errors [:: r_g1 p; r_g2 p; r_row p; r_fr p] (ppe_codec cs) (ppe_rd cs p).
Proof. exact k_C90_ppe_errors. Qed.
Print Assumptions C90_ppe_errors.

Example C90_ppe_errors_case : ppe_rd (toys predT) rust No VYes bomb = None /\ exists e, de (ppe_codec (toys predT)) No VYes bomb = DErr e.
Proof.
have e : ppe_rd (toys predT) rust No VYes bomb = None.
  by rewrite bomb_bytes -[le64 _]cats0; apply: (@ppe_falls toy (toys predT) rust); [case/andP: two63 | exact: rust_full].
split; first exact: e.
by apply: (@C90_ppe_errors toy (toys predT) rust toys_eat No VYes bomb _ e) => n hn; rewrite /refuses /rust /= !capacity_small.
Qed.

(** Reading does not always end with a result: any refused length, at the start of the input, ends it, where without allocation there is an error. *)
Theorem C90_ppe_total_refuted : forall (E : pairing) (cs : codecs E) (p : room), elements_ok cs eats -> forall n,
  (0 < n < 2 ^ 64)%N -> ~~ r_g1 p n -> forall m v,
  (forall rest, ppe_rd cs p m v (le64 n ++ rest) = None) /\ exists e, de (ppe_codec cs) m v (le64 n) = DErr e.
Proof. exact k_C90_ppe_total_refuted. Qed.
Print Assumptions C90_ppe_total_refuted.

(** The limit of Rust. *)
Example C90_ppe_total_case : ppe_rd (toys predT) rust Yes VYes bomb = None.
Proof.
rewrite bomb_bytes -[le64 _]cats0.
exact: (proj1 (@C90_ppe_total_refuted toy (toys predT) rust toys_eat _ two63 (@rust_full 1 isT) Yes VYes)).
Qed.

(** Reading multi-scalar multiplications in G1: a result does not depend on the room there is. *)
Theorem C90_ms1_agrees : forall (E : pairing) (cs : codecs E) (p : room), agrees (ms1_codec cs) (ms1_rd cs p).
Proof. exact k_C90_ms1_agrees. Qed.
Print Assumptions C90_ms1_agrees.

(** In the small memory the eight bytes of [bomb] give no result, and a value with short vectors is read. *)
Example C90_ms1_agrees_case : ms1_rd (toys predT) tight Yes VNo bomb = None /\
  exists y, ms1_rd (toys predT) tight Yes VYes (ser (ms1_codec (toys predT)) Yes ms10) = Some y /\ y = de (ms1_codec (toys predT)) Yes VYes (ser (ms1_codec (toys predT)) Yes ms10).
Proof.
split; first by rewrite bomb_bytes -[le64 _]cats0; apply: (@ms1_falls toy (toys predT) tight); [case/andP: two63 | exact: small_full].
have e := @ms1_gets toy (toys predT) tight toys_good Yes VYes ms10 [::] (conj ms1_case_fits isT).
rewrite cats0 in e; exists (DOk ms10 [::]); split; first exact: e.
exact: (@C90_ms1_agrees toy (toys predT) tight Yes VYes _ _ e).
Qed.

(** With room for every length, allocation can be ignored. *)
Theorem C90_ms1_enough : forall (E : pairing) (cs : codecs E) (p : room) m v bs, all_rooms p all_lengths ->
  ms1_rd cs p m v bs = Some (de (ms1_codec cs) m v bs).
Proof. exact k_C90_ms1_enough. Qed.
Print Assumptions C90_ms1_enough.

Example C90_ms1_enough_case : ms1_rd (toys predT) (Room predT predT predT predT predT predT) Yes VYes bomb = Some (de (ms1_codec (toys predT)) Yes VYes bomb).
Proof. by apply: C90_ms1_enough; split; [by move=> n | by move=> n | split; by move=> n]. Qed.

(** What was written is read back if there is room for it. *)
Theorem C90_ms1_back : forall (E : pairing) (cs : codecs E) (p : room), elements_ok cs good_codec ->
  gets_back (fun x => ms1_fits x /\ ms1_room p x) (ms1_codec cs) (ms1_rd cs p).
Proof. exact k_C90_ms1_back. Qed.
Print Assumptions C90_ms1_back.

Example C90_ms1_back_case : ms1_rd (toys predT) tight No VYes (ser (ms1_codec (toys predT)) No ms10 ++ bomb) = Some (DOk ms10 bomb).
Proof. exact: (@C90_ms1_back toy (toys predT) tight toys_good No VYes ms10 bomb (conj ms1_case_fits isT)). Qed.

(** Reading ends without a result only if the input announces a length that is refused. *)
Theorem C90_ms1_blame : forall (E : pairing) (cs : codecs E) (p : room), elements_ok cs eats ->
  blames [:: r_g1 p; r_fr p; r_row p] (ms1_rd cs p).
Proof. exact k_C90_ms1_blame. Qed.
Print Assumptions C90_ms1_blame.

Example C90_ms1_blame_case : ms1_rd (toys predT) rust Yes VYes (bomb ++ [:: x01]) = None /\ exists a n b, bomb ++ [:: x01] = a ++ le64 n ++ b /\ ~~ (n <= 8)%N.
Proof.
have e : ms1_rd (toys predT) rust Yes VYes (bomb ++ [:: x01]) = None.
  by rewrite bomb_bytes; apply: (@ms1_falls toy (toys predT) rust); [case/andP: two63 | exact: rust_full].
split; first exact: e.
have [a [n [b [eb h]]]] := @C90_ms1_blame toy (toys predT) rust toys_eat Yes VYes _ e.
exists a, n, b; split; first exact: eb.
by apply: contraL h => hn; rewrite /refuses /rust /= !capacity_small.
Qed.

(** If there is room for as many items as the input has bytes, it then was an error anyway. *)
Theorem C90_ms1_errors : forall (E : pairing) (cs : codecs E) (p : room), elements_ok cs eats ->
  only_errors [:: r_g1 p; r_fr p; r_row p] (ms1_codec cs) (ms1_rd cs p).
Proof. exact k_C90_ms1_errors. Qed.
Print Assumptions C90_ms1_errors.

Example C90_ms1_errors_case : ms1_rd (toys predT) rust No VYes bomb = None /\ exists e, de (ms1_codec (toys predT)) No VYes bomb = DErr e.
Proof.
have e : ms1_rd (toys predT) rust No VYes bomb = None.
  by rewrite bomb_bytes -[le64 _]cats0; apply: (@ms1_falls toy (toys predT) rust); [case/andP: two63 | exact: rust_full].
split; first exact: e.
by apply: (@C90_ms1_errors toy (toys predT) rust toys_eat No VYes bomb _ e) => n hn; rewrite /refuses /rust /= !capacity_small.
Qed.

(** Reading does not always end with a result: any refused length, at the start of the input, ends it, where without allocation there is an error. *)
Theorem C90_ms1_total_refuted : forall (E : pairing) (cs : codecs E) (p : room), elements_ok cs eats -> forall n,
  (0 < n < 2 ^ 64)%N -> ~~ r_g1 p n -> forall m v,
  (forall rest, ms1_rd cs p m v (le64 n ++ rest) = None) /\ exists e, de (ms1_codec cs) m v (le64 n) = DErr e.
Proof. exact k_C90_ms1_total_refuted. Qed.
Print Assumptions C90_ms1_total_refuted.

(** The limit of Rust. *)
Example C90_ms1_total_case : ms1_rd (toys predT) rust Yes VYes bomb = None.
Proof.
rewrite bomb_bytes -[le64 _]cats0.
exact: (proj1 (@C90_ms1_total_refuted toy (toys predT) rust toys_eat _ two63 (@rust_full 1 isT) Yes VYes)).
Qed.

(** Reading multi-scalar multiplications in G2: a result does not depend on the room there is. *)
Theorem C90_ms2_agrees : forall (E : pairing) (cs : codecs E) (p : room), agrees (ms2_codec cs) (ms2_rd cs p).
Proof. exact k_C90_ms2_agrees. Qed.
Print Assumptions C90_ms2_agrees.

(** In the small memory the eight bytes of [bomb] give no result, and a value with short vectors is read. *)
Example C90_ms2_agrees_case : ms2_rd (toys predT) tight Yes VNo bomb = None /\
  exists y, ms2_rd (toys predT) tight Yes VYes (ser (ms2_codec (toys predT)) Yes ms20) = Some y /\ y = de (ms2_codec (toys predT)) Yes VYes (ser (ms2_codec (toys predT)) Yes ms20).
Proof.
split; first by rewrite bomb_bytes -[le64 _]cats0; apply: (@ms2_falls toy (toys predT) tight); [case/andP: two63 | exact: small_full].
have e := @ms2_gets toy (toys predT) tight toys_good Yes VYes ms20 [::] (conj ms2_case_fits isT).
rewrite cats0 in e; exists (DOk ms20 [::]); split; first exact: e.
exact: (@C90_ms2_agrees toy (toys predT) tight Yes VYes _ _ e).
Qed.

(** With room for every length, allocation can be ignored. *)
Theorem C90_ms2_enough : forall (E : pairing) (cs : codecs E) (p : room) m v bs, all_rooms p all_lengths ->
  ms2_rd cs p m v bs = Some (de (ms2_codec cs) m v bs).
Proof. exact k_C90_ms2_enough. Qed.
Print Assumptions C90_ms2_enough.

Example C90_ms2_enough_case : ms2_rd (toys predT) (Room predT predT predT predT predT predT) Yes VYes bomb = Some (de (ms2_codec (toys predT)) Yes VYes bomb).
Proof. by apply: C90_ms2_enough; split; [by move=> n | by move=> n | split; by move=> n]. Qed.

(** What was written is read back if there is room for it. *)
Theorem C90_ms2_back : forall (E : pairing) (cs : codecs E) (p : room), elements_ok cs good_codec ->
  gets_back (fun x => ms2_fits x /\ ms2_room p x) (ms2_codec cs) (ms2_rd cs p).
Proof. exact k_C90_ms2_back. Qed.
Print Assumptions C90_ms2_back.

Example C90_ms2_back_case : ms2_rd (toys predT) tight No VYes (ser (ms2_codec (toys predT)) No ms20 ++ bomb) = Some (DOk ms20 bomb).
Proof. exact: (@C90_ms2_back toy (toys predT) tight toys_good No VYes ms20 bomb (conj ms2_case_fits isT)). Qed.

(** Reading ends without a result only if the input announces a length that is refused. *)
Theorem C90_ms2_blame : forall (E : pairing) (cs : codecs E) (p : room), elements_ok cs eats ->
  blames [:: r_fr p; r_g2 p; r_row p] (ms2_rd cs p).
Proof. exact k_C90_ms2_blame. Qed.
Print Assumptions C90_ms2_blame.

Example C90_ms2_blame_case : ms2_rd (toys predT) rust Yes VYes (bomb ++ [:: x01]) = None /\ exists a n b, bomb ++ [:: x01] = a ++ le64 n ++ b /\ ~~ (n <= 8)%N.
Proof.
have e : ms2_rd (toys predT) rust Yes VYes (bomb ++ [:: x01]) = None.
  by rewrite bomb_bytes; apply: (@ms2_falls toy (toys predT) rust); [case/andP: two63 | exact: rust_full].
split; first exact: e.
have [a [n [b [eb h]]]] := @C90_ms2_blame toy (toys predT) rust toys_eat Yes VYes _ e.
exists a, n, b; split; first exact: eb.
by apply: contraL h => hn; rewrite /refuses /rust /= !capacity_small.
Qed.

(** If there is room for as many items as the input has bytes, it then was an error anyway. *)
Theorem C90_ms2_errors : forall (E : pairing) (cs : codecs E) (p : room), elements_ok cs eats ->
  only_errors [:: r_fr p; r_g2 p; r_row p] (ms2_codec cs) (ms2_rd cs p).
Proof. exact k_C90_ms2_errors. Qed.
Print Assumptions C90_ms2_errors.

Example C90_ms2_errors_case : ms2_rd (toys predT) rust No VYes bomb = None /\ exists e, de (ms2_codec (toys predT)) No VYes bomb = DErr e.
Proof.
have e : ms2_rd (toys predT) rust No VYes bomb = None.
  by rewrite bomb_bytes -[le64 _]cats0; apply: (@ms2_falls toy (toys predT) rust); [case/andP: two63 | exact: rust_full].
split; first exact: e.
by apply: (@C90_ms2_errors toy (toys predT) rust toys_eat No VYes bomb _ e) => n hn; rewrite /refuses /rust /= !capacity_small.
Qed.

(** Reading does not always end with a result: any refused length, at the start of the input, ends it, where without allocation there is an error. *)
Theorem C90_ms2_total_refuted : forall (E : pairing) (cs : codecs E) (p : room), elements_ok cs eats -> forall n,
  (0 < n < 2 ^ 64)%N -> ~~ r_fr p n -> forall m v,
  (forall rest, ms2_rd cs p m v (le64 n ++ rest) = None) /\ exists e, de (ms2_codec cs) m v (le64 n) = DErr e.
Proof. exact k_C90_ms2_total_refuted. Qed.
Print Assumptions C90_ms2_total_refuted.

(** The limit of Rust. *)
Example C90_ms2_total_case : ms2_rd (toys predT) rust Yes VYes bomb = None.
Proof.
rewrite bomb_bytes -[le64 _]cats0.
exact: (proj1 (@C90_ms2_total_refuted toy (toys predT) rust toys_eat _ two63 (@rust_full 1 isT) Yes VYes)).
Qed.

(** Reading quadratic equations: a result does not depend on the room there is. *)
Theorem C90_quad_agrees : forall (E : pairing) (cs : codecs E) (p : room), agrees (quad_codec cs) (quad_rd cs p).
Proof. exact k_C90_quad_agrees. Qed.
Print Assumptions C90_quad_agrees.

(** In the small memory the eight bytes of [bomb] give no result, and a value with short vectors is read. *)
Example C90_quad_agrees_case : quad_rd (toys predT) tight Yes VNo bomb = None /\
  exists y, quad_rd (toys predT) tight Yes VYes (ser (quad_codec (toys predT)) Yes quad0) = Some y /\ y = de (quad_codec (toys predT)) Yes VYes (ser (quad_codec (toys predT)) Yes quad0).
Proof.
split; first by rewrite bomb_bytes -[le64 _]cats0; apply: (@quad_falls toy (toys predT) tight); [case/andP: two63 | exact: small_full].
have e := @quad_gets toy (toys predT) tight toys_good Yes VYes quad0 [::] (conj quad_case_fits isT).
rewrite cats0 in e; exists (DOk quad0 [::]); split; first exact: e.
exact: (@C90_quad_agrees toy (toys predT) tight Yes VYes _ _ e).
Qed.

(** With room for every length, allocation can be ignored. *)
Theorem C90_quad_enough : forall (E : pairing) (cs : codecs E) (p : room) m v bs, all_rooms p all_lengths ->
  quad_rd cs p m v bs = Some (de (quad_codec cs) m v bs).
Proof. exact k_C90_quad_enough. Qed.
Print Assumptions C90_quad_enough.

Example C90_quad_enough_case : quad_rd (toys predT) (Room predT predT predT predT predT predT) Yes VYes bomb = Some (de (quad_codec (toys predT)) Yes VYes bomb).
Proof. by apply: C90_quad_enough; split; [by move=> n | by move=> n | split; by move=> n]. Qed.

(** What was written is read back if there is room for it. *)
Theorem C90_quad_back : forall (E : pairing) (cs : codecs E) (p : room), elements_ok cs good_codec ->
  gets_back (fun x => quad_fits x /\ quad_room p x) (quad_codec cs) (quad_rd cs p).
Proof. exact k_C90_quad_back. Qed.
Print Assumptions C90_quad_back.

Example C90_quad_back_case : quad_rd (toys predT) tight No VYes (ser (quad_codec (toys predT)) No quad0 ++ bomb) = Some (DOk quad0 bomb).
Proof. exact: (@C90_quad_back toy (toys predT) tight toys_good No VYes quad0 bomb (conj quad_case_fits isT)). Qed.

(** Reading ends without a result only if the input announces a length that is refused. *)
Theorem C90_quad_blame : forall (E : pairing) (cs : codecs E) (p : room), elements_ok cs eats ->
  blames [:: r_fr p; r_row p] (quad_rd cs p).
Proof. exact k_C90_quad_blame. Qed.
Print Assumptions C90_quad_blame.

Example C90_quad_blame_case : quad_rd (toys predT) rust Yes VYes (bomb ++ [:: x01]) = None /\ exists a n b, bomb ++ [:: x01] = a ++ le64 n ++ b /\ ~~ (n <= 8)%N.
Proof.
have e : quad_rd (toys predT) rust Yes VYes (bomb ++ [:: x01]) = None.
  by rewrite bomb_bytes; apply: (@quad_falls toy (toys predT) rust); [case/andP: two63 | exact: rust_full].
split; first exact: e.
have [a [n [b [eb h]]]] := @C90_quad_blame toy (toys predT) rust toys_eat Yes VYes _ e.
exists a, n, b; split; first exact: eb.
by apply: contraL h => hn; rewrite /refuses /rust /= !capacity_small.
Qed.

(** If there is room for as many items as the input has bytes, it then was an error anyway. *)
Theorem C90_quad_errors : forall (E : pairing) (cs : codecs E) (p : room), elements_ok cs eats ->
  only_errors [:: r_fr p; r_row p] (quad_codec cs) (quad_rd cs p).
Proof. exact k_C90_quad_errors. Qed.
Print Assumptions C90_quad_errors.

Example C90_quad_errors_case : quad_rd (toys predT) rust No VYes bomb = None /\ exists e, de (quad_codec (toys predT)) No VYes bomb = DErr e.
Proof.
have e : quad_rd (toys predT) rust No VYes bomb = None.
  by rewrite bomb_bytes -[le64 _]cats0; apply: (@quad_falls toy (toys predT) rust); [case/andP: two63 | exact: rust_full].
split; first exact: e.
by apply: (@C90_quad_errors toy (toys predT) rust toys_eat No VYes bomb _ e) => n hn; rewrite /refuses /rust /= !capacity_small.
Qed.

(** Reading does not always end with a result: any refused length, at the start of the input, ends it, where without allocation there is an error. *)
Theorem C90_quad_total_refuted : forall (E : pairing) (cs : codecs E) (p : room), elements_ok cs eats -> forall n,
  (0 < n < 2 ^ 64)%N -> ~~ r_fr p n -> forall m v,
  (forall rest, quad_rd cs p m v (le64 n ++ rest) = None) /\ exists e, de (quad_codec cs) m v (le64 n) = DErr e.
Proof. exact k_C90_quad_total_refuted. Qed.
Print Assumptions C90_quad_total_refuted.

(** The limit of Rust. *)
Example C90_quad_total_case : quad_rd (toys predT) rust Yes VYes bomb = None.
Proof.
rewrite bomb_bytes -[le64 _]cats0.
exact: (proj1 (@C90_quad_total_refuted toy (toys predT) rust toys_eat _ two63 (@rust_full 1 isT) Yes VYes)).
Qed.

(** The limit of Rust refuses 2^63 items of any size but zero. *)
Theorem C90_capacity : forall sz, (0 < sz)%N -> ~~ capacity sz (2 ^ 63).
Proof. exact k_C90_capacity. Qed.
Print Assumptions C90_capacity.

Example C90_capacity_case : capacity 24 8 /\ ~~ capacity 24 (2 ^ 63).
Proof. by split; [exact: capacity_small | exact: C90_capacity]. Qed.

(** A receiver of an equation, a reference string, commitments and a proof: what it concludes does not depend on the room there is ... *)
Theorem C90_receive : forall (E : pairing) (cs : codecs E) (p : room) (Q : Type) (cq : codec Q) (rq : reader Q)
  (verify : Q -> CProof E -> CRS E -> res bool) m v bs y, agrees cq rq ->
  receive_rd p cs rq verify m v bs = Some y -> y = receive cs cq verify m v bs.
Proof. exact k_C90_receive. Qed.
Print Assumptions C90_receive.

Example C90_receive_case : forall bs y, receive_rd tight (toys predT) (ppe_rd (toys predT) tight) (ppe_verify fwd) No VYes bs = Some y ->
  y = receive (toys predT) (ppe_codec (toys predT)) (ppe_verify fwd) No VYes bs.
Proof. by move=> bs y; apply: C90_receive; exact: C90_ppe_agrees. Qed.

(** ... and it concludes, on what was sent, if there is room for it. *)
Theorem C90_receive_sent : forall (E : pairing) (cs : codecs E) (p : room) (Q : Type) (cq : codec Q) (rq : reader Q)
  (verify : Q -> CProof E -> CRS E -> res bool) (D : Q -> Prop) m v q crs cx cy pf rest,
  elements_ok cs good_codec -> gets_back D cq rq -> D q ->
  crs_fits crs -> crs_room p crs -> commit1_fits cx -> commit1_room p cx -> commit2_fits cy -> commit2_room p cy ->
  equproof_fits pf -> equproof_room p pf ->
  receive_rd p cs rq verify m v (sent cs cq m q crs cx cy pf ++ rest) = Some (DOk (verify q (mkCProof cx cy [:: pf]) crs) rest).
Proof. exact k_C90_receive_sent. Qed.
Print Assumptions C90_receive_sent.

Example C90_receive_sent_case : receive_rd tight (toys predT) (ppe_rd (toys predT) tight) (ppe_verify fwd) No VYes
  (sent (toys predT) (ppe_codec (toys predT)) No ppe0 crs0 (xcoms ppe_p0) (ycoms ppe_p0) (pf_of ppe_p0) ++ bomb) = Some (DOk (Ok true) bomb).
Proof.
rewrite (@C90_receive_sent toy (toys predT) tight _ _ _ (ppe_verify fwd) _ No VYes ppe0 crs0 (xcoms ppe_p0) (ycoms ppe_p0) (pf_of ppe_p0) bomb toys_good
  (@C90_ppe_back toy (toys predT) tight toys_good) (conj ppe_case_fits isT) crs_case_fits isT commit1_case_fits isT commit2_case_fits isT equproof_case_fits isT).
by congr (Some (DOk _ _)); exact: ppe_p0_ok.
Qed.

