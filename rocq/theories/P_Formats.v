(** C94: the formats of field elements and points. *)
From mathcomp Require Import all_ssreflect all_algebra.
From Coq Require Import Strings.Byte.
From Verif Require Import Base Group DataStructures Generator Commit Statement Prove Verify Spec Codec SpecCodec SpecCodec2 Ark SpecArk ArkCodec SpecWire SpecTwice Formats SpecFormats FormatsProps Concrete Concrete22 Concrete23.
Set Implicit Arguments.
Unset Strict Implicit.
Unset Printing Implicit Defensive.
Import GRing.Theory.
Local Open Scope ring_scope.

(** The integers modulo a prime that leaves two bits free can be numbered. *)
Theorem C94_prime_field :
  forall p n0 n : nat, prime p -> (p <= 256 ^ n0)%N -> (4 * p <= 256 ^ n)%N -> good_numbering (fp_numbering p n0 n).
Proof. exact k_prime_field. Qed.
Print Assumptions C94_prime_field.

Example C94_prime_field_case :
  good_numbering (fp_numbering 13 1 1).
Proof. exact: (@C94_prime_field 13 1 1). Qed.

(** A quadratic extension of a field that can be numbered can be. *)
Theorem C94_extension :
  forall (K L : Type) (coefs : L -> K * K) (of_coefs : K * K -> L) (N : numbering K), cancel coefs of_coefs -> cancel of_coefs coefs ->
  good_numbering N -> good_numbering (ext_numbering coefs of_coefs N).
Proof. exact k_extension. Qed.
Print Assumptions C94_extension.

Example C94_extension_case :
  good_numbering (ext_numbering (id : F13 * F13 -> F13 * F13) id num13) /\ num (ext_numbering (id : F13 * F13 -> F13 * F13) id num13) (n13 4, n13 2) = 516%N.
Proof. by split; [apply: C94_extension => //; exact: num13_good | vm_compute]. Qed.

(** Field elements that pass the check, and no others, are read back with validation. *)
Theorem C94_field_members :
  forall (K : Type) (N : numbering K) (ok : K -> bool), good_numbering N -> reads_members (fun x => ok x) (fp_codec N ok).
Proof. exact k_field_members. Qed.
Print Assumptions C94_field_members.

Example C94_field_members_case :
  reads_members (fun x : F13 => x * x == 1) (fp_codec num13 (fun x => x * x == 1)) /\ de (fp_codec num13 (fun x : F13 => x * x == 1)) Yes VYes [:: byte_of 5] = DErr InvalidData.
Proof. by split; [exact: (C94_field_members _ num13_good) | vm_compute]. Qed.

(** They have one encoding. *)
Theorem C94_field_canonical :
  forall (K : Type) (N : numbering K) (ok : K -> bool), good_numbering N -> SpecCodec.canonical (fp_codec N ok).
Proof. exact k_field_canonical. Qed.
Print Assumptions C94_field_canonical.

Example C94_field_canonical_case :
  SpecCodec.canonical (fp_codec num13 (fun _ : F13 => true)) /\ de (fp_codec num13 (fun _ : F13 => true)) Yes VNo [:: byte_of 13] = DErr InvalidData.
Proof. by split; [exact: (@C94_field_canonical _ _ _ num13_good) | vm_compute]. Qed.

(** Their size is the number of bytes without flags. *)
Theorem C94_field_size :
  forall (K : Type) (N : numbering K) (ok : K -> bool), size_exact (fp_codec N ok).
Proof. exact k_field_size. Qed.
Print Assumptions C94_field_size.

Example C94_field_size_case :
  ssize (fp_codec num13 (fun _ : F13 => true)) Yes (n13 5) = 1%N.
Proof. by []. Qed.

(** Validation is the check, and missing bytes are noticed. *)
Theorem C94_field_cuttable :
  forall (K : Type) (N : numbering K) (ok : K -> bool), good_numbering N -> cuttable_element (fp_codec N ok).
Proof. exact k_field_cuttable. Qed.
Print Assumptions C94_field_cuttable.

Example C94_field_cuttable_case :
  cuttable_element (fp_codec num13 (fun x : F13 => x != 0)) /\ de (fp_codec num13 (fun x : F13 => x != 0)) Yes VYes [::] = DErr IoError.
Proof. by split; [exact: (C94_field_cuttable _ num13_good) | vm_compute]. Qed.

(** The points of the group, and no others, are read back with validation. *)
Theorem C94_point_members :
  forall (K : fieldType) (N : numbering K) (C : sw K), good_numbering N -> good_sqrt C -> reads_members (in_group C) (sw_codec N C).
Proof. exact k_point_members. Qed.
Print Assumptions C94_point_members.

Example C94_point_members_case :
  reads_members (in_group scurve) (sw_codec num13 scurve) /\
  de (sw_codec num13 scurve) Yes VYes (ser (sw_codec num13 scurve) Yes (Some (n13 2, n13 1))) = DErr InvalidData.
Proof. by split; [exact: (C94_point_members num13_good root13_good) | vm_compute]. Qed.

(** Without validation the points of the curve are read back, and validation is [check]. *)
Theorem C94_point_lawful :
  forall (K : fieldType) (N : numbering K) (C : sw K), good_numbering N -> good_sqrt C -> lawful (on_curve C) (sw_codec N C).
Proof. exact k_point_lawful. Qed.
Print Assumptions C94_point_lawful.

Example C94_point_lawful_case :
  lawful (on_curve scurve) (sw_codec num13 scurve) /\
  (if de (sw_codec num13 scurve) Yes VNo (ser (sw_codec num13 scurve) Yes (Some (n13 2, n13 12))) is DOk P [::] then (P : pt13) == Some (n13 2, n13 12) else false).
Proof. by split; [exact: (C94_point_lawful num13_good root13_good) | vm_compute]. Qed.

(** Sizes of points. *)
Theorem C94_point_size :
  forall (K : fieldType) (N : numbering K) (C : sw K), size_exact (sw_codec N C).
Proof. exact k_point_size. Qed.
Print Assumptions C94_point_size.

Example C94_point_size_case :
  ssize (sw_codec num13 scurve) No gen13 = 2%N.
Proof. by []. Qed.

(** Missing bytes are noticed. *)
Theorem C94_point_cut :
  forall (K : fieldType) (N : numbering K) (C : sw K), good_numbering N -> cut_short any (sw_codec N C).
Proof. exact k_point_cut. Qed.
Print Assumptions C94_point_cut.

Example C94_point_cut_case :
  cut_short any (sw_codec num13 scurve) /\ de (sw_codec num13 scurve) No VYes (take 1 (ser (sw_codec num13 scurve) No gen13)) = DErr IoError.
Proof. by split; [exact: (@C94_point_cut _ _ scurve num13_good) | vm_compute]. Qed.

(** Three of the four errors occur. *)
Theorem C94_point_errors :
  forall (K : fieldType) (N : numbering K) (C : sw K), errors_in (fun e => e <> NotEnoughSpace) (sw_codec N C).
Proof. exact k_point_errors. Qed.
Print Assumptions C94_point_errors.

Example C94_point_errors_case :
  de (sw_codec num13 scurve) Yes VNo [:: byte_of 192] = DErr UnexpectedFlags.
Proof. by vm_compute. Qed.

(** Exactly which inputs are reported as too short. *)
Theorem C94_field_io :
  forall (K : Type) (N : numbering K) (ok : K -> bool) m v bs,
  de (fp_codec N ok) m v bs = DErr IoError <-> (size bs < plain_len N)%N.
Proof. exact k_field_io. Qed.
Print Assumptions C94_field_io.

Example C94_field_io_case :
  de (fp_codec num13 (fun _ : F13 => true)) Yes VYes [:: byte_of 13] = DErr InvalidData.
Proof. by vm_compute. Qed.

(** For points, uncompressed, the first coordinate is read before the length of the second is looked at. *)
Theorem C94_point_io :
  forall (K : fieldType) (N : numbering K) (C : sw K) v bs,
  (de (sw_codec N C) Yes v bs = DErr IoError <-> (size bs < flag_len N)%N) /\
  (de (sw_codec N C) No v bs = DErr IoError <->
    (size bs < plain_len N)%N \/ (size bs < plain_len N + flag_len N)%N /\ unnum N (le_val (take (plain_len N) bs)) <> None).
Proof. exact k_point_io. Qed.
Print Assumptions C94_point_io.

Example C94_point_io_case :
  de (sw_codec num13 scurve) No VNo [:: byte_of 0] = DErr IoError /\ de (sw_codec num13 scurve) No VNo [:: byte_of 13] = DErr InvalidData.
Proof. by split; vm_compute. Qed.

(** Exactly which inputs have the flags that are not used: both of the two highest bits set. *)
Theorem C94_point_flags :
  forall (K : fieldType) (N : numbering K) (C : sw K) v bs, good_numbering N ->
  de (sw_codec N C) Yes v bs = DErr UnexpectedFlags <-> (flag_len N <= size bs)%N /\ (192 <= to_nat (nth x00 bs (flag_len N).-1))%N.
Proof. exact k_point_flags. Qed.
Print Assumptions C94_point_flags.

Example C94_point_flags_case :
  de (sw_codec num13 scurve) Yes VYes [:: byte_of 197] = DErr UnexpectedFlags.
Proof. by apply/(C94_point_flags scurve VYes _ num13_good). Qed.

(** Compressed, a point that is not its own negative has one encoding. *)
Theorem C94_point_one :
  forall (K : fieldType) (N : numbering K) (C : sw K), good_numbering N -> one_at Yes (@two_valued K) (sw_codec N C).
Proof. exact k_point_one. Qed.
Print Assumptions C94_point_one.

Example C94_point_one_case :
  one_at Yes (@two_valued F13) (sw_codec num13 scurve) /\ two_valued (Some (n13 9, n13 12)).
Proof. by split; [exact: (@C94_point_one _ _ scurve num13_good) | apply/eqP; vm_compute]. Qed.

(** Compressed, a point of the group has another encoding exactly if it is the point at infinity or has [y = -y]. *)
Theorem C94_point_exact :
  forall (K : fieldType) (N : numbering K) (C : sw K) P, good_numbering N -> good_sqrt C -> in_group C P -> (other Yes (sw_codec N C) P <-> ~ two_valued P).
Proof. exact k_point_exact. Qed.
Print Assumptions C94_point_exact.

Example C94_point_exact_case :
  other Yes (sw_codec num13 scurve) None /\ (if de (sw_codec num13 scurve) Yes VYes [:: byte_of 69] is DOk P [::] then (P : pt13) == None else false).
Proof. by split; [apply/(C94_point_exact num13_good root13_good) | vm_compute]. Qed.

(** Uncompressed, every point of the group has another encoding. *)
Theorem C94_point_uncompressed :
  forall (K : fieldType) (N : numbering K) (C : sw K) P, good_numbering N -> in_group C P -> other No (sw_codec N C) P.
Proof. exact k_point_uncompressed. Qed.
Print Assumptions C94_point_uncompressed.

Example C94_point_uncompressed_case :
  other No (sw_codec num13 scurve) gen13 /\
  ser (sw_codec num13 scurve) No gen13 = [:: byte_of 0; byte_of 2] /\ (if de (sw_codec num13 scurve) No VYes [:: byte_of 0; byte_of 130] is DOk P [::] then (P : pt13) == gen13 else false).
Proof. by split; [apply: (C94_point_uncompressed num13_good); exact/member13P | split; vm_compute]. Qed.

(** So on no curve is the format of points canonical. *)
Theorem C94_point_canonical_refuted :
  forall (K : fieldType) (N : numbering K) (C : sw K), good_numbering N -> ~ SpecCodec.canonical (sw_codec N C).
Proof. exact k_point_canonical_refuted. Qed.
Print Assumptions C94_point_canonical_refuted.

Example C94_point_canonical_refuted_case :
  ~ SpecCodec.canonical (sw_codec num13 scurve).
Proof. exact: (@C94_point_canonical_refuted _ _ scurve num13_good). Qed.

(** What C82 assumes of the element types is true of these formats. *)
Theorem C94_transports :
  forall (E : pairing) (A : ark (Fr E)) (r1 : repr (G1 E) (C1 A)) (r2 : repr (G2 E) (C2 A)) (rt : GT E -> out A -> Prop) (X : standard A), good_standard X ->
  (forall a, (exists x, ra r1 x a) <-> member1 X a) -> (forall a, (exists x, ra r2 x a) <-> member2 X a) -> (forall o, (exists x, rt x o) <-> st_ok X o) ->
  transports r1 r2 rt (standard_codecs X).
Proof. exact k_transports. Qed.
Print Assumptions C94_transports.

Example C94_transports_case :
  transports (E := toy) (A := sark) srepr srepr (fun x a => x = a) (standard_codecs sstd) /\ implements (E := toy) (A := sark) srepr srepr (fun x a => x = a).
Proof. by split; [apply: (@C94_transports toy sark srepr srepr (fun x a => x = a) sstd sstd_good) => [a|a|o]; [exact: pt_member | exact: pt_member | split=> // _; exists o] | exact: sark_ok]. Qed.

(** Uncompressed, every commitment has another encoding. *)
Theorem C94_commit1_uncompressed :
  forall (F : fieldType) (A : ark F) (X : standard A) (x : ark_Commit1 A), good_standard X -> List.Forall (ark_com1_all (member1 X)) (ark_coms x) -> ark_commit1_fits x ->
  ark_coms x <> [::] -> other No (ark_commit1_codec (standard_codecs X)) x.
Proof. exact k_commit1_uncompressed. Qed.
Print Assumptions C94_commit1_uncompressed.

Example C94_commit1_uncompressed_case :
  other No (ark_commit1_codec (standard_codecs sstd)) s_commit1.
Proof. apply: (C94_commit1_uncompressed sstd_good); [each | exact: s_commit1_fits | by []]. Qed.

(** Compressed, only commitments with such points do. *)
Theorem C94_commit1_compressed :
  forall (F : fieldType) (A : ark F) (X : standard A), good_standard X ->
  one_at Yes (fun x : ark_Commit1 A => List.Forall (ark_com1_all (regular1 X)) (ark_coms x)) (ark_commit1_codec (standard_codecs X)).
Proof. exact k_commit1_compressed. Qed.
Print Assumptions C94_commit1_compressed.

Example C94_commit1_compressed_case :
  List.Forall (ark_com1_all (regular1 sstd)) [:: (pt (n7 1), pt (n7 3))].
Proof. each. Qed.

(** Uncompressed, every commitment has another encoding. *)
Theorem C94_commit2_uncompressed :
  forall (F : fieldType) (A : ark F) (X : standard A) (x : ark_Commit2 A), good_standard X -> List.Forall (ark_com2_all (member2 X)) (ark_coms x) -> ark_commit2_fits x ->
  ark_coms x <> [::] -> other No (ark_commit2_codec (standard_codecs X)) x.
Proof. exact k_commit2_uncompressed. Qed.
Print Assumptions C94_commit2_uncompressed.

Example C94_commit2_uncompressed_case :
  other No (ark_commit2_codec (standard_codecs sstd)) s_commit2.
Proof. apply: (C94_commit2_uncompressed sstd_good); [each | exact: s_commit2_fits | by []]. Qed.

(** Compressed, only commitments with such points do. *)
Theorem C94_commit2_compressed :
  forall (F : fieldType) (A : ark F) (X : standard A), good_standard X ->
  one_at Yes (fun x : ark_Commit2 A => List.Forall (ark_com2_all (regular2 X)) (ark_coms x)) (ark_commit2_codec (standard_codecs X)).
Proof. exact k_commit2_compressed. Qed.
Print Assumptions C94_commit2_compressed.

Example C94_commit2_compressed_case :
  List.Forall (ark_com2_all (regular2 sstd)) [:: (pt (n7 1), pt (n7 3))].
Proof. each. Qed.

(** The same for equation proofs. *)
Theorem C94_equproof_uncompressed :
  forall (F : fieldType) (A : ark F) (X : standard A) (x : ark_EquProof A), good_standard X -> List.Forall (ark_com2_all (member2 X)) (ark_pi x) -> List.Forall (ark_com1_all (member1 X)) (ark_theta x) ->
  ark_equproof_fits x -> ark_pi x <> [::] \/ ark_theta x <> [::] -> other No (ark_equproof_codec (standard_codecs X)) x.
Proof. exact k_equproof_uncompressed. Qed.
Print Assumptions C94_equproof_uncompressed.

Example C94_equproof_uncompressed_case :
  other No (ark_equproof_codec (standard_codecs sstd)) s_equproof.
Proof. apply: (C94_equproof_uncompressed sstd_good); [each | each | exact: s_equproof_fits | by right]. Qed.

Theorem C94_equproof_compressed :
  forall (F : fieldType) (A : ark F) (X : standard A), good_standard X ->
  one_at Yes (fun x : ark_EquProof A => List.Forall (ark_com2_all (regular2 X)) (ark_pi x) /\ List.Forall (ark_com1_all (regular1 X)) (ark_theta x)) (ark_equproof_codec (standard_codecs X)).
Proof. exact k_equproof_compressed. Qed.
Print Assumptions C94_equproof_compressed.

Example C94_equproof_compressed_case :
  List.Forall (ark_com2_all (regular2 sstd)) [:: (pt (n7 1), pt (n7 6))].
Proof. each. Qed.

(** The bytes of a proof sent uncompressed can be changed so that the verifier reads the same proof. *)
Theorem C94_proof_malleable :
  forall (F : fieldType) (A : ark F) (X : standard A) (p : ark_CProof A), good_standard X -> List.Forall (ark_com1_all (member1 X)) (ark_coms (ark_xcoms p)) -> ark_commit1_fits (ark_xcoms p) ->
  ark_coms (ark_xcoms p) <> [::] ->
  exists2 bs, bs <> ark_send (standard_codecs X) No p & forall v, ark_read (standard_codecs X) No v bs = ark_read (standard_codecs X) No v (ark_send (standard_codecs X) No p).
Proof. exact k_proof_malleable. Qed.
Print Assumptions C94_proof_malleable.

Example C94_proof_malleable_case :
  exists2 bs, bs <> ark_send (standard_codecs sstd) No sproof & forall v, ark_read (standard_codecs sstd) No v bs = ark_read (standard_codecs sstd) No v (ark_send (standard_codecs sstd) No sproof).
Proof. apply: (C94_proof_malleable sstd_good); [each | exact: s_commit1_fits | by []]. Qed.

