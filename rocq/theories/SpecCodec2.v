(** Specifications for checks, validation and truncated input. *)
From mathcomp Require Import all_ssreflect all_algebra.
From Coq Require Import Strings.Byte.
From Verif Require Import Base Group DataStructures Commit Statement Codec SpecCodec.
Set Implicit Arguments.
Unset Strict Implicit.
Unset Printing Implicit Defensive.

(** Reading without validation what was written gives the value back. *)
Definition reads_raw {T} (D : T -> Prop) (c : codec T) : Prop :=
  forall m x rest, D x -> de c m VNo (ser c m x ++ rest) = DOk x rest.

(** The value passes [check]. *)
Definition passes {T} (c : codec T) (x : T) : Prop := chk c x = None.

(** Reading with validation accepts what is read without validation and passes [check],
    nothing else. *)
Definition validated_read {T} (c : codec T) : Prop :=
  forall m bs x r, de c m VYes bs = DOk x r <-> de c m VNo bs = DOk x r /\ passes c x.

(** [batch_check] accepts the batches all of whose items pass [check]. *)
Definition batch_exact {T} (c : codec T) : Prop :=
  forall s, bchk c s = None <-> List.Forall (passes c) s.

(** The three together; what is assumed of the element types. *)
Definition lawful {T} (D : T -> Prop) (c : codec T) : Prop :=
  reads_raw D c /\ validated_read c /\ batch_exact c.
Definition lawful_element (T : Type) (c : codec T) : Prop := lawful any c.

(** Reading a serialization of which the end is missing fails for lack of input. *)
Definition cut_short {T} (D : T -> Prop) (c : codec T) : Prop :=
  forall m v x p t, D x -> (v = VYes -> passes c x) -> ser c m x = p ++ t -> t <> [::] ->
  de c m v p = DErr IoError.
Definition cuttable_element (T : Type) (c : codec T) : Prop := lawful any c /\ cut_short any c.

(** All errors of reading and checking are in [Q]. *)
Definition errors_in {T} (Q : serr -> Prop) (c : codec T) : Prop :=
  (forall m v bs e, de c m v bs = DErr e -> Q e) /\ (forall s e, bchk c s = Some e -> Q e)
  /\ (forall x e, chk c x = Some e -> Q e).
