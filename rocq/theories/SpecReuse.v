(** Entry by entry differences of two lists. *)
From mathcomp Require Import all_ssreflect all_algebra.
Set Implicit Arguments.
Unset Strict Implicit.
Unset Printing Implicit Defensive.
Import GRing.Theory.
Local Open Scope ring_scope.

Definition minus {V : zmodType} (s t : seq V) : seq V := [seq p.1 - p.2 | p <- zip s t].
