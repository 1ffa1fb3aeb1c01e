(** Reading with allocation. [Vec::deserialize_with_mode] of ark-serialize reads a
    length and may reserve room for that many items before it reads them. A
    request that is too large ends the thread by a panic (capacity overflow) or the
    process. Codec.v leaves this out; here it is represented. Which requests are too
    large is a parameter. *)
From mathcomp Require Import all_ssreflect all_algebra.
From Coq Require Import Strings.Byte.
From Verif Require Import Base Group DataStructures Generator Commit Statement Prove Verify Codec.
Set Implicit Arguments.
Unset Strict Implicit.
Unset Printing Implicit Defensive.

(** [deserialize_with_mode] of a type; [None]: the request for memory is refused. *)
Definition reader (T : Type) := Compress -> Validate -> seq byte -> option (dres T).

(** The [?] operator; a refused request ends the reading. *)
Definition rbind {A B} (o : option (dres A)) (k : A -> seq byte -> option (dres B)) : option (dres B) :=
  match o with Some (DOk a r) => k a r | Some (DErr e) => Some (DErr e) | None => None end.

(** A type without vectors: a field element, a point, [EquType]. *)
Definition plain_rd {T} (c : codec T) : reader T := fun m v bs => Some (de c m v bs).

(** [Vec<T>] of ark-serialize; [ok n]: room for [n] items can be had. *)
Section Vec.
Context {T : Type} (ok : pred nat) (c : codec T) (rd : reader T).
(** [for _ in 0..len { values.push(T::deserialize_with_mode(..)?) }]. *)
Fixpoint items_rd (m : Compress) (n : nat) (bs : seq byte) : option (dres (seq T)) :=
  if n is n'.+1 then
    rbind (rd m VNo bs) (fun x r => rbind (items_rd m n' r) (fun xs r => Some (DOk (x :: xs) r)))
  else Some (DOk [::] bs).
(** The length, the request, the items, the check. *)
Definition vec_rd : reader (seq T) := fun m v bs =>
  rbind (Some (u64_de bs)) (fun n r =>
    if ok n then
      rbind (items_rd m n r) (fun xs r =>
        match v with
        | VYes => Some (if bchk c xs is Some e then DErr e else DOk xs r)
        | VNo => Some (DOk xs r) end)
    else None).
End Vec.

(** The derive macros: the fields in order of declaration. *)
Definition pair_rd {A B} (ra : reader A) (rb : reader B) : reader (A * B) := fun m v bs =>
  rbind (ra m v bs) (fun a r => rbind (rb m v r) (fun b r => Some (DOk (a, b) r))).
Definition struct_rd {A S} (ra : reader A) (of_fields : A -> S) : reader S := fun m v bs =>
  rbind (ra m v bs) (fun a r => Some (DOk (of_fields a) r)).

(** For each type of item, the numbers of items for which there is room. The types
    are [Com1], [Com2], [E::G1Affine], [E::G2Affine], [E::ScalarField] and
    [Vec<E::ScalarField>]. *)
Record room := Room { r_com1 : pred nat; r_com2 : pred nat; r_g1 : pred nat; r_g2 : pred nat;
  r_fr : pred nat; r_row : pred nat }.

Section Structs.
Context {E : pairing} (cs : codecs E) (p : room).

(** [Com1], [Com2], data_structures.rs:128-133. *)
Definition com1_rd : reader (Com1 E) :=
  struct_rd (pair_rd (plain_rd (c_g1 cs)) (plain_rd (c_g1 cs))) (fun f => (f.1, f.2)).
Definition com2_rd : reader (Com2 E) :=
  struct_rd (pair_rd (plain_rd (c_g2 cs)) (plain_rd (c_g2 cs))) (fun f => (f.1, f.2)).

(** [Matrix<E::ScalarField>], data_structures.rs:48. *)
Definition mat_rd : reader (matrix (Fr E)) :=
  vec_rd (r_row p) (vec_codec (c_fr cs)) (vec_rd (r_fr p) (c_fr cs) (plain_rd (c_fr cs))).
(** [Vec<Com1>], [Vec<Com2>], [Vec<E::G1Affine>], [Vec<E::G2Affine>], [Vec<E::ScalarField>]. *)
Definition com1s_rd : reader (seq (Com1 E)) := vec_rd (r_com1 p) (com1_codec cs) com1_rd.
Definition com2s_rd : reader (seq (Com2 E)) := vec_rd (r_com2 p) (com2_codec cs) com2_rd.
Definition g1s_rd : reader (seq (G1 E)) := vec_rd (r_g1 p) (c_g1 cs) (plain_rd (c_g1 cs)).
Definition g2s_rd : reader (seq (G2 E)) := vec_rd (r_g2 p) (c_g2 cs) (plain_rd (c_g2 cs)).
Definition frs_rd : reader (seq (Fr E)) := vec_rd (r_fr p) (c_fr cs) (plain_rd (c_fr cs)).

(** [CRS], generator.rs:35-42. *)
Definition crs_rd : reader (CRS E) :=
  struct_rd (pair_rd com1s_rd (pair_rd com2s_rd
      (pair_rd (plain_rd (c_g1 cs)) (pair_rd (plain_rd (c_g2 cs)) (plain_rd (c_gt cs))))))
    (fun f => let: (u, (v, (g1, (g2, gt)))) := f in mkCRS u v g1 g2 gt).
(** [Commit1], [Commit2], commit.rs:18-28. *)
Definition commit1_rd : reader (Commit1 E) := struct_rd (pair_rd com1s_rd mat_rd) (fun f => mkCommit f.1 f.2).
Definition commit2_rd : reader (Commit2 E) := struct_rd (pair_rd com2s_rd mat_rd) (fun f => mkCommit f.1 f.2).
(** [EquProof], prove.rs:55-61. *)
Definition equproof_rd : reader (EquProof E) :=
  struct_rd (pair_rd com2s_rd (pair_rd com1s_rd (pair_rd (plain_rd equtype_codec) mat_rd)))
    (fun f => let: (p, (th, (ty, r))) := f in mkEquProof p th ty r).
(** [PPE], statement.rs:117-123. *)
Definition ppe_rd : reader (PPE E) :=
  struct_rd (pair_rd g1s_rd (pair_rd g2s_rd (pair_rd mat_rd (plain_rd (c_gt cs)))))
    (fun f => let: (a, (b, (g, t))) := f in mkPPE a b g t).
(** [MSMEG1], statement.rs:138-144. *)
Definition ms1_rd : reader (MSMEG1 E) :=
  struct_rd (pair_rd g1s_rd (pair_rd frs_rd (pair_rd mat_rd (plain_rd (c_g1 cs)))))
    (fun f => let: (a, (b, (g, t))) := f in mkMSMEG1 a b g t).
(** [MSMEG2], statement.rs:159-165. *)
Definition ms2_rd : reader (MSMEG2 E) :=
  struct_rd (pair_rd frs_rd (pair_rd g2s_rd (pair_rd mat_rd (plain_rd (c_g2 cs)))))
    (fun f => let: (a, (b, (g, t))) := f in mkMSMEG2 a b g t).
(** [QuadEqu], statement.rs:179-185. *)
Definition quad_rd : reader (QuadEqu E) :=
  struct_rd (pair_rd frs_rd (pair_rd frs_rd (pair_rd mat_rd (plain_rd (c_fr cs)))))
    (fun f => let: (a, (b, (g, t))) := f in mkQuadEqu a b g t).
End Structs.
