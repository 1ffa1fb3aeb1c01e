(** Codecs for the points of [Concrete13.v]: a byte, of which the fourth bit
    marks the points outside the group. *)
From mathcomp Require Import all_ssreflect all_algebra.
From Coq Require Import Strings.Byte.
From Verif Require Import Base Group DataStructures Generator Commit Statement Prove Verify Spec.
From Verif Require Import Concrete Codec SpecCodec CodecLemmas Concrete3 Ark SpecArk ArkRel Concrete13 ArkCodec SpecWire.
Set Implicit Arguments.
Unset Strict Implicit.
Unset Printing Implicit Defensive.
Import GRing.Theory.
Local Open Scope ring_scope.

Definition pt_de (m : Compress) (v : Validate) (bs : seq byte) : dres (F7 * bool) :=
  if bs is b :: r then
    let n := to_nat b in
    if (n %% 8 < 7)%N && (n < 16)%N && (if v is VYes then (n < 8)%N else true) then DOk ((n %% 8)%:R, (8 <= n)%N) r else DErr InvalidData
  else DErr IoError.
Definition pt_codec : codec (aff tcurve) :=
  Codec (fun m (a : F7 * bool) => [:: byte_of (val a.1 + 8 * nat_of_bool a.2)]) pt_de (fun m _ => 1%N)
    (fun a => if a.2 then Some InvalidData else None)
    (fun s => if has snd s then Some InvalidData else None).
Definition tcs : ark_codecs tark := @ArkCodecs F7 tark (toy_codec predT) pt_codec pt_codec (toy_codec predT).

Lemma pt_members : reads_members (fun a => exists x, ra trepr x a) pt_codec.
Proof.
split.
- move=> m v a rest [x ->]; rewrite [ser _ _ _]/= muln0 addn0 /= toy_byte.
  have hx : (val x < 7)%N := ltn_ord x.
  have h8 : (val x < 8)%N := ltnW hx.
  by rewrite (modn_small h8) hx h8 (leq_trans h8) // toy_nat leqNgt h8; case: v.
- by move=> s hs; rewrite /= (_ : has snd s = false) //; elim: hs => //= a l [x ->].
- split; last first.
    move=> s /=; case: ifP => // h _; elim: s h => [|[x b] s IH] /=; first by constructor.
    by case: b => //= /IH hs; constructor=> //; exists x.
  move=> m [|b bs] a r //=; case: ifP => // /andP[_ h] [<- _]; exists (to_nat b %% 8)%:R.
  by rewrite leqNgt h.
Qed.

Lemma tcs_transports : transports (E := toy) (A := tark) trepr trepr (fun x a => x = a) tcs.
Proof.
have hg := @toy_back predT (fun x => isT).
split; [exact: hg | exact: pt_members | exact: pt_members | split].
- by move=> m v x rest _; apply: hg.1.
- by move=> s _; apply: hg.2; exact: forall_any.
- by split=> [m bs x r _|s _]; [exists x | elim: s => [|x s IH]; constructor=> //; exists x].
Qed.

(** Read without validation, such a proof is accepted. *)
Definition taken (verify : ark_CProof tark -> res bool) (r : dres (ark_CProof tark)) : bool :=
  if r is DOk p [::] then (if verify p is Ok b then b else false) && has (fun c => c.1.2) (ark_coms (ark_xcoms p)) else false.
Lemma takenP verify r : taken verify r -> exists p, [/\ r = DOk p [::], verify p = Ok true & ~ exists c, rseq (rcom trepr) c (ark_coms (ark_xcoms p))].
Proof.
case: r => [p [|//]|//] /=; case hv : (verify p) => [[|//]|//] /= h; exists p; split=> // -[c].
elim: (ark_coms (ark_xcoms p)) c h => [|c0 s IH] [|c1 s1] //= /orP[h|h] [hc hs]; last exact: IH h hs.
by case: hc => /= e _; rewrite e in h.
Qed.
Lemma out_ppe_taken : taken (fun p => ark_ppe_verify fwd tppe p tcrs) (ark_read tcs No VNo (ark_send tcs No (out_proof tp_ppe))).
Proof. by vm_compute. Qed.
Lemma out_ppe_refused : ark_check tcs (fun p => ark_ppe_verify fwd tppe p tcrs) No VYes (ark_send tcs No (out_proof tp_ppe)) = None.
Proof. by vm_compute. Qed.
Lemma out_ms1_taken : taken (fun p => ark_ms1_verify fwd tms1 p tcrs) (ark_read tcs No VNo (ark_send tcs No (out_proof tp_ms1))).
Proof. by vm_compute. Qed.
Lemma out_ms1_refused : ark_check tcs (fun p => ark_ms1_verify fwd tms1 p tcrs) No VYes (ark_send tcs No (out_proof tp_ms1)) = None.
Proof. by vm_compute. Qed.
Lemma out_ms2_taken : taken (fun p => ark_ms2_verify fwd tms2 p tcrs) (ark_read tcs No VNo (ark_send tcs No (out_proof tp_ms2))).
Proof. by vm_compute. Qed.
Lemma out_ms2_refused : ark_check tcs (fun p => ark_ms2_verify fwd tms2 p tcrs) No VYes (ark_send tcs No (out_proof tp_ms2)) = None.
Proof. by vm_compute. Qed.
Lemma out_quad_taken : taken (fun p => ark_quad_verify fwd tquad p tcrs) (ark_read tcs No VNo (ark_send tcs No (out_proof tp_quad))).
Proof. by vm_compute. Qed.
Lemma out_quad_refused : ark_check tcs (fun p => ark_quad_verify fwd tquad p tcrs) No VYes (ark_send tcs No (out_proof tp_quad)) = None.
Proof. by vm_compute. Qed.
