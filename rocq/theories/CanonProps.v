(** C54.  The boundary MPS keeps, beside its tensors, a flag per site saying whether the tensor is known to
    be left- or right-canonical, and the position of the canonical centre.  [honest] (CanonSpec.v) says no
    flag claims what its tensor is not; [centred m c] that the tensors left of [c] are left isometries, those
    right of it right isometries, and that the flags and [center] say so; [same_state] that two lists of
    tensors have the same amplitude for every configuration.  [library] lists what the tensor library's
    factorisations guarantee. *)
From Coq Require Import List Arith Lia Bool ZArith.
From Verif Require Import Base CanonModel CanonSpec CanonProofs CanonMain.
Import ListNotations.

(** Centralize works from every honest state, whatever the flags were: the result is centred at the
    requested site and represents the same state. *)
Theorem c54_centralize : forall (L : library) (m : mps (lib L)) (c : nat), honest L m -> c < length (tens m) ->
  exists m', centralize (lib L) m c = Ok m' /\ centred L m' c /\ honest L m' /\ same_state L (tens m) (tens m').
Proof. exact centralize_ok. Qed.
Print Assumptions c54_centralize.

(** Any history of factorising calls, from a fresh MPS or from a product state, leaves the flags honest and
    the represented state unchanged. *)
Theorem c54_honest : forall (L : library) (l : list op) (m m' : mps (lib L)), Forall factorising l ->
  honest L m -> run (lib L) l m = Ok m' -> honest L m' /\ same_state L (tens m) (tens m').
Proof. exact run_factorising. Qed.
Print Assumptions c54_honest.
Theorem c54_fresh : forall (L : library) (l : list (mps_tensor (lib L))), honest L (raw (lib L) l).
Proof. exact honest_raw. Qed.
Print Assumptions c54_fresh.
Theorem c54_product : forall (L : library) (l : list (mps_tensor (lib L))), Forall (right_iso L) l ->
  honest L (product (lib L) l).
Proof. exact honest_product. Qed.
Print Assumptions c54_product.

(** Reverse mirrors the represented state. *)
Theorem c54_reverse_state : forall (L : library) (m m' : mps (lib L)) (c : list nat),
  reverse (lib L) m = Ok m' -> length c = length (tens m) ->
  amplitude L (tens m') (rev c) = tr L (amplitude L (tens m) c).
Proof. exact reverse_state. Qed.
Print Assumptions c54_reverse_state.

(** Reverse does not keep the flags: without a centre they are left alone, so a later Centralize believes
    them and reports a centre about which the MPS is not canonical ... *)
Theorem c54_reverse_refuted : exists (L : library) (m m' : mps (lib L)), honest L m
  /\ run (lib L) [LeftCanonicalize 1; Reverse; Centralize 2] m = Ok m'
  /\ center m' = Some 2 /\ nth_error (flags m') 0 = Some LEFT_FLAG
  /\ exists t, nth_error (tens m') 0 = Some t /\ ~ left_iso L t.
Proof.
  exists scalar_library, three. destruct reverse_uncentred as [m' H]. exists m'. exact (conj three_honest H).
Qed.
Print Assumptions c54_reverse_refuted.
(** ... and with a centre the flags are exchanged but stay at their old sites. *)
Theorem c54_reverse_centred_refuted : exists (L : library) (m m' : mps (lib L)), honest L m
  /\ run (lib L) [Centralize 0; Reverse] m = Ok m'
  /\ center m' = Some 2 /\ nth_error (flags m') 2 = Some LEFT_FLAG /\ nth_error (flags m') 0 = Some NONE
  /\ exists t, nth_error (tens m') 2 = Some t /\ ~ left_iso L t.
Proof.
  exists scalar_library, three. destruct reverse_centred as [m' H]. exists m'. exact (conj three_honest H).
Qed.
Print Assumptions c54_reverse_centred_refuted.

(** RightCanonicalizeTruncate changes two tensors and no flag. *)
Theorem c54_truncate_refuted : exists (L : library) (m m' : mps (lib L)), honest L m
  /\ run (lib L) [Centralize 2; RightCanonicalizeTruncate 2; RightCanonicalizeTruncate 1; Centralize 2] m = Ok m'
  /\ center m' = Some 2 /\ nth_error (flags m') 0 = Some LEFT_FLAG
  /\ exists t, nth_error (tens m') 0 = Some t /\ ~ left_iso L t.
Proof.
  exists scalar_library, three. destruct truncate_stale as [m' H]. exists m'. exact (conj three_honest H).
Qed.
Print Assumptions c54_truncate_refuted.

(** GetEntanglementEntropy moves the centre to site 0 and goes on reporting the last site. *)
Theorem c54_entropy_refuted : forall (L : library) (m : mps (lib L)), honest L m -> 3 <= length (tens m) ->
  exists m', entropy (lib L) m = Ok m' /\ center m' = Some (length (tens m) - 1)
    /\ ~ centred L m' (length (tens m) - 1) /\ honest L m'.
Proof. exact entropy_not_centred. Qed.
Print Assumptions c54_entropy_refuted.

(** A compressed MPS comes back with every site, the centre included, flagged right-canonical. *)
Theorem c54_compressed_refuted : exists (L : library) (l : list (mps_tensor (lib L))),
  Forall (right_iso L) (tl l) /\ ~ honest L (finalize (lib L) l).
Proof. exists scalar_library. exact finalize_first. Qed.
Print Assumptions c54_compressed_refuted.

(** a concrete MPS with three sites meets the hypotheses *)
Example c54_inhabited : honest scalar_library three /\ 1 < length (tens three)
  /\ exists m', centralize scalars three 1 = Ok m' /\ tens m' = [1; 30; 1]%Z /\ flags m' = [LEFT_FLAG; NONE; RIGHT_FLAG].
Proof. split; [exact three_honest|]. split; [simpl; lia|]. eexists. vm_compute. auto. Qed.
