(** Statements about histories, and a concrete library of tensors: one-dimensional bonds and a
    one-dimensional physical leg, with integer entries. *)
From Coq Require Import List Arith Lia Bool ZArith.
From Verif Require Import Base CanonModel CanonSpec CanonProofs.
Import ListNotations.

Lemma entropy_not_centred : forall (L : library) (m : mps (lib L)), honest L m -> 3 <= length (tens m) ->
  exists m', entropy (lib L) m = Ok m' /\ center m' = Some (length (tens m) - 1)
    /\ ~ centred L m' (length (tens m) - 1) /\ honest L m'.
Proof.
  intros L m H N. destruct (entropy_ok L m H) as (m' & E & H' & Le & F & C); [lia|].
  exists m'. split; [exact E|]. split; [exact C|]. split; [|exact H'].
  intros [_ X]. destruct (nth_error (tens m') 1) as [t|] eqn:T.
  - destruct (X 1 t T) as [X1 _]. destruct X1 as [_ X1]; [lia|]. rewrite F in X1 by lia. discriminate.
  - apply nth_error_None in T. lia.
Qed.

Local Open Scope Z_scope.
Definition scalars : tensors := {|
  mps_tensor := Z; bond_matrix := Z;
  qr := fun t => (1, t); lq := fun t => (t, 1); svd := fun t => (t, 1); svd_truncated := fun t => (t, 1);
  absorb_left := fun r t => r * t; absorb_right := fun t l => t * l;
  transpose := fun t => t; normalize := fun t => Z.sgn t |}.
Definition scalar_library : library.
Proof.
  refine {| lib := scalars; matrix := Z; mul := Z.mul; one := 1; slice := fun t _ => t : Z; bond := fun r => r : Z;
            tr := fun a => a; left_iso := fun t => t = 1 :> Z; right_iso := fun t => t = 1 :> Z |}; cbn -[Z.mul]; intros;
    try reflexivity; try ring; try assumption.
Defined.

Definition three : mps (lib scalar_library) := raw scalars [2; 3; 5].
Lemma reverse_uncentred : exists m', run scalars [LeftCanonicalize 1; Reverse; Centralize 2] three = Ok m'
  /\ center m' = Some 2%nat /\ nth_error (flags m') 0 = Some LEFT_FLAG
  /\ exists t, nth_error (tens m') 0 = Some t /\ ~ left_iso scalar_library t.
Proof.
  eexists. split; [vm_compute; reflexivity|]. split; [reflexivity|]. split; [reflexivity|].
  eexists. split; [reflexivity|]. simpl. discriminate.
Qed.
Lemma reverse_centred : exists m', run scalars [Centralize 0; Reverse] three = Ok m'
  /\ center m' = Some 2%nat /\ nth_error (flags m') 2 = Some LEFT_FLAG /\ nth_error (flags m') 0 = Some NONE
  /\ exists t, nth_error (tens m') 2 = Some t /\ ~ left_iso scalar_library t.
Proof.
  eexists. split; [vm_compute; reflexivity|]. split; [reflexivity|]. split; [reflexivity|]. split; [reflexivity|].
  eexists. split; [reflexivity|]. simpl. discriminate.
Qed.
Lemma truncate_stale : exists m',
  run scalars [Centralize 2; RightCanonicalizeTruncate 2; RightCanonicalizeTruncate 1; Centralize 2] three = Ok m'
  /\ center m' = Some 2%nat /\ nth_error (flags m') 0 = Some LEFT_FLAG
  /\ exists t, nth_error (tens m') 0 = Some t /\ ~ left_iso scalar_library t.
Proof.
  eexists. split; [vm_compute; reflexivity|]. split; [reflexivity|]. split; [reflexivity|].
  eexists. split; [reflexivity|]. simpl. discriminate.
Qed.
Lemma finalize_first : exists l : list (mps_tensor scalars),
  Forall (right_iso scalar_library) (tl l) /\ ~ honest scalar_library (finalize scalars l).
Proof.
  exists [7; 1; 1]. split; [simpl; repeat constructor|].
  intros (_ & _ & H). specialize (H 0%nat 7 eq_refl eq_refl). simpl in H. discriminate.
Qed.
Lemma three_honest : honest scalar_library three.
Proof. apply honest_raw. Qed.
