(** The projection of a loop gate (LocalSquareLoopProject). *)
From Coq Require Import List Arith Lia Bool Reals Lra.
From Verif Require Import Base Cplx SumModel SumSpec TrgTensor ProjModel ProjSpec ProjExample LoopModel LoopSpec LoopDone LoopEnd LoopExample.
Import ListNotations.
Local Open Scope nat_scope.

(** Common hypotheses, in words. [qr_any], [svd_any], [svd_up_to m], [evd_unitary]: the decompositions of the tensor library multiply
    back to what they decompose, the truncating SVD at least for matrices with at most m rows or columns, and eigenvectors are
    orthonormal. [eig_shape]: the dominant eigenvectors are square matrices, and nothing else is assumed of the solver. [sound]: the
    legs and weights of the PEPS fit together. [loop_valid], [loop_fits]: the four sites are a loop of the lattice, and the gate has
    their dimensions. [loop_room]: the bonds of the loop times those of the gate are at most m. *)

(** *** C80 *)
(** When no square root that is inverted is below the tolerance and the norm is not zero, the new state, times the norm that is
    returned, is the old state with the gate applied to the four sites. *)
Theorem c80_projection_applies_gate :
  forall qr svd svdt evd eigvec m, qr_any qr -> svd_any svd -> svd_up_to m svdt -> evd_unitary evd -> eig_shape eigvec ->
  forall pr P gate r c, (0 < l_inv_tol pr)%R -> sound (l_env_tol pr) P -> loop_valid P r c -> loop_fits P r c gate -> loop_room m P r c gate ->
  forall out, loop_project qr svd svdt evd eigvec pr gate P r c = Ok out ->
  Forall (fun y => (l_inv_tol pr <= y)%R) (lr_roots out) -> lr_norm out <> 0%R ->
  forall s, proper P s -> (RtoC (lr_norm out) * wave (lr_peps out) s)%C = gate4 gate (corner (p_rows P) (p_cols P) r c) (wave P) s.
Proof. exact loop_applies. Qed.
Print Assumptions c80_projection_applies_gate.

(** If besides no new weight is so small that its inverse is set to zero, legs and weights still fit together, so that the next
    projection can follow. *)
Theorem c80_result_sound :
  forall qr svd svdt evd eigvec m, qr_any qr -> svd_any svd -> svd_up_to m svdt -> evd_unitary evd -> eig_shape eigvec ->
  forall pr P gate r c, (0 < l_inv_tol pr)%R -> sound (l_env_tol pr) P -> loop_valid P r c -> loop_fits P r c gate -> loop_room m P r c gate ->
  forall out, loop_project qr svd svdt evd eigvec pr gate P r c = Ok out ->
  Forall (fun y => (l_inv_tol pr <= y)%R) (lr_roots out) -> lr_norm out <> 0%R ->
  (forall i, i < 4 -> kept (l_env_tol pr) (lam_of (lr_peps out) (side (p_rows P) (p_cols P) r c i))) ->
  let Q := lr_peps out in sound (l_env_tol pr) Q /\ p_rows Q = p_rows P /\ p_cols Q = p_cols P /\ p_per Q = p_per P /\ forall i j, i < p_rows P -> j < p_cols P -> phys Q i j = phys P i j.
Proof. exact loop_sound. Qed.
Print Assumptions c80_result_sound.

(** The projection comes to an end, with a norm that is not zero, whenever the new state is not zero and the matrices whose roots are
    inverted are well conditioned: no Upsilon is found asymmetric, and no conjugate gradients fail. *)
Theorem c80_projection_succeeds :
  forall qr svd svdt evd eigvec m, qr_any qr -> svd_any svd -> svd_up_to m svdt -> evd_unitary evd -> eig_shape eigvec ->
  forall pr P gate r c, (0 < l_inv_tol pr)%R -> (0 < l_correct pr)%R -> (0 <= l_warn pr)%R ->
  sound (l_env_tol pr) P -> loop_valid P r c -> loop_fits P r c gate -> loop_room m P r c gate -> conditioned qr svd evd eigvec pr gate P r c ->
  (exists s, proper P s /\ gate4 gate (corner (p_rows P) (p_cols P) r c) (wave P) s <> RtoC 0) ->
  exists out, loop_project qr svd svdt evd eigvec pr gate P r c = Ok out /\ lr_norm out <> 0%R /\ Forall (fun y => (l_inv_tol pr <= y)%R) (lr_roots out).
Proof. exact loop_succeeds. Qed.
Print Assumptions c80_projection_succeeds.

(** The second number that is returned is the expectation value of the gate in the old loop with its outer weights, whatever the
    truncation: <loop| gate |loop> / <loop|loop>. *)
Theorem c80_ratio :
  forall qr svd svdt evd eigvec, qr_any qr -> svd_any svd ->
  forall pr P gate r c, sound (l_env_tol pr) P -> loop_valid P r c -> loop_fits P r c gate ->
  forall out, loop_project qr svd svdt evd eigvec pr gate P r c = Ok out ->
  lr_ratio out = fst (Cdiv (loop_element gate P r c) (loop_square P r c)).
Proof. exact loop_ratio. Qed.
Print Assumptions c80_ratio.

(** Whatever the truncation, nothing outside of the loop changes, and the four tensors and the four weights of the loop are left
    normalised. *)
Theorem c80_stored :
  forall qr svd svdt evd eigvec, qr_any qr -> svd_any svd ->
  forall pr P gate r c, sound (l_env_tol pr) P -> loop_valid P r c -> loop_fits P r c gate ->
  forall out, loop_project qr svd svdt evd eigvec pr gate P r c = Ok out ->
  let P' := lr_peps out in let x := corner (p_rows P) (p_cols P) r c in let b := side (p_rows P) (p_cols P) r c in
  (p_rows P' = p_rows P /\ p_cols P' = p_cols P /\ p_per P' = p_per P) /\
  (forall i j, (forall q, q < 4 -> (i, j) <> x q) -> gamma P' i j = gamma P i j) /\
  (forall b', In b' (bonds (p_rows P) (p_cols P) (p_per P)) -> (forall q, q < 4 -> b' <> b q) -> lam_of P' b' = lam_of P b') /\
  (lr_norm out <> 0%R -> forall q, q < 4 ->
    let T := gamma P' (fst (x q)) (snd (x q)) in
    fst (nsum (shape T) (fun ix => RtoC (Cnorm2 (entry T ix)))) = 1%R /\ fold_right (fun x a => x * x + a)%R 0%R (lam_of P' (b q)) = 1%R).
Proof. exact loop_keeps. Qed.
Print Assumptions c80_stored.

(** A loop that would stick out of an open lattice is refused. *)
Theorem c80_outside_throws :
  forall qr svd svdt evd eigvec pr gate P r c, p_per P = false -> p_rows P <= r + 1 \/ p_cols P <= c + 1 ->
  loop_project qr svd svdt evd eigvec pr gate P r c = Fail Throw.
Proof. exact loop_outside. Qed.
Print Assumptions c80_outside_throws.

(** there are such decompositions, a loop and a gate on which the projection succeeds, and it changes the state *)
Example c80_decompositions : qr_any small_qr /\ svd_any small_svd /\ (forall m, svd_up_to m small_svd) /\ evd_unitary small_evd /\ eig_shape small_vec.
Proof. split; [exact small_qr_any|]. split; [exact small_svd_any|]. split; [exact small_svd_up_to|]. split; [exact small_evd_unitary|exact small_vec_shape]. Qed.
Example c80_case : sound (l_env_tol small_para) two /\ loop_valid two 0 0 /\ loop_fits two 0 0 flips /\ loop_room 4 two 0 0 flips /\ conditioned small_qr small_svd small_evd small_vec small_para flips two 0 0.
Proof. split; [exact two_sound|]. split; [exact two_loop|]. split; [exact two_fits|]. split; [exact two_room|exact two_conditioned]. Qed.
Example c80_runs : exists out, loop_project small_qr small_svd small_svd small_evd small_vec small_para flips two 0 0 = Ok out /\ lr_norm out <> 0%R /\ Forall (fun y => (l_inv_tol small_para <= y)%R) (lr_roots out).
Proof. exact two_runs. Qed.
Example c80_changed : proper two up /\ wave two up = RtoC 0 /\ gate4 flips (corner 2 2 0 0) (wave two) up = RtoC 1.
Proof. exact two_old. Qed.
