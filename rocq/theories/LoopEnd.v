(** The loop projection, put together. *)
From Coq Require Import List Arith Lia Bool Reals Lra.
From Verif Require Import Base Cplx SumModel SumSpec TrgTensor ProjModel ProjSpec ProjGrid ProjTri LoopModel LoopSpec LoopMain LoopRatio LoopDone.
Import ListNotations.
Local Open Scope nat_scope.
Lemma loop_applies qr svd svdt evd eigvec m : qr_any qr -> svd_any svd -> svd_up_to m svdt -> evd_unitary evd -> eig_shape eigvec ->
  forall pr P gate r c, (0 < l_inv_tol pr)%R -> sound (l_env_tol pr) P -> loop_valid P r c -> loop_fits P r c gate -> loop_room m P r c gate ->
  forall out, loop_project qr svd svdt evd eigvec pr gate P r c = Ok out ->
  Forall (fun y => (l_inv_tol pr <= y)%R) (lr_roots out) -> lr_norm out <> 0%R ->
  forall s, proper P s -> (RtoC (lr_norm out) * wave (lr_peps out) s)%C = gate4 gate (corner (p_rows P) (p_cols P) r c) (wave P) s.
Proof. intros QR SV SVT EV EG pr P gate r c PT SO VA GF RM out E RT NN. apply sound_fitted in SO. exact (proj1 (loop_main qr svd svdt evd eigvec pr m QR SV SVT EV EG P gate r c SO VA GF out E PT RT NN RM)). Qed.
Lemma loop_sound qr svd svdt evd eigvec m : qr_any qr -> svd_any svd -> svd_up_to m svdt -> evd_unitary evd -> eig_shape eigvec ->
  forall pr P gate r c, (0 < l_inv_tol pr)%R -> sound (l_env_tol pr) P -> loop_valid P r c -> loop_fits P r c gate -> loop_room m P r c gate ->
  forall out, loop_project qr svd svdt evd eigvec pr gate P r c = Ok out ->
  Forall (fun y => (l_inv_tol pr <= y)%R) (lr_roots out) -> lr_norm out <> 0%R ->
  (forall i, i < 4 -> kept (l_env_tol pr) (lam_of (lr_peps out) (side (p_rows P) (p_cols P) r c i))) ->
  let Q := lr_peps out in sound (l_env_tol pr) Q /\ p_rows Q = p_rows P /\ p_cols Q = p_cols P /\ p_per Q = p_per P /\ forall i j, i < p_rows P -> j < p_cols P -> phys Q i j = phys P i j.
Proof.
  intros QR SV SVT EV EG pr P gate r c PT SO VA GF RM out E RT NN K. apply sound_fitted in SO. destruct (proj2 (loop_main qr svd svdt evd eigvec pr m QR SV SVT EV EG P gate r c SO VA GF out E PT RT NN RM) K) as [F S].
  intros Q. split; [apply sound_fitted; exact F|exact S].
Qed.
Lemma loop_succeeds qr svd svdt evd eigvec m : qr_any qr -> svd_any svd -> svd_up_to m svdt -> evd_unitary evd -> eig_shape eigvec ->
  forall pr P gate r c, (0 < l_inv_tol pr)%R -> (0 < l_correct pr)%R -> (0 <= l_warn pr)%R ->
  sound (l_env_tol pr) P -> loop_valid P r c -> loop_fits P r c gate -> loop_room m P r c gate -> conditioned qr svd evd eigvec pr gate P r c ->
  (exists s, proper P s /\ gate4 gate (corner (p_rows P) (p_cols P) r c) (wave P) s <> RtoC 0) ->
  exists out, loop_project qr svd svdt evd eigvec pr gate P r c = Ok out /\ lr_norm out <> 0%R /\ Forall (fun y => (l_inv_tol pr <= y)%R) (lr_roots out).
Proof. intros QR SV SVT EV EG pr P gate r c PT CT WT SO VA GF RM CD NZ. apply sound_fitted in SO. exact (loop_done qr svd svdt evd eigvec pr m QR SV SVT EV EG P gate r c SO VA GF PT CT WT RM CD NZ). Qed.
Lemma loop_ratio qr svd svdt evd eigvec : qr_any qr -> svd_any svd ->
  forall pr P gate r c, sound (l_env_tol pr) P -> loop_valid P r c -> loop_fits P r c gate ->
  forall out, loop_project qr svd svdt evd eigvec pr gate P r c = Ok out -> lr_ratio out = fst (Cdiv (loop_element gate P r c) (loop_square P r c)).
Proof. intros QR SV pr P gate r c SO VA GF out E. apply sound_fitted in SO. exact (ratio_main qr svd svdt evd eigvec pr QR SV P gate r c SO VA GF out E). Qed.
Lemma loop_keeps qr svd svdt evd eigvec : qr_any qr -> svd_any svd ->
  forall pr P gate r c, sound (l_env_tol pr) P -> loop_valid P r c -> loop_fits P r c gate ->
  forall out, loop_project qr svd svdt evd eigvec pr gate P r c = Ok out ->
  let P' := lr_peps out in let x := corner (p_rows P) (p_cols P) r c in let b := side (p_rows P) (p_cols P) r c in
  (p_rows P' = p_rows P /\ p_cols P' = p_cols P /\ p_per P' = p_per P) /\
  (forall i j, (forall q, q < 4 -> (i, j) <> x q) -> gamma P' i j = gamma P i j) /\
  (forall b', In b' (bonds (p_rows P) (p_cols P) (p_per P)) -> (forall q, q < 4 -> b' <> b q) -> lam_of P' b' = lam_of P b') /\
  (lr_norm out <> 0%R -> forall q, q < 4 ->
    let T := gamma P' (fst (x q)) (snd (x q)) in fst (nsum (shape T) (fun ix => RtoC (Cnorm2 (entry T ix)))) = 1%R /\ fold_right (fun x a => x * x + a)%R 0%R (lam_of P' (b q)) = 1%R).
Proof. intros QR SV pr P gate r c SO VA GF out E. exact (loop_stored qr svd svdt evd eigvec pr P gate r c out QR SV SO VA GF E). Qed.
