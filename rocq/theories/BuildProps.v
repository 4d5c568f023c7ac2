(** C58: the builder of optimizer parameters. *)
From Coq Require Import List Arith Lia Bool Reals Lra Permutation.
From Verif Require Import Base BuildModel BuildSpec BuildProofs.
Import ListNotations.

(** C58: building fails exactly when no base parameter was set, no algorithm was chosen, or a call that needs
    base parameters came before the first of them. *)
Theorem c58_fails {Sched Alg Ckpt Spike Initial Periodic : Type} (disabled : Spike) (l : list (call Sched Alg Ckpt Spike Initial Periodic)) :
  build disabled l = Fail Throw <->
  premature l \/ (forall c, In c l -> starts_base c = false) \/ (forall c, In c l -> sets_alg c = None).
Proof. exact (build_fails disabled l). Qed.
Print Assumptions c58_fails.
(** C58: every setting has the value of the last call that sets it, or its documented default; the gradient
    tolerance depends on which base parameter was set first. *)
Theorem c58_latest {Sched Alg Ckpt Spike Initial Periodic : Type} (disabled : Spike) (l : list (call Sched Alg Ckpt Spike Initial Periodic)) p :
  build disabled l = Ok p ->
  let b := p_base p in
  (latest sets_max_iter 1000 l (b_max_iter b) /\ latest sets_energy_tol (/ 10 ^ 10)%R l (b_energy_tol b) /\ latest sets_patience 20 l (b_patience b) /\
   latest sets_rate (/ 100)%R l (b_rate b) /\ latest sets_sched None l (b_sched b) /\ latest sets_clip_value None l (b_clip_value b) /\
   latest sets_clip_norm None l (b_clip_norm b) /\ latest sets_initial None l (b_initial b) /\ latest sets_periodic None l (b_periodic b) /\
   exists c, first_base l c /\ b_grad_tol b = match c with SetPlateauPatience _ => / 10 ^ 15 | _ => / 10 ^ 30 end%R) /\
  latest (fun c => option_map Some (sets_alg c)) None l (Some (p_alg p)) /\ latest sets_ckpt None l (p_ckpt p) /\ latest (sets_spike disabled) None l (p_spike p).
Proof. exact (build_values disabled l p). Qed.
Print Assumptions c58_latest.
(** C58: two call sequences that make the same calls of each member function, in the same order per function,
    and both succeed, agree on everything but the gradient tolerance. *)
Theorem c58_order {Sched Alg Ckpt Spike Initial Periodic : Type} (disabled : Spike) (l l' : list (call Sched Alg Ckpt Spike Initial Periodic)) p p' :
  same_calls l l' -> build disabled l = Ok p -> build disabled l' = Ok p' -> same_settings p p'.
Proof. exact (build_order disabled l l' p p'). Qed.
Print Assumptions c58_order.
(** C58: the gradient tolerance does depend on the order. *)
Theorem c58_gradient_tolerance_refuted : exists (l l' : list (call unit unit unit unit unit unit)) p p',
  same_calls l l' /\ build tt l = Ok p /\ build tt l' = Ok p' /\ b_grad_tol (p_base p) <> b_grad_tol (p_base p').
Proof.
  exists [SetMaxIterations 5; SetPlateauPatience 7; WithAlgorithm tt], [SetPlateauPatience 7; SetMaxIterations 5; WithAlgorithm tt].
  eexists. eexists. split; [|split; [reflexivity|split; [reflexivity|]]].
  - intros [|[|[|[|[|k]]]]]; reflexivity.
  - cbn [p_base b_grad_tol]. unfold e15, e30. apply Rlt_not_eq.
    apply Rinv_lt_contravar; [|apply Rlt_pow; [lra|lia]]. apply Rmult_lt_0_compat; apply pow_lt; lra.
Qed.
Print Assumptions c58_gradient_tolerance_refuted.
Example c58_builds : exists p, build tt ([SetLearningRate 1%R None; SetClipNorm 2%R; WithAlgorithm tt; SetMaxIterations 7] : list (call unit unit unit unit unit unit)) = Ok p /\
  b_rate (p_base p) = 1%R /\ b_clip_norm (p_base p) = Some 2%R /\ b_max_iter (p_base p) = 7.
Proof. eexists. repeat split. Qed.
Example c58_too_early : build tt ([SetClipNorm 2%R; SetLearningRate 1%R None; WithAlgorithm tt] : list (call unit unit unit unit unit unit)) = Fail Throw.
Proof. reflexivity. Qed.
