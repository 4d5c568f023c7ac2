(** C35 (accumulators), C37, C38: the first-order algorithms. *)
From Coq Require Import List Arith Bool Reals Lra.
From Verif Require Import Base Cplx Rsum OptModel OptProofs MsgModel TpsModel TpsSpec TpsMain AlgModel AlgSpec AlgProofs AlgAdaptive AlgLoop.
Import ListNotations.
Local Open Scope R_scope.

(** C35: after an evaluation discarded for its energy the state is the one before the last accepted
    step, but the momentum is the one updated with the discarded gradient. *)
Theorem c35_momentum_keeps_discarded_gradient : forall (Sc : Type) p q cv cn eval trial gnorm (rate : Sc -> nat -> R -> R * Sc) user_stop s s' l ev,
  pass p (sgd_algorithm q cv cn) eval trial gnorm rate user_stop s = Ok s' ->
  s_log s' = l ++ [ev] -> (length (s_log s) < length (s_log s'))%nat -> v_signal ev = S4 ->
  exists g' lr next, preprocess cv cn (snd (fst (eval (s_calls s) (s_cur s)))) = Ok g' /\
    sgd_update true q (s_A s) (s_cur s) g' lr = Ok (next, s_A s') /\
    s_cur s' = match s_prev s with Some w => w | None => s_cur s end.
Proof. exact @momentum_keeps_discarded. Qed.
Print Assumptions c35_momentum_keeps_discarded_gradient.

(** C71: the gradient the first-order updates get is the one measured, clipped element by element and then as a whole. *)
Theorem c71_gradient_used : forall L cv cn g, shaped L g ->
  let clipped := fun q => match cv with Some c => if Rlt_dec 0 c then clip_elem c (at_place g q) else at_place g q | None => at_place g q end in
  let n := sqrt (rsum (fun q => Cnorm2 (clipped q)) (places L)) in
  exists g' x, preprocess cv cn g = Ok g' /\ is_vector L g' (fun q => RtoC x * clipped q)%C /\ p_bc g' = p_bc g /\ (0 <= x <= 1)%R /\
    sqrt (rsum (fun q => Cnorm2 (at_place g' q)) (places L)) = match cn with Some c => if Rlt_dec 0 c then Rmin n c else n | None => n end.
Proof. exact preprocess_spec. Qed.
Print Assumptions c71_gradient_used.

(** C37: the previewed step is the step. *)
Theorem c37_preview_is_update : forall L p vel cur g lr, shaped L cur -> shaped L g -> match vel with Some v => shaped L v | None => True end ->
  exists w v, sgd_update true p vel cur g lr = Ok (w, Some v) /\ sgd_preview true p vel cur g lr = Ok w.
Proof. exact preview_shaped. Qed.
Print Assumptions c37_preview_is_update.
(** The selector's trial state for a rate is the state the loop moves to with that rate. *)
Theorem c37_trial_is_step : forall p cv cn k acc d w g lr acc' next eff ng it more,
  a_step (sgd_algorithm p cv cn) k acc d w g lr = Ok (acc', (next, eff), (ng, it), more) ->
  a_trial (sgd_algorithm p cv cn) acc tt w g lr = next /\ eff = lr.
Proof. exact trial_is_step. Qed.
Print Assumptions c37_trial_is_step.

(** C38: SGD with momentum, Nesterov look-ahead and decoupled decay. *)
Theorem c38_sgd : forall L p l w0, shaped L w0 -> (forall s, In s l -> shaped L (snd s)) ->
  exists w vel, updates (sgd_update true p) l None w0 = Ok (w, vel) /\ p_bc w = p_bc w0 /\
    is_vector L w (fun q => after_steps (Rmax 0 (d_decay p)) (map fst l)
      (map (sgd_direction (Rmax 0 (d_momentum p)) (d_nesterov p) (gradient_at l q)) (seq 0 (length l))) (at_place w0 q)) /\
    match vel with
    | Some v => is_vector L v (fun q => if Rlt_dec 0 (d_momentum p) then geometric (d_momentum p) (gradient_at l q) else RtoC 0)
    | None => l = []
    end.
Proof. exact sgd_closed. Qed.
Print Assumptions c38_sgd.
(** AdaGrad; [inv]: the library's element-wise inverse. *)
Theorem c38_adagrad : forall inv L p l w0, full L w0 -> (forall s, In s l -> full L (snd s)) ->
  exists w acc, updates (adagrad_update inv true p) l None w0 = Ok (w, acc) /\ p_bc w = p_bc w0 /\ full L w /\
    is_vector L w (fun q => after_steps 0 (map fst l)
      (map (fun j => inv (ada_eps p) (Csqrt (RtoC (ada_init p) + sumC square (firstn (S j) (gradient_at l q)))) * nth j (gradient_at l q) (RtoC 0))%C (seq 0 (length l)))
      (at_place w0 q)) /\
    match acc with
    | Some a => full L a /\ is_vector L a (fun q => RtoC (ada_init p) + sumC square (gradient_at l q))%C
    | None => l = []
    end.
Proof. exact adagrad_closed. Qed.
Print Assumptions c38_adagrad.
Theorem c38_adagrad_never_decreases : forall x0 gs gs', exists d, 0 <= d /\
  (RtoC x0 + sumC square (gs ++ gs'))%C = (RtoC x0 + sumC square gs + RtoC d)%C.
Proof. exact adagrad_monotone. Qed.
Print Assumptions c38_adagrad_never_decreases.
(** Adam with decoupled decay (AdamW). *)
Theorem c38_adam : forall inv L p l w0, full L w0 -> (forall s, In s l -> full L (snd s)) ->
  exists w acc, updates (adam_update inv true p) l None w0 = Ok (w, acc) /\ p_bc w = p_bc w0 /\ full L w /\
    is_vector L w (fun q => after_steps (Rmax 0 (adam_decay p)) (map fst l)
      (map (fun j => inv (adam_eps p) (Csqrt (average_of (b2 p) (map square (gradient_at l q)) j)) * average_of (b1 p) (gradient_at l q) j)%C (seq 0 (length l)))
      (at_place w0 q)) /\
    match acc with
    | Some a => at_step a = length l /\ full L (am a) /\ full L (av a) /\
                is_vector L (am a) (fun q => RtoC (1 - b1 p) * geometric (b1 p) (gradient_at l q))%C /\
                is_vector L (av a) (fun q => RtoC (1 - b2 p) * geometric (b2 p) (map square (gradient_at l q)))%C
    | None => l = []
    end.
Proof. exact adam_closed. Qed.
Print Assumptions c38_adam.
(** The corrected averages are averages: their weights are non-negative and add up to one. *)
Theorem c38_average_weights : forall be xs j, 0 <= be < 1 -> (j < length xs)%nat ->
  average_of be xs j = sumC (fun i => RtoC ((1 - be) / (1 - be ^ S j) * be ^ (S j - 1 - i)) * nth i xs (RtoC 0))%C (seq 0 (S j)) /\
  rsum (fun i => (1 - be) / (1 - be ^ S j) * be ^ (S j - 1 - i)) (seq 0 (S j)) = 1 /\
  forall i, 0 <= (1 - be) / (1 - be ^ S j) * be ^ (S j - 1 - i).
Proof. exact (fun be xs j Hb Hj => conj (average_weights be xs j Hj) (conj (weights_one be (S j) Hb (Nat.lt_0_succ j)) (fun i => weights_nonneg be (S j) i Hb (Nat.lt_0_succ j)))). Qed.
Print Assumptions c38_average_weights.
(** Square roots of non-negative accumulators are the real ones. *)
Theorem c38_root : forall x, 0 <= x -> Csqrt (RtoC x) = RtoC (sqrt x).
Proof. exact Csqrt_real. Qed.
Print Assumptions c38_root.

(** Two steps on one site. *)
Definition demo_steps : list (R * state) := [(1, one_site true [Some [RtoC 3]]); (1 / 2, one_site true [Some [Ci]])].
Example demo_sgd : (forall s, In s demo_steps -> full unit_layout (snd s)) /\ shaped unit_layout (one_site false [Some [RtoC 1]]) /\
  gradient_at demo_steps (0, 0, 0, 0)%nat = [RtoC 3; Ci].
Proof.
  split; [|split; [apply one_site_shaped|reflexivity]]. intros s H. simpl in H. destruct H as [<-|[<-|[]]]; (split; [apply one_site_shaped|]);
    intros r c i (Hr & Hc & Hi); simpl in Hr, Hc, Hi; apply Nat.lt_1_r in Hr, Hc, Hi; subst; eexists; reflexivity.
Qed.
(** A pass whose energy [e] is too high: it goes back to the previous state, and the velocity [v]
    has become mu v + g. *)
Definition demo_params (sigma : R) : params := mkParams 10 0 0 5 1 false 0 0 0 0 0 true 3 sigma false 0 true false 0 0 true 0.
Definition demo_before (z : R) (v w0 w1 : C) : st := mkSt (Sc:=unit) 1 0 0 (one_site false [Some [w1]]) (one_site false [Some [w1]]) z z z 0 (Some (one_site false [Some [v]]))
  (mkEma z 1 true) ema_fresh ema_fresh ema_fresh (Some (one_site false [Some [w0]])) z tt [] [] [] [] 1 [] 0 0 0 false false [].
Example demo_rollback : forall z e sigma mu v g w0 w1, 0 < mu -> z < e -> sigma < e - z -> exists s',
  pass (demo_params sigma) (sgd_algorithm (mkSgd mu false 0) None None) (fun _ _ => (e, one_site false [Some [g]], z)) (fun _ _ => (z, z)) (fun _ => z)
    (fun u _ _ => (z, u)) (fun _ _ _ => false) (demo_before z v w0 w1) = Ok s' /\
  s_cur s' = one_site false [Some [w0]] /\ s_A s' = Some (one_site false [Some [v * RtoC mu + g]])%C /\ exists ev, s_log s' = [ev] /\ v_signal ev = S4.
Proof.
  intros z e sigma mu v g w0 w1 Hm Hz Hs.
  assert (H1 : rlt 0 (e - z) = true) by (apply rlt_true; lra).
  assert (H2 : rlt 0 (sqrt 1) = true) by (apply rlt_true; rewrite sqrt_1; lra).
  assert (H3 : rlt (sigma * sqrt 1) (e - z) = true) by (apply rlt_true; rewrite sqrt_1; lra).
  assert (H4 : rlt 0 mu = true) by (apply rlt_true; lra).
  assert (H5 : rlt 0 0 = false) by (apply rlt_false; lra).
  assert (U : exists w, sgd_update true (mkSgd mu false 0) (Some (one_site false [Some [v]])) (one_site false [Some [w1]]) (one_site false [Some [g]]) z = Ok (w, Some (one_site false [Some [v * RtoC mu + g]])%C)).
  { unfold sgd_update, decay_by. cbn [negb d_momentum d_nesterov d_decay bind]. rewrite H5, H4. eexists. reflexivity. }
  destruct U as (w & U).
  assert (D : detect4 (demo_params sigma) (mkEma z 1 true) e = Some S4).
  { unfold detect4. cbn [m_on m_mean m_var p_sigma demo_params andb]. rewrite H1, H2, H3. reflexivity. }
  set (P := demo_params sigma) in *.
  assert (E : pass P (sgd_algorithm (mkSgd mu false 0) None None) (fun _ _ => (e, one_site false [Some [g]], z)) (fun _ _ => (z, z)) (fun _ => z)
    (fun u _ _ => (z, u)) (fun _ _ _ => false) (demo_before z v w0 w1) =
    Ok (recover (sgd_algorithm (mkSgd mu false 0) None None) Rollback (log S4 Rollback e (z + p_sigma P * sqrt 1)
       (set_calls 1 (set_A (Some (one_site false [Some [v * RtoC mu + g]])%C) (saw (Eval (one_site false [Some [w1]]) e z z) (demo_before z v w0 w1))))))).
  { unfold pass. cbn [s_calls s_cur demo_before]. cbn [a_seen sgd_algorithm bind s_A saw set_obs set_calls demo_before].
    change (p_auto P) with false. change (p_rollback P) with true. cbn [andb check]. change (any_selector P) with false. cbv iota.
    cbn [s_sched saw set_obs set_calls set_A set_sched]. change (select P _ _ _ _ _) with (Ok (A:=option (R * unit * nat)) None). cbn [bind].
    cbn [a_step sgd_algorithm]. change (preprocess None None (one_site false [Some [g]])) with (Ok (one_site false [Some [g]])). cbn [bind].
    cbn [s_A s_cur set_calls set_sched set_A saw set_obs demo_before]. rewrite U. cbn [bind fst snd a_natural sgd_algorithm andb check].
    cbn [s_iter s_mE set_calls set_sched set_A saw set_obs demo_before]. change ((0 <? 1)%nat) with true. cbv iota. rewrite D. cbn [check discards]. reflexivity. }
  rewrite E. eexists. split; [reflexivity|]. split; [reflexivity|]. split; [reflexivity|]. eexists. split; reflexivity.
Qed.
