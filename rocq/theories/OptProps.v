(** The optimisation loop: C31-C36, C57, C62, C63, C69. *)
From Coq Require Import List Arith Bool Reals Lra Lia.
From Verif Require Import Base OptModel OptSpec OptProofs OptMain OptRuns OptLoop OptTerm OptLive OptRank.
Import ListNotations.
Local Open Scope R_scope.

(** Common quantification: any states [W], gradients, accumulators, algorithm, evaluator with arbitrary
    (history-dependent) answers, schedule, callback; a fresh optimizer started on [w0]. *)
Theorem c31_trajectories : forall (W G A P Sc : Type) (p : params) (alg : algorithm (W:=W) (G:=G) (A:=A) (P:=P)) (eval : nat -> W -> R * G * R) (trial : nat -> W -> R * R) (gnorm : G -> R)
    (scheduled : bool) (rate : Sc -> nat -> R -> R * Sc) (user_stop : nat -> R -> R -> bool) (fresh : A) (sc : Sc) (w0 : W) (fuel : nat) s,
  optimize p alg eval trial gnorm scheduled rate user_stop fuel (new_members fresh sc) w0 = Ok (Finished s) ->
  let acc := accepted (s_obs s) in
  s_energies s = map ev_energy acc /\ s_errors s = map ev_error acc /\ s_gnorms s = map ev_gnorm acc /\ length (s_rates s) = length acc /\ s_total s = length acc /\
  (length acc <= p_max_iter p)%nat /\ s_last s = last (map ev_energy acc) dbl_max /\ (s_done s = false -> length acc = p_max_iter p).
Proof. exact @trajectories. Qed.
Print Assumptions c31_trajectories.
Theorem c32_minimum : forall (W G A P Sc : Type) (p : params) (alg : algorithm (W:=W) (G:=G) (A:=A) (P:=P)) (eval : nat -> W -> R * G * R) (trial : nat -> W -> R * R) (gnorm : G -> R)
    (scheduled : bool) (rate : Sc -> nat -> R -> R * Sc) (user_stop : nat -> R -> R -> bool) (fresh : A) (sc : Sc) (w0 : W) (fuel : nat) s,
  optimize p alg eval trial gnorm scheduled rate user_stop fuel (new_members fresh sc) w0 = Ok (Finished s) -> accepted (s_obs s) <> [] -> (forall x, In x (accepted (s_obs s)) -> ev_energy x < dbl_max) ->
  exists i x, nth_error (accepted (s_obs s)) i = Some x /\ s_low s = ev_state x /\ s_lowE s = ev_energy x /\
    (forall j y, nth_error (accepted (s_obs s)) j = Some y -> ev_energy x <= ev_energy y) /\
    (forall j y, (j < i)%nat -> nth_error (accepted (s_obs s)) j = Some y -> ev_energy x < ev_energy y).
Proof. exact @minimum. Qed.
Print Assumptions c32_minimum.
Theorem c69_callbacks : forall (W G A P Sc : Type) (p : params) (alg : algorithm (W:=W) (G:=G) (A:=A) (P:=P)) (eval : nat -> W -> R * G * R) (trial : nat -> W -> R * R) (gnorm : G -> R)
    (scheduled : bool) (rate : Sc -> nat -> R -> R * Sc) (user_stop : nat -> R -> R -> bool) (fresh : A) (sc : Sc) (w0 : W) (fuel : nat) s,
  optimize p alg eval trial gnorm scheduled rate user_stop fuel (new_members fresh sc) w0 = Ok (Finished s) ->
  lowest_calls (s_obs s) = minima dbl_max (accepted (s_obs s)) /\
  iter_calls (s_obs s) = announced 0 (if s_conv s then removelast (accepted (s_obs s)) else accepted (s_obs s)).
Proof. exact @callbacks. Qed.
Print Assumptions c69_callbacks.
Theorem c33_termination : forall (W G A P Sc : Type) (p : params) (alg : algorithm (W:=W) (G:=G) (A:=A) (P:=P)) (eval : nat -> W -> R * G * R) (trial : nat -> W -> R * R) (gnorm : G -> R)
    (scheduled : bool) (rate : Sc -> nat -> R -> R * Sc) (user_stop : nat -> R -> R -> bool) (fresh : A) (sc : Sc) (w0 : W) (fuel : nat) s,
  optimize p alg eval trial gnorm scheduled rate user_stop fuel (new_members fresh sc) w0 = Ok (Running s) ->
  (fuel < (if p_rollback p then 2 * p_max_iter p + count_S4 (s_log s) else p_max_iter p) * (p_retries p + 1))%nat.
Proof. exact @termination. Qed.
Print Assumptions c33_termination.
(** With rollback enabled there is, for every number of passes, an evaluator that keeps the loop in its third
    iteration: full statement "the loop terminates for every evaluator" is false. *)
Theorem c33_rollback_livelock_refuted : forall p, p_rollback p = true -> p_init_on p = false /\ p_per_on p = false -> (2 < p_max_iter p)%nat -> (1 < p_window p)%nat -> (0 < p_patience p)%nat -> p_gtol p <= 0 ->
  exists eval, forall fuel, exists s, optimize p still eval (fun _ _ => (0, 0)) (fun _ => 0) false (fun sc _ _ => (p_rate p, sc)) (fun _ _ _ => false) (S (S fuel)) (new_members tt tt) tt = Ok (Running s) /\ s_iter s = 2%nat.
Proof. exact (fun p H1 H2 H3 H4 H5 H6 => ex_intro _ (spiky p) (livelock p H1 H2 H3 H4 H5 H6)). Qed.
Print Assumptions c33_rollback_livelock_refuted.
Example livelock_parameters : exists p, p_rollback p = true /\ (p_init_on p = false /\ p_per_on p = false) /\ (2 < p_max_iter p)%nat /\ (1 < p_window p)%nat /\ (0 < p_patience p)%nat /\ p_gtol p <= 0.
Proof. exists (mkParams 10 0 0 9 1 true 2 100 100 100 1 true 50 10 false 0 false false 0 0 false 0). cbn. repeat split; try lia; try lra. Qed.
Theorem c34_statistics : forall (W G A P Sc : Type) (p : params) (alg : algorithm (W:=W) (G:=G) (A:=A) (P:=P)) (eval : nat -> W -> R * G * R) (trial : nat -> W -> R * R) (gnorm : G -> R)
    (scheduled : bool) (rate : Sc -> nat -> R -> R * Sc) (user_stop : nat -> R -> R -> bool) (fresh : A) (sc : Sc) (w0 : W) (fuel : nat) s,
  optimize p alg eval trial gnorm scheduled rate user_stop fuel (new_members fresh sc) w0 = Ok (Finished s) ->
  s_log s = spikes (s_obs s) /\ s_nres s = count_action Resample (s_log s) /\ s_nroll s = count_action Rollback (s_log s) /\ s_nforced s = count_action AcceptWithWarning (s_log s) /\
  (s_nres s + s_nroll s + s_nforced s = length (s_log s))%nat.
Proof. exact @statistics. Qed.
Print Assumptions c34_statistics.
Theorem c35_restart : forall (W G A P Sc : Type) (p : params) (alg : algorithm (W:=W) (G:=G) (A:=A) (P:=P)) (eval : nat -> W -> R * G * R) (trial : nat -> W -> R * R) (gnorm : G -> R)
    (scheduled : bool) (rate : Sc -> nat -> R -> R * Sc) (user_stop : nat -> R -> R -> bool) (fresh : A) (sc : Sc) (w0 : W) (fuel : nat) s,
  (optimize p alg eval trial gnorm scheduled rate user_stop fuel (new_members fresh sc) w0 = Ok (Finished s) \/ optimize p alg eval trial gnorm scheduled rate user_stop fuel (new_members fresh sc) w0 = Ok (Running s)) ->
  forall t1 w e err gn mid v w' e' err' gn' t2, s_obs s = t1 ++ Eval w e err gn :: mid ++ Spike v :: Eval w' e' err' gn' :: t2 -> no_eval mid -> discards (v_action v) = true ->
  w' = match v_action v with Rollback => if rolled t1 then w else last (map ev_state (accepted t1)) w | _ => w end.
Proof. exact @restart. Qed.
Print Assumptions c35_restart.
Theorem c36_rates_never_rise : forall (W G A P Sc : Type) (p : params) (alg : algorithm (W:=W) (G:=G) (A:=A) (P:=P)) (eval : nat -> W -> R * G * R) (trial : nat -> W -> R * R) (gnorm : G -> R)
    (scheduled : bool) (rate : Sc -> nat -> R -> R * Sc) (user_stop : nat -> R -> R -> bool) (fresh : A) (sc : Sc) (w0 : W) (fuel : nat) s,
  any_selector p = true -> (forall k a d w g lr a' next eff ng iters more, a_step alg k a d w g lr = Ok (a', (next, eff), (ng, iters), more) -> eff = lr) ->
  optimize p alg eval trial gnorm scheduled rate user_stop fuel (new_members fresh sc) w0 = Ok (Finished s) ->
  (forall j, (S j < length (s_rates s))%nat -> exists k, nth (S j) (s_rates s) 0 = nth j (s_rates s) 0 * (1 / 2) ^ k /\ (k <> 0%nat -> p_per_on p = true /\ (S j mod p_per_every p = 0)%nat)) /\
  (s_rates s <> [] -> if p_init_on p then exists cs, map c_eta cs = map (fun i => p_rate p * INR i) (seq 1 (p_init_steps p)) /\ select_initial cs = Ok (nth 0 (s_rates s) 0) else nth 0 (s_rates s) 0 = p_rate p).
Proof. exact @selected_rates. Qed.
Print Assumptions c36_rates_never_rise.
Theorem c36_initial_choice : forall cs, cs <> [] -> exists i c, select_initial cs = Ok (c_eta c) /\ nth_error cs i = Some c /\
  (forall j d, nth_error cs j = Some d -> c_energy c <= c_energy d) /\ (forall j d, (j < i)%nat -> nth_error cs j = Some d -> c_energy c < c_energy d).
Proof. exact initial_spec. Qed.
Print Assumptions c36_initial_choice.
Theorem c36_periodic_choice : forall p iter a b e0 r0 e1 r1, exists eta, select_periodic p iter [(a, e0, r0); (b, e1, r1)] = Ok eta /\
  (INR iter < p_per_ratio p * INR (p_max_iter p) -> (e1 < e0 -> eta = b) /\ (e0 <= e1 -> eta = a)) /\
  (p_per_ratio p * INR (p_max_iter p) <= INR iter -> (Rmax r0 r1 < e0 - e1 -> eta = b) /\ (e0 - e1 <= Rmax r0 r1 -> eta = a)).
Proof. exact periodic_spec. Qed.
Print Assumptions c36_periodic_choice.
Theorem c57_bounds : forall window xs lo hi, (1 <= window)%nat -> xs <> [] -> (forall x, In x xs -> lo <= x <= hi) ->
  lo <= m_mean (ema_of window xs) <= hi /\ 0 <= m_var (ema_of window xs).
Proof. exact ema_bounds. Qed.
Print Assumptions c57_bounds.
Theorem c57_constant : forall window xs c, xs <> [] -> (forall x, In x xs -> x = c) -> m_mean (ema_of window xs) = c /\ m_var (ema_of window xs) = 0.
Proof. exact ema_constant. Qed.
Print Assumptions c57_constant.
Theorem c57_window_zero_refuted : m_var (ema_of 0 [0; 1]) < 0 /\ m_mean (ema_of 0 [0; 1]) > 1.
Proof. exact ema_window_zero. Qed.
Print Assumptions c57_window_zero_refuted.
Example ema_data : [1; 2; 4] <> [] /\ forall x, In x [1; 2; 4] -> 0 <= x <= 5.
Proof. split; [discriminate|]. intros x [<-|[<-|[<-|[]]]]; lra. Qed.
Theorem c62_stopping : forall (W G A P Sc : Type) (p : params) (alg : algorithm (W:=W) (G:=G) (A:=A) (P:=P)) (eval : nat -> W -> R * G * R) (trial : nat -> W -> R * R) (gnorm : G -> R)
    (scheduled : bool) (rate : Sc -> nat -> R -> R * Sc) (user_stop : nat -> R -> R -> bool) (fresh : A) (sc : Sc) (w0 : W) (fuel : nat) s,
  optimize p alg eval trial gnorm scheduled rate user_stop fuel (new_members fresh sc) w0 = Ok (Finished s) -> let acc := accepted (s_obs s) in
  (s_conv s = true <-> criterion p (map ev_energy acc) (map ev_gnorm acc) (length acc - 1)%nat) /\
  (forall i, (S i < length acc)%nat -> ~ criterion p (map ev_energy acc) (map ev_gnorm acc) i) /\
  (s_conv s = false -> length acc = p_max_iter p \/ exists x, nth_error acc (length acc - 1)%nat = Some x /\ user_stop (length acc - 1)%nat (ev_energy x) (ev_error x) = true).
Proof. exact @stopping. Qed.
Print Assumptions c62_stopping.
(** Ranks: for every sequence of findings of the master, a worker whose callback does not look at the error
    bar enters the same collective operations in the same order and ends at the same iteration. *)
Theorem c62_ranks_agree : forall p natural user_stop, (forall i e err, user_stop i e err = user_stop i e 0) -> forall ds s,
  exists fuel, worker_run p natural user_stop fuel s (fst (master_run p natural user_stop s ds)) = Some (snd (master_run p natural user_stop s ds)).
Proof. exact ranks_agree. Qed.
Print Assumptions c62_ranks_agree.
Theorem c62_passes_are_master_passes : forall (W G A P Sc : Type) (p : params) (alg : algorithm (W:=W) (G:=G) (A:=A) (P:=P)) eval trial gnorm (rate : Sc -> nat -> R -> R * Sc) user_stop s s',
  s_done s = false -> pass p alg eval trial gnorm rate user_stop s = Ok s' -> exists d, snd (master_pass p (a_natural alg) user_stop (s_iter s) d) = (s_iter s', s_done s').
Proof. exact @pass_is_master. Qed.
Print Assumptions c62_passes_are_master_passes.
(** The callback receives error bar 0 on every rank but the master: one that stops on small error bars makes
    the ranks part company. *)
Theorem c62_error_callback_refuted : let ds := [mkD 0 1 Accept Accept Accept false; mkD 0 1 Accept Accept Accept false] in
  snd (master_run quiet_params false error_stop (0%nat, false) ds) = (2%nat, false) /\
  forall fuel, worker_run quiet_params false error_stop fuel (0%nat, false) (fst (master_run quiet_params false error_stop (0%nat, false) ds)) = None.
Proof. exact ranks_diverge. Qed.
Print Assumptions c62_error_callback_refuted.
Theorem c63_checkpoints : forall (W G A P Sc : Type) (p : params) (alg : algorithm (W:=W) (G:=G) (A:=A) (P:=P)) (eval : nat -> W -> R * G * R) (trial : nat -> W -> R * R) (gnorm : G -> R)
    (scheduled : bool) (rate : Sc -> nat -> R -> R * Sc) (user_stop : nat -> R -> R -> bool) (fresh : A) (sc : Sc) (w0 : W) (fuel : nat) s,
  optimize p alg eval trial gnorm scheduled rate user_stop fuel (new_members fresh sc) w0 = Ok (Finished s) ->
  map fst (checkpoints (s_obs s)) = filter (fun i => (0 <? p_every p)%nat && (0 <? i)%nat && (i mod p_every p =? 0)%nat) (seq 0 (if s_done s then s_total s - 1 else s_total s)) /\
  (forall t1 i w t2, s_obs s = t1 ++ Ckpt i w :: t2 -> length (accepted t1) = S i /\ match t2 with [] => s_cur s = w | o :: _ => exists e err gn, o = Eval w e err gn end).
Proof. exact @checkpointing. Qed.
Print Assumptions c63_checkpoints.

(** A concrete run meeting the hypotheses: two accepted steps, the second after a repeated evaluation, one
    checkpoint. *)
Example demo : exists s, optimize demo_params counter demo_eval (fun _ _ => (0, 0)) (fun _ => 1) false (fun (sc : unit) _ _ => (1, sc)) (fun _ _ _ => false) 3 (new_members tt tt) 0%nat = Ok (Finished s) /\
  accepted (s_obs s) = [(0%nat, 0, 1, 1); (1%nat, -2, 1, 1)] /\ s_nres s = 1%nat /\ checkpoints (s_obs s) = [(1%nat, 2%nat)] /\
  s_obs s = [Eval 0%nat 0 1 1; Lowest 0%nat 0; Iter 0 0 1 1; Eval 1%nat (-1) 200 1; Spike (mkEvent 1 0 S1 Resample 200 (100 * 1)); Eval 1%nat (-2) 1 1; Lowest 1%nat (-2); Iter 1 (-2) 1 1; Ckpt 1 2%nat].
Proof. exact demo_run. Qed.
