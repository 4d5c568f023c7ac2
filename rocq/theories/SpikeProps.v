(** Spike detection: C79. *)
From Coq Require Import List Arith Bool Reals Lra Lia.
From Verif Require Import Base OptModel OptSpec OptProofs OptMain OptRuns OptLoop OptTerm OptLive SpikeSpec SpikeProofs.
Import ListNotations.
Local Open Scope R_scope.

(** Any states, gradients, algorithm, evaluator, schedule and callback; a fresh optimizer, finished or still running. For
    each evaluation of its trace, the messages before the next evaluation are those of the specification. *)
Theorem c79_spike_messages : forall (W G A P Sc : Type) (p : params) (alg : algorithm (W:=W) (G:=G) (A:=A) (P:=P)) (eval : nat -> W -> R * G * R) (trial : nat -> W -> R * R) (gnorm : G -> R)
    (scheduled : bool) (rate : Sc -> nat -> R -> R * Sc) (user_stop : nat -> R -> R -> bool) (fresh : A) (sc : Sc) (w0 : W) (fuel : nat) s,
  a_natural alg = false ->
  (optimize p alg eval trial gnorm scheduled rate user_stop fuel (new_members fresh sc) w0 = Ok (Finished s) \/ optimize p alg eval trial gnorm scheduled rate user_stop fuel (new_members fresh sc) w0 = Ok (Running s)) ->
  forall t1 w e err gn rest, s_obs s = t1 ++ Eval w e err gn :: rest ->
  spikes (before_eval rest) = until_discarded (first_message p t1 err gn ++ energy_message p t1 e).
Proof. exact @spike_messages_plain. Qed.
Print Assumptions c79_spike_messages.
(** With SR or MinSR also the natural gradients are watched: [ns] are the norms belonging to the accepted evaluations. *)
Theorem c79_spike_messages_natural : forall (W G A P Sc : Type) (p : params) (alg : algorithm (W:=W) (G:=G) (A:=A) (P:=P)) (eval : nat -> W -> R * G * R) (trial : nat -> W -> R * R) (gnorm : G -> R)
    (scheduled : bool) (rate : Sc -> nat -> R -> R * Sc) (user_stop : nat -> R -> R -> bool) (fresh : A) (sc : Sc) (w0 : W) (fuel : nat) s,
  (optimize p alg eval trial gnorm scheduled rate user_stop fuel (new_members fresh sc) w0 = Ok (Finished s) \/ optimize p alg eval trial gnorm scheduled rate user_stop fuel (new_members fresh sc) w0 = Ok (Running s)) ->
  let stepped w ng iters := exists k a d g lr a' next eff more, a_step alg k a d w g lr = Ok (a', (next, eff), (ng, iters), more) in
  exists ns, Forall2 (fun x n => exists iters, stepped (ev_state x) n iters) (accepted (s_obs s)) ns /\
  forall t1 w e err gn rest, s_obs s = t1 ++ Eval w e err gn :: rest -> exists ng iters,
    (existsb (fun v => discards (v_action v)) (first_message p t1 err gn) = true \/ stepped w ng iters) /\
    spikes (before_eval rest) = until_discarded (first_message p t1 err gn ++ (if a_natural alg then natural_message p t1 (firstn (length (accepted t1)) ns) ng iters else []) ++ energy_message p t1 e).
Proof. exact @spike_messages. Qed.
Print Assumptions c79_spike_messages_natural.

(** The run of [demo] (C31) has such an evaluation: an error bar of 200 after one of 1. *)
Example c79_demo : first_message demo_params [Eval 0%nat 0 1 1; Lowest 0%nat 0; Iter 0 0 1 1] 200 1 = [mkEvent 1 0 S1 Resample 200 (100 * 1)] /\
  energy_message demo_params [Eval 0%nat 0 1 1; Lowest 0%nat 0; Iter 0 0 1 1] (-1) = [] /\ a_natural counter = false.
Proof. exact spike_demo. Qed.
(** A jump of the energy: mean 1/2 and standard deviation 1/2 after the energies 0 and 1, then 5. *)
Example c79_jump : jumped 3 2 [0; 1] 5 = Some (3 / 2).
Proof. exact jump_demo. Qed.
