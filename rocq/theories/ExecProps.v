(** C87 *)
From Coq Require Import List Arith Bool Reals.
From Verif Require Import Base OptModel OptSpec OptLive ExecModel ExecSpec ExecMain.
Import ListNotations.
Local Open Scope R_scope.

(** C87: the trajectory of the master and its file list the accepted evaluations of all runs of the executor in order, without the one that
    ended a converged run; all ranks hold the same states; the other ranks have no trajectory and no energy. *)
Theorem c87_trajectory {W G A P Sc : Type} p (alg : algorithm (W:=W) (G:=G) (A:=A) (P:=P)) gnorm scheduled (rate : Sc -> nat -> R -> R * Sc) fresh w sc runs x :
  executed p alg gnorm scheduled rate fresh w sc runs x -> let h := concat (map recorded runs) in
  x_energies (x 0%nat) = map ev_energy h /\ x_errors (x 0%nat) = map ev_error h /\ x_gnorms (x 0%nat) = map ev_gnorm h /\
  (runs <> [] -> x_csv (x 0%nat) = Some (lines h)) /\
  (forall r, x_low (x r) = x_low (x 0%nat) /\ x_state (x r) = x_state (x 0%nat)) /\
  (forall r, r <> 0%nat -> x_energies (x r) = [] /\ x_errors (x r) = [] /\ x_gnorms (x r) = [] /\ x_min (x r) = dbl_max) /\ x_min (x 0%nat) <= dbl_max.
Proof. exact (all_runs p alg gnorm scheduled rate fresh w sc runs x). Qed.
Print Assumptions c87_trajectory.

(** C87: after a run the lowest state of every rank and the minimum of the master are the first least accepted evaluation of that run. *)
Theorem c87_minimum {W G A P Sc : Type} p (alg : algorithm (W:=W) (G:=G) (A:=A) (P:=P)) gnorm scheduled (rate : Sc -> nat -> R -> R * Sc) fresh w sc runs s x :
  executed p alg gnorm scheduled rate fresh w sc (runs ++ [s]) x -> accepted (s_obs s) <> [] -> (forall y, In y (accepted (s_obs s)) -> ev_energy y < dbl_max) ->
  exists i y, nth_error (accepted (s_obs s)) i = Some y /\ (forall r, x_low (x r) = ev_state y) /\ x_min (x 0%nat) = ev_energy y /\
    (forall j z, nth_error (accepted (s_obs s)) j = Some z -> ev_energy y <= ev_energy z) /\
    (forall j z, (j < i)%nat -> nth_error (accepted (s_obs s)) j = Some z -> ev_energy y < ev_energy z).
Proof. exact (last_run_minimum p alg gnorm scheduled rate fresh w sc runs s x). Qed.
Print Assumptions c87_minimum.

(** C87: every rank ends with the final state of the run, rescaled; a named dump writes it and the lowest state. *)
Theorem c87_final_state {W G A P Sc : Type} p (alg : algorithm (W:=W) (G:=G) (A:=A) (P:=P)) gnorm scheduled (rate : Sc -> nat -> R -> R * Sc) fresh fuel v named (x : nat -> exec) s x' :
  execute p alg gnorm scheduled rate fresh fuel v named x = Ok (Some (s, x')) ->
  (forall r, x_state (x' r) = v_norm v (s_cur s)) /\ x_dump (x' 0%nat) = (if named then Some (x_state (x' 0%nat), x_low (x' 0%nat)) else x_dump (reacts p true (v_engine v) [] (s_obs s) (x 0%nat))).
Proof. exact (final_state p alg gnorm scheduled rate fresh fuel v named x s x'). Qed.
Print Assumptions c87_final_state.

(** C87: the one-call interface throws before anything runs if boundary, truncation parameters and updater do not fit, and else returns what one
    run of a new executor leaves on each rank. *)
Theorem c87_one_call {W G A P Sc : Type} p (alg : algorithm (W:=W) (G:=G) (A:=A) (P:=P)) gnorm scheduled (rate : Sc -> nat -> R -> R * Sc) fresh fuel v (named periodic trg_params trg bmps : bool) (w : W) (sc : Sc) :
  (periodic <> trg_params \/ (if periodic then trg else bmps) = false -> vmc_optimize p alg gnorm scheduled rate fresh fuel v named periodic trg_params trg bmps w sc = Fail Throw) /\
  (periodic = trg_params -> (if periodic then trg else bmps) = true ->
   vmc_optimize p alg gnorm scheduled rate fresh fuel v named periodic trg_params trg bmps w sc =
   (z <- execute p alg gnorm scheduled rate fresh fuel v named (fun _ => new_exec w sc);; Ok (match z with Some (_, x) => Some (fun r => result_of (x r)) | None => None end))) /\
  (forall f, vmc_optimize p alg gnorm scheduled rate fresh fuel v named periodic trg_params trg bmps w sc = Ok (Some f) ->
   exists s x, executed p alg gnorm scheduled rate fresh w sc [s] x /\ forall r : nat,
     r_state (f r) = x_state (x r) /\ r_lowest (f r) = x_low (x r) /\ r_min (f r) = x_min (x r) /\
     r_energies (f r) = x_energies (x r) /\ r_errors (f r) = x_errors (x r) /\ r_gnorms (f r) = x_gnorms (x r)).
Proof. exact (api_fields p alg gnorm scheduled rate fresh fuel v named periodic trg_params trg bmps w sc). Qed.
Print Assumptions c87_one_call.

(** C87 is false if the minimum is taken to be the minimum of the trajectory: the evaluation that ends a converged run counts for one only. *)
Theorem c87_recorded_refuted : exists s x, executed (still_params 2 1) counter (fun _ => 0) false (fun (sc : unit) _ _ => (1, sc)) tt 0%nat tt [s] x /\
  x_energies (x 0%nat) = [0] /\ x_min (x 0%nat) = -1 /\ x_low (x 0%nat) = 1%nat.
Proof. exact unrecorded. Qed.
Print Assumptions c87_recorded_refuted.

(** C87 is false if the minimum is taken over all runs: a later run that only sees higher energies replaces the state and the minimum. *)
Theorem c87_rerun_refuted : exists s1 s2 x, executed (still_params 1 0) counter (fun _ => 0) false (fun (sc : unit) _ _ => (1, sc)) tt 0%nat tt [s1; s2] x /\
  x_energies (x 0%nat) = [-1; 0] /\ x_min (x 0%nat) = 0 /\ x_low (x 0%nat) = 1%nat.
Proof. exact forgotten. Qed.
Print Assumptions c87_rerun_refuted.

(** C87 is false if the result is read on another rank. *)
Theorem c87_other_ranks_refuted : exists s x, executed (still_params 1 0) counter (fun _ => 0) false (fun (sc : unit) _ _ => (1, sc)) tt 0%nat tt [s] x /\
  r_energies (result_of (x 0%nat)) = [-1] /\ r_min (result_of (x 0%nat)) = -1 /\ forall r, r <> 0%nat -> r_energies (result_of (x r)) = [] /\ r_min (result_of (x r)) = dbl_max.
Proof. exact elsewhere. Qed.
Print Assumptions c87_other_ranks_refuted.

(** non-vacuity: two runs of two steps, each ended by the gradient criterion *)
Example c87_runs : exists s1 s2 x, executed (still_params 2 1) counter (fun _ => 0) false (fun (sc : unit) _ _ => (1, sc)) tt 0%nat tt [s1; s2] x /\
  length (accepted (s_obs s1)) = 2%nat /\ length (accepted (s_obs s2)) = 2%nat /\ length (x_energies (x 0%nat)) = 2%nat.
Proof. exact two_runs. Qed.
