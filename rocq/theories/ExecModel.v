(** The executor of an optimisation on all ranks, and the one-call interface to it. *)
From Coq Require Import List Arith Bool Reals.
From Verif Require Import Base OptModel.
Import ListNotations.
Local Open Scope R_scope.

Section Exec.
(** states of the wave function; gradients, accumulators, directions and schedules of the optimiser *)
Context {W G A P Sc : Type}.
Variable p : params.
Variable alg : algorithm (W:=W) (G:=G) (A:=A) (P:=P).
Variable gnorm : G -> R.
Variable scheduled : bool.
Variable rate : Sc -> nat -> R -> R * Sc.
Variable fresh : A.
Notation obs := (obs (W:=W)).

(** vmc_peps_optimizer.h:190-232 the members that are read from outside, the trajectory file and the dumped pair of states *)
Record exec := mkExec {
  x_energies : list R; x_errors : list R; x_gnorms : list R;
  x_min : R; x_low : W; x_state : W; x_sched : Sc;
  x_csv : option (list (nat * R * R * R)); x_dump : option (W * W) }.
(** vmc_peps_optimizer_impl.h:35-80 constructor *)
Definition new_exec (w : W) (sc : Sc) : exec := mkExec [] [] [] dbl_max w w sc None None.
(** What a run meets outside of the executor: answers of the evaluator, the state the engine holds after each part of the trace (the evaluator
    and the trials of the step selector assign to it), the rescaling of the warm-up and of the end (monte_carlo_engine.h:171, 206-235), the
    stop callback, the check of the final state (vmc_peps_optimizer_impl.h:562-592). *)
Record env := mkEnv { v_eval : nat -> W -> R * G * R; v_trial : nat -> W -> R * R; v_engine : list obs -> W; v_warm : W -> W; v_norm : W -> W;
                      v_stop : nat -> R -> R -> bool; v_valid : W -> bool }.

(** vmc_peps_optimizer_impl.h:475-501 WriteEnergyTrajectoryCsv_, the lines after the header; written at once *)
Definition csv_lines (x : exec) : list (nat * R * R * R) :=
  map (fun i => (i, nth i (x_energies x) 0, (if (i <? length (x_errors x))%nat then nth i (x_errors x) 0 else 0),
                 (if (i <? length (x_gnorms x))%nat then nth i (x_gnorms x) 0 else 0))) (seq 0 (length (x_energies x))).
(** 112-128 on_iteration, on the master rank *)
Definition on_iteration (engine : W) (i : nat) (e err gn : R) (x : exec) : exec :=
  let low := rlt e (x_min x) in
  let y := mkExec (x_energies x ++ [e]) (x_errors x ++ [err]) (x_gnorms x ++ [gn]) (if low then e else x_min x) (if low then engine else x_low x)
                  (x_state x) (x_sched x) (x_csv x) (x_dump x) in
  if (0 <? p_every p)%nat && (0 <? i)%nat && (i mod p_every p =? 0)%nat
  then mkExec (x_energies y) (x_errors y) (x_gnorms y) (x_min y) (x_low y) (x_state y) (x_sched y) (Some (csv_lines y)) (x_dump y)
  else y.
(** 130-135 on_lowest_state_found, on the master rank *)
Definition on_lowest (w : W) (e : R) (x : exec) : exec :=
  mkExec (x_energies x) (x_errors x) (x_gnorms x) e w (x_state x) (x_sched x) (x_csv x) (x_dump x).
(** 111-135: callbacks of the run; they do nothing on other ranks *)
Definition react (master : bool) (engine : W) (o : obs) (x : exec) : exec :=
  if master then
    match o with
    | Lowest w e => on_lowest w e x
    | Iter i e err gn => on_iteration engine i e err gn x
    | _ => x
    end
  else x.
(** the callbacks in the order of the run (optimizer_impl.h:793-795, 884-886) *)
Fixpoint reacts (master : bool) (engine : list obs -> W) (seen : list obs) (l : list obs) (x : exec) : exec :=
  match l with [] => x | o :: l => reacts master engine (seen ++ [o]) l (react master (engine (seen ++ [o])) o x) end.
(** 513-542 DumpData, on the master rank; [named]: tps_dump_base_name is not empty *)
Definition dump_data (named : bool) (x : exec) : exec :=
  mkExec (x_energies x) (x_errors x) (x_gnorms x) (x_min x) (x_low x) (x_state x) (x_sched x) (Some (csv_lines x))
         (if named then Some (x_state x, x_low x) else x_dump x).
(** 106-209 Execute on all ranks; [None]: still running. Every rank sees the run of the master (C62); the states are broadcast (198-199), the
    energies are not. An invalid state throws on the master (191-195; the other ranks then wait for ever, here: one outcome). *)
Definition execute (fuel : nat) (v : env) (named : bool) (x : nat -> exec) : res (option (st (W:=W) (A:=A) (Sc:=Sc) * (nat -> exec))) :=
  o <- optimize p alg (v_eval v) (v_trial v) gnorm scheduled rate (v_stop v) fuel (new_members fresh (x_sched (x 0%nat))) (v_warm v (x_state (x 0%nat)));;
  match o with
  | Running _ => Ok None
  | Finished s =>
      let y r := reacts (r =? 0)%nat (v_engine v) [] (s_obs s) (x r) in
      if v_valid v (s_cur s) then
        Ok (Some (s, fun r =>
          let z := mkExec (x_energies (y r)) (x_errors (y r)) (x_gnorms (y r)) (x_min (y r)) (x_low (y 0%nat)) (v_norm v (s_cur s)) (s_sched s) (x_csv (y r)) (x_dump (y r)) in
          if (r =? 0)%nat then dump_data named z else z))
      else Fail Throw
  end.
(** api/vmc_api.h:34-45 what the caller gets *)
Record result := mkResult { r_state : W; r_lowest : W; r_min : R; r_energies : list R; r_errors : list R; r_gnorms : list R }.
(** api/vmc_api.h:96-105, 113-122 *)
Definition result_of (x : exec) : result := mkResult (x_state x) (x_low x) (x_min x) (x_energies x) (x_errors x) (x_gnorms x).
(** api/vmc_api.h:58-70 CrossCheckBackendOrThrow_ *)
Definition cross_check (periodic trg_params : bool) : res unit :=
  if periodic then if negb trg_params then Fail Throw else Ok tt
  else if trg_params then Fail Throw else Ok tt.
(** api/vmc_api.h:79-128 VmcOptimize; [trg], [bmps]: what the updater supports. The two branches construct the executor of their contractor and
    run it. *)
Definition vmc_optimize (fuel : nat) (v : env) (named periodic trg_params trg bmps : bool) (w : W) (sc : Sc) : res (option (nat -> result)) :=
  cross_check periodic trg_params >>
  (if periodic then if trg then Ok tt else Fail Throw else if bmps then Ok tt else Fail Throw) >>
  (z <- execute fuel v named (fun _ => new_exec w sc);;
   Ok (match z with Some (_, x) => Some (fun r => result_of (x r)) | None => None end)).
End Exec.
