(** The measurement executor: sampling loop with emergency stop (monte_carlo_peps_measurer_impl.h:493-536,
    base/mpi_signal_guard.h), statistics of the samples (monte_carlo_peps_measurer.h), particle-number
    distribution, and the psi-consistency diagnostic (psi_consistency.h). Numbers are exact. *)
From Coq Require Import List Arith Bool Reals.
From Verif Require Import Base Cplx Rsum OptModel LbModel StatModel MinsrModel.
Import ListNotations.
Local Open Scope nat_scope.

(** *** Measure_, 493-536, on all ranks. A rank is about to check for a stop, inside the MPI_Allreduce of
    the check, sampling, in the collectives that follow the loop, or past them. *)
Inductive phase := PCheck | PWait | PWork | PGather | PEnd.
(** [m_flag]: g_emergency_stop_flag_ of this process; [m_sent]: what it contributed to each MPI_Allreduce
    so far (one per iteration, mpi_signal_guard.h:22-27); [m_samples]: the samples taken. *)
Record mrank := mkRank { m_flag : bool; m_sent : list bool; m_phase : phase; m_samples : nat }.
(** all ranks, monte_carlo_peps_measurer_impl.h:493-536 *)
Definition msys := nat -> mrank.
(** One step. A signal can arrive on any rank at any time (47-48 of mpi_signal_guard.h). A collective
    returns on a rank only after all [P] ranks have entered it. *)
Inductive mstep (P S : nat) : msys -> msys -> Prop :=
| ms_signal c r : r < P -> m_flag (c r) = false -> mstep P S c (upd c r (mkRank true (m_sent (c r)) (m_phase (c r)) (m_samples (c r))))
| ms_enter c r : r < P -> m_phase (c r) = PCheck -> length (m_sent (c r)) < S ->
    mstep P S c (upd c r (mkRank (m_flag (c r)) (m_sent (c r) ++ [m_flag (c r)]) PWait (m_samples (c r))))
| ms_full c r : r < P -> m_phase (c r) = PCheck -> S <= length (m_sent (c r)) ->
    mstep P S c (upd c r (mkRank (m_flag (c r)) (m_sent (c r)) PGather (m_samples (c r))))
| ms_stop c r r' : r < P -> m_phase (c r) = PWait -> (forall q, q < P -> length (m_sent (c r)) <= length (m_sent (c q))) ->
    r' < P -> nth_error (m_sent (c r')) (length (m_sent (c r)) - 1) = Some true ->
    mstep P S c (upd c r (mkRank (m_flag (c r)) (m_sent (c r)) PGather (m_samples (c r))))
| ms_go c r : r < P -> m_phase (c r) = PWait -> (forall q, q < P -> length (m_sent (c r)) <= length (m_sent (c q))) ->
    (forall q, q < P -> nth_error (m_sent (c q)) (length (m_sent (c r)) - 1) = Some false) ->
    mstep P S c (upd c r (mkRank (m_flag (c r)) (m_sent (c r)) PWork (m_samples (c r))))
| ms_sample c r : r < P -> m_phase (c r) = PWork -> mstep P S c (upd c r (mkRank (m_flag (c r)) (m_sent (c r)) PCheck (m_samples (c r) + 1)))
| ms_gather c r : r < P -> m_phase (c r) = PGather -> (forall q, q < P -> m_phase (c q) = PGather \/ m_phase (c q) = PEnd) ->
    mstep P S c (upd c r (mkRank (m_flag (c r)) (m_sent (c r)) PEnd (m_samples (c r)))).
(** runs of the processes, monte_carlo_peps_measurer_impl.h:493-536 *)
Inductive msteps (P S : nat) : msys -> msys -> Prop :=
| msteps_refl c : msteps P S c c
| msteps_step c c' c'' : msteps P S c c' -> mstep P S c' c'' -> msteps P S c c''.
(** monte_carlo_peps_measurer_impl.h:493-500 *)
Definition measure_start (flags : nat -> bool) : msys := fun r => mkRank (flags r) [] PCheck 0.
(** 521-524: the printed acceptance rate; [rates]: one number per sweep performed *)
Definition accept_rate (S : nat) (rates : list R) : R := (rsum (fun x => x) rates / INR S)%R.

(** *** Statistics of one observable *)
(** monte_carlo_peps_measurer.h:383-394: mean over the samples of one rank; a sample shorter than the
    first is read out of range. The standard errors of 396-404 are discarded by GatherStatistic_. *)
Definition local_mean (samples : list (list C)) : res (list C) := ave_list samples.
(** monte_carlo_peps_measurer_impl.h:246-262 on the master *)
Fixpoint local_means (ranks : list (list (list C))) : res (list (list C)) :=
  match ranks with [] => Ok [] | s :: t => m <- local_mean s;; ms <- local_means t;; Ok (m :: ms) end.
(** monte_carlo_peps_measurer_impl.h:242-256 *)
Definition gather_stats (ranks : list (list (list C))) : res (list C * list err) := ms <- local_means ranks;; Ok (gather_list ms).
(** 587, 602: the error written for entry [i] *)
Definition dumped_error (errs : list err) (i : nat) : err := nth i errs (Err 0).

(** *** monte_carlo_peps_measurer.h:123-161 *)
Definition max_particles (pps : list nat) : nat := fold_right Nat.max 0 pps.
(** monte_carlo_peps_measurer.h:124-154 *)
Definition bin_count (config pps : list nat) : res nat :=
  match pps with [] => Fail Throw | _ => Ok (length config * max_particles pps + 1) end.
(** monte_carlo_peps_measurer.h:140-165 *)
Fixpoint count_particles (config pps : list nat) : res nat :=
  match config with
  | [] => Ok 0
  | s :: t => match nth_error pps s with None => Fail Throw | Some k => n <- count_particles t pps;; Ok (k + n) end
  end.
(** monte_carlo_peps_measurer.h:156-170; called in monte_carlo_peps_measurer_impl.h:200-206 *)
Definition particle_sample (config pps : list nat) : res (nat * list C) :=
  match pps with
  | [] => Fail Throw
  | _ => n <- count_particles config pps;; b <- bin_count config pps;;
         if n <? b then Ok (n, map (fun k => if k =? n then RtoC 1 else RtoC 0) (seq 0 b)) else Fail Throw
  end.

(** *** psi_consistency.h:121-168 *)
Local Open Scope R_scope.
(** std::abs, psi_consistency.h:135, 162 *)
Definition cabs (x : C) : R := sqrt (Cnorm2 x).
(** 1e-14, psi_consistency.h:136-143 *)
Definition reference_tol : R := / 10 ^ 14.
(** 131-140: the entry psi_list[ref_index] and ref_abs *)
Definition reference (l : list C) : C * R :=
  fold_left (fun '(best, a) x => if rlt a (cabs x) then (x, cabs x) else (best, a)) l (nth 0 l (RtoC 0), 0).
(** 147-157 *)
Definition align (l : list C) : list C :=
  let '(ref, a) := reference l in
  map (fun x => if rlt reference_tol a && rlt (fst (x * Cconj ref)%C) 0 then Copp x else x) l.
(** 121-168 *)
Definition psi_summary (l : list C) : C * R :=
  match l with
  | [] => (RtoC 0, 0)
  | _ =>
      let al := align l in
      let m := over (csum al) (length l) in
      (m, fold_left (fun d x => Rmax d (cabs (x - m)%C)) al 0 / Rmax (cabs m) dbl_eps)
  end.

(** *** monte_carlo_engine.h:445-451 IsTRGSupportedLinearSize_. The loop halves [n], so [n] rounds are enough. *)
Local Open Scope nat_scope.
(** monte_carlo_engine.h:445-451 *)
Fixpoint strip_twos (fuel n : nat) : nat :=
  match fuel with
  | 0 => n
  | S f => if n mod 2 =? 0 then strip_twos f (n / 2) else n
  end.
(** monte_carlo_engine.h:445-451, trg_contractor_impl.h:150-160 *)
Definition trg_size_ok (n : nat) : bool :=
  if n =? 0 then false else let m := strip_twos n n in (m =? 1) || (m =? 3).
