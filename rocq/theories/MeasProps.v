(** Property theorems C56, C59, C60, C61. *)
From Coq Require Import List Arith Lia Bool Reals Lra.
From Verif Require Import Base Cplx Rsum StatModel StatSpec MinsrModel MeasModel MeasSpec MeasLoop MeasProofs MeasMain.
Import ListNotations.
Local Open Scope nat_scope.

(** C56: flipping the sign of any entries leaves the relative error and, up to an overall sign, the mean
    unchanged, provided some amplitude is above the threshold and no two have a purely imaginary overlap. *)
Theorem c56_signs : forall l l', flipped l l' -> sign_defined l -> (exists x, In x l /\ (reference_tol < cabs x)%R) ->
  (fst (psi_summary l') = fst (psi_summary l) \/ fst (psi_summary l') = Copp (fst (psi_summary l))) /\ snd (psi_summary l') = snd (psi_summary l).
Proof. exact psi_flip. Qed.
Print Assumptions c56_signs.
Theorem c56_nonnegative : forall l, (0 <= snd (psi_summary l))%R.
Proof. exact psi_nonneg. Qed.
Print Assumptions c56_nonnegative.
Theorem c56_consistent : forall l x0, l <> [] -> (reference_tol < cabs x0)%R -> (forall x, In x l -> x = x0 \/ x = Copp x0) ->
  snd (psi_summary l) = 0%R /\ (fst (psi_summary l) = x0 \/ fst (psi_summary l) = Copp x0).
Proof. exact psi_equal. Qed.
Print Assumptions c56_consistent.
(** For complex amplitudes without that proviso, and for lists entirely below the threshold, it is false. *)
Theorem c56_complex_refuted : exists l l', flipped l l' /\ (exists x, In x l /\ (reference_tol < cabs x)%R) /\
  fst (psi_summary l') <> fst (psi_summary l) /\ fst (psi_summary l') <> Copp (fst (psi_summary l)).
Proof. exact psi_flip_complex. Qed.
Print Assumptions c56_complex_refuted.
Theorem c56_tiny_refuted : exists l l', flipped l l' /\ sign_defined l /\ snd (psi_summary l) = 0%R /\ snd (psi_summary l') <> 0%R.
Proof. exact psi_tiny. Qed.
Print Assumptions c56_tiny_refuted.
Example c56_real (a b : R) : (reference_tol < Rabs a)%R -> sign_defined [(a, 0%R); (b, 0%R)] /\ flipped [(a, 0%R); (b, 0%R)] [(a, 0%R); (Ropp b, 0%R)].
Proof. exact (real_case a b). Qed.

(** C59: with [n] samples of [L] numbers on each rank, the reported mean of every entry is the mean over the
    samples of all ranks. *)
Theorem c59_pooled : forall (ranks : list (list (list C))) n L, 0 < n -> ranks <> [] -> Forall (fun s => length s = n) ranks ->
  Forall (Forall (fun d => length d = L)) ranks ->
  exists means errs, gather_stats ranks = Ok (means, errs) /\ length means = L /\
    forall i, i < L -> nth i means (RtoC 0) = average (fun d => nth i d (RtoC 0)) (concat ranks).
Proof. exact pooled_value. Qed.
Print Assumptions c59_pooled.
(** Each particle-number sample is one-hot at the total particle number. *)
Theorem c59_one_hot : forall config pps, pps <> [] -> Forall (fun s => s < length pps) config ->
  exists v, particle_sample config pps = Ok (total_particles config pps, v) /\ length v = length config * max_particles pps + 1 /\
    total_particles config pps < length v /\
    forall k, k < length v -> nth k v (RtoC 0) = if k =? total_particles config pps then RtoC 1 else RtoC 0.
Proof. exact one_hot. Qed.
Print Assumptions c59_one_hot.
(** A site state without an entry in the table is an exception, never a silently wrong count. *)
Theorem c59_unknown_state : forall config pps, Exists (fun s => length pps <= s) config -> particle_sample config pps = Fail Throw.
Proof. exact unknown_state. Qed.
Print Assumptions c59_unknown_state.
(** The averaged distribution holds the fraction of samples with each particle number, and sums to one. *)
Theorem c59_distribution : forall configs pps sites samples, pps <> [] -> configs <> [] ->
  Forall (fun c => length c = sites /\ Forall (fun s => s < length pps) c) configs ->
  Forall2 (fun c v => exists n, particle_sample c pps = Ok (n, v)) configs samples ->
  (forall k, k < sites * max_particles pps + 1 ->
    average (fun v => nth k v (RtoC 0)) samples =
    RtoC (INR (length (filter (fun c => total_particles c pps =? k) configs)) / INR (length configs))) /\
  sumC (fun k => average (fun v => nth k v (RtoC 0)) samples) (seq 0 (sites * max_particles pps + 1)) = RtoC 1.
Proof. exact distribution_main. Qed.
Print Assumptions c59_distribution.
(** A run on one rank reports a standard error of zero whatever its samples. *)
Theorem c59_one_rank_error : forall (s : list (list C)) m e i, gather_stats [s] = Ok (m, e) -> dumped_error e i = Err 0.
Proof. exact single_rank_error. Qed.
Print Assumptions c59_one_rank_error.
(** two ranks with two samples of one number *)
Example c59_case (x y : C) : exists means errs, gather_stats [[[x]; [y]]; [[y]; [y]]] = Ok (means, errs) /\ nth 0 means (RtoC 0) = average (fun d => nth 0 d (RtoC 0)) [[x]; [y]; [y]; [y]].
Proof. destruct (c59_pooled [[[x]; [y]]; [[y]; [y]]] 2 1) as (m & e & A & _ & B); [lia|discriminate|repeat constructor|repeat constructor|]. exists m, e. split; [exact A|]. apply (B 0). lia. Qed.
Example c59_tj : particle_sample [2; 0; 1; 2] [1; 1; 0] = Ok (2, [RtoC 0; RtoC 0; RtoC 1; RtoC 0; RtoC 0]).
Proof. reflexivity. Qed.

(** C60 *)
Theorem c60_sizes : forall n, trg_size_ok n = true <-> exists k, n = 2 ^ k \/ n = 3 * 2 ^ k.
Proof. exact trg_sizes. Qed.
Print Assumptions c60_sizes.
Example c60_case : trg_size_ok 12 = true /\ trg_size_ok 20 = false. Proof. split; reflexivity. Qed.

(** C61: whatever the number of ranks, the signals and their timing. [flags]: signals already pending. *)
(** every execution is finite *)
Theorem c61_terminates : forall P S flags, Acc (fun b a => mstep P S a b) (measure_start flags).
Proof. exact loop_terminates. Qed.
Print Assumptions c61_terminates.
(** until all ranks are past the closing collectives some rank can move, without waiting for a signal *)
Theorem c61_no_deadlock : forall P S flags c, 0 < P -> msteps P S (measure_start flags) c -> (exists r, r < P /\ m_phase (c r) <> PEnd) ->
  exists c', mstep P S c c' /\ forall q, q < P -> m_flag (c' q) = m_flag (c q).
Proof. exact loop_progress. Qed.
Print Assumptions c61_no_deadlock.
(** ranks that left the loop took part in the same checks and hold the same number of samples, which is the
    requested one unless some rank was signalled *)
Theorem c61_agreement : forall P S flags c, 0 < P -> msteps P S (measure_start flags) c ->
  forall r q, r < P -> q < P -> m_phase (c r) = PGather \/ m_phase (c r) = PEnd -> m_phase (c q) = PGather \/ m_phase (c q) = PEnd ->
  length (m_sent (c r)) = length (m_sent (c q)) /\ m_samples (c r) = m_samples (c q) /\ m_samples (c r) <= S /\
  (m_samples (c r) = S \/ exists k, k < P /\ m_flag (c k) = true).
Proof. exact loop_agreement. Qed.
Print Assumptions c61_agreement.
(** a signalled rank stops everybody at its next check: no rank ever holds more samples than the checks that
    rank had made when the signal arrived *)
Theorem c61_prompt : forall P S flags c c' r q, msteps P S (measure_start flags) c -> msteps P S c c' -> r < P -> q < P ->
  m_flag (c r) = true -> m_samples (c' q) <= length (m_sent (c r)).
Proof. exact loop_prompt. Qed.
Print Assumptions c61_prompt.
(** no rank samples while another is already past the loop *)
Theorem c61_no_skipped_collective : forall P S flags c r q, 0 < P -> msteps P S (measure_start flags) c -> r < P -> q < P ->
  m_phase (c r) = PEnd -> m_phase (c q) = PGather \/ m_phase (c q) = PEnd.
Proof. exact loop_gathered. Qed.
Print Assumptions c61_no_skipped_collective.
(** The acceptance rate printed after an emergency stop is not that of the sweeps made. *)
Theorem c61_accept_rate_refuted : exists S rates, rates <> [] /\ length rates < S /\ (forall x, In x rates -> x = 1%R) /\
  accept_rate S rates <> 1%R.
Proof. exact accept_rate_short. Qed.
Print Assumptions c61_accept_rate_refuted.
(** a run of two ranks with one sample requested, signalled on rank 1 during its sample *)
Example c61_case : exists c, msteps 2 5 (measure_start (fun _ => false)) c /\ m_phase (c 0) = PGather /\ m_phase (c 1) = PGather /\ m_samples (c 0) = 1 /\ m_samples (c 1) = 1.
Proof. exact stop_case. Qed.
