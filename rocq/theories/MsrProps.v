(** C89 *)
From Coq Require Import String List Arith Bool Reals Lia.
From Verif Require Import Base Cplx StatSpec StatModel MeasModel MsrModel MsrSpec MsrProofs.
Import ListNotations.
Local Open Scope nat_scope.

(** C89: after any number of runs the master reports for every entry of every observable its mean over the samples of all ranks in all runs. *)
Theorem c89_pooled metas P ks len : NoDup ks -> 0 < P -> forall runs ms d, measured metas P runs ms d -> uniform ks len P runs -> of_rank runs 0 <> [] -> forall k, In k ks ->
  exists means errs, find_key k (t_stats (nth 0 ms new_mst)) = Some (means, errs) /\ length means = len k /\
    forall i, i < len k -> nth i means (RtoC 0) = average (fun z => nth i (values k z) (RtoC 0)) (of_all P runs).
Proof. exact (pooled metas P ks len). Qed.
Print Assumptions c89_pooled.

(** C89: the energy returned is the first entry of the observable of that name, with its error. *)
Theorem c89_energy (m : mst) means errs : find_key "energy"%string (t_stats m) = Some (means, errs) -> means <> [] ->
  fst (output_energy m) = nth 0 means (RtoC 0) /\ snd (output_energy m) = dumped_error errs 0 /\ (t_finished m = true -> energy_estimate m = Some (output_energy m)).
Proof. exact (energy_first m means errs). Qed.
Print Assumptions c89_energy.

(** C89: the sample files list all samples of all runs; the written statistics are those in memory. *)
Theorem c89_files metas P ks : NoDup ks -> 0 < P -> forall runs ms d, measured metas P runs ms d -> same_names P ks runs ->
  length ms = P /\
  (forall r, r < P -> t_finished (nth r ms new_mst) = match runs with [] => false | _ => true end) /\
  match d with None => runs = [] | Some d => d_psi d = numbered (map z_psi (of_rank runs 0)) /\ d_counts d = map (fun r => numbered (counts (of_rank runs r))) (seq 0 P) /\ dump_stats metas (t_stats (nth 0 ms new_mst)) = Ok (d_stats d) end.
Proof. exact (files metas P ks). Qed.
Print Assumptions c89_files.

(** C89: an observable declared as a matrix is written with one line for each row: line r, column c has entry r * cols + c. *)
Theorem c89_matrix_file metas l f k means errs rows cols : dump_stats metas l = Ok f -> find_key k l = Some (means, errs) -> find_key k metas = Some [rows; cols] ->
  length means = rows * cols /\ exists M E, find_key k f = Some (Matrix M E) /\ length M = rows /\ length E = rows /\
    forall r, r < rows -> length (nth r M []) = cols /\ length (nth r E []) = cols /\ forall c, c < cols -> nth c (nth r M []) (RtoC 0) = nth (r * cols + c) means (RtoC 0) /\ nth c (nth r E []) (Err 0) = dumped_error errs (r * cols + c).
Proof. exact (matrix_file metas l f k means errs rows cols). Qed.
Print Assumptions c89_matrix_file.

(** C89: an undeclared observable is written as a numbered list. *)
Theorem c89_flat_file metas l f k means errs : dump_stats metas l = Ok f -> find_key k l = Some (means, errs) -> find_key k metas = None ->
  exists F, find_key k f = Some (Flat F) /\ length F = length means /\ forall i, i < length means -> nth i F (0, RtoC 0, Err 0) = (i, nth i means (RtoC 0), dumped_error errs i).
Proof. exact (flat_file metas l f k means errs). Qed.
Print Assumptions c89_flat_file.

(** C89: a declared shape with a zero, or that does not fit the number of entries, makes the writing throw. *)
Theorem c89_bad_shape metas l k means errs d dims : find_key k l = Some (means, errs) -> find_key k metas = Some (d :: dims) ->
  In 0 (d :: dims) \/ fold_left Nat.mul (d :: dims) 1 <> length means -> dump_stats metas l = Fail Throw.
Proof. exact (bad_shape_throws metas l k means errs d dims). Qed.
Print Assumptions c89_bad_shape.

(** C89: if every run was stopped before its first sample, the executor is finished and has no energy; the plain accessor returns zero. *)
Theorem c89_no_samples metas P ks : NoDup ks -> 0 < P -> forall runs ms d, measured metas P runs ms d -> same_names P ks runs -> of_rank runs 0 = [] -> runs <> [] ->
  t_finished (nth 0 ms new_mst) = true /\ energy_estimate (nth 0 ms new_mst) = None /\ output_energy (nth 0 ms new_mst) = (RtoC 0, Err 0).
Proof. exact (no_energy metas P ks). Qed.
Print Assumptions c89_no_samples.

(** C89: on the other ranks the energy returned is always zero with error zero. *)
Theorem c89_other_ranks metas P ks : NoDup ks -> 0 < P -> forall runs ms d, measured metas P runs ms d -> same_names P ks runs -> forall r, 0 < r < P ->
  output_energy (nth r ms new_mst) = (RtoC 0, Err 0) /\ energy_estimate (nth r ms new_mst) = None.
Proof. exact (others_energy metas P ks). Qed.
Print Assumptions c89_other_ranks.

(** C89: the one-call interface throws before anything is sampled if boundary, truncation parameters and updater do not fit; what it returns is
    what one run of a new executor leaves. *)
Theorem c89_one_call metas P (periodic trg_params trg bmps : bool) batch :
  (periodic <> trg_params \/ (if periodic then trg else bmps) = false -> monte_carlo_measure metas P periodic trg_params trg bmps batch = Fail Throw) /\
  (forall l, length batch = P -> monte_carlo_measure metas P periodic trg_params trg bmps batch = Ok l -> periodic = trg_params /\ (if periodic then trg else bmps) = true /\
   exists ms d, measured metas P [batch] ms d /\ l = map (fun m => (output_energy m, t_stats m)) ms).
Proof. exact (one_call metas P periodic trg_params trg bmps batch). Qed.
Print Assumptions c89_one_call.

(** C89 is false if a second run is taken to measure anew: its energy, two, is averaged with the zero of the first. *)
Theorem c89_rerun_refuted : exists ms d, measured [] 1 [[[energy_sample 0]]; [[energy_sample 2]]] ms d /\ fst (output_energy (nth 0 ms new_mst)) = RtoC 1.
Proof. exact pooled_twice. Qed.
Print Assumptions c89_rerun_refuted.

(** non-vacuity: two ranks, the energy declared as a matrix with one entry *)
Example c89_two_ranks (x : R) : exists ms d, measured [("energy"%string, [1; 1])] 2 [[[energy_sample x]; [energy_sample x]]] ms (Some d) /\
  uniform ["energy"%string] (fun _ => 1) 2 [[[energy_sample x]; [energy_sample x]]].
Proof. destruct (two_ranks x) as (ms & d & M). exists ms, d. split; [exact M|]. exact (uniform_demo 2 [x]). Qed.
Example c89_bad_shape_met : dump_stats [("energy"%string, [2; 0])] [("energy"%string, ([RtoC 1], [Err 0]))] = Fail Throw.
Proof. reflexivity. Qed.
