(** Statistics over samples and ranks, the Monte-Carlo energy/gradient evaluator, samples per rank,
    rescue of invalid configurations and normalisation of the state. Numbers are exact. *)
From Coq Require Import List Arith Bool Reals.
From Verif Require Import Base Cplx Rsum.
Import ListNotations.
Local Open Scope nat_scope.

(** std::reduce / accumulation in vmc_basic/monte_carlo_tools/statistics.h:52-60, 99-135 *)
Definition csum (l : list C) : C := fold_left Cadd l (RtoC 0).
(** division by a count, vmc_basic/monte_carlo_tools/statistics.h:52-135 *)
Definition over (x : C) (n : nat) : C := (x * RtoC (/ INR n))%C.
(** An error estimate: a number, infinity, or not a number. (result of the error estimate, vmc_basic/monte_carlo_tools/statistics.h:147-228, 289-365) *)
Inductive err := Err (x : R) | ErrInf | ErrNaN.

(** monte_carlo_tools/statistics.h:51-59 Mean *)
Definition mean (l : list C) : C := match l with [] => RtoC 0 | _ => over (csum l) (length l) end.
(** 61-80 Variance; an empty list gives 0/0. *)
Definition variance (l : list C) (m : C) : R := (rsum (fun x => Cnorm2 (x - m)%C) l / INR (length l))%R.
(** 88-96 StandardError *)
Definition standard_error (l : list C) (m : C) : err :=
  match length l with
  | 0 => ErrNaN
  | 1 => ErrInf
  | S (S _) => Err (sqrt (variance l m / (INR (length l) - 1)))
  end.
(** 98-121 AveListOfData: outside index sample, inside index site; a sample shorter than the first is
    read out of range. *)
Definition ave_list (data : list (list C)) : res (list C) :=
  match data with
  | [] => Ok []
  | d0 :: _ =>
      if forallb (fun d => length d0 <=? length d) data
      then Ok (map (fun i => over (csum (map (fun d => nth i d (RtoC 0)) data)) (length data)) (seq 0 (length d0)))
      else Fail UB
  end.
(** 156-176: bins of one rank; the trailing samples are dropped. [std::sqrt] of the count followed by
    truncation is the integer square root (exact below 2^52). *)
Definition bin_size (n : nat) : nat := Nat.max 1 (Nat.sqrt n).
(** vmc_basic/monte_carlo_tools/statistics.h:147-176 *)
Definition bin_means (l : list C) : list C :=
  let b := bin_size (length l) in
  map (fun i => over (csum (firstn b (skipn (i * b) l))) b) (seq 0 (length l / b)).
(** 178-206: MPI_Gather of the counts, displacements, MPI_Gatherv into a buffer of [total_bins]. *)
Fixpoint displacements (off : nat) (counts : list nat) : list nat :=
  match counts with [] => [] | c :: cs => off :: displacements (off + c) cs end.
(** MPI_Gather into the root buffer, vmc_basic/monte_carlo_tools/statistics.h:185-210, 248, 315 *)
Definition write_block (buf : list C) (off : nat) (vs : list C) : list C :=
  firstn off buf ++ vs ++ skipn (off + length vs) buf.
(** MPI_Gatherv in vmc_basic/monte_carlo_tools/statistics.h:178-210 *)
Definition gatherv (blocks : list (list C)) : list C :=
  let counts := map (@length C) blocks in
  let total := fold_left Nat.add counts 0 in
  fold_left (fun buf db => write_block buf (fst db) (snd db)) (combine (displacements 0 counts) blocks) (repeat (RtoC 0) total).
(** 147-224 MeanAndBinnedErrorSqrtNUniformBin as returned on each rank. *)
Definition binned (ranks : list (list C)) (rank : nat) : C * err :=
  if rank =? 0 then
    let all := gatherv (map bin_means ranks) in
    match length all with
    | 0 => (RtoC 0, Err 0)
    | 1 => (mean all, ErrInf)
    | _ => (mean all, standard_error all (mean all))
    end
  else (RtoC 0, Err 0).
(** 228-286 GatherStatisticSingleData on the master: one value per rank. *)
Definition gather_single (data : list C) : C * err :=
  match data with
  | [x] => (x, ErrInf)
  | _ =>
      let n := length data in
      let m := over (csum data) n in
      let var := (rsum Cnorm2 data / INR n - Cnorm2 m)%R in
      (m, if Rlt_dec var 0 then ErrNaN else Err (sqrt (var / (INR n - 1))))
  end.
(** 288-343 GatherStatisticListOfData on the master: [data] lists every rank's values. One rank: no
    errors at all. *)
Definition gather_list (data : list (list C)) : list C * list err :=
  match data with
  | [] => ([], [])
  | [d] => (d, [])
  | d0 :: _ =>
      let size := length d0 in
      let all := concat data in
      let column := fun j => map (fun i => nth (i * size + j) all (RtoC 0)) (seq 0 (length data)) in
      (map (fun j => mean (column j)) (seq 0 size),
       map (fun j => standard_error (column j) (mean (column j))) (seq 0 size))
  end.

(** *** monte_carlo_engine.h *)
(** 97-98: samples of each rank *)
Definition samples_per_rank (total size : nat) : nat := (total + size - 1) / size.

(** *** mc_energy_grad_evaluator.h, bosonic tensors *)
Section Evaluate.
Context {Site Elem : Type}.
(** What the sweep and the solver leave: local energy, amplitude, configuration, holes. (mc_energy_grad_evaluator.h:205-275) *)
Record sample := mkSample { s_energy : C; s_amp : C; s_conf : Site -> nat; s_hole : Site -> Elem -> C }.
(** a component of the gradient, mc_energy_grad_evaluator.h:185-200 *)
Definition param := (Site * nat * Elem)%type.
(** 236, 247-262: [O*] of one sample; only the occupied component of a site is touched. *)
Definition o_star (s : sample) (p : param) : C :=
  let '(site, basis, e) := p in
  if s_conf s site =? basis then (Cconj (RtoC 1 / s_amp s) * s_hole s site e)%C else RtoC 0.
(** mc_energy_grad_evaluator.h:66-76 *)
Record grad_result := mkGrad { g_energy : C; g_error : err; g_gradient : param -> C; g_o_mean : param -> C }.
(** 207-292: the sums of one rank *)
Definition rank_o (samples : list sample) (p : param) : C := fold_left (fun a s => (a + o_star s p)%C) samples (RtoC 0).
(** mc_energy_grad_evaluator.h:255-275 *)
Definition rank_eo (samples : list sample) (p : param) : C :=
  fold_left (fun a s => (a + Cconj (s_energy s) * o_star s p)%C) samples (RtoC 0).
(** mc_energy_grad_evaluator.h:285-300 *)
Definition rank_grad (n : nat) (energy : C) (samples : list sample) (p : param) : C :=
  (rank_eo samples p * RtoC (1 / INR n) + Cconj (- energy) * (rank_o samples p * RtoC (1 / INR n)))%C.
(** statistics_tensor.h:36-78 MPIMeanTensor on the master *)
Definition mpi_mean (vals : list C) : C := (csum vals * RtoC (1 / INR (length vals)))%C.
(** 152-318 Evaluate on the master; [n] is SamplesPerRank(). A vanishing amplitude or [n = 0]
    divides by zero. *)
Definition evaluate (n : nat) (ranks : list (list sample)) : res grad_result :=
  if (n =? 0) || existsb (fun l => existsb (fun s => if Ceq_dec (s_amp s) (RtoC 0) then true else false) l) ranks
  then Fail UB
  else
    let '(energy, error) := binned (map (map s_energy) ranks) 0 in
    Ok (mkGrad energy error
          (fun p => mpi_mean (map (fun l => rank_grad n energy l p) ranks))
          (fun p => mpi_mean (map (fun l => (rank_o l p * RtoC (1 / INR n))%C) ranks))).
(** 303-307: the field called gradient_norm *)
Definition gradient_norm (params : list param) (g : param -> C) : R := rsum (fun p => Cnorm2 (g p)) params.
End Evaluate.

(** *** monte_carlo_engine.h: EnsureConfigurationValidity *)
Section Rescue.
Context {Conf : Type}.
(** [amp r c]: the amplitude rank [r] computes for [c]; [None]: construction throws. [legal]: magnitude
    strictly between the thresholds and finite (wave_function_component.h:393-401). *)
Context (amp : nat -> Conf -> option R) (lo hi : R).
(** monte_carlo_engine.h:340-415 *)
Record rank_state := mkRank { k_conf : Conf; k_amp : R; k_init : bool; k_warm : bool }.
(** wave_function_component.h:395-400 *)
Definition legal (a : R) : bool := if Rlt_dec lo (Rabs a) then if Rlt_dec (Rabs a) hi then true else false else false.
(** 434-443 TryConstructWavefunction_ *)
Definition try_construct (r : nat) (c : Conf) (k : rank_state) : rank_state * bool :=
  match amp r c with
  | Some a => (mkRank c a (k_init k) (k_warm k), true)
  | None => (k, false)
  end.
(** monte_carlo_engine.h:340-350 *)
Definition local_valid (k : rank_state) : bool := k_init k && legal (k_amp k).
(** std::find for 1; (monte_carlo_engine.h:360-372) *)
Fixpoint find_valid (vs : list bool) (i : nat) : option nat :=
  match vs with [] => None | v :: vs' => if v then Some i else find_valid vs' (S i) end.
(** 340-414: collective call; MPI_Abort ends every rank ([Throw]). *)
Definition ensure_valid (enabled : bool) (ranks : list rank_state) : res (list rank_state) :=
  let valid := map local_valid ranks in
  let num_valid := length (filter (fun v => v) valid) in
  if num_valid =? length ranks then Ok ranks
  else if negb enabled then Fail Throw
  else match find_valid valid 0 with
       | None => Fail Throw
       | Some source =>
           match nth_error ranks source with
           | None => Fail UB
           | Some ks =>
               let c := k_conf ks in
               let step := fun rk : nat * rank_state =>
                 let '(r, k) := rk in
                 if local_valid k then Ok k
                 else let '(k', ok) := try_construct r c k in
                      if ok then Ok (mkRank (k_conf k') (k_amp k') true false) else Fail Throw in
               fold_right (fun rk acc => k <- step rk;; l <- acc;; Ok (k :: l)) (Ok []) (combine (seq 0 (length ranks)) ranks)
           end
       end.
(** 423-427 Initialize_ up to the normalisation: every rank constructs its own configuration. *)
Definition initial_rank (r : nat) (dflt : rank_state) (c : Conf) : rank_state :=
  let '(k, ok) := try_construct r c dflt in mkRank (k_conf k) (k_amp k) ok (k_warm k).
End Rescue.

(** 206-242 NormalizeStateOrder1: the factor applied to every site tensor. [amps]: the gathered
    amplitudes; a largest magnitude of zero divides by zero. *)
Definition site_scale (amps : list C) (sites : nat) : res R :=
  let biggest := fold_left Rmax (map (fun a => sqrt (Cnorm2 a)) amps) 0%R in
  if Req_EM_T biggest 0 then Fail UB
  else if sites =? 0 then Fail UB else Ok (Rpower (1 / biggest) (1 / INR sites)).
