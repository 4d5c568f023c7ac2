(** The measurement executor over all its runs. *)
From Coq Require Import String List Arith Bool Reals.
From Verif Require Import Base Cplx StatModel MeasModel ExecModel.
Import ListNotations.
Local Open Scope nat_scope.

(** What one call of MeasureSample_ adds (monte_carlo_peps_measurer_impl.h:193-238): the observables by name (with the particle-number
    distribution, if enabled; C59), the summary of the amplitude (C56), the particle number, if enabled. *)
Record sample := mkSample { z_obs : list (string * list C); z_psi : C * R; z_count : option nat }.
(** monte_carlo_peps_measurer.h:330-401, the members of one rank that are read from outside, with the files it wrote *)
Record mst := mkMst { t_samples : list (string * list (list C)); t_psi : list (C * R); t_counts : list nat;
                      t_stats : list (string * (list C * list err)); t_finished : bool }.
(** 66-78 constructor *)
Definition new_mst : mst := mkMst [] [] [] [] false.
(** std::unordered_map::find (monte_carlo_peps_measurer_impl.h:659) *)
Fixpoint find_key {V} (k : string) (l : list (string * V)) : option V :=
  match l with [] => None | (k', v) :: l => if String.eqb k k' then Some v else find_key k l end.
(** monte_carlo_peps_measurer.h:362 registry_samples[key].push_back. New names come last; the order of an unordered_map is not modelled. *)
Fixpoint push (k : string) (v : list C) (l : list (string * list (list C))) : list (string * list (list C)) :=
  match l with
  | [] => [(k, [v])]
  | (k', vs) :: l => if String.eqb k k' then (k', vs ++ [v]) :: l else (k', vs) :: push k v l
  end.
(** monte_carlo_peps_measurer_impl.h:193-238 MeasureSample_ *)
Definition measure_sample (m : mst) (z : sample) : mst :=
  mkMst (fold_left (fun l kv => push (fst kv) (snd kv) l) (z_obs z) (t_samples m)) (t_psi m ++ [z_psi z])
        (match z_count z with Some n => t_counts m ++ [n] | None => t_counts m end) (t_stats m) (t_finished m).
(** 254 registry_stats_[key] = ... *)
Fixpoint assign {V} (k : string) (v : V) (l : list (string * V)) : list (string * V) :=
  match l with
  | [] => [(k, v)]
  | (k', v') :: l => if String.eqb k k' then (k', v) :: l else (k', v') :: assign k v l
  end.
(** monte_carlo_peps_measurer_impl.h:247-255, all names *)
Fixpoint gather_keys (ks : list string) (ms : list mst) : res (list (string * (list C * list err))) :=
  match ks with
  | [] => Ok []
  | k :: ks =>
      s <- gather_stats (map (fun m => match find_key k (t_samples m) with Some l => l | None => [] end) ms);;
      t <- gather_keys ks ms;; Ok ((k, s) :: t)
  end.
(** 242-256 GatherStatistic_. Ranks with different names enter different collectives: undefined. Ranks other than the master get empty vectors
    (statistics.h:288-343). *)
Definition gather_statistic (ms : list mst) : res (list mst) :=
  match ms with
  | [] => Ok []
  | m0 :: rest =>
      let ks := map fst (t_samples m0) in
      if forallb (fun m => if list_eq_dec string_dec (map fst (t_samples m)) ks then true else false) rest then
        s <- gather_keys ks ms;;
        let put new m := mkMst (t_samples m) (t_psi m) (t_counts m) (fold_left (fun l kv => assign (fst kv) (snd kv) l) new (t_stats m)) (t_finished m) in
        Ok (put s m0 :: map (put (map (fun kv => (fst kv, ([], []))) s)) rest)
      else Fail UB
  end.
(** the written files of an observable: 544-588 as a matrix, 592-620 as a list *)
Inductive file := Matrix (means : list (list C)) (errors : list (list err)) | Flat (lines : list (nat * C * err)).
(** 544-588 DumpStatsMatrix_ *)
Definition dump_matrix (vals : list C) (errs : list err) (rows cols : nat) : file :=
  Matrix (map (fun r => map (fun c => nth (r * cols + c) vals (RtoC 0)) (seq 0 cols)) (seq 0 rows))
         (map (fun r => map (fun c => dumped_error errs (r * cols + c)) (seq 0 cols)) (seq 0 rows)).
(** 592-604 DumpStatsFlat_; 608-620 writes real parts only (simplification: not distinguished) *)
Definition dump_flat (vals : list C) (errs : list err) : file :=
  Flat (map (fun i => (i, nth i vals (RtoC 0), dumped_error errs i)) (seq 0 (length vals))).
(** 286-327 one observable; [shape]: from DescribeObservables; the product of its entries does not overflow (simplification) *)
Definition dump_key (shape : option (list nat)) (s : list C * list err) : res file :=
  match shape with
  | None | Some [] => Ok (dump_flat (fst s) (snd s))
  | Some dims =>
      if existsb (fun d => d =? 0) dims then Fail Throw
      else if fold_left Nat.mul dims 1 =? length (fst s)
           then match dims with [rows; cols] => Ok (dump_matrix (fst s) (snd s) rows cols) | _ => Ok (dump_flat (fst s) (snd s)) end
           else Fail Throw
  end.
(** 281-338 on the master *)
Fixpoint dump_stats (metas : list (string * list nat)) (l : list (string * (list C * list err))) : res (list (string * file)) :=
  match l with
  | [] => Ok []
  | (k, s) :: l => f <- dump_key (find_key k metas) s;; t <- dump_stats metas l;; Ok ((k, f) :: t)
  end.
(** monte_carlo_peps_measurer.h:406-417 on the master; monte_carlo_peps_measurer_impl.h:359-375 *)
Definition numbered {V} (l : list V) : list (nat * V) := combine (seq 0 (length l)) l.
(** what Execute leaves on disk: statistics, psi.csv of the master, particle numbers of each rank (monte_carlo_peps_measurer_impl.h:261-354) *)
Record disk := mkDisk { d_stats : list (string * file); d_psi : list (nat * (C * R)); d_counts : list (list (nat * nat)) }.
(** 172-178 Execute on all ranks; [batch]: the samples each rank takes in the loop of 495-534 (C61: all ranks take the same number) *)
Definition execute_measure (metas : list (string * list nat)) (batch : list (list sample)) (ms : list mst) : res (list mst * disk) :=
  let sampled := map (fun mb => fold_left measure_sample (snd mb) (fst mb)) (combine ms batch) in
  ms <- gather_statistic sampled;;
  let m0 := match ms with m :: _ => m | [] => new_mst end in
  f <- dump_stats metas (t_stats m0);;
  Ok (map (fun m => mkMst (t_samples m) (t_psi m) (t_counts m) (t_stats m) true) ms,
      mkDisk f (numbered (t_psi m0)) (map (fun m => numbered (t_counts m)) ms)).
(** 656-671 QueryEnergyEstimate_ *)
Definition query_energy (m : mst) : option (C * err) :=
  match find_key "energy"%string (t_stats m) with
  | None => None
  | Some (vals, errs) => match vals with [] => None | e :: _ => Some (e, match errs with [] => Err 0 | x :: _ => x end) end
  end.
(** 675-697 OutputEnergy *)
Definition output_energy (m : mst) : C * err := match query_energy m with Some e => e | None => (RtoC 0, Err 0) end.
(** 701-709 GetEnergyEstimate *)
Definition energy_estimate (m : mst) : option (C * err) := if t_finished m then query_energy m else None.
(** api/vmc_api.h:136-177 MonteCarloMeasure on [P] ranks: energy and statistics each rank returns; [trg], [bmps]: what the updater supports *)
Definition monte_carlo_measure (metas : list (string * list nat)) (P : nat) (periodic trg_params trg bmps : bool) (batch : list (list sample)) : res (list ((C * err) * list (string * (list C * list err)))) :=
  cross_check periodic trg_params >>
  (if periodic then if trg then Ok tt else Fail Throw else if bmps then Ok tt else Fail Throw) >>
  (x <- execute_measure metas batch (repeat new_mst P);; Ok (map (fun m => (output_energy m, t_stats m)) (fst x))).
