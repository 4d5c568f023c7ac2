(** OptimizerParamsBuilder (optimizer/optimizer_params.h:682-915). Schedulers, algorithm, checkpoint, spike and
    selector parameters are opaque values. *)
From Coq Require Import List Arith Bool Reals.
From Verif Require Import Base.
Import ListNotations.
Local Open Scope nat_scope.

Section B.
Context {Sched Alg Ckpt Spike Initial Periodic : Type}.
(** 365-391 *)
Record base := mkBase { b_max_iter : nat; b_energy_tol : R; b_grad_tol : R; b_patience : nat; b_rate : R;
  b_sched : option Sched; b_clip_value : option R; b_clip_norm : option R; b_initial : option Initial; b_periodic : option Periodic }.
(** constructor of BaseParams, optimizer_params.h:378-391 *)
Definition new_base (n : nat) (et gt : R) (pat : nat) (lr : R) (s : option Sched) : base :=
  mkBase n et gt pat lr s None None None None.
(** the member functions, 692-896; [NoSpikeRecovery]: DisableSpikeRecovery with the value it stores *)
Inductive call :=
| SetMaxIterations (n : nat) | SetEnergyTolerance (x : R) | SetLearningRate (x : R) (s : option Sched) | SetPlateauPatience (n : nat)
| WithAlgorithm (a : Alg) | SetClipValue (x : R) | SetClipNorm (x : R) | SetPeriodicStepSelector (p : Periodic) | SetInitialStepSelector (i : Initial)
| SetCheckpoint (c : Ckpt) | SetSpikeRecovery (s : Spike) | DisableSpikeRecovery.
Variable disabled : Spike.
(** the data members, optimizer_params.h:684-687 *)
Record builder := mkBuilder { base_of : option base; alg_of : option Alg; ckpt_of : option Ckpt; spike_of : option Spike }.
(** assignment to base_params_, optimizer_params.h:695-738 *)
Definition set_base (b : builder) (x : base) : builder := mkBuilder (Some x) (alg_of b) (ckpt_of b) (spike_of b).
(** the literals 1e-10, 1e-30, 1e-15, 0.01 *)
Definition e10 : R := (/ 10 ^ 10)%R.
(** 1e-30, optimizer_params.h:695, 707, 720 *)
Definition e30 : R := (/ 10 ^ 30)%R.
(** 1e-15, optimizer_params.h:735 *)
Definition e15 : R := (/ 10 ^ 15)%R.
(** 0.01, optimizer_params.h:695, 707, 735 *)
Definition cent : R := (/ 100)%R.
(** the test [if (!base_params_)] at the head of the base setters, optimizer_params.h:694, 706, 718, 734, 809, 831, 847, 864 *)
Definition on_base (b : builder) (fresh : res base) (f : base -> base) : res builder :=
  match base_of b with None => x <- fresh;; Ok (set_base b x) | Some x => Ok (set_base b (f x)) end.
(** optimizer_params.h:693-896 *)
Definition call_step (b : builder) (c : call) : res builder :=
  match c with
  | SetMaxIterations n => on_base b (Ok (new_base n e10 e30 20 cent None))
      (fun x => mkBase n (b_energy_tol x) (b_grad_tol x) (b_patience x) (b_rate x) (b_sched x) (b_clip_value x) (b_clip_norm x) (b_initial x) (b_periodic x))
  | SetEnergyTolerance t => on_base b (Ok (new_base 1000 t e30 20 cent None))
      (fun x => mkBase (b_max_iter x) t (b_grad_tol x) (b_patience x) (b_rate x) (b_sched x) (b_clip_value x) (b_clip_norm x) (b_initial x) (b_periodic x))
  | SetLearningRate r s => on_base b (Ok (new_base 1000 e10 e30 20 r s))
      (fun x => mkBase (b_max_iter x) (b_energy_tol x) (b_grad_tol x) (b_patience x) r (match s with Some _ => s | None => b_sched x end) (b_clip_value x) (b_clip_norm x) (b_initial x) (b_periodic x))
  | SetPlateauPatience n => on_base b (Ok (new_base 1000 e10 e15 n cent None))
      (fun x => mkBase (b_max_iter x) (b_energy_tol x) (b_grad_tol x) n (b_rate x) (b_sched x) (b_clip_value x) (b_clip_norm x) (b_initial x) (b_periodic x))
  | WithAlgorithm a => Ok (mkBuilder (base_of b) (Some a) (ckpt_of b) (spike_of b))
  | SetClipValue v => on_base b (Fail Throw)
      (fun x => mkBase (b_max_iter x) (b_energy_tol x) (b_grad_tol x) (b_patience x) (b_rate x) (b_sched x) (Some v) (b_clip_norm x) (b_initial x) (b_periodic x))
  | SetClipNorm v => on_base b (Fail Throw)
      (fun x => mkBase (b_max_iter x) (b_energy_tol x) (b_grad_tol x) (b_patience x) (b_rate x) (b_sched x) (b_clip_value x) (Some v) (b_initial x) (b_periodic x))
  | SetPeriodicStepSelector p => on_base b (Fail Throw)
      (fun x => mkBase (b_max_iter x) (b_energy_tol x) (b_grad_tol x) (b_patience x) (b_rate x) (b_sched x) (b_clip_value x) (b_clip_norm x) (b_initial x) (Some p))
  | SetInitialStepSelector i => on_base b (Fail Throw)
      (fun x => mkBase (b_max_iter x) (b_energy_tol x) (b_grad_tol x) (b_patience x) (b_rate x) (b_sched x) (b_clip_value x) (b_clip_norm x) (Some i) (b_periodic x))
  | SetCheckpoint c => Ok (mkBuilder (base_of b) (alg_of b) (Some c) (spike_of b))
  | SetSpikeRecovery s => Ok (mkBuilder (base_of b) (alg_of b) (ckpt_of b) (Some s))
  | DisableSpikeRecovery => Ok (mkBuilder (base_of b) (alg_of b) (ckpt_of b) (Some disabled))
  end.
(** a chain of setter calls on a fresh builder, optimizer_params.h:693-896 *)
Definition run_calls (l : list call) : res builder := fold_left (fun b c => x <- b;; call_step x c) l (Ok (mkBuilder None None None None)).
(** 901-913; [None] in the last two fields: the default of OptimizerParams *)
Record params := mkParams { p_base : base; p_alg : Alg; p_ckpt : option Ckpt; p_spike : option Spike }.
(** optimizer_params.h:903-913 *)
Definition build (l : list call) : res params :=
  b <- run_calls l;;
  match base_of b, alg_of b with Some x, Some a => Ok (mkParams x a (ckpt_of b) (spike_of b)) | _, _ => Fail Throw end.
End B.
Arguments call : clear implicits.
Arguments base : clear implicits.
Arguments params : clear implicits.
Arguments builder : clear implicits.
