(** What a sequence of builder calls asks for. *)
From Coq Require Import List Arith Bool Reals.
From Verif Require Import Base BuildModel.
Import ListNotations.
Section B.
Context {Sched Alg Ckpt Spike Initial Periodic : Type}.
Local Notation call := (call Sched Alg Ckpt Spike Initial Periodic).
(** [x] is the value of the last call in [l] that sets it, or the default *)
Definition latest {X} (sets : call -> option X) (default : X) (l : list call) (x : X) : Prop :=
  (exists l1 c l2, l = l1 ++ c :: l2 /\ sets c = Some x /\ forall c', In c' l2 -> sets c' = None) \/
  ((forall c, In c l -> sets c = None) /\ x = default).
Definition sets_max_iter (c : call) := match c with SetMaxIterations n => Some n | _ => None end.
Definition sets_energy_tol (c : call) := match c with SetEnergyTolerance t => Some t | _ => None end.
Definition sets_patience (c : call) := match c with SetPlateauPatience n => Some n | _ => None end.
Definition sets_rate (c : call) := match c with SetLearningRate r _ => Some r | _ => None end.
Definition sets_sched (c : call) := match c with SetLearningRate _ (Some s) => Some (Some s) | _ => None end.
Definition sets_clip_value (c : call) := match c with SetClipValue r => Some (Some r) | _ => None end.
Definition sets_clip_norm (c : call) := match c with SetClipNorm r => Some (Some r) | _ => None end.
Definition sets_initial (c : call) := match c with SetInitialStepSelector i => Some (Some i) | _ => None end.
Definition sets_periodic (c : call) := match c with SetPeriodicStepSelector i => Some (Some i) | _ => None end.
Definition sets_alg (c : call) := match c with WithAlgorithm a => Some a | _ => None end.
Definition sets_ckpt (c : call) := match c with SetCheckpoint k => Some (Some k) | _ => None end.
Definition sets_spike (disabled : Spike) (c : call) := match c with SetSpikeRecovery s => Some (Some s) | DisableSpikeRecovery => Some (Some disabled) | _ => None end.
(** calls that set a base parameter, and calls that need one to be set already *)
Definition starts_base (c : call) : bool :=
  match c with SetMaxIterations _ | SetEnergyTolerance _ | SetLearningRate _ _ | SetPlateauPatience _ => true | _ => false end.
Definition needs_base (c : call) : bool :=
  match c with SetClipValue _ | SetClipNorm _ | SetPeriodicStepSelector _ | SetInitialStepSelector _ => true | _ => false end.
(** some call comes too early *)
Definition premature (l : list call) : Prop :=
  exists l1 c l2, l = l1 ++ c :: l2 /\ needs_base c = true /\ forall c', In c' l1 -> starts_base c' = false.
(** the first call that sets a base parameter *)
Definition first_base (l : list call) (c : call) : Prop :=
  exists l1 l2, l = l1 ++ c :: l2 /\ starts_base c = true /\ forall c', In c' l1 -> starts_base c' = false.
(** everything but the gradient tolerance *)
Definition same_settings (p q : params Sched Alg Ckpt Spike Initial Periodic) : Prop :=
  let a := p_base p in let b := p_base q in
  b_max_iter a = b_max_iter b /\ b_energy_tol a = b_energy_tol b /\ b_patience a = b_patience b /\ b_rate a = b_rate b /\ b_sched a = b_sched b /\
  b_clip_value a = b_clip_value b /\ b_clip_norm a = b_clip_norm b /\ b_initial a = b_initial b /\ b_periodic a = b_periodic b /\
  p_alg p = p_alg q /\ p_ckpt p = p_ckpt q /\ p_spike p = p_spike q.
(** which member function a call calls; DisableSpikeRecovery counts as SetSpikeRecovery *)
Definition kind (c : call) : nat :=
  match c with
  | SetMaxIterations _ => 0 | SetEnergyTolerance _ => 1 | SetLearningRate _ _ => 2 | SetPlateauPatience _ => 3
  | WithAlgorithm _ => 4 | SetClipValue _ => 5 | SetClipNorm _ => 6 | SetPeriodicStepSelector _ => 7 | SetInitialStepSelector _ => 8
  | SetCheckpoint _ => 9 | SetSpikeRecovery _ | DisableSpikeRecovery => 10
  end.
Definition same_calls (l l' : list call) : Prop := forall k, filter (fun c => Nat.eqb (kind c) k) l = filter (fun c => Nat.eqb (kind c) k) l'.
End B.
