(** Weighted averages over a list of configurations, Rayleigh quotients. *)
From Coq Require Import List Arith Reals.
From Verif Require Import Base Cplx UpdaterSpec EnergySpec.
Import ListNotations.
Local Open Scope R_scope.

Definition total_weight {Conf} (amp : Conf -> C) (configs : list Conf) : R :=
  fold_right Rplus 0 (map (fun c => Cnorm2 (amp c)) configs).
(** sum of |psi|^2 f over the configurations, divided by the sum of |psi|^2 *)
Definition weighted_average {Conf} (amp : Conf -> C) (configs : list Conf) (f : Conf -> C) : C :=
  (sumC (fun c => RtoC (Cnorm2 (amp c)) * f c) configs * Cinv (RtoC (total_weight amp configs)))%C.
(** <psi|H|psi> / <psi|psi> on a finite set of configurations. *)
Definition braket {Conf} (configs : list Conf) (a b : Conf -> C) : C := sumC (fun c => (Cconj (a c) * b c)%C) configs.
Definition apply_op {Conf} (configs : list Conf) (H : Conf -> Conf -> C) (a : Conf -> C) : Conf -> C :=
  fun c => sumC (fun c' => (H c c' * a c')%C) configs.
Definition rayleigh {Conf} (configs : list Conf) (H : Conf -> Conf -> C) (a : Conf -> C) : C :=
  (braket configs a (apply_op configs H a) * Cinv (braket configs a a))%C.
Definition hermitian {Conf} (configs : list Conf) (H : Conf -> Conf -> C) : Prop :=
  forall c c', In c configs -> In c' configs -> H c c' = Cconj (H c' c).
(** A complex function of a real variable differentiable at a point. *)
Definition c_derivative (f : R -> C) (t : R) (d : C) : Prop :=
  derivable_pt_lim (fun s => fst (f s)) t (fst d) /\ derivable_pt_lim (fun s => snd (f s)) t (snd d).
(** A non-empty set of configurations that the operator does not leave. *)
Definition sector (dim n : nat) (H : operator) (configs : list (list nat)) : Prop :=
  configs <> [] /\ NoDup configs /\ incl configs (all_configs dim n) /\
  forall S S', In S configs -> In S' (all_configs dim n) -> ~ In S' configs -> H S S' = RtoC 0.
