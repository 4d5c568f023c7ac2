(** Samples of all runs of a measurement. *)
From Coq Require Import String List Arith Bool Reals.
From Verif Require Import Base Cplx StatModel MeasModel MsrModel.
Import ListNotations.
Local Open Scope nat_scope.

(** a new executor on [P] ranks, run any number of times; a run is the list of the samples of each rank *)
Inductive measured (metas : list (string * list nat)) (P : nat) : list (list (list sample)) -> list mst -> option disk -> Prop :=
| measured_none : measured metas P [] (repeat new_mst P) None
| measured_more runs ms d batch ms' d' : measured metas P runs ms d -> length batch = P -> execute_measure metas batch ms = Ok (ms', d') -> measured metas P (runs ++ [batch]) ms' (Some d').
(** the samples of rank [r] in all runs *)
Definition of_rank (runs : list (list (list sample))) (r : nat) : list sample := concat (map (fun b => nth r b []) runs).
(** the samples of all ranks in all runs *)
Definition of_all (P : nat) (runs : list (list (list sample))) : list sample := concat (map (of_rank runs) (seq 0 P)).
(** the values of observable [k] in a sample *)
Definition values (k : string) (z : sample) : list C := match find_key k (z_obs z) with Some v => v | None => [] end.
(** In every run all ranks take the same number of samples (C61), and every sample has the observables [ks] with [len k] values. *)
Definition uniform (ks : list string) (len : string -> nat) (P : nat) (runs : list (list (list sample))) : Prop :=
  Forall (fun b => exists n, forall r, r < P -> length (nth r b []) = n) runs /\
  forall r z, r < P -> In z (of_rank runs r) -> map fst (z_obs z) = ks /\ forall k, In k ks -> length (values k z) = len k.
(** every sample has the observables [ks] *)
Definition same_names (P : nat) (ks : list string) (runs : list (list (list sample))) : Prop := forall r z, r < P -> In z (of_rank runs r) -> map fst (z_obs z) = ks.
(** the particle numbers of the samples *)
Definition counts (zs : list sample) : list nat := concat (map (fun z => match z_count z with Some n => [n] | None => [] end) zs).
