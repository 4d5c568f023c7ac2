(** Plain notions for the measurement theorems. *)
From Coq Require Import List Arith Reals.
From Verif Require Import Base Cplx Rsum.
Import ListNotations.
Local Open Scope R_scope.

(** Total particle number of a configuration: site state [s] holds [pps[s]] particles. *)
Definition total_particles (config pps : list nat) : nat := list_sum (map (fun s => nth s pps 0%nat) config).
(** Same list up to the sign of each entry. *)
Definition flipped (l l' : list C) : Prop := Forall2 (fun x y => y = x \/ y = Copp x) l l'.
(** No two non-zero entries have a purely imaginary overlap; true of every list of real numbers. *)
Definition sign_defined (l : list C) : Prop := forall x y, In x l -> In y l -> fst (x * Cconj y)%C = 0 -> x = RtoC 0 \/ y = RtoC 0.
