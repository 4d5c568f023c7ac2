(** Jastrow factor exp(sum_{i<j} v_ij n_i n_j). *)
From Coq Require Import List Arith Reals.
From Verif Require Import Rsum.
Import ListNotations.
Local Open Scope R_scope.
(** [n] sites, couplings [v] and densities [d] by linear site index. *)
Definition log_jastrow (n : nat) (v : nat -> nat -> R) (d : nat -> nat) : R :=
  rsum (fun ab => if (fst ab <? snd ab)%nat then v (fst ab) (snd ab) * INR (d (fst ab)) * INR (d (snd ab)) else 0)
       (list_prod (seq 0 n) (seq 0 n)).
Definition jastrow_factor (n : nat) (v : nat -> nat -> R) (d : nat -> nat) : R := exp (log_jastrow n v d).
(** Densities after the particles of two sites are exchanged. *)
Definition exchanged (d : nat -> nat) (a b : nat) : nat -> nat :=
  fun k => if (k =? a)%nat then d b else if (k =? b)%nat then d a else d k.
