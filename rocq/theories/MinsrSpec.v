(** What MinSR should compute, independently of how. *)
From Coq Require Import List Arith Bool Reals.
From Verif Require Import Base Cplx CgModel CgSpec.
Import ListNotations.
Local Open Scope R_scope.

Definition deviation (os : list vec) (i : nat) : vec := vsub (nth i os vzero) (mean_of os).
(** (1/N) <O_i - Obar, O_j - Obar> *)
Definition centred_gram (dim : nat) (os : list vec) (i j : nat) : C :=
  (RtoC (/ INR (length os)) * vdot dim (deviation os i) (deviation os j))%C.
(** sum_j y_j (O_j - Obar) *)
Definition combination (os : list vec) (y : nat -> C) : vec := fun c => sumC (fun j => (y j * deviation os j c)%C) (seq 0 (length os)).
(** T = Z diag(lambda) Z^dagger with orthonormal columns: what LAPACK returns *)
Definition eigensystem (n : nat) (T : nat -> nat -> C) (z : nat -> nat -> C) (lam : list R) : Prop :=
  length lam = n /\
  (forall k l, (k < n)%nat -> (l < n)%nat -> sumC (fun i => Cconj (z i k) * z i l)%C (seq 0 n) = if (k =? l)%nat then RtoC 1 else RtoC 0) /\
  (forall i j, (i < n)%nat -> (j < n)%nat -> T i j = sumC (fun k => z i k * (RtoC (nth k lam 0%R) * Cconj (z j k)))%C (seq 0 n)).
(** (1/N) sum_i conj(E_i) O_i - conj(E) Obar *)
Definition energy_gradient (os : list vec) (es : list C) (e : C) : vec := fun c =>
  (RtoC (/ INR (length os)) * sumC (fun i => Cconj (nth i es (RtoC 0)) * nth i os vzero c) (seq 0 (length os)) - Cconj e * mean_of os c)%C.
