(** What a linear system and its operators are, independently of the solver. *)
From Coq Require Import List Arith Bool Reals.
From Verif Require Import Base Cplx CgModel.
Import ListNotations.
Local Open Scope R_scope.

(** Equal on the components of the space. *)
Definition veq (dim : nat) (u v : vec) : Prop := forall i, (i < dim)%nat -> u i = v i.
Definition linear (dim : nat) (A : vec -> vec) : Prop :=
  (forall u v, veq dim u v -> veq dim (A u) (A v)) /\
  (forall u v c, veq dim (A (vadd u (vscale c v))) (vadd (A u) (vscale c (A v)))).
Definition self_adjoint (dim : nat) (A : vec -> vec) : Prop := forall u v, vdot dim u (A v) = vdot dim (A u) v.
Definition positive_definite (dim : nat) (A : vec -> vec) : Prop := forall v, 0 < vnsq dim v -> 0 < fst (vdot dim v (A v)).
(** ||b - A x|| *)
Definition residual (dim : nat) (A : vec -> vec) (b x : vec) : R := sqrt (vnsq dim (vsub b (A x))).
(** The mean of some vectors, and the product of their covariance matrix, plus a shift, with a vector. *)
Definition mean_of (os : list vec) : vec := fun c => (RtoC (/ INR (length os)) * sumC (fun o => o c) os)%C.
Definition covariance (dim : nat) (os : list vec) (shift : C) (v : vec) : vec := fun c =>
  (RtoC (/ INR (length os)) * sumC (fun o => vdot dim (vsub o (mean_of os)) v * vsub o (mean_of os) c) os + shift * v c)%C.
