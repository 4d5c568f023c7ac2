(** Plain means and covariances of samples. *)
From Coq Require Import List Arith Reals.
From Verif Require Import Base Cplx Rsum.
Import ListNotations.
Local Open Scope R_scope.

(** Arithmetic mean of f over a list. *)
Definition average {X} (f : X -> C) (l : list X) : C := (sumC f l * RtoC (/ INR (length l)))%C.
(** Logarithmic derivative of the amplitude [amp] of the state [conf] with respect to the element [e] of
    the component [basis] of the tensor of [site]: only the component in use has a derivative, [dpsi site e]. *)
Definition log_derivative {Site Elem} (conf : Site -> nat) (amp : C) (dpsi : Site -> Elem -> C) (p : Site * nat * Elem) : C :=
  let '(site, basis, e) := p in if Nat.eqb (conf site) basis then (dpsi site e / amp)%C else RtoC 0.
(** Squared standard error of the mean of a list of numbers. *)
Definition error2 (l : list C) : R :=
  rsum (fun x => Cnorm2 (x - average (fun y => y) l)%C) l / (INR (length l) * (INR (length l) - 1)).
(** The bins: consecutive blocks of b elements, an incomplete last block left out. *)
Inductive blocks {X} (b : nat) : list X -> list (list X) -> Prop :=
| blocks_nil : forall rest, (length rest < b)%nat -> blocks b rest []
| blocks_cons : forall blk rest bs, length blk = b -> blocks b rest bs -> blocks b (blk ++ rest) (blk :: bs).
