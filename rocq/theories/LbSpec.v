(** What L-BFGS and the line search are meant to guarantee. *)
From Coq Require Import List Arith Bool Reals.
From Verif Require Import Base Cplx Rsum MsgModel TpsModel TpsSpec LbModel.
Import ListNotations.
Local Open Scope R_scope.

(** Real inner product of two states read as vectors. *)
Definition dot (L : layout) (f g : nat * nat * nat * nat -> C) : R := rsum (fun q => fst (Cconj (f q) * g q)%C) (places L).
Definition nonzero (L : layout) (v : state) : Prop := exists q, In q (places L) /\ at_place v q <> RtoC 0.
(** A usable history pair: enough curvature, and the stored weight is its inverse. *)
Definition usable (L : layout) (p : lb_params) (h : pair) : Prop :=
  shaped L (h_s h) /\ shaped L (h_y h) /\
  l_min_curv p < dot L (at_place (h_s h)) (at_place (h_y h)) /\ h_rho h = 1 / dot L (at_place (h_s h)) (at_place (h_y h)).
Definition good_history (L : layout) (p : lb_params) (hist : list pair) : Prop :=
  (length hist <= l_size p)%nat /\ Forall (usable L p) hist.
