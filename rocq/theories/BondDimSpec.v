(** The bonds of a lattice and their dimensions. *)
From Coq Require Import Arith.
From Verif Require Import BondDimModel.

(** [D] is the dimension of a bond between two sites: from a site to the one below it, or to the one on its right; on a torus the last row is above
    the first and the last column left of the first. *)
Definition inner (rows cols : nat) (periodic : bool) (dim : nat -> nat -> leg -> nat) (D : nat) : Prop :=
  exists r c, r < rows /\ c < cols /\
    ((S r < rows \/ periodic = true) /\ D = dim r c South \/ (S c < cols \/ periodic = true) /\ D = dim r c East).

(** The two ends of each bond have the same dimension. *)
Definition matching (rows cols : nat) (periodic : bool) (dim : nat -> nat -> leg -> nat) : Prop :=
  forall r c, r < rows -> c < cols ->
    (S r < rows \/ periodic = true -> dim (S r mod rows) c North = dim r c South) /\
    (S c < cols \/ periodic = true -> dim r (S c mod cols) West = dim r c East).

(** All legs have at least one value, and those that leave an open lattice exactly one. *)
Definition outer_trivial (rows cols : nat) (periodic : bool) (dim : nat -> nat -> leg -> nat) : Prop :=
  (forall r c l, r < rows -> c < cols -> 1 <= dim r c l) /\
  (periodic = false -> (forall r, r < rows -> dim r 0 West = 1 /\ dim r (cols - 1) East = 1) /\
                       (forall c, c < cols -> dim 0 c North = 1 /\ dim (rows - 1) c South = 1)).

(** All bonds have the same dimension. *)
Definition all_equal (rows cols : nat) (periodic : bool) (dim : nat -> nat -> leg -> nat) : Prop :=
  forall D D', inner rows cols periodic dim D -> inner rows cols periodic dim D' -> D = D'.
