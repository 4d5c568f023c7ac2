(** Block-cyclic distribution of a matrix. *)
From Coq Require Import List Arith Reals.
From Verif Require Import Cplx.
Import ListNotations.

(** rows or columns are dealt out in blocks of [nb] to [P] processes in turn: the owner of a global index, and its place there *)
Definition owner (nb P g : nat) : nat := (g / nb) mod P.
Definition place (nb P g : nat) : nat := g / nb / P * nb + g mod nb.
(** the number of indices below [n] a process owns *)
Definition owned (nb P p n : nat) : nat := length (filter (fun g => owner nb P g =? p) (seq 0 n)).
(** [zs] holds the matrix [z] in blocks of [mb] rows and [nb] columns: the entry (i, j) is with the process of row [owner i] and column
    [owner j] of the grid, in row-major order of the ranks, whose data are in column-major order *)
Definition distributed (n mb nb nprow npcol : nat) (z : nat -> nat -> C) (zs : list (list C)) : Prop :=
  forall i j, i < n -> j < n ->
    nth (place mb nprow i + place nb npcol j * owned mb nprow (owner mb nprow i) n) (nth (owner mb nprow i * npcol + owner nb npcol j) zs []) (RtoC 0) = z i j.
(** each rank has [s] consecutive rows, in row-major order *)
Definition row_blocks (n s : nat) (T : nat -> nat -> C) (blocks : list (list C)) : Prop :=
  forall r i j, r < length blocks -> i < s -> j < n -> nth (i * n + j) (nth r blocks []) (RtoC 0) = T (r * s + i) j.
