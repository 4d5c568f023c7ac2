(** What configurations mean to the caller. *)
From Coq Require Import List Arith NArith Ascii.
From Verif Require Import Base ConfModel.
Import ListNotations.

Definition same_shape (a b : cfg) : Prop := c_rows a = c_rows b /\ c_cols a = c_cols b.
(** Every site holds a value below the bound. *)
Definition filled (bound : N) (k : cfg) : Prop := forall r c, r < c_rows k -> c < c_cols k -> exists n, c_cell k r c = Some n /\ (n < bound)%N.
Definition same_config (a b : cfg) : Prop := same_shape a b /\ forall r c, r < c_rows a -> c < c_cols a -> c_cell a r c = c_cell b r c.
