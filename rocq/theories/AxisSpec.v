(** The part of a joined tensor with a given value of the new index. *)
From Coq Require Import List Arith.
Import ListNotations.

(** row-major data, the new index first; [n]: the number of elements of a component *)
Definition slice {T} (n i : nat) (data : list T) : list T := firstn n (skipn (i * n) data).
