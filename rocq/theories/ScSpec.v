(** Which pairs of bonds there are. *)
From Coq Require Import List Arith.
Import ListNotations.
Local Open Scope nat_scope.

(** the row with the coordinates of the left sites of a horizontal bond (the reference) and of another one in a row below it (the target); only
    references from a list, unless it is empty *)
Definition pair_row (Ly Lx : nat) (refs : list (nat * nat)) (e : list nat) : Prop :=
  exists y1 x1 y2 x2, e = [y1; x1; 0; y2; x2; 0] /\ y1 < y2 /\ y2 < Ly /\ x1 + 1 < Lx /\ x2 + 1 < Lx /\ (refs = [] \/ In (y1, x1) refs).
