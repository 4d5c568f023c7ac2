(** Charges of a product state. *)
From Coq Require Import List Arith Bool.
From Verif Require Import Base InitModel.
Import ListNotations.
Local Open Scope nat_scope.
Section S.
Context {G : charges}.
Variables (phy : nat -> nat -> nat -> G) (out : nat -> nat -> bool) (act : nat -> nat -> nat).
(** charge leaving through the physical leg *)
Definition leaving (r c : nat) : G := if out r c then phy r c (act r c) else qneg (phy r c (act r c)).
Fixpoint qsum (f : nat -> G) (n : nat) : G := match n with 0 => q0 | S n => qadd (qsum f n) (f n) end.
(** charge of the whole product state *)
Definition total (rows cols : nat) : G := qsum (fun c => qsum (fun r => leaving r c) rows) cols.
(** outgoing minus ingoing charge of the element of a site tensor *)
Definition divergence (p : peps G) (r c : nat) : G :=
  let g := ga p r c in qadd (qadd (qadd (south g) (east g)) (leaving r c)) (qneg (qadd (west g) (north g))).
End S.
