(** What the replica test is to record. *)
From Coq Require Import List Arith.
Import ListNotations.

Section Spec.
Variables Cfg V : Type.
Variable sweep : nat -> nat -> Cfg -> Cfg.
Variable overlap : Cfg -> Cfg -> V.
Variable P : nat.
(** the configuration of rank [r] after [k] sweeps, all ranks starting from that of the master *)
Fixpoint after (start : Cfg) (r k : nat) : Cfg := match k with O => start | S k => sweep r k (after start r k) end.
(** the rank before, around the ring *)
Definition before (r : nat) : nat := match r with O => P - 1 | S r => r end.
(** overlaps with the rank before after each of [n] sweeps *)
Definition expected (start : Cfg) (r n : nat) : list V :=
  map (fun k => overlap (after start r (S k)) (after start (before r) (S k))) (seq 0 n).
End Spec.
