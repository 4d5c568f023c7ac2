(** States that can be dumped. *)
From Coq Require Import List Arith.
From Verif Require Import Base MsgModel DumpModel.
Import ListNotations.
(** a non-empty lattice with [d] components on every site *)
Definition even_state {T} (v : sitps T) (d : nat) : Prop :=
  1 <= p_rows v /\ 1 <= p_cols v /\ 1 <= d /\ length (p_sites v) = p_rows v * p_cols v /\ forall s, In s (p_sites v) -> length s = d.
Definition full_tps {T} (v : tps T) : Prop := 1 <= t_rows v /\ 1 <= t_cols v /\ length (t_tens v) = t_rows v * t_cols v.
