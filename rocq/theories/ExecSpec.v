(** What the executor has after any number of runs. *)
From Coq Require Import List Arith Bool Reals.
From Verif Require Import Base OptModel OptSpec ExecModel.
Import ListNotations.
Local Open Scope R_scope.

Section Spec.
Context {W G A P Sc : Type}.
Variable p : params.
Variable alg : algorithm (W:=W) (G:=G) (A:=A) (P:=P).
Variable gnorm : G -> R.
Variable scheduled : bool.
Variable rate : Sc -> nat -> R -> R * Sc.
Variable fresh : A.
Notation st := (st (W:=W) (A:=A) (Sc:=Sc)).
(** the accepted evaluations of a run that are recorded: all, but the last one if a stopping criterion ended the run *)
Definition recorded (s : st) : list (W * R * R * R) := if s_conv s then removelast (accepted (s_obs s)) else accepted (s_obs s).
(** a new executor, run any number of times *)
Inductive executed (w : W) (sc : Sc) : list st -> (nat -> exec (W:=W) (Sc:=Sc)) -> Prop :=
| executed_none : executed w sc [] (fun _ => new_exec w sc)
| executed_more runs x fuel v named s x' : executed w sc runs x -> execute p alg gnorm scheduled rate fresh fuel v named x = Ok (Some (s, x')) -> executed w sc (runs ++ [s]) x'.
(** numbered lines: number, energy, error, gradient norm *)
Definition lines (l : list (W * R * R * R)) : list (nat * R * R * R) := combine (combine (combine (seq 0 (length l)) (map ev_energy l)) (map ev_error l)) (map ev_gnorm l).
End Spec.
