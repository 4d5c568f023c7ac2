(** The replica test of the measurement executor, all ranks running concurrently. *)
From Coq Require Import List Arith Bool.
From Verif Require Import Base.
Import ListNotations.

Section Replica.
Variables Cfg V : Type.
(** monte_carlo_peps_measurer_impl.h:118 engine_.StepSweep: what the sweep of that number does to the configuration on a rank *)
Variable sweep : nat -> nat -> Cfg -> Cfg.
(** the overlap function of the caller (monte_carlo_peps_measurer_impl.h:109-110) *)
Variable overlap : Cfg -> Cfg -> V.
(** number of ranks, samples on each rank (used by monte_carlo_peps_measurer_impl.h:117, 128-129) *)
Variables P N : nat.
(** one rank in the loop of monte_carlo_peps_measurer_impl.h:117-156: its configuration, the loop counter, whether its message of this round is
    sent, the overlaps so far *)
Record proc := mkProc { c_cfg : Cfg; c_round : nat; c_sent : bool; c_overlaps : list V }.
(** all ranks; messages under way by source and destination, oldest first, with their tags; whether a rank divided by zero
    (monte_carlo_peps_measurer_impl.h:128-145) *)
Record net := mkNet { n_proc : nat -> proc; n_chan : nat -> nat -> list (nat * Cfg); n_crash : bool }.
(** monte_carlo_peps_measurer_impl.h:474-485 SynchronizeConfiguration_ with the default root 0 *)
Definition synchronize (c : nat -> Cfg) (r : nat) : Cfg := if r =? 0 then c r else c 0.
(** 112-116 *)
Definition replica_start (c : nat -> Cfg) : net := mkNet (fun r => mkProc (synchronize c r) 0 false []) (fun _ _ => []) false.
(** 128 *)
Definition dest_of (r : nat) : nat := (r + 1) mod P.
(** 129 *)
Definition source_of (r : nat) : nat := (r + P - 1) mod P.
(** entry of an array (used by monte_carlo_peps_measurer_impl.h:117-156) *)
Definition upd {X} (f : nat -> X) (r : nat) (x : X) : nat -> X := fun i => if i =? r then x else f i.
(** one step of one rank. MPI_Sendrecv is split into the sending, which never waits, and the receiving, which waits for the message; messages
    between two ranks keep their order (simplification: the receive may also come first). *)
Inductive rstep : net -> net -> Prop :=
(** 118-138: sweep and send; the tag is the destination *)
| step_send s r : n_crash s = false -> r < P -> let p := n_proc s r in c_sent p = false -> c_round p < N ->
    let x := sweep r (c_round p) (c_cfg p) in
    rstep s (mkNet (upd (n_proc s) r (mkProc x (c_round p) true (c_overlaps p)))
                   (upd (n_chan s) r (upd (n_chan s r) (dest_of r) (n_chan s r (dest_of r) ++ [(dest_of r, x)]))) false)
(** 131-145: receive with the own rank as tag, overlap, and on the master the remainder by a tenth of the number of samples *)
| step_receive s r x q : n_crash s = false -> r < P -> let p := n_proc s r in c_sent p = true -> n_chan s (source_of r) r = (r, x) :: q ->
    rstep s (mkNet (upd (n_proc s) r (mkProc (c_cfg p) (S (c_round p)) false (c_overlaps p ++ [overlap (c_cfg p) x])))
                   (upd (n_chan s) (source_of r) (upd (n_chan s (source_of r)) r q)) ((r =? 0) && (N / 10 =? 0))).
(** runs of any schedule, with the number of steps (monte_carlo_peps_measurer_impl.h:108-156) *)
Inductive rrun (c : nat -> Cfg) : nat -> net -> Prop :=
| run_start : rrun c 0 (replica_start c)
| run_step k s s' : rrun c k s -> rstep s s' -> rrun c (S k) s'.
End Replica.
