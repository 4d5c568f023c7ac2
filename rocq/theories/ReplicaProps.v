(** C92 *)
From Coq Require Import List Arith Bool Lia.
From Verif Require Import Base ReplicaModel ReplicaSpec ReplicaProofs.
Import ListNotations.

(** C92: at any time of any schedule each rank has recorded, for each of its finished rounds, the overlap of its configuration with that of the rank
    before after the same number of sweeps, all having started from the master's configuration. *)
Theorem c92_recorded (Cfg V : Type) sweep overlap P N c k s r : rrun Cfg V sweep overlap P N c k s -> r < P ->
  c_overlaps Cfg V (n_proc Cfg V s r) = expected Cfg V sweep overlap P (c 0) r (c_round Cfg V (n_proc Cfg V s r)) /\ c_round Cfg V (n_proc Cfg V s r) <= N.
Proof. exact (recorded Cfg V sweep overlap P N c k s r). Qed.
Print Assumptions c92_recorded.

(** C92: with ten samples or more no schedule divides by zero or gets stuck: a state without a next step has all overlaps of all ranks. *)
Theorem c92_no_deadlock (Cfg V : Type) sweep overlap P N c k s : 10 <= N -> rrun Cfg V sweep overlap P N c k s -> n_crash Cfg V s = false /\
  ((exists s', rstep Cfg V sweep overlap P N s s') \/
   forall r, r < P -> c_overlaps Cfg V (n_proc Cfg V s r) = expected Cfg V sweep overlap P (c 0) r N /\ c_cfg Cfg V (n_proc Cfg V s r) = after Cfg sweep (c 0) r N).
Proof. exact (finished Cfg V sweep overlap P N c k s). Qed.
Print Assumptions c92_no_deadlock.

(** C92: every schedule ends. *)
Theorem c92_ends (Cfg V : Type) sweep overlap P N c k s : rrun Cfg V sweep overlap P N c k s -> k <= 2 * N * P.
Proof. exact (run_bound Cfg V sweep overlap P N c k s). Qed.
Print Assumptions c92_ends.

(** C92: and there is one. *)
Theorem c92_completes (Cfg V : Type) sweep overlap P N c : 10 <= N ->
  exists k s, rrun Cfg V sweep overlap P N c k s /\ forall r, r < P -> c_overlaps Cfg V (n_proc Cfg V s r) = expected Cfg V sweep overlap P (c 0) r N.
Proof. exact (completes Cfg V sweep overlap P N c). Qed.
Print Assumptions c92_completes.

(** C92 is false with fewer than ten samples: every schedule comes to the division by zero on the master. *)
Theorem c92_few_samples_refuted (Cfg V : Type) sweep overlap P N c : 0 < N < 10 -> 0 < P ->
  (exists k s, rrun Cfg V sweep overlap P N c k s /\ n_crash Cfg V s = true) /\
  forall k s, rrun Cfg V sweep overlap P N c k s -> (exists s', rstep Cfg V sweep overlap P N s s') \/ n_crash Cfg V s = true.
Proof. exact (fun T Pp => conj (crashes Cfg V sweep overlap P N c T Pp) (fun k s => few Cfg V sweep overlap P N c k s T Pp)). Qed.
Print Assumptions c92_few_samples_refuted.

(** C92: a single rank compares its configuration with itself. *)
Theorem c92_single_rank (Cfg V : Type) sweep overlap P N c k s : P = 1 -> rrun Cfg V sweep overlap P N c k s ->
  c_overlaps Cfg V (n_proc Cfg V s 0) = map (fun j => overlap (after Cfg sweep (c 0) 0 (S j)) (after Cfg sweep (c 0) 0 (S j))) (seq 0 (c_round Cfg V (n_proc Cfg V s 0))).
Proof. exact (alone Cfg V sweep overlap P N c k s). Qed.
Print Assumptions c92_single_rank.

(** non-vacuity: three ranks whose sweeps add their number plus one, overlaps as pairs *)
Example c92_three : exists k s, rrun nat (nat * nat) (fun r _ x => x + r + 1) pair 3 12 (fun r => r + 5) k s /\
  firstn 2 (c_overlaps nat (nat * nat) (n_proc nat (nat * nat) s 0)) = [(6, 8); (7, 11)] /\ firstn 2 (c_overlaps nat (nat * nat) (n_proc nat (nat * nat) s 2)) = [(8, 7); (11, 9)].
Proof.
  destruct (completes nat (nat * nat) (fun r _ x => x + r + 1) pair 3 12 (fun r => r + 5) ltac:(lia)) as (k & s & H & D). exists k, s. split; [exact H|].
  rewrite (D 0), (D 2) by lia. split; reflexivity.
Qed.
