(** C49: direct sums of tensor product states. *)
From Coq Require Import List Arith Lia Bool Reals Lra.
From Verif Require Import Base Cplx SumModel SumSpec SumProofs SumMain.
Import ListNotations.
Local Open Scope nat_scope.

(** The amplitude of the sum is the sum of the amplitudes, for every configuration, lattice and boundary. *)
Theorem c49_sum (a b : lat) (s : nat -> nat -> nat) : matched a -> matched b -> same_lattice a b ->
  amplitude (wf_sum a b) s = (amplitude a s + amplitude b s)%C.
Proof. exact (sum_amplitude a b s). Qed.
Print Assumptions c49_sum.
(** Real coefficients, not negative or with an odd number of sites. *)
Theorem c49_real (x : R) (a : lat) (y : R) (b : lat) (s : nat -> nat -> nat) : matched a -> matched b -> same_lattice a b ->
  (0 <= x)%R /\ (0 <= y)%R \/ Nat.Odd (l_rows a * l_cols a) ->
  amplitude (wf_sum_real x a y b) s = (RtoC x * amplitude a s + RtoC y * amplitude b s)%C.
Proof. exact (real_ok x a y b s). Qed.
Print Assumptions c49_real.
(** With an even number of sites a negative coefficient loses its sign: a - a is 2a. *)
Theorem c49_negative_refuted : exists (a : lat) s, matched a /\ amplitude (wf_sum_real 1 a (-1) a) s <> (RtoC 1 * amplitude a s + RtoC (-1) * amplitude a s)%C.
Proof. exact (negative_case). Qed.
Print Assumptions c49_negative_refuted.
(** Complex coefficients are replaced by their absolute values. *)
Theorem c49_complex (x : C) (a : lat) (y : C) (b : lat) (s : nat -> nat -> nat) : matched a -> matched b -> same_lattice a b ->
  amplitude (wf_sum_complex x a y b) s = (RtoC (sqrt (Cnorm2 x)) * amplitude a s + RtoC (sqrt (Cnorm2 y)) * amplitude b s)%C.
Proof. exact (complex_amplitude x a y b s). Qed.
Print Assumptions c49_complex.
Theorem c49_phase_refuted : exists (a : lat) s, matched a /\ amplitude (wf_sum_complex (RtoC 1) a Ci a) s <> (RtoC 1 * amplitude a s + Ci * amplitude a s)%C.
Proof. exact (phase_case). Qed.
Print Assumptions c49_phase_refuted.
(** Lists of states, *)
Theorem c49_list (l : list lat) (a : lat) (s : nat -> nat -> nat) : In a l -> (forall b, In b l -> matched b /\ same_lattice a b) ->
  exists v, wf_list l = Ok v /\ amplitude v s = sumC (fun b => amplitude b s) l.
Proof. exact (list_amplitude l a s). Qed.
Print Assumptions c49_list.
(** and with coefficients that are not negative, or of any sign for two or more states on an odd number of sites. *)
Theorem c49_list_real (l : list (R * lat)) (a : lat) (s : nat -> nat -> nat) : In a (map snd l) ->
  (forall p, In p l -> matched (snd p) /\ same_lattice a (snd p) /\ ((0 <= fst p)%R \/ (l_rows a * l_cols a) mod 2 = 1 /\ 2 <= length l)) ->
  exists v, wf_list_real l = Ok v /\ amplitude v s = sumC (fun p => (RtoC (fst p) * amplitude (snd p) s)%C) l.
Proof. exact (list_real_amplitude l a s). Qed.
Print Assumptions c49_list_real.
(** A single state on one site with coefficient -1 keeps its sign. *)
Theorem c49_single_refuted : exists (a : lat) s v, matched a /\ wf_list_real [((-1)%R, a)] = Ok v /\ amplitude v s <> (RtoC (-1) * amplitude a s)%C.
Proof. exact (single_case). Qed.
Print Assumptions c49_single_refuted.

(** The hypotheses are met: two dimers of different bond dimension, and a periodic 2x2 state. *)
Example dimers : matched (dimer 2) /\ matched (dimer 3) /\ same_lattice (dimer 2) (dimer 3).
Proof. split; [apply dimer_matched|]. split; [apply dimer_matched|]. repeat split. Qed.
Example torus_case : matched (mkLat 2 2 true (fun r c => mkTen [2; 3; 2; 3] (fun i p => RtoC (INR (r + c + p))))).
Proof. split; [cbn; lia|]. split; [cbn; lia|]. intros r c l b Hr Hc Hl E. cbn in Hr, Hc. destruct r as [|[|r]], c as [|[|c]]; try lia; destruct l as [|[|[|[|l]]]]; try lia; cbn in E; injection E as <-; reflexivity. Qed.
