(** Properties of the periodic energy evaluators. *)
From Coq Require Import List Arith Reals.
From Verif Require Import Base ContractorModel UpdaterSpec SweepModel SweepSpec Cplx EnergyModel EnergySpec PbcModel PbcSpec PbcProofs.
Import ListNotations.
Local Open Scope nat_scope.

(** *** C15 *)
(** On a torus with at least three rows and columns every unordered neighbour pair enters once:
    the energies are the local energies of the torus Hamiltonians, for any contraction that reads
    only the tensors of the lattice (exact or approximate). *)
Theorem c15_torus_local_energy :
  forall (T : Type) (contract : (nat -> nat -> T) -> C) tps rows cols cfg tn,
  3 <= rows -> 3 <= cols -> reads_lattice contract rows cols ->
  (forall r c, r < rows -> c < cols -> tn r c = tps r c (cfg r c)) ->
  all_states rows cols (fun x => x < 2) cfg ->
  torus_wave contract tps cols (flat rows cols cfg) <> RtoC 0 ->
  (forall jz jxy jz2 jxy2 p, pbc_xxz_energy T contract tps jz jxy jz2 jxy2 p true rows cols cfg tn =
     Ok (local_energy 2 (rows * cols) (H_xxz_torus rows cols 1 1 jz jxy jz2 jxy2 p) (torus_wave contract tps cols) (flat rows cols cfg))) /\
  (forall jz jxy, pbc_heisenberg_energy T contract tps jz jxy true rows cols cfg tn =
     Ok (local_energy 2 (rows * cols) (H_xxz_torus rows cols 1 1 jz jxy 0 0 0) (torus_wave contract tps cols) (flat rows cols cfg))) /\
  (forall h, pbc_tfim_energy T contract tps h true rows cols cfg tn =
     Ok (local_energy 2 (rows * cols) (H_tfim_torus rows cols 1 1 h) (torus_wave contract tps cols) (flat rows cols cfg))).
Proof. exact @torus_three. Qed.
Print Assumptions c15_torus_local_energy.

(** A direction with exactly two sites has its bonds counted twice (diagonals: once per doubled
    direction), everything else once. *)
Theorem c15_two_site_direction_weight :
  forall (T : Type) (contract : (nat -> nat -> T) -> C) tps rows cols cfg tn,
  2 <= rows -> 2 <= cols -> reads_lattice contract rows cols ->
  (forall r c, r < rows -> c < cols -> tn r c = tps r c (cfg r c)) ->
  all_states rows cols (fun x => x < 2) cfg ->
  torus_wave contract tps cols (flat rows cols cfg) <> RtoC 0 ->
  let wh := if cols =? 2 then 2%R else 1%R in let wv := if rows =? 2 then 2%R else 1%R in
  (forall jz jxy jz2 jxy2 p, pbc_xxz_energy T contract tps jz jxy jz2 jxy2 p true rows cols cfg tn =
     Ok (local_energy 2 (rows * cols) (H_xxz_torus rows cols wh wv jz jxy jz2 jxy2 p) (torus_wave contract tps cols) (flat rows cols cfg))) /\
  (forall jz jxy, pbc_heisenberg_energy T contract tps jz jxy true rows cols cfg tn =
     Ok (local_energy 2 (rows * cols) (H_xxz_torus rows cols wh wv jz jxy 0 0 0) (torus_wave contract tps cols) (flat rows cols cfg))) /\
  (forall h, pbc_tfim_energy T contract tps h true rows cols cfg tn =
     Ok (local_energy 2 (rows * cols) (H_tfim_torus rows cols wh wv h) (torus_wave contract tps cols) (flat rows cols cfg))).
Proof. exact @torus_two. Qed.
Print Assumptions c15_two_site_direction_weight.

(** So on the 2x2 torus the energy is not that of the Hamiltonian with each pair once. *)
Theorem c15_each_pair_once_at_2x2_refuted : exists contract tps cfg tn,
  reads_lattice (T := nat) contract 2 2 /\ (forall r c, r < 2 -> c < 2 -> tn r c = tps r c (cfg r c)) /\
  all_states 2 2 (fun x => x < 2) cfg /\
  pbc_xxz_energy nat contract tps 1 0 0 0 0 true 2 2 cfg tn <>
  Ok (local_energy 2 4 (H_xxz_torus 2 2 1 1 1 0 0 0 0) (torus_wave contract tps 2) (flat 2 2 cfg)).
Proof. exact torus_2x2_twice. Qed.
Print Assumptions c15_each_pair_once_at_2x2_refuted.

(** The evaluators refuse a network that is not periodic. *)
Theorem c15_open_network_throws :
  forall (T : Type) (contract : (nat -> nat -> T) -> C) tps rows cols cfg tn jz jxy jz2 jxy2 p h,
  pbc_xxz_energy T contract tps jz jxy jz2 jxy2 p false rows cols cfg tn = Fail Throw /\
  pbc_heisenberg_energy T contract tps jz jxy false rows cols cfg tn = Fail Throw /\
  pbc_tfim_energy T contract tps h false rows cols cfg tn = Fail Throw.
Proof. exact @torus_needs_periodic. Qed.
Print Assumptions c15_open_network_throws.

(** Every wave function on every torus is such a contraction. *)
Example c15_hypotheses_hold : forall (F : list nat -> C) rows cols cfg, 1 <= rows -> 1 <= cols ->
  let contract := fun n : nat -> nat -> nat => F (flat rows cols n) in
  let tps := fun (_ _ s : nat) => s in
  reads_lattice contract rows cols /\
  (forall S, length S = rows * cols -> torus_wave contract tps cols S = F S) /\
  (forall r c, r < rows -> c < cols -> cfg r c = tps r c (cfg r c)).
Proof. exact torus_model. Qed.
