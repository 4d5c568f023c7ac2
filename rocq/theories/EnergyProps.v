(** Local energies, amplitudes and holes returned by the model solvers. *)
From Coq Require Import List Arith Lia Bool Reals Permutation.
From Verif Require Import Base ContractorModel ContractorSpec SweepModel SweepSpec UpdaterSpec Cplx EnergyModel EnergySpec
  EnergyModels ExactInstance EnergyClaims.
Import ListNotations.
Local Open Scope nat_scope.

(** Common hypotheses, in words. [ready w]: the contractor caches of the component are valid.
    [projected]: its network is that of its configuration. [contraction_consistent psi]: a network
    contracts to [psi] whatever window it is closed in (true without truncation). [wave]: the wave
    function [S -> psi (network of S)]. *)

(** *** C13 *)
(** J1-J2-XXZ, open boundaries: the energy returned for a configuration is the local energy of the
    Hamiltonian summed over every bond, every diagonal and the pinning field; the amplitudes it reports
    are all the amplitude of the configuration; the component is left as it was. *)
Theorem c13_j1j2_local_energy :
  forall (o : ops) (val : Amp o -> C) (Rng : Type) (rows cols : nat) (tps : sitps o) (ker : kernel o Rng),
  2 <= rows -> 2 <= cols ->
  forall psi jz jxy jz2 jxy2 p holes (w : wst o Rng),
  contraction_consistent o rows cols psi -> contraction_consistent2 o rows cols psi ->
  ready o rows cols w -> projected o rows cols tps (cfg w) (tn w) -> all_states rows cols (fun x => x < 2) (cfg w) ->
  wave o val cols psi tps (flat rows cols (cfg w)) <> RtoC 0 ->
  exists w' r, j1j2_xxz_obc val jz jxy jz2 jxy2 p holes tps ker rows cols w = Ok (w', r) /\
    e_total r = local_energy 2 (rows * cols) (H_xxz rows cols jz jxy jz2 jxy2 p) (wave o val cols psi tps) (flat rows cols (cfg w)) /\
    Forall (fun z => z = wave o val cols psi tps (flat rows cols (cfg w))) (e_psis r) /\
    ready o rows cols w' /\ cfg w' = cfg w /\ tn w' = tn w /\ amp w' = amp w /\ rng w' = rng w.
Proof. exact j1j2_claim. Qed.
Print Assumptions c13_j1j2_local_energy.

(** Nearest-neighbour XXZ (and Heisenberg, jz = jxy). *)
Theorem c13_xxz_local_energy :
  forall (o : ops) (val : Amp o -> C) (Rng : Type) (rows cols : nat) (tps : sitps o) (ker : kernel o Rng),
  2 <= rows -> 2 <= cols ->
  forall psi jz jxy p holes (w : wst o Rng),
  contraction_consistent o rows cols psi ->
  ready o rows cols w -> projected o rows cols tps (cfg w) (tn w) -> all_states rows cols (fun x => x < 2) (cfg w) ->
  wave o val cols psi tps (flat rows cols (cfg w)) <> RtoC 0 ->
  exists w' r, xxz_obc val jz jxy p holes tps ker rows cols w = Ok (w', r) /\
    e_total r = local_energy 2 (rows * cols) (H_xxz rows cols jz jxy 0 0 p) (wave o val cols psi tps) (flat rows cols (cfg w)) /\
    Forall (fun z => z = wave o val cols psi tps (flat rows cols (cfg w))) (e_psis r) /\
    ready o rows cols w' /\ cfg w' = cfg w /\ tn w' = tn w /\ amp w' = amp w /\ rng w' = rng w.
Proof. exact xxz_claim. Qed.
Print Assumptions c13_xxz_local_energy.

(** A configuration of amplitude zero is reported by an exception, never by a number. *)
Theorem c13_zero_amplitude_throws :
  forall (o : ops) (val : Amp o -> C) (Rng : Type) (rows cols : nat) (tps : sitps o) (ker : kernel o Rng) psi jz jxy jz2 jxy2 p holes (w : wst o Rng),
  2 <= rows -> 2 <= cols ->
  contraction_consistent o rows cols psi ->
  ready o rows cols w -> projected o rows cols tps (cfg w) (tn w) -> all_states rows cols (fun x => x < 2) (cfg w) ->
  wave o val cols psi tps (flat rows cols (cfg w)) = RtoC 0 ->
  j1j2_xxz_obc val jz jxy jz2 jxy2 p holes tps ker rows cols w = Fail Throw /\
  xxz_obc val jz jxy p holes tps ker rows cols w = Fail Throw.
Proof. exact j1j2_zero. Qed.
Print Assumptions c13_zero_amplitude_throws.

(** *** C14 *)
(** Transverse-field Ising, open boundaries. *)
Theorem c14_tfim_local_energy :
  forall (o : ops) (val : Amp o -> C) (Rng : Type) (rows cols : nat) (tps : sitps o) (ker : kernel o Rng),
  2 <= rows -> 2 <= cols ->
  forall psi h holes (w : wst o Rng),
  contraction_consistent o rows cols psi ->
  ready o rows cols w -> projected o rows cols tps (cfg w) (tn w) -> all_states rows cols (fun x => x < 2) (cfg w) ->
  wave o val cols psi tps (flat rows cols (cfg w)) <> RtoC 0 ->
  exists w' r, tfim_obc val h holes tps ker rows cols w = Ok (w', r) /\
    e_total r = local_energy 2 (rows * cols) (H_tfim rows cols h) (wave o val cols psi tps) (flat rows cols (cfg w)) /\
    Forall (fun z => z = wave o val cols psi tps (flat rows cols (cfg w))) (e_psis r) /\
    ready o rows cols w' /\ cfg w' = cfg w /\ tn w' = tn w /\ amp w' = amp w /\ rng w' = rng w.
Proof. exact tfim_claim. Qed.
Print Assumptions c14_tfim_local_energy.

(** *** C66 *)
(** The holes returned with the energy: one for each site, and closing the hole of a site with any
    tensor gives the amplitude of the network with that tensor there. The amplitude being linear in
    each tensor, the hole is the derivative of the amplitude with respect to the site's tensor. *)
Theorem c66_holes_are_derivatives :
  forall (o : ops) (val : Amp o -> C) (Rng : Type) (rows cols : nat) (tps : sitps o) (ker : kernel o Rng),
  2 <= rows -> 2 <= cols ->
  forall psi plug jz jxy jz2 jxy2 p h (w : wst o Rng),
  contraction_consistent o rows cols psi -> contraction_consistent2 o rows cols psi -> plugs o rows cols plug ->
  ready o rows cols w -> projected o rows cols tps (cfg w) (tn w) -> all_states rows cols (fun x => x < 2) (cfg w) ->
  wave o val cols psi tps (flat rows cols (cfg w)) <> RtoC 0 ->
  (exists w' r, j1j2_xxz_obc val jz jxy jz2 jxy2 p true tps ker rows cols w = Ok (w', r) /\
    Permutation (map fst (e_holes r)) (all_sites rows cols) /\
    forall s hole, In (s, hole) (e_holes r) -> forall t, plug hole t = psi (upd2 (tn w) s t)) /\
  (exists w' r, xxz_obc val jz jxy p true tps ker rows cols w = Ok (w', r) /\
    Permutation (map fst (e_holes r)) (all_sites rows cols) /\
    forall s hole, In (s, hole) (e_holes r) -> forall t, plug hole t = psi (upd2 (tn w) s t)) /\
  (exists w' r, tfim_obc val h true tps ker rows cols w = Ok (w', r) /\
    Permutation (map fst (e_holes r)) (all_sites rows cols) /\
    forall s hole, In (s, hole) (e_holes r) -> forall t, plug hole t = psi (upd2 (tn w) s t)).
Proof. exact spin_holes_claim. Qed.
Print Assumptions c66_holes_are_derivatives.

(** The hypotheses of C13, C14 and C66 hold for every wave function [F] of every lattice and every
    configuration: some contraction scheme represents it and some component is in that state. *)
Example spin_hypotheses_hold : forall (F : list nat -> C) rows cols c, 2 <= rows -> 2 <= cols ->
  let o := exact_ops nat 0 (fun _ n => F (flat rows cols n)) in
  let tps : sitps o := fun _ _ s => s in
  let psi : net o -> Amp o := fun n => F (flat rows cols n) in
  contraction_consistent o rows cols psi /\ contraction_consistent2 o rows cols psi /\
  plugs o rows cols (fun h t => h t) /\
  (forall S, length S = rows * cols -> wave o (fun z => z) cols psi tps S = F S) /\
  exists w : wst o unit, ready o rows cols w /\ projected o rows cols tps (cfg w) (tn w) /\ cfg w = c.
Proof. exact spin_model. Qed.

(** *** C16 *)
(** Hubbard model, open boundaries: with fermions ordered site by site the energy is that of
    - t sum (c+ c + h.c.) + U sum n_up n_down - mu sum n, with the signs of the anticommuting
    operators over the whole lattice. *)
Theorem c16_hubbard_local_energy :
  forall (o : ops) (val : Amp o -> C) (Rng : Type) (rows cols : nat) (tps : sitps o) (ker : kernel o Rng),
  2 <= rows -> 2 <= cols ->
  forall Psi t U mu holes (w : wst o Rng),
  (forall v, lattice_visit rows cols false false v -> fermionic_window o val rows cols 4 tps occ_hubbard Psi v) ->
  ready o rows cols w -> projected o rows cols tps (cfg w) (tn w) -> all_states rows cols (fun x => x < 4) (cfg w) ->
  Psi (flat rows cols (cfg w)) <> RtoC 0 ->
  exists w' r, fermion_energy val (hubbard_model t U mu) false holes tps ker rows cols w = Ok (w', r) /\
    e_total r = local_energy 4 (rows * cols) (H_hubbard rows cols t U mu) Psi (flat rows cols (cfg w)) /\
    ready o rows cols w' /\ cfg w' = cfg w /\ tn w' = tn w /\ amp w' = amp w /\ rng w' = rng w.
Proof. exact hubbard_claim. Qed.
Print Assumptions c16_hubbard_local_energy.

(** For every wave function of every lattice, a scheme whose bond windows bring the two sites to
    the front meets the hypotheses. *)
Example c16_hypotheses_hold : forall rows cols (Psi : list nat -> C) c, 2 <= rows -> 2 <= cols ->
  let o := exact_ops nat 0 (fermi_amp rows cols occ_hubbard Psi) in
  let tps : sitps o := fun _ _ s => s in
  (forall v, lattice_visit rows cols false false v -> fermionic_window o (fun z => z) rows cols 4 tps occ_hubbard Psi v) /\
  exists w : wst o unit, ready o rows cols w /\ projected o rows cols tps (cfg w) (tn w) /\ cfg w = c.
Proof.
  intros rows cols Psi c Hr Hc o tps. split; [|apply fermi_component; assumption].
  intros v Hv. destruct v as [d s|g s|d g s|s|s]; try (simpl in Hv; destruct Hv; discriminate); try (simpl in Hv; contradiction).
  apply fermi_bond; assumption.
Qed.

(** *** C17 *)
(** Spinless fermions, t-t2-V. *)
Theorem c17_spinless_local_energy :
  forall (o : ops) (val : Amp o -> C) (Rng : Type) (rows cols : nat) (tps : sitps o) (ker : kernel o Rng),
  2 <= rows -> 2 <= cols ->
  forall Psi t t2 V holes (w : wst o Rng),
  (forall v, lattice_visit rows cols false true v -> fermionic_window o val rows cols 2 tps occ_spinless Psi v) ->
  ready o rows cols w -> projected o rows cols tps (cfg w) (tn w) -> all_states rows cols (fun x => x < 2) (cfg w) ->
  Psi (flat rows cols (cfg w)) <> RtoC 0 ->
  exists w' r, fermion_energy val (spinless_model t t2 V) true holes tps ker rows cols w = Ok (w', r) /\
    e_total r = local_energy 2 (rows * cols) (H_spinless rows cols t t2 V) Psi (flat rows cols (cfg w)) /\
    ready o rows cols w' /\ cfg w' = cfg w /\ tn w' = tn w /\ amp w' = amp w /\ rng w' = rng w.
Proof. exact spinless_claim. Qed.
Print Assumptions c17_spinless_local_energy.

(** tJ model with next-nearest hopping and density interaction. *)
Theorem c17_tj_local_energy :
  forall (o : ops) (val : Amp o -> C) (Rng : Type) (rows cols : nat) (tps : sitps o) (ker : kernel o Rng),
  2 <= rows -> 2 <= cols ->
  forall Psi t t2 J V mu holes (w : wst o Rng),
  (forall v, lattice_visit rows cols false true v -> fermionic_window o val rows cols 3 tps occ_tj Psi v) ->
  ready o rows cols w -> projected o rows cols tps (cfg w) (tn w) -> all_states rows cols (fun x => x < 3) (cfg w) ->
  Psi (flat rows cols (cfg w)) <> RtoC 0 ->
  exists w' r, fermion_energy val (tj_model t t2 J V mu None) true holes tps ker rows cols w = Ok (w', r) /\
    e_total r = local_energy 3 (rows * cols) (H_tj rows cols t t2 J V mu []) Psi (flat rows cols (cfg w)) /\
    ready o rows cols w' /\ cfg w' = cfg w /\ tn w' = tn w /\ amp w' = amp w /\ rng w' = rng w.
Proof. exact tj_claim. Qed.
Print Assumptions c17_tj_local_energy.

(** The same with a singlet-pairing field pinned on a bond, given in either order of its ends. *)
Theorem c17_tj_pinned_local_energy :
  forall (o : ops) (val : Amp o -> C) (Rng : Type) (rows cols : nat) (tps : sitps o) (ker : kernel o Rng),
  2 <= rows -> 2 <= cols ->
  forall Psi t t2 J V mu holes a b delta p (w : wst o Rng),
  In (a, b) (pairs rows cols nearest) -> set_pinning a b delta = Ok p \/ set_pinning b a delta = Ok p ->
  (forall v, lattice_visit rows cols false true v -> fermionic_window o val rows cols 3 tps occ_tj Psi v) ->
  ready o rows cols w -> projected o rows cols tps (cfg w) (tn w) -> all_states rows cols (fun x => x < 3) (cfg w) ->
  Psi (flat rows cols (cfg w)) <> RtoC 0 ->
  exists w' r, fermion_energy val (tj_model t t2 J V mu (Some p)) true holes tps ker rows cols w = Ok (w', r) /\
    e_total r = local_energy 3 (rows * cols) (H_tj rows cols t t2 J V mu [(a, b, delta)]) Psi (flat rows cols (cfg w)) /\
    ready o rows cols w' /\ cfg w' = cfg w /\ tn w' = tn w /\ amp w' = amp w /\ rng w' = rng w.
Proof. exact tj_pinned_claim. Qed.
Print Assumptions c17_tj_pinned_local_energy.

(** On two by two sites, every wave function with an even number of fermions meets the hypotheses,
    although both diagonals are read in one window. *)
Example c17_hypotheses_hold : forall (F : list nat -> C) c,
  (let o := exact_ops nat 0 (fermi_amp 2 2 occ_spinless (even_sector occ_spinless F)) in
   let tps : sitps o := fun _ _ s => s in
   (forall v, lattice_visit 2 2 false true v -> fermionic_window o (fun z => z) 2 2 2 tps occ_spinless (even_sector occ_spinless F) v) /\
   exists w : wst o unit, ready o 2 2 w /\ projected o 2 2 tps (cfg w) (tn w) /\ cfg w = c) /\
  (let o := exact_ops nat 0 (fermi_amp 2 2 occ_tj (even_sector occ_tj F)) in
   let tps : sitps o := fun _ _ s => s in
   (forall v, lattice_visit 2 2 false true v -> fermionic_window o (fun z => z) 2 2 3 tps occ_tj (even_sector occ_tj F) v) /\
   exists w : wst o unit, ready o 2 2 w /\ projected o 2 2 tps (cfg w) (tn w) /\ cfg w = c).
Proof.
  intros F c. split; intros o tps; (split; [|apply fermi_component; lia]).
  - exact (fermi_plaquette occ_spinless 2 F plaquette_spinless).
  - exact (fermi_plaquette occ_tj 3 F plaquette_tj).
Qed.
Example c17_pinning_given : set_pinning (1, 1) (0, 1) 3 = Ok (VERTICAL, (0, 1), 3%R) /\ In ((0, 1), (1, 1)) (pairs 2 2 nearest).
Proof. split; [reflexivity|vm_compute; tauto]. Qed.
