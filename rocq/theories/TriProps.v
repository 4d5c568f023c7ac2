(** Triangular-lattice Heisenberg solvers on a square PEPS. *)
From Coq Require Import List Arith Lia Bool Reals Permutation ZArith.
From Verif Require Import Base ContractorModel ContractorSpec SweepModel SweepSpec UpdaterSpec Cplx EnergyModel EnergySpec
  ExactInstance EnergyClaims TriModel TriSpec ObsModel TriClaims.
Import ListNotations.
Local Open Scope nat_scope.

(** *** C64 *)
(** Three rows or more, two columns or more: the energy the triangular J1-J2 solver returns for a
    configuration is the local energy of  sum_nn S.S + J2 sum_nnn S.S  over the pairs of sites at
    distance 1 and at distance sqrt 3 of the triangular lattice, each counted once. Its amplitudes are
    that of the configuration, its holes the derivatives, and the component is as before. *)
Theorem c64_triangular_j1j2_local_energy :
  forall (o : ops) (val : Amp o -> C) (Rng : Type) (rows cols : nat) (tps : sitps o) (ker : kernel o Rng)
         psi plug j2 (w : wst o Rng),
  3 <= rows -> 2 <= cols ->
  contraction_consistent o rows cols psi -> contraction_consistent2 o rows cols psi -> plugs o rows cols plug ->
  ready o rows cols w -> projected o rows cols tps (cfg w) (tn w) -> all_states rows cols (fun x => x < 2) (cfg w) ->
  wave o val cols psi tps (flat rows cols (cfg w)) <> RtoC 0 ->
  exists w' r, tri_j1j2 val j2 true tps ker rows cols w = Ok (w', r) /\
    e_total r = local_energy 2 (rows * cols) (H_triangular rows cols j2) (wave o val cols psi tps) (flat rows cols (cfg w)) /\
    Forall (fun z => z = wave o val cols psi tps (flat rows cols (cfg w))) (e_psis r) /\
    Permutation (map fst (e_holes r)) (all_sites rows cols) /\
    (forall s hole, In (s, hole) (e_holes r) -> forall t, plug hole t = psi (upd2 (tn w) s t)) /\
    ready o rows cols w' /\ cfg w' = cfg w /\ tn w' = tn w /\ amp w' = amp w /\ rng w' = rng w.
Proof. exact tri_j1j2_claim. Qed.
Print Assumptions c64_triangular_j1j2_local_energy.

(** The nearest-neighbour triangular solver, two rows or more. *)
Theorem c64_triangular_nn_local_energy :
  forall (o : ops) (val : Amp o -> C) (Rng : Type) (rows cols : nat) (tps : sitps o) (ker : kernel o Rng)
         psi plug (w : wst o Rng),
  2 <= rows -> 2 <= cols ->
  contraction_consistent o rows cols psi -> contraction_consistent2 o rows cols psi -> plugs o rows cols plug ->
  ready o rows cols w -> projected o rows cols tps (cfg w) (tn w) -> all_states rows cols (fun x => x < 2) (cfg w) ->
  wave o val cols psi tps (flat rows cols (cfg w)) <> RtoC 0 ->
  exists w' r, tri_nn val true tps ker rows cols w = Ok (w', r) /\
    e_total r = local_energy 2 (rows * cols) (H_triangular rows cols 0) (wave o val cols psi tps) (flat rows cols (cfg w)) /\
    Forall (fun z => z = wave o val cols psi tps (flat rows cols (cfg w))) (e_psis r) /\
    Permutation (map fst (e_holes r)) (all_sites rows cols) /\
    (forall s hole, In (s, hole) (e_holes r) -> forall t, plug hole t = psi (upd2 (tn w) s t)) /\
    ready o rows cols w' /\ cfg w' = cfg w /\ tn w' = tn w /\ amp w' = amp w /\ rng w' = rng w.
Proof. exact tri_nn_claim. Qed.
Print Assumptions c64_triangular_nn_local_energy.

(** The measurement of the triangular J1-J2 solver does not return the energy of the configuration,
    nor anything else: from every valid component, on every lattice, it ends in an error. *)
Theorem c64_triangular_j1j2_measurement_refuted :
  forall (o : ops) (Rng : Type) (rows cols : nat) (tps : sitps o) (ker : kernel o Rng) (w : wst o Rng),
  1 <= rows -> 1 <= cols -> ready o rows cols w ->
  exists f, mrun o tps ker (tri_measure_steps rows cols) w = Fail f.
Proof. exact tri_measure_claim. Qed.
Print Assumptions c64_triangular_j1j2_measurement_refuted.

(** With at most two rows the energy evaluation itself ends in an error. *)
Theorem c64_triangular_j1j2_two_rows_refuted :
  forall (o : ops) (val : Amp o -> C) (Rng : Type) (rows cols : nat) (tps : sitps o) (ker : kernel o Rng)
         j2 holes (w : wst o Rng),
  rows <= 2 -> 2 <= cols -> ready o rows cols w ->
  exists f, tri_j1j2 val j2 holes tps ker rows cols w = Fail f.
Proof. exact tri_two_rows_claim. Qed.
Print Assumptions c64_triangular_j1j2_two_rows_refuted.

(** Any wave function on any lattice and any configuration meet the hypotheses. *)
Example c64_hypotheses (F : list nat -> C) rows cols c : 3 <= rows -> 2 <= cols ->
  all_states rows cols (fun x => x < 2) c -> F (flat rows cols c) <> RtoC 0 ->
  exists (o : ops) (val : Amp o -> C) (tps : sitps o) psi plug (w : wst o unit),
    contraction_consistent o rows cols psi /\ contraction_consistent2 o rows cols psi /\ plugs o rows cols plug /\
    ready o rows cols w /\ projected o rows cols tps (cfg w) (tn w) /\ all_states rows cols (fun x => x < 2) (cfg w) /\
    (forall S, length S = rows * cols -> wave o val cols psi tps S = F S) /\ cfg w = c.
Proof.
  intros Hr Hc Hs Hf. destruct (spin_model F rows cols c ltac:(lia) Hc) as (A & B & D & G & w & R & P & E).
  exists (exact_ops nat 0 (fun _ n => F (flat rows cols n))), (fun z => z), (fun _ _ s => s), (fun n => F (flat rows cols n)), (fun h t => h t), w.
  rewrite E. repeat (split; [assumption|]). split; [rewrite E in P; exact P|]. repeat (split; [assumption|]). reflexivity.
Qed.
(** 3 x 3 sites: 16 nearest pairs and 8 next-nearest ones, among them (2,0)-(0,1) and (1,0)-(0,2). *)
Example c64_pairs_3x3 :
  length (pairs 3 3 (at_distance2 1)) = 16 /\ length (pairs 3 3 (at_distance2 3)) = 8 /\
  In ((2, 0), (0, 1)) (pairs 3 3 (at_distance2 3)) /\ In ((1, 0), (0, 2)) (pairs 3 3 (at_distance2 3)) /\
  In ((0, 0), (1, 1)) (pairs 3 3 (at_distance2 3)) /\ In ((1, 0), (0, 1)) (pairs 3 3 (at_distance2 1)).
Proof. vm_compute. tauto. Qed.
