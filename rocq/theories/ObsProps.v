(** Measured samples of the spin-1/2 solvers. *)
From Coq Require Import List Arith Lia Bool Reals Permutation.
From Verif Require Import Base ContractorModel ContractorSpec SweepModel SweepSpec UpdaterSpec Cplx EnergyModel EnergySpec
  ExactSpec ExactInstance EnergyClaims TriModel TriSpec ObsModel ObsSpec ObsClaims ObsAverage.
Import ListNotations.
Local Open Scope nat_scope.

(** *** C70 *)
(** From two rows and two columns on, one measurement of the J1-J2 XXZ solver returns, for the
    configuration it is given: the local energy of the Hamiltonian; each bond of the lattice once,
    with the local energy of its term; the amplitude, once per row and column; the local values of
    (S-_i S+_j)^dagger and (S+_i S-_j)^dagger along the middle row; S^z and the products of pairs at
    the documented positions. The component is left as it was and ready for the next sample. *)
Theorem c70_j1j2_sample :
  forall (o : ops) (val : Amp o -> C) (Rng : Type) (rows cols : nat) (tps : sitps o) (ker : kernel o Rng) psi
         jz jxy jz2 jxy2 p (w : wst o Rng),
  2 <= rows -> 2 <= cols -> contraction_consistent o rows cols psi -> contraction_consistent2 o rows cols psi ->
  ready o rows cols w -> projected o rows cols tps (cfg w) (tn w) -> all_states rows cols (fun x => x < 2) (cfg w) ->
  wave o val cols psi tps (flat rows cols (cfg w)) <> RtoC 0 ->
  exists w' r, measure_j1j2 val jz jxy jz2 jxy2 p tps ker rows cols w = Ok (w', r) /\
    faithful_sample rows cols true (H_xxz rows cols jz jxy jz2 jxy2 p) (xxz_terms jz jxy jz2 jxy2)
      (wave o val cols psi tps) (flat rows cols (cfg w)) r /\
    ready o rows cols w' /\ cfg w' = cfg w /\ tn w' = tn w /\ amp w' = amp w /\ rng w' = rng w.
Proof. exact measure_j1j2_claim. Qed.
Print Assumptions c70_j1j2_sample.

(** The same for the XXZ solver without diagonals. *)
Theorem c70_xxz_sample :
  forall (o : ops) (val : Amp o -> C) (Rng : Type) (rows cols : nat) (tps : sitps o) (ker : kernel o Rng) psi
         jz jxy p (w : wst o Rng),
  2 <= rows -> 2 <= cols -> contraction_consistent o rows cols psi ->
  ready o rows cols w -> projected o rows cols tps (cfg w) (tn w) -> all_states rows cols (fun x => x < 2) (cfg w) ->
  wave o val cols psi tps (flat rows cols (cfg w)) <> RtoC 0 ->
  exists w' r, measure_xxz val jz jxy p tps ker rows cols w = Ok (w', r) /\
    faithful_sample rows cols false (H_xxz rows cols jz jxy 0 0 p) (fun _ => xxz_bond jz jxy)
      (wave o val cols psi tps) (flat rows cols (cfg w)) r /\
    ready o rows cols w' /\ cfg w' = cfg w /\ tn w' = tn w /\ amp w' = amp w /\ rng w' = rng w.
Proof. exact measure_xxz_claim. Qed.
Print Assumptions c70_xxz_sample.

(** The same for the nearest-neighbour triangular solver: the entry filed under the other diagonal is 0. *)
Theorem c70_triangular_sample :
  forall (o : ops) (val : Amp o -> C) (Rng : Type) (rows cols : nat) (tps : sitps o) (ker : kernel o Rng) psi (w : wst o Rng),
  2 <= rows -> 2 <= cols -> contraction_consistent o rows cols psi -> contraction_consistent2 o rows cols psi ->
  ready o rows cols w -> projected o rows cols tps (cfg w) (tn w) -> all_states rows cols (fun x => x < 2) (cfg w) ->
  wave o val cols psi tps (flat rows cols (cfg w)) <> RtoC 0 ->
  exists w' r, measure_tri_nn val tps ker rows cols w = Ok (w', r) /\
    faithful_sample rows cols true (H_triangular rows cols 0) triangular_terms
      (wave o val cols psi tps) (flat rows cols (cfg w)) r /\
    ready o rows cols w' /\ cfg w' = cfg w /\ tn w' = tn w /\ amp w' = amp w /\ rng w' = rng w.
Proof. exact measure_tri_claim. Qed.
Print Assumptions c70_triangular_sample.

(** A configuration of zero amplitude is refused with an exception. *)
Theorem c70_zero_amplitude_throws :
  forall (o : ops) (val : Amp o -> C) (Rng : Type) (rows cols : nat) (tps : sitps o) (ker : kernel o Rng) psi
         jz jxy jz2 jxy2 p (w : wst o Rng),
  2 <= rows -> 2 <= cols -> contraction_consistent o rows cols psi ->
  ready o rows cols w -> projected o rows cols tps (cfg w) (tn w) -> all_states rows cols (fun x => x < 2) (cfg w) ->
  wave o val cols psi tps (flat rows cols (cfg w)) = RtoC 0 ->
  measure_xxz val jz jxy p tps ker rows cols w = Fail Throw /\
  measure_j1j2 val jz jxy jz2 jxy2 p tps ker rows cols w = Fail Throw /\
  measure_tri_nn val tps ker rows cols w = Fail Throw.
Proof. exact measure_zero_claim. Qed.
Print Assumptions c70_zero_amplitude_throws.

(** Measure every configuration of non-zero amplitude and weight the samples with |Psi|^2: the averages
    are the expectation values of the Hamiltonian, of S+_i S-_j and S-_i S+_j along the middle row,
    of S^z_i and of S^z_i S^z_j, whether or not the wave function conserves the magnetisation. *)
Theorem c70_j1j2_expectations :
  forall (o : ops) (val : Amp o -> C) (Rng : Type) (rows cols : nat) (tps : sitps o) (ker : kernel o Rng) psi
         jz jxy jz2 jxy2 p (ws : list nat -> wst o Rng),
  2 <= rows -> 2 <= cols -> contraction_consistent o rows cols psi -> contraction_consistent2 o rows cols psi ->
  (forall S, In S (support 2 (rows * cols) (wave o val cols psi tps)) ->
     ready o rows cols (ws S) /\ projected o rows cols tps (cfg (ws S)) (tn (ws S)) /\ flat rows cols (cfg (ws S)) = S) ->
  exists r,
    (forall S, In S (support 2 (rows * cols) (wave o val cols psi tps)) ->
       exists w', measure_j1j2 val jz jxy jz2 jxy2 p tps ker rows cols (ws S) = Ok (w', r S)) /\
    expectations rows cols (H_xxz rows cols jz jxy jz2 jxy2 p) (wave o val cols psi tps) r.
Proof. exact j1j2_expect. Qed.
Print Assumptions c70_j1j2_expectations.
Theorem c70_xxz_expectations :
  forall (o : ops) (val : Amp o -> C) (Rng : Type) (rows cols : nat) (tps : sitps o) (ker : kernel o Rng) psi
         jz jxy p (ws : list nat -> wst o Rng),
  2 <= rows -> 2 <= cols -> contraction_consistent o rows cols psi ->
  (forall S, In S (support 2 (rows * cols) (wave o val cols psi tps)) ->
     ready o rows cols (ws S) /\ projected o rows cols tps (cfg (ws S)) (tn (ws S)) /\ flat rows cols (cfg (ws S)) = S) ->
  exists r,
    (forall S, In S (support 2 (rows * cols) (wave o val cols psi tps)) ->
       exists w', measure_xxz val jz jxy p tps ker rows cols (ws S) = Ok (w', r S)) /\
    expectations rows cols (H_xxz rows cols jz jxy 0 0 p) (wave o val cols psi tps) r.
Proof. exact xxz_expect. Qed.
Print Assumptions c70_xxz_expectations.
Theorem c70_triangular_expectations :
  forall (o : ops) (val : Amp o -> C) (Rng : Type) (rows cols : nat) (tps : sitps o) (ker : kernel o Rng) psi
         (ws : list nat -> wst o Rng),
  2 <= rows -> 2 <= cols -> contraction_consistent o rows cols psi -> contraction_consistent2 o rows cols psi ->
  (forall S, In S (support 2 (rows * cols) (wave o val cols psi tps)) ->
     ready o rows cols (ws S) /\ projected o rows cols tps (cfg (ws S)) (tn (ws S)) /\ flat rows cols (cfg (ws S)) = S) ->
  exists r,
    (forall S, In S (support 2 (rows * cols) (wave o val cols psi tps)) ->
       exists w', measure_tri_nn val tps ker rows cols (ws S) = Ok (w', r S)) /\
    expectations rows cols (H_triangular rows cols 0) (wave o val cols psi tps) r.
Proof. exact tri_expect. Qed.
Print Assumptions c70_triangular_expectations.

(** Any wave function on any lattice and any configuration meet the hypotheses. *)
Example c70_hypotheses (F : list nat -> C) rows cols c : 2 <= rows -> 2 <= cols ->
  all_states rows cols (fun x => x < 2) c -> F (flat rows cols c) <> RtoC 0 ->
  exists (o : ops) (val : Amp o -> C) (tps : sitps o) psi (w : wst o unit),
    contraction_consistent o rows cols psi /\ contraction_consistent2 o rows cols psi /\
    ready o rows cols w /\ projected o rows cols tps (cfg w) (tn w) /\ all_states rows cols (fun x => x < 2) (cfg w) /\
    (forall S, length S = rows * cols -> wave o val cols psi tps S = F S) /\ cfg w = c.
Proof.
  intros Hr Hc Hs Hf. destruct (spin_model F rows cols c Hr Hc) as (A & B & D & G & w & R & P & E).
  exists (exact_ops nat 0 (fun _ n => F (flat rows cols n))), (fun z => z), (fun _ _ s => s), (fun n => F (flat rows cols n)), w.
  rewrite E. repeat (split; [assumption|]). split; [rewrite E in P; exact P|]. repeat (split; [assumption|]). reflexivity.
Qed.
(** S+ S- on two sites: one non-zero entry; the pair (1, 3) of 4 sites is number 6 of the 10 packed ones. *)
Example c70_small :
  two_point 2 Sp (0, 0) Sm (0, 1) [1; 0] [0; 1] = (RtoC 1 * RtoC 1)%C /\ two_point 2 Sp (0, 0) Sm (0, 1) [0; 1] [1; 0] = (RtoC 0 * RtoC 0)%C /\
  packed_index 4 1 3 = 6 /\ packed_index 4 3 3 = 9.
Proof. repeat split. Qed.
