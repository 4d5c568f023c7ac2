(** Lemmas closing the theorems of TriProps.v. *)
From Coq Require Import List Arith Lia Bool Reals Permutation ZArith.
From Verif Require Import Base ContractorModel ContractorSpec SweepModel SweepSpec UpdaterSpec Cplx EnergyModel EnergySpec
  EnergyProofs EnergySum EnergyHoles EnergyMain HistoryProofs TriModel TriSpec TriProofs ObsModel TriFail.
Import ListNotations.
Local Open Scope nat_scope.

Lemma nodup_hole_sites l : NoDup l -> NoDup (flat_map (fun v => match v with VHole s => [s] | _ => [] end) l).
Proof.
  induction 1 as [|v l Hn Hl IH]; [constructor|]. cbn [flat_map]. destruct v as [| | |s|]; try exact IH.
  cbn [app]. constructor; [|exact IH]. intros Hi. apply in_flat_map in Hi. destruct Hi as (v & Hv & Hs).
  destruct v as [| | |s'|]; try (destruct Hs; fail). destruct Hs as [Hs|[]]; subst. contradiction.
Qed.
Lemma tri_holes_derivative (o : ops) rows cols psi plug n :
  contraction_consistent o rows cols psi -> plugs o rows cols plug ->
  Permutation (map fst (flat_map (hole_at o rows cols n) (tri_calls true rows cols))) (all_sites rows cols) /\
  (forall s h, In (s, h) (flat_map (hole_at o rows cols n) (tri_calls true rows cols)) -> forall t, plug h t = psi (upd2 n s t)).
Proof.
  intros H1 HH. destruct (holes_of o rows cols psi plug H1 HH n (tri_calls true rows cols)) as [A B].
  { intros v Hv. apply (tri_calls_visit_in true). exact Hv. }
  split; [|intros s h Hi; apply (B s h Hi)]. rewrite A. apply NoDup_Permutation.
  - apply nodup_hole_sites, tri_calls_nodup.
  - apply all_sites_nodup.
  - intros s. rewrite all_sites_in. split.
    + intros Hi. apply in_flat_map in Hi. destruct Hi as (v & Hv & Hs). apply tri_calls_in in Hv.
      destruct v as [| | |s'|]; try (destruct Hs; fail). destruct Hs as [Hs|[]]; subst. simpl in Hv. tauto.
    + intros Hs. apply in_flat_map. exists (VHole s). split; [apply tri_calls_in; simpl; tauto|left; reflexivity].
Qed.

Section Claims.
Context (o : ops) (val : Amp o -> C) (Rng : Type) (rows cols : nat) (tps : sitps o) (ker : kernel o Rng).
Lemma tri_j1j2_claim psi plug j2 (w : wst o Rng) : 3 <= rows -> 2 <= cols ->
  contraction_consistent o rows cols psi -> contraction_consistent2 o rows cols psi -> plugs o rows cols plug ->
  ready o rows cols w -> projected o rows cols tps (cfg w) (tn w) -> all_states rows cols (fun x => x < 2) (cfg w) ->
  wave o val cols psi tps (flat rows cols (cfg w)) <> RtoC 0 ->
  exists w' r, tri_j1j2 val j2 true tps ker rows cols w = Ok (w', r) /\
    e_total r = local_energy 2 (rows * cols) (H_triangular rows cols j2) (wave o val cols psi tps) (flat rows cols (cfg w)) /\
    Forall (fun z => z = wave o val cols psi tps (flat rows cols (cfg w))) (e_psis r) /\
    Permutation (map fst (e_holes r)) (all_sites rows cols) /\
    (forall s hole, In (s, hole) (e_holes r) -> forall t, plug hole t = psi (upd2 (tn w) s t)) /\
    ready o rows cols w' /\ cfg w' = cfg w /\ tn w' = tn w /\ amp w' = amp w /\ rng w' = rng w.
Proof.
  intros Hr Hc H1 H2 HP Hw HJ HS HZ.
  destruct (tri_energy_local o val Rng rows cols tps ker psi w Hc H1 H2 Hw HJ HS HZ j2 true Hr) as (w' & r & E & T & U & V & W).
  destruct (tri_holes_derivative o rows cols psi plug (tn w) H1 HP) as [A B]. rewrite <- U in A, B.
  exists w', r. repeat (split; [assumption|]). exact W.
Qed.
Lemma tri_nn_claim psi plug (w : wst o Rng) : 2 <= rows -> 2 <= cols ->
  contraction_consistent o rows cols psi -> contraction_consistent2 o rows cols psi -> plugs o rows cols plug ->
  ready o rows cols w -> projected o rows cols tps (cfg w) (tn w) -> all_states rows cols (fun x => x < 2) (cfg w) ->
  wave o val cols psi tps (flat rows cols (cfg w)) <> RtoC 0 ->
  exists w' r, tri_nn val true tps ker rows cols w = Ok (w', r) /\
    e_total r = local_energy 2 (rows * cols) (H_triangular rows cols 0) (wave o val cols psi tps) (flat rows cols (cfg w)) /\
    Forall (fun z => z = wave o val cols psi tps (flat rows cols (cfg w))) (e_psis r) /\
    Permutation (map fst (e_holes r)) (all_sites rows cols) /\
    (forall s hole, In (s, hole) (e_holes r) -> forall t, plug hole t = psi (upd2 (tn w) s t)) /\
    ready o rows cols w' /\ cfg w' = cfg w /\ tn w' = tn w /\ amp w' = amp w /\ rng w' = rng w.
Proof.
  intros Hr Hc H1 H2 HP Hw HJ HS HZ.
  destruct (tri_nn_local o val Rng rows cols tps ker psi w Hc H1 H2 Hw HJ HS HZ true Hr) as (w' & r & E & T & U & V & W).
  destruct (holes_derivative o rows cols psi plug H1 HP (tn w) true) as [A B]. rewrite <- U in A, B.
  exists w', r. repeat (split; [assumption|]). exact W.
Qed.
Lemma tri_measure_claim (w : wst o Rng) : 1 <= rows -> 1 <= cols -> ready o rows cols w ->
  exists f, mrun o tps ker (tri_measure_steps rows cols) w = Fail f.
Proof. intros Hr Hc [R [K _]]. apply tri_measure_fails; auto. Qed.
Lemma tri_two_rows_claim j2 holes (w : wst o Rng) : rows <= 2 -> 2 <= cols -> ready o rows cols w ->
  exists f, tri_j1j2 val j2 holes tps ker rows cols w = Fail f.
Proof.
  intros Hr Hc [R [K _]]. destruct (tri_energy_two_rows o Rng tps ker holes rows cols w R K Hc Hr) as [f E].
  exists f. unfold tri_j1j2. cbv zeta. try rewrite E. unfold energy_of. try rewrite E. reflexivity.
Qed.
End Claims.
