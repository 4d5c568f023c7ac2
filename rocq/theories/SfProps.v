(** C65.  [structure_factor ... up_stack down_stack] is MeasureStructureFactor with the two stacks of the contractor.
    [sf_setting] (SfSpec.v): the walker absorbs rows without truncation, the first UP boundary has absorbed nothing
    and the DOWN boundary number [i] the last [i] rows.  [flipped a b] is the amplitude of the configuration with the
    spin raised at [a] and lowered at [b], zero if one of them cannot be. *)
From Coq Require Import List Arith Lia Bool ZArith Reals.
From Verif Require Import Base Cplx WalkModel SfModel SfSpec SfClaims ContractorModel ContractorSpec SweepModel SweepSpec SfStack ExactInstance EnergyClaims UpdaterSpec.
Import ListNotations.

(** With a DOWN boundary for every target row, the measurement returns exactly the amplitudes of all the pairs of
    a source above a target, once each and in order (amplitudes: not divided by that of the configuration). *)
Theorem c65_full_stack : forall D absorb Ly Lx tn tps cfg vac ups down_stack,
  sf_setting D absorb Ly Lx tn tps cfg vac down_stack -> Ly - 1 <= length down_stack ->
  structure_factor D absorb Ly Lx tn tps cfg (vac :: ups) down_stack = Ok (all_entries Ly Lx (flipped D Ly Lx tn tps cfg)).
Proof. exact sf_full. Qed.
Print Assumptions c65_full_stack.

(** With a stack of any length: a target row without its boundary is recorded as zero, and is left out of the
    amplitudes of the targets below it. *)
Theorem c65_any_stack : forall D absorb Ly Lx tn tps cfg vac ups down_stack,
  sf_setting D absorb Ly Lx tn tps cfg vac down_stack ->
  structure_factor D absorb Ly Lx tn tps cfg (vac :: ups) down_stack = Ok (all_entries Ly Lx (fun a b =>
    if fst b + length down_stack <? Ly then RtoC 0
    else flipped_on (filter (fun y => (y <=? fst a) || (Ly <=? y + length down_stack)) (seq 0 Ly)) D Lx tn tps cfg a b)).
Proof. exact sf_general. Qed.
Print Assumptions c65_any_stack.

(** TraverseAllBonds, which the solvers run before the measurement, leaves a single DOWN boundary, from every
    valid component. *)
Theorem c65_stack_after_traversal : forall (o : ops) (Rng : Type) (tps : sitps o) (ker : kernel o Rng) rows cols nnn (w : wst o Rng),
  2 <= rows -> 2 <= cols -> ready o rows cols w ->
  exists w' lg, run o tps ker (traverse_all nnn rows cols) w = Ok (w', lg) /\ ready o rows cols w' /\ tn w' = tn w /\
    bm (ctr w') DOWN = [vac_mps o DOWN] /\ length (bm (ctr w') UP) = rows.
Proof. exact traverse_down. Qed.
Print Assumptions c65_stack_after_traversal.

(** What the solvers record therefore: zero for every target above the last row, and for the last row the
    amplitude of a lattice with the rows between source and target removed. *)
Theorem c65_one_boundary : forall D absorb Ly Lx tn tps cfg vac ups bottom,
  sf_setting D absorb Ly Lx tn tps cfg vac [bottom] ->
  structure_factor D absorb Ly Lx tn tps cfg (vac :: ups) [bottom] = Ok (all_entries Ly Lx (fun a b =>
    if fst b =? Ly - 1 then flipped_on (seq 0 (fst a + 1) ++ [Ly - 1]) D Lx tn tps cfg a b else RtoC 0)).
Proof. exact sf_one. Qed.
Print Assumptions c65_one_boundary.

(** This is wrong on every lattice of three rows or more: zero is recorded for a pair whose amplitude is one. *)
Theorem c65_one_boundary_refuted : forall Ly Lx, 3 <= Ly -> 1 <= Lx -> (Z.of_nat Lx < 2 ^ 64)%Z ->
  exists D absorb tn tps cfg vac bottom es, sf_setting D absorb Ly Lx tn tps cfg vac [bottom] /\
    structure_factor D absorb Ly Lx tn tps cfg [vac] [bottom] = Ok es /\
    In (0, 0, 1, 0, RtoC 0) es /\ flipped D Ly Lx tn tps cfg (0, 0) (1, 0) = RtoC 1.
Proof. exact sf_zero_refuted. Qed.
Print Assumptions c65_one_boundary_refuted.

(** Two columns, any number of rows, any tensors and any number of DOWN boundaries meet the hypotheses. *)
Example c65_inhabited : forall D Ly tn tps cfg k, 1 <= D -> 1 <= Ly ->
  exists absorb vac down_stack, length down_stack = k /\ sf_setting D absorb Ly 2 tn tps cfg vac down_stack.
Proof.
  intros D Ly tn tps cfg k D1 L1. eexists _, _, _. split; [|apply (two_columns D D1 Ly tn tps cfg k L1)].
  rewrite map_length, seq_length. reflexivity.
Qed.
(** and valid components exist on every lattice *)
Example c65_component : forall rows cols c, 2 <= rows -> 2 <= cols ->
  exists (o : ops) (w : wst o unit), ready o rows cols w /\ SweepModel.cfg w = c.
Proof.
  intros rows cols c Hr Hc. destruct (spin_model (fun _ => RtoC 1) rows cols c Hr Hc) as (_ & _ & _ & _ & w & R & _ & E).
  eexists _, w. split; [exact R|exact E].
Qed.
