(** From the simple update to the measured energy. *)
From Coq Require Import List Arith Bool Reals Lia.
From Verif Require Import Base Cplx ContractorModel SweepModel SweepSpec UpdaterSpec EnergyModel EnergySpec ExactModel ExactSpec SumModel SumSpec TrgTensor BmpsModel BmpsSpec BmpsMain.
From Verif Require Import ProjModel ProjSpec ProjNullSpec ProjExample ProjNullExample PipeModel PipeSpec PipeProofs PipeMain PipeExample.
Import ListNotations.
Local Open Scope nat_scope.

(** *** C84 *)
(** The tensors of a PEPS, split by the states of their sites, have the contraction that is the wave function of the PEPS. *)
Theorem c84_split_is_wave :
  forall tol P, sound tol P -> p_per P = false -> forall D, bonds_at_most D P -> forall s, nonnegative P -> proper P s ->
  open_sum D (p_rows P) (p_cols P) (fun r c => sampled P r c (s r c)) = wave P s.
Proof. exact split_wave. Qed.
Print Assumptions c84_split_is_wave.
(** A PEPS goes through projections, any calls one after the other; it is converted and sampled. Whatever has happened to a component, its
    amplitude is that of the state that the gates make of the first state, divided by the product of the norms. *)
Theorem c84_amplitude_of_evolved_state :
  forall qr svd tol calls P, good_evolution qr svd tol calls P ->
  let Q := fst (project_all qr svd tol P calls) in let n := snd (project_all qr svd tol P calls) in
  let rows := p_rows P in let cols := p_cols P in let evolved := ProjSpec.acts rows cols calls (wave P) in
  forall D bqr bsvd, good_contraction D bqr bsvd rows cols -> bonds_at_most D Q ->
  let o := bmps_ops D bqr bsvd rows cols in
  forall (Rng : Type) (ker : kernel o Rng), honest ker ->
  forall c a0 g l, 1 <= rows -> 2 <= cols -> Forall (fits rows cols) l ->
  exists w lg, (r <- construct (o := o) (sampled Q) ker rows cols c a0 g ;; SweepModel.acts (o := o) rows cols (sampled Q) ker l (fst r)) = Ok (w, lg) /\
    n <> 0%R /\ (proper P (cfg w) -> amp w = (RtoC (/ n) * evolved (cfg w))%C).
Proof. exact amplitude_wrapped. Qed.
Print Assumptions c84_amplitude_of_evolved_state.
(** The energy it gives is the local energy of the Hamiltonian in the evolved state: the norms, the weights and the tensors are gone. *)
Theorem c84_xxz_energy_of_evolved_state :
  forall qr svd tol calls P, good_evolution qr svd tol calls P ->
  let Q := fst (project_all qr svd tol P calls) in let n := snd (project_all qr svd tol P calls) in
  let rows := p_rows P in let cols := p_cols P in let evolved := ProjSpec.acts rows cols calls (wave P) in
  forall D bqr bsvd, good_contraction D bqr bsvd rows cols -> bonds_at_most D Q ->
  let o := bmps_ops D bqr bsvd rows cols in
  forall (Rng : Type) (ker : kernel o Rng), honest ker ->
  spins P -> forall c a0 g l jz jxy jz2 jxy2 p holes, 2 <= rows -> 2 <= cols -> Forall (fits rows cols) l ->
  exists w lg, (r <- construct (o := o) (sampled Q) ker rows cols c a0 g ;; SweepModel.acts (o := o) rows cols (sampled Q) ker l (fst r)) = Ok (w, lg) /\
    (all_states rows cols (fun x => x < 2) (cfg w) -> evolved (cfg w) <> RtoC 0 ->
     exists w' r, j1j2_xxz_obc (o := o) (fun z => z) jz jxy jz2 jxy2 p holes (sampled Q) ker rows cols w = Ok (w', r) /\
       e_total r = local_energy 2 (rows * cols) (H_xxz rows cols jz jxy jz2 jxy2 p) (row_by_row cols evolved) (flat rows cols (cfg w)) /\
       Forall (fun z => z = (RtoC (/ n) * evolved (cfg w))%C) (e_psis r)).
Proof. exact xxz_wrapped. Qed.
Print Assumptions c84_xxz_energy_of_evolved_state.
Theorem c84_tfim_energy_of_evolved_state :
  forall qr svd tol calls P, good_evolution qr svd tol calls P ->
  let Q := fst (project_all qr svd tol P calls) in let n := snd (project_all qr svd tol P calls) in
  let rows := p_rows P in let cols := p_cols P in let evolved := ProjSpec.acts rows cols calls (wave P) in
  forall D bqr bsvd, good_contraction D bqr bsvd rows cols -> bonds_at_most D Q ->
  let o := bmps_ops D bqr bsvd rows cols in
  forall (Rng : Type) (ker : kernel o Rng), honest ker ->
  spins P -> forall c a0 g l h holes, 2 <= rows -> 2 <= cols -> Forall (fits rows cols) l ->
  exists w lg, (r <- construct (o := o) (sampled Q) ker rows cols c a0 g ;; SweepModel.acts (o := o) rows cols (sampled Q) ker l (fst r)) = Ok (w, lg) /\
    (all_states rows cols (fun x => x < 2) (cfg w) -> evolved (cfg w) <> RtoC 0 ->
     exists w' r, tfim_obc (o := o) (fun z => z) h holes (sampled Q) ker rows cols w = Ok (w', r) /\
       e_total r = local_energy 2 (rows * cols) (H_tfim rows cols h) (row_by_row cols evolved) (flat rows cols (cfg w)) /\
       Forall (fun z => z = (RtoC (/ n) * evolved (cfg w))%C) (e_psis r)).
Proof. exact tfim_wrapped. Qed.
Print Assumptions c84_tfim_energy_of_evolved_state.
(** Exact summation over a set of configurations that the Hamiltonian does not leave, with the amplitudes and energies of components
    constructed there, returns the expectation value of the Hamiltonian in the evolved state, a real number, for any number of ranks. *)
Theorem c84_exact_sum_is_expectation :
  forall qr svd tol calls P, good_evolution qr svd tol calls P ->
  let Q := fst (project_all qr svd tol P calls) in let n := snd (project_all qr svd tol P calls) in
  let rows := p_rows P in let cols := p_cols P in let evolved := ProjSpec.acts rows cols calls (wave P) in
  forall D bqr bsvd, good_contraction D bqr bsvd rows cols -> bonds_at_most D Q ->
  let o := bmps_ops D bqr bsvd rows cols in
  forall (Rng : Type) (ker : kernel o Rng), honest ker ->
  spins P -> forall (Idx : Type) jz jxy jz2 jxy2 p holes a0 gs configs dflt size (incr : list nat -> Idx -> C) measured eloc, 2 <= rows -> 2 <= cols -> 0 < size ->
  let H := H_xxz rows cols jz jxy jz2 jxy2 p in
  sector 2 (rows * cols) H configs -> (forall S, In S configs -> row_by_row cols evolved S <> RtoC 0) ->
  (forall S, In S configs -> exists w lg w' r,
     construct (o := o) (sampled Q) ker rows cols (conf cols S) a0 (gs S) = Ok (w, lg) /\ measured S = amp w /\
     j1j2_xxz_obc (o := o) (fun z => z) jz jxy jz2 jxy2 p holes (sampled Q) ker rows cols w = Ok (w', r) /\ eloc S = e_total r) ->
  exists g, exact_sum measured eloc incr configs dflt size = Ok (rayleigh configs H (row_by_row cols evolved), g) /\
    snd (rayleigh configs H (row_by_row cols evolved)) = 0%R.
Proof. exact exact_sum_wrapped. Qed.
Print Assumptions c84_exact_sum_is_expectation.

(** a gate on three sites and one on two, on 2 x 2 sites *)
Example c84_case : good_evolution ProjExample.plain_qr ProjExample.plain_svd (1/2) mixed two /\ spins two.
Proof. split; [exact mixed_good|exact two_spins]. Qed.
(** there always is a D, and a contraction for it *)
Example c84_contraction : forall P, exists D, bonds_at_most D P /\ good_contraction D BmpsMain.plain_qr BmpsMain.plain_svd (p_rows P) (p_cols P).
Proof. intros P. destruct (some_bond P) as (D & D1 & H). exists D. split; [exact H|]. apply some_contraction. exact D1. Qed.
(** a state with no amplitude zero, and all configurations of four sites *)
Example c84_sum_case : good_evolution ProjExample.plain_qr ProjExample.plain_svd (1/2) flip plus /\ spins plus /\
  (forall jz jxy jz2 jxy2 p, sector 2 4 (H_xxz 2 2 jz jxy jz2 jxy2 p) (all_configs 2 4)) /\ forall S, In S (all_configs 2 4) -> row_by_row 2 (ProjSpec.acts 2 2 flip (wave plus)) S <> RtoC 0.
Proof. split; [exact flip_good|]. split; [exact plus_spins|]. split; [exact all_sector|exact flip_everywhere]. Qed.
