(** Periodic components: every history, the moves, the energies. *)
From Coq Require Import List Arith Bool Reals Lia Lra.
From Verif Require Import Base Cplx ContractorModel SweepModel UpdaterModel UpdaterSpec EnergyModel EnergySpec PbcModel PbcSpec TrgModel TrgSpec TrgTensor TrgExactSpec TrgExact TrgHoleEx.
From Verif Require Import ProjModel ProjSpec ProjNullSpec ProjExample PipeModel PipeSpec PipeExample TorusModel TorusSpec TorusMain TorusEnergy TorusExact TorusExample.
Import ListNotations.
Local Open Scope nat_scope.

(** *** C86 *)
(** A component is built on every configuration of a square torus whose side is 2^m or 3*2^m, and on no other. *)
Theorem c86_build :
  forall o Rng n p tps, trg_size n -> forall dim c, all_states n n (fun x => x < dim) c ->
  exists w, build o n p tps c = Ok w /\ reachable o Rng n p tps dim w /\ k_cfg w = c.
Proof. exact build_succeeds. Qed.
Print Assumptions c86_build.
Theorem c86_build_refuses :
  forall o n (p : Prm o) tps c, ~ trg_size n -> build o n p tps c = Fail Throw.
Proof. exact build_refuses. Qed.
Print Assumptions c86_build_refuses.
(** Whatever has happened to a component, its tensors, contractor and amplitude are those of one newly built on its configuration, now and for
    every change of sites that is tried next. *)
Theorem c86_in_step :
  forall o Rng n p tps, trg_size n -> forall dim w, reachable o Rng n p tps dim w ->
  in_step o n p tps w /\ all_states n n (fun x => x < dim) (k_cfg w).
Proof. exact reachable_in_step. Qed.
Print Assumptions c86_in_step.
(** It can be put on any other configuration. *)
Theorem c86_replace :
  forall o Rng n p tps, trg_size n -> forall dim w c, reachable o Rng n p tps dim w -> all_states n n (fun x => x < dim) c ->
  exists w', replace_global o n p tps w c = Ok w' /\ reachable o Rng n p tps dim w' /\ k_cfg w' = c.
Proof. exact replace_succeeds. Qed.
Print Assumptions c86_replace.
(** A sweep with the incremental contractor makes the moves, draws and acceptances of the sweep that contracts every trial from the start. *)
Theorem c86_exchange_sweep :
  forall o Rng n p tps, trg_size n -> forall dim w trial accept draw g z,
  reachable o Rng n p tps dim w -> new_amplitude o n p tps trial -> draws_inside Rng n draw ->
  exists w' g' k, sweep_nn_trg o Rng n (exchange_trg o Rng p tps accept) draw w g = Ok (w', g', k) /\ reachable o Rng n p tps dim w' /\
    sweep_nn_pbc (only_amplitudes o z) Rng n n draw trial (exchange_kernel (only_amplitudes o z) Rng accept) (@mkP (only_amplitudes o z) Rng (k_cfg w) (k_amp w) g)
      = (@mkP (only_amplitudes o z) Rng (k_cfg w') (k_amp w') g', k).
Proof. exact exchange_sweep. Qed.
Print Assumptions c86_exchange_sweep.
Theorem c86_full_space_sweep :
  forall o Rng n p tps, trg_size n -> forall dim w trial choose draw g z,
  reachable o Rng n p tps dim w -> new_amplitude o n p tps trial -> draws_inside Rng n draw ->
  exists w' g' k, sweep_nn_trg o Rng n (full_space_trg o Rng p tps dim choose) draw w g = Ok (w', g', k) /\ reachable o Rng n p tps dim w' /\
    sweep_nn_pbc (only_amplitudes o z) Rng n n draw trial (full_space_kernel (only_amplitudes o z) Rng dim choose) (@mkP (only_amplitudes o z) Rng (k_cfg w) (k_amp w) g)
      = (@mkP (only_amplitudes o z) Rng (k_cfg w') (k_amp w') g', k).
Proof. exact full_sweep. Qed.
Print Assumptions c86_full_space_sweep.
(** there are such trial amplitudes *)
Theorem c86_amplitudes_exist :
  forall o n p tps, trg_size n -> exists trial, new_amplitude o n p tps trial.
Proof. exact amplitudes_exist. Qed.
Print Assumptions c86_amplitudes_exist.
(** The energies of any component are the local energies of the Hamiltonian on the torus in the wave function that new contractors give;
    taking them leaves the component as it was. *)
Theorem c86_energies :
  forall svd Rng n p tps, trg_size n -> forall w, reachable (tensor_ops svd) Rng n p tps 2 w -> 2 <= n -> k_amp w <> RtoC 0 ->
  let wt := (if n =? 2 then 2 else 1)%R in
  (forall jz jxy jz2 jxy2 pin, trg_xxz_energy svd n p tps jz jxy jz2 jxy2 pin w =
     Ok (w, local_energy 2 (n * n) (H_xxz_torus n n wt wt jz jxy jz2 jxy2 pin) (torus_wave (trg_contract svd p n) tps n) (UpdaterSpec.flat n n (k_cfg w)))) /\
  (forall jz jxy, trg_heisenberg_energy svd n p tps jz jxy w =
     Ok (w, local_energy 2 (n * n) (H_xxz_torus n n wt wt jz jxy 0 0 0) (torus_wave (trg_contract svd p n) tps n) (UpdaterSpec.flat n n (k_cfg w)))).
Proof. exact energies_local. Qed.
Print Assumptions c86_energies.
Theorem c86_zero_amplitude :
  forall svd Rng n p tps, trg_size n -> forall w, reachable (tensor_ops svd) Rng n p tps 2 w -> k_amp w = RtoC 0 ->
  (forall jz jxy jz2 jxy2 pin, trg_xxz_energy svd n p tps jz jxy jz2 jxy2 pin w = Fail UB) /\
  (forall jz jxy, trg_heisenberg_energy svd n p tps jz jxy w = Fail UB) /\ (forall h, trg_tfim_energy svd n p tps h w = Fail UB).
Proof. exact zero_amplitude. Qed.
Print Assumptions c86_zero_amplitude.
(** The transverse field goes through the holes: right for the two smallest sides, *)
Theorem c86_tfim_small :
  forall svd Rng n p tps, trg_size n -> forall w, reachable (tensor_ops svd) Rng n p tps 2 w ->
  (forall c, all_states n n (fun x => x < 2) c -> closes n (fun r k => tps r k (c r k))) ->
  forall h, n = 2 \/ n = 3 -> (forall r c, r < n -> c < n -> shape (tps r c 0) = shape (tps r c 1)) -> k_amp w <> RtoC 0 ->
  let wt := (if n =? 2 then 2 else 1)%R in
  trg_tfim_energy svd n p tps h w =
    Ok (w, local_energy 2 (n * n) (H_tfim_torus n n wt wt h) (torus_wave (trg_contract svd p n) tps n) (UpdaterSpec.flat n n (k_cfg w))).
Proof. exact tfim_local. Qed.
Print Assumptions c86_tfim_small.
(** and wrong for side 4, although every decomposition loses nothing and the amplitude is exact. *)
Theorem c86_tfim_refuted :
  exists w e, reachable (tensor_ops rank_one_svd) unit 4 ex_trunc ex_tps 2 w /\ TrgExactSpec.lossless rank_one_svd (k_trg w) /\
  (forall c, all_states 4 4 (fun x => x < 2) c -> closes 4 (fun r k => ex_tps r k (c r k))) /\
  k_amp w = torus_sum 4 (fun r k => ex_tps r k (k_cfg w r k)) /\ k_amp w <> RtoC 0 /\
  trg_tfim_energy rank_one_svd 4 ex_trunc ex_tps 1 w = Ok (w, e) /\
  e <> local_energy 2 16 (H_tfim_torus 4 4 1 1 1) (torus_wave (torus_sum 4) ex_tps 4) (UpdaterSpec.flat 4 4 (k_cfg w)).
Proof. exact tfim_side4. Qed.
Print Assumptions c86_tfim_refuted.
(** With exact decompositions the amplitude is the sum over all the bonds of the torus, *)
Theorem c86_exact_amplitude :
  forall svd Rng n p tps, trg_size n -> exact_svd svd p -> forall dim,
  (forall c, all_states n n (fun x => x < dim) c -> closes n (fun r k => tps r k (c r k))) ->
  forall w, reachable (tensor_ops svd) Rng n p tps dim w -> k_amp w = torus_sum n (fun r k => tps r k (k_cfg w r k)).
Proof. exact exact_amplitude. Qed.
Print Assumptions c86_exact_amplitude.
(** and, for the tensors of a periodic PEPS after any projections, the amplitude of the evolved state divided by the product of the norms; *)
Theorem c86_evolved_amplitude :
  forall qr psvd tol calls P, good_torus_evolution qr psvd tol calls P -> forall svd Rng p, exact_svd svd p -> trg_size (p_rows P) ->
  let Q := fst (project_all qr psvd tol P calls) in let norm := snd (project_all qr psvd tol P calls) in
  forall dim w, reachable (tensor_ops svd) Rng (p_rows P) p (to_split_index Q) dim w ->
  norm <> 0%R /\ (proper P (k_cfg w) -> k_amp w = (RtoC (/ norm) * ProjSpec.acts (p_rows P) (p_cols P) calls (wave P) (k_cfg w))%C).
Proof. exact evolved_amplitude. Qed.
Print Assumptions c86_evolved_amplitude.
(** the energies are the local energies of the Hamiltonians in the evolved state. *)
Theorem c86_evolved_energies :
  forall qr psvd tol calls P, good_torus_evolution qr psvd tol calls P -> forall svd Rng p, exact_svd svd p -> trg_size (p_rows P) ->
  let Q := fst (project_all qr psvd tol P calls) in let n := p_rows P in let evolved := ProjSpec.acts (p_rows P) (p_cols P) calls (wave P) in
  forall w, spins P -> 2 <= n -> reachable (tensor_ops svd) Rng n p (to_split_index Q) 2 w -> evolved (k_cfg w) <> RtoC 0 ->
  let wt := (if n =? 2 then 2 else 1)%R in
  (forall jz jxy jz2 jxy2 pin, trg_xxz_energy svd n p (to_split_index Q) jz jxy jz2 jxy2 pin w =
     Ok (w, local_energy 2 (n * n) (H_xxz_torus n n wt wt jz jxy jz2 jxy2 pin) (row_by_row n evolved) (UpdaterSpec.flat n n (k_cfg w)))) /\
  (forall jz jxy, trg_heisenberg_energy svd n p (to_split_index Q) jz jxy w =
     Ok (w, local_energy 2 (n * n) (H_xxz_torus n n wt wt jz jxy 0 0 0) (row_by_row n evolved) (UpdaterSpec.flat n n (k_cfg w)))) /\
  (n = 2 \/ n = 3 -> forall h, trg_tfim_energy svd n p (to_split_index Q) h w =
     Ok (w, local_energy 2 (n * n) (H_tfim_torus n n wt wt h) (row_by_row n evolved) (UpdaterSpec.flat n n (k_cfg w)))).
Proof. exact evolved_energies. Qed.
Print Assumptions c86_evolved_energies.

(** A case: side 4, every spin in the sum of its two states, a gate that exchanges states of two neighbours; all conditions hold, every
    component has an amplitude other than zero, and a sweep may draw any bond. *)
Example c86_case : forall p : trunc,
  good_torus_evolution ProjExample.plain_qr ProjExample.plain_svd (1/2) flip ring4 /\ exact_svd TrgExact.plain_svd p /\ trg_size (p_rows ring4) /\ spins ring4 /\
  draws_inside nat 4 (fun g => (((g / 4) mod 4, g mod 4, if Nat.even g then HORIZONTAL else VERTICAL), S g)) /\
  exists w, reachable (tensor_ops TrgExact.plain_svd) nat 4 p (to_split_index (fst (project_all ProjExample.plain_qr ProjExample.plain_svd (1/2) ring4 flip))) 2 w /\
    ProjSpec.acts 4 4 flip (wave ring4) (k_cfg w) = RtoC 1.
Proof.
  intros p. split; [exact ring4_good|]. split; [apply TrgExact.plain_exact|]. assert (S4 : trg_size 4) by exact ex_size. split; [exact S4|]. split; [exact ring4_spins|]. split.
  { intros g. cbn [fst snd]. split; apply Nat.mod_upper_bound; lia. }
  assert (B : all_states 4 4 (fun x => x < 2) (fun _ c => c mod 2)) by (intros r c _ _; apply Nat.mod_upper_bound; lia).
  destruct (build_succeeds (tensor_ops TrgExact.plain_svd) nat 4 p (to_split_index (fst (project_all ProjExample.plain_qr ProjExample.plain_svd (1/2) ring4 flip))) S4 2 _ B) as (w & _ & R & E).
  exists w. split; [exact R|]. rewrite E. apply ring4_value. intros r c _ _. cbn. apply (Nat.mod_upper_bound c 2). lia.
Qed.
(** A side that is refused. *)
Example c86_refused_side : ~ trg_size 5.
Proof. intros [m [H|H]]; destruct m as [|[|[|m]]]; cbn in H; lia. Qed.
