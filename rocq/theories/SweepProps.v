(** Properties of the open-boundary sweeps, bond traversals and environment caches. *)
From Coq Require Import List Arith Lia Bool ZArith QArith.
From Verif Require Import Base ContractorModel ContractorSpec SweepModel SweepSpec HistoryProofs SweepMain HistoryMain ProductInstance.
From Verif Require SweepProofs.
Import ListNotations.
Local Open Scope nat_scope.

(** *** C01 *)
(** One nearest-neighbour sweep tries every bond of the lattice exactly once, whatever the
    updater decides, and the reported rate is accepted/bonds in [0,1]. *)
Theorem c01_nn_sweep_covers_bonds :
  forall (o : ops) (Rng : Type) (rows cols : nat) (tps : sitps o) (ker : kernel o Rng) (w : wst o Rng),
  2 <= rows -> 2 <= cols -> ready o rows cols w ->
  exists w' lg, run o tps ker (sweep_nn_obc rows cols) w = Ok (w', lg) /\
    NoDup (tried lg) /\ (forall x, In x (tried lg) <-> lattice_chain rows cols 2 x) /\
    length (tried lg) = bond_num_nn rows cols /\
    (0 <= accept_rate (accepted lg) (bond_num_nn rows cols))%Q /\
    (accept_rate (accepted lg) (bond_num_nn rows cols) <= 1)%Q.
Proof. exact sweep_nn_covers. Qed.
Print Assumptions c01_nn_sweep_covers_bonds.

(** On lattices with one row or one column the same sweep leaves the defined language. *)
Theorem c01_narrow_lattice_undefined :
  forall (o : ops) (Rng : Type) (rows cols : nat) (tps : sitps o) (ker : kernel o Rng) (w : wst o Rng),
  1 <= rows -> 1 <= cols -> rows < 2 \/ cols < 2 -> ready o rows cols w ->
  run o tps ker (sweep_nn_obc rows cols) w = Fail UB.
Proof. exact nn_narrow. Qed.
Print Assumptions c01_narrow_lattice_undefined.

(** *** C02 *)
Theorem c02_three_site_sweep_covers_triples :
  forall (o : ops) (Rng : Type) (rows cols : nat) (tps : sitps o) (ker : kernel o Rng) (w : wst o Rng),
  3 <= rows -> 3 <= cols -> ready o rows cols w ->
  exists w' lg, run o tps ker (sweep_tnn_obc rows cols) w = Ok (w', lg) /\
    NoDup (tried lg) /\ (forall x, In x (tried lg) <-> lattice_chain rows cols 3 x) /\
    length (tried lg) = total_flip_num_tnn rows cols /\
    (0 <= accept_rate (accepted lg) (total_flip_num_tnn rows cols))%Q /\
    (accept_rate (accepted lg) (total_flip_num_tnn rows cols) <= 1)%Q.
Proof. exact sweep_tnn_covers. Qed.
Print Assumptions c02_three_site_sweep_covers_triples.

(** A usable component exists for every lattice with two columns or more: a constructed one. *)
Example ready_states_exist : forall rows cols, 1 <= rows -> 2 <= cols ->
  exists (w : wst prod_ops unit), ready prod_ops rows cols w.
Proof.
  intros rows cols Hr Hc.
  destruct (construct_ok prod_ops unit rows cols (fun r c n => Z.of_nat (1 + r + c + n)) no_kernel (fun _ _ => 0) 1%Z tt Hr Hc)
    as (w & lg & _ & R & _). exists w. exact R.
Qed.
(** A concrete run: constructing a component on a 3 x 4 lattice and sweeping it tries 17 bonds. *)
Example c01_concrete :
  match construct (o := free_ops) free_tps no_kernel 3 4 (fun _ _ => 0) (TTen 0) tt with
  | Ok (w, _) => match run free_ops free_tps no_kernel (sweep_nn_obc 3 4) w with
                 | Ok (_, lg) => length (tried lg) = 17 | Fail _ => False end
  | Fail _ => False
  end.
Proof. vm_compute. reflexivity. Qed.
Example c02_concrete :
  match construct (o := free_ops) free_tps no_kernel 3 4 (fun _ _ => 0) (TTen 0) tt with
  | Ok (w, _) => match run free_ops free_tps no_kernel (sweep_tnn_obc 3 4) w with
                 | Ok (_, lg) => length (tried lg) = 10 | Fail _ => False end
  | Fail _ => False
  end.
Proof. vm_compute. reflexivity. Qed.

(** *** C08 *)
(** A component constructed from any state and configuration and taken through any history
    of sweeps, traversals, energy evaluations, re-evaluations and configuration replacements
    holds the projection of the state onto its configuration and the amplitude of that
    network, if the contraction is consistent (exact) and updaters report the trace of what
    they propose. *)
Theorem c08_amplitude_belongs_to_configuration :
  forall (o : ops) (Rng : Type) (rows cols : nat) (tps : sitps o) (ker : kernel o Rng) (psi : net o -> Amp o),
  contraction_consistent o rows cols psi -> honest ker ->
  forall c a0 g l, 1 <= rows -> 2 <= cols -> Forall (fits rows cols) l ->
  exists w lg, (r <- construct tps ker rows cols c a0 g ;; acts rows cols tps ker l (fst r)) = Ok (w, lg) /\
    projected o rows cols tps (cfg w) (tn w) /\ amp w = psi (tn w).
Proof. exact component_life_coh. Qed.
Print Assumptions c08_amplitude_belongs_to_configuration.

(** The consistency hypothesis holds for product states of every lattice size. *)
Example c08_consistent_contraction_exists : forall rows cols,
  contraction_consistent prod_ops rows cols (prod_psi rows cols).
Proof. exact prod_consistent. Qed.
(** Swap the two ends of the chain and report the trace. *)
Definition swap_kernel {o} : kernel o unit := fun olds a tr g => (Some (rev olds, tr (rev olds)), g).
Example c08_honest_kernel_exists : forall o, honest (@swap_kernel o).
Proof.
  intros o olds a tr g ns b g' E. inversion E; subst. split; [apply rev_length|reflexivity].
Qed.
Example c08_concrete :
  match (r <- construct (o := prod_ops) (fun r c n => Z.of_nat (1 + 3 * r + c + 5 * n)) swap_kernel 3 3
           (fun r c => r * c) 1%Z tt ;;
         acts (o := prod_ops) 3 3 (fun r c n => Z.of_nat (1 + 3 * r + c + 5 * n)) swap_kernel
           [Do NNSweep; Do (Energy true true); ReplaceGlobalConfig (fun r c => r + c); Do TNNSweep] (fst r)) with
  | Ok (w, lg) => amp w = prod_psi 3 3 (tn w) /\ 0 < accepted lg
  | Fail _ => False
  end.
Proof. vm_compute. split; [reflexivity|lia]. Qed.

(** *** C09 *)
(** Whatever calls are made on a component, in whatever order, every boundary MPS in the
    cache is the one obtained from scratch from the current network. *)
Theorem c09_boundary_mps_never_stale :
  forall (o : ops) (Rng : Type) (tps : sitps o) (ker : kernel o Rng) (rows cols : nat) (l : list cmd)
         (c : nat -> nat -> nat) (a0 : Amp o) (g : Rng) (w : wst o Rng) (lg : list (event o)),
  run o tps ker l (new_component o tps rows cols c a0 g) = Ok (w, lg) ->
  bm_fresh o (tn w) (ctr w).
Proof. exact new_component_fresh. Qed.
Print Assumptions c09_boundary_mps_never_stale.

(** *** C10 *)
(** Boundary tensors of the updated row (column) that survive an update are still right. *)
Theorem c10_kept_boundary_tensors_valid :
  forall (o : ops) (tn : net o) (c : con o) (p : pos) (s : nat) (x : site) (t : Ten o),
  fst x < rows_ c -> snd x < cols_ c ->
  s = across (match p with LEFT | RIGHT => HORIZONTAL | _ => VERTICAL end) x ->
  bt_fresh o tn c p s -> bt_fresh o (upd2 tn x t) (erase_envs_after_update o x c) p s.
Proof. exact bt_kept. Qed.
Print Assumptions c10_kept_boundary_tensors_valid.

(** For another row they need not be: a history of ordinary calls whose last read returns an
    environment that is not the one of the current network. *)
Theorem c10_other_rows_refuted :
  exists (o : ops) (Rng : Type) (tps : sitps o) (ker : kernel o Rng) (rows cols : nat) (l : list cmd)
    (c : nat -> nat -> nat) (a0 : Amp o) (g : Rng) w lg,
  run o tps ker l (new_component o tps rows cols c a0 g) = Ok (w, lg) /\ ~ log_fresh o rows cols lg.
Proof. exact stale_read_exists. Qed.
Print Assumptions c10_other_rows_refuted.

(** *** C11 *)
Theorem c11_traversal_visits_every_bond :
  forall (o : ops) (Rng : Type) (rows cols : nat) (tps : sitps o) (ker : kernel o Rng) (nnn : bool) (w : wst o Rng),
  2 <= rows -> 2 <= cols -> ready o rows cols w ->
  exists w' lg, run o tps ker (traverse_all nnn rows cols) w = Ok (w', lg) /\
    ready o rows cols w' /\ log_fresh o rows cols lg /\
    NoDup (visited lg) /\ (forall v, In v (visited lg) <-> lattice_visit rows cols false nnn v).
Proof. exact traverse_covers. Qed.
Print Assumptions c11_traversal_visits_every_bond.

Theorem c11_energy_pass_visits_every_bond_and_site :
  forall (o : ops) (Rng : Type) (rows cols : nat) (tps : sitps o) (ker : kernel o Rng) (holes nnn : bool) (w : wst o Rng),
  2 <= rows -> 2 <= cols -> ready o rows cols w ->
  exists w' lg, run o tps ker (cal_energy_and_holes holes nnn rows cols) w = Ok (w', lg) /\
    ready o rows cols w' /\ log_fresh o rows cols lg /\
    NoDup (visited lg) /\ (forall v, In v (visited lg) <-> lattice_visit rows cols holes nnn v).
Proof. exact energy_covers. Qed.
Print Assumptions c11_energy_pass_visits_every_bond_and_site.

Theorem c11_one_row_undefined :
  forall (o : ops) (Rng : Type) (rows cols : nat) (tps : sitps o) (ker : kernel o Rng) (nnn : bool) (w : wst o Rng),
  rows = 1 -> 2 <= cols -> ready o rows cols w ->
  run o tps ker (traverse_all nnn rows cols) w = Fail UB.
Proof. exact traverse_narrow_rows. Qed.
Print Assumptions c11_one_row_undefined.
Theorem c11_one_column_undefined :
  forall (o : ops) (Rng : Type) (rows cols : nat) (tps : sitps o) (ker : kernel o Rng) (w : wst o Rng),
  1 <= rows -> cols = 1 -> ready o rows cols w ->
  run o tps ker evaluate_amplitude w = Fail UB.
Proof. exact evaluate_narrow. Qed.
Print Assumptions c11_one_column_undefined.
Example one_wide_ready : ready prod_ops 1 3 (new_component prod_ops (fun r c n => 1%Z) 1 3 (fun _ _ => 0) 1%Z tt) /\
  ready prod_ops 3 1 (new_component prod_ops (fun r c n => 1%Z) 3 1 (fun _ _ => 0) 1%Z tt).
Proof.
  split; [eapply (init_ready prod_ops unit 1 3 _ (new_con prod_ops 1 3))|eapply (init_ready prod_ops unit 3 1 _ (new_con prod_ops 3 1))];
    try reflexivity; lia.
Qed.

(** *** C12 *)
Theorem c12_sweep_reads_fresh_environments :
  forall (o : ops) (Rng : Type) (rows cols : nat) (tps : sitps o) (ker : kernel o Rng) (w : wst o Rng),
  2 <= rows -> 2 <= cols -> ready o rows cols w ->
  exists w' lg, run o tps ker (sweep_nn_obc rows cols) w = Ok (w', lg) /\
    ready o rows cols w' /\ log_fresh o rows cols lg.
Proof. exact sweep_nn_fresh. Qed.
Print Assumptions c12_sweep_reads_fresh_environments.
Theorem c12_three_site_sweep_reads_fresh_environments :
  forall (o : ops) (Rng : Type) (rows cols : nat) (tps : sitps o) (ker : kernel o Rng) (w : wst o Rng),
  3 <= rows -> 3 <= cols -> ready o rows cols w ->
  exists w' lg, run o tps ker (sweep_tnn_obc rows cols) w = Ok (w', lg) /\
    ready o rows cols w' /\ log_fresh o rows cols lg.
Proof. exact sweep_tnn_fresh. Qed.
Print Assumptions c12_three_site_sweep_reads_fresh_environments.
(** Any history of the supported routines on a freshly constructed component. *)
Theorem c12_any_history_reads_fresh_environments :
  forall (o : ops) (Rng : Type) (rows cols : nat) (tps : sitps o) (ker : kernel o Rng)
         c a0 g (l : list action), 1 <= rows -> 2 <= cols -> Forall (fits rows cols) l ->
  exists w lg, (r <- construct tps ker rows cols c a0 g ;; acts rows cols tps ker l (fst r)) = Ok (w, lg) /\
    ready o rows cols w /\ log_fresh o rows cols lg.
Proof. exact component_life. Qed.
Print Assumptions c12_any_history_reads_fresh_environments.
(** The log of a sweep is not empty: one read per bond. *)
Example c12_log_not_empty :
  match construct (o := free_ops) free_tps no_kernel 3 4 (fun _ _ => 0) (TTen 0) tt with
  | Ok (w, _) => match run free_ops free_tps (swap_kernel) (sweep_nn_obc 3 4) w with
                 | Ok (_, lg) => length (reads lg) = 17 /\ accepted lg = 17 | Fail _ => False end
  | Fail _ => False
  end.
Proof. vm_compute. split; reflexivity. Qed.
