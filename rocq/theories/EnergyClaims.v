(** Final forms of the energy lemmas, and models of their hypotheses. *)
From Coq Require Import List Arith Lia Bool Reals Permutation Lra ZArith.
From Verif Require Import Base ContractorModel ContractorSpec ContractorProofs SweepModel SweepSpec SweepProofs
  HistoryProofs SweepMain HistoryMain UpdaterSpec UpdaterChain BlockChain ProductInstance Cplx EnergyModel EnergySpec EnergyProofs EnergySum EnergyMain
  EnergyModels EnergyHoles ExactInstance FermionSigns FermionMain FermionModels FermionEnergy.
Import ListNotations.
Local Open Scope nat_scope.

Section Claims.
Context (o : ops) (val : Amp o -> C) (Rng : Type) (rows cols : nat) (tps : sitps o) (ker : kernel o Rng).
Hypothesis Hr : 2 <= rows.
Hypothesis Hc : 2 <= cols.
Lemma j1j2_claim psi jz jxy jz2 jxy2 p holes (w : wst o Rng) :
  contraction_consistent o rows cols psi -> contraction_consistent2 o rows cols psi ->
  ready o rows cols w -> projected o rows cols tps (cfg w) (tn w) -> all_states rows cols (fun x => x < 2) (cfg w) ->
  wave o val cols psi tps (flat rows cols (cfg w)) <> RtoC 0 ->
  exists w' r, j1j2_xxz_obc val jz jxy jz2 jxy2 p holes tps ker rows cols w = Ok (w', r) /\
    e_total r = local_energy 2 (rows * cols) (H_xxz rows cols jz jxy jz2 jxy2 p) (wave o val cols psi tps) (flat rows cols (cfg w)) /\
    Forall (fun z => z = wave o val cols psi tps (flat rows cols (cfg w))) (e_psis r) /\
    ready o rows cols w' /\ cfg w' = cfg w /\ tn w' = tn w /\ amp w' = amp w /\ rng w' = rng w.
Proof. intros H1 H2 Hw HP HS HZ. destruct (j1j2_energy o val Rng rows cols tps ker psi jz jxy jz2 jxy2 p holes w) as (w' & r & E & T & _ & R); auto. exists w', r. auto. Qed.
Lemma xxz_claim psi jz jxy p holes (w : wst o Rng) :
  contraction_consistent o rows cols psi ->
  ready o rows cols w -> projected o rows cols tps (cfg w) (tn w) -> all_states rows cols (fun x => x < 2) (cfg w) ->
  wave o val cols psi tps (flat rows cols (cfg w)) <> RtoC 0 ->
  exists w' r, xxz_obc val jz jxy p holes tps ker rows cols w = Ok (w', r) /\
    e_total r = local_energy 2 (rows * cols) (H_xxz rows cols jz jxy 0 0 p) (wave o val cols psi tps) (flat rows cols (cfg w)) /\
    Forall (fun z => z = wave o val cols psi tps (flat rows cols (cfg w))) (e_psis r) /\
    ready o rows cols w' /\ cfg w' = cfg w /\ tn w' = tn w /\ amp w' = amp w /\ rng w' = rng w.
Proof. intros H1 Hw HP HS HZ. destruct (xxz_energy o val Rng rows cols tps ker psi jz jxy p holes w) as (w' & r & E & T & _ & R); auto. exists w', r. auto. Qed.
Lemma tfim_claim psi h holes (w : wst o Rng) :
  contraction_consistent o rows cols psi ->
  ready o rows cols w -> projected o rows cols tps (cfg w) (tn w) -> all_states rows cols (fun x => x < 2) (cfg w) ->
  wave o val cols psi tps (flat rows cols (cfg w)) <> RtoC 0 ->
  exists w' r, tfim_obc val h holes tps ker rows cols w = Ok (w', r) /\
    e_total r = local_energy 2 (rows * cols) (H_tfim rows cols h) (wave o val cols psi tps) (flat rows cols (cfg w)) /\
    Forall (fun z => z = wave o val cols psi tps (flat rows cols (cfg w))) (e_psis r) /\
    ready o rows cols w' /\ cfg w' = cfg w /\ tn w' = tn w /\ amp w' = amp w /\ rng w' = rng w.
Proof. intros H1 Hw HP HS HZ. destruct (tfim_energy o val Rng rows cols tps ker psi h holes w) as (w' & r & E & T & _ & R); auto. exists w', r. auto. Qed.

Lemma spin_holes_claim psi plug jz jxy jz2 jxy2 p h (w : wst o Rng) :
  contraction_consistent o rows cols psi -> contraction_consistent2 o rows cols psi -> plugs o rows cols plug ->
  ready o rows cols w -> projected o rows cols tps (cfg w) (tn w) -> all_states rows cols (fun x => x < 2) (cfg w) ->
  wave o val cols psi tps (flat rows cols (cfg w)) <> RtoC 0 ->
  (exists w' r, j1j2_xxz_obc val jz jxy jz2 jxy2 p true tps ker rows cols w = Ok (w', r) /\
    Permutation (map fst (e_holes r)) (all_sites rows cols) /\
    forall s hole, In (s, hole) (e_holes r) -> forall t, plug hole t = psi (upd2 (tn w) s t)) /\
  (exists w' r, xxz_obc val jz jxy p true tps ker rows cols w = Ok (w', r) /\
    Permutation (map fst (e_holes r)) (all_sites rows cols) /\
    forall s hole, In (s, hole) (e_holes r) -> forall t, plug hole t = psi (upd2 (tn w) s t)) /\
  (exists w' r, tfim_obc val h true tps ker rows cols w = Ok (w', r) /\
    Permutation (map fst (e_holes r)) (all_sites rows cols) /\
    forall s hole, In (s, hole) (e_holes r) -> forall t, plug hole t = psi (upd2 (tn w) s t)).
Proof.
  intros H1 H2 HH Hw HP HS HZ. split; [|split].
  - destruct (j1j2_energy o val Rng rows cols tps ker psi jz jxy jz2 jxy2 p true w) as (w' & r & E & _ & T & _); auto. exists w', r. rewrite T.
    split; [exact E|]. apply holes_derivative; auto.
  - destruct (xxz_energy o val Rng rows cols tps ker psi jz jxy p true w) as (w' & r & E & _ & T & _); auto. exists w', r. rewrite T.
    split; [exact E|]. apply holes_derivative; auto.
  - destruct (tfim_energy o val Rng rows cols tps ker psi h true w) as (w' & r & E & _ & T & _); auto. exists w', r. rewrite T.
    split; [exact E|]. apply tfim_holes_derivative; auto.
Qed.

Lemma hubbard_claim Psi t U mu holes (w : wst o Rng) :
  (forall v, lattice_visit rows cols false false v -> fermionic_window o val rows cols 4 tps occ_hubbard Psi v) ->
  ready o rows cols w -> projected o rows cols tps (cfg w) (tn w) -> all_states rows cols (fun x => x < 4) (cfg w) ->
  Psi (flat rows cols (cfg w)) <> RtoC 0 ->
  exists w' r, fermion_energy val (hubbard_model t U mu) false holes tps ker rows cols w = Ok (w', r) /\
    e_total r = local_energy 4 (rows * cols) (H_hubbard rows cols t U mu) Psi (flat rows cols (cfg w)) /\
    ready o rows cols w' /\ cfg w' = cfg w /\ tn w' = tn w /\ amp w' = amp w /\ rng w' = rng w.
Proof. intros HW Hw HP HS HZ. destruct (hubbard_energy o val Rng rows cols tps ker Psi Hr Hc t U mu holes w) as (w' & r & E & T & _ & R); auto. exists w', r. auto. Qed.
Lemma spinless_claim Psi t t2 V holes (w : wst o Rng) :
  (forall v, lattice_visit rows cols false true v -> fermionic_window o val rows cols 2 tps occ_spinless Psi v) ->
  ready o rows cols w -> projected o rows cols tps (cfg w) (tn w) -> all_states rows cols (fun x => x < 2) (cfg w) ->
  Psi (flat rows cols (cfg w)) <> RtoC 0 ->
  exists w' r, fermion_energy val (spinless_model t t2 V) true holes tps ker rows cols w = Ok (w', r) /\
    e_total r = local_energy 2 (rows * cols) (H_spinless rows cols t t2 V) Psi (flat rows cols (cfg w)) /\
    ready o rows cols w' /\ cfg w' = cfg w /\ tn w' = tn w /\ amp w' = amp w /\ rng w' = rng w.
Proof. intros HW Hw HP HS HZ. destruct (spinless_energy o val Rng rows cols tps ker Psi Hr Hc t t2 V holes w) as (w' & r & E & T & _ & R); auto. exists w', r. auto. Qed.
Lemma tj_claim Psi t t2 J V mu holes (w : wst o Rng) :
  (forall v, lattice_visit rows cols false true v -> fermionic_window o val rows cols 3 tps occ_tj Psi v) ->
  ready o rows cols w -> projected o rows cols tps (cfg w) (tn w) -> all_states rows cols (fun x => x < 3) (cfg w) ->
  Psi (flat rows cols (cfg w)) <> RtoC 0 ->
  exists w' r, fermion_energy val (tj_model t t2 J V mu None) true holes tps ker rows cols w = Ok (w', r) /\
    e_total r = local_energy 3 (rows * cols) (H_tj rows cols t t2 J V mu []) Psi (flat rows cols (cfg w)) /\
    ready o rows cols w' /\ cfg w' = cfg w /\ tn w' = tn w /\ amp w' = amp w /\ rng w' = rng w.
Proof. intros HW Hw HP HS HZ. destruct (tj_energy o val Rng rows cols tps ker Psi Hr Hc t t2 J V mu None [] holes w) as (w' & r & E & T & _ & R); simpl; auto. exists w', r. auto. Qed.
Lemma tj_pinned_claim Psi t t2 J V mu holes a b delta p (w : wst o Rng) :
  In (a, b) (pairs rows cols nearest) -> set_pinning a b delta = Ok p \/ set_pinning b a delta = Ok p ->
  (forall v, lattice_visit rows cols false true v -> fermionic_window o val rows cols 3 tps occ_tj Psi v) ->
  ready o rows cols w -> projected o rows cols tps (cfg w) (tn w) -> all_states rows cols (fun x => x < 3) (cfg w) ->
  Psi (flat rows cols (cfg w)) <> RtoC 0 ->
  exists w' r, fermion_energy val (tj_model t t2 J V mu (Some p)) true holes tps ker rows cols w = Ok (w', r) /\
    e_total r = local_energy 3 (rows * cols) (H_tj rows cols t t2 J V mu [(a, b, delta)]) Psi (flat rows cols (cfg w)) /\
    ready o rows cols w' /\ cfg w' = cfg w /\ tn w' = tn w /\ amp w' = amp w /\ rng w' = rng w.
Proof.
  intros Hab Hp HW Hw HP HS HZ.
  assert (N : nearest a b = true) by (unfold pairs in Hab; apply filter_In in Hab; apply Hab).
  destruct (set_pinning_spec rows cols Hr Hc a b delta p N Hp) as (d & s & -> & Es).
  destruct (tj_energy o val Rng rows cols tps ker Psi Hr Hc t t2 J V mu (Some (d, s, delta)) [(a, b, delta)] holes w) as (w' & r & E & T & _ & R); simpl; auto.
  exists w', r. auto.
Qed.
End Claims.

(** *** Models of the hypotheses *)
Definition read (rows cols : nat) (n : nat -> nat -> nat) : list nat := flat rows cols n.
Lemma flat_same rows cols a b : same_lattice nat rows cols a b -> flat rows cols a = flat rows cols b.
Proof. intros H. unfold flat. apply map_ext_in. intros s Hs. apply all_sites_in in Hs. apply H; tauto. Qed.
Lemma same_project rows cols (o := exact_ops nat 0) (S : list nat) :
  same_lattice nat rows cols (fun r k => conf cols S r k) (conf cols S).
Proof. intros r c _ _. reflexivity. Qed.
Lemma nth_prod cols rs : 0 < cols -> forall i, i < length rs * cols -> nth i (list_prod rs (seq 0 cols)) (0, 0) = (nth (i / cols) rs 0, i mod cols).
Proof.
  intros Hc. induction rs as [|r rs IH]; intros j Hj; [simpl in Hj; lia|]. cbn [list_prod length] in *.
  destruct (Nat.lt_ge_cases j cols) as [C|C].
  - rewrite app_nth1 by (rewrite map_length, seq_length; lia).
    rewrite Nat.div_small, Nat.mod_small by lia.
    rewrite (nth_indep _ (0, 0) (r, 0)) by (rewrite map_length, seq_length; lia).
    rewrite (map_nth (fun y => (r, y))), seq_nth by lia. reflexivity.
  - rewrite app_nth2 by (rewrite map_length, seq_length; lia). rewrite map_length, seq_length.
    rewrite IH by lia. assert (E : j = (j - cols) + 1 * cols) by lia. rewrite E at 3 4.
    rewrite Nat.div_add, Nat.mod_add by lia. rewrite Nat.add_1_r. reflexivity.
Qed.
Lemma flat_conf rows cols S : length S = rows * cols -> flat rows cols (conf cols S) = S.
Proof.
  intros L. unfold flat, conf. apply list_ext.
  - rewrite map_length. unfold all_sites. rewrite prod_length, !seq_length. lia.
  - intros i Hi. rewrite map_length in Hi. unfold all_sites in *. rewrite prod_length, !seq_length in Hi.
    rewrite (nth_indep _ 0 ((fun s : site => nth (fst s * cols + snd s) S 0) (0, 0))) by (rewrite map_length; unfold all_sites; rewrite prod_length, !seq_length; lia).
    rewrite (map_nth (fun s : site => nth (fst s * cols + snd s) S 0)). f_equal.
    unfold all_sites, site. rewrite nth_prod by (rewrite ?seq_length; nia). cbn [fst snd].
    rewrite seq_nth by (apply Nat.div_lt_upper_bound; nia). pose proof (Nat.div_mod i cols ltac:(nia)). nia.
Qed.
Lemma conf_len dim rows cols S : In S (all_configs dim (rows * cols)) -> length S = rows * cols.
Proof. intros H. apply all_configs_in in H. apply H. Qed.

(** Every wave function on every lattice is read in every window by some contraction scheme,
    and every configuration is that of a usable component. *)
Lemma spin_model (F : list nat -> C) rows cols c : 2 <= rows -> 2 <= cols ->
  let o := exact_ops nat 0 (fun _ n => F (flat rows cols n)) in
  let tps : sitps o := fun _ _ s => s in
  let psi : net o -> Amp o := fun n => F (flat rows cols n) in
  contraction_consistent o rows cols psi /\ contraction_consistent2 o rows cols psi /\
  plugs o rows cols (fun h t => h t) /\
  (forall S, length S = rows * cols -> wave o (fun z => z) cols psi tps S = F S) /\
  exists w : wst o unit, ready o rows cols w /\ projected o rows cols tps (cfg w) (tn w) /\ cfg w = c.
Proof.
  intros Hr Hc o tps psi.
  assert (H : forall a b, same_lattice nat rows cols a b -> F (flat rows cols a) = F (flat rows cols b)) by (intros a b E; rewrite (flat_same _ _ _ _ E); reflexivity).
  destruct (exact_consistent nat 0 (fun n => F (flat rows cols n)) rows cols H) as [A B].
  split; [exact A|]. split; [exact B|]. split; [apply exact_plugs|]. split.
  - intros S L. unfold wave, psi, project, tps. rewrite flat_conf by exact L. reflexivity.
  - destruct (construct_ok o unit rows cols tps no_kernel c (RtoC 0 : Amp o) tt) as (w & lg & _ & R & C1 & C2 & _); try lia.
    exists w. split; [exact R|]. split; [|exact C1]. intros r k _ _. rewrite C2, C1. reflexivity.
Qed.

(** Fermions: the window of a bond returns the amplitude with the two sites in front; the window
    of a plaquette with the sites of one diagonal in front. *)
Definition fermi_amp (rows cols : nat) (occ : nat -> list bool) (Psi : list nat -> C) (q : query) (n : nat -> nat -> nat) : C :=
  let L := flat rows cols n in
  match q with
  | Q1 d s _ => (RtoC (front_sign occ L (index cols s) (index cols (site_shift d s 1))) * Psi L)%C
  | Q2 _ s _ => (RtoC (front_sign occ L (index cols (S (fst s), snd s)) (index cols (fst s, S (snd s)))) * Psi L)%C
  end.
Lemma fermi_lattice rows cols occ Psi q a b : same_lattice nat rows cols a b ->
  fermi_amp rows cols occ Psi q a = fermi_amp rows cols occ Psi q b.
Proof. intros E. unfold fermi_amp. rewrite (flat_same _ _ _ _ E). reflexivity. Qed.
Section FermiModel.
Context (rows cols : nat) (occ : nat -> list bool) (Psi : list nat -> C).
Hypothesis Hr : 2 <= rows.
Hypothesis Hc : 2 <= cols.
Let o := exact_ops nat 0 (fermi_amp rows cols occ Psi).
Let tps : sitps o := fun _ _ s => s.
Lemma fermi_bond dim d s : lattice_visit rows cols false true (VBond d s) -> fermionic_window o (fun z => z) rows cols dim tps occ Psi (VBond d s).
Proof.
  intros Hv. unfold fermionic_window. cbn [sites_of map]. exists (fun _ => RtoC 1). split; [reflexivity|]. intros S HS.
  split; [apply C1_neq_0|]. unfold trace_visit. cbn [query_of].
  rewrite (trace_exact nat 0 (fermi_amp rows cols occ Psi) rows cols); [|lia| |intros; apply fermi_lattice; assumption].
  - unfold fermi_amp, project, tps. rewrite flat_conf by (eapply conf_len; eauto). ring.
  - cbn in Hv. destruct d, s; simpl in *; lia.
Qed.
Lemma fermi_component c : exists w : wst o unit, ready o rows cols w /\ projected o rows cols tps (cfg w) (tn w) /\ cfg w = c.
Proof.
  destruct (construct_ok o unit rows cols tps no_kernel c (RtoC 0 : Amp o) tt) as (w & lg & _ & R & C1 & C2 & _); try lia.
  exists w. split; [exact R|]. split; [|exact C1]. intros r k _ _. rewrite C2, C1. reflexivity.
Qed.
End FermiModel.

(** Two by two sites, an even number of fermions: both diagonals of the plaquette share one
    window. *)
Definition even_sector (occ : nat -> list bool) (F : list nat -> C) (S : list nat) : C :=
  if Nat.even (list_sum (map (fermions occ S) (seq 0 (length S)))) then F S else RtoC 0.
Definition plaquette_ok (occ : nat -> list bool) (dim : nat) : bool :=
  forallb (fun S => negb (Nat.even (list_sum (map (fermions occ S) (seq 0 (length S))))) ||
    Bool.eqb (Bool.eqb (Nat.even (exchanges occ S 2 1)) (Nat.even (exchanges occ S 0 3)))
             ((fermions occ S 1 =? 0) && (fermions occ S 2 =? 0))) (all_configs dim 4).
Lemma agree_off_nth ps S S' i : agree_off ps S S' = true -> i < length S -> ~ In i ps -> nth i S 0 = nth i S' 0.
Proof.
  intros H Hi Hn. unfold agree_off in H. rewrite forallb_forall in H. specialize (H i). rewrite in_seq in H.
  specialize (H ltac:(lia)). apply orb_true_iff in H. destruct H as [H|H]; [|apply Nat.eqb_eq; exact H].
  apply existsb_exists in H. destruct H as (x & Hx & E). apply Nat.eqb_eq in E. subst. contradiction.
Qed.
Lemma fermi_plaquette occ dim (F : list nat -> C) : plaquette_ok occ dim = true ->
  let o := exact_ops nat 0 (fermi_amp 2 2 occ (even_sector occ F)) in
  let tps : sitps o := fun _ _ s => s in
  forall v, lattice_visit 2 2 false true v -> fermionic_window o (fun z => z) 2 2 dim tps occ (even_sector occ F) v.
Proof.
  intros HP o tps v Hv. destruct v as [d s|g s|d g s|s|s]; cbn in Hv; try contradiction; try (destruct Hv; discriminate).
  - apply fermi_bond; try lia. exact Hv.
  - assert (E : s = (0, 0)) by (destruct s as [r c]; simpl in Hv; f_equal; lia). subst s.
    assert (TR : forall S, In S (all_configs dim (2 * 2)) -> trace_visit o (fun z => z) 2 2 (VDiag g (0, 0)) (project tps (conf 2 S)) =
       (RtoC (front_sign occ S 2 1) * even_sector occ F S)%C).
    { intros S HS. unfold trace_visit. cbn [query_of].
      rewrite (trace2_exact nat 0 (fermi_amp 2 2 occ (even_sector occ F)) 2 2); [|lia|simpl; lia|intros; apply fermi_lattice; assumption].
      unfold fermi_amp, project, tps. rewrite flat_conf by (eapply conf_len; eauto). reflexivity. }
    assert (EG : map (index 2) (sites_of (VDiag g (0, 0))) = match g with LEFTUP_TO_RIGHTDOWN => [0; 3] | _ => [2; 1] end) by (destruct g; reflexivity).
    unfold fermionic_window. rewrite EG. clear EG. destruct g.
    + exists (fun S => RtoC (if (fermions occ S 1 =? 0) && (fermions occ S 2 =? 0) then 1 else -1)). split.
      * intros S S' HS HS' A. unfold fermions. apply (conf_len dim 2 2) in HS.
        rewrite (agree_off_nth _ _ _ 1 A), (agree_off_nth _ _ _ 2 A); auto; try (simpl in HS; lia); intros Q; cbn in Q; lia.
      * intros S HS. split; [destruct (_ && _); intros E; inversion E; lra|]. rewrite TR by exact HS.
        unfold plaquette_ok in HP. rewrite forallb_forall in HP. specialize (HP S HS). unfold even_sector.
        destruct (Nat.even (list_sum _)); [|ring]. cbn [negb orb] in HP. apply eqb_prop in HP. unfold front_sign. rewrite <- HP.
        destruct (Nat.even (exchanges occ S 2 1)), (Nat.even (exchanges occ S 0 3)); cbn [Bool.eqb]; rewrite ?RtoC_m1; ring.
    + exists (fun _ => RtoC 1). split; [reflexivity|]. intros S HS. split; [apply C1_neq_0|]. rewrite TR by exact HS. ring.
Qed.
Lemma plaquette_spinless : plaquette_ok occ_spinless 2 = true. Proof. vm_compute. reflexivity. Qed.
Lemma plaquette_tj : plaquette_ok occ_tj 3 = true. Proof. vm_compute. reflexivity. Qed.
