(** Every history of a periodic component, and its energies. *)
From Coq Require Import List Arith Lia Bool Reals FunctionalExtensionality.
From Verif Require Import Base Cplx ContractorModel SweepModel SweepSpec UpdaterModel UpdaterSpec UpdaterProofs EnergyModel EnergySpec PbcModel PbcSpec PbcProofs
  TrgModel TrgSpec TrgProofs TrgTopo TrgMain TrgTensor TorusModel TorusSpec TorusProofs.
Import ListNotations.
Local Open Scope nat_scope.

Section Any.
Context (o : trg_ops) (Rng : Type) (n : nat) (p : Prm o) (tps : nat -> nat -> nat -> TrgModel.Ten o) (Hn : trg_size n).
Notation proj := (project_net o tps).

Lemma shape_of (c : nat -> nat -> nat) : exists sub sc0, (forall t X, t_prm t = Some p -> init o t (torus o n X) = Ok (mkTrg n n true false sub sc0 (Some p))) /\
  topo o sub (ty n) 0 sc0 /\ built o n sc0 /\ no_splits o sc0.
Proof. exact (shape_exists o p n Hn (proj c)). Qed.
Lemma trial_exists sub sc0 : (forall t X, t_prm t = Some p -> init o t (torus o n X) = Ok (mkTrg n n true false sub sc0 (Some p))) ->
  topo o sub (ty n) 0 sc0 -> built o n sc0 -> no_splits o sc0 -> forall trial, new_amplitude o n p tps trial <-> forall c, TrgMain.amp o p n sc0 (TrgMain.flat o n (proj c)) = Ok (trial c).
Proof.
  intros HI HT HB HS trial. split; intros H c; destruct (fresh_keeps o p n sub sc0 HI HT HB HS (proj c)) as (t & z & E & A & _).
  - destruct (H c) as (t' & E'). unfold net_of in E'. change (fun r k => tps r k (c r k)) with (proj c) in E'. congruence.
  - exists t. unfold net_of. change (fun r k => tps r k (c r k)) with (proj c). rewrite H in A. congruence.
Qed.
Lemma amplitudes_exist : exists trial, new_amplitude o n p tps trial.
Proof.
  destruct (shape_of (fun _ _ => 0)) as (sub & sc0 & HI & HT & HB & HS).
  destruct (amp_value o p n sc0 HB (TrgMain.flat o n (proj (fun _ _ => 0)))) as (z0 & _).
  exists (fun c => match TrgMain.amp o p n sc0 (TrgMain.flat o n (proj c)) with Ok z => z | Fail _ => z0 end).
  apply (trial_exists sub sc0 HI HT HB HS). intros c. destruct (amp_value o p n sc0 HB (TrgMain.flat o n (proj c))) as (z & ->). reflexivity.
Qed.
Lemma reachable_good dim w : reachable o Rng n p tps dim w -> forall sub sc0, (forall t X, t_prm t = Some p -> init o t (torus o n X) = Ok (mkTrg n n true false sub sc0 (Some p))) ->
  topo o sub (ty n) 0 sc0 -> built o n sc0 -> no_splits o sc0 -> good o n p tps sub sc0 w /\ all_states n n (fun x => x < dim) (k_cfg w).
Proof.
  intros H sub sc0 HI HT HB HS. destruct amplitudes_exist as (trial & Htr). pose proof (proj1 (trial_exists sub sc0 HI HT HB HS trial) Htr) as Htrx; clear Htr; rename Htrx into Htr.
  induction H as [c w B E|w c w' R IH B E|w accept draw g w' g' k R IH D E|w choose draw g w' g' k R IH D E].
  - destruct (build_good o n p tps sub sc0 HI HT HB HS c) as (w1 & E1 & G & Ec). assert (w1 = w) by congruence. subst. split; [exact G|exact B].
  - destruct (replace_good o n p tps sub sc0 HI HT HB HS w c) as (w1 & E1 & G & Ec). assert (w1 = w') by congruence. subst. split; [exact G|exact B].
  - destruct IH as [G B]. destruct (sweep_simulates o Rng n p tps Hn sub sc0 HI HT HB (k_amp w) trial dim _ _ draw (exchange_simulates o Rng n p tps sub sc0 HI HT HB HS (k_amp w) trial Htr dim accept) D (n * n * 2) w g 0 G B)
      as (w1 & g1 & k1 & E1 & G1 & B1 & _). unfold sweep_nn_trg in E. assert (w1 = w') by congruence. subst. split; assumption.
  - destruct IH as [G B]. destruct (sweep_simulates o Rng n p tps Hn sub sc0 HI HT HB (k_amp w) trial dim _ _ draw (full_simulates o Rng n p tps sub sc0 HI HT HB HS (k_amp w) trial Htr dim choose) D (n * n * 2) w g 0 G B)
      as (w1 & g1 & k1 & E1 & G1 & B1 & _). unfold sweep_nn_trg in E. assert (w1 = w') by congruence. subst. split; assumption.
Qed.
Lemma reachable_in_step dim w : reachable o Rng n p tps dim w -> in_step o n p tps w /\ all_states n n (fun x => x < dim) (k_cfg w).
Proof.
  intros H. destruct (shape_of (fun _ _ => 0)) as (sub & sc0 & HI & HT & HB & HS). destruct (reachable_good dim w H sub sc0 HI HT HB HS) as ((E & K & A) & B). split; [|exact B].
  split; [intros r k; rewrite E; reflexivity|].
  destruct (fresh_keeps o p n sub sc0 HI HT HB HS (proj (k_cfg w))) as (t & z & F & A' & K'). exists t, z.
  assert (SC : same_contractor o (k_trg w) t) by (eapply keeps_same; eassumption).
  split; [exact F|]. split; [exact SC|]. split; [congruence|]. split; [|split; [exact (punch_same o _ _ _ SC)|]].
  - destruct (keeps_trace o p n sub sc0 HB (k_trg w) (proj (k_cfg w)) (net_of o n tps (k_cfg w)) K eq_refl) as (z' & Z & T). rewrite T. congruence.
  - intros l Hl. destruct (keeps_trial o p n sub sc0 HI HT HB HS (k_trg w) (proj (k_cfg w)) (reps_of o tps l) K (reps_lattice o n tps l Hl)) as (z' & tr & t' & Z & _ & _ & EV & _).
    rewrite replacements_net in Z. destruct (fresh_keeps o p n sub sc0 HI HT HB HS (proj (set_sites (k_cfg w) l))) as (t2 & z2 & F2 & A2 & _). exists t2, z2. split; [exact F2|]. refine (eq_trans EV _). congruence.
Qed.
Lemma build_succeeds dim c : all_states n n (fun x => x < dim) c -> exists w, build o n p tps c = Ok w /\ reachable o Rng n p tps dim w /\ k_cfg w = c.
Proof.
  intros B. destruct (shape_of c) as (sub & sc0 & HI & HT & HB & HS). destruct (build_good o n p tps sub sc0 HI HT HB HS c) as (w & E & _ & Ec). exists w. split; [exact E|]. split; [|exact Ec]. apply (reach_build o Rng n p tps dim c w B E).
Qed.
Lemma replace_succeeds dim w c : reachable o Rng n p tps dim w -> all_states n n (fun x => x < dim) c -> exists w', replace_global o n p tps w c = Ok w' /\ reachable o Rng n p tps dim w' /\ k_cfg w' = c.
Proof.
  intros R B. destruct (shape_of c) as (sub & sc0 & HI & HT & HB & HS). destruct (replace_good o n p tps sub sc0 HI HT HB HS w c) as (w' & E & _ & Ec). exists w'. split; [exact E|]. split; [|exact Ec]. apply (reach_replace o Rng n p tps dim w c w' R B E).
Qed.
Lemma exchange_sweep dim w trial accept draw g z : reachable o Rng n p tps dim w -> new_amplitude o n p tps trial -> draws_inside Rng n draw ->
  exists w' g' k, sweep_nn_trg o Rng n (exchange_trg o Rng p tps accept) draw w g = Ok (w', g', k) /\ reachable o Rng n p tps dim w' /\
    sweep_nn_pbc (only_amplitudes o z) Rng n n draw trial (exchange_kernel (only_amplitudes o z) Rng accept) (@mkP (only_amplitudes o z) Rng (k_cfg w) (k_amp w) g) =
      (@mkP (only_amplitudes o z) Rng (k_cfg w') (k_amp w') g', k).
Proof.
  intros R T D. destruct (shape_of (fun _ _ => 0)) as (sub & sc0 & HI & HT & HB & HS). destruct (reachable_good dim w R sub sc0 HI HT HB HS) as (G & B). pose proof (proj1 (trial_exists sub sc0 HI HT HB HS trial) T) as Tx; clear T; rename Tx into T.
  destruct (sweep_simulates o Rng n p tps Hn sub sc0 HI HT HB z trial dim _ _ draw (exchange_simulates o Rng n p tps sub sc0 HI HT HB HS z trial T dim accept) D (n * n * 2) w g 0 G B)
    as (w1 & g1 & k1 & E1 & G1 & B1 & I). exists w1, g1, k1. split; [exact E1|]. split; [exact (reach_exchange o Rng n p tps dim w accept draw g w1 g1 k1 R D E1)|]. exact I.
Qed.
Lemma full_sweep dim w trial choose draw g z : reachable o Rng n p tps dim w -> new_amplitude o n p tps trial -> draws_inside Rng n draw ->
  exists w' g' k, sweep_nn_trg o Rng n (full_space_trg o Rng p tps dim choose) draw w g = Ok (w', g', k) /\ reachable o Rng n p tps dim w' /\
    sweep_nn_pbc (only_amplitudes o z) Rng n n draw trial (full_space_kernel (only_amplitudes o z) Rng dim choose) (@mkP (only_amplitudes o z) Rng (k_cfg w) (k_amp w) g) =
      (@mkP (only_amplitudes o z) Rng (k_cfg w') (k_amp w') g', k).
Proof.
  intros R T D. destruct (shape_of (fun _ _ => 0)) as (sub & sc0 & HI & HT & HB & HS). destruct (reachable_good dim w R sub sc0 HI HT HB HS) as (G & B). pose proof (proj1 (trial_exists sub sc0 HI HT HB HS trial) T) as Tx; clear T; rename Tx into T.
  destruct (sweep_simulates o Rng n p tps Hn sub sc0 HI HT HB z trial dim _ _ draw (full_simulates o Rng n p tps sub sc0 HI HT HB HS z trial T dim choose) D (n * n * 2) w g 0 G B)
    as (w1 & g1 & k1 & E1 & G1 & B1 & I). exists w1, g1, k1. split; [exact E1|]. split; [exact (reach_full o Rng n p tps dim w choose draw g w1 g1 k1 R D E1)|]. exact I.
Qed.
End Any.
Lemma build_refuses o n (p : Prm o) tps c : ~ trg_size n -> build o n p tps c = Fail Throw.
Proof.
  intros H. unfold build. destruct (init_accepts o (mkTrg n n false false (anew 0 true) [] None) (mkNet n n true (project_net o tps c))) as [_ N]. rewrite N; [reflexivity|]. intros (_ & _ & Z). exact (H Z).
Qed.
