(** Averages of the samples over the configurations: expectation values. *)
From Coq Require Import List Arith Lia Bool Reals Permutation Lra.
From Verif Require Import Base ContractorModel ContractorSpec ContractorProofs SweepModel SweepSpec SweepProofs
  HistoryProofs SweepMain UpdaterSpec UpdaterChain BlockChain Cplx EnergyModel EnergySpec EnergyProofs EnergySum EnergyMain
  EnergyModels ExactSpec ExactProofs TriModel TriSpec TriProofs ObsModel ObsSpec ObsProofs ObsSum ObsClaims.
Import ListNotations.
Local Open Scope nat_scope.

(** *** Averages over the configurations of non-zero amplitude *)
Section Average.
Context (dim n : nat) (Psi : list nat -> C).
Notation all := (all_configs dim n).
Notation support := (support dim n Psi).
Lemma support_in S : In S support <-> In S all /\ Psi S <> RtoC 0.
Proof. unfold ObsSpec.support. rewrite filter_In. destruct (Ceq_dec (Psi S) (RtoC 0)); intuition discriminate. Qed.
Lemma support_weight : total_weight Psi support = total_weight Psi all.
Proof.
  unfold total_weight, ObsSpec.support. induction all as [|S l IH]; [reflexivity|]. simpl. destruct (Ceq_dec (Psi S) (RtoC 0)) as [E|E]; simpl; rewrite IH; [|reflexivity].
  rewrite E. unfold Cnorm2. simpl. ring.
Qed.
Lemma average_expectation A (f : list nat -> C) :
  (forall S, In S support -> f S = local_energy dim n (adjoint A) Psi S) ->
  weighted_average Psi support f = rayleigh all A Psi.
Proof.
  intros Hf. unfold weighted_average, rayleigh. rewrite support_weight, braket_self. f_equal.
  transitivity (sumC (fun S => Psi S * Cconj (apply_op all (adjoint A) Psi S))%C all).
  - rewrite (sumC_ext _ (fun S => Psi S * Cconj (apply_op all (adjoint A) Psi S))%C).
    + unfold ObsSpec.support. rewrite <- sumC_filter. apply sumC_ext. intros S _. destruct (Ceq_dec (Psi S) (RtoC 0)) as [E|E]; [|reflexivity].
      rewrite E. ring.
    + intros S HS. rewrite (Hf S HS). apply support_in in HS. destruct HS as [_ N]. unfold local_energy, Cdiv. rewrite Cconj_mul.
      replace (RtoC (Cnorm2 (Psi S))) with (Psi S * Cconj (Psi S))%C by (apply C_ext; simpl; unfold Cnorm2; ring).
      transitivity (Psi S * Cconj (apply_op all (adjoint A) Psi S) * Cconj (Psi S * Cinv (Psi S)))%C.
      * rewrite Cconj_mul. unfold apply_op. ring.
      * rewrite Cinv_r by exact N. rewrite Cconj_R. ring.
  - unfold braket, apply_op.
    transitivity (sumC (fun S => sumC (fun S' => Cconj (Psi S') * (A S' S * Psi S)) all) all)%C.
    + apply sumC_ext. intros S _. rewrite sumC_conj, <- sumC_scal. apply sumC_ext. intros S' _. unfold adjoint.
      rewrite Cconj_mul, Cconj_invol. ring.
    + rewrite sumC_swap. apply sumC_ext. intros S _. apply sumC_scal.
Qed.
Lemma hermitian_adjoint A Psi' S : hermitian all A -> In S all -> local_energy dim n A Psi' S = local_energy dim n (adjoint A) Psi' S.
Proof. intros H HS. apply local_energy_ext. intros S' HS'. unfold adjoint. apply H; assumption. Qed.
End Average.

(** *** The operators are hermitian *)
Lemma on_sites_hermitian dim n ps A : Forall (fun i => i < n) ps -> hermitian (all_configs dim (length ps)) A -> hermitian (all_configs dim n) (on_sites ps A).
Proof.
  intros F H S S' HS HS'. change (Cconj (on_sites ps A S' S)) with (adjoint (on_sites ps A) S S').
  apply all_configs_in in HS, HS'. destruct HS as [L1 F1], HS' as [L2 F2].
  rewrite adjoint_on by congruence. unfold on_sites. destruct (agree_off ps S S'); [|reflexivity]. unfold adjoint. apply H.
  - apply all_configs_in. split; [apply get_length|]. apply get_states; [exact F1|rewrite L1; exact F].
  - apply all_configs_in. split; [apply get_length|]. apply get_states; [exact F2|rewrite L2; exact F].
Qed.
Lemma add_hermitian {X} (l : list X) (A B : X -> X -> C) : hermitian l A -> hermitian l B -> hermitian l (fun S S' => (A S S' + B S S')%C).
Proof. intros HA HB S S' HS HS'. rewrite (HA S S'), (HB S S'), Cconj_add by assumption. reflexivity. Qed.
Lemma scal_hermitian {X} (l : list X) x (A : X -> X -> C) : hermitian l A -> hermitian l (fun S S' => (RtoC x * A S S')%C).
Proof. intros HA S S' HS HS'. rewrite (HA S S'), Cconj_mul, Cconj_R by assumption. reflexivity. Qed.
Lemma sum_hermitian {X Y} (l : list X) (ys : list Y) (A : Y -> X -> X -> C) : (forall y, In y ys -> hermitian l (A y)) -> hermitian l (fun S S' => sumC (fun y => A y S S') ys).
Proof. intros HA S S' HS HS'. rewrite sumC_conj. apply sumC_ext. intros y Hy. apply HA; assumption. Qed.
Lemma xxz_bond_hermitian jz jxy : hermitian (all_configs 2 2) (xxz_bond jz jxy).
Proof.
  intros S S' HS HS'. apply configs2 in HS, HS'. destruct HS as (a & b & -> & Ha & Hb), HS' as (a' & b' & -> & Ha' & Hb').
  rewrite !xxz_entry by assumption. destruct a as [|[|a]], b as [|[|b]], a' as [|[|a']], b' as [|[|b']]; try lia; simpl; rewrite ?Cconj_R; reflexivity.
Qed.
Lemma bonds_hermitian rows cols rel jz jxy : hermitian (all_configs 2 (rows * cols))
  (op_sum (fun ab => on_sites [index cols (fst ab); index cols (snd ab)] (xxz_bond jz jxy)) (pairs rows cols rel)).
Proof.
  unfold op_sum. apply sum_hermitian. intros [a b] Hab. apply pairs_in in Hab. destruct Hab as ((A1 & A2) & (B1 & B2) & _). cbn [fst snd].
  apply on_sites_hermitian; [|apply xxz_bond_hermitian].
  repeat constructor; [exact (pos_of_lt rows cols a A1 A2)|exact (pos_of_lt rows cols b B1 B2)].
Qed.
Lemma sz_hermitian : hermitian (all_configs 2 1) Sz.
Proof.
  intros S S' HS HS'. apply configs1 in HS, HS'. destruct HS as (a & -> & Ha), HS' as (b & -> & Hb).
  destruct a as [|[|a]], b as [|[|b]]; try lia; unfold Sz, one_site; rewrite ?Cconj_R; reflexivity.
Qed.
Lemma H_xxz_hermitian rows cols jz jxy jz2 jxy2 p : 1 <= rows -> 1 <= cols -> hermitian (all_configs 2 (rows * cols)) (H_xxz rows cols jz jxy jz2 jxy2 p).
Proof.
  intros Hr Hc. unfold H_xxz, op_add at 1. apply add_hermitian; [apply bonds_hermitian|]. unfold op_add. apply add_hermitian; [apply bonds_hermitian|].
  unfold op_scal. apply scal_hermitian. apply on_sites_hermitian; [repeat constructor; nia|apply sz_hermitian].
Qed.
Lemma H_triangular_hermitian rows cols j2 : hermitian (all_configs 2 (rows * cols)) (H_triangular rows cols j2).
Proof. unfold H_triangular, op_add. apply add_hermitian; [apply bonds_hermitian|]. unfold op_scal. apply scal_hermitian. apply bonds_hermitian. Qed.

(** *** Expectation values *)
Lemma sz_diag cs ns : In cs (all_configs 2 1) -> In ns (all_configs 2 1) ->
  adjoint Sz cs ns = if list_eq_dec Nat.eq_dec cs ns then RtoC (sz_of (nth 0 cs 0)) else RtoC 0.
Proof.
  intros A B. apply configs1 in A, B. destruct A as (a & -> & Ha), B as (b & -> & Hb). unfold adjoint.
  destruct a as [|[|a]], b as [|[|b]]; try lia; simpl; rewrite ?Cconj_R; reflexivity.
Qed.
Lemma szsz_diag cs ns : In cs (all_configs 2 2) -> In ns (all_configs 2 2) ->
  adjoint (tensor Sz Sz) cs ns = if list_eq_dec Nat.eq_dec cs ns then RtoC (sz_of (nth 0 cs 0%nat) * sz_of (nth 1 cs 0%nat)) else RtoC 0.
Proof.
  intros A B. apply configs2 in A, B. destruct A as (a & b & -> & Ha & Hb), B as (a' & b' & -> & Ha' & Hb'). unfold adjoint.
  destruct a as [|[|a]], b as [|[|b]], a' as [|[|a']], b' as [|[|b']]; try lia; unfold tensor, Sz, one_site, sz_of; simpl; rewrite Cconj_mul, ?Cconj_R;
    apply C_ext; simpl; lra.
Qed.
Section Expect.
Context (rows cols : nat) (nnn : bool) (H : operator) (h : visit -> operator) (Psi : list nat -> C) (r : list nat -> observables).
Notation N := (rows * cols).
Notation average := (weighted_average Psi (support 2 N Psi)).
Notation expectation A := (rayleigh (all_configs 2 N) A Psi).
Hypothesis HF : forall S, In S (support 2 N Psi) -> faithful_sample rows cols nnn H h Psi S (r S).

Lemma expect_energy : hermitian (all_configs 2 N) H -> average (fun S => o_energy (r S)) = expectation H.
Proof.
  intros HH. apply average_expectation. intros S HS. destruct (HF S HS) as (E & _). rewrite E. apply hermitian_adjoint; [exact HH|].
  apply support_in in HS. tauto.
Qed.
Lemma expect_spsm k : k < cols / 2 -> average (fun S => nth k (o_spsm (r S)) (RtoC 0)) =
  expectation (two_point cols Sp (rows / 2, cols / 4) Sm (rows / 2, cols / 4 + k + 1)).
Proof.
  intros Hk. apply average_expectation. intros S HS. destruct (HF S HS) as (_ & _ & _ & _ & _ & _ & _ & E & _). destruct (E k Hk) as (_ & _ & E1).
  apply nth_error_nth. exact E1.
Qed.
Lemma expect_smsp k : k < cols / 2 -> average (fun S => nth k (o_smsp (r S)) (RtoC 0)) =
  expectation (two_point cols Sm (rows / 2, cols / 4) Sp (rows / 2, cols / 4 + k + 1)).
Proof.
  intros Hk. apply average_expectation. intros S HS. destruct (HF S HS) as (_ & _ & _ & _ & _ & _ & _ & E & _). destruct (E k Hk) as (_ & E1 & _).
  apply nth_error_nth. exact E1.
Qed.
Lemma diag_adjoint ps A f S : In S (support 2 N Psi) -> NoDup ps -> Forall (fun i => i < N) ps ->
  (forall cs ns, In cs (all_configs 2 (length ps)) -> In ns (all_configs 2 (length ps)) ->
     adjoint A cs ns = if list_eq_dec Nat.eq_dec cs ns then RtoC (f cs) else RtoC 0) ->
  local_energy 2 N (adjoint (on_sites ps A)) Psi S = RtoC (f (get ps S)).
Proof.
  intros HS ND F D. apply support_in in HS. destruct HS as [HS NZ].
  rewrite (local_energy_ext 2 N _ (on_sites ps (adjoint A))).
  - apply local_energy_diag; auto.
  - intros S' HS'. apply adjoint_on. apply all_configs_in in HS, HS'. destruct HS as [-> _], HS' as [-> _]. reflexivity.
Qed.
Lemma expect_sz i : i < N -> average (fun S => RtoC (nth i (o_sz (r S)) 0%R)) = expectation (on_sites [i] Sz).
Proof.
  intros Hi. apply average_expectation. intros S HS. rewrite (diag_adjoint [i] Sz (fun cs => sz_of (nth 0 cs 0%nat))); auto using sz_diag.
  - destruct (HF S HS) as (_ & _ & _ & _ & _ & _ & _ & _ & E & _). rewrite E. apply support_in in HS. destruct HS as [HS _]. apply all_configs_in in HS.
    rewrite (nth_indep _ 0%R (sz_of 0)) by (rewrite map_length; lia). rewrite map_nth. reflexivity.
  - repeat constructor. intros [].
Qed.
Lemma expect_szsz i j : i < j -> j < N -> average (fun S => RtoC (nth (packed_index N i j) (o_szsz (r S)) 0%R)) = expectation (on_sites [i; j] (tensor Sz Sz)).
Proof.
  intros Hij Hj. apply average_expectation. intros S HS. rewrite (diag_adjoint [i; j] (tensor Sz Sz) (fun cs => sz_of (nth 0 cs 0%nat) * sz_of (nth 1 cs 0%nat))%R); auto using szsz_diag.
  - destruct (HF S HS) as (_ & _ & _ & _ & _ & _ & _ & _ & _ & _ & E). specialize (E i j ltac:(lia) Hj). rewrite (nth_error_nth _ _ _ E). reflexivity.
  - repeat constructor; simpl; intuition lia.
  - repeat constructor; lia.
Qed.
End Expect.

(** *** From components to averages *)
Section Runs.
Context (o : ops) (val : Amp o -> C) (Rng : Type) (rows cols : nat) (tps : sitps o) (ker : kernel o Rng) (psi : net o -> Amp o).
Notation Psi := (wave o val cols psi tps).
Notation N := (rows * cols).
Lemma flat_all_states (w : wst o Rng) S : In S (all_configs 2 N) -> flat rows cols (cfg w) = S -> all_states rows cols (fun x => x < 2) (cfg w).
Proof.
  intros HS E r k Hr Hk. apply all_configs_in in HS. destruct HS as [L F]. rewrite Forall_forall in F. apply F. rewrite <- E.
  unfold flat. apply in_map_iff. exists (r, k). split; [reflexivity|]. apply all_sites_in. simpl. lia.
Qed.
Lemma runs_average (m : wst o Rng -> res (wst o Rng * observables)) nnn H h (ws : list nat -> wst o Rng) :
  hermitian (all_configs 2 N) H ->
  (forall S, In S (support 2 N Psi) -> exists w' r, m (ws S) = Ok (w', r) /\ faithful_sample rows cols nnn H h Psi S r) ->
  exists r, (forall S, In S (support 2 N Psi) -> exists w', m (ws S) = Ok (w', r S)) /\ expectations rows cols H Psi r.
Proof.
  intros HH HR. exists (fun S => match m (ws S) with Ok (_, r) => r | Fail _ => mkObs (RtoC 0) [] [] [] [] [] [] end).
  assert (HF : forall S, In S (support 2 N Psi) -> faithful_sample rows cols nnn H h Psi S
     ((fun S => match m (ws S) with Ok (_, r) => r | Fail _ => mkObs (RtoC 0) [] [] [] [] [] [] end) S)).
  { intros S HS. destruct (HR S HS) as (w' & r & E & F). cbv beta. rewrite E. exact F. }
  split.
  - intros S HS. destruct (HR S HS) as (w' & r & E & _). exists w'. rewrite E. reflexivity.
  - unfold expectations. cbv zeta. split; [apply (expect_energy rows cols nnn H h Psi _ HF HH)|]. split.
    { intros k Hk. split; [apply (expect_spsm rows cols nnn H h Psi _ HF k Hk)|apply (expect_smsp rows cols nnn H h Psi _ HF k Hk)]. }
    split; [intros i Hi; apply (expect_sz rows cols nnn H h Psi _ HF i Hi)|intros i j Hi Hj; apply (expect_szsz rows cols nnn H h Psi _ HF i j Hi Hj)].
Qed.
Definition components (ws : list nat -> wst o Rng) : Prop :=
  forall S, In S (support 2 N Psi) -> ready o rows cols (ws S) /\ projected o rows cols tps (cfg (ws S)) (tn (ws S)) /\ flat rows cols (cfg (ws S)) = S.

Lemma j1j2_expect jz jxy jz2 jxy2 p ws : 2 <= rows -> 2 <= cols -> contraction_consistent o rows cols psi -> contraction_consistent2 o rows cols psi ->
  components ws ->
  exists r, (forall S, In S (support 2 N Psi) -> exists w', measure_j1j2 val jz jxy jz2 jxy2 p tps ker rows cols (ws S) = Ok (w', r S)) /\
    expectations rows cols (H_xxz rows cols jz jxy jz2 jxy2 p) Psi r.
Proof.
  intros Hr Hc H1 H2 HW. apply (runs_average _ true _ (xxz_terms jz jxy jz2 jxy2)); [apply H_xxz_hermitian; lia|].
  intros S HS. destruct (HW S HS) as (A & B & D). pose proof HS as HS'. apply support_in in HS'. destruct HS' as [HA HN].
  destruct (measure_j1j2_claim o val Rng rows cols tps ker psi jz jxy jz2 jxy2 p (ws S) Hr Hc H1 H2 A B (flat_all_states _ _ HA D)) as (w' & r & E & F & _);
    rewrite D in *; [exact HN|]. eauto.
Qed.
Lemma xxz_expect jz jxy p ws : 2 <= rows -> 2 <= cols -> contraction_consistent o rows cols psi -> components ws ->
  exists r, (forall S, In S (support 2 N Psi) -> exists w', measure_xxz val jz jxy p tps ker rows cols (ws S) = Ok (w', r S)) /\
    expectations rows cols (H_xxz rows cols jz jxy 0 0 p) Psi r.
Proof.
  intros Hr Hc H1 HW. apply (runs_average _ false _ (fun _ => xxz_bond jz jxy)); [apply H_xxz_hermitian; lia|].
  intros S HS. destruct (HW S HS) as (A & B & D). pose proof HS as HS'. apply support_in in HS'. destruct HS' as [HA HN].
  destruct (measure_xxz_claim o val Rng rows cols tps ker psi jz jxy p (ws S) Hr Hc H1 A B (flat_all_states _ _ HA D)) as (w' & r & E & F & _);
    rewrite D in *; [exact HN|]. eauto.
Qed.
Lemma tri_expect ws : 2 <= rows -> 2 <= cols -> contraction_consistent o rows cols psi -> contraction_consistent2 o rows cols psi -> components ws ->
  exists r, (forall S, In S (support 2 N Psi) -> exists w', measure_tri_nn val tps ker rows cols (ws S) = Ok (w', r S)) /\
    expectations rows cols (H_triangular rows cols 0) Psi r.
Proof.
  intros Hr Hc H1 H2 HW. apply (runs_average _ true _ triangular_terms); [apply H_triangular_hermitian|].
  intros S HS. destruct (HW S HS) as (A & B & D). pose proof HS as HS'. apply support_in in HS'. destruct HS' as [HA HN].
  destruct (measure_tri_claim o val Rng rows cols tps ker psi (ws S) Hr Hc H1 H2 A B (flat_all_states _ _ HA D)) as (w' & r & E & F & _);
    rewrite D in *; [exact HN|]. eauto.
Qed.
End Runs.
