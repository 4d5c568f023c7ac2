(** Samples of the spin-1/2 solvers, and their averages. *)
From Coq Require Import List Arith Lia Bool Reals Permutation Lra.
From Verif Require Import Base ContractorModel ContractorSpec ContractorProofs SweepModel SweepSpec SweepProofs
  HistoryProofs SweepMain UpdaterSpec UpdaterChain BlockChain Cplx EnergyModel EnergySpec EnergyProofs EnergySum EnergyMain
  EnergyModels ExactSpec ExactProofs TriModel TriSpec TriProofs ObsModel ObsSpec ObsProofs ObsSum.
Import ListNotations.
Local Open Scope nat_scope.

(** *** Packed pairs *)
Fixpoint packed_before (n i : nat) : nat := match i with 0 => 0 | S i' => packed_before n i' + (n - i') end.
Lemma packed_before_eq n i : i <= n -> packed_before n i = i * n - i * (i - 1) / 2.
Proof.
  intros Hi.
  assert (E : 2 * packed_before n i + i * (i - 1) = 2 * (i * n)).
  { induction i as [|i IH]; [reflexivity|]. cbn [packed_before]. specialize (IH ltac:(lia)).
    destruct i as [|i]; [simpl in *; lia|]. simpl (S (S i) - 1). simpl (S i - 1) in IH. nia. }
  assert (D : 2 * (i * (i - 1) / 2) = i * (i - 1)).
  { pose proof (Nat.div_mod (i * (i - 1)) 2 ltac:(lia)) as Q.
    assert (M : (i * (i - 1)) mod 2 = 0).
    { destruct i as [|i]; [reflexivity|]. simpl (S i - 1). rewrite Nat.sub_0_r. destruct (Nat.Even_or_Odd i) as [[k ->]|[k ->]].
      - replace (S (2 * k) * (2 * k)) with (S (2 * k) * k * 2) by lia. apply Nat.mod_mul. lia.
      - replace (S (2 * k + 1) * (2 * k + 1)) with ((k + 1) * (2 * k + 1) * 2) by lia. apply Nat.mod_mul. lia. }
    lia. }
  lia.
Qed.
Lemma flat_blocks {X} (f : nat -> list X) n i j : (forall k, k < n -> length (f k) = n - k) -> i < n -> j < n - i ->
  nth_error (flat_map f (seq 0 n)) (packed_before n i + j) = nth_error (f i) j.
Proof.
  intros L Hi Hj.
  assert (PL : forall m, m <= n -> length (flat_map f (seq 0 m)) = packed_before n m).
  { induction m as [|m IH]; intros Hm; [reflexivity|]. rewrite seq_S, flat_map_app, app_length. simpl. rewrite app_nil_r, IH, L by lia. reflexivity. }
  replace n with (i + S (n - i - 1)) at 1 by lia. rewrite seq_app, flat_map_app.
  rewrite nth_error_app2 by (rewrite PL; lia). rewrite PL by lia. replace (packed_before n i + j - packed_before n i) with j by lia.
  simpl. rewrite nth_error_app1; [reflexivity|]. rewrite L; lia.
Qed.
Lemma packed_upper_length l : length (packed_upper l) = length l * (length l + 1) / 2.
Proof.
  unfold packed_upper. set (n := length l).
  assert (PL : forall m, m <= n -> length (flat_map (fun i => map (fun j => (nth i l 0 * nth j l 0)%R) (seq i (n - i))) (seq 0 m)) = packed_before n m).
  { induction m as [|m IH]; intros Hm; [reflexivity|]. rewrite seq_S, flat_map_app, app_length. simpl. rewrite app_nil_r, IH, map_length, seq_length by lia. reflexivity. }
  rewrite PL by lia. rewrite packed_before_eq by lia. clear PL.
  pose proof (packed_before_eq n n (le_n n)) as E. apply Nat.div_unique with (r := 0); [lia|].
  assert (E2 : 2 * packed_before n n = n * (n + 1)).
  { clear E. assert (G : forall m, m <= n -> 2 * packed_before n m + m * (m - 1) = 2 * (m * n)).
    { induction m as [|m IH]; intros Hm; [reflexivity|]. cbn [packed_before]. specialize (IH ltac:(lia)).
      destruct m as [|m]; [simpl in *; lia|]. simpl (S (S m) - 1). simpl (S m - 1) in IH. nia. }
    specialize (G n (le_n n)). destruct n as [|m]; [reflexivity|]. simpl (S m - 1) in G. nia. }
  lia.
Qed.
Lemma packed_upper_nth l i j : i <= j -> j < length l -> nth_error (packed_upper l) (packed_index (length l) i j) = Some (nth i l 0 * nth j l 0)%R.
Proof.
  intros Hij Hj. unfold packed_upper, packed_index. rewrite <- packed_before_eq by lia.
  rewrite flat_blocks; [|intros k Hk; now rewrite map_length, seq_length|lia|lia].
  rewrite nth_error_map, (nth_error_nth' _ 0) by (rewrite seq_length; lia). rewrite seq_nth by lia. simpl. do 2 f_equal. f_equal. lia.
Qed.
Lemma sz_values_flat rows cols c : all_states rows cols (fun x => x < 2) c -> sz_values rows cols c = map sz_of (flat rows cols c).
Proof.
  intros HS. unfold sz_values, flat. rewrite map_map. apply map_ext_in. intros s Hs. apply all_sites_in in Hs.
  assert (B : c (fst s) (snd s) < 2) by (apply HS; tauto). unfold spin_z, sz_of.
  destruct (c (fst s) (snd s)) as [|[|k]]; [simpl; lra|simpl; lra|lia].
Qed.

(** *** Samples *)
Lemma bond_ends_places cols v : is_bond v || is_diag v = true -> places cols v = [index cols (fst (bond_ends v)); index cols (snd (bond_ends v))].
Proof.
  destruct v as [[] [r k]|[] [r k]| | |]; intros H; try discriminate; unfold places; simpl; repeat f_equal; unfold index; simpl; lia.
Qed.

Section Claims.
Context (o : ops) (val : Amp o -> C) (Rng : Type) (rows cols : nat) (tps : sitps o) (ker : kernel o Rng) (psi : net o -> Amp o).
Notation Psi := (wave o val cols psi tps).

Lemma faithful M (nnn : bool) H (h : visit -> operator) ons (w : wst o Rng) : 2 <= rows -> 2 <= cols ->
  contraction_consistent o rows cols psi -> (nnn = true -> contraction_consistent2 o rows cols psi) ->
  ready o rows cols w -> projected o rows cols tps (cfg w) (tn w) -> all_states rows cols (fun x => x < 2) (cfg w) ->
  Psi (flat rows cols (cfg w)) <> RtoC 0 ->
  (forall v, is_bond v || is_diag v = true -> term 2 M v (h v) true) ->
  m_onsite M rows cols (cfg w) = Ok ons ->
  (sumC (fun v => local_energy 2 (rows * cols) (on_sites (places cols v) (h v)) Psi (flat rows cols (cfg w))) (calls false nnn rows cols) + ons)%C =
    local_energy 2 (rows * cols) H Psi (flat rows cols (cfg w)) ->
  exists w' r, measure val M nnn tps ker rows cols w = Ok (w', r) /\
    faithful_sample rows cols nnn H h Psi (flat rows cols (cfg w)) r /\
    ready o rows cols w' /\ cfg w' = cfg w /\ tn w' = tn w /\ amp w' = amp w /\ rng w' = rng w.
Proof.
  intros Hr Hc H1 H2 Hw HP HS HZ HT HO HE.
  destruct (measure_sum o val Rng rows cols tps ker psi Hr Hc H1 w Hw HP HS HZ M nnn h ons H2 HT HO)
    as (w' & r & E & A1 & A2 & A3 & A4 & A5 & A6 & A7 & R).
  exists w', r. split; [exact E|]. split; [|exact R]. unfold faithful_sample. cbv zeta.
  assert (EM : map fst (o_bonds r) = calls false nnn rows cols) by (rewrite A2, map_map; apply map_id).
  split; [rewrite A1; exact HE|]. rewrite EM. split; [apply calls_nodup|]. split; [intros v; apply calls_in|]. split.
  { intros v e Hi. rewrite A2 in Hi. apply in_map_iff in Hi. destruct Hi as (v' & Ei & Hv). inversion Ei; subst v' e.
    rewrite bond_ends_places; [reflexivity|]. apply calls_in in Hv. destruct v; simpl in Hv; try contradiction; auto. destruct Hv. discriminate. }
  split; [exact A3|]. rewrite A4, A5, !map_length, !seq_length. split; [reflexivity|]. split; [reflexivity|]. split.
  { intros k Hk. destruct (quarter_half rows cols Hr Hc). split; [cbn [snd]; lia|].
    rewrite !nth_error_map, (nth_error_nth' _ 0) by (rewrite seq_length; exact Hk). rewrite seq_nth by exact Hk. cbn [option_map].
    replace (cols / 4 + (1 + k)) with (cols / 4 + k + 1) by lia. split; reflexivity. }
  rewrite A6, A7, sz_values_flat by exact HS. split; [reflexivity|].
  assert (L : length (map sz_of (flat rows cols (cfg w))) = rows * cols) by (rewrite map_length; apply flat_length).
  split; [rewrite packed_upper_length, L; reflexivity|].
  intros i j Hij Hj. rewrite <- L. rewrite packed_upper_nth by (rewrite ?L; lia).
  do 2 f_equal; (rewrite (nth_indep _ 0%R (sz_of 0)) by (rewrite L; lia)); apply map_nth.
Qed.

Lemma measure_j1j2_claim jz jxy jz2 jxy2 p (w : wst o Rng) : 2 <= rows -> 2 <= cols ->
  contraction_consistent o rows cols psi -> contraction_consistent2 o rows cols psi ->
  ready o rows cols w -> projected o rows cols tps (cfg w) (tn w) -> all_states rows cols (fun x => x < 2) (cfg w) ->
  Psi (flat rows cols (cfg w)) <> RtoC 0 ->
  exists w' r, measure_j1j2 val jz jxy jz2 jxy2 p tps ker rows cols w = Ok (w', r) /\
    faithful_sample rows cols true (H_xxz rows cols jz jxy jz2 jxy2 p) (xxz_terms jz jxy jz2 jxy2) Psi (flat rows cols (cfg w)) r /\
    ready o rows cols w' /\ cfg w' = cfg w /\ tn w' = tn w /\ amp w' = amp w /\ rng w' = rng w.
Proof.
  intros Hr Hc H1 H2 Hw HP HS HZ.
  apply (faithful (xxz_model jz jxy jz2 jxy2 p) true _ _
    (local_energy 2 (rows * cols) (op_scal (- p) (on_sites [0] Sz)) Psi (flat rows cols (cfg w))) w Hr Hc H1 (fun _ => H2) Hw HP HS HZ).
  - intros v Hv. exact (xxz_model_term jz jxy jz2 jxy2 p v Hv).
  - apply pinning_local; auto; lia.
  - unfold H_xxz. rewrite !local_energy_add, !local_energy_sum.
    match goal with |- (_ + ?z)%C = (?a + (?b + ?z))%C => transitivity ((a + b) + z)%C; [|ring] end. f_equal.
    assert (EF : forall f, sumC f (calls false true rows cols) = (sumC f (filter is_bond (calls false true rows cols)) + sumC f (filter is_diag (calls false true rows cols)))%C).
    { intros f. rewrite <- !sumC_filter, <- sumC_add. apply sumC_ext. intros v Hv. apply calls_in in Hv. destruct v; simpl in *; try contradiction; try ring. destruct Hv; discriminate. }
    rewrite EF. f_equal; [apply sum_bonds|apply sum_diags]; intros v Hv Hb; destruct v; try discriminate;
      rewrite places_ends by reflexivity; reflexivity.
Qed.
Lemma measure_xxz_claim jz jxy p (w : wst o Rng) : 2 <= rows -> 2 <= cols ->
  contraction_consistent o rows cols psi ->
  ready o rows cols w -> projected o rows cols tps (cfg w) (tn w) -> all_states rows cols (fun x => x < 2) (cfg w) ->
  Psi (flat rows cols (cfg w)) <> RtoC 0 ->
  exists w' r, measure_xxz val jz jxy p tps ker rows cols w = Ok (w', r) /\
    faithful_sample rows cols false (H_xxz rows cols jz jxy 0 0 p) (fun _ => xxz_bond jz jxy) Psi (flat rows cols (cfg w)) r /\
    ready o rows cols w' /\ cfg w' = cfg w /\ tn w' = tn w /\ amp w' = amp w /\ rng w' = rng w.
Proof.
  intros Hr Hc H1 Hw HP HS HZ.
  destruct (faithful (xxz_model jz jxy 0 0 p) false (H_xxz rows cols jz jxy 0 0 p) (xxz_h jz jxy 0 0)
    (local_energy 2 (rows * cols) (op_scal (- p) (on_sites [0] Sz)) Psi (flat rows cols (cfg w))) w Hr Hc H1 ltac:(discriminate) Hw HP HS HZ)
    as (w' & r & E & (F1 & F2 & F3 & F4 & F5) & R).
  - intros v Hv. exact (xxz_model_term jz jxy 0 0 p v Hv).
  - apply pinning_local; auto; lia.
  - unfold H_xxz. rewrite !local_energy_add.
    fold (H_bonds rows cols diagonal (xxz_bond 0 0)).
    rewrite (local_energy_ext _ _ (H_bonds rows cols diagonal (xxz_bond 0 0)) (fun _ _ => RtoC 0)).
    2:{ intros S' HS'. apply zero_bonds; auto. apply flat_states; auto; lia. }
    rewrite (local_energy_zero _ _ (fun _ _ => RtoC 0)) by reflexivity. rewrite local_energy_sum.
    match goal with |- (_ + ?z)%C = (?a + (?b + ?z))%C => transitivity (a + z)%C; [|ring] end. f_equal.
    assert (EF : forall f, sumC f (calls false false rows cols) = sumC f (filter is_bond (calls false false rows cols))).
    { intros f. rewrite <- !sumC_filter. apply sumC_ext. intros v Hv. apply calls_in in Hv. destruct v; simpl in *; try contradiction; auto; destruct Hv; discriminate. }
    rewrite EF. apply sum_bonds; intros v Hv Hb; destruct v; try discriminate; rewrite places_ends by reflexivity; reflexivity.
  - exists w', r. split; [exact E|]. split; [|exact R]. unfold faithful_sample. repeat (split; [assumption|]). split; [|exact F5].
    intros v e Hi. rewrite (F4 v e Hi). assert (L : In v (map fst (o_bonds r))) by (apply (in_map fst) in Hi; exact Hi).
    apply F3 in L. destruct v; simpl in L; try contradiction; [reflexivity|destruct L; discriminate|destruct L; discriminate].
Qed.
Lemma measure_tri_claim (w : wst o Rng) : 2 <= rows -> 2 <= cols ->
  contraction_consistent o rows cols psi -> contraction_consistent2 o rows cols psi ->
  ready o rows cols w -> projected o rows cols tps (cfg w) (tn w) -> all_states rows cols (fun x => x < 2) (cfg w) ->
  Psi (flat rows cols (cfg w)) <> RtoC 0 ->
  exists w' r, measure_tri_nn val tps ker rows cols w = Ok (w', r) /\
    faithful_sample rows cols true (H_triangular rows cols 0) triangular_terms Psi (flat rows cols (cfg w)) r /\
    ready o rows cols w' /\ cfg w' = cfg w /\ tn w' = tn w /\ amp w' = amp w /\ rng w' = rng w.
Proof.
  intros Hr Hc H1 H2 Hw HP HS HZ.
  apply (faithful tri_nn_model true _ _ (RtoC 0) w Hr Hc H1 (fun _ => H2) Hw HP HS HZ).
  - intros v Hv. pose proof (tri_nn_term v Hv) as T. destruct v as [|[]| | |]; try discriminate; exact T.
  - reflexivity.
  - unfold H_triangular. rewrite local_energy_add, local_energy_scal, !local_energy_sum.
    assert (Z : forall y z, (z + RtoC 0)%C = (z + RtoC 0 * y)%C) by (intros y z; ring).
    rewrite <- Z. f_equal.
    rewrite <- (sumC_perm _ _ _ (j1_pairs_nn false rows cols)), sumC_map.
    rewrite <- !sumC_filter. apply sumC_ext. intros v Hv. apply calls_in in Hv.
    destruct v as [d s|[] s|d g s|s|s]; simpl in Hv; try contradiction; cbn [is_j1 triangular_terms].
    + rewrite places_ends by reflexivity. reflexivity.
    + apply local_energy_zero. intros S'. unfold on_sites. destruct (agree_off _ _ _); reflexivity.
    + rewrite places_ends by reflexivity. reflexivity.
    + destruct Hv; discriminate.
Qed.
Lemma measure_zero_claim jz jxy jz2 jxy2 p (w : wst o Rng) : 2 <= rows -> 2 <= cols -> contraction_consistent o rows cols psi ->
  ready o rows cols w -> projected o rows cols tps (cfg w) (tn w) -> all_states rows cols (fun x => x < 2) (cfg w) ->
  Psi (flat rows cols (cfg w)) = RtoC 0 ->
  measure_xxz val jz jxy p tps ker rows cols w = Fail Throw /\ measure_j1j2 val jz jxy jz2 jxy2 p tps ker rows cols w = Fail Throw /\
  measure_tri_nn val tps ker rows cols w = Fail Throw.
Proof. intros. repeat split; eapply measure_zero; eauto. Qed.
End Claims.
