(** Local energies of the fermionic models on the whole lattice. *)
From Coq Require Import List Arith Lia Bool Reals Permutation Lra ZArith.
From Verif Require Import Base ContractorModel ContractorSpec ContractorProofs SweepModel SweepSpec SweepProofs
  HistoryProofs SweepMain UpdaterSpec UpdaterChain BlockChain Cplx EnergyModel EnergySpec EnergyProofs EnergySum EnergyMain
  EnergyModels FermionSigns.
Import ListNotations.
Local Open Scope nat_scope.

(** *** From occupations to configurations *)
Section Occ.
Context (occ : nat -> list bool) (k dim N : nat).
Hypothesis Hk : 0 < k.
Hypothesis Hlen : forall c, c < dim -> length (occ c) = k.
Hypothesis Hinj : forall c c', c < dim -> c' < dim -> occ c = occ c' -> c = c'.

Lemma flat_len S : Forall (fun c => c < dim) S -> length (flat_map occ S) = k * length S.
Proof.
  induction 1 as [|c S Hc HS IH]; [simpl; lia|]. cbn [flat_map length]. rewrite app_length, IH, Hlen by exact Hc. lia.
Qed.
Lemma flat_nth S : Forall (fun c => c < dim) S -> forall i j, i < length S -> j < k ->
  nth (k * i + j) (flat_map occ S) false = nth j (occ (nth i S 0)) false.
Proof.
  induction 1 as [|c S Hc HS IH]; intros i j Hi Hj; [simpl in Hi; lia|]. cbn [flat_map]. destruct i as [|i].
  - rewrite app_nth1 by (rewrite Hlen by exact Hc; lia). cbn [nth]. f_equal. lia.
  - rewrite app_nth2 by (rewrite Hlen by exact Hc; nia). rewrite Hlen by exact Hc. cbn [nth].
    rewrite <- IH by (simpl in *; lia). f_equal. nia.
Qed.
Lemma config_len S : In S (all_configs dim N) -> length S = N /\ Forall (fun c => c < dim) S.
Proof. intros H. apply all_configs_in in H. exact H. Qed.
Lemma occ_fer S i : In S (all_configs dim N) -> i < N -> fer k (flat_map occ S) i = fermions occ S i.
Proof.
  intros HS Hi. apply config_len in HS. destruct HS as [L F]. unfold fer, blk, fermions.
  assert (Hc : nth i S 0 < dim) by (rewrite Forall_forall in F; apply F, nth_In; lia).
  assert (G : forall l : list bool, list_sum (map (fun j => if nth j l false then 1 else 0) (seq 0 (length l))) = length (filter (fun b => b) l)).
  { induction l as [|x l IHl]; [reflexivity|]. cbn [length seq map filter]. rewrite <- seq_shift, map_map.
    change (list_sum ((if x then 1 else 0) :: map (fun j => if nth j l false then 1 else 0) (seq 0 (length l))) =
            length (if x then x :: filter (fun b => b) l else filter (fun b => b) l)).
    destruct x; simpl; rewrite IHl; reflexivity. }
  rewrite <- G, Hlen by exact Hc. apply list_sum_ext. intros j Hj. apply in_seq in Hj. cbn [andb].
  rewrite flat_nth by (auto; lia). reflexivity.
Qed.

Section Pair.
Context (a b : nat).
Hypothesis Ha : a < N.
Hypothesis Hb : b < N.
Hypothesis Hab : a <> b.

Lemma occ_sig S : In S (all_configs dim N) -> IZR (sig k a b (flat_map occ S)) = front_sign occ S a b.
Proof.
  intros HS. unfold sig, sgn, front_sign. assert (E : exch k a b (flat_map occ S) = exchanges occ S a b).
  { unfold exch, exchanges. rewrite !occ_fer by auto. f_equal; f_equal.
    - apply list_sum_ext. intros s Hs. apply in_seq in Hs. apply occ_fer; auto. lia.
    - apply list_sum_ext. intros s Hs. apply in_seq in Hs. destruct (s =? a); [reflexivity|]. apply occ_fer; auto. lia. }
  rewrite E. destruct (Nat.even (exchanges occ S a b)); reflexivity.
Qed.
Lemma occ_loc S : In S (all_configs dim N) -> loc k a b (flat_map occ S) = flat_map occ (get [a; b] S).
Proof.
  intros HS. apply config_len in HS. destruct HS as [L F].
  assert (F2 : Forall (fun c => c < dim) (get [a; b] S)).
  { unfold get. cbn [map]. rewrite Forall_forall in F. repeat constructor; apply F, nth_In; lia. }
  apply fock_ext.
  - rewrite loc_length, flat_len by exact F2. unfold get. cbn [map length]. lia.
  - rewrite loc_length. intros i Hi. rewrite nth_loc by exact Hi. destruct (Nat.lt_ge_cases i k) as [C|C].
    + rewrite lab_first by exact C. rewrite flat_nth by (auto; lia).
      pose proof (flat_nth _ F2 0 i) as E. rewrite Nat.mul_0_r in E. simpl plus in E. rewrite E by (unfold get; simpl; lia). reflexivity.
    + assert (E : i = k + (i - k)) by lia. rewrite E, lab_second. rewrite flat_nth by (auto; lia).
      pose proof (flat_nth _ F2 1 (i - k)) as E2. rewrite Nat.mul_1_r in E2. rewrite E2 by (unfold get; simpl; lia). reflexivity.
Qed.
Lemma occ_off S S' : In S (all_configs dim N) -> In S' (all_configs dim N) ->
  (off_equal k a b (flat_map occ S) (flat_map occ S') <-> agree_off [a; b] S S' = true).
Proof.
  intros HS HS'. apply config_len in HS, HS'. destruct HS as [L F], HS' as [L' F'].
  assert (LE : length (flat_map occ S) = k * N) by (rewrite flat_len by exact F; lia).
  assert (LE' : length (flat_map occ S') = k * N) by (rewrite flat_len by exact F'; lia).
  rewrite agree_off_iff by lia. unfold off_equal. split.
  - intros E i Hi Hn.
    assert (Hc : nth i S 0 < dim) by (rewrite Forall_forall in F; apply F, nth_In; lia).
    assert (Hc' : nth i S' 0 < dim) by (rewrite Forall_forall in F'; apply F', nth_In; lia).
    apply Hinj; auto. apply fock_ext; [rewrite !Hlen by auto; reflexivity|]. rewrite Hlen by exact Hc. intros j Hj.
    rewrite <- !flat_nth by (auto; lia). rewrite <- E at 1. rewrite nth_inject by (rewrite LE'; nia).
    rewrite div_block by (auto; lia). simpl in Hn.
    destruct (Nat.eqb_spec i a); [subst; tauto|]. destruct (Nat.eqb_spec i b); [subst; tauto|]. reflexivity.
  - intros H. apply fock_ext; [rewrite inject_length; lia|]. intros i Hi. rewrite inject_length in Hi. rewrite nth_inject by exact Hi.
    pose proof (block_of k Hk i) as E. pose proof (Nat.mod_upper_bound i k) as B.
    destruct (Nat.eqb_spec (i / k) a) as [A|A]; [rewrite nth_loc, lab_first by lia; f_equal; lia|].
    destruct (Nat.eqb_spec (i / k) b) as [A'|A']; [rewrite nth_loc, lab_second by lia; f_equal; lia|].
    assert (i / k < N) by (rewrite LE' in Hi; apply Nat.div_lt_upper_bound; lia).
    rewrite E, !flat_nth by (auto; lia). rewrite H; [reflexivity|lia|]. simpl. intros [X|[X|[]]]; congruence.
Qed.

(** [F] acts on the sites [a] and [b] of the lattice as [h] on the two sites alone. *)
Definition two_site (F h : operator) : Prop :=
  forall S S', In S (all_configs dim N) -> In S' (all_configs dim N) ->
  F S S' = if agree_off [a; b] S S'
           then (RtoC (front_sign occ S a b) * RtoC (front_sign occ S' a b) * h (get [a; b] S) (get [a; b] S'))%C
           else RtoC 0.
Lemma two_site_add F h F' h' : two_site F h -> two_site F' h' -> two_site (op_add F F') (op_add h h').
Proof.
  intros H H' S S' HS HS'. unfold op_add. rewrite H, H' by auto. destruct (agree_off _ _ _); ring.
Qed.
Lemma two_site_scal x F h : two_site F h -> two_site (op_scal x F) (op_scal x h).
Proof.
  intros H S S' HS HS'. unfold op_scal. rewrite H by auto. destruct (agree_off _ _ _); ring.
Qed.
Lemma two_site_sem e : labels_in (2 * k) e = true ->
  two_site (in_basis occ (sem (lab k a b) e)) (in_basis occ (sem (fun l => l) e)).
Proof.
  intros Hl S S' HS HS'. unfold in_basis.
  assert (LE : length (flat_map occ S) = k * N) by (apply config_len in HS; rewrite flat_len by tauto; lia).
  assert (LE' : length (flat_map occ S') = k * N) by (apply config_len in HS'; rewrite flat_len by tauto; lia).
  destruct (agree_off [a; b] S S') eqn:E.
  - apply occ_off in E; auto. rewrite (coeff_on k N a b) by auto. rewrite !occ_loc by auto.
    rewrite <- !occ_sig by auto. rewrite <- !RtoC_mul, !mult_IZR. reflexivity.
  - rewrite (coeff_off k N a b); auto. intros X. apply occ_off in X; auto. congruence.
Qed.
End Pair.
End Occ.

(** *** A visit contributes the local energy of its lattice operator *)
Lemma front_sign_sq occ S a b : (RtoC (front_sign occ S a b) * RtoC (front_sign occ S a b))%C = RtoC 1.
Proof. unfold front_sign. rewrite <- RtoC_mul. destruct (Nat.even _); f_equal; lra. Qed.
Lemma front_sign_neq occ S a b : RtoC (front_sign occ S a b) <> RtoC 0.
Proof. unfold front_sign. destruct (Nat.even _); intros E; inversion E; lra. Qed.

Section Visit.
Context (o : ops) (val : Amp o -> C) (rows cols dim : nat) (tps : sitps o) (occ : nat -> list bool) (Psi : list nat -> C).
Hypothesis Hr : 1 <= rows.
Hypothesis Hc : 1 <= cols.
Notation N := (rows * cols).

Lemma trace_conf v c n ns : visit_in rows cols v -> projected o rows cols tps c n -> length ns = length (sites_of v) ->
  trace_visit o val rows cols v (substituted o tps n (sites_of v) ns) =
  trace_visit o val rows cols v (project tps (conf cols (put (places cols v) ns (flat rows cols c)))).
Proof.
  intros Hin HP Hn. apply trace_visit_ext; auto. intros r k Hr' Hk'.
  apply (substituted_project o rows cols tps); auto; [apply sites_nodup|apply sites_in_lattice; exact Hin].
Qed.
Lemma trace_conf_same v c n : visit_in rows cols v -> projected o rows cols tps c n ->
  trace_visit o val rows cols v n = trace_visit o val rows cols v (project tps (conf cols (flat rows cols c))).
Proof.
  intros Hin HP. apply trace_visit_ext; auto. intros r k Hr' Hk'. rewrite HP by auto. unfold project, conf. f_equal.
  symmetry. exact (flat_pos rows cols c (r, k) Hr' Hk').
Qed.

Lemma fermion_trace_neq v c n : visit_in rows cols v -> projected o rows cols tps c n ->
  all_states rows cols (fun x => x < dim) c -> fermionic_window o val rows cols dim tps occ Psi v ->
  Psi (flat rows cols c) <> RtoC 0 -> trace_visit o val rows cols v n <> RtoC 0.
Proof.
  intros Hin HP HS HW HZ. unfold fermionic_window in HW. destruct (map (index cols) (sites_of v)) as [|a [|b [|]]]; try contradiction.
  destruct HW as (kappa & _ & K). destruct (K (flat rows cols c)) as [K1 K2]; [apply flat_states; auto|].
  rewrite (trace_conf_same v c n Hin HP), K2. intros E. apply Cmul_integral in E. destruct E as [E|E]; [|contradiction].
  apply Cmul_integral in E. destruct E as [E|E]; [contradiction|]. exact (front_sign_neq _ _ _ _ E).
Qed.

Lemma fermion_visit v c n a b F h : visit_in rows cols v -> projected o rows cols tps c n ->
  all_states rows cols (fun x => x < dim) c -> fermionic_window o val rows cols dim tps occ Psi v ->
  Psi (flat rows cols c) <> RtoC 0 -> places cols v = [a; b] ->
  two_site occ dim N a b F h ->
  visit_energy o val rows cols tps dim h c n v = local_energy dim N F Psi (flat rows cols c).
Proof.
  intros Hin HP HS HW HZ Ev HF. pose proof (flat_states rows cols Hr Hc dim c HS) as HC.
  pose proof (places_nodup rows cols v Hin) as ND. pose proof (places_lt rows cols v Hin) as LT.
  set (S := flat rows cols c) in *.
  unfold fermionic_window in HW. unfold places in Ev. rewrite Ev in HW. destruct HW as (kappa & K1 & K2).
  destruct (K2 S HC) as [Kn KT].
  assert (L : length (sites_of v) = 2) by (apply (f_equal (@length nat)) in Ev; rewrite map_length in Ev; exact Ev).
  unfold visit_energy, local_energy.
  rewrite (trace_conf_same v c n Hin HP). fold S. rewrite KT.
  set (s := RtoC (front_sign occ S a b)).
  rewrite (sumC_ext (fun S' => F S S' * Psi S')%C (fun S' => on_sites [a; b] h S S' * (s * (RtoC (front_sign occ S' a b) * Psi S')))%C).
  2:{ intros S' HS'. rewrite HF by auto. unfold on_sites. destruct (agree_off [a; b] S S'); unfold s; ring. }
  unfold places in ND, LT. rewrite Ev in ND, LT.
  rewrite local_op_sum by assumption. cbn [length]. rewrite L.
  assert (G : forall ns, In ns (all_configs dim 2) ->
     (h (states_at c v) ns * trace_visit o val rows cols v (substituted o tps n (sites_of v) ns))%C =
     (kappa S * (h (get [a; b] S) ns * (RtoC (front_sign occ (put [a; b] ns S) a b) * Psi (put [a; b] ns S))))%C).
  { intros ns Hns. pose proof Hns as Hns'. apply all_configs_in in Hns. destruct Hns as [Ln Fn].
    rewrite (trace_conf v c n ns Hin HP) by lia. unfold places. rewrite Ev. fold S.
    assert (HP' : In (put [a; b] ns S) (all_configs dim N)).
    { apply all_configs_in in HC. destruct HC as [SL SF]. apply all_configs_in. rewrite put_length. split; [exact SL|].
      apply put_states; auto. }
    destruct (K2 _ HP') as [_ ->].
    rewrite <- (K1 S (put [a; b] ns S)); auto.
    - assert (E : states_at c v = get [a; b] S).
      { rewrite <- Ev. unfold S. rewrite (get_places rows cols) by (apply sites_in_lattice; exact Hin). reflexivity. }
      rewrite E. ring.
    - apply agree_off_iff; [now rewrite put_length|]. intros i Hi Hn. symmetry. apply put_other; auto. }
  rewrite (sumC_ext _ _ _ G), sumC_scal.
  rewrite (sumC_ext (fun ns => h (get [a; b] S) ns * (s * _))%C
     (fun ns => s * (h (get [a; b] S) ns * (RtoC (front_sign occ (put [a; b] ns S) a b) * Psi (put [a; b] ns S))))%C) by (intros; ring).
  rewrite sumC_scal. set (X := sumC _ (all_configs dim 2)). f_equal. unfold Cdiv.
  assert (SS : (s * s)%C = RtoC 1) by apply front_sign_sq.
  assert (I : Cinv (kappa S * s * Psi S) = (Cinv (kappa S) * s * Cinv (Psi S))%C).
  { apply Cinv_unique. transitivity ((kappa S * Cinv (kappa S)) * (s * s) * (Psi S * Cinv (Psi S)))%C; [ring|].
    rewrite SS, !Cinv_r by assumption. ring. }
  rewrite I. transitivity ((kappa S * Cinv (kappa S)) * (s * X * Cinv (Psi S)))%C; [ring|]. rewrite Cinv_r by exact Kn. ring.
Qed.
End Visit.
