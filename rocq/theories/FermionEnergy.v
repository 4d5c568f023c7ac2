(** Energies of the fermionic evaluators. *)
From Coq Require Import List Arith Lia Bool Reals Permutation Lra ZArith.
From Verif Require Import Base ContractorModel ContractorSpec ContractorProofs SweepModel SweepSpec SweepProofs
  HistoryProofs SweepMain UpdaterSpec UpdaterChain BlockChain Cplx EnergyModel EnergySpec EnergyProofs EnergySum EnergyMain
  EnergyModels EnergyHoles FermionSigns FermionMain FermionModels.
Import ListNotations.
Local Open Scope nat_scope.

Section Fermion.
Context (o : ops) (val : Amp o -> C) (Rng : Type) (rows cols dim : nat) (tps : sitps o) (ker : kernel o Rng)
  (occ : nat -> list bool) (Psi : list nat -> C).
Hypothesis Hr : 2 <= rows.
Hypothesis Hc : 2 <= cols.

Lemma fermion_sum (M : model) nnn holes (h Full : visit -> operator) ons (w : wst o Rng) :
  (forall v, In v (calls holes nnn rows cols) -> is_hole v = false -> fermionic_window o val rows cols dim tps occ Psi v) ->
  (forall v, In v (calls holes nnn rows cols) -> is_hole v = false -> term dim M v (h v) false) ->
  (forall v, In v (calls holes nnn rows cols) -> is_hole v = false ->
     two_site occ dim (rows * cols) (index cols (fst (ends v))) (index cols (snd (ends v))) (Full v) (h v)) ->
  m_onsite M rows cols (cfg w) = Ok ons ->
  ready o rows cols w -> projected o rows cols tps (cfg w) (tn w) -> all_states rows cols (fun x => x < dim) (cfg w) ->
  Psi (flat rows cols (cfg w)) <> RtoC 0 ->
  exists w' r, fermion_energy val M nnn holes tps ker rows cols w = Ok (w', r) /\
    e_total r = (sumC (fun v => local_energy dim (rows * cols) (Full v) Psi (flat rows cols (cfg w)))
                      (filter (fun v => negb (is_hole v)) (calls holes nnn rows cols)) + ons)%C /\
    e_holes r = flat_map (hole_at o rows cols (tn w)) (calls holes nnn rows cols) /\
    ready o rows cols w' /\ cfg w' = cfg w /\ tn w' = tn w /\ amp w' = amp w /\ rng w' = rng w.
Proof.
  intros HW HT HF HO Hw HP HS HZ.
  assert (HN : forall v, In v (calls holes nnn rows cols) -> is_hole v = false -> trace_visit o val rows cols v (tn w) <> RtoC 0).
  { intros v Hv Hh. eapply fermion_trace_neq with (dim := dim) (occ := occ) (Psi := Psi) (c := cfg w); eauto; try lia.
    eapply calls_visit_in; eauto. }
  destruct (energy_of_sum o val Rng rows cols tps ker M true dim (cal_energy_fermion holes nnn rows cols) h false ons w)
    as (w' & E & R); auto; try discriminate.
  - apply pure_energy_fermion.
  - apply energy_fermion_ok; auto.
  - rewrite visits_energy_fermion. intros v Hv. eapply calls_visit_in; eauto.
  - rewrite visits_energy_fermion. exact HT.
  - intros q Hq. apply queries_energy_fermion in Hq. destruct Hq as [(i & Hi & ->)|(i & Hi & ->)].
    + apply (HN (VBond HORIZONTAL (i, 0))); [|reflexivity]. apply calls_in. simpl. lia.
    + apply (HN (VBond VERTICAL (0, i))); [|reflexivity]. apply calls_in. simpl. lia.
  - rewrite visits_energy_fermion. exact HN.
  - exists w'. eexists. split; [exact E|]. cbn [e_total e_holes]. rewrite visits_energy_fermion. split; [|split; [reflexivity|exact R]].
    f_equal. apply sumC_ext. intros v Hv. apply filter_In in Hv. destruct Hv as [Hv Nh]. apply negb_true_iff in Nh.
    eapply fermion_visit; eauto; try lia.
    + eapply calls_visit_in; eauto.
    + apply places_ends. apply calls_in in Hv. destruct v; simpl in *; try contradiction; try discriminate; reflexivity.
Qed.
End Fermion.

(** *** Diagonal operators of the whole lattice *)
Lemma diag_energy dim n (A : operator) (x : R) Psi S : In S (all_configs dim n) -> Psi S <> RtoC 0 ->
  (forall S', In S' (all_configs dim n) -> A S S' = if list_eq_dec Nat.eq_dec S S' then RtoC x else RtoC 0) ->
  local_energy dim n A Psi S = RtoC x.
Proof.
  intros HS HZ HA. unfold local_energy.
  rewrite (sumC_ext _ (fun S' => if list_eq_dec Nat.eq_dec S S' then (RtoC x * Psi S)%C else RtoC 0)).
  - assert (G : forall l, NoDup l -> In S l -> sumC (fun S' => if list_eq_dec Nat.eq_dec S S' then (RtoC x * Psi S)%C else RtoC 0) l = (RtoC x * Psi S)%C).
    { induction l as [|y l IH]; intros ND Hi; [destruct Hi|]. inversion ND; subst. rewrite sumC_cons. destruct Hi as [->|Hi].
      - destruct (list_eq_dec Nat.eq_dec S S); [|congruence]. rewrite sumC_zero; [ring|]. intros z Hz.
        destruct (list_eq_dec Nat.eq_dec S z); [subst; contradiction|reflexivity].
      - destruct (list_eq_dec Nat.eq_dec S y) as [->|]; [contradiction|]. rewrite IH by auto. ring. }
    rewrite G; [|apply all_configs_nodup|exact HS]. rewrite conj_term by exact HZ. apply Cconj_R.
  - intros S' HS'. rewrite HA by auto. destruct (list_eq_dec Nat.eq_dec S S'); [subst; reflexivity|ring].
Qed.
Definition occupied (m : nat) (n : fock) : bool := nth m n false.
Lemma num_sem m n : m < length n -> num m n = if occupied m n then [(1%Z, n)] else [].
Proof.
  intros H. unfold num, fmul, annihilate, occupied. destruct (nth m n false) eqn:E; [|reflexivity].
  cbn [flat_map snd fst]. unfold create.
  assert (L : length (set_mode m false n) = length n) by (apply set_mode_length; exact H).
  rewrite (nth_indep _ true false) by lia. rewrite set_mode_nth, Nat.eqb_refl by exact H. cbn [map app]. f_equal. f_equal.
  - rewrite !passing_cnt.
    assert (X : cnt (fun i => i <? m) (set_mode m false n) = cnt (fun i => i <? m) n).
    { unfold cnt. rewrite L. apply list_sum_ext. intros i Hi. unfold one. rewrite set_mode_nth by exact H.
      destruct (Nat.eqb_spec i m) as [->|]; [|reflexivity]. rewrite Nat.ltb_irrefl. reflexivity. }
    rewrite X. apply sgn_sq.
  - cbn [snd]. assert (L2 : length (set_mode m true (set_mode m false n)) = length n) by (rewrite set_mode_length; lia).
    apply fock_ext; [exact L2|]. intros i Hi. rewrite set_mode_nth by lia. rewrite set_mode_nth by lia.
    destruct (Nat.eqb_spec i m) as [->|]; [congruence|reflexivity].
Qed.
Section Diag.
Context (occ : nat -> list bool) (dim N : nat).
Hypothesis Hlen : forall c, c < dim -> length (occ c) = 2.
Hypothesis Hinj : forall c c', c < dim -> c' < dim -> occ c = occ c' -> c = c'.
Lemma occ_inj S S' : In S (all_configs dim N) -> In S' (all_configs dim N) -> flat_map occ S = flat_map occ S' -> S = S'.
Proof.
  intros HS HS' E. apply all_configs_in in HS, HS'. destruct HS as [L F], HS' as [L' F'].
  apply list_ext; [lia|]. intros i Hi.
  assert (Hc : nth i S 0 < dim) by (rewrite Forall_forall in F; apply F, nth_In; lia).
  assert (Hc' : nth i S' 0 < dim) by (rewrite Forall_forall in F'; apply F', nth_In; lia).
  apply Hinj; auto. apply fock_ext; [rewrite !Hlen by auto; reflexivity|]. rewrite Hlen by exact Hc. intros j Hj.
  rewrite <- !(flat_nth occ 2 dim) by (auto; lia). rewrite E. reflexivity.
Qed.
Definition up (c : nat) : bool := nth 0 (occ c) false.
Definition down (c : nat) : bool := nth 1 (occ c) false.
Lemma coeff_diag (b : bool) n n' : (fold_right (fun y acc => (if fock_eqb (snd y) n then fst y + acc else acc)%Z) 0%Z (if b then [(1%Z, n')] else [])) =
  (if fock_eqb n' n then if b then 1 else 0 else 0)%Z.
Proof. destruct b; cbn; destruct (fock_eqb n' n); reflexivity. Qed.
Lemma density_energy Psi S i : In S (all_configs dim N) -> i < N -> Psi S <> RtoC 0 ->
  local_energy dim N (in_basis occ (density (2 * i) (2 * i + 1))) Psi S =
  RtoC (IZR ((if up (nth i S 0%nat) then 1 else 0) + (if down (nth i S 0%nat) then 1 else 0))%Z).
Proof.
  intros HS Hi HZ. apply diag_energy; auto. intros S' HS'. unfold in_basis.
  pose proof HS as HS0. pose proof HS' as HS0'. apply all_configs_in in HS0, HS0'. destruct HS0 as [L F], HS0' as [L' F'].
  assert (LF : length (flat_map occ S') = 2 * N) by (rewrite (flat_len occ 2 dim) by auto; lia).
  unfold coeff, density, fadd. rewrite !num_sem by lia. rewrite fold_right_app.
  assert (U : occupied (2 * i) (flat_map occ S') = up (nth i S' 0)).
  { unfold occupied, up. rewrite <- (flat_nth occ 2 dim) by (auto; lia). f_equal. lia. }
  assert (D : occupied (2 * i + 1) (flat_map occ S') = down (nth i S' 0)).
  { unfold occupied, down. rewrite <- (flat_nth occ 2 dim) by (auto; lia). reflexivity. }
  rewrite U, D.
  destruct (list_eq_dec Nat.eq_dec S S') as [<-|Hn].
  - assert (X : fock_eqb (flat_map occ S) (flat_map occ S) = true) by (apply fock_eqb_eq; reflexivity).
    destruct (up _), (down _); cbn [fold_right snd fst]; rewrite ?X; reflexivity.
  - assert (X : fock_eqb (flat_map occ S') (flat_map occ S) = false).
    { apply not_true_is_false. intros X. apply fock_eqb_eq in X. apply Hn. symmetry. apply occ_inj; auto. }
    destruct (up _), (down _); cbn [fold_right snd fst]; rewrite ?X; reflexivity.
Qed.
Lemma double_energy Psi S i : In S (all_configs dim N) -> i < N -> Psi S <> RtoC 0 ->
  local_energy dim N (in_basis occ (fmul (num (2 * i)) (num (2 * i + 1)))) Psi S =
  RtoC (IZR (if up (nth i S 0%nat) && down (nth i S 0%nat) then 1 else 0)%Z).
Proof.
  intros HS Hi HZ. apply diag_energy; auto. intros S' HS'. unfold in_basis.
  pose proof HS as HS0. pose proof HS' as HS0'. apply all_configs_in in HS0, HS0'. destruct HS0 as [L F], HS0' as [L' F'].
  assert (LF : length (flat_map occ S') = 2 * N) by (rewrite (flat_len occ 2 dim) by auto; lia).
  assert (U : occupied (2 * i) (flat_map occ S') = up (nth i S' 0)).
  { unfold occupied, up. rewrite <- (flat_nth occ 2 dim) by (auto; lia). f_equal. lia. }
  assert (D : occupied (2 * i + 1) (flat_map occ S') = down (nth i S' 0)).
  { unfold occupied, down. rewrite <- (flat_nth occ 2 dim) by (auto; lia). reflexivity. }
  assert (E : fmul (num (2 * i)) (num (2 * i + 1)) (flat_map occ S') =
     if up (nth i S' 0) && down (nth i S' 0) then [(1%Z, flat_map occ S')] else []).
  { unfold fmul. rewrite (num_sem (2 * i + 1)) by lia. rewrite D. destruct (down _).
    - cbn [flat_map snd fst]. rewrite num_sem by lia. rewrite U. destruct (up _); reflexivity.
    - rewrite andb_false_r. reflexivity. }
  unfold coeff. rewrite E, coeff_diag.
  destruct (list_eq_dec Nat.eq_dec S S') as [<-|Hn].
  - assert (X : fock_eqb (flat_map occ S) (flat_map occ S) = true) by (apply fock_eqb_eq; reflexivity). rewrite X. reflexivity.
  - assert (X : fock_eqb (flat_map occ S') (flat_map occ S) = false).
    { apply not_true_is_false. intros X. apply fock_eqb_eq in X. apply Hn. symmetry. apply occ_inj; auto. }
    rewrite X. reflexivity.
Qed.
End Diag.

(** Counting states site by site. *)
Lemma count_sites p rows cols c : RtoC (INR (count p rows cols c)) =
  sumC (fun s => RtoC (if p (c (fst s) (snd s)) then 1 else 0)) (all_sites rows cols).
Proof.
  unfold count, all_sites, for_. rewrite !Nat.sub_0_r.
  assert (R : forall i l, RtoC (INR (length (filter p (flat_map (fun k => [c i k]) l)))) =
     sumC (fun s => RtoC (if p (c (fst s) (snd s)) then 1 else 0)) (map (fun y => (i, y)) l)).
  { intros i l. induction l as [|k l IH]; [reflexivity|]. cbn [flat_map map app filter]. rewrite sumC_cons, <- IH. cbn [fst snd].
    destruct (p (c i k)); cbn [length]; [rewrite S_INR, Rplus_comm, RtoC_add; reflexivity|ring]. }
  induction (seq 0 rows) as [|i l IH]; [reflexivity|]. cbn [flat_map list_prod]. rewrite filter_app, app_length, plus_INR, RtoC_add.
  rewrite sumC_app, <- IH, R. reflexivity.
Qed.

(** *** The modes of a pair of sites *)
Definition e_hop (a b : nat) : fexp := FAdd (FMul (FC a) (FA b)) (FMul (FC b) (FA a)).
Definition e_num (a : nat) : fexp := FMul (FC a) (FA a).
Definition e_density (u d : nat) : fexp := FAdd (e_num u) (e_num d).
Definition e_2sz (u d : nat) : fexp := FAdd (e_num u) (FScal (-1) (e_num d)).
Definition e_hops : fexp := FAdd (e_hop 0 2) (e_hop 1 3).
Definition e_dens : fexp := FMul (e_density 0 1) (e_density 2 3).
Definition e_dot : fexp :=
  FAdd (FAdd (FScal 2 (FMul (FMul (FC 0) (FA 1)) (FMul (FC 3) (FA 2)))) (FScal 2 (FMul (FMul (FC 1) (FA 0)) (FMul (FC 2) (FA 3)))))
       (FMul (e_2sz 0 1) (e_2sz 2 3)).
Definition e_pair : fexp :=
  FAdd (FAdd (FMul (FC 0) (FC 3)) (FScal (-1) (FMul (FC 1) (FC 2))))
       (FAdd (FMul (FA 3) (FA 0)) (FScal (-1) (FMul (FA 2) (FA 1)))).
Section Modes.
Context (occ : nat -> list bool) (dim N a b : nat).
Hypothesis Hlen : forall c, c < dim -> length (occ c) = 2.
Hypothesis Hinj : forall c c', c < dim -> c' < dim -> occ c = occ c' -> c = c'.
Hypothesis Ha : a < N.
Hypothesis Hb : b < N.
Hypothesis Hab : a <> b.
Lemma labs : lab 2 a b 0 = 2 * a /\ lab 2 a b 1 = 2 * a + 1 /\ lab 2 a b 2 = 2 * b /\ lab 2 a b 3 = 2 * b + 1.
Proof. unfold lab. cbn [Nat.ltb Nat.leb Nat.sub]. repeat split; lia. Qed.
Lemma ts e F h : labels_in 4 e = true -> sem (lab 2 a b) e = F -> sem (fun l => l) e = h -> two_site occ dim N a b (in_basis occ F) (in_basis occ h).
Proof. intros Hl <- <-. apply two_site_sem with (k := 2); auto. Qed.
Lemma ts_hop : two_site occ dim N a b (in_basis occ (hop_spinful (2 * a) (2 * a + 1) (2 * b) (2 * b + 1))) (in_basis occ (hop_spinful 0 1 2 3)).
Proof. destruct labs as (A & B & C & D). apply (ts e_hops); [reflexivity| |reflexivity]. cbn [sem e_hops e_hop]. rewrite A, B, C, D. reflexivity. Qed.
Lemma ts_dens : two_site occ dim N a b (in_basis occ (density_product (2 * a) (2 * a + 1) (2 * b) (2 * b + 1))) (in_basis occ (density_product 0 1 2 3)).
Proof. destruct labs as (A & B & C & D). apply (ts e_dens); [reflexivity| |reflexivity]. cbn [sem e_dens e_density e_num]. rewrite A, B, C, D. reflexivity. Qed.
Lemma ts_heis : two_site occ dim N a b
  (in_basis occ (fadd (four_spin_dot (2 * a) (2 * a + 1) (2 * b) (2 * b + 1)) (fscal (-1) (density_product (2 * a) (2 * a + 1) (2 * b) (2 * b + 1)))))
  (in_basis occ (fadd (four_spin_dot 0 1 2 3) (fscal (-1) (density_product 0 1 2 3)))).
Proof.
  destruct labs as (A & B & C & D). apply (ts (FAdd e_dot (FScal (-1) e_dens))); [reflexivity| |reflexivity].
  cbn [sem e_dot e_dens e_density e_num e_2sz]. rewrite A, B, C, D. reflexivity.
Qed.
Lemma ts_pair : two_site occ dim N a b (in_basis occ (root2_pairing (2 * a) (2 * a + 1) (2 * b) (2 * b + 1))) (in_basis occ (root2_pairing 0 1 2 3)).
Proof. destruct labs as (A & B & C & D). apply (ts e_pair); [reflexivity| |reflexivity]. cbn [sem e_pair]. rewrite A, B, C, D. reflexivity. Qed.
End Modes.
Lemma occ_hubbard_len c : c < 4 -> length (occ_hubbard c) = 2.
Proof. destruct c as [|[|[|[|c]]]]; intros; try reflexivity; lia. Qed.
Lemma occ_hubbard_inj c c' : c < 4 -> c' < 4 -> occ_hubbard c = occ_hubbard c' -> c = c'.
Proof. destruct c as [|[|[|[|c]]]], c' as [|[|[|[|c']]]]; simpl; intros; try reflexivity; try lia; discriminate. Qed.
Lemma occ_tj_len c : c < 3 -> length (occ_tj c) = 2.
Proof. destruct c as [|[|[|c]]]; intros; try reflexivity; lia. Qed.
Lemma occ_tj_inj c c' : c < 3 -> c' < 3 -> occ_tj c = occ_tj c' -> c = c'.
Proof. destruct c as [|[|[|c]]], c' as [|[|[|c']]]; simpl; intros; try reflexivity; try lia; discriminate. Qed.
Lemma occ_spinless_len c : c < 2 -> length (occ_spinless c) = 1.
Proof. destruct c as [|[|c]]; intros; try reflexivity; lia. Qed.
Lemma occ_spinless_inj c c' : c < 2 -> c' < 2 -> occ_spinless c = occ_spinless c' -> c = c'.
Proof. destruct c as [|[|c]], c' as [|[|c']]; simpl; intros; try reflexivity; try lia; discriminate. Qed.

(** *** The three models *)
Lemma ends_distinct rows cols holes nnn v : In v (calls holes nnn rows cols) -> is_hole v = false ->
  index cols (fst (ends v)) < rows * cols /\ index cols (snd (ends v)) < rows * cols /\
  index cols (fst (ends v)) <> index cols (snd (ends v)).
Proof.
  intros Hv Hh. pose proof (calls_visit_in _ _ _ _ _ Hv) as Hin.
  pose proof (places_nodup rows cols v Hin) as ND. pose proof (places_lt rows cols v Hin) as LT.
  assert (B : is_bond v || is_diag v = true) by (apply calls_in in Hv; destruct v; simpl in *; try contradiction; try discriminate; reflexivity).
  rewrite (places_ends cols v B) in ND, LT. inversion LT; subst. inversion H2; subst. inversion ND; subst.
  repeat split; auto. intros E. apply H5. left. auto.
Qed.
Lemma all_calls_bond nnn holes rows cols v : In v (calls holes nnn rows cols) -> is_hole v = false -> is_bond v = true \/ is_diag v = true.
Proof. intros Hv Hh. apply calls_in in Hv. destruct v; simpl in *; try contradiction; try discriminate; auto. Qed.

Section Models.
Context (o : ops) (val : Amp o -> C) (Rng : Type) (rows cols : nat) (tps : sitps o) (ker : kernel o Rng) (Psi : list nat -> C).
Hypothesis Hr : 2 <= rows.
Hypothesis Hc : 2 <= cols.

Lemma flat_nth_index c s : fst s < rows -> snd s < cols -> nth (index cols s) (flat rows cols c) 0 = c (fst s) (snd s).
Proof. intros A B. exact (flat_pos rows cols c s A B). Qed.
Lemma index_lt s : fst s < rows -> snd s < cols -> index cols s < rows * cols.
Proof. intros A B. exact (pos_of_lt rows cols s A B). Qed.

Lemma hubbard_energy t U mu holes (w : wst o Rng) :
  (forall v, lattice_visit rows cols false false v -> fermionic_window o val rows cols 4 tps occ_hubbard Psi v) ->
  ready o rows cols w -> projected o rows cols tps (cfg w) (tn w) -> all_states rows cols (fun x => x < 4) (cfg w) ->
  Psi (flat rows cols (cfg w)) <> RtoC 0 ->
  exists w' r, fermion_energy val (hubbard_model t U mu) false holes tps ker rows cols w = Ok (w', r) /\
    e_total r = local_energy 4 (rows * cols) (H_hubbard rows cols t U mu) Psi (flat rows cols (cfg w)) /\
    e_holes r = flat_map (hole_at o rows cols (tn w)) (calls holes false rows cols) /\
    ready o rows cols w' /\ cfg w' = cfg w /\ tn w' = tn w /\ amp w' = amp w /\ rng w' = rng w.
Proof.
  intros HW Hw HP HS HZ.
  pose proof (flat_states rows cols ltac:(lia) ltac:(lia) 4 (cfg w) HS) as HC.
  destruct (fermion_sum o val Rng rows cols 4 tps ker occ_hubbard Psi Hr Hc (hubbard_model t U mu) false holes
     (fun _ => h_hubbard t 0 1 2 3) (fun v => on_modes cols (h_hubbard t) (ends v)) (hubbard_onsite U mu rows cols (cfg w)) w) as (w' & r & E & T & R); auto.
  - intros v Hv Hh. apply HW. apply calls_in in Hv. destruct v; simpl in *; try contradiction; try discriminate; tauto.
  - intros v Hv Hh. apply calls_in in Hv. destruct v; simpl in *; try contradiction; try discriminate.
    + apply hubbard_term.
    + destruct Hv; discriminate.
  - intros v Hv Hh. destruct (ends_distinct _ _ _ _ _ Hv Hh) as (A & B & D). apply two_site_scal.
    apply ts_hop; auto using occ_hubbard_len, occ_hubbard_inj.
  - exists w', r. split; [exact E|]. split; [|exact R]. rewrite T. unfold H_hubbard. rewrite local_energy_add. f_equal.
    + rewrite local_energy_sum, split_visits, no_diag, sumC_nil.
      rewrite (sum_bonds _ (fun ab => local_energy 4 (rows * cols) (on_modes cols (h_hubbard t) ab) Psi (flat rows cols (cfg w)))) by reflexivity.
      ring.
    + rewrite local_energy_sum. unfold hubbard_onsite.
      rewrite (sumC_ext _ (fun s => RtoC U * RtoC (if (cfg w (fst s) (snd s) =? 0)%nat then 1 else 0) +
         RtoC (- mu) * ((RtoC 1 + RtoC 1) * RtoC (if (cfg w (fst s) (snd s) =? 0)%nat then 1 else 0) +
                        RtoC (if ((cfg w (fst s) (snd s) =? 1) || (cfg w (fst s) (snd s) =? 2))%nat then 1 else 0)))%C).
      * rewrite sumC_add, !sumC_scal, sumC_add, sumC_scal.
        rewrite <- (count_sites (fun x => x =? 0)), <- (count_sites (fun x => (x =? 1) || (x =? 2))).
        rewrite plus_INR, mult_INR, <- !RtoC_add, <- !RtoC_mul, <- RtoC_add, <- RtoC_mul, <- RtoC_add. f_equal. simpl (INR 2). ring.
      * intros s Hs. apply all_sites_in in Hs. destruct Hs as [A B]. rewrite local_energy_add, !local_energy_scal.
        unfold up_mode, down_mode.
        rewrite (double_energy occ_hubbard 4), (density_energy occ_hubbard 4) by (auto using occ_hubbard_len, occ_hubbard_inj, index_lt).
        rewrite flat_nth_index by assumption. specialize (HS _ _ A B). cbv beta in HS.
        destruct (cfg w (fst s) (snd s)) as [|[|[|[|x]]]]; try lia; cbn; repeat rewrite <- ?RtoC_mul, <- ?RtoC_add;
          f_equal; ring.
Qed.

Lemma spinless_energy t t2 V holes (w : wst o Rng) :
  (forall v, lattice_visit rows cols false true v -> fermionic_window o val rows cols 2 tps occ_spinless Psi v) ->
  ready o rows cols w -> projected o rows cols tps (cfg w) (tn w) -> all_states rows cols (fun x => x < 2) (cfg w) ->
  Psi (flat rows cols (cfg w)) <> RtoC 0 ->
  exists w' r, fermion_energy val (spinless_model t t2 V) true holes tps ker rows cols w = Ok (w', r) /\
    e_total r = local_energy 2 (rows * cols) (H_spinless rows cols t t2 V) Psi (flat rows cols (cfg w)) /\
    e_holes r = flat_map (hole_at o rows cols (tn w)) (calls holes true rows cols) /\
    ready o rows cols w' /\ cfg w' = cfg w /\ tn w' = tn w /\ amp w' = amp w /\ rng w' = rng w.
Proof.
  intros HW Hw HP HS HZ.
  destruct (fermion_sum o val Rng rows cols 2 tps ker occ_spinless Psi Hr Hc (spinless_model t t2 V) true holes
     (fun v => if is_bond v then h_spinless t V 0 1 else h_spinless t2 0 0 1)
     (fun v => if is_bond v then h_spinless t V (index cols (fst (ends v))) (index cols (snd (ends v)))
               else h_spinless t2 0 (index cols (fst (ends v))) (index cols (snd (ends v)))) (RtoC 0) w) as (w' & r & E & T & R); auto.
  - intros v Hv Hh. apply HW. apply calls_in in Hv. destruct v; simpl in *; try contradiction; try discriminate; tauto.
  - intros v Hv Hh. apply calls_in in Hv. destruct v; simpl in *; try contradiction; try discriminate.
    + apply spinless_bond_term.
    + apply spinless_diag_term.
  - intros v Hv Hh. destruct (ends_distinct _ _ _ _ _ Hv Hh) as (A & B & D).
    set (a := index cols (fst (ends v))) in *. set (b := index cols (snd (ends v))) in *.
    assert (L : lab 1 a b 0 = a /\ lab 1 a b 1 = b) by (unfold lab; cbn [Nat.ltb Nat.leb Nat.sub]; lia). destruct L as [L0 L1].
    assert (X : forall e F h0, labels_in 2 e = true -> sem (lab 1 a b) e = F -> sem (fun l => l) e = h0 ->
       two_site occ_spinless 2 (rows * cols) a b (in_basis occ_spinless F) (in_basis occ_spinless h0)).
    { intros e F h0 Hl <- <-. apply two_site_sem with (k := 1); auto using occ_spinless_len, occ_spinless_inj. }
    assert (G : forall t0 V0, two_site occ_spinless 2 (rows * cols) a b (h_spinless t0 V0 a b) (h_spinless t0 V0 0 1)).
    { intros t0 V0. apply two_site_add; apply two_site_scal.
      - apply (X (e_hop 0 1)); [reflexivity| |reflexivity]. cbn [sem e_hop]. rewrite L0, L1. reflexivity.
      - apply (X (FMul (e_num 0) (e_num 1))); [reflexivity| |reflexivity]. cbn [sem e_num]. rewrite L0, L1. reflexivity. }
    destruct (is_bond v); apply G.
  - exists w', r. split; [exact E|]. split; [|exact R]. rewrite T. unfold H_spinless. rewrite local_energy_add, !local_energy_sum, split_visits.
    rewrite (sum_bonds _ (fun ab => local_energy 2 (rows * cols) (h_spinless t V (index cols (fst ab)) (index cols (snd ab))) Psi (flat rows cols (cfg w))))
      by (intros v _ B; rewrite B; reflexivity).
    rewrite (sum_diags _ (fun ab => local_energy 2 (rows * cols) (h_spinless t2 0 (index cols (fst ab)) (index cols (snd ab))) Psi (flat rows cols (cfg w))))
      by (intros v _ B; destruct v; try discriminate; reflexivity).
    ring.
Qed.

(** The pinned bond of the tJ model, however its two ends are given. *)
Lemma set_pinning_spec a b delta p : nearest a b = true -> set_pinning a b delta = Ok p \/ set_pinning b a delta = Ok p ->
  exists d s, p = (d, s, delta) /\ sites_of (VBond d s) = [a; b].
Proof.
  destruct a as [ar ac], b as [br bc]. unfold nearest, set_pinning. cbn [fst snd]. intros N H.
  apply orb_true_iff in N. rewrite !andb_true_iff, !Nat.eqb_eq in N. destruct N as [[-> ->]|[-> ->]].
  - exists HORIZONTAL, (ar, ac). rewrite Nat.ltb_irrefl, Nat.sub_diag in H. replace (ac + 1 <? ac) with false in H by (symmetry; apply Nat.ltb_ge; lia).
    replace (ac <? ac + 1) with true in H by (symmetry; apply Nat.ltb_lt; lia).
    replace (ac + 1 - ac) with 1 in H by lia. cbn [Nat.add Nat.eqb negb] in H. split; [destruct H as [H|H]; injection H as <-; reflexivity|].
    simpl. repeat (f_equal; try lia).
  - exists VERTICAL, (ar, ac). rewrite Nat.ltb_irrefl, Nat.sub_diag in H. replace (ar + 1 <? ar) with false in H by (symmetry; apply Nat.ltb_ge; lia).
    replace (ar <? ar + 1) with true in H by (symmetry; apply Nat.ltb_lt; lia).
    replace (ar + 1 - ar) with 1 in H by lia. cbn [Nat.add Nat.eqb negb] in H. split; [destruct H as [H|H]; injection H as <-; reflexivity|].
    simpl. repeat (f_equal; try lia).
Qed.
Lemma site_eqb_true a b : site_eqb a b = true <-> a = b.
Proof. destruct a, b. unfold site_eqb. cbn [fst snd]. rewrite andb_true_iff, !Nat.eqb_eq. split; [intros [-> ->]; reflexivity|intros H; injection H as -> ->; auto]. Qed.
Definition pin_matches (pin : option (orient * site * R)) (l : list (site * site * R)) : Prop :=
  match pin, l with
  | None, [] => True
  | Some (d, s, delta), [(a, b, delta')] => delta = delta' /\ sites_of (VBond d s) = [a; b] /\ In (a, b) (pairs rows cols nearest)
  | _, _ => False
  end.
Lemma sumC_single {X} (f : X -> C) x l : NoDup l -> In x l -> (forall y, y <> x -> f y = RtoC 0) -> sumC f l = f x.
Proof.
  intros ND Hi Hz. induction l as [|y l IH]; [destruct Hi|]. inversion ND; subst. rewrite sumC_cons. destruct Hi as [->|Hi].
  - rewrite sumC_zero; [ring|]. intros z Hz'. apply Hz. intros ->. contradiction.
  - rewrite Hz by (intros ->; contradiction). rewrite IH by auto. ring.
Qed.
Lemma bond_ends_inj d s d' s' : sites_of (VBond d s) = sites_of (VBond d' s') -> d = d' /\ s = s'.
Proof. destruct d, d', s as [r c], s' as [r' c']; simpl; intros H; injection H; intros; try (split; [reflexivity|f_equal; lia]); lia. Qed.

Lemma tj_energy t t2 J V mu pin pl holes (w : wst o Rng) :
  pin_matches pin pl ->
  (forall v, lattice_visit rows cols false true v -> fermionic_window o val rows cols 3 tps occ_tj Psi v) ->
  ready o rows cols w -> projected o rows cols tps (cfg w) (tn w) -> all_states rows cols (fun x => x < 3) (cfg w) ->
  Psi (flat rows cols (cfg w)) <> RtoC 0 ->
  exists w' r, fermion_energy val (tj_model t t2 J V mu pin) true holes tps ker rows cols w = Ok (w', r) /\
    e_total r = local_energy 3 (rows * cols) (H_tj rows cols t t2 J V mu pl) Psi (flat rows cols (cfg w)) /\
    e_holes r = flat_map (hole_at o rows cols (tn w)) (calls holes true rows cols) /\
    ready o rows cols w' /\ cfg w' = cfg w /\ tn w' = tn w /\ amp w' = amp w /\ rng w' = rng w.
Proof.
  intros HPin HW Hw HP HS HZ.
  pose proof (flat_states rows cols ltac:(lia) ltac:(lia) 3 (cfg w) HS) as HC.
  destruct (fermion_sum o val Rng rows cols 3 tps ker occ_tj Psi Hr Hc (tj_model t t2 J V mu pin) true holes
     (fun v => tj_h t t2 J V pin v 0 1 2 3) (fun v => on_modes cols (tj_h t t2 J V pin v) (ends v))
     (RtoC (- mu * INR (count (fun x => negb (x =? 2)) rows cols (cfg w)))) w) as (w' & r & E & T & R); auto.
  - intros v Hv Hh. apply HW. apply calls_in in Hv. destruct v; simpl in *; try contradiction; try discriminate; tauto.
  - intros v Hv Hh. apply calls_in in Hv. destruct v; simpl in Hv, Hh; try contradiction; try discriminate.
    + apply tj_bond_term.
    + apply tj_diag_term.
  - intros v Hv Hh. destruct (ends_distinct _ _ _ _ _ Hv Hh) as (A & B & D).
    assert (G : forall t0 J0 V0, two_site occ_tj 3 (rows * cols) (index cols (fst (ends v))) (index cols (snd (ends v)))
       (on_modes cols (h_tj t0 J0 V0) (ends v)) (h_tj t0 J0 V0 0 1 2 3)).
    { intros t0 J0 V0. apply two_site_add; [apply two_site_scal|apply two_site_add; apply two_site_scal].
      - apply ts_hop; auto using occ_tj_len, occ_tj_inj.
      - apply ts_heis; auto using occ_tj_len, occ_tj_inj.
      - apply ts_dens; auto using occ_tj_len, occ_tj_inj. }
    unfold tj_h. destruct v as [d s|g s| | |]; try apply G. destruct (pinned pin d s); [|apply G].
    apply two_site_add; [apply G|]. apply two_site_scal. apply ts_pair; auto using occ_tj_len, occ_tj_inj.
  - cbn [m_onsite tj_model]. unfold tj_onsite. destruct pin as [[[d s] delta]|]; [|reflexivity].
    destruct pl as [|[[a b] delta'] [|]]; try contradiction. destruct HPin as (-> & Es & Hin). unfold pairs in Hin.
    apply filter_In in Hin. destruct Hin as [Hin _]. apply in_prod_iff in Hin. rewrite !all_sites_in in Hin.
    assert (X : a = s /\ b = site_shift d s 1) by (destruct d, s as [r0 c0]; simpl in Es; injection Es as <- <-; split; reflexivity).
    destruct X as [<- <-]. destruct Hin as [[A1 A2] [B1 B2]].
    unfold in_lattice. apply Nat.ltb_lt in A1, A2, B1, B2. rewrite A1, A2, B1, B2. reflexivity.
  - exists w', r. split; [exact E|]. split; [|exact R]. rewrite T. unfold H_tj. rewrite !local_energy_add, !local_energy_sum, split_visits.
    set (le := fun A => local_energy 3 (rows * cols) A Psi (flat rows cols (cfg w))).
    set (pe := fun ab : site * site => match pl with
               | [(a, b, delta)] => if site_eqb (fst ab) a && site_eqb (snd ab) b then le (on_modes cols (h_pairing delta) ab) else RtoC 0
               | _ => RtoC 0 end).
    rewrite (sum_bonds _ (fun ab => le (on_modes cols (h_tj t J V) ab) + pe ab)%C).
    + rewrite (sum_diags _ (fun ab => le (on_modes cols (h_tj t2 0 0) ab))) by (intros v _ B; destruct v; try discriminate; reflexivity).
      rewrite sumC_add.
      assert (P : sumC pe (pairs rows cols nearest) = sumC (fun p => le (on_modes cols (h_pairing (snd p)) (fst p))) pl).
      { unfold pe. destruct pin as [[[d s] delta]|], pl as [|[[a b] delta'] [|]]; try contradiction.
        - destruct HPin as (-> & Es & Hin). rewrite (sumC_single _ (a, b)).
          + cbn [fst snd]. assert (Q : forall x, site_eqb x x = true) by (intros; apply site_eqb_true; reflexivity). rewrite !Q. rewrite sumC_cons, sumC_nil. cbn [fst snd andb]. ring.
          + apply NoDup_filter. apply nodup_prod; apply all_sites_nodup.
          + exact Hin.
          + intros [x y] Hn. cbn [fst snd]. destruct (site_eqb x a && site_eqb y b) eqn:Q; [|reflexivity].
            apply andb_true_iff in Q. destruct Q as [Q1 Q2]. apply site_eqb_true in Q1, Q2. subst. contradiction.
        - rewrite sumC_zero by reflexivity. reflexivity. }
      rewrite P.
      assert (O : RtoC (- mu * INR (count (fun x => negb (x =? 2)) rows cols (cfg w))) =
         sumC (fun x => le (op_scal (- mu) (in_basis occ_tj (density (up_mode cols x) (down_mode cols x))))) (all_sites rows cols)).
      { rewrite RtoC_mul, count_sites, <- sumC_scal. apply sumC_ext. intros s Hs. apply all_sites_in in Hs. destruct Hs as [A B].
        unfold le. rewrite local_energy_scal. f_equal. unfold up_mode, down_mode.
        rewrite (density_energy occ_tj 3) by (auto using occ_tj_len, occ_tj_inj, index_lt).
        rewrite flat_nth_index by assumption. specialize (HS _ _ A B). cbv beta in HS.
        destruct (cfg w (fst s) (snd s)) as [|[|[|x]]]; try lia; cbn; f_equal; lra. }
      rewrite O. unfold le. ring.
    + intros v Hv B. destruct v as [d s|g s| | |]; try discriminate. unfold tj_h, pe.
      destruct pin as [[[d' s'] delta]|], pl as [|[[a b] delta'] [|]]; try contradiction.
      * destruct HPin as (-> & Es & Hin). cbn [pinned].
        assert (X : orient_eqb d' d && site_eqb s' s = site_eqb (fst (ends (VBond d s))) a && site_eqb (snd (ends (VBond d s))) b).
        { apply eq_true_iff_eq. rewrite !andb_true_iff, !site_eqb_true. split.
          - intros [Q ->]. assert (d' = d) as -> by (destruct d', d; try discriminate; reflexivity).
            unfold ends. rewrite Es. split; reflexivity.
          - intros [Q1 Q2]. assert (Q : sites_of (VBond d' s') = sites_of (VBond d s)).
            { rewrite Es, <- Q1, <- Q2. destruct d; reflexivity. }
            apply bond_ends_inj in Q. destruct Q as [-> ->]. split; [destruct d; reflexivity|reflexivity]. }
        rewrite <- X. destruct (orient_eqb d' d && site_eqb s' s).
        -- unfold le. apply local_energy_add.
        -- transitivity (le (on_modes cols (h_tj t J V) (ends (VBond d s)))); [reflexivity|ring].
      * transitivity (le (on_modes cols (h_tj t J V) (ends (VBond d s)))); [reflexivity|ring].
Qed.
End Models.
