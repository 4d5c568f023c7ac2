(** The sum of the visits is the local energy of the Hamiltonian. *)
From Coq Require Import List Arith Lia Bool Reals Permutation.
From Verif Require Import Base ContractorModel ContractorSpec ContractorProofs SweepModel SweepSpec SweepProofs
  HistoryProofs SweepMain UpdaterSpec UpdaterChain BlockChain Cplx EnergyModel EnergySpec EnergyProofs.
Import ListNotations.
Local Open Scope nat_scope.

(** *** Operators on few sites *)
Lemma agree_off_iff ps S S' : length S = length S' ->
  (agree_off ps S S' = true <-> forall i, i < length S -> ~ In i ps -> nth i S 0 = nth i S' 0).
Proof.
  intros HL. unfold agree_off. rewrite forallb_forall. split.
  - intros H i Hi Hn. specialize (H i). rewrite in_seq in H. specialize (H ltac:(lia)).
    apply orb_true_iff in H. destruct H as [H|H]; [|apply Nat.eqb_eq; exact H].
    apply existsb_exists in H. destruct H as (j & Hj & E). apply Nat.eqb_eq in E. subst. contradiction.
  - intros H i Hi. apply in_seq in Hi. apply orb_true_iff.
    destruct (in_dec Nat.eq_dec i ps) as [I|I].
    + left. apply existsb_exists. exists i. split; [exact I|apply Nat.eqb_refl].
    + right. apply Nat.eqb_eq. apply H; [lia|exact I].
Qed.
Lemma get_length ps S : length (get ps S) = length ps.
Proof. apply map_length. Qed.

Section LocalOp.
Context (dim n : nat) (ps : list nat) (S : list nat).
Hypothesis HS : In S (all_configs dim n).
Hypothesis Hd : NoDup ps.
Hypothesis HF : Forall (fun i => i < n) ps.
Let HSl : length S = n. Proof. apply all_configs_in in HS. tauto. Qed.
Let HF' : Forall (fun i => i < length S) ps. Proof. rewrite HSl. exact HF. Qed.

Lemma agreeing : Permutation (filter (agree_off ps S) (all_configs dim n))
                             (map (fun ns => put ps ns S) (all_configs dim (length ps))).
Proof.
  apply NoDup_Permutation.
  - apply NoDup_filter, all_configs_nodup.
  - assert (forall l, (forall x, In x l -> length x = length ps) -> NoDup l -> NoDup (map (fun ns => put ps ns S) l)) as G.
    { induction l as [|x l IH]; intros Hl ND; [constructor|]. inversion ND; subst. simpl. constructor.
      - intros Hi. apply in_map_iff in Hi. destruct Hi as (y & E & Hy).
        apply put_inj in E; auto; try (apply Hl; simpl; auto). subst. contradiction.
      - apply IH; auto. intros y Hy. apply Hl. right. exact Hy. }
    apply G; [|apply all_configs_nodup]. intros x Hx. apply all_configs_in in Hx. tauto.
  - intros T. rewrite filter_In, in_map_iff. apply all_configs_in in HS. destruct HS as [_ HSd]. split.
    + intros [HT HA]. apply all_configs_in in HT. destruct HT as [HTl HTd].
      rewrite agree_off_iff in HA by congruence.
      exists (get ps T). split.
      * apply list_ext; [rewrite put_length; congruence|]. rewrite put_length. intros k Hk.
        destruct (in_dec Nat.eq_dec k ps) as [I|I].
        -- apply In_nth with (d := 0) in I. destruct I as (j & Hj & <-).
           pose proof (get_put ps (get ps T) S Hd HF' (get_length _ _)) as G.
           assert (nth j (get ps (put ps (get ps T) S)) 0 = nth j (get ps T) 0) as E by now rewrite G.
           assert (forall L, nth j (get ps L) 0 = nth (nth j ps 0) L 0) as GN.
           { intros L. unfold get. rewrite (nth_indep _ 0 ((fun i => nth i L 0) 0)) by (rewrite map_length; exact Hj).
             rewrite (map_nth (fun i => nth i L 0)). reflexivity. }
           rewrite !GN in E. exact E.
        -- rewrite put_other by auto. apply HA; auto.
      * apply all_configs_in. split; [apply get_length|]. apply get_states; auto.
        rewrite HTl. exact HF.
    + intros (ns & <- & Hns). apply all_configs_in in Hns. destruct Hns as [Hl Hnd].
      split.
      * apply all_configs_in. rewrite put_length. split; [exact HSl|]. apply put_states; auto.
      * apply agree_off_iff; [now rewrite put_length|]. intros i Hi Hn. symmetry. apply put_other; auto.
Qed.

Lemma local_op_sum (A : operator) (Psi : list nat -> C) :
  sumC (fun S' => on_sites ps A S S' * Psi S')%C (all_configs dim n) =
  sumC (fun ns => A (get ps S) ns * Psi (put ps ns S))%C (all_configs dim (length ps)).
Proof.
  rewrite (sumC_ext _ (fun S' => if agree_off ps S S' then (A (get ps S) (get ps S') * Psi S')%C else RtoC 0)).
  2:{ intros S' _. unfold on_sites. destruct (agree_off ps S S'); ring. }
  rewrite sumC_filter, (sumC_perm _ _ _ agreeing), sumC_map. apply sumC_ext. intros ns Hns.
  apply all_configs_in in Hns. rewrite get_put by (auto; tauto). reflexivity.
Qed.
End LocalOp.

Lemma local_energy_add dim n A B Psi S :
  local_energy dim n (op_add A B) Psi S = (local_energy dim n A Psi S + local_energy dim n B Psi S)%C.
Proof.
  unfold local_energy, op_add, Cdiv. rewrite <- Cconj_add.
  rewrite (sumC_ext _ (fun S' => (A S S' * Psi S' + B S S' * Psi S')%C)) by (intros; ring).
  rewrite sumC_add. f_equal. ring.
Qed.
Lemma local_energy_sum {X} dim n (f : X -> operator) l Psi S :
  local_energy dim n (op_sum f l) Psi S = sumC (fun x => local_energy dim n (f x) Psi S) l.
Proof.
  induction l as [|x l IH].
  - unfold local_energy, op_sum, Cdiv. rewrite (sumC_zero (fun S' => _)) by (intros; rewrite sumC_nil; ring).
    rewrite Cconj_mul, Cconj_R. rewrite sumC_nil. ring.
  - rewrite sumC_cons, <- IH, <- local_energy_add. reflexivity.
Qed.
Lemma local_energy_scal dim n x A Psi S :
  local_energy dim n (op_scal x A) Psi S = (RtoC x * local_energy dim n A Psi S)%C.
Proof.
  unfold local_energy, op_scal, Cdiv.
  rewrite (sumC_ext _ (fun S' => (RtoC x * (A S S' * Psi S'))%C)) by (intros; ring).
  rewrite sumC_scal, !Cconj_mul, Cconj_R. ring.
Qed.
(** An operator diagonal in the configuration basis. *)
Lemma local_energy_diag dim n ps (A : operator) (f : list nat -> R) Psi S :
  In S (all_configs dim n) -> NoDup ps -> Forall (fun i => i < n) ps -> Psi S <> RtoC 0 ->
  (forall cs ns, In cs (all_configs dim (length ps)) -> In ns (all_configs dim (length ps)) ->
     A cs ns = if list_eq_dec Nat.eq_dec cs ns then RtoC (f cs) else RtoC 0) ->
  local_energy dim n (on_sites ps A) Psi S = RtoC (f (get ps S)).
Proof.
  intros HS Hd HF HP HA. unfold local_energy. rewrite local_op_sum; auto.
  assert (Hg : In (get ps S) (all_configs dim (length ps))).
  { apply all_configs_in in HS. apply all_configs_in. split; [apply get_length|]. apply get_states; [tauto|].
    destruct HS as [-> _]. exact HF. }
  rewrite (sumC_ext _ (fun ns => (if list_eq_dec Nat.eq_dec ns (get ps S) then RtoC (f (get ps S)) * Psi S else RtoC 0)%C)).
  - assert (G : forall l, NoDup l -> In (get ps S) l ->
      sumC (fun ns => (if list_eq_dec Nat.eq_dec ns (get ps S) then RtoC (f (get ps S)) * Psi S else RtoC 0)%C) l
        = (RtoC (f (get ps S)) * Psi S)%C).
    { induction l as [|x l IH]; intros ND Hi; [destruct Hi|]. inversion ND; subst. rewrite sumC_cons.
      destruct Hi as [->|Hi].
      - destruct (list_eq_dec Nat.eq_dec (get ps S) (get ps S)) as [_|N]; [|congruence].
        rewrite sumC_zero; [ring|]. intros y Hy. destruct (list_eq_dec Nat.eq_dec y (get ps S)); [subst; contradiction|reflexivity].
      - destruct (list_eq_dec Nat.eq_dec x (get ps S)) as [->|N]; [contradiction|]. rewrite IH by auto. ring. }
    rewrite G; [|apply all_configs_nodup|exact Hg].
    unfold Cdiv. rewrite <- (Cconj_R (f (get ps S))) at 2. f_equal.
    assert (E : (RtoC (f (get ps S)) * Psi S * Cinv (Psi S))%C = (RtoC (f (get ps S)) * (Psi S * Cinv (Psi S)))%C) by ring.
    rewrite E, Cinv_r by exact HP. ring.
  - intros ns Hns. rewrite HA by auto.
    destruct (list_eq_dec Nat.eq_dec (get ps S) ns) as [E|N], (list_eq_dec Nat.eq_dec ns (get ps S)) as [E'|N']; try congruence.
    + subst ns. rewrite put_same; auto. apply all_configs_in in HS. destruct HS as [-> _]. exact HF.
    + ring.
Qed.

(** *** Traces in the window of a visit *)
Section Visit.
Context (o : ops) (val : Amp o -> C) (rows cols : nat) (tps : sitps o).

Definition visit_in (v : visit) : Prop :=
  match query_of v with Q1 d s k => window_in rows cols d s k | Q2 d s k => window2_in rows cols d s k end.

Lemma substituted_other n : forall sites ns r c, ~ In (r, c) sites -> substituted o tps n sites ns r c = n r c.
Proof.
  unfold substituted. intros sites. revert n. induction sites as [|a sites IH]; intros n ns r c Hn; [reflexivity|].
  destruct ns as [|x ns]; [reflexivity|]. cbn [combine fold_left fst snd]. rewrite IH by (simpl in Hn; tauto).
  unfold upd2. destruct (site_eqb (r, c) a) eqn:E; [|reflexivity].
  exfalso. apply Hn. left. unfold site_eqb in E. apply andb_true_iff in E. destruct E as [E1 E2].
  apply Nat.eqb_eq in E1, E2. destruct a; simpl in *; subst; reflexivity.
Qed.
Lemma substituted_in n : forall sites ns r c x, NoDup sites -> In ((r, c), x) (combine sites ns) ->
  substituted o tps n sites ns r c = tps r c x.
Proof.
  intros sites. revert n. induction sites as [|a sites IH]; intros n ns r c x Hd Hi; [destruct ns; destruct Hi|].
  destruct ns as [|y ns]; [destruct Hi|]. inversion Hd; subst. cbn [combine] in Hi.
  destruct Hi as [E|Hi].
  - inversion E; subst. change (substituted o tps (upd2 n (r, c) (tps r c x)) sites ns r c = tps r c x).
    rewrite substituted_other by assumption. unfold upd2, site_eqb. simpl. rewrite !Nat.eqb_refl. reflexivity.
  - change (substituted o tps (upd2 n a (tps (fst a) (snd a) y)) sites ns r c = tps r c x). apply IH; auto.
Qed.

Lemma sites_in_window v r c : is_hole v = false -> In (r, c) (sites_of v) ->
  match query_of v with Q1 d s k => In (r, c) (chain d s k) | Q2 d s k => sees2 d s k r c end.
Proof.
  destruct v as [d s|g s|d g s|s|s]; intros Hh Hi; try discriminate.
  - cbn [query_of sites_of] in *. unfold chain. cbn [seq map]. destruct s as [r0 c0], d; simpl in *;
    destruct Hi as [E|[E|[]]]; inversion E; subst; [left|right; left|left|right; left]; f_equal; lia.
  - cbn [query_of sites_of] in *. destruct s as [r0 c0], g; unfold sees2; simpl in *;
    destruct Hi as [E|[E|[]]]; inversion E; subst; lia.
  - cbn [query_of sites_of] in *. destruct s as [r0 c0], g, d; unfold sees2; simpl in *;
    destruct Hi as [E|[E|[]]]; inversion E; subst; lia.
  - cbn [query_of sites_of] in *. unfold chain. cbn [seq map]. destruct s as [r0 c0]; simpl in *.
    destruct Hi as [E|[]]; inversion E; subst. left. f_equal. lia.
Qed.

Lemma answer_substituted n v ns : is_hole v = false -> visit_in v ->
  answer o rows cols n (query_of v) = answer o rows cols (substituted o tps n (sites_of v) ns) (query_of v).
Proof.
  intros Hh Hin. unfold visit_in in Hin. pose proof (sites_in_window v) as W.
  destruct (query_of v) as [d s k|d s k] eqn:E; cbn [answer]; f_equal.
  - apply window_ext; auto. { destruct v; inversion E; lia. }
    intros r c Hr Hc Hn. symmetry. apply substituted_other. intros Hi. apply Hn. exact (W r c Hh Hi).
  - apply window2_ext; auto. { destruct v; inversion E; lia. }
    intros r c Hr Hc Hn. symmetry. apply substituted_other. intros Hi. apply Hn. exact (W r c Hh Hi).
Qed.

Lemma trace_win_substituted n v ns : is_hole v = false -> visit_in v ->
  exists p, trace_win o (substituted o tps n (sites_of v) ns) (query_of v) (answer o rows cols n (query_of v)) = Some p /\
    val p = trace_visit o val rows cols v (substituted o tps n (sites_of v) ns).
Proof.
  intros Hh Hin. rewrite (answer_substituted n v ns Hh Hin).
  destruct (trace_win_answer o val rows cols (substituted o tps n (sites_of v) ns) (query_of v)) as (p & E1 & E2).
  exists p. split; [exact E1|]. rewrite E2. reflexivity.
Qed.

Lemma sites_in_lattice v : visit_in v -> forallb (in_lattice rows cols) (sites_of v) = true.
Proof.
  unfold visit_in. intros Hin. apply forallb_forall. intros [r c] Hi. unfold in_lattice. apply andb_true_iff.
  rewrite !Nat.ltb_lt.
  destruct v as [d s|g s|d g s|s|s]; cbn [query_of sites_of] in *; destruct s as [r0 c0].
  - destruct d; simpl in *; destruct Hi as [E|[E|[]]]; inversion E; subst; lia.
  - destruct g; simpl in *; destruct Hi as [E|[E|[]]]; inversion E; subst; lia.
  - destruct g, d; simpl in *; destruct Hi as [E|[E|[]]]; inversion E; subst; lia.
  - simpl in *; destruct Hi as [E|[]]; inversion E; subst; lia.
  - simpl in *; destruct Hi as [E|[]]; inversion E; subst; lia.
Qed.

(** Traces depend on the tensors of the lattice only. *)
Lemma chain_in_lattice d s k y : window_in rows cols d s k -> In y (chain d s k) -> fst y < rows /\ snd y < cols.
Proof.
  intros Hin Hy. destruct y as [r c]. apply chain_in in Hy. destruct d, s; simpl in *; lia.
Qed.
Lemma trace_visit_ext v n n' : visit_in v ->
  (forall r c, r < rows -> c < cols -> n r c = n' r c) -> trace_visit o val rows cols v n = trace_visit o val rows cols v n'.
Proof.
  intros Hin E. unfold trace_visit, visit_in in *.
  assert (K : match query_of v with Q1 _ _ k | Q2 _ _ k => 1 <= k end) by (destruct v; simpl; lia).
  destruct (query_of v) as [d s k|d s k]; f_equal.
  - unfold trace_at. rewrite (window_ext o rows cols n n') by auto.
    destruct (window1_spec o rows cols n' d s k) as [[ms e1] e2]. f_equal. apply map_ext_in. intros y Hy.
    apply chain_in_lattice in Hy; auto. apply E; tauto.
  - unfold trace2_at. rewrite (window2_ext o rows cols n n') by auto.
    destruct (window2_spec o rows cols n' d s k) as [[ms e1] e2]. f_equal. unfold layer_pairs. apply map_ext_in.
    intros i Hi. apply in_seq in Hi. destruct d, s; simpl in *; rewrite !E by lia; reflexivity.
Qed.

Lemma sites_nodup v : NoDup (sites_of v).
Proof.
  assert (G : forall a b : site, a <> b -> NoDup [a; b]).
  { intros a b H. constructor; [intros [E|[]]; congruence|constructor; [intros []|constructor]]. }
  destruct v as [d s|g s|d g s|s|s]; cbn [sites_of].
  - apply G. destruct d, s; simpl; intros E; inversion E; lia.
  - destruct g; apply G; destruct s; simpl; intros E; inversion E; lia.
  - destruct g, d; apply G; destruct s; simpl; intros E; inversion E; lia.
  - constructor; [intros []|constructor].
  - constructor; [intros []|constructor].
Qed.

(** Substituting the current states changes nothing. *)
Lemma substituted_same n c sites : projected o rows cols tps c n -> NoDup sites ->
  forall r k, r < rows -> k < cols ->
  substituted o tps n sites (map (fun y => c (fst y) (snd y)) sites) r k = n r k.
Proof.
  intros HP Hd r k Hr Hk.
  destruct (in_dec (fun a b : site => ltac:(decide equality; apply Nat.eq_dec)) (r, k) sites) as [I|I].
  - rewrite (substituted_in n sites _ r k (c r k)); auto.
    + symmetry. apply HP; auto.
    + clear Hd. induction sites as [|a sites IH]; [destruct I|]. cbn [map combine]. destruct I as [->|I]; [left; reflexivity|].
      right. apply IH. exact I.
  - apply substituted_other. exact I.
Qed.

(** A model contributes <cs|h|T>/<cs|T>, conjugated, at a visit. *)
Definition term (dim : nat) (M : model) (v : visit) (h : operator) (boson : bool) : Prop :=
  forall cs inv T, In cs (all_configs dim (length (sites_of v))) -> T cs <> RtoC 0 ->
    (boson = true -> inv = Some (Cinv (T cs))) ->
    m_visit M v cs inv (T cs) T =
    Ok (Cconj (sumC (fun ns => h cs ns * T ns)%C (all_configs dim (length (sites_of v))) / T cs)%C).

Definition states_at (c : nat -> nat -> nat) (v : visit) : list nat := map (fun y => c (fst y) (snd y)) (sites_of v).
(** Contribution of a visit in terms of the traces in its window. *)
Definition visit_energy (dim : nat) (h : operator) (c : nat -> nat -> nat) (n : net o) (v : visit) : C :=
  Cconj (sumC (fun ns => h (states_at c v) ns * trace_visit o val rows cols v (substituted o tps n (sites_of v) ns))%C
              (all_configs dim (length (sites_of v)))
         / trace_visit o val rows cols v n)%C.

Lemma on_visit_term dim (M : model) v h boson c n a :
  term dim M v h boson -> is_hole v = false -> visit_in v -> projected o rows cols tps c n ->
  all_states rows cols (fun x => x < dim) c -> trace_visit o val rows cols v n <> RtoC 0 ->
  (boson = true -> a_inv a = Some (Cinv (trace_visit o val rows cols v n))) ->
  on_visit o val M tps rows cols c n v (answer o rows cols n (query_of v)) a =
  Ok (mkAcc (a_inv a) (a_energies a ++ [visit_energy dim h c n v]) (a_psis a) (a_holes a)).
Proof.
  intros HT Hh Hin HP HS HZ Hb. unfold on_visit. rewrite (sites_in_lattice v Hin).
  destruct (trace_win_answer o val rows cols n (query_of v)) as (p & E1 & E2). rewrite E1.
  set (T := fun ns => trace_visit o val rows cols v (substituted o tps n (sites_of v) ns)).
  assert (ET : T (states_at c v) = trace_visit o val rows cols v n).
  { unfold T. apply trace_visit_ext; auto. apply substituted_same; auto. apply sites_nodup. }
  assert (EM : m_visit M v (map (fun y => c (fst y) (snd y)) (sites_of v)) (a_inv a) (val p)
     (fun ns => match trace_win o (substituted o tps n (sites_of v) ns) (query_of v) (answer o rows cols n (query_of v)) with
                | Some q => val q | None => RtoC 0 end) =
     m_visit M v (states_at c v) (a_inv a) (T (states_at c v)) T).
  { rewrite ET. f_equal; [exact E2|].
    assert (X : forall ns, match trace_win o (substituted o tps n (sites_of v) ns) (query_of v) (answer o rows cols n (query_of v)) with
                | Some q => val q | None => RtoC 0 end = T ns).
    { intros ns. destruct (trace_win_substituted n v ns Hh Hin) as (q & -> & ->). reflexivity. }
    apply FunctionalExtensionality.functional_extensionality. exact X. }
  assert (In (states_at c v) (all_configs dim (length (sites_of v)))) as HC.
  { apply all_configs_in. unfold states_at. rewrite map_length. split; [reflexivity|].
    apply Forall_forall. intros x Hx. apply in_map_iff in Hx. destruct Hx as ([r k] & <- & Hy).
    pose proof (sites_in_lattice v Hin) as L. rewrite forallb_forall in L. apply L in Hy.
    unfold in_lattice in Hy. apply andb_true_iff in Hy. destruct Hy as [A B]. apply Nat.ltb_lt in A, B. apply HS; auto. }
  destruct v; try discriminate; rewrite EM, (HT _ _ _ HC); auto; rewrite ET; auto.
Qed.
End Visit.
