(** Assembly: what a spin-1/2 measurement returns. *)
From Coq Require Import List Arith Lia Bool Reals Permutation Lra.
From Verif Require Import Base ContractorModel ContractorSpec ContractorProofs SweepModel SweepSpec SweepProofs
  HistoryProofs SweepMain UpdaterSpec UpdaterChain BlockChain Cplx EnergyModel EnergySpec EnergyProofs EnergySum EnergyMain
  EnergyModels TriModel TriSpec TriProofs ObsModel ObsSpec TriFail ObsProofs.
Import ListNotations.
Local Open Scope nat_scope.

(** *** The traversal as a program *)
Lemma pure_traverse nnn rows cols : forallb pure_cmd (traverse_all nnn rows cols) = true.
Proof. unfold traverse_all, traverse_horizontal. rewrite pure_app, pure_vertical, andb_true_r. pure. Qed.
Lemma traverse_traced_first nnn rows cols : 1 <= rows -> traced_first (traverse_all nnn rows cols).
Proof.
  intros H. unfold traverse_all. apply traced_first_app. unfold traverse_horizontal, for_. rewrite Nat.sub_0_r.
  destruct rows as [|rows]; [lia|]. cbn [seq flat_map app].
  eexists [Generate UP; InitE LEFT 0; GrowE RIGHT 0 1 true], _, _. split; [cbn [app]; reflexivity|split; reflexivity].
Qed.
Lemma queries_for_eq a b f : queries (for_ a b f) = for_ a b (fun i => queries (f i)).
Proof. apply flat_map_flat_map. Qed.
Lemma for_nil {X} a b (f : nat -> list X) : (forall i, f i = []) -> for_ a b f = [].
Proof. intros H. unfold for_. induction (seq a (b - a)) as [|i l IH]; [reflexivity|]. simpl. now rewrite H, IH. Qed.
Lemma for_one {X} a b (f : nat -> X) (g : nat -> list X) : (forall i, g i = [f i]) -> for_ a b g = map f (seq a (b - a)).
Proof. intros H. unfold for_. induction (seq a (b - a)) as [|i l IH]; [reflexivity|]. simpl. now rewrite H, IH. Qed.
Lemma queries_traverse nnn rows cols : queries (traverse_all nnn rows cols) =
  map (fun row => Q1 HORIZONTAL (row, 0) 2) (seq 0 rows) ++ map (fun col => Q1 VERTICAL (0, col) 2) (seq 0 cols).
Proof.
  unfold traverse_all, traverse_horizontal, traverse_vertical. rewrite !queries_app.
  change (queries [Generate UP]) with (@nil query). change (queries [Generate LEFT]) with (@nil query). rewrite !app_nil_l.
  rewrite !queries_for_eq. f_equal.
  - rewrite (for_one 0 rows (fun row => Q1 HORIZONTAL (row, 0) 2)); [rewrite Nat.sub_0_r; reflexivity|].
    intros i. cbv beta. rewrite !queries_app, queries_for_eq, for_nil by reflexivity.
    assert (E : forall b l, queries l = [] -> queries (when b l) = []) by (intros [] l; auto).
    rewrite !E; auto. rewrite queries_app, queries_for_eq. apply for_nil. reflexivity.
  - rewrite (for_one 0 cols (fun col => Q1 VERTICAL (0, col) 2)); [rewrite Nat.sub_0_r; reflexivity|].
    intros i. cbv beta. rewrite !queries_app, queries_for_eq.
    assert (E : forall b l, queries l = [] -> queries (when b l) = []) by (intros [] l; auto).
    rewrite for_nil by (intros j; rewrite queries_app, E; reflexivity). rewrite !E; auto.
Qed.
Lemma first_bond_traverse nnn rows cols q : In q (queries (traverse_all nnn rows cols)) -> first_bond rows cols q.
Proof.
  rewrite queries_traverse, in_app_iff, !in_map_iff. intros [(i & <- & Hi)|(i & <- & Hi)]; apply in_seq in Hi.
  - left. exists i. split; [lia|reflexivity].
  - right. exists i. split; [lia|reflexivity].
Qed.
Lemma visited_ideal o rows cols (n : net o) l : visited (ideal o rows cols n l) = visits l.
Proof.
  induction l as [|x l IH]; [reflexivity|]. unfold ideal in *. cbn [flat_map]. unfold visited, visits in *. rewrite flat_map_app, IH.
  cbn [flat_map]. f_equal. destruct x; reflexivity.
Qed.

Lemma map_const_seq {X} (x : X) n k : map (fun _ => x) (seq k n) = repeat x n.
Proof. revert k. induction n as [|n IH]; intros k; simpl; [reflexivity|]. now rewrite IH. Qed.

(** *** Two flipped spins *)
Lemma agree_off_sym ps S S' : length S = length S' -> agree_off ps S S' = agree_off ps S' S.
Proof.
  intros L. unfold agree_off. rewrite L. induction (seq 0 (length S')) as [|i l IH]; [reflexivity|]. simpl. rewrite IH. f_equal. f_equal. apply Nat.eqb_sym.
Qed.
Lemma adjoint_on ps A S S' : length S = length S' -> adjoint (on_sites ps A) S S' = on_sites ps (adjoint A) S S'.
Proof.
  intros L. unfold adjoint, on_sites. rewrite (agree_off_sym ps S' S) by (symmetry; exact L).
  destruct (agree_off ps S S'); [reflexivity|apply Cconj_R].
Qed.
Lemma flip_mp T a b : a < 2 -> b < 2 ->
  sumC (fun ns => adjoint (tensor Sp Sm) [a; b] ns * T ns)%C (all_configs 2 2) =
  if b =? a then RtoC 0 else if a =? 0 then T [1 - a; 1 - b] else RtoC 0.
Proof.
  intros Ha Hb. rewrite pairs_of_two, !sumC_cons, sumC_nil. unfold adjoint, tensor, Sp, Sm, one_site.
  destruct a as [|[|a]], b as [|[|b]]; try lia; simpl; rewrite ?Cconj_mul, ?Cconj_R; ring.
Qed.
Lemma flip_pm T a b : a < 2 -> b < 2 ->
  sumC (fun ns => adjoint (tensor Sm Sp) [a; b] ns * T ns)%C (all_configs 2 2) =
  if b =? a then RtoC 0 else if a =? 0 then RtoC 0 else T [1 - a; 1 - b].
Proof.
  intros Ha Hb. rewrite pairs_of_two, !sumC_cons, sumC_nil. unfold adjoint, tensor, Sp, Sm, one_site.
  destruct a as [|[|a]], b as [|[|b]]; try lia; simpl; rewrite ?Cconj_mul, ?Cconj_R; ring.
Qed.

Section Obs.
Context (o : ops) (val : Amp o -> C) (Rng : Type) (rows cols : nat) (tps : sitps o) (ker : kernel o Rng) (psi : net o -> Amp o).
Hypothesis Hr : 2 <= rows.
Hypothesis Hc : 2 <= cols.
Hypothesis H1 : contraction_consistent o rows cols psi.
Context (w : wst o Rng).
Hypothesis Hw : ready o rows cols w.
Hypothesis HP : projected o rows cols tps (cfg w) (tn w).
Hypothesis HS : all_states rows cols (fun x => x < 2) (cfg w).
Notation Psi := (wave o val cols psi tps).
Notation c := (cfg w).
Notation S0 := (flat rows cols (cfg w)).
Notation eloc := (fun A => local_energy 2 (rows * cols) A Psi S0).

Lemma corr_value_ok s1 s2 : s1 <> s2 -> fst s1 < rows -> snd s1 < cols -> fst s2 < rows -> snd s2 < cols ->
  corr_value val (Cinv (Psi S0)) (corr_entry o rows cols tps c (flipped o tps c (tn w) s1) s1 s2) =
  if c (fst s2) (snd s2) =? c (fst s1) (snd s1) then RtoC 0
  else Cconj (Psi (put [index cols s1; index cols s2] [(1 - c (fst s1) (snd s1))%nat; (1 - c (fst s2) (snd s2))%nat] S0) / Psi S0)%C.
Proof.
  intros Hn A1 A2 B1 B2. unfold corr_entry. destruct (_ =? _); [reflexivity|]. cbn [corr_value]. unfold Cdiv. do 2 f_equal.
  rewrite H1 by (simpl; lia). unfold wave.
  apply (psi_ext o val rows cols psi ltac:(lia) ltac:(lia) H1). intros r k Hrr Hk.
  pose proof (substituted_project o rows cols tps c (tn w) [s1; s2] [1 - c (fst s1) (snd s1); 1 - c (fst s2) (snd s2)] HP) as SP.
  assert (L : forallb (in_lattice rows cols) [s1; s2] = true).
  { simpl. unfold in_lattice. rewrite !andb_true_iff, !Nat.ltb_lt. auto. }
  rewrite <- SP; auto. repeat constructor; simpl; intuition.
Qed.
Lemma two_point_sum A B s1 s2 : s1 <> s2 -> fst s1 < rows -> snd s1 < cols -> fst s2 < rows -> snd s2 < cols ->
  eloc (adjoint (two_point cols A s1 B s2)) =
  Cconj (sumC (fun ns => adjoint (tensor A B) [c (fst s1) (snd s1); c (fst s2) (snd s2)] ns *
                         Psi (put [index cols s1; index cols s2] ns S0))%C (all_configs 2 2) / Psi S0)%C.
Proof.
  intros Hn A1 A2 B1 B2. unfold two_point. pose proof (flat_states rows cols ltac:(lia) ltac:(lia) 2 c HS) as FS.
  rewrite (local_energy_ext 2 (rows * cols) _ (on_sites [index cols s1; index cols s2] (adjoint (tensor A B)))).
  2:{ intros S' HS'. apply adjoint_on. apply all_configs_in in FS, HS'. destruct FS as [-> _], HS' as [-> _]. reflexivity. }
  unfold local_energy. rewrite local_op_sum; auto.
  - assert (L : forallb (in_lattice rows cols) [s1; s2] = true).
    { simpl. unfold in_lattice. rewrite !andb_true_iff, !Nat.ltb_lt. auto. }
    pose proof (get_places rows cols [s1; s2] c L) as G. cbn [map] in G. rewrite G. reflexivity.
  - constructor; [|constructor; [intros []|constructor]]. intros [E|[]]. apply Hn. symmetry. eapply index_inj; eauto.
  - repeat constructor; apply pos_of_lt; auto.
Qed.
Lemma spsm_ok s1 s2 : s1 <> s2 -> fst s1 < rows -> snd s1 < cols -> fst s2 < rows -> snd s2 < cols ->
  (if c (fst s1) (snd s1) =? 0
   then corr_value val (Cinv (Psi S0)) (corr_entry o rows cols tps c (flipped o tps c (tn w) s1) s1 s2) else RtoC 0) =
  eloc (adjoint (two_point cols Sp s1 Sm s2)).
Proof.
  intros Hn A1 A2 B1 B2. cbv beta. rewrite two_point_sum by auto. rewrite flip_mp by (apply HS; auto). rewrite corr_value_ok by auto.
  assert (Z : Cconj (RtoC 0 / Psi S0)%C = RtoC 0) by (unfold Cdiv; rewrite Cconj_mul, Cconj_R; ring).
  destruct (c (fst s1) (snd s1) =? 0); destruct (c (fst s2) (snd s2) =? c (fst s1) (snd s1)); auto.
Qed.
Lemma smsp_ok s1 s2 : s1 <> s2 -> fst s1 < rows -> snd s1 < cols -> fst s2 < rows -> snd s2 < cols ->
  (if c (fst s1) (snd s1) =? 0 then RtoC 0
   else corr_value val (Cinv (Psi S0)) (corr_entry o rows cols tps c (flipped o tps c (tn w) s1) s1 s2)) =
  eloc (adjoint (two_point cols Sm s1 Sp s2)).
Proof.
  intros Hn A1 A2 B1 B2. cbv beta. rewrite two_point_sum by auto. rewrite flip_pm by (apply HS; auto). rewrite corr_value_ok by auto.
  assert (Z : Cconj (RtoC 0 / Psi S0)%C = RtoC 0) by (unfold Cdiv; rewrite Cconj_mul, Cconj_R; ring).
  destruct (c (fst s1) (snd s1) =? 0); destruct (c (fst s2) (snd s2) =? c (fst s1) (snd s1)); auto.
Qed.

Notation mid := (rows / 2, cols / 4).
Notation at_ k := (rows / 2, cols / 4 + k).
Lemma channels_ok : channels (c (rows / 2) (cols / 4)) (map (corr_value val (Cinv (Psi S0))) (corr_row o rows cols tps c (tn w) (rows / 2))) =
  (map (fun k => eloc (adjoint (two_point cols Sm mid Sp (at_ k)))) (seq 1 (cols / 2)),
   map (fun k => eloc (adjoint (two_point cols Sp mid Sm (at_ k)))) (seq 1 (cols / 2))).
Proof.
  destruct (quarter_half rows cols Hr Hc) as [Q1 Q2]. assert (Hm : rows / 2 < rows) by (apply Nat.div_lt; lia).
  unfold corr_row.
  rewrite (for_one 1 (cols / 2 + 1) (fun i => corr_entry o rows cols tps c (flipped o tps c (tn w) mid) mid (at_ i))) by reflexivity.
  replace (cols / 2 + 1 - 1) with (cols / 2) by lia. unfold channels.
  assert (NE : forall k, In k (seq 1 (cols / 2)) -> mid <> at_ k /\ cols / 4 + k < cols).
  { intros k Hk. apply in_seq in Hk. split; [|lia]. intros E. inversion E. lia. }
  destruct (c (rows / 2) (cols / 4) =? 0) eqn:E; rewrite !map_map; f_equal; apply map_ext_in; intros k Hk; destruct (NE k Hk) as [N L];
  [rewrite <- smsp_ok|rewrite <- spsm_ok|rewrite <- smsp_ok|rewrite <- spsm_ok]; cbn [fst snd]; auto; try lia; rewrite E; reflexivity.
Qed.

(** *** One sample *)
Hypothesis HZ : Psi S0 <> RtoC 0.
Lemma measure_sum M (nnn : bool) (h : visit -> operator) ons :
  (nnn = true -> contraction_consistent2 o rows cols psi) ->
  (forall v, is_bond v || is_diag v = true -> term 2 M v (h v) true) ->
  m_onsite M rows cols c = Ok ons ->
  exists w' r, measure val M nnn tps ker rows cols w = Ok (w', r) /\
    o_energy r = (sumC (fun v => eloc (on_sites (places cols v) (h v))) (calls false nnn rows cols) + ons)%C /\
    o_bonds r = map (fun v => (v, eloc (on_sites (places cols v) (h v)))) (calls false nnn rows cols) /\
    o_psis r = repeat (Psi S0) (rows + cols) /\
    o_smsp r = map (fun k => eloc (adjoint (two_point cols Sm mid Sp (at_ k)))) (seq 1 (cols / 2)) /\
    o_spsm r = map (fun k => eloc (adjoint (two_point cols Sp mid Sm (at_ k)))) (seq 1 (cols / 2)) /\
    o_sz r = sz_values rows cols c /\ o_szsz r = packed_upper (sz_values rows cols c) /\
    ready o rows cols w' /\ cfg w' = cfg w /\ tn w' = tn w /\ amp w' = amp w /\ rng w' = rng w.
Proof.
  intros H2 HT HO.
  assert (HL : forall v, In v (calls false nnn rows cols) -> two_layer v = true -> contraction_consistent2 o rows cols psi).
  { intros v Hv E. apply calls_in in Hv. destruct v as [d s|g s|d g s|s|s]; simpl in Hv; try discriminate; try contradiction.
    apply H2. tauto. }
  assert (NH : forall v, In v (calls false nnn rows cols) -> is_bond v || is_diag v = true /\ is_hole v = false).
  { intros v Hv. apply calls_in in Hv. destruct v; simpl in Hv; try contradiction; auto. destruct Hv. discriminate. }
  pose proof Hw as G0. apply ready_sG in G0.
  destruct (mt_measure o Rng rows cols tps ker Hr Hc c (amp w) (rng w) nnn (tn w) HS HP w) as (w' & E & A1 & A2 & A3 & A4 & G1).
  { unfold fr. auto 6. }
  apply ready_sG in G1.
  destruct (traverse_ok o Rng rows cols tps ker nnn Hr Hc w Hw) as (w1 & lg & E1 & _ & F).
  pose proof (run_ideal o Rng rows cols tps ker _ _ _ _ (pure_traverse nnn rows cols) E1 F) as EI.
  destruct (evaluate_sum o val Rng rows cols tps ker M true 2 (traverse_all nnn rows cols) h true w w1 lg) as (i & EV); auto.
  - apply pure_traverse.
  - intros _. apply traverse_traced_first. lia.
  - intros v Hv. rewrite visits_traverse in Hv. eapply calls_visit_in; eauto.
  - intros v Hv _. rewrite visits_traverse in Hv. apply HT, NH, Hv.
  - intros q Hq. rewrite (first_bond_psi o val Rng rows cols tps psi); auto. eapply first_bond_traverse; eauto.
  - intros v Hv Hh. rewrite visits_traverse in Hv. rewrite (visit_psi o val Rng rows cols tps psi); eauto. eapply calls_visit_in; eauto.
  - intros _ q v Hq Hv Hh. rewrite visits_traverse in Hv.
    rewrite (first_bond_psi o val Rng rows cols tps psi); auto; [|eapply first_bond_traverse; eauto].
    apply visit_psi; eauto. eapply calls_visit_in; eauto.
  - rewrite EI, visits_traverse in EV.
    assert (EF : filter (fun v => negb (is_hole v)) (calls false nnn rows cols) = calls false nnn rows cols).
    { assert (Q : forall l, (forall v, In v l -> is_hole v = false) -> filter (fun v => negb (is_hole v)) l = l).
      { induction l as [|v l IH]; intros K; [reflexivity|]. simpl. rewrite (K v) by (left; reflexivity). simpl. rewrite IH; auto. intros; apply K; right; auto. }
      apply Q. intros v Hv. apply NH, Hv. }
    assert (EE : map (fun v => visit_energy o val rows cols tps 2 (h v) c (tn w) v) (calls false nnn rows cols) =
                 map (fun v => eloc (on_sites (places cols v) (h v))) (calls false nnn rows cols)).
    { apply map_ext_in. intros v Hv. rewrite (visit_energy_local o val rows cols tps psi) by (eauto using calls_visit_in; lia). reflexivity. }
    assert (EP : map (trace_query o val rows cols (tn w)) (queries (traverse_all nnn rows cols)) = repeat (Psi S0) (rows + cols)).
    { transitivity (map (fun _ : query => Psi S0) (queries (traverse_all nnn rows cols))).
      - apply map_ext_in. intros q Hq. apply first_bond_psi; auto. eapply first_bond_traverse; eauto.
      - rewrite queries_traverse. rewrite map_app, !map_map, repeat_app. f_equal; apply map_const_seq. }
    rewrite EF, EE, EP in EV.
    assert (ID : idx (repeat (Psi S0) (rows + cols)) (rows / 2) = Ok (Psi S0)).
    { unfold idx. rewrite nth_error_repeat; [reflexivity|]. pose proof (Nat.div_lt rows 2). lia. }
    exists w'. eexists. split.
    { unfold measure. rewrite E. cbn [bind fst snd]. rewrite EV. cbn [bind a_psis a_energies]. rewrite ID. cbn [bind]. rewrite HO. cbn [bind].
      rewrite channels_ok, visited_ideal, visits_traverse. reflexivity. }
    cbn [o_energy o_bonds o_psis o_smsp o_spsm o_sz o_szsz].
    split; [rewrite sumC_map; reflexivity|]. split.
    { generalize (calls false nnn rows cols). induction l as [|v l IH]; [reflexivity|]. simpl. now rewrite IH. }
    auto 12.
Qed.
Lemma measure_zero M nnn : Psi S0 = RtoC 0 -> measure val M nnn tps ker rows cols w = Fail Throw.
Proof.
  clear HZ. intros HZ. pose proof Hw as G0. apply ready_sG in G0.
  destruct (mt_measure o Rng rows cols tps ker Hr Hc c (amp w) (rng w) nnn (tn w) HS HP w) as (w' & E & _).
  { unfold fr. auto 6. }
  destruct (traverse_ok o Rng rows cols tps ker nnn Hr Hc w Hw) as (w1 & lg & E1 & _ & F).
  pose proof (run_ideal o Rng rows cols tps ker _ _ _ _ (pure_traverse nnn rows cols) E1 F) as EI.
  unfold measure. rewrite E. cbn [bind fst snd]. rewrite <- EI.
  rewrite (evaluate_prog o val Rng rows cols tps ker M true _ w w1 lg _ (pure_traverse nnn rows cols) E1 F).
  destruct (traverse_traced_first nnn rows cols ltac:(lia)) as (pre & q & post & EP & V & Q).
  assert (Hq : In q (queries (traverse_all nnn rows cols))) by (rewrite EP, queries_app; apply in_or_app; right; left; reflexivity).
  rewrite EP, eval_prog_silent by assumption. cbn [eval_prog].
  destruct (trace_win_answer o val rows cols (tn w) q) as (x & -> & Hx). unfold on_trace, is_zero.
  rewrite Hx, (first_bond_psi o val Rng rows cols tps psi), HZ by (auto; eapply first_bond_traverse; eauto).
  destruct (Ceq_dec 0 0) as [_|N]; [reflexivity|congruence].
Qed.
End Obs.
