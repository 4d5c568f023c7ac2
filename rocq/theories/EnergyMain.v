(** Assembly: the evaluators return the local energy of the Hamiltonian. *)
From Coq Require Import List Arith Lia Bool Reals Permutation Lra.
From Verif Require Import Base ContractorModel ContractorSpec ContractorProofs SweepModel SweepSpec SweepProofs
  HistoryProofs SweepMain UpdaterSpec UpdaterChain BlockChain Cplx EnergyModel EnergySpec EnergyProofs EnergySum.
Import ListNotations.
Local Open Scope nat_scope.

(** *** Purity, visits and queries of the programs *)
Lemma pure_app l1 l2 : forallb pure_cmd (l1 ++ l2) = forallb pure_cmd l1 && forallb pure_cmd l2.
Proof. apply forallb_app. Qed.
Lemma pure_for a b f : (forall i, forallb pure_cmd (f i) = true) -> forallb pure_cmd (for_ a b f) = true.
Proof.
  intros H. unfold for_. induction (seq a (b - a)) as [|i l IH]; [reflexivity|]. simpl. rewrite pure_app, H, IH. reflexivity.
Qed.
Lemma pure_when b l : forallb pure_cmd l = true -> forallb pure_cmd (when b l) = true.
Proof. destruct b; auto. Qed.
Ltac pure := repeat (first [ reflexivity | rewrite pure_app; apply andb_true_iff; split | apply pure_for; intros
  | apply pure_when | progress cbn [forallb pure_cmd andb] ]).
Lemma pure_vertical rows cols : forallb pure_cmd (traverse_vertical rows cols) = true.
Proof. unfold traverse_vertical. pure. Qed.
Lemma pure_energy holes nnn rows cols : forallb pure_cmd (cal_energy_and_holes holes nnn rows cols) = true.
Proof. unfold cal_energy_and_holes, cal_horizontal. rewrite pure_app, pure_vertical, andb_true_r. pure. Qed.
Lemma pure_energy_fermion holes nnn rows cols : forallb pure_cmd (cal_energy_fermion holes nnn rows cols) = true.
Proof. unfold cal_energy_fermion, cal_horizontal_fermion. rewrite pure_app, pure_vertical, andb_true_r. pure. Qed.
Lemma pure_tfim holes rows cols : forallb pure_cmd (cal_tfim holes rows cols) = true.
Proof. unfold cal_tfim. pure. Qed.

Lemma queries_app l1 l2 : queries (l1 ++ l2) = queries l1 ++ queries l2.
Proof. apply flat_map_app. Qed.
Lemma queries_for a b f q : In q (queries (for_ a b f)) <-> exists i, a <= i < b /\ In q (queries (f i)).
Proof.
  unfold for_. assert (H : forall i, In i (seq a (b - a)) <-> a <= i < b) by (intros i; rewrite in_seq; lia).
  induction (seq a (b - a)) as [|j l IH].
  - split; [intros []|]. intros (i & Hi & _). apply H in Hi. destruct Hi.
  - cbn [flat_map]. rewrite queries_app, in_app_iff.
    assert (G : forall l', In q (queries (flat_map f l')) <-> exists i, In i l' /\ In q (queries (f i))).
    { induction l' as [|x l' IH']; simpl; [split; [intros []|intros (i & [] & _)]|]. rewrite queries_app, in_app_iff, IH'. split.
      - intros [A|(i & A & B)]; [exists x; auto|exists i; auto].
      - intros (i & [->|A] & B); [left; exact B|right; exists i; auto]. }
    rewrite G. split.
    + intros [A|(i & A & B)]; [exists j|exists i]; split; auto; apply H; simpl; auto.
    + intros (i & A & B). apply H in A. destruct A as [->|A]; [left; exact B|right; exists i; auto].
Qed.
Lemma queries_when b l q : In q (queries (when b l)) <-> b = true /\ In q (queries l).
Proof. destruct b; simpl; intuition discriminate. Qed.
(** Traces taken outside callbacks: the first bond of a row or of a column. *)
Definition first_bond (rows cols : nat) (q : query) : Prop :=
  (exists row, row < rows /\ q = Q1 HORIZONTAL (row, 0) 2) \/ (exists col, col < cols /\ q = Q1 VERTICAL (0, col) 2).
Ltac qs := repeat (first [ rewrite queries_app, in_app_iff in * | rewrite queries_for in * | rewrite queries_when in *
  | match goal with H : _ \/ _ |- _ => destruct H | H : exists _, _ |- _ => destruct H | H : _ /\ _ |- _ => destruct H
    | H : In _ (queries _) |- _ => progress cbn [queries flat_map app] in H
    | H : In _ [] |- _ => destruct H | H : In _ (_ :: _) |- _ => destruct H end ]).
Lemma queries_vertical rows cols q : In q (queries (traverse_vertical rows cols)) -> first_bond rows cols q.
Proof.
  unfold traverse_vertical. intros H. rewrite queries_app, in_app_iff in H. destruct H as [[]|H].
  apply queries_for in H. destruct H as (i & Hi & H). rewrite !queries_app, !in_app_iff in H.
  destruct H as [H|[H|H]].
  - cbn in H. destruct H as [<-|[]]. right. exists i. split; [lia|reflexivity].
  - apply queries_for in H. destruct H as (j & _ & H). rewrite queries_app, in_app_iff in H.
    destruct H as [[]|H]. apply queries_when in H. destruct H as [_ []].
  - apply queries_when in H. destruct H as [_ []].
Qed.
Lemma queries_energy holes nnn rows cols q : In q (queries (cal_energy_and_holes holes nnn rows cols)) -> first_bond rows cols q.
Proof.
  unfold cal_energy_and_holes, cal_horizontal. intros H. rewrite queries_app, in_app_iff in H.
  destruct H as [H|H]; [|apply queries_vertical; exact H].
  rewrite queries_app, in_app_iff in H. destruct H as [[]|H]. apply queries_for in H. destruct H as (i & Hi & H).
  rewrite !queries_app, !in_app_iff in H. destruct H as [H|[H|[H|H]]].
  - cbn in H. destruct H as [<-|[]]. left. exists i. split; [lia|reflexivity].
  - apply queries_for in H. destruct H as (j & _ & H). rewrite queries_app, in_app_iff, !queries_when in H.
    destruct H as [[_ []]|[_ []]].
  - apply queries_when in H. destruct H as [_ H]. rewrite queries_app, in_app_iff in H. destruct H as [[]|H].
    apply queries_for in H. destruct H as (j & _ & []).
  - apply queries_when in H. destruct H as [_ []].
Qed.
Lemma queries_energy_fermion holes nnn rows cols q :
  In q (queries (cal_energy_fermion holes nnn rows cols)) -> first_bond rows cols q.
Proof.
  unfold cal_energy_fermion, cal_horizontal_fermion. intros H. rewrite queries_app, in_app_iff in H.
  destruct H as [H|H]; [|apply queries_vertical; exact H].
  rewrite queries_app, in_app_iff in H. destruct H as [[]|H]. apply queries_for in H. destruct H as (i & Hi & H).
  rewrite !queries_app, !in_app_iff in H. destruct H as [[]|[H|[H|H]]].
  - apply queries_for in H. destruct H as (j & _ & H). rewrite queries_app, in_app_iff, !queries_when in H.
    destruct H as [[_ []]|[_ []]].
  - apply queries_when in H. destruct H as [_ H]. rewrite queries_app, in_app_iff in H. destruct H as [[]|H].
    apply queries_for in H. destruct H as (j & _ & []).
  - apply queries_when in H. destruct H as [_ []].
Qed.
Lemma queries_tfim holes rows cols q : In q (queries (cal_tfim holes rows cols)) -> first_bond rows cols q.
Proof.
  unfold cal_tfim. intros H. rewrite queries_app, in_app_iff in H. destruct H as [[]|H].
  apply queries_for in H. destruct H as (i & Hi & H). rewrite !queries_app, !in_app_iff in H. destruct H as [H|[H|H]].
  - cbn in H. destruct H as [<-|[]]. left. exists i. split; [lia|reflexivity].
  - apply queries_for in H. destruct H as (j & _ & H). rewrite !queries_app, !in_app_iff, !queries_when in H.
    destruct H as [[_ []]|[[]|[_ []]]].
  - apply queries_when in H. destruct H as [_ []].
Qed.

Definition tfim_calls (holes : bool) (rows cols : nat) : list visit :=
  for_ 0 rows (fun row => for_ 0 cols (fun col => when holes [VHole (row, col)] ++ [VSite (row, col)])).
Lemma visits_tfim holes rows cols : visits (cal_tfim holes rows cols) = tfim_calls holes rows cols.
Proof.
  unfold cal_tfim, tfim_calls. prog. apply for_ext_in; intros i Hi. prog.
  apply for_ext_in; intros j Hj; prog. reflexivity.
Qed.
Lemma visits_energy_fermion holes nnn rows cols : visits (cal_energy_fermion holes nnn rows cols) = calls holes nnn rows cols.
Proof.
  unfold cal_energy_fermion, cal_horizontal_fermion, calls. rewrite visits_app, visits_vertical. f_equal. prog.
  apply for_ext_in; intros i Hi; prog.
  apply f_equal2; [|reflexivity]. apply for_ext_in; intros j Hj; prog; reflexivity.
Qed.

(** *** From the program to the sum *)
Section Sum.
Context (o : ops) (val : Amp o -> C) (Rng : Type) (rows cols : nat) (tps : sitps o) (ker : kernel o Rng).
Context (M : model) (checked : bool).

(** Boson programs trace before they call back. *)
Definition traced_first (l : list cmd) : Prop :=
  exists pre q post, l = pre ++ Query q :: post /\ visits pre = [] /\ queries pre = [].
Lemma traced_first_app l1 l2 : traced_first l1 -> traced_first (l1 ++ l2).
Proof.
  intros (pre & q & post & -> & A & B). exists pre, q, (post ++ l2). rewrite <- app_assoc. auto.
Qed.

Lemma holes_in_lattice l : (forall v, In v (visits l) -> visit_in rows cols v) ->
  forall v, In v (visits l) -> is_hole v = true -> forallb (in_lattice rows cols) (sites_of v) = true.
Proof. intros H v Hv _. apply sites_in_lattice. apply H. exact Hv. Qed.

Lemma evaluate_sum dim prog (h : visit -> operator) boson (w w' : wst o Rng) lg :
  forallb pure_cmd prog = true -> run o tps ker prog w = Ok (w', lg) -> log_fresh o rows cols lg ->
  (boson = true -> traced_first prog) ->
  (forall v, In v (visits prog) -> visit_in rows cols v) ->
  (forall v, In v (visits prog) -> is_hole v = false -> term dim M v (h v) boson) ->
  projected o rows cols tps (cfg w) (tn w) -> all_states rows cols (fun x => x < dim) (cfg w) ->
  (forall q, In q (queries prog) -> trace_query o val rows cols (tn w) q <> RtoC 0) ->
  (forall v, In v (visits prog) -> is_hole v = false -> trace_visit o val rows cols v (tn w) <> RtoC 0) ->
  (boson = true -> forall q v, In q (queries prog) -> In v (visits prog) -> is_hole v = false ->
     trace_visit o val rows cols v (tn w) = trace_query o val rows cols (tn w) q) ->
  exists i, evaluate o val M checked tps rows cols (cfg w) lg (mkAcc None [] [] []) =
    Ok (mkAcc i (map (fun v => visit_energy o val rows cols tps dim (h v) (cfg w) (tn w) v)
                     (filter (fun v => negb (is_hole v)) (visits prog)))
              (map (trace_query o val rows cols (tn w)) (queries prog))
              (flat_map (hole_at o rows cols (tn w)) (visits prog))).
Proof.
  intros HP E F HF HV HT HPr HS HQ HZ HB.
  rewrite (evaluate_prog o val Rng rows cols tps ker M checked prog w w' lg _ HP E F).
  set (e := fun v => visit_energy o val rows cols tps dim (h v) (cfg w) (tn w) v).
  set (ok := fun i : option C => boson = true -> forall v, In v (visits prog) -> is_hole v = false ->
        i = Some (Cinv (trace_visit o val rows cols v (tn w)))).
  assert (HK : forall q, In q (queries prog) -> ok (Some (Cinv (trace_query o val rows cols (tn w) q)))).
  { intros q Hq Hb v Hv Hh. rewrite (HB Hb q v Hq Hv Hh). reflexivity. }
  assert (G : forall l, (forall v, In v (visits l) -> In v (visits prog)) -> (forall q, In q (queries l) -> In q (queries prog)) ->
    forall a, ok (a_inv a) -> exists i, ok i /\ eval_prog o val rows cols tps M checked (cfg w) (tn w) l a =
      Ok (mkAcc i (a_energies a ++ map e (filter (fun v => negb (is_hole v)) (visits l)))
              (a_psis a ++ map (trace_query o val rows cols (tn w)) (queries l))
              (a_holes a ++ flat_map (hole_at o rows cols (tn w)) (visits l)))).
  { intros l Hl1 Hl2. apply eval_prog_sum.
    - intros q Hq. split; [apply HQ|apply HK]; auto.
    - apply holes_in_lattice. auto.
    - intros v a Hv Hh Ha. apply (on_visit_term o val rows cols tps dim M v (h v) boson); auto. }
  destruct boson.
    - destruct (HF eq_refl) as (pre & q & post & EP & V & Q).
      assert (Hq : In q (queries prog)) by (rewrite EP, queries_app; apply in_or_app; right; left; reflexivity).
      assert (EE : eval_prog o val rows cols tps M checked (cfg w) (tn w) prog (mkAcc None [] [] []) =
         eval_prog o val rows cols tps M checked (cfg w) (tn w) (Query q :: post) (mkAcc None [] [] []))
        by (rewrite EP; apply eval_prog_silent; assumption).
      rewrite EE. cbn [eval_prog].
      destruct (trace_win_answer o val rows cols (tn w) q) as (p & -> & Hp).
      unfold on_trace, is_zero. rewrite Hp.
      destruct (Ceq_dec (trace_query o val rows cols (tn w) q) (RtoC 0)) as [Z|Z]; [exfalso; exact (HQ q Hq Z)|]. cbn [bind].
      assert (EV : visits prog = visits post) by (rewrite EP, visits_app, V; reflexivity).
      assert (EQ : queries prog = q :: queries post) by (rewrite EP, queries_app, Q; reflexivity).
      destruct (G post) with (a := mkAcc (Some (Cinv (trace_query o val rows cols (tn w) q))) (a_energies (o := o) (mkAcc None [] [] []))
         (a_psis (o := o) (mkAcc None [] [] []) ++ [trace_query o val rows cols (tn w) q]) (a_holes (o := o) (mkAcc None [] [] [])))
        as (i & _ & ->).
      + intros v. rewrite EV. auto.
      + intros x Hx. rewrite EQ. right. exact Hx.
      + cbn [a_inv]. apply HK. exact Hq.
      + exists i. cbn [a_energies a_psis a_holes app]. rewrite EV, EQ. reflexivity.
    - destruct (G prog (fun _ H => H) (fun _ H => H) (mkAcc None [] [] [])) as (i & _ & ->); [discriminate|].
      exists i. reflexivity.
Qed.

Lemma energy_of_sum dim prog (h : visit -> operator) boson (ons : C) (w : wst o Rng) :
  forallb pure_cmd prog = true -> run_ok o Rng rows cols tps ker prog ->
  (boson = true -> traced_first prog) ->
  (forall v, In v (visits prog) -> visit_in rows cols v) ->
  (forall v, In v (visits prog) -> is_hole v = false -> term dim M v (h v) boson) ->
  m_onsite M rows cols (cfg w) = Ok ons ->
  ready o rows cols w -> projected o rows cols tps (cfg w) (tn w) -> all_states rows cols (fun x => x < dim) (cfg w) ->
  (forall q, In q (queries prog) -> trace_query o val rows cols (tn w) q <> RtoC 0) ->
  (forall v, In v (visits prog) -> is_hole v = false -> trace_visit o val rows cols v (tn w) <> RtoC 0) ->
  (boson = true -> forall q v, In q (queries prog) -> In v (visits prog) -> is_hole v = false ->
     trace_visit o val rows cols v (tn w) = trace_query o val rows cols (tn w) q) ->
  exists w', energy_of o val M checked tps ker rows cols prog w =
    Ok (w', mkER (sumC (fun v => visit_energy o val rows cols tps dim (h v) (cfg w) (tn w) v)
                       (filter (fun v => negb (is_hole v)) (visits prog)) + ons)%C
                 (flat_map (hole_at o rows cols (tn w)) (visits prog))
                 (map (trace_query o val rows cols (tn w)) (queries prog))) /\
    ready o rows cols w' /\ cfg w' = cfg w /\ tn w' = tn w /\ amp w' = amp w /\ rng w' = rng w.
Proof.
  intros HP HR HF HV HT HO Hw HPr HS HQ HZ HB.
  destruct (HR w Hw) as (w' & lg & E & R & F). exists w'.
  destruct (run_pure o Rng tps ker prog _ _ _ HP E) as (A1 & A2 & A3 & A4).
  split; [|auto].
  unfold energy_of. rewrite E. cbn [bind fst snd].
  destruct (evaluate_sum dim prog h boson w w' lg HP E F HF HV HT HPr HS HQ HZ HB) as (i & ->).
  cbn [bind a_energies a_psis a_holes]. rewrite HO. cbn [bind].
  rewrite sumC_map. reflexivity.
Qed.
End Sum.

(** *** One wave function for all windows *)
Section Boson.
Context (o : ops) (val : Amp o -> C) (rows cols : nat) (tps : sitps o) (psi : net o -> Amp o).
Hypothesis Hr : 1 <= rows.
Hypothesis Hc : 1 <= cols.
Hypothesis H1 : contraction_consistent o rows cols psi.

Lemma psi_ext n n' : (forall r c, r < rows -> c < cols -> n r c = n' r c) -> val (psi n) = val (psi n').
Proof.
  intros E. assert (W : visit_in rows cols (VSite (0, 0))) by (unfold visit_in; simpl; lia).
  rewrite <- (H1 n HORIZONTAL (0, 0) 1), <- (H1 n' HORIZONTAL (0, 0) 1) by (simpl; lia).
  exact (trace_visit_ext o val rows cols (VSite (0, 0)) n n' W E).
Qed.
Definition two_layer (v : visit) : bool := match query_of v with Q1 _ _ _ => false | Q2 _ _ _ => true end.
Lemma trace_visit_psi v n : visit_in rows cols v -> (two_layer v = true -> contraction_consistent2 o rows cols psi) ->
  trace_visit o val rows cols v n = val (psi n).
Proof.
  intros Hin H2. unfold trace_visit, visit_in, two_layer in *.
  assert (K : match query_of v with Q1 _ _ k | Q2 _ _ k => 1 <= k end) by (destruct v; simpl; lia).
  destruct (query_of v) as [d s k|d s k]; [rewrite H1|rewrite (H2 eq_refl)]; auto.
Qed.

Lemma index_inj a b : snd a < cols -> snd b < cols -> index cols a = index cols b -> a = b.
Proof.
  intros Ha Hb E. pose proof (site_of_pos cols a Ha) as A. pose proof (site_of_pos cols b Hb) as B.
  unfold pos_of in *. unfold index in E. rewrite E in A. congruence.
Qed.
Definition places (v : visit) : list nat := map (index cols) (sites_of v).
Lemma in_lattice_sites sites y : forallb (in_lattice rows cols) sites = true -> In y sites -> fst y < rows /\ snd y < cols.
Proof. intros L Hy. rewrite forallb_forall in L. apply in_lattice_spec. apply L. exact Hy. Qed.
Lemma places_nodup_gen sites : NoDup sites -> forallb (in_lattice rows cols) sites = true -> NoDup (map (index cols) sites).
Proof.
  induction sites as [|a l IH]; intros Hd Hl; [constructor|]. inversion Hd; subst. simpl. constructor.
  - intros Hi. apply in_map_iff in Hi. destruct Hi as (b & E & Hb). apply index_inj in E.
    + subst. contradiction.
    + apply (in_lattice_sites (a :: l) b Hl). right. exact Hb.
    + apply (in_lattice_sites (a :: l) a Hl). left. reflexivity.
  - apply IH; auto. simpl in Hl. apply andb_true_iff in Hl. tauto.
Qed.
Lemma places_lt_gen sites : forallb (in_lattice rows cols) sites = true -> Forall (fun i => i < rows * cols) (map (index cols) sites).
Proof.
  intros Hl. apply Forall_forall. intros i Hi. apply in_map_iff in Hi. destruct Hi as (b & <- & Hb).
  destruct (in_lattice_sites _ b Hl Hb). exact (pos_of_lt rows cols b H H0).
Qed.
Lemma places_nodup v : visit_in rows cols v -> NoDup (places v).
Proof. intros H. apply places_nodup_gen; [apply sites_nodup|apply sites_in_lattice; exact H]. Qed.
Lemma places_lt v : visit_in rows cols v -> Forall (fun i => i < rows * cols) (places v).
Proof. intros H. apply places_lt_gen, sites_in_lattice. exact H. Qed.
Lemma get_places sites c : forallb (in_lattice rows cols) sites = true ->
  get (map (index cols) sites) (flat rows cols c) = map (fun y => c (fst y) (snd y)) sites.
Proof.
  intros Hl. unfold get. rewrite map_map. apply map_ext_in. intros y Hy.
  destruct (in_lattice_sites _ y Hl Hy). exact (flat_pos rows cols c y H H0).
Qed.

Lemma substituted_project c n sites ns : projected o rows cols tps c n -> NoDup sites ->
  forallb (in_lattice rows cols) sites = true -> length ns = length sites ->
  forall r k, r < rows -> k < cols ->
  substituted o tps n sites ns r k = project tps (conf cols (put (map (index cols) sites) ns (flat rows cols c))) r k.
Proof.
  intros HP Hd Hl Hn r k Hrr Hk. unfold project, conf.
  change (r * cols + k) with (index cols (r, k)).
  pose proof (places_nodup_gen sites Hd Hl) as ND. pose proof (places_lt_gen sites Hl) as LT.
  assert (LT' : Forall (fun i => i < length (flat rows cols c)) (map (index cols) sites)) by (rewrite flat_length; exact LT).
  assert (KL : index cols (r, k) < length (flat rows cols c)) by (rewrite flat_length; exact (pos_of_lt rows cols (r, k) Hrr Hk)).
  destruct (in_dec (fun a b : site => ltac:(decide equality; apply Nat.eq_dec)) (r, k) sites) as [I|I].
  - apply In_nth with (d := (0, 0)) in I. destruct I as (j & Hj & Ej).
    rewrite (substituted_in o tps n sites ns r k (nth j ns 0)); auto.
    + f_equal. pose proof (get_put _ ns _ ND LT') as G. rewrite map_length in G. specialize (G Hn).
      assert (E : nth j (get (map (index cols) sites) (put (map (index cols) sites) ns (flat rows cols c))) 0 = nth j ns 0) by now rewrite G.
      rewrite <- E. unfold get. rewrite map_map.
      rewrite (nth_indep _ 0 ((fun x => nth (index cols x) (put (map (index cols) sites) ns (flat rows cols c)) 0) (0, 0)))
        by (rewrite map_length; exact Hj).
      rewrite (map_nth (fun x => nth (index cols x) (put (map (index cols) sites) ns (flat rows cols c)) 0)).
      rewrite Ej. reflexivity.
    + rewrite <- Ej at 1. rewrite <- combine_nth by auto. apply nth_In. rewrite combine_length, Hn, Nat.min_id. exact Hj.
  - rewrite substituted_other by exact I. rewrite HP by auto. f_equal. rewrite put_other; auto.
    + symmetry. exact (flat_pos rows cols c (r, k) Hrr Hk).
    + intros Hi. apply in_map_iff in Hi. destruct Hi as (b & E & Hb). apply I.
      assert (b = (r, k)) by (apply index_inj; auto; apply (in_lattice_sites sites b Hl Hb)). subst. exact Hb.
Qed.
Lemma psi_project c n : projected o rows cols tps c n -> val (psi n) = wave o val cols psi tps (flat rows cols c).
Proof.
  intros HP. unfold wave. apply psi_ext. intros r k Hrr Hk. rewrite HP by auto. unfold project, conf. f_equal.
  symmetry. exact (flat_pos rows cols c (r, k) Hrr Hk).
Qed.
Lemma flat_states dim c : all_states rows cols (fun x => x < dim) c -> In (flat rows cols c) (all_configs dim (rows * cols)).
Proof.
  intros H. apply all_configs_in. rewrite flat_length. split; [reflexivity|]. unfold flat. apply Forall_forall.
  intros x Hx. apply in_map_iff in Hx. destruct Hx as ([r k] & <- & Hy). unfold all_sites in Hy. apply in_prod_iff in Hy.
  destruct Hy as [A B]. apply in_seq in A, B. apply H; simpl; lia.
Qed.

(** In every window the visit contributes the local energy of its term. *)
Lemma visit_energy_local dim h c n v : visit_in rows cols v -> (two_layer v = true -> contraction_consistent2 o rows cols psi) ->
  projected o rows cols tps c n -> all_states rows cols (fun x => x < dim) c ->
  visit_energy o val rows cols tps dim h c n v =
  local_energy dim (rows * cols) (on_sites (places v) h) (wave o val cols psi tps) (flat rows cols c).
Proof.
  intros Hin H2 HP HS. unfold visit_energy, local_energy.
  rewrite local_op_sum; [|apply flat_states; exact HS|apply places_nodup; exact Hin|apply places_lt; exact Hin].
  rewrite trace_visit_psi by auto. rewrite (psi_project c n HP). unfold places. rewrite map_length.
  f_equal. f_equal. apply sumC_ext. intros ns Hns. apply all_configs_in in Hns. destruct Hns as [Hns _].
  rewrite trace_visit_psi by auto. rewrite get_places by (apply sites_in_lattice; exact Hin). unfold states_at. f_equal.
  unfold wave. apply psi_ext. apply substituted_project; auto; [apply sites_nodup|apply sites_in_lattice; exact Hin].
Qed.
End Boson.

(** *** Bonds of the lattice *)
Definition ends (v : visit) : site * site := match sites_of v with [a; b] => (a, b) | _ => ((0, 0), (0, 0)) end.
Definition is_bond (v : visit) : bool := match v with VBond _ _ => true | _ => false end.
Definition is_diag (v : visit) : bool := match v with VDiag _ _ => true | _ => false end.
Lemma all_sites_in rows cols s : In s (all_sites rows cols) <-> fst s < rows /\ snd s < cols.
Proof.
  destruct s as [r c]. pose proof (in_prod_iff (seq 0 rows) (seq 0 cols) r c) as H. rewrite !in_seq in H.
  unfold all_sites, site in *. rewrite H. simpl. lia.
Qed.
Lemma nodup_prod {X Y} (l : list X) (l' : list Y) : NoDup l -> NoDup l' -> NoDup (list_prod l l').
Proof.
  intros Hl Hl'. induction Hl as [|a l Hn Hl IH]; simpl; [constructor|]. apply NoDup_app_intro; auto.
  - apply FinFun.Injective_map_NoDup; auto. intros x y E. inversion E. reflexivity.
  - intros [x y] Hi Hj. apply in_map_iff in Hi. destruct Hi as (z & E & _). inversion E; subst.
    apply in_prod_iff in Hj. tauto.
Qed.
Lemma all_sites_nodup rows cols : NoDup (all_sites rows cols).
Proof. apply nodup_prod; apply seq_NoDup. Qed.
Lemma pairs_in rows cols rel a b : In (a, b) (pairs rows cols rel) <->
  (fst a < rows /\ snd a < cols) /\ (fst b < rows /\ snd b < cols) /\ rel a b = true.
Proof.
  unfold pairs. rewrite filter_In. pose proof (in_prod_iff (all_sites rows cols) (all_sites rows cols) a b) as P.
  unfold site in *. rewrite P. cbn [fst snd].
  pose proof (all_sites_in rows cols a) as A. pose proof (all_sites_in rows cols b) as B.
  unfold site in *. rewrite A, B. tauto.
Qed.
Lemma pairs_nodup rows cols rel : NoDup (pairs rows cols rel).
Proof. apply NoDup_filter, nodup_prod; apply all_sites_nodup. Qed.
Lemma nodup_map_in {X Y} (f : X -> Y) l : NoDup l -> (forall a b, In a l -> In b l -> f a = f b -> a = b) -> NoDup (map f l).
Proof.
  induction 1 as [|a l Hn Hl IH]; intros Hi; simpl; constructor.
  - intros H. apply in_map_iff in H. destruct H as (b & E & Hb). apply Hn.
    rewrite <- (Hi b a); [exact Hb|right; exact Hb|left; reflexivity|exact E].
  - apply IH. intros a' b' Ha Hb. apply Hi; right; assumption.
Qed.

Lemma bond_pairs holes nnn rows cols :
  Permutation (map ends (filter is_bond (calls holes nnn rows cols))) (pairs rows cols nearest).
Proof.
  apply NoDup_Permutation.
  - apply nodup_map_in; [apply NoDup_filter, calls_nodup|].
    intros a b Ha Hb E. apply filter_In in Ha, Hb. destruct Ha as [_ Ha], Hb as [_ Hb].
    destruct a as [d s| | | |]; try discriminate. destruct b as [d' s'| | | |]; try discriminate.
    unfold ends in E. simpl in E. destruct s as [r c], s' as [r' c'], d, d'; simpl in E; inversion E; try lia; reflexivity.
  - apply pairs_nodup.
  - intros [a b]. rewrite in_map_iff, pairs_in. split.
    + intros (v & E & Hv). apply filter_In in Hv. destruct Hv as [Hv Hb]. apply calls_in in Hv.
      destruct v as [d s| | | |]; try discriminate. unfold ends in E. simpl in *.
      destruct d, s as [r c]; simpl in *; inversion E; subst; simpl; unfold nearest; simpl;
      repeat split; try lia; apply orb_true_iff; [left|right]; apply andb_true_iff; rewrite !Nat.eqb_eq; lia.
    + destruct a as [r c], b as [r' c']; simpl. intros (A & B & N). unfold nearest in N. simpl in N.
      apply orb_true_iff in N. rewrite !andb_true_iff, !Nat.eqb_eq in N. destruct N as [[-> ->]|[-> ->]].
      * exists (VBond HORIZONTAL (r, c)). split; [unfold ends; simpl; repeat f_equal; lia|].
        apply filter_In. split; [apply calls_in; simpl; lia|reflexivity].
      * exists (VBond VERTICAL (r, c)). split; [unfold ends; simpl; repeat f_equal; lia|].
        apply filter_In. split; [apply calls_in; simpl; lia|reflexivity].
Qed.
Lemma diag_pairs holes rows cols :
  Permutation (map ends (filter is_diag (calls holes true rows cols))) (pairs rows cols diagonal).
Proof.
  apply NoDup_Permutation.
  - apply nodup_map_in; [apply NoDup_filter, calls_nodup|].
    intros a b Ha Hb E. apply filter_In in Ha, Hb. destruct Ha as [_ Ha], Hb as [_ Hb].
    destruct a as [|g s| | |]; try discriminate. destruct b as [|g' s'| | |]; try discriminate.
    unfold ends in E. simpl in E. destruct s as [r c], s' as [r' c'], g, g'; simpl in E; inversion E; try lia;
      repeat f_equal; lia.
  - apply pairs_nodup.
  - intros [a b]. rewrite in_map_iff, pairs_in. split.
    + intros (v & E & Hv). apply filter_In in Hv. destruct Hv as [Hv Hb]. apply calls_in in Hv.
      destruct v as [|g s| | |]; try discriminate. unfold ends in E. simpl in *.
      destruct g, s as [r c]; simpl in *; inversion E; subst; simpl; unfold diagonal; simpl;
      (repeat split; try lia); apply andb_true_iff; rewrite orb_true_iff, !Nat.eqb_eq; lia.
    + destruct a as [r c], b as [r' c']; simpl. intros (A & B & N). unfold diagonal in N. simpl in N.
      apply andb_true_iff in N. rewrite orb_true_iff, !Nat.eqb_eq in N. destruct N as [-> [->|E]].
      * exists (VDiag LEFTUP_TO_RIGHTDOWN (r, c)). split; [unfold ends; simpl; repeat f_equal; lia|].
        apply filter_In. split; [apply calls_in; simpl; lia|reflexivity].
      * subst r. exists (VDiag LEFTDOWN_TO_RIGHTUP (r', c)). split; [unfold ends; simpl; repeat f_equal; lia|].
        apply filter_In. split; [apply calls_in; simpl; lia|reflexivity].
Qed.
Lemma no_diag holes rows cols : filter is_diag (calls holes false rows cols) = [].
Proof.
  destruct (filter is_diag (calls holes false rows cols)) as [|v l] eqn:E; [reflexivity|].
  assert (H : In v (filter is_diag (calls holes false rows cols))) by (rewrite E; left; reflexivity).
  apply filter_In in H. destruct H as [H B]. apply calls_in in H. destruct v; try discriminate. simpl in H.
  destruct H as [H _]. discriminate.
Qed.
Lemma split_visits f holes nnn rows cols :
  sumC f (filter (fun v => negb (is_hole v)) (calls holes nnn rows cols)) =
  (sumC f (filter is_bond (calls holes nnn rows cols)) + sumC f (filter is_diag (calls holes nnn rows cols)))%C.
Proof.
  rewrite <- !sumC_filter, <- sumC_add. apply sumC_ext. intros v Hv. apply calls_in in Hv.
  destruct v; simpl in *; try contradiction; ring.
Qed.
Lemma sum_bonds (f : visit -> C) (g : site * site -> C) holes nnn rows cols :
  (forall v, In v (calls holes nnn rows cols) -> is_bond v = true -> f v = g (ends v)) ->
  sumC f (filter is_bond (calls holes nnn rows cols)) = sumC g (pairs rows cols nearest).
Proof.
  intros E. rewrite <- (sumC_perm g _ _ (bond_pairs holes nnn rows cols)), sumC_map. apply sumC_ext.
  intros v Hv. apply filter_In in Hv. apply E; tauto.
Qed.
Lemma sum_diags (f : visit -> C) (g : site * site -> C) holes rows cols :
  (forall v, In v (calls holes true rows cols) -> is_diag v = true -> f v = g (ends v)) ->
  sumC f (filter is_diag (calls holes true rows cols)) = sumC g (pairs rows cols diagonal).
Proof.
  intros E. rewrite <- (sumC_perm g _ _ (diag_pairs holes rows cols)), sumC_map. apply sumC_ext.
  intros v Hv. apply filter_In in Hv. apply E; tauto.
Qed.
Lemma calls_visit_in holes nnn rows cols v : In v (calls holes nnn rows cols) -> visit_in rows cols v.
Proof.
  intros H. apply calls_in in H. unfold visit_in. destruct v as [d s|g s|d g s|s|s]; simpl in *; try contradiction; try lia.
  exact H.
Qed.
Lemma places_ends cols v : is_bond v || is_diag v = true -> places cols v = [index cols (fst (ends v)); index cols (snd (ends v))].
Proof. destruct v as [d s|[] s|d g s|s|s]; intros H; try discriminate; reflexivity. Qed.
