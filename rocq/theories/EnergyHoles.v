(** Holes and the transverse-field Ising evaluator. *)
From Coq Require Import List Arith Lia Bool Reals Permutation Lra ZArith.
From Verif Require Import Base ContractorModel ContractorSpec ContractorProofs SweepModel SweepSpec SweepProofs
  HistoryProofs SweepMain UpdaterSpec UpdaterChain BlockChain Cplx EnergyModel EnergySpec EnergyProofs EnergySum EnergyMain
  EnergyModels.
Import ListNotations.
Local Open Scope nat_scope.

Section Holes.
Context (o : ops) (rows cols : nat) (psi : net o -> Amp o) (plug : Hole o -> Ten o -> Amp o).
Hypothesis H1 : contraction_consistent o rows cols psi.
Hypothesis HH : plugs o rows cols plug.

Lemma hole_at_some n s : exists h, hole_at o rows cols n (VHole s) = [(s, h)] /\
  exists m1 m2 e1 e2, window1_spec o rows cols n HORIZONTAL s 1 = ([(m1, m2)], e1, e2) /\ h = hole_of o HORIZONTAL m1 m2 e1 e2.
Proof.
  unfold hole_at. destruct (window1_spec o rows cols n HORIZONTAL s 1) as [[ms e1] e2] eqn:E.
  unfold window1_spec in E. cbn [seq map] in E. inversion E; subst. eexists. split; [reflexivity|]. repeat eexists.
Qed.
Lemma hole_derivative n s h t : fst s < rows -> snd s < cols ->
  In (s, h) (hole_at o rows cols n (VHole s)) -> plug h t = psi (upd2 n s t).
Proof.
  intros Hr Hc Hi. destruct (hole_at_some n s) as (h' & E & m1 & m2 & e1 & e2 & EW & Eh).
  rewrite E in Hi. destruct Hi as [Hi|[]]. inversion Hi; subst. rewrite (HH n HORIZONTAL s t m1 m2 e1 e2) by (exact EW || (simpl; lia)).
  rewrite <- (H1 (upd2 n s t) HORIZONTAL s 1) by (simpl; lia). unfold trace_at.
  rewrite (window_ext o rows cols (upd2 n s t) n HORIZONTAL s 1).
  - rewrite EW. f_equal. destruct s as [r c]. simpl. rewrite Nat.add_0_r. unfold upd2, site_eqb. simpl.
    rewrite !Nat.eqb_refl. reflexivity.
  - lia.
  - simpl. lia.
  - intros r c Hr' Hc' Hn. unfold upd2. destruct (site_eqb (r, c) s) eqn:E2; [|reflexivity].
    exfalso. apply Hn. unfold site_eqb in E2. apply andb_true_iff in E2. destruct E2 as [A B].
    apply Nat.eqb_eq in A, B. destruct s as [r0 c0]; simpl in *; subst. left. f_equal. lia.
Qed.

Lemma holes_of n l : (forall v, In v l -> visit_in rows cols v) ->
  map fst (flat_map (hole_at o rows cols n) l) = flat_map (fun v => match v with VHole s => [s] | _ => [] end) l /\
  (forall s h, In (s, h) (flat_map (hole_at o rows cols n) l) -> fst s < rows /\ snd s < cols /\ forall t, plug h t = psi (upd2 n s t)).
Proof.
  induction l as [|v l IH]; intros Hin; [split; [reflexivity|intros s h []]|].
  destruct IH as [A B]; [intros; apply Hin; right; assumption|]. cbn [flat_map]. split.
  - rewrite map_app, A. f_equal. destruct v; try reflexivity.
  - intros s h Hi. apply in_app_or in Hi. destruct Hi as [Hi|Hi]; [|apply B; exact Hi].
    destruct v as [d0 s0|g0 s0|d0 g0 s0|s0|s0]; try (destruct Hi; fail).
    pose proof (Hin (VHole s0) (or_introl eq_refl)) as W. unfold visit_in in W. simpl in W.
    destruct (hole_at_some n s0) as (h0 & E & _). pose proof Hi as Hi'. rewrite E in Hi. destruct Hi as [Hi|[]]. inversion Hi; subst.
    split; [lia|]. split; [lia|]. intros t. eapply hole_derivative; eauto; lia.
Qed.
Lemma hole_sites nnn : Permutation (flat_map (fun v => match v with VHole s => [s] | _ => [] end) (calls true nnn rows cols))
  (all_sites rows cols).
Proof.
  apply NoDup_Permutation.
  - assert (G : forall l, NoDup l -> NoDup (flat_map (fun v => match v with VHole s => [s] | _ => [] end) l)).
    { induction 1 as [|v l Hn Hl IH]; [constructor|]. cbn [flat_map]. destruct v as [| | |s|]; try exact IH.
      cbn [app]. constructor; [|exact IH]. intros Hi. apply in_flat_map in Hi. destruct Hi as (v & Hv & Hs).
      destruct v as [| | |s'|]; try (destruct Hs; fail). destruct Hs as [Hs|[]]; subst. contradiction. }
    apply G, calls_nodup.
  - apply all_sites_nodup.
  - intros s. rewrite all_sites_in. split.
    + intros Hi. apply in_flat_map in Hi. destruct Hi as (v & Hv & Hs). apply calls_in in Hv.
      destruct v as [| | |s'|]; try (destruct Hs; fail). destruct Hs as [Hs|[]]; subst. simpl in Hv. tauto.
    + intros Hs. apply in_flat_map. exists (VHole s). split; [apply calls_in; simpl; tauto|left; reflexivity].
Qed.
Lemma holes_derivative n nnn :
  Permutation (map fst (flat_map (hole_at o rows cols n) (calls true nnn rows cols))) (all_sites rows cols) /\
  (forall s h, In (s, h) (flat_map (hole_at o rows cols n) (calls true nnn rows cols)) -> forall t, plug h t = psi (upd2 n s t)).
Proof.
  destruct (holes_of n (calls true nnn rows cols)) as [A B]; [intros v; apply calls_visit_in|].
  split; [rewrite A; apply hole_sites|]. intros s h Hi. apply (B s h Hi).
Qed.
End Holes.

(** *** Transverse-field Ising *)
Lemma sx_term h cs inv T : In cs (all_configs 2 1) -> T cs <> RtoC 0 -> inv = Some (Cinv (T cs)) ->
  forall s, m_visit (tfim_model h) (VSite s) cs inv (T cs) T =
  Ok (Cconj (sumC (fun ns => op_scal (- h) (op_scal 2 Sx) cs ns * T ns)%C (all_configs 2 1) / T cs)%C).
Proof.
  intros Hcs HT -> s. apply configs1 in Hcs. destruct Hcs as (a & -> & Ha).
  cbn [all_configs flat_map map seq app]. rewrite !sumC_cons, sumC_nil. cbn [m_visit tfim_model].
  assert (X : RtoC 2 = (RtoC 1 + RtoC 1)%C) by (apply C_ext; simpl; lra).
  assert (Y : (RtoC 2 * RtoC (1 / 2))%C = RtoC 1) by (apply C_ext; simpl; lra).
  assert (O : forall y z s, s = (RtoC (- h) * y)%C ->
     (RtoC (- h) * Cconj (y * Cinv z))%C = Cconj (s / z)%C).
  { intros y z s0 ->. unfold Cdiv. rewrite !Cconj_mul, Cconj_R. ring. }
  destruct a as [|[|a]]; [| |lia]; cbn [usub Nat.leb bind Nat.sub]; unfold usub; cbn [Nat.ltb Nat.leb bind Nat.sub]; f_equal; apply O;
  unfold op_scal, Sx, one_site; cbn [Nat.sub].
  - ring [Y].
  - ring [Y].
Qed.

Lemma tfim_calls_in holes rows cols v : In v (tfim_calls holes rows cols) <->
  match v with VSite s => fst s < rows /\ snd s < cols | VHole s => holes = true /\ fst s < rows /\ snd s < cols | _ => False end.
Proof.
  unfold tfim_calls. rewrite in_for. split.
  - intros (i & Hi & H). apply in_for in H. destruct H as (j & Hj & H). apply in_app_or in H. destruct H as [H|[<-|[]]].
    + apply in_when in H. destruct H as [-> [<-|[]]]. simpl. lia.
    + simpl. lia.
  - destruct v as [d s|g s|d g s|[r c]|[r c]]; intros H; try contradiction; simpl in H.
    + exists r. split; [lia|]. apply in_for. exists c. split; [lia|]. apply in_or_app. left. apply in_when. split; [tauto|left; reflexivity].
    + exists r. split; [lia|]. apply in_for. exists c. split; [lia|]. apply in_or_app. right. left. reflexivity.
Qed.
Lemma tfim_calls_nodup holes rows cols : NoDup (tfim_calls holes rows cols).
Proof.
  unfold tfim_calls. apply nodup_for.
  - intros i _. apply nodup_for.
    + intros j _. apply NoDup_app_intro.
      * apply nodup_when. constructor; [intros []|constructor].
      * constructor; [intros []|constructor].
      * intros x Hx [<-|[]]. apply in_when in Hx. destruct Hx as [_ [E|[]]]. discriminate.
    + intros a b x Ha Hb.
      assert (G : forall j, In x (when holes [VHole (i, j)] ++ [VSite (i, j)]) -> j = col_of x).
      { intros j H. apply in_app_or in H. destruct H as [H|[<-|[]]]; [|reflexivity].
        apply in_when in H. destruct H as [_ [<-|[]]]. reflexivity. }
      rewrite (G a Ha), (G b Hb). reflexivity.
  - intros a b x Ha Hb.
    assert (G : forall i, In x (for_ 0 cols (fun j => when holes [VHole (i, j)] ++ [VSite (i, j)])) -> i = row_of x).
    { intros i H. apply in_for in H. destruct H as (j & _ & H). apply in_app_or in H. destruct H as [H|[<-|[]]]; [|reflexivity].
      apply in_when in H. destruct H as [_ [<-|[]]]. reflexivity. }
    rewrite (G a Ha), (G b Hb). reflexivity.
Qed.
Definition site_of (v : visit) : site := match v with VSite s => s | _ => (0, 0) end.
Lemma tfim_sites holes rows cols :
  Permutation (map site_of (filter (fun v => negb (is_hole v)) (tfim_calls holes rows cols))) (all_sites rows cols).
Proof.
  apply NoDup_Permutation.
  - apply nodup_map_in; [apply NoDup_filter, tfim_calls_nodup|]. intros a b Ha Hb E.
    apply filter_In in Ha, Hb. destruct Ha as [Ha Na], Hb as [Hb Nb]. apply tfim_calls_in in Ha, Hb.
    destruct a, b; try contradiction; try discriminate. simpl in E. congruence.
  - apply all_sites_nodup.
  - intros s. rewrite all_sites_in, in_map_iff. split.
    + intros (v & E & Hv). apply filter_In in Hv. destruct Hv as [Hv Nv]. apply tfim_calls_in in Hv.
      destruct v; try contradiction; try discriminate. simpl in E. subst. exact Hv.
    + intros Hs. exists (VSite s). split; [reflexivity|]. apply filter_In. split; [apply tfim_calls_in; exact Hs|reflexivity].
Qed.

(** The classical part of the energy. *)
Definition zz (c : nat -> nat -> nat) (ab : site * site) : R :=
  (if (c (fst (fst ab)) (snd (fst ab)) =? c (fst (snd ab)) (snd (snd ab)))%nat then -1 else 1)%R.
Definition bonds_of (rows cols : nat) : list (site * site) :=
  for_ 0 rows (fun row => for_ 0 (cols - 1) (fun col => [((row, col), (row, col + 1))])) ++
  for_ 0 cols (fun col => for_ 0 (rows - 1) (fun row => [((row, col), (row + 1, col))])).
Lemma bonds_of_pairs rows cols : Permutation (bonds_of rows cols) (pairs rows cols nearest).
Proof.
  apply NoDup_Permutation.
  - unfold bonds_of. apply NoDup_app_intro.
    + apply nodup_for.
      * intros i _. apply nodup_for; [intros j _; constructor; [intros []|constructor]|].
        intros a b x [<-|[]] [E|[]]. inversion E. reflexivity.
      * intros a b x Ha Hb. apply in_for in Ha, Hb. destruct Ha as (i & _ & [<-|[]]), Hb as (j & _ & [E|[]]). inversion E. reflexivity.
    + apply nodup_for.
      * intros i _. apply nodup_for; [intros j _; constructor; [intros []|constructor]|].
        intros a b x [<-|[]] [E|[]]. inversion E. reflexivity.
      * intros a b x Ha Hb. apply in_for in Ha, Hb. destruct Ha as (i & _ & [<-|[]]), Hb as (j & _ & [E|[]]). inversion E. reflexivity.
    + intros x Ha Hb. apply in_for in Ha, Hb. destruct Ha as (i & _ & Ha), Hb as (j & _ & Hb).
      apply in_for in Ha, Hb. destruct Ha as (i' & _ & [<-|[]]), Hb as (j' & _ & [E|[]]). inversion E. lia.
  - apply pairs_nodup.
  - intros [[r c] [r' c']]. rewrite pairs_in. unfold bonds_of. rewrite in_app_iff, !in_for. unfold nearest. simpl fst. simpl snd.
    rewrite orb_true_iff, !andb_true_iff, !Nat.eqb_eq. split.
    + intros [(i & Hi & H)|(i & Hi & H)]; apply in_for in H; destruct H as (j & Hj & [E|[]]); inversion E; subst; lia.
    + intros (A & B & [[-> ->]|[-> ->]]); [left; exists r|right; exists c]; (split; [lia|]); apply in_for;
      [exists c|exists r]; (split; [lia|left; reflexivity]).
Qed.
Lemma fold_left_plus l : forall a, fold_left Rplus l a = (a + fold_right Rplus 0 l)%R.
Proof. induction l as [|x l IH]; intros a; simpl; [lra|]. rewrite IH. lra. Qed.
Lemma sumC_real {X} (f : X -> R) l : sumC (fun x => RtoC (f x)) l = RtoC (fold_right Rplus 0%R (map f l)).
Proof. induction l as [|a l IH]; [reflexivity|]. rewrite sumC_cons, IH, <- RtoC_add. reflexivity. Qed.
Lemma map_for {X Y} (g : X -> Y) a b f : map g (for_ a b f) = for_ a b (fun i => map g (f i)).
Proof. unfold for_. induction (seq a (b - a)) as [|i l IH]; [reflexivity|]. simpl. rewrite map_app, IH. reflexivity. Qed.
Lemma tfim_diag_sum rows cols c : RtoC (tfim_diag rows cols c) = sumC (fun ab => RtoC (zz c ab)) (pairs rows cols nearest).
Proof.
  rewrite <- (sumC_perm _ _ _ (bonds_of_pairs rows cols)), sumC_real. f_equal. unfold tfim_diag. rewrite fold_left_plus, Rplus_0_l.
  f_equal. unfold bonds_of. rewrite map_app, !map_for. f_equal; apply for_ext_in; intros i _; rewrite map_for; reflexivity.
Qed.
Lemma zz_entry a b a' b' : a < 2 -> b < 2 -> a' < 2 -> b' < 2 ->
  op_scal (-1) (tensor (op_scal 2 Sz) (op_scal 2 Sz)) [a; b] [a'; b'] =
  if list_eq_dec Nat.eq_dec [a; b] [a'; b'] then RtoC (if a =? b then -1 else 1)%R else RtoC 0.
Proof.
  intros. destruct a as [|[|a]], b as [|[|b]], a' as [|[|a']], b' as [|[|b']]; try lia;
  unfold op_scal, tensor, Sz, one_site; simpl; apply C_ext; simpl; lra.
Qed.

Section Tfim.
Context (o : ops) (val : Amp o -> C) (Rng : Type) (rows cols : nat) (tps : sitps o) (ker : kernel o Rng) (psi : net o -> Amp o).
Notation Psi := (wave o val cols psi tps).
Lemma tfim_energy h holes (w : wst o Rng) : 2 <= rows -> 2 <= cols ->
  contraction_consistent o rows cols psi ->
  ready o rows cols w -> projected o rows cols tps (cfg w) (tn w) -> all_states rows cols (fun x => x < 2) (cfg w) ->
  Psi (flat rows cols (cfg w)) <> RtoC 0 ->
  exists w' r, tfim_obc val h holes tps ker rows cols w = Ok (w', r) /\
    e_total r = local_energy 2 (rows * cols) (H_tfim rows cols h) Psi (flat rows cols (cfg w)) /\
    e_holes r = flat_map (hole_at o rows cols (tn w)) (tfim_calls holes rows cols) /\
    Forall (fun z => z = Psi (flat rows cols (cfg w))) (e_psis r) /\
    ready o rows cols w' /\ cfg w' = cfg w /\ tn w' = tn w /\ amp w' = amp w /\ rng w' = rng w.
Proof.
  intros Hr Hc H1 Hw HP HS HZ.
  assert (HL : forall v, In v (tfim_calls holes rows cols) -> two_layer v = true -> contraction_consistent2 o rows cols psi).
  { intros v Hv E. apply tfim_calls_in in Hv. destruct v; try contradiction; discriminate. }
  assert (HV : forall v, In v (tfim_calls holes rows cols) -> visit_in rows cols v).
  { intros v Hv. apply tfim_calls_in in Hv. unfold visit_in. destruct v; try contradiction; simpl in *; lia. }
  destruct (energy_of_sum o val Rng rows cols tps ker (tfim_model h) false 2 (cal_tfim holes rows cols)
     (fun _ => op_scal (- h) (op_scal 2 Sx)) true (RtoC (tfim_diag rows cols (cfg w))) w) as (w' & E & R); auto.
  - apply pure_tfim.
  - apply tfim_ok; auto.
  - intros _. apply tfim_traced_first. lia.
  - rewrite visits_tfim. exact HV.
  - rewrite visits_tfim. intros v Hv Hh cs inv T Hcs HT Hi. apply tfim_calls_in in Hv.
    destruct v; try contradiction; try discriminate. apply sx_term; auto.
  - intros q Hq. rewrite (first_bond_psi o val Rng rows cols tps psi) by (eauto using queries_tfim). exact HZ.
  - rewrite visits_tfim. intros v Hv Hh. rewrite (visit_psi o val Rng rows cols tps psi) by eauto. exact HZ.
  - rewrite visits_tfim. intros _ q v Hq Hv Hh. rewrite (first_bond_psi o val Rng rows cols tps psi) by (eauto using queries_tfim).
    apply visit_psi; eauto.
  - exists w'. eexists. split; [exact E|]. cbn [e_total e_holes e_psis]. rewrite visits_tfim. split.
    + unfold H_tfim. rewrite local_energy_add, !local_energy_sum.
      assert (X : forall x y z : C, x = z -> y = z -> x = y) by congruence.
      rewrite tfim_diag_sum.
      rewrite <- (sumC_perm _ _ _ (tfim_sites holes rows cols)), sumC_map.
      rewrite (sumC_ext _ (fun v => local_energy 2 (rows * cols) (on_sites [index cols (site_of v)] (op_scal (- h) (op_scal 2 Sx))) Psi (flat rows cols (cfg w)))).
      * rewrite (sumC_ext (fun ab => RtoC (zz (cfg w) ab)) (fun ab => local_energy 2 (rows * cols)
          (on_sites [index cols (fst ab); index cols (snd ab)] (op_scal (-1) (tensor (op_scal 2 Sz) (op_scal 2 Sz)))) Psi (flat rows cols (cfg w)))).
        -- ring.
        -- intros [a b] Hab. apply pairs_in in Hab. destruct Hab as (A & B & N). cbn [fst snd].
           assert (LA : in_lattice rows cols a = true) by (apply andb_true_iff; rewrite !Nat.ltb_lt; tauto).
           assert (LB : in_lattice rows cols b = true) by (apply andb_true_iff; rewrite !Nat.ltb_lt; tauto).
           assert (L : forallb (in_lattice rows cols) [a; b] = true) by (simpl; rewrite LA, LB; reflexivity).
           assert (D : NoDup [a; b]).
           { constructor; [intros [->|[]]|constructor; [intros []|constructor]]. unfold nearest in N.
             rewrite orb_true_iff, !andb_true_iff, !Nat.eqb_eq in N. lia. }
           rewrite (local_energy_diag 2 (rows * cols) (map (index cols) [a; b]) _
              (fun cs => match cs with [x; y] => if (x =? y)%nat then -1 else 1 | _ => 0 end)%R).
           ++ rewrite get_places by (auto; lia). reflexivity.
           ++ apply flat_states; auto; lia.
           ++ eapply places_nodup_gen; eauto; lia.
           ++ eapply places_lt_gen; eauto; lia.
           ++ exact HZ.
           ++ intros cs ns Hcs Hns. apply configs2 in Hcs, Hns. destruct Hcs as (x & y & -> & Hx & Hy), Hns as (x' & y' & -> & Hx' & Hy').
              apply zz_entry; auto.
      * intros v Hv. apply filter_In in Hv. destruct Hv as [Hv Nv]. pose proof Hv as Hv'. apply tfim_calls_in in Hv'.
        rewrite (visit_energy_local o val rows cols tps psi) by (eauto; lia).
        destruct v; try contradiction; try discriminate. reflexivity.
    + split; [reflexivity|]. split; [|exact R]. apply Forall_forall. intros z Hz. apply in_map_iff in Hz.
      destruct Hz as (q & <- & Hq). apply first_bond_psi; auto. eapply queries_tfim; eauto.
Qed.
End Tfim.

Section TfimHoles.
Context (o : ops) (rows cols : nat) (psi : net o -> Amp o) (plug : Hole o -> Ten o -> Amp o).
Hypothesis H1 : contraction_consistent o rows cols psi.
Hypothesis HH : plugs o rows cols plug.
Lemma tfim_holes_derivative n :
  Permutation (map fst (flat_map (hole_at o rows cols n) (tfim_calls true rows cols))) (all_sites rows cols) /\
  (forall s h, In (s, h) (flat_map (hole_at o rows cols n) (tfim_calls true rows cols)) -> forall t, plug h t = psi (upd2 n s t)).
Proof.
  destruct (holes_of o rows cols psi plug H1 HH n (tfim_calls true rows cols)) as [A B].
  { intros v Hv. apply tfim_calls_in in Hv. unfold visit_in. destruct v; try contradiction; simpl in *; lia. }
  split; [|intros s h Hi; apply (B s h Hi)]. rewrite A. apply NoDup_Permutation.
  - assert (G : forall l, NoDup l -> NoDup (flat_map (fun v => match v with VHole s => [s] | _ => [] end) l)).
    { induction 1 as [|v l Hn Hl IH]; [constructor|]. cbn [flat_map]. destruct v as [| | |s|]; try exact IH.
      cbn [app]. constructor; [|exact IH]. intros Hi. apply in_flat_map in Hi. destruct Hi as (v & Hv & Hs).
      destruct v as [| | |s'|]; try (destruct Hs; fail). destruct Hs as [Hs|[]]; subst. contradiction. }
    apply G, tfim_calls_nodup.
  - apply all_sites_nodup.
  - intros s. rewrite all_sites_in. split.
    + intros Hi. apply in_flat_map in Hi. destruct Hi as (v & Hv & Hs). apply tfim_calls_in in Hv.
      destruct v as [| | |s'|]; try (destruct Hs; fail). destruct Hs as [Hs|[]]; subst. tauto.
    + intros Hs. apply in_flat_map. exists (VHole s). split; [apply tfim_calls_in; tauto|left; reflexivity].
Qed.
End TfimHoles.
