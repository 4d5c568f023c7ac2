From Coq Require Import List Arith Lia Bool Reals.
From Verif Require Import Base BuildModel BuildSpec.
Import ListNotations.
Section B.
Context {Sched Alg Ckpt Spike Initial Periodic : Type} (disabled : Spike).
Local Notation call := (call Sched Alg Ckpt Spike Initial Periodic).
Local Notation run := (@run_calls Sched Alg Ckpt Spike Initial Periodic disabled).
Local Notation step := (@call_step Sched Alg Ckpt Spike Initial Periodic disabled).
Local Notation build := (@build Sched Alg Ckpt Spike Initial Periodic disabled).

Lemma run_snoc l c : run (l ++ [c]) = (b <- run l;; step b c).
Proof. unfold run_calls. rewrite fold_left_app. reflexivity. Qed.
Lemma latest_nil {X} (f : call -> option X) d : latest f d [] d.
Proof. right. split; [intros c []|reflexivity]. Qed.
Lemma latest_snoc_some {X} (f : call -> option X) d l c x : f c = Some x -> latest f d (l ++ [c]) x.
Proof. intros E. left. exists l, c, []. split; [reflexivity|]. split; [exact E|intros c' []]. Qed.
Lemma latest_snoc_none {X} (f : call -> option X) d l c x : f c = None -> latest f d l x -> latest f d (l ++ [c]) x.
Proof.
  intros E [(l1 & c1 & l2 & -> & A & B)|(A & ->)].
  - left. exists l1, c1, (l2 ++ [c]). split; [rewrite <- app_assoc; reflexivity|]. split; [exact A|]. intros c' Hc. apply in_app_or in Hc. destruct Hc as [Hc|[<-|[]]]; auto.
  - right. split; [|reflexivity]. intros c' Hc. apply in_app_or in Hc. destruct Hc as [Hc|[<-|[]]]; auto.
Qed.
Lemma latest_fun {X} (f : call -> option X) d l x y : latest f d l x -> latest f d l y -> x = y.
Proof.
  assert (H : exists z, forall x, latest f d l x -> x = z).
  { clear x y. induction l as [|c l IH] using rev_ind.
    - exists d. intros x [([|c' l1] & c & l2 & E & _)|(_ & ->)]; [discriminate|discriminate|reflexivity].
    - destruct IH as (z & IH). destruct (f c) as [v|] eqn:E.
      + exists v. intros x [(l1 & c1 & l2 & Q & A & B)|(A & _)].
        * destruct l2 as [|c2 l2 _] using rev_ind.
          -- change (l1 ++ [c1]) with (l1 ++ [c1]) in Q. apply app_inj_tail in Q. destruct Q as [_ <-]. congruence.
          -- rewrite app_comm_cons, app_assoc in Q. apply app_inj_tail in Q. destruct Q as [_ <-]. specialize (B c ltac:(apply in_or_app; right; left; reflexivity)). congruence.
        * specialize (A c ltac:(apply in_or_app; right; left; reflexivity)). congruence.
      + exists z. intros x H. apply IH. destruct H as [(l1 & c1 & l2 & Q & A & B)|(A & ->)].
        * destruct l2 as [|c2 l2 _] using rev_ind.
          -- apply app_inj_tail in Q. destruct Q as [_ <-]. congruence.
          -- rewrite app_comm_cons, app_assoc in Q. apply app_inj_tail in Q. destruct Q as [Q <-]. left. exists l1, c1, l2. split; [exact Q|]. split; [exact A|]. intros c' Hc. apply B, in_or_app. left. exact Hc.
        * right. split; [|reflexivity]. intros c' Hc. apply A, in_or_app. left. exact Hc. }
  destruct H as (z & H). intros Hx Hy. rewrite (H x Hx), (H y Hy). reflexivity.
Qed.

Definition base_ok (l : list call) (x : base Sched Initial Periodic) : Prop :=
  latest sets_max_iter 1000 l (b_max_iter x) /\ latest sets_energy_tol e10 l (b_energy_tol x) /\ latest sets_patience 20 l (b_patience x) /\
  latest sets_rate cent l (b_rate x) /\ latest sets_sched None l (b_sched x) /\ latest sets_clip_value None l (b_clip_value x) /\
  latest sets_clip_norm None l (b_clip_norm x) /\ latest sets_initial None l (b_initial x) /\ latest sets_periodic None l (b_periodic x) /\
  exists c, first_base l c /\ b_grad_tol x = match c with SetPlateauPatience _ => e15 | _ => e30 end.
Definition inv (l : list call) (b : builder Sched Alg Ckpt Spike Initial Periodic) : Prop :=
  match base_of b with None => forall c, In c l -> starts_base c = false /\ needs_base c = false | Some x => base_ok l x end /\
  latest (fun c => option_map Some (sets_alg c)) None l (alg_of b) /\ latest sets_ckpt None l (ckpt_of b) /\ latest (sets_spike disabled) None l (spike_of b).
Lemma first_snoc (l : list call) c c' : first_base l c -> first_base (l ++ [c']) c.
Proof. intros (l1 & l2 & -> & A & B). exists l1, (l2 ++ [c']). split; [rewrite <- app_assoc; reflexivity|]. split; assumption. Qed.
Lemma no_latest {X} (f : call -> option X) d l c :
  (forall c, In c l -> starts_base c = false /\ needs_base c = false) -> (forall c, f c <> None -> starts_base c = true \/ needs_base c = true) -> f c = None -> latest f d (l ++ [c]) d.
Proof.
  intros H K E. apply latest_snoc_none; [exact E|]. right. split; [|reflexivity]. intros c' Hc. destruct (f c') eqn:Q; [|reflexivity].
  destruct (H c' Hc) as [A B]. destruct (K c' ltac:(congruence)); congruence.
Qed.
Ltac fin := first
  [ apply latest_snoc_some; reflexivity
  | apply latest_snoc_none; [reflexivity|eassumption]
  | apply no_latest; [assumption|intros []; cbn; intuition congruence|reflexivity] ].
Lemma step_inv l b c b' : inv l b -> step b c = Ok b' -> inv (l ++ [c]) b'.
Proof.
  intros (IB & IA & IC & IS) E. unfold inv.
  destruct c; cbn [call_step] in E; unfold on_base in E; destruct (base_of b) as [x0|] eqn:EB; cbn [bind] in E; try discriminate; injection E as <-; cbn [set_base base_of alg_of ckpt_of spike_of];
  rewrite ?EB;
  (split; [|split; [|split]]); try (apply latest_snoc_none; [reflexivity|assumption]); try (apply latest_snoc_some; reflexivity);
  try (intros c0 Hc0; apply in_app_or in Hc0; destruct Hc0 as [Hc0|[<-|[]]]; [apply IB; exact Hc0|split; reflexivity]);
  unfold base_ok, new_base in *; cbn [b_max_iter b_energy_tol b_grad_tol b_patience b_rate b_sched b_clip_value b_clip_norm b_initial b_periodic];
  try (destruct IB as (H1 & H2 & H3 & H4 & H5 & H6 & H7 & H8 & H9 & c1 & H10 & H11);
       repeat (split; [fin|]); exists c1; split; [apply first_snoc; exact H10|exact H11]);
  try (repeat (split; [fin|]); eexists; split; [exists l, []; split; [reflexivity|split; [reflexivity|intros c0 Hc0; exact (proj1 (IB c0 Hc0))]]|reflexivity]).
  - destruct IB as (H1 & H2 & H3 & H4 & H5 & H6 & H7 & H8 & H9 & c1 & H10 & H11).
    repeat (split; [destruct s; fin|]). exists c1. split; [apply first_snoc; exact H10|exact H11].
  - repeat (split; [destruct s; fin|]). eexists. split; [exists l, []; split; [reflexivity|split; [reflexivity|intros c0 Hc0; exact (proj1 (IB c0 Hc0))]]|reflexivity].
Qed.
Lemma run_inv l : forall b, run l = Ok b -> inv l b.
Proof.
  induction l as [|c l IH] using rev_ind; intros b E.
  - injection E as <-. split; [intros c []|]. split; [apply latest_nil|]. split; apply latest_nil.
  - rewrite run_snoc in E. destruct (run l) as [b0|] eqn:E0; [|discriminate]. apply (step_inv l b0); [apply IH; reflexivity|exact E].
Qed.
Lemma premature_snoc (l : list call) c : premature l -> premature (l ++ [c]).
Proof. intros (l1 & c1 & l2 & -> & A & B). exists l1, c1, (l2 ++ [c]). split; [rewrite <- app_assoc; reflexivity|]. split; assumption. Qed.
Lemma run_fail l : (run l = Fail Throw <-> premature l) /\ (forall b, run l = Ok b -> ~ premature l) /\ run l <> Fail UB.
Proof.
  induction l as [|c l (IH1 & IH2 & IH3)] using rev_ind.
  - split; [|split; [|discriminate]]; [split; [discriminate|]|intros b _]; intros ([|c0 l1] & c & l2 & E & _); discriminate.
  - rewrite run_snoc. destruct (run l) as [b0|[]] eqn:E0; cbn [bind].
    + pose proof (run_inv l b0 E0) as (IB & _).
      assert (P : premature (l ++ [c]) -> base_of b0 = None /\ needs_base c = true).
      { intros (l1 & c1 & l2 & Q & A & B). destruct l2 as [|c2 l2 _] using rev_ind.
        - apply app_inj_tail in Q. destruct Q as [<- <-]. split; [|exact A]. destruct (base_of b0) as [x|]; [|reflexivity].
          destruct IB as (_ & _ & _ & _ & _ & _ & _ & _ & _ & c' & (m1 & m2 & -> & F & _) & _). specialize (B c' ltac:(apply in_or_app; right; left; reflexivity)). congruence.
        - exfalso. rewrite app_comm_cons, app_assoc in Q. apply app_inj_tail in Q. destruct Q as [Q _]. apply (IH2 b0 eq_refl). exists l1, c1, l2. auto. }
      assert (Q : base_of b0 = None -> needs_base c = true -> premature (l ++ [c])).
      { intros H N. rewrite H in IB. exists l, c, []. split; [reflexivity|]. split; [exact N|]. intros c' Hc. apply IB, Hc. }
      destruct (base_of b0) as [x|] eqn:EB.
      * assert (NP : ~ premature (l ++ [c])) by (intros H; destruct (P H); discriminate).
        destruct c; cbn [call_step]; unfold on_base; rewrite EB; cbn [bind]; (split; [split; [discriminate|contradiction]|split; [intros b _; exact NP|discriminate]]).
      * destruct c; cbn [call_step]; unfold on_base; rewrite ?EB; cbn [bind];
        try (assert (NP : ~ premature (l ++ [_])) by (intros H; destruct (P H); discriminate); split; [split; [discriminate|intros H; destruct (NP H)]|split; [intros b _; exact NP|discriminate]]);
        (split; [split; [intros _; apply Q; reflexivity|reflexivity]|split; [discriminate|discriminate]]).
    + split; [split; [intros _; apply premature_snoc, IH1; reflexivity|reflexivity]|]. split; discriminate.
    + contradiction.
Qed.
Lemma build_fails l : build l = Fail Throw <-> premature l \/ (forall c, In c l -> starts_base c = false) \/ (forall c, In c l -> sets_alg c = None).
Proof.
  unfold BuildModel.build. destruct (run_fail l) as (F1 & F2 & F3). destruct (run l) as [b|[]] eqn:E; cbn [bind]; [| |contradiction].
  - pose proof (run_inv l b E) as (IB & IA & _). specialize (F2 b eq_refl). destruct (base_of b) as [x|].
    + destruct IB as (_ & _ & _ & _ & _ & _ & _ & _ & _ & c & (l1 & l2 & -> & S & _) & _).
      assert (NB : ~ forall c0, In c0 (l1 ++ c :: l2) -> starts_base c0 = false) by (intros H; specialize (H c ltac:(apply in_or_app; right; left; reflexivity)); congruence).
      destruct (alg_of b) as [a|].
      * split; [discriminate|]. intros [H|[H|H]]; [contradiction|contradiction|]. destruct IA as [(m1 & c' & m2 & Q & A & _)|(_ & A)]; [|discriminate].
        specialize (H c' ltac:(rewrite Q; apply in_or_app; right; left; reflexivity)). rewrite H in A. discriminate.
      * split; [intros _; right; right|reflexivity]. destruct IA as [(m1 & c' & m2 & Q & A & _)|(A & _)].
        -- destruct (sets_alg c'); discriminate.
        -- intros c' Hc. specialize (A c' Hc). destruct (sets_alg c'); [discriminate|reflexivity].
    + split; [intros _; right; left; intros c Hc; apply IB, Hc|reflexivity].
  - split; [intros _; left; apply F1; reflexivity|reflexivity].
Qed.
Lemma build_values l p : build l = Ok p -> base_ok l (p_base p) /\ latest (fun c => option_map Some (sets_alg c)) None l (Some (p_alg p)) /\ latest sets_ckpt None l (p_ckpt p) /\ latest (sets_spike disabled) None l (p_spike p).
Proof.
  unfold BuildModel.build. destruct (run l) as [b|] eqn:E; cbn [bind]; [|discriminate]. pose proof (run_inv l b E) as (IB & IA & IC & IS).
  destruct (base_of b) as [x|]; [|discriminate]. destruct (alg_of b) as [a|]; [|discriminate]. intros Q. injection Q as <-. cbn. auto.
Qed.
Lemma latest_filter {X} (f : call -> option X) d (q : call -> bool) l x : (forall c, f c <> None -> q c = true) -> latest f d l x -> latest f d (filter q l) x.
Proof.
  intros H [(l1 & c & l2 & -> & A & B)|(A & ->)].
  - left. exists (filter q l1), c, (filter q l2). split; [rewrite filter_app; cbn [filter]; rewrite (H c) by congruence; reflexivity|]. split; [exact A|].
    intros c' Hc. apply filter_In in Hc. apply B, Hc.
  - right. split; [|reflexivity]. intros c Hc. apply filter_In in Hc. apply A, Hc.
Qed.
Lemma latest_same {X} (f : call -> option X) d k l l' x y : same_calls l l' -> (forall c, f c <> None -> kind c = k) -> latest f d l x -> latest f d l' y -> x = y.
Proof.
  intros S K A B. apply (latest_filter _ _ (fun c => Nat.eqb (kind c) k)) in A; [|intros c Hc; apply Nat.eqb_eq, K, Hc].
  apply (latest_filter _ _ (fun c => Nat.eqb (kind c) k)) in B; [|intros c Hc; apply Nat.eqb_eq, K, Hc]. rewrite <- (S k) in B. exact (latest_fun f d _ x y A B).
Qed.
Lemma build_order l l' p p' : same_calls l l' -> build l = Ok p -> build l' = Ok p' -> same_settings p p'.
Proof.
  intros S E E'. apply build_values in E, E'. destruct E as ((A1 & A2 & A3 & A4 & A5 & A6 & A7 & A8 & A9 & _) & B & C & D), E' as ((A1' & A2' & A3' & A4' & A5' & A6' & A7' & A8' & A9' & _) & B' & C' & D').
  unfold same_settings. cbn zeta.
  split; [apply (latest_same _ _ 0%nat l l' _ _ S (fun c => match c with SetMaxIterations _ => fun _ => eq_refl | _ => fun H => match H eq_refl with end end) A1 A1')|].
  split; [eapply (latest_same _ _ 1%nat l l' _ _ S); [|exact A2|exact A2']; intros []; cbn; congruence|].
  split; [eapply (latest_same _ _ 3%nat l l' _ _ S); [|exact A3|exact A3']; intros []; cbn; congruence|].
  split; [eapply (latest_same _ _ 2%nat l l' _ _ S); [|exact A4|exact A4']; intros []; cbn; congruence|].
  split; [eapply (latest_same _ _ 2%nat l l' _ _ S); [|exact A5|exact A5']; intros []; cbn; congruence|].
  split; [eapply (latest_same _ _ 5%nat l l' _ _ S); [|exact A6|exact A6']; intros []; cbn; congruence|].
  split; [eapply (latest_same _ _ 6%nat l l' _ _ S); [|exact A7|exact A7']; intros []; cbn; congruence|].
  split; [eapply (latest_same _ _ 8%nat l l' _ _ S); [|exact A8|exact A8']; intros []; cbn; congruence|].
  split; [eapply (latest_same _ _ 7%nat l l' _ _ S); [|exact A9|exact A9']; intros []; cbn; congruence|].
  split; [assert (Q : Some (p_alg p) = Some (p_alg p')) by (eapply (latest_same _ _ 4%nat l l' _ _ S); [|exact B|exact B']; intros []; cbn; congruence); congruence|].
  split; [eapply (latest_same _ _ 9%nat l l' _ _ S); [|exact C|exact C']; intros []; cbn; congruence|].
  eapply (latest_same _ _ 10%nat l l' _ _ S); [|exact D|exact D']; intros []; cbn; congruence.
Qed.
End B.
