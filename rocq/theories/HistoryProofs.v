(** Arbitrary histories of contractor calls; coverage; 1-wide lattices. *)
From Coq Require Import List Arith Lia Bool FinFun.
From Verif Require Import Base ContractorModel ContractorSpec ContractorProofs SweepModel SweepSpec SweepProofs.
Import ListNotations.

Section Hist.
Context (o : ops) (Rng : Type) (tps : sitps o) (ker : kernel o Rng).

Definition fresh_c (tn : net o) (c : con o) (rows cols : nat) : Prop :=
  rows_ c = rows /\ cols_ c = cols /\ bm_fresh o tn c.

Lemma fresh_set_bm tn c p n rows cols : fresh_c tn c rows cols ->
  fresh_c tn (set_bm o c p (bmS o (rows_ c) (cols_ c) tn p n)) rows cols.
Proof.
  intros (R & C & F). split; [exact R|]. split; [exact C|].
  apply bm_fresh_iff. rewrite bm_fresh_iff in F. intros q. cbn [bm set_bm rows_ cols_]. unfold upd.
  destruct (pos_eqb p q) eqn:E; [apply pos_eqb_eq in E; subst q; now rewrite bmS_length|apply F].
Qed.
Lemma step_fresh tn p c c' rows cols : grow_bmps_step o tn p c = Ok c' ->
  fresh_c tn c rows cols -> fresh_c tn c' rows cols.
Proof.
  intros E HF. pose proof HF as (R & C & F).
  pose proof (grow_step_inv o tn p c c' E F) as B.
  pose proof (proj1 (bm_fresh_iff o tn c) F p) as T.
  rewrite (grow_step_ok o tn p c _ T B) in E. inversion E. apply fresh_set_bm. exact HF.
Qed.
Lemma iter_fresh tn p k rows cols : forall c c', iter_res k (grow_bmps_step o tn p) c = Ok c' ->
  fresh_c tn c rows cols -> fresh_c tn c' rows cols.
Proof.
  induction k as [|k IH]; intros c c' E HF; simpl in E; [inversion E; subst; exact HF|].
  destruct (grow_bmps_step o tn p c) as [c1|] eqn:E1; cbn [bind] in E; [|discriminate].
  eapply IH; [exact E|]. eapply step_fresh; eauto.
Qed.
Lemma sub_fresh tn c p l rows cols : fresh_c tn c rows cols ->
  (forall k b, nth_error l k = Some b -> nth_error (bm c p) k = Some b) ->
  fresh_c tn (set_bm o c p l) rows cols.
Proof.
  intros (R & C & F) Hl. split; [exact R|]. split; [exact C|]. intros q k b. cbn [bm set_bm rows_ cols_].
  unfold upd. destruct (pos_eqb p q) eqn:E; [|apply F].
  apply pos_eqb_eq in E. subst q. intros Hk. apply F. auto.
Qed.
Lemma delete_fresh tn c p rows cols : fresh_c tn c rows cols -> fresh_c tn (delete_inner o c p) rows cols.
Proof.
  intros HF. unfold delete_inner. destruct (bm c p) eqn:E; [exact HF|].
  apply sub_fresh; [exact HF|]. intros [|k] x; rewrite E; simpl; [auto|].
  destruct k; discriminate.
Qed.
Lemma pop_fresh tn c p l rows cols : pop_back (bm c p) = Ok l -> fresh_c tn c rows cols ->
  fresh_c tn (set_bm o c p l) rows cols.
Proof.
  intros E HF. apply sub_fresh; [exact HF|]. unfold pop_back in E.
  destruct (bm c p) as [|b0 l0] eqn:Eb; [discriminate|].
  remember (b0 :: l0) as L eqn:EL. injection E as <-.
  intros k b Hk. rewrite (app_removelast_last b0 (l := L)) by (subst L; discriminate).
  rewrite nth_error_app1; auto. apply nth_error_Some. congruence.
Qed.
Lemma full_fresh tn p c c' rows cols : grow_full_bmps o tn p c = Ok c' ->
  fresh_c tn c rows cols -> fresh_c tn c' rows cols.
Proof.
  intros E HF. unfold grow_full_bmps in E.
  destruct p;
    match type of E with (bind ?x _) = _ => destruct x; cbn [bind] in E; [|discriminate] end;
    try (destruct (_ =? 0); [inversion E; subst; exact HF|]); eapply iter_fresh; eauto.
Qed.
Lemma for_fresh tn f n k c c' rows cols : grow_bmps_for o tn f n k c = Ok c' ->
  fresh_c tn c rows cols -> fresh_c tn c' rows cols.
Proof.
  intros E HF. unfold grow_bmps_for in E.
  match type of E with (bind ?x _) = _ => destruct x; cbn [bind] in E; [|discriminate] end.
  match type of E with (bind ?x _) = _ => destruct x as [c1|] eqn:E1; cbn [bind] in E; [|discriminate] end.
  assert (fresh_c tn c1 rows cols) by (eapply iter_fresh; eauto).
  destruct (_ =? 0); [inversion E; subst; auto|eapply iter_fresh; eauto].
Qed.
Lemma same_bm_fresh tn c c' rows cols : rows_ c' = rows_ c -> cols_ c' = cols_ c -> bm c' = bm c ->
  fresh_c tn c rows cols -> fresh_c tn c' rows cols.
Proof.
  intros R C B (R0 & C0 & F). split; [congruence|]. split; [congruence|].
  intros p k b. rewrite B, R, C. apply F.
Qed.

(** Operations on boundary tensors leave the boundary MPS alone. *)
Definition keeps (c c' : con o) := rows_ c' = rows_ c /\ cols_ c' = cols_ c /\ bm c' = bm c.
Lemma keeps_refl c : keeps c c. Proof. repeat split. Qed.
Lemma keeps_trans a b c : keeps a b -> keeps b c -> keeps a c.
Proof. unfold keeps. intuition congruence. Qed.
Lemma env_grow_keeps tn p bp bn s i c c' : env_grow_with o tn p bp bn s i c = Ok c' -> keeps c c'.
Proof.
  unfold env_grow_with. destruct (_ <? _); [|discriminate]. intros E.
  repeat (match type of E with (bind ?x _) = _ => destruct x; cbn [bind] in E; [|discriminate] end).
  inversion E. repeat split.
Qed.
Lemma env2_grow_keeps tn p bp bn s i c c' : env2_grow_with o tn p bp bn s i c = Ok c' -> keeps c c'.
Proof.
  unfold env2_grow_with. destruct (layers p s). destruct (_ <? _); [|discriminate]. intros E.
  repeat (match type of E with (bind ?x _) = _ => destruct x; cbn [bind] in E; [|discriminate] end).
  inversion E. repeat split.
Qed.
Lemma iter_keeps k f : (forall c c', f c = Ok c' -> keeps c c') ->
  forall c c', iter_res k f c = Ok c' -> keeps c c'.
Proof.
  intros Hf. induction k as [|k IH]; intros c c' E; simpl in E; [inversion E; apply keeps_refl|].
  destruct (f c) as [c1|] eqn:E1; cbn [bind] in E; [|discriminate].
  eapply keeps_trans; [apply Hf; exact E1|apply IH; exact E].
Qed.
Ltac binds E := repeat (match type of E with (bind ?x _) = _ => destruct x eqn:?; cbn [bind] in E; [|discriminate] end).
Lemma init_bten_keeps tn p s c c' : init_bten o tn p s c = Ok c' -> keeps c c'.
Proof. unfold init_bten. intros E. binds E. inversion E. repeat split. Qed.
Lemma init_bten2_keeps tn p s c c' : init_bten2 o tn p s c = Ok c' -> keeps c c'.
Proof. unfold init_bten2. destruct (layers p s). intros E. binds E. inversion E. repeat split. Qed.
Lemma grow_full_bten_keeps tn p s r i c c' : grow_full_bten o tn p s r i c = Ok c' -> keeps c c'.
Proof.
  unfold grow_full_bten. intros E.
  destruct (if i then init_bten o tn p s c else Ok c) as [c0|] eqn:E0; cbn [bind] in E; [|discriminate].
  assert (K0 : keeps c c0) by (destruct i; [eapply init_bten_keeps; eauto|inversion E0; apply keeps_refl]).
  binds E. destruct (_ =? 0); [inversion E; subst; exact K0|].
  eapply keeps_trans; [exact K0|]. eapply iter_keeps; [|exact E]. intros ? ? HE; cbv beta in HE; eapply env_grow_keeps; exact HE.
Qed.
Lemma grow_full_bten2_keeps tn p s r i c c' : grow_full_bten2 o tn p s r i c = Ok c' -> keeps c c'.
Proof.
  unfold grow_full_bten2. intros E.
  destruct (if i then init_bten2 o tn p s c else Ok c) as [c0|] eqn:E0; cbn [bind] in E; [|discriminate].
  assert (K0 : keeps c c0) by (destruct i; [eapply init_bten2_keeps; eauto|inversion E0; apply keeps_refl]).
  destruct (layers p s).
  binds E. destruct (_ =? 0); [inversion E; subst; exact K0|].
  eapply keeps_trans; [exact K0|]. eapply iter_keeps; [|exact E]. intros ? ? HE; cbv beta in HE; eapply env2_grow_keeps; exact HE.
Qed.
Lemma shift_bten_keeps tn p c c' : shift_bten_window o tn p c = Ok c' -> keeps c c'.
Proof.
  unfold shift_bten_window, grow_bten_step. intros E. binds E.
  apply env_grow_keeps in E. destruct E as (A & B & C). repeat split; auto.
Qed.
Lemma shift_bten2_keeps tn p s c c' : shift_bten2_window o tn p s c = Ok c' -> keeps c c'.
Proof.
  unfold shift_bten2_window, grow_bten2_step. intros E. binds E.
  destruct (layers (opposite p) s). binds E.
  apply env2_grow_keeps in E. destruct E as (A & B & C). repeat split; auto.
Qed.

Definition fresh_w rows cols (w : wst o Rng) := fresh_c (tn w) (ctr w) rows cols.

Lemma update_site_fresh rows cols x n (w : wst o Rng) : fst x < rows -> snd x < cols ->
  fresh_w rows cols w -> fresh_w rows cols (update_single_site o tps x n w).
Proof.
  intros H1 H2 (R & C & F). split; [exact R|]. split; [exact C|].
  apply bm_fresh_iff. rewrite bm_fresh_iff in F. intros p.
  cbn [bm erase_envs_after_update update_single_site ctr tn rows_ cols_].
  rewrite (F p), firstn_bmS, bmS_length, R, C. symmetry.
  apply bmS_update with x; auto; [apply agree_upd2|lia].
Qed.
Lemma update_sites_fresh rows cols l : forall (w : wst o Rng),
  (forall y n, In (y, n) l -> fst y < rows /\ snd y < cols) ->
  fresh_w rows cols w ->
  fresh_w rows cols (fold_left (fun y sn => update_single_site o tps (fst sn) (snd sn) y) l w).
Proof.
  induction l as [|[y n] l IH]; intros w Hin HF; [exact HF|]. simpl. apply IH.
  - intros z m Hz. apply (Hin z m). right; exact Hz.
  - destruct (Hin y n (or_introl eq_refl)). apply update_site_fresh; auto.
Qed.

Lemma init_fresh tn c rows cols : rows_ c = rows -> cols_ c = cols -> fresh_c tn (init o c) rows cols.
Proof.
  intros R C. split; [exact R|]. split; [exact C|]. intros p k b.
  destruct p; simpl; destruct k as [|[|k]]; simpl; intros E; inversion E; reflexivity.
Qed.

Lemma in_lattice_spec rows cols y : in_lattice rows cols y = true -> fst y < rows /\ snd y < cols.
Proof.
  unfold in_lattice. intros H. apply andb_true_iff in H. destruct H as [A B].
  apply Nat.ltb_lt in A, B. auto.
Qed.

Lemma exec_fresh rows cols x (w w' : wst o Rng) lg :
  exec o tps ker x w = Ok (w', lg) -> fresh_w rows cols w -> fresh_w rows cols w'.
Proof.
  intros E HF. pose proof HF as (R & C & F).
  assert (K : forall c', keeps (ctr w) c' -> fresh_w rows cols (set_con o w c')).
  { intros c' (A & B & D). unfold fresh_w. simpl. eapply same_bm_fresh; eauto. }
  destruct x; cbn [exec] in E.
  all: try (match type of E with context [bind ?r (fun c' => Ok (set_con _ _ c', []))] =>
     destruct r as [c'|] eqn:Er; cbn [bind] in E; [|discriminate]; inversion E; subst end).
  - inversion E; subst. apply init_fresh; auto.
  - unfold generate_bmps_approach in Er. eapply full_fresh; eauto. apply delete_fresh. exact HF.
  - eapply full_fresh; eauto.
  - eapply for_fresh; eauto.
  - eapply for_fresh; eauto.
  - unfold shift_bmps_window in Er. binds Er. eapply step_fresh; eauto. eapply pop_fresh; eauto.
  - inversion E; subst. apply delete_fresh. exact HF.
  - apply K. eapply init_bten_keeps; eauto.
  - apply K. eapply grow_full_bten_keeps; eauto.
  - apply K. eapply shift_bten_keeps; eauto.
  - inversion E; subst. apply K. repeat split.
  - apply K. eapply init_bten2_keeps; eauto.
  - apply K. eapply grow_full_bten2_keeps; eauto.
  - apply K. eapply shift_bten2_keeps; eauto.
  - binds E. inversion E; subst. exact HF.
  - binds E. inversion E; subst. exact HF.
  - destruct (forallb _ _) eqn:EF; [|discriminate]. rewrite R, C, forallb_forall in EF. binds E.
    destruct a as [[ms e1] e2]. destruct (ker _ _ _ _) as [[[ns a]|] g]; inversion E; subst; [|exact HF].
    unfold update_local.
    assert (U : fresh_w (rows_ (ctr w)) (cols_ (ctr w)) (fold_left (fun y sn => update_single_site o tps (fst sn) (snd sn) y)
         (combine (chain d s w0) ns) (mkW (cfg w) (amp w) (tn w) (ctr w) g))).
    { apply update_sites_fresh; [|exact HF]. intros y n Hy. apply in_combine_l in Hy.
      apply in_lattice_spec. auto. }
    exact U.
  - destruct (in_lattice _ _ s) eqn:EF; [|discriminate].
    rewrite R, C in EF. apply in_lattice_spec in EF. injection E as <- _. apply update_site_fresh; tauto.
  - destruct (forallb _ _) eqn:EF; [|discriminate]. binds E. destruct a as [[ms e1] e2].
    inversion E; subst. exact HF.
  - destruct (forallb _ _) eqn:EF; [|discriminate]. binds E. destruct a as [[ms e1] e2].
    inversion E; subst. exact HF.
Qed.

Lemma run_fresh rows cols l : forall (w w' : wst o Rng) lg,
  run o tps ker l w = Ok (w', lg) -> fresh_w rows cols w -> fresh_w rows cols w'.
Proof.
  induction l as [|x l IH]; intros w w' lg E HF; cbn [run] in E; [inversion E; subst; exact HF|].
  destruct (exec o tps ker x w) as [[w1 g1]|] eqn:E1; cbn [bind fst snd] in E; [|discriminate].
  destruct (run o tps ker l w1) as [[w2 g2]|] eqn:E2; cbn [bind fst snd] in E; [|discriminate].
  inversion E; subst. eapply IH; [exact E2|]. eapply exec_fresh; eauto.
Qed.

(** Moves and callbacks of a program. *)
Definition attempts (l : list cmd) : list (orient * site * nat) :=
  flat_map (fun x => match x with Update d s k => [(d, s, k)] | _ => [] end) l.
Definition visits (l : list cmd) : list visit :=
  flat_map (fun x => match x with Visit v => [v] | _ => [] end) l.

Lemma exec_events x (w w' : wst o Rng) lg : exec o tps ker x w = Ok (w', lg) ->
  tried lg = attempts [x] /\ visited lg = visits [x].
Proof.
  intros E. destruct x; cbn [exec] in E.
  all: try (inversion E; subst; auto; fail).
  all: try (binds E; inversion E; subst; auto; fail).
  - destruct (forallb _ _); [|discriminate]. binds E. destruct a as [[ms e1] e2].
    destruct (ker _ _ _ _) as [dec g]; inversion E; subst; auto.
  - destruct (in_lattice _ _ s); [|discriminate]. inversion E; subst; auto.
  - destruct (forallb _ _); [|discriminate]. binds E. destruct a as [[ms e1] e2]. inversion E; subst; auto.
  - destruct (forallb _ _); [|discriminate]. binds E. destruct a as [[ms e1] e2]. inversion E; subst; auto.
Qed.
Lemma run_events l : forall (w w' : wst o Rng) lg, run o tps ker l w = Ok (w', lg) ->
  tried lg = attempts l /\ visited lg = visits l.
Proof.
  induction l as [|x l IH]; intros w w' lg E; cbn [run] in E; [inversion E; auto|].
  destruct (exec o tps ker x w) as [[w1 g1]|] eqn:E1; cbn [bind fst snd] in E; [|discriminate].
  destruct (run o tps ker l w1) as [[w2 g2]|] eqn:E2; cbn [bind fst snd] in E; [|discriminate].
  inversion E; subst. destruct (exec_events _ _ _ _ E1) as [A B]. destruct (IH _ _ _ E2) as [C D].
  unfold tried, visited, attempts, visits in *. rewrite !flat_map_app, A, B, C, D. simpl. rewrite !app_nil_r.
  split; reflexivity.
Qed.
Lemma accepted_le lg : @accepted o lg <= length (tried lg).
Proof.
  unfold accepted, tried. induction lg as [|e lg IH]; [auto|]. destruct e as [n q x|d s k b|v]; simpl; auto.
  destruct b; simpl; lia.
Qed.

End Hist.

(** *** Enumeration of loops *)
Lemma in_for {X} a b (f : nat -> list X) x : In x (for_ a b f) <-> exists i, a <= i < b /\ In x (f i).
Proof.
  unfold for_. rewrite in_flat_map. split.
  - intros (i & Hi & Hx). apply in_seq in Hi. exists i. split; [lia|exact Hx].
  - intros (i & Hi & Hx). exists i. split; [apply in_seq; lia|exact Hx].
Qed.
Lemma NoDup_app_intro {X} (l1 l2 : list X) : NoDup l1 -> NoDup l2 -> (forall x, In x l1 -> In x l2 -> False) ->
  NoDup (l1 ++ l2).
Proof.
  induction l1 as [|a l1 IH]; intros A B C; [exact B|]. inversion A; subst. simpl. constructor.
  - intros Hi. apply in_app_or in Hi. destruct Hi; [auto|]. apply (C a); [left; reflexivity|auto].
  - apply IH; auto. intros x H1' H2'. apply (C x); [right|]; auto.
Qed.
Lemma nodup_for {X} a b (f : nat -> list X) :
  (forall i, a <= i < b -> NoDup (f i)) ->
  (forall i j x, In x (f i) -> In x (f j) -> i = j) -> NoDup (for_ a b f).
Proof.
  intros A B. unfold for_.
  assert (E : forall n a0, a <= a0 -> a0 + n <= b \/ n = 0 -> NoDup (flat_map f (seq a0 n))).
  { induction n as [|n IH]; intros a0 H1 H2; simpl; [constructor|].
    apply NoDup_app_intro.
    - apply A. lia.
    - apply IH; lia.
    - intros x Hx Hy. apply in_flat_map in Hy. destruct Hy as (j & Hj & Hy). apply in_seq in Hj.
      assert (a0 = j) by eauto. lia. }
  apply E; lia.
Qed.
Lemma length_for {X} a b (f : nat -> list X) k : (forall i, length (f i) = k) -> length (for_ a b f) = (b - a) * k.
Proof.
  intros E. unfold for_. generalize (b - a) as n. intros n. revert a. induction n as [|n IH]; intros a0; simpl; [auto|].
  rewrite app_length, E, IH. reflexivity.
Qed.
Lemma attempts_app l1 l2 : attempts (l1 ++ l2) = attempts l1 ++ attempts l2.
Proof. unfold attempts. apply flat_map_app. Qed.
Lemma attempts_for a b f : attempts (for_ a b f) = for_ a b (fun i => attempts (f i)).
Proof.
  unfold for_. induction (seq a (b - a)) as [|i l IH]; [reflexivity|]. simpl. now rewrite attempts_app, IH.
Qed.
Lemma attempts_when b l : attempts (when b l) = when b (attempts l).
Proof. destruct b; reflexivity. Qed.
Lemma visits_app l1 l2 : visits (l1 ++ l2) = visits l1 ++ visits l2.
Proof. unfold visits. apply flat_map_app. Qed.
Lemma visits_for a b f : visits (for_ a b f) = for_ a b (fun i => visits (f i)).
Proof.
  unfold for_. induction (seq a (b - a)) as [|i l IH]; [reflexivity|]. simpl. now rewrite visits_app, IH.
Qed.
Lemma visits_when b l : visits (when b l) = when b (visits l).
Proof. destruct b; reflexivity. Qed.
Lemma for_ext_in {X} a b (f g : nat -> list X) : (forall i, a <= i < b -> f i = g i) -> for_ a b f = for_ a b g.
Proof.
  intros E. unfold for_. assert (H : forall i, In i (seq a (b - a)) -> f i = g i).
  { intros i Hi. apply in_seq in Hi. apply E. lia. }
  induction (seq a (b - a)) as [|i l IH]; [reflexivity|]. simpl. rewrite H by (left; reflexivity).
  rewrite IH; [reflexivity|]. intros j Hj. apply H. right; exact Hj.
Qed.

Lemma when_nil {X} b : when b (@nil X) = [].
Proof. destruct b; reflexivity. Qed.

(** Moves of the sweeps. *)
Definition moves (k rows cols : nat) : list (orient * site * nat) :=
  for_ 0 rows (fun r => for_ 0 (cols - (k - 1)) (fun c => [(HORIZONTAL, (r, c), k)])) ++
  for_ 0 cols (fun c => for_ 0 (rows - (k - 1)) (fun r => [(VERTICAL, (r, c), k)])).

Lemma attempts_cons x l : attempts (x :: l) =
  (match x with Update d s k => [(d, s, k)] | _ => [] end) ++ attempts l.
Proof. reflexivity. Qed.
Lemma visits_cons x l : visits (x :: l) = (match x with Visit v => [v] | _ => [] end) ++ visits l.
Proof. reflexivity. Qed.
Lemma attempts_nil : attempts [] = []. Proof. reflexivity. Qed.
Lemma visits_nil : visits [] = []. Proof. reflexivity. Qed.
#[export] Hint Rewrite attempts_app attempts_for attempts_when attempts_cons attempts_nil
  visits_app visits_for visits_when visits_cons visits_nil @app_nil_r @app_nil_l @when_nil : prog.
Ltac prog := repeat (autorewrite with prog; cbn [app]).

Lemma attempts_nn rows cols : attempts (sweep_nn_obc rows cols) = moves 2 rows cols.
Proof.
  unfold sweep_nn_obc, moves. prog. f_equal; apply for_ext_in; intros i Hi; prog;
  apply for_ext_in; intros j Hj; prog; reflexivity.
Qed.
Lemma attempts_tnn rows cols : attempts (sweep_tnn_obc rows cols) = moves 3 rows cols.
Proof.
  unfold sweep_tnn_obc, moves. prog. f_equal; apply for_ext_in; intros i Hi; prog;
  apply for_ext_in; intros j Hj; prog; reflexivity.
Qed.

Lemma moves_in k rows cols x : 1 <= k -> (In x (moves k rows cols) <-> lattice_chain rows cols k x).
Proof.
  intros Hk. destruct x as [[d [r c]] k']. unfold moves, lattice_chain. rewrite in_app_iff, !in_for. split.
  - intros [(i & Hi & H)|(i & Hi & H)]; apply in_for in H; destruct H as (j & Hj & [H|[]]);
      inversion H; subst; simpl; lia.
  - intros [-> H]. destruct d; simpl in H; [left; exists r|right; exists c]; (split; [lia|]);
      apply in_for; [exists c|exists r]; (split; [lia|left; reflexivity]).
Qed.
Lemma moves_nodup k rows cols : NoDup (moves k rows cols).
Proof.
  unfold moves. apply NoDup_app_intro.
  - apply nodup_for.
    + intros i _. apply nodup_for; [intros; constructor; [intros []|constructor]|].
      intros a b x [<-|[]] [E|[]]. inversion E; auto.
    + intros i j x H1 H2. apply in_for in H1, H2. destruct H1 as (a & _ & [<-|[]]), H2 as (b & _ & [E|[]]).
      inversion E; auto.
  - apply nodup_for.
    + intros i _. apply nodup_for; [intros; constructor; [intros []|constructor]|].
      intros a b x [<-|[]] [E|[]]. inversion E; auto.
    + intros i j x H1 H2. apply in_for in H1, H2. destruct H1 as (a & _ & [<-|[]]), H2 as (b & _ & [E|[]]).
      inversion E; auto.
  - intros x H1 H2. apply in_for in H1, H2. destruct H1 as (a & _ & H1), H2 as (b & _ & H2).
    apply in_for in H1, H2. destruct H1 as (a' & _ & [<-|[]]), H2 as (b' & _ & [E|[]]). discriminate.
Qed.
Lemma moves_length k rows cols : length (moves k rows cols) = cols * (rows - (k - 1)) + rows * (cols - (k - 1)).
Proof.
  unfold moves. rewrite app_length.
  rewrite (length_for 0 rows _ (cols - (k - 1))), (length_for 0 cols _ (rows - (k - 1))).
  - rewrite !Nat.sub_0_r. lia.
  - intros i. rewrite (length_for _ _ _ 1) by reflexivity. lia.
  - intros i. rewrite (length_for _ _ _ 1) by reflexivity. lia.
Qed.

(** Callbacks of the traversals. *)
Definition calls (holes nnn : bool) (rows cols : nat) : list visit :=
  for_ 0 rows (fun row =>
    for_ 0 cols (fun col => when holes [VHole (row, col)] ++
                            when (col <? cols - 1) [VBond HORIZONTAL (row, col)]) ++
    when (nnn && (row <? rows - 1)) (for_ 0 (cols - 1) (fun col =>
       [VDiag LEFTUP_TO_RIGHTDOWN (row, col); VDiag LEFTDOWN_TO_RIGHTUP (row, col)]))) ++
  for_ 0 cols (fun col => for_ 0 (rows - 1) (fun row => [VBond VERTICAL (row, col)])).

Lemma visits_vertical rows cols : visits (traverse_vertical rows cols) =
  for_ 0 cols (fun col => for_ 0 (rows - 1) (fun row => [VBond VERTICAL (row, col)])).
Proof.
  unfold traverse_vertical. prog. apply for_ext_in; intros i Hi; prog;
  apply for_ext_in; intros j Hj; prog; reflexivity.
Qed.
Lemma for_when_last {X} n (f : nat -> list X) :
  for_ 0 n (fun c => when (c <? n - 1) (f c)) = for_ 0 (n - 1) f.
Proof.
  destruct n as [|n]; [reflexivity|]. replace (S n - 1) with n by lia.
  transitivity (for_ 0 (S n) (fun c => when (c <? n) (f c))); [reflexivity|].
  unfold for_. rewrite !Nat.sub_0_r, seq_snoc, flat_map_app. simpl.
  rewrite Nat.ltb_irrefl. simpl. rewrite app_nil_r.
  pose proof (for_ext_in 0 n (fun c => when (c <? n) (f c)) f) as E. unfold for_ in E. rewrite Nat.sub_0_r in E.
  apply E. intros i Hi. destruct (Nat.ltb_spec i n); [reflexivity|lia].
Qed.
Lemma when_app {X} b (l1 l2 : list X) : when b (l1 ++ l2) = when b l1 ++ when b l2.
Proof. destruct b; reflexivity. Qed.
Lemma visits_energy holes nnn rows cols : visits (cal_energy_and_holes holes nnn rows cols) = calls holes nnn rows cols.
Proof.
  unfold cal_energy_and_holes, cal_horizontal, calls. rewrite visits_app, visits_vertical. f_equal. prog.
  apply for_ext_in; intros i Hi; prog.
  apply f_equal2; [|reflexivity]. apply for_ext_in; intros j Hj; prog; reflexivity.
Qed.
Lemma visits_traverse nnn rows cols : visits (traverse_all nnn rows cols) = calls false nnn rows cols.
Proof.
  unfold traverse_all, traverse_horizontal, calls. rewrite visits_app, visits_vertical. f_equal. prog.
  apply for_ext_in; intros i Hi; prog. f_equal.
  - rewrite <- for_when_last. apply for_ext_in; intros j Hj; prog. reflexivity.
Qed.

Lemma in_when {X} b (l : list X) x : In x (when b l) <-> b = true /\ In x l.
Proof. destruct b; simpl; intuition discriminate. Qed.

Lemma calls_in holes nnn rows cols v : In v (calls holes nnn rows cols) <-> lattice_visit rows cols holes nnn v.
Proof.
  unfold calls. rewrite in_app_iff, !in_for. split.
  - intros [(i & Hi & H)|(i & Hi & H)].
    + apply in_app_or in H. destruct H as [H|H].
      * apply in_for in H. destruct H as (j & Hj & H). apply in_app_or in H.
        destruct H as [H|H]; apply in_when in H; destruct H as [Hb [<-|[]]]; simpl; [tauto|].
        apply Nat.ltb_lt in Hb. lia.
      * apply in_when in H. destruct H as [Hb H]. apply andb_true_iff in Hb. destruct Hb as [-> Hb].
        apply Nat.ltb_lt in Hb. apply in_for in H. destruct H as (j & Hj & [<-|[<-|[]]]); simpl; lia.
    + apply in_for in H. destruct H as (j & Hj & [<-|[]]). simpl. lia.
  - destruct v as [d [r c]|g [r c]|d g x|[r c]|x]; simpl; intros H; [| |contradiction| |contradiction].
    + destruct d; unfold window_in in H; simpl in H.
      * left. exists r. split; [lia|]. apply in_or_app. left. apply in_for. exists c. split; [lia|].
        apply in_or_app. right. apply in_when. split; [apply Nat.ltb_lt; lia|left; reflexivity].
      * right. exists c. split; [lia|]. apply in_for. exists r. split; [lia|left; reflexivity].
    + left. exists r. split; [lia|]. apply in_or_app. right. apply in_when. split.
      * apply andb_true_iff. split; [tauto|apply Nat.ltb_lt; lia].
      * apply in_for. exists c. split; [lia|]. destruct g; simpl; auto.
    + left. exists r. split; [lia|]. apply in_or_app. left. apply in_for. exists c. split; [lia|].
      apply in_or_app. left. apply in_when. split; [tauto|left; reflexivity].
Qed.

Lemma nodup_when {X} b (l : list X) : NoDup l -> NoDup (when b l).
Proof. destruct b; simpl; auto using NoDup_nil. Qed.

Definition row_of (v : visit) : nat := match v with VBond _ s | VDiag _ s | VFar _ _ s | VHole s | VSite s => fst s end.
Definition col_of (v : visit) : nat := match v with VBond _ s | VDiag _ s | VFar _ _ s | VHole s | VSite s => snd s end.

Lemma calls_nodup holes nnn rows cols : NoDup (calls holes nnn rows cols).
Proof.
  unfold calls. apply NoDup_app_intro.
  - apply nodup_for.
    + intros i _. apply NoDup_app_intro.
      * apply nodup_for.
        -- intros j _. apply NoDup_app_intro; try (apply nodup_when; constructor; [intros []|constructor]).
           intros x H1 H2. apply in_when in H1, H2. destruct H1 as [_ [<-|[]]], H2 as [_ [E|[]]]. discriminate.
        -- intros a b x H1 H2.
           assert (C : forall j, In x (when holes [VHole (i, j)] ++ when (j <? cols - 1) [VBond HORIZONTAL (i, j)]) -> j = col_of x).
           { intros j H. apply in_app_or in H. destruct H as [H|H]; apply in_when in H;
             destruct H as [_ [<-|[]]]; reflexivity. }
           rewrite (C a H1), (C b H2). reflexivity.
      * apply nodup_when, nodup_for.
        -- intros j _. constructor; [intros [E|[]]; discriminate|constructor; [intros []|constructor]].
        -- intros a b x [<-|[<-|[]]] [E|[E|[]]]; inversion E; auto.
      * intros x H1 H2. apply in_for in H1. destruct H1 as (j & _ & H1). apply in_when in H2.
        destruct H2 as [_ H2]. apply in_for in H2. destruct H2 as (k & _ & H2).
        apply in_app_or in H1. destruct H1 as [H1|H1]; apply in_when in H1; destruct H1 as [_ [<-|[]]];
        destruct H2 as [E|[E|[]]]; discriminate.
    + intros a b x H1 H2.
      assert (C : forall j, In x (for_ 0 cols (fun col => when holes [VHole (j, col)] ++
                            when (col <? cols - 1) [VBond HORIZONTAL (j, col)]) ++
         when (nnn && (j <? rows - 1)) (for_ 0 (cols - 1) (fun col =>
         [VDiag LEFTUP_TO_RIGHTDOWN (j, col); VDiag LEFTDOWN_TO_RIGHTUP (j, col)]))) -> j = row_of x).
      { intros j H. apply in_app_or in H. destruct H as [H|H].
        - apply in_for in H. destruct H as (k & _ & H). apply in_app_or in H.
          destruct H as [H|H]; apply in_when in H; destruct H as [_ [<-|[]]]; reflexivity.
        - apply in_when in H. destruct H as [_ H]. apply in_for in H.
          destruct H as (k & _ & [<-|[<-|[]]]); reflexivity. }
      rewrite (C a H1), (C b H2). reflexivity.
  - apply nodup_for.
    + intros i _. apply nodup_for; [intros; constructor; [intros []|constructor]|].
      intros a b x [<-|[]] [E|[]]. inversion E; auto.
    + intros i j x H1 H2. apply in_for in H1, H2. destruct H1 as (a & _ & [<-|[]]), H2 as (b & _ & [E|[]]).
      inversion E; auto.
  - intros x H1 H2. apply in_for in H2. destruct H2 as (b & _ & H2). apply in_for in H2.
    destruct H2 as (c & _ & [<-|[]]). apply in_for in H1. destruct H1 as (i & _ & H1).
    apply in_app_or in H1. destruct H1 as [H1|H1].
    + apply in_for in H1. destruct H1 as (j & _ & H1). apply in_app_or in H1.
      destruct H1 as [H1|H1]; apply in_when in H1; destruct H1 as [_ [E|[]]]; discriminate.
    + apply in_when in H1. destruct H1 as [_ H1]. apply in_for in H1.
      destruct H1 as (j & _ & [E|[E|[]]]); discriminate.
Qed.
