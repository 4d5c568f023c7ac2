(** The steps of a spin-1/2 measurement: events and off-diagonal entries they record. *)
From Coq Require Import List Arith Lia Bool Reals FunctionalExtensionality.
From Verif Require Import Base ContractorModel ContractorSpec ContractorProofs SweepModel SweepSpec SweepProofs
  HistoryProofs SweepMain UpdaterSpec Cplx EnergyModel EnergySpec EnergyProofs EnergySum EnergyMain TriModel ObsModel TriFail.
Import ListNotations.
Local Open Scope nat_scope.

Section O.
Context (o : ops) (Rng : Type) (rows cols : nat) (tps : sitps o) (ker : kernel o Rng).
Hypothesis Hr : 2 <= rows.
Hypothesis Hc : 2 <= cols.
Notation wstate := (wst o Rng).
Notation True1 := (fun _ : wstate => True).
Notation triple := (triple o Rng rows cols tps ker True1).
Notation sH := (sH o Rng rows cols).
Notation sE := (sE o Rng rows cols).
Notation sG := (sG o Rng rows cols).
Notation btS := (btS o rows cols).

(** *** The events of a pure program whose reads are right *)
Definition ideal (n : net o) (l : list cmd) : list (event o) :=
  flat_map (fun x => match x with
    | Query q => [Read n q (answer o rows cols n q)]
    | Visit v => [Read n (query_of v) (answer o rows cols n (query_of v)); Visited v]
    | _ => [] end) l.
Lemma ideal_app n l1 l2 : ideal n (l1 ++ l2) = ideal n l1 ++ ideal n l2.
Proof. apply flat_map_app. Qed.
Lemma flat_map_flat_map {A B D} (f : B -> list D) (g : A -> list B) l : flat_map f (flat_map g l) = flat_map (fun x => flat_map f (g x)) l.
Proof. induction l as [|x l IH]; [reflexivity|]. simpl. now rewrite flat_map_app, IH. Qed.
Lemma ideal_for n a b f : ideal n (for_ a b f) = for_ a b (fun i => ideal n (f i)).
Proof. apply flat_map_flat_map. Qed.
Lemma run_ideal l : forall (w w' : wstate) lg, forallb pure_cmd l = true -> run o tps ker l w = Ok (w', lg) ->
  log_fresh o rows cols lg -> lg = ideal (tn w) l.
Proof.
  induction l as [|x l IH]; intros w w' lg P E F; cbn [run] in E; [inversion E; reflexivity|].
  simpl in P. apply andb_true_iff in P. destruct P as [P1 P2].
  destruct (exec o tps ker x w) as [[w1 g1]|] eqn:E1; cbn [bind fst snd] in E; [|discriminate].
  destruct (run o tps ker l w1) as [[w2 g2]|] eqn:E2; cbn [bind fst snd] in E; [|discriminate].
  inversion E; subst. destruct (exec_pure _ _ _ _ _ _ _ _ P1 E1) as (A1 & A2 & _ & _ & B).
  assert (F2 : log_fresh o rows cols g2) by (intros n q r Hi; apply F; apply in_or_app; right; exact Hi).
  pose proof (IH _ _ _ P2 E2 F2) as E3. rewrite A2 in E3.
  assert (E4 : ideal (tn w) (x :: l) = ideal (tn w) [x] ++ ideal (tn w) l) by (unfold ideal; simpl; now rewrite app_nil_r).
  rewrite E4, <- E3. f_equal.
  destruct x; try discriminate; try exact B; destruct B as [r ->]; cbn; repeat f_equal; apply F; left; reflexivity.
Qed.

(** *** Triples for measurement steps, with the exact record *)
Definition mt (P : wstate -> Prop) (l : list mstep) (ev : list (event o)) (cs : list (option (Amp o))) (Q : wstate -> Prop) : Prop :=
  forall w, P w -> exists w', mrun o tps ker l w = Ok (w', (ev, cs)) /\ Q w'.
Lemma mt_nil P : mt P [] [] [] P.
Proof. intros w H. exists w. auto. Qed.
Lemma mrun_app l1 l2 (w w1 w2 : wstate) e1 c1 e2 c2 : mrun o tps ker l1 w = Ok (w1, (e1, c1)) ->
  mrun o tps ker l2 w1 = Ok (w2, (e2, c2)) -> mrun o tps ker (l1 ++ l2) w = Ok (w2, (e1 ++ e2, c1 ++ c2)).
Proof.
  revert w e1 c1. induction l1 as [|x l1 IH]; intros w e1 c1 A B; cbn [mrun app] in *.
  - inversion A; subst. exact B.
  - destruct (mexec o tps ker x w) as [[wa [ea ca]]|]; cbn [bind fst snd] in *; [|discriminate].
    destruct (mrun o tps ker l1 wa) as [[wb [eb cb]]|] eqn:E; cbn [bind fst snd] in *; [|discriminate].
    inversion A; subst. rewrite (IH _ _ _ E B). cbn [bind fst snd]. now rewrite <- !app_assoc.
Qed.
Lemma mt_app P Q R l1 l2 e1 e2 c1 c2 : mt P l1 e1 c1 Q -> mt Q l2 e2 c2 R -> mt P (l1 ++ l2) (e1 ++ e2) (c1 ++ c2) R.
Proof.
  intros A B w HP. destruct (A w HP) as (w1 & E1 & HQ). destruct (B w1 HQ) as (w2 & E2 & HR).
  exists w2. split; [eapply mrun_app; eauto|exact HR].
Qed.
Lemma mt_weaken (P P' Q Q' : wstate -> Prop) l e c : mt P' l e c Q' -> (forall w, P w -> P' w) -> (forall w, Q' w -> Q w) -> mt P l e c Q.
Proof. intros T A B w HP. destruct (T w (A w HP)) as (w' & E & HQ). eauto. Qed.
Lemma mt_for (I : nat -> wstate -> Prop) a b f fe fc : a <= b ->
  (forall i, a <= i < b -> mt (I i) (f i) (fe i) (fc i) (I (i + 1))) ->
  mt (I a) (for_ a b f) (for_ a b fe) (for_ a b fc) (I b).
Proof.
  intros Hab Hf. unfold for_.
  assert (E : forall n a0, a0 + n = b -> a <= a0 -> mt (I a0) (flat_map f (seq a0 n)) (flat_map fe (seq a0 n)) (flat_map fc (seq a0 n)) (I b)).
  { induction n as [|n IH]; intros a0 En Ha0.
    - replace b with a0 by lia. apply mt_nil.
    - simpl. eapply mt_app; [apply Hf; lia|]. rewrite Nat.add_1_r. apply IH; lia. }
  apply E; lia.
Qed.

(** configuration, amplitude and random engine of the component measured *)
Context (c : nat -> nat -> nat) (a : Amp o) (g : Rng).
Definition fr (n : net o) (P : wstate -> Prop) (w : wstate) : Prop :=
  tn w = n /\ cfg w = c /\ amp w = a /\ rng w = g /\ P w.
Lemma mt_do n P Q l : forallb pure_cmd l = true -> triple P l Q -> mt (fr n P) (map Do l) (ideal n l) [] (fr n Q).
Proof.
  intros HP T w (A1 & A2 & A3 & A4 & HPw). destruct (T w HPw Logic.I) as (w' & lg & E & HQ & _ & F).
  exists w'. rewrite mrun_do, E. cbn [bind fst snd].
  destruct (run_pure o Rng tps ker l _ _ _ HP E) as (B1 & B2 & B3 & B4).
  rewrite (run_ideal l _ _ _ HP E F). rewrite A1. split; [reflexivity|]. unfold fr. rewrite B1, B2, B3, B4. auto.
Qed.

(** *** One row *)
Definition row_bonds (s : nat) : list cmd :=
  [InitE LEFT s; GrowE RIGHT s 1 true; Query (Q1 HORIZONTAL (s, 0) 2)] ++
  for_ 0 (cols - 1) (fun col => [Visit (VBond HORIZONTAL (s, col)); ShiftE RIGHT]).
Lemma t_row_bonds s : triple (sH HORIZONTAL s) (row_bonds s) (sE HORIZONTAL s cols 1).
Proof.
  assert (R1 : 1 <= rows) by lia. assert (C1 : 1 <= cols) by lia.
  unfold row_bonds. cbn [app].
  eapply triple_cons; [apply (t_init_e o Rng rows cols tps ker R1 C1 True1 ltac:(auto) ltac:(auto) ltac:(auto) HORIZONTAL)|].
  eapply triple_cons; [apply (t_grow_e o Rng rows cols tps ker R1 C1 True1 ltac:(auto) ltac:(auto) ltac:(auto) HORIZONTAL); simpl; lia|].
  eapply triple_cons; [apply (t_query1 o Rng rows cols tps ker R1 C1 True1 ltac:(auto) ltac:(auto) HORIZONTAL); simpl; lia|].
  simpl (ContractorModel.wid _ _ _).
  eapply triple_weaken with (P' := sE HORIZONTAL s (S 0) (S (cols - 1 - 0))) (Q' := sE HORIZONTAL s (S (cols - 1)) (S (cols - 1 - (cols - 1)))).
  2:{ intros w. rewrite Nat.sub_0_r. auto. }
  2:{ intros w. rewrite Nat.sub_diag. replace (S (cols - 1)) with cols by lia. auto. }
  apply (triple_for o Rng rows cols tps ker R1 C1 True1 (fun i => sE HORIZONTAL s (S i) (S (cols - 1 - i)))); [lia|].
  intros i Hi.
  eapply triple_cons; [apply t_visit, (t_query1 o Rng rows cols tps ker R1 C1 True1 ltac:(auto) ltac:(auto) HORIZONTAL); simpl; lia|].
  replace (cols - 1 - i) with (S (cols - 1 - S i)) by lia. rewrite Nat.add_1_r.
  replace (S (cols - 1 - S i)) with (S (cols - 1 - S i)) by lia.
  apply (t_shift_e o Rng rows cols tps ker R1 C1 True1 ltac:(auto) HORIZONTAL); simpl; lia.
Qed.

(** the diagonals of a row leave the one-layer boundary tensors alone *)
Definition keeps_bt (x : cmd) : bool := match x with InitE2 _ _ | GrowE2 _ _ _ _ | ShiftE2 _ _ | Query _ | Visit _ => true | _ => false end.
Lemma env2_grow_bt n p bp bn s i (x x' : con o) : env2_grow_with o n p bp bn s i x = Ok x' -> forall q, bt x' q = bt x q.
Proof.
  unfold env2_grow_with. destruct (layers p s). intros E q.
  match type of E with (if ?b then _ else _) = _ => destruct b; [|discriminate] end.
  repeat (match type of E with bind ?x _ = _ => destruct x; cbn [bind] in E; [|discriminate] end).
  inversion E. reflexivity.
Qed.
Lemma iter_bt f k : (forall x x' : con o, f x = Ok x' -> forall q, bt x' q = bt x q) ->
  forall x x', iter_res k f x = Ok x' -> forall q, bt x' q = bt x q.
Proof.
  intros Hf. induction k as [|k IH]; intros x x' E q; cbn [iter_res] in E; [inversion E; reflexivity|].
  destruct (f x) as [y|] eqn:E1; cbn [bind] in E; [|discriminate]. rewrite (IH _ _ E), (Hf _ _ E1). reflexivity.
Qed.
Lemma init2_bt n p s (x x' : con o) : init_bten2 o n p s x = Ok x' -> forall q, bt x' q = bt x q.
Proof.
  unfold init_bten2. destruct (layers p s). intros E q.
  repeat (match type of E with bind ?x _ = _ => destruct x; cbn [bind] in E; [|discriminate] end).
  inversion E. reflexivity.
Qed.
Lemma exec_keeps_bt x (w w' : wstate) lg : keeps_bt x = true -> exec o tps ker x w = Ok (w', lg) -> forall q, bt (ctr w') q = bt (ctr w) q.
Proof.
  intros K E q. destruct x; try discriminate; cbn [exec] in E.
  - destruct (init_bten2 o (tn w) p s (ctr w)) eqn:E1; cbn [bind] in E; inversion E; subst. cbn [ctr set_con]. eapply init2_bt; eauto.
  - destruct (grow_full_bten2 o (tn w) p s rem ini (ctr w)) as [x|] eqn:E1; cbn [bind] in E; inversion E; subst. cbn [ctr set_con]. clear E.
    unfold grow_full_bten2 in E1.
    destruct (if ini then init_bten2 o (tn w) p s (ctr w) else Ok (ctr w)) as [c0|] eqn:E0; cbn [bind] in E1; [|discriminate].
    assert (B0 : bt c0 q = bt (ctr w) q) by (destruct ini; [eapply init2_bt; eauto|inversion E0; reflexivity]).
    destruct (layers p s) as [s1 s2].
    repeat (match type of E1 with bind ?x _ = _ => destruct x; cbn [bind] in E1; [|discriminate] end).
    destruct (length (bt2 c0 p) =? 0); [inversion E1; subst; exact B0|]. rewrite <- B0.
    eapply iter_bt; [|exact E1]. intros y y' Ey. eapply env2_grow_bt; exact Ey.
  - destruct (shift_bten2_window o (tn w) p s (ctr w)) as [x|] eqn:E1; cbn [bind] in E; inversion E; subst. cbn [ctr set_con]. clear E.
    unfold shift_bten2_window, grow_bten2_step in E1.
    destruct (pop_back (bt2 (ctr w) p)) as [l|]; cbn [bind] in E1; [|discriminate]. destruct (layers (opposite p) s) as [s1 s2].
    repeat (match type of E1 with bind ?x _ = _ => destruct x; cbn [bind] in E1; [|discriminate] end).
    rewrite (env2_grow_bt _ _ _ _ _ _ _ _ E1). reflexivity.
  - destruct (do_query o (ctr w) q0); cbn [bind] in E; inversion E; subst. reflexivity.
  - destruct (do_query o (ctr w) (query_of v)); cbn [bind] in E; inversion E; subst. reflexivity.
Qed.
Lemma run_keeps_bt l : forall (w w' : wstate) lg, forallb keeps_bt l = true -> run o tps ker l w = Ok (w', lg) -> forall q, bt (ctr w') q = bt (ctr w) q.
Proof.
  induction l as [|x l IH]; intros w w' lg P E q; cbn [run] in E; [inversion E; reflexivity|].
  simpl in P. apply andb_true_iff in P. destruct P as [P1 P2].
  destruct (exec o tps ker x w) as [[w1 g1]|] eqn:E1; cbn [bind fst snd] in E; [|discriminate].
  destruct (run o tps ker l w1) as [[w2 g2]|] eqn:E2; cbn [bind fst snd] in E; [|discriminate].
  inversion E; subst. rewrite (IH _ _ _ P2 E2). eapply exec_keeps_bt; eauto.
Qed.
Lemma keeps_for x y f : (forall i, forallb keeps_bt (f i) = true) -> forallb keeps_bt (for_ x y f) = true.
Proof.
  intros H. unfold for_. induction (seq x (y - x)) as [|i l IH]; [reflexivity|]. simpl. rewrite forallb_app, H, IH. reflexivity.
Qed.
Lemma keeps_row_nnn nnn s : forallb keeps_bt (row_nnn rows cols nnn s) = true.
Proof. unfold row_nnn. destruct (nnn && _); [|reflexivity]. simpl. apply keeps_for. reflexivity. Qed.
Lemma pure_row_nnn nnn s : forallb pure_cmd (row_nnn rows cols nnn s) = true.
Proof. unfold row_nnn. pure. Qed.
Lemma t_row_nnn_bt nnn s l r : s < rows -> triple (sE HORIZONTAL s l r) (row_nnn rows cols nnn s) (sE HORIZONTAL s l r).
Proof.
  intros Hs w (HH & Bn & Bf) _.
  destruct (t_row_nnn o Rng rows cols tps ker ltac:(lia) ltac:(lia) True1 ltac:(auto) ltac:(auto) ltac:(auto) nnn s Hc Hs w HH Logic.I)
    as (w' & lg & E & HH' & _ & F).
  exists w', lg. split; [exact E|]. split; [|auto].
  destruct (run_pure o Rng tps ker _ _ _ _ (pure_row_nnn nnn s) E) as (_ & T & _).
  pose proof (run_keeps_bt _ _ _ _ (keeps_row_nnn nnn s) E) as K.
  split; [exact HH'|]. rewrite !K, T. auto.
Qed.

(** *** The off-diagonal part *)
Lemma mexec_one x (w w' : wstate) ev cs : mexec o tps ker x w = Ok (w', (ev, cs)) -> mrun o tps ker [x] w = Ok (w', (ev, cs)).
Proof. intros E. cbn [mrun]. rewrite E. cbn. now rewrite !app_nil_r. Qed.

(** replacing a tensor of the slice cuts the window there *)
Lemma erase_cut s l r (n : net o) t (x : con o) k : H o rows cols HORIZONTAL s n x -> k < cols ->
  bt x LEFT = btS n LEFT s l -> bt x RIGHT = btS n RIGHT s r ->
  let x' := erase_envs_after_update o (s, k) x in let n' := upd2 n (s, k) t in
  H o rows cols HORIZONTAL s n' x' /\ bt x' LEFT = btS n' LEFT s (min (k + 1) l) /\ bt x' RIGHT = btS n' RIGHT s (min (cols - k) r).
Proof.
  intros [HG [Hs [L1 L2]]] Hk Bn Bf. simpl in Hs, L1, L2. pose proof HG as [R [C F]]. cbv zeta.
  split; [split; [apply erase_G; auto; lia|]|].
  - change (side2 HORIZONTAL) with DOWN in *. split; [exact Hs|]. cbn [bm erase_envs_after_update side1]. rewrite R, C, !firstn_length, L1, L2.
    cbn [keep_len fst snd]. simpl nsl. lia.
  - cbn [bt erase_envs_after_update]. rewrite R, C, Bn, Bf, !firstn_btS. cbn [keep_len fst snd].
    split; symmetry; apply btS_update with (s, k); auto using agree_upd2; simpl; lia.
Qed.

(** Put, inside the row: flip or restore one tensor *)
Lemma mt_put n s k l r (flip : bool) t : s < rows -> k < cols ->
  (if flip then usub 1 (c s k) else Ok (c s k)) = Ok t ->
  mt (fr n (sE HORIZONTAL s l r)) [Put (s, k) flip true] [] []
     (fr (upd2 n (s, k) (tps s k t)) (sE HORIZONTAL s (min (k + 1) l) (min (cols - k) r))).
Proof.
  intros Hs Hk Ht w (A1 & A2 & A3 & A4 & HH & Bn & Bf). pose proof HH as [[R [C F]] _].
  destruct (erase_cut s l r (tn w) (tps s k t) (ctr w) k HH Hk Bn Bf) as (H1 & H2 & H3).
  eexists. split.
  - apply mexec_one. cbn [mexec]. unfold in_lattice. rewrite R, C. cbn [fst snd].
    assert (E1 : (s <? rows) = true) by (apply Nat.ltb_lt; exact Hs). assert (E2 : (k <? cols) = true) by (apply Nat.ltb_lt; exact Hk).
    rewrite E1, E2. cbn [andb]. rewrite A2, Ht. cbn [bind]. reflexivity.
  - cbn [fst snd]. unfold fr. cbn [tn cfg amp rng]. rewrite ?A1, ?A2, ?A3, ?A4. repeat (split; [reflexivity|]).
    rewrite A1 in *. split; [exact H1|]. split; [exact H2|exact H3].
Qed.

Lemma grow_step_left n (x : con o) s l : H o rows cols HORIZONTAL s n x -> bt x LEFT = btS n LEFT s (S l) -> l < cols ->
  exists x', grow_bten_step o n LEFT x = Ok x' /\ H o rows cols HORIZONTAL s n x' /\
    bt x' LEFT = btS n LEFT s (S (S l)) /\ bt x' RIGHT = bt x RIGHT.
Proof.
  intros HH Bn Hl. unfold grow_bten_step.
  pose proof (H_back o rows cols ltac:(lia) ltac:(lia) HORIZONTAL s n x UP HH (or_introl eq_refl)) as EU.
  pose proof (H_back o rows cols ltac:(lia) ltac:(lia) HORIZONTAL s n x DOWN HH (or_intror eq_refl)) as ED.
  pose proof HH as [[R [C F]] [Hs [L1 L2]]]. simpl in Hs, L1, L2.
  rewrite L1. unfold usub at 1. destruct (s + 1 <? 1) eqn:E; [apply Nat.ltb_lt in E; lia|]. cbn [bind].
  rewrite Bn, btS_length, usub_1. cbn [bind]. replace (s + 1 - 1) with s by lia.
  assert (EP : back (bm x (pre_of LEFT)) = Ok (boundary o rows cols n (pre_of LEFT) s)) by (simpl; assumption).
  assert (EN : back (bm x (next_of LEFT)) = Ok (boundary o rows cols n (next_of LEFT) s)) by (simpl; assumption).
  rewrite EP. cbn [bind]. rewrite EN. cbn [bind].
  assert (GW := env_grow_with_ok o n LEFT x s l). rewrite R, C in GW. rewrite (GW Bn) by (simpl; lia).
  eexists. split; [reflexivity|]. cbn [bt set_bt]. rewrite upd_same. split; [eapply H_ext; [| | |exact HH]; reflexivity|].
  split; [reflexivity|]. rewrite upd_other by discriminate. reflexivity.
Qed.
Lemma mt_grow_step n s l r : l < cols ->
  mt (fr n (sE HORIZONTAL s (S l) r)) [GrowStep LEFT] [] [] (fr n (sE HORIZONTAL s (S (S l)) r)).
Proof.
  intros Hl w (A1 & A2 & A3 & A4 & HH & Bn & Bf).
  destruct (grow_step_left (tn w) (ctr w) s l HH Bn Hl) as (x' & E & H1 & H2 & H3).
  eexists. split; [apply mexec_one; cbn [mexec]; rewrite E; reflexivity|].
  unfold fr. cbn [tn cfg amp rng set_con]. do 4 (split; [assumption|]). split; [exact H1|]. split; [exact H2|].
  cbn [ctr tn set_con]. change (far HORIZONTAL) with RIGHT. rewrite H3. exact Bf.
Qed.

Lemma grow_right_more n (x : con o) s rem : H o rows cols HORIZONTAL s n x -> bt x RIGHT = btS n RIGHT s 1 -> rem <= cols ->
  exists x', grow_full_bten o n RIGHT s rem false x = Ok x' /\ H o rows cols HORIZONTAL s n x' /\
    bt x' RIGHT = btS n RIGHT s (S (cols - rem)) /\ bt x' LEFT = bt x LEFT.
Proof.
  intros HH Bf Hrem. unfold grow_full_bten. cbn [bind].
  destruct (Hw_sides o rows cols ltac:(lia) ltac:(lia) HORIZONTAL s n x UP (H_Hw o rows cols ltac:(lia) ltac:(lia) _ _ _ _ HH) (or_introl eq_refl)) as (U1 & U2 & U3 & _).
  destruct (Hw_sides o rows cols ltac:(lia) ltac:(lia) HORIZONTAL s n x DOWN (H_Hw o rows cols ltac:(lia) ltac:(lia) _ _ _ _ HH) (or_intror eq_refl)) as (D1 & D2 & D3 & _).
  pose proof HH as [[R [C F]] [Hs [L1 L2]]].
  assert (EP : bmps_at_slice o x UP s = Ok (boundary o rows cols n UP s)).
  { pose proof (bmps_at_slice_ok o n x UP s (length (bm x UP))) as Q. rewrite R, C in Q. apply Q; assumption. }
  assert (EN : bmps_at_slice o x DOWN s = Ok (boundary o rows cols n DOWN s)).
  { pose proof (bmps_at_slice_ok o n x DOWN s (length (bm x DOWN))) as Q. rewrite R, C in Q. apply Q; assumption. }
  rewrite R, C, Bf, btS_length. change (wid rows cols (pre_of RIGHT)) with cols.
  change (pre_of RIGHT) with DOWN in *. change (next_of RIGHT) with UP in *.
  unfold usub. destruct (cols <? rem) eqn:E; [apply Nat.ltb_lt in E; lia|]. cbn [bind].
  rewrite EN. cbn [bind]. rewrite EP. cbn [bind Nat.eqb]. replace (1 - 1) with 0 by lia. rewrite Nat.sub_0_r.
  destruct (iter_env_ok o n RIGHT s (cols - rem) x 0) as (x' & E1 & R1 & C1 & B & O1 & O2 & O3).
  - rewrite R, C. exact Bf.
  - rewrite R, C. simpl. lia.
  - rewrite R, C. exact Hs.
  - rewrite R, C in E1, B. exists x'. split; [exact E1|]. split; [eapply H_ext; eauto|]. split; [exact B|apply O1; discriminate].
Qed.
Lemma mt_grow_right n s l rem : rem <= cols ->
  mt (fr n (sE HORIZONTAL s l 1)) [Do (GrowE RIGHT s rem false)] [] [] (fr n (sE HORIZONTAL s l (S (cols - rem)))).
Proof.
  intros Hrem w (A1 & A2 & A3 & A4 & HH & Bn & Bf).
  destruct (grow_right_more (tn w) (ctr w) s rem HH Bf Hrem) as (x' & E & H1 & H2 & H3).
  eexists. split; [apply mexec_one; cbn [mexec exec]; rewrite E; reflexivity|].
  unfold fr. cbn [tn cfg amp rng set_con fst]. do 4 (split; [assumption|]). split; [exact H1|].
  cbn [ctr tn set_con fst]. change (near HORIZONTAL) with LEFT in *. change (far HORIZONTAL) with RIGHT. rewrite H3. split; [exact Bn|exact H2].
Qed.
Lemma mt_shift n s l r : l < cols -> mt (fr n (sE HORIZONTAL s (S l) (S r))) [Do (ShiftE RIGHT)] [] [] (fr n (sE HORIZONTAL s (S (S l)) r)).
Proof.
  intros Hl. apply (mt_do n _ _ [ShiftE RIGHT] eq_refl).
  apply (t_shift_e o Rng rows cols tps ker ltac:(lia) ltac:(lia) True1 ltac:(auto) HORIZONTAL). exact Hl.
Qed.

(** One entry of the correlations, the network having state [t1] at the first site. *)
Definition corr_entry (n : net o) (s1 s2 : site) : option (Amp o) :=
  if c (fst s2) (snd s2) =? c (fst s1) (snd s1) then None
  else Some (trace_at o rows cols (upd2 n s2 (tps (fst s2) (snd s2) (1 - c (fst s2) (snd s2)))) HORIZONTAL s2 1).
Lemma mt_corr n s k j l r : s < rows -> j < cols -> c s j < 2 -> j < l -> cols - (j + 1) < r ->
  mt (fr n (sE HORIZONTAL s l r)) [Corr (s, k) (s, j)] [] [corr_entry n (s, k) (s, j)] (fr n (sE HORIZONTAL s l r)).
Proof.
  intros Hs Hj Hst Hl Hrr w HF. pose proof HF as (A1 & A2 & A3 & A4 & HH & Bn & Bf). pose proof HH as [[R [C F]] _].
  exists w. split; [|exact HF]. apply mexec_one. cbn [mexec]. unfold in_lattice. rewrite R, C, A2. unfold corr_entry. cbn [fst snd].
  assert (E1 : (s <? rows) = true) by (apply Nat.ltb_lt; exact Hs). assert (E2 : (j <? cols) = true) by (apply Nat.ltb_lt; exact Hj).
  rewrite E1, E2. cbn [andb]. destruct (c s j =? c s k); [reflexivity|].
  rewrite usub_ok by lia. cbn [bind]. unfold replace_trace1. cbn [length].
  rewrite (window1_ok o Rng rows cols tps ker ltac:(lia) ltac:(lia) True1 ltac:(auto) ltac:(auto) (tn w) (ctr w) HORIZONTAL s (s, j) 1 l r
    (H_Hw o rows cols ltac:(lia) ltac:(lia) _ _ _ _ HH) eq_refl Bn Bf) by (simpl; lia).
  cbn [bind]. unfold trace_at.
  rewrite (window_ext o rows cols (upd2 n (s, j) (tps s j (1 - c s j))) n HORIZONTAL (s, j) 1).
  - rewrite A1. destruct (window1_spec o rows cols n HORIZONTAL (s, j) 1) as [[ms e1] e2]. cbn [bind].
    unfold chain, upd2. cbn [seq map site_shift fst snd]. rewrite Nat.add_0_r.
    assert (EQ : site_eqb (s, j) (s, j) = true) by (unfold site_eqb; simpl; rewrite !Nat.eqb_refl; reflexivity).
    rewrite EQ. reflexivity.
  - lia.
  - simpl. lia.
  - intros q k' Hq Hk' Hn. unfold upd2. destruct (site_eqb (q, k') (s, j)) eqn:EQ; [|reflexivity].
    exfalso. apply Hn. unfold site_eqb in EQ. simpl in EQ. apply andb_true_iff in EQ. destruct EQ as [Q1 Q2].
    apply Nat.eqb_eq in Q1, Q2. subst. simpl. left. f_equal. lia.
Qed.

Definition flipped (n : net o) (s : site) : net o := upd2 n s (tps (fst s) (snd s) (1 - c (fst s) (snd s))).
(** the entries of the middle row *)
Definition corr_row (n : net o) (row : nat) : list (option (Amp o)) :=
  for_ 1 (cols / 2 + 1) (fun i => [corr_entry (flipped n (row, cols / 4)) (row, cols / 4) (row, cols / 4 + i)]).

Lemma quarter_half : cols / 4 + cols / 2 + 1 <= cols /\ cols / 4 + 2 <= cols.
Proof. pose proof (Nat.div_mod cols 4 ltac:(lia)). pose proof (Nat.div_mod cols 2 ltac:(lia)).
  pose proof (Nat.mod_upper_bound cols 4 ltac:(lia)). pose proof (Nat.mod_upper_bound cols 2 ltac:(lia)). lia. Qed.

Lemma mt_off_diag n s : s < rows -> (forall k, k < cols -> c s k < 2) -> projected o rows cols tps c n ->
  mt (fr n (sE HORIZONTAL s cols 1)) (off_diag_row cols s) [] (corr_row n s) (fr n (sH HORIZONTAL s)).
Proof.
  intros Hs Hst HP. destruct quarter_half as [Q1 Q2]. set (q := cols / 4) in *. unfold off_diag_row, corr_row. fold q.
  change ([Put (s, q) true true; GrowStep LEFT; Do (GrowE RIGHT s (q + 2) false)])
    with ([Put (s, q) true true] ++ [GrowStep LEFT] ++ [Do (GrowE RIGHT s (q + 2) false)]).
  assert (Hq : c s q < 2) by (apply Hst; lia).
  replace (@nil (event o)) with ((@nil (event o) ++ [] ++ []) ++ for_ 1 (cols / 2 + 1) (fun _ => @nil (event o)) ++ [])
    by (unfold for_; simpl; rewrite app_nil_r; induction (seq _ _); auto).
  set (n1 := flipped n (s, q)).
  match goal with |- mt _ _ _ ?l _ => replace l with ((@nil (option (Amp o)) ++ [] ++ []) ++ l ++ []) by (simpl; apply app_nil_r) end.
  eapply mt_app with (Q := fr n1 (sE HORIZONTAL s (q + 1 + 1) (cols - q - 1))).
  { eapply mt_app with (Q := fr n1 (sE HORIZONTAL s (q + 1) 1)).
    { eapply mt_weaken; [apply (mt_put n s q cols 1 true (1 - c s q)); [exact Hs|lia|apply usub_ok; lia]|auto|].
      intros w. rewrite !Nat.min_l, Nat.min_r by lia. auto. }
    eapply mt_app with (Q := fr n1 (sE HORIZONTAL s (q + 1 + 1) 1)).
    { rewrite !Nat.add_1_r. apply mt_grow_step. lia. }
    eapply mt_weaken; [apply (mt_grow_right n1 s (q + 1 + 1) (q + 2)); lia|auto|]. intros w. replace (S (cols - (q + 2))) with (cols - q - 1) by lia. auto. }
  eapply mt_app with (Q := fr n1 (sE HORIZONTAL s (q + 1 + (cols / 2 + 1)) (cols - q - (cols / 2 + 1)))).
  { apply (mt_for (fun i => fr n1 (sE HORIZONTAL s (q + 1 + i) (cols - q - i)))); [lia|]. intros i Hi.
    match goal with |- mt _ _ ?e ?l _ => change l with (l ++ []); change e with (e ++ []) end.
    match goal with |- mt _ [?x; ?y] _ _ _ => change [x; y] with ([x] ++ [y]) end.
    eapply mt_app.
    - apply mt_corr; [exact Hs|lia|apply Hst; lia|lia|lia].
    - replace (q + 1 + i) with (S (q + i)) by lia. replace (cols - q - i) with (S (cols - q - (i + 1))) by lia.
      replace (q + 1 + (i + 1)) with (S (S (q + i))) by lia. apply mt_shift. lia. }
  eapply mt_weaken; [apply (mt_put n1 s q (q + 1 + (cols / 2 + 1)) (cols - q - (cols / 2 + 1)) false (c s q)); [exact Hs|lia|reflexivity]|auto|].
  intros w (A1 & A2 & A3 & A4 & HH & _). unfold fr.
  assert (EN : upd2 n1 (s, q) (tps s q (c s q)) = n).
  { apply functional_extensionality. intros r. apply functional_extensionality. intros k. unfold n1, flipped, upd2.
    destruct (site_eqb (r, k) (s, q)) eqn:E; [|reflexivity]. unfold site_eqb in E. simpl in E. apply andb_true_iff in E.
    destruct E as [E1 E2]. apply Nat.eqb_eq in E1, E2. subst r k. symmetry. apply HP; lia. }
  rewrite EN in A1. auto.
Qed.

(** *** All the steps *)
Lemma mt_row nnn n row : row < rows -> (forall r k, r < rows -> k < cols -> c r k < 2) -> projected o rows cols tps c n ->
  mt (fr n (sH HORIZONTAL row))
    (map Do (row_bonds row ++ row_nnn rows cols nnn row) ++ when (row =? rows / 2) (off_diag_row cols row))
    (ideal n (row_bonds row ++ row_nnn rows cols nnn row)) (when (row =? rows / 2) (corr_row n row)) (fr n (sH HORIZONTAL row)).
Proof.
  intros Hrow Hst HP.
  replace (ideal n (row_bonds row ++ row_nnn rows cols nnn row)) with (ideal n (row_bonds row ++ row_nnn rows cols nnn row) ++ []) by apply app_nil_r.
  change (when (row =? rows / 2) (corr_row n row)) with ([] ++ when (row =? rows / 2) (corr_row n row)).
  eapply mt_app with (Q := fr n (sE HORIZONTAL row cols 1)).
  - apply mt_do.
    + rewrite pure_app, pure_row_nnn, andb_true_r. unfold row_bonds. pure.
    + eapply triple_app; [apply t_row_bonds|apply t_row_nnn_bt; exact Hrow].
  - destruct (row =? rows / 2); cbn [when]; [apply mt_off_diag; auto|].
    eapply mt_weaken; [apply mt_nil|intros w HF; exact HF|]. intros w (A1 & A2 & A3 & A4 & HH & _). unfold fr. auto.
Qed.

Lemma for_single {X} (k b : nat) (f : nat -> list X) : k < b -> for_ 0 b (fun i => when (i =? k) (f i)) = f k.
Proof.
  intros Hk. unfold for_. rewrite Nat.sub_0_r.
  replace b with (k + S (b - k - 1)) by lia. rewrite seq_app, flat_map_app. simpl. rewrite Nat.eqb_refl. cbn [when].
  assert (Z : forall l, ~ In k l -> flat_map (fun i => when (i =? k) (f i)) l = []).
  { induction l as [|i l IH]; intros Hn; [reflexivity|]. simpl. rewrite IH by (intros Hi; apply Hn; right; exact Hi).
    destruct (Nat.eqb_spec i k) as [->|]; [exfalso; apply Hn; left; reflexivity|reflexivity]. }
  rewrite !Z by (rewrite in_seq; lia). simpl. now rewrite app_nil_r.
Qed.

Lemma mt_measure nnn n : (forall r k, r < rows -> k < cols -> c r k < 2) -> projected o rows cols tps c n ->
  mt (fr n sG) (measure_steps nnn rows cols) (ideal n (traverse_all nnn rows cols)) (corr_row n (rows / 2)) (fr n sG).
Proof.
  intros Hst HP. assert (R1 : 1 <= rows) by lia. assert (C1 : 1 <= cols) by lia.
  assert (Hm : rows / 2 < rows) by (apply Nat.div_lt; lia).
  set (body := fun row => row_bonds row ++ row_nnn rows cols nnn row).
  assert (EM : measure_steps nnn rows cols = map Do [Generate UP] ++
    for_ 0 rows (fun row => (map Do (body row) ++ when (row =? rows / 2) (off_diag_row cols row)) ++
                            map Do (when (row <? rows - 1) [ShiftB DOWN])) ++ map Do (traverse_vertical rows cols)).
  { unfold measure_steps. f_equal. f_equal. unfold for_ at 1 4. apply flat_map_ext. intros row. unfold body, row_bonds, row_nnn.
    rewrite <- !app_assoc. reflexivity. }
  assert (ET : ideal n (traverse_all nnn rows cols) = [] ++
    for_ 0 rows (fun row => ideal n (body row) ++ ideal n (when (row <? rows - 1) [ShiftB DOWN])) ++ ideal n (traverse_vertical rows cols)).
  { unfold traverse_all, traverse_horizontal. rewrite !ideal_app, ideal_for. simpl. f_equal. unfold for_ at 1 3. apply flat_map_ext. intros row.
    rewrite <- ideal_app. unfold body, row_bonds, row_nnn. rewrite <- !app_assoc. reflexivity. }
  assert (EC : corr_row n (rows / 2) = [] ++ for_ 0 rows (fun row => when (row =? rows / 2) (corr_row n row) ++ []) ++ []).
  { rewrite app_nil_r. transitivity (for_ 0 rows (fun i => when (i =? rows / 2) (corr_row n i))); [symmetry; apply (for_single (rows / 2) rows (corr_row n) Hm)|].
    unfold for_. apply flat_map_ext. intros row. symmetry. apply app_nil_r. }
  rewrite EM, ET, EC. clear EM ET EC.
  eapply mt_app with (Q := fr n (sH HORIZONTAL 0)).
  { apply (mt_do n _ _ [Generate UP] eq_refl). apply (t_generate o Rng rows cols tps ker R1 C1 True1 ltac:(auto) HORIZONTAL). }
  eapply mt_app with (Q := fr n (sH HORIZONTAL (min rows (rows - 1)))).
  { eapply mt_weaken with (P' := fr n (sH HORIZONTAL (min 0 (rows - 1)))) (Q' := fr n (sH HORIZONTAL (min rows (rows - 1)))); [|auto|auto].
    apply (mt_for (fun i => fr n (sH HORIZONTAL (min i (rows - 1)))) 0 rows); [lia|]. intros i Hi.
    rewrite (Nat.min_l i) by lia. eapply mt_app; [apply mt_row; auto; lia|].
    apply mt_do; [destruct (i <? rows - 1); reflexivity|].
    apply triple_when.
    - intros E. apply Nat.ltb_lt in E. replace (min (i + 1) (rows - 1)) with (i + 1) by lia.
      apply (t_shiftb o Rng rows cols tps ker R1 C1 True1 ltac:(auto) HORIZONTAL). simpl. lia.
    - intros E w. apply Nat.ltb_ge in E. replace (min (i + 1) (rows - 1)) with i by lia. auto. }
  apply mt_do; [apply pure_vertical|].
  eapply triple_weaken; [apply (t_traverse_vertical o Rng rows cols tps ker R1 C1 True1 ltac:(auto) ltac:(auto) ltac:(auto) Hr Hc)| |auto].
  intros w HH. exact (H_G o Rng rows cols _ _ w HH).
Qed.
End O.
