(** Assembly of the sweep and traversal results, narrow lattices, stale boundary tensors,
    whole histories. *)
From Coq Require Import List Arith Lia Bool ZArith QArith.
From Verif Require Import Base ContractorModel ContractorSpec ContractorProofs SweepModel SweepSpec SweepProofs HistoryProofs.
Import ListNotations.
Local Open Scope nat_scope.

Lemma rate_bounds a b : a <= b -> 0 < b -> (0 <= accept_rate a b)%Q /\ (accept_rate a b <= 1)%Q.
Proof.
  intros H1 H2. unfold accept_rate.
  assert (0 < inject_Z (Z.of_nat b))%Q by (change 0%Q with (inject_Z 0); rewrite <- Zlt_Qlt; lia).
  split.
  - apply Qle_shift_div_l; [exact H|]. rewrite Qmult_0_l. change 0%Q with (inject_Z 0). rewrite <- Zle_Qle. lia.
  - apply Qle_shift_div_r; [exact H|]. rewrite Qmult_1_l. rewrite <- Zle_Qle. lia.
Qed.

Section Main.
Context (o : ops) (Rng : Type) (rows cols : nat) (tps : sitps o) (ker : kernel o Rng).

Lemma triple_ready l (J : wst o Rng -> Prop) :
  triple o Rng rows cols tps ker J (sG o Rng rows cols) l (sG o Rng rows cols) ->
  forall w, ready o rows cols w -> J w ->
    exists w' lg, run o tps ker l w = Ok (w', lg) /\ ready o rows cols w' /\ J w' /\ log_fresh o rows cols lg.
Proof.
  intros T w Hw HJ. apply ready_sG in Hw. destruct (T w Hw HJ) as (w' & lg & E & Q & J' & F).
  exists w', lg. rewrite ready_sG. auto.
Qed.

Lemma sweep_nn_ok : 2 <= rows -> 2 <= cols -> run_ok o Rng rows cols tps ker (sweep_nn_obc rows cols).
Proof. intros Hr Hc. apply triple_run_ok. apply t_sweep_nn; try lia; auto. Qed.
Lemma sweep_tnn_ok : 3 <= rows -> 3 <= cols -> run_ok o Rng rows cols tps ker (sweep_tnn_obc rows cols).
Proof. intros Hr Hc. apply triple_run_ok. apply t_sweep_tnn; try lia; auto. Qed.
Lemma traverse_ok nnn : 2 <= rows -> 2 <= cols -> run_ok o Rng rows cols tps ker (traverse_all nnn rows cols).
Proof. intros Hr Hc. apply triple_run_ok. apply t_traverse_all; try lia; auto. Qed.
Lemma energy_ok holes nnn : 2 <= rows -> 2 <= cols -> run_ok o Rng rows cols tps ker (cal_energy_and_holes holes nnn rows cols).
Proof. intros Hr Hc. apply triple_run_ok. apply t_cal_energy; try lia; auto. Qed.

Lemma energy_fermion_ok holes nnn : 2 <= rows -> 2 <= cols -> run_ok o Rng rows cols tps ker (cal_energy_fermion holes nnn rows cols).
Proof. intros Hr Hc. apply triple_run_ok. apply t_cal_energy_fermion; try lia; auto. Qed.
Lemma tfim_ok holes : 2 <= rows -> 2 <= cols -> run_ok o Rng rows cols tps ker (cal_tfim holes rows cols).
Proof. intros Hr Hc. apply triple_run_ok. apply t_cal_tfim; try lia; auto. Qed.

Lemma sweep_nn_covers (w : wst o Rng) : 2 <= rows -> 2 <= cols -> ready o rows cols w ->
  exists w' lg, run o tps ker (sweep_nn_obc rows cols) w = Ok (w', lg) /\
    NoDup (tried lg) /\ (forall x, In x (tried lg) <-> lattice_chain rows cols 2 x) /\
    length (tried lg) = bond_num_nn rows cols /\
    (0 <= accept_rate (accepted lg) (bond_num_nn rows cols))%Q /\
    (accept_rate (accepted lg) (bond_num_nn rows cols) <= 1)%Q.
Proof.
  intros Hr Hc Hw. destruct (sweep_nn_ok Hr Hc w Hw) as (w' & lg & E & _).
  exists w', lg. split; [exact E|]. destruct (run_events _ _ _ _ _ _ _ _ E) as [T _].
  rewrite attempts_nn in T.
  assert (L : length (tried lg) = bond_num_nn rows cols).
  { rewrite T, moves_length. unfold bond_num_nn. reflexivity. }
  split; [rewrite T; apply moves_nodup|]. split; [intros x; rewrite T; apply moves_in; lia|].
  split; [exact L|]. apply rate_bounds; [rewrite <- L; apply accepted_le|]. unfold bond_num_nn. nia.
Qed.
Lemma sweep_tnn_covers (w : wst o Rng) : 3 <= rows -> 3 <= cols -> ready o rows cols w ->
  exists w' lg, run o tps ker (sweep_tnn_obc rows cols) w = Ok (w', lg) /\
    NoDup (tried lg) /\ (forall x, In x (tried lg) <-> lattice_chain rows cols 3 x) /\
    length (tried lg) = total_flip_num_tnn rows cols /\
    (0 <= accept_rate (accepted lg) (total_flip_num_tnn rows cols))%Q /\
    (accept_rate (accepted lg) (total_flip_num_tnn rows cols) <= 1)%Q.
Proof.
  intros Hr Hc Hw. destruct (sweep_tnn_ok Hr Hc w Hw) as (w' & lg & E & _).
  exists w', lg. split; [exact E|]. destruct (run_events _ _ _ _ _ _ _ _ E) as [T _].
  rewrite attempts_tnn in T.
  assert (L : length (tried lg) = total_flip_num_tnn rows cols).
  { rewrite T, moves_length. unfold total_flip_num_tnn. reflexivity. }
  split; [rewrite T; apply moves_nodup|]. split; [intros x; rewrite T; apply moves_in; lia|].
  split; [exact L|]. apply rate_bounds; [rewrite <- L; apply accepted_le|]. unfold total_flip_num_tnn. nia.
Qed.
Lemma traverse_covers nnn (w : wst o Rng) : 2 <= rows -> 2 <= cols -> ready o rows cols w ->
  exists w' lg, run o tps ker (traverse_all nnn rows cols) w = Ok (w', lg) /\
    ready o rows cols w' /\ log_fresh o rows cols lg /\
    NoDup (visited lg) /\ (forall v, In v (visited lg) <-> lattice_visit rows cols false nnn v).
Proof.
  intros Hr Hc Hw. destruct (traverse_ok nnn Hr Hc w Hw) as (w' & lg & E & R & F).
  exists w', lg. split; [exact E|]. split; [exact R|]. split; [exact F|].
  destruct (run_events _ _ _ _ _ _ _ _ E) as [_ T]. rewrite T, visits_traverse.
  split; [apply calls_nodup|intros v; apply calls_in].
Qed.
Lemma energy_covers holes nnn (w : wst o Rng) : 2 <= rows -> 2 <= cols -> ready o rows cols w ->
  exists w' lg, run o tps ker (cal_energy_and_holes holes nnn rows cols) w = Ok (w', lg) /\
    ready o rows cols w' /\ log_fresh o rows cols lg /\
    NoDup (visited lg) /\ (forall v, In v (visited lg) <-> lattice_visit rows cols holes nnn v).
Proof.
  intros Hr Hc Hw. destruct (energy_ok holes nnn Hr Hc w Hw) as (w' & lg & E & R & F).
  exists w', lg. split; [exact E|]. split; [exact R|]. split; [exact F|].
  destruct (run_events _ _ _ _ _ _ _ _ E) as [_ T]. rewrite T, visits_energy.
  split; [apply calls_nodup|intros v; apply calls_in].
Qed.

(** Results of the previous file without the auxiliary invariant. *)
Lemma evaluate_ok0 (w : wst o Rng) : 1 <= rows -> 2 <= cols -> sG o Rng rows cols w ->
  exists w' lg, run o tps ker evaluate_amplitude w = Ok (w', lg) /\ sG o Rng rows cols w' /\
    cfg w' = cfg w /\ tn w' = tn w /\ rng w' = rng w /\
    amp w' = trace_at o rows cols (tn w) HORIZONTAL (0, 0) 2 /\ log_fresh o rows cols lg.
Proof. intros Hr Hc HG. apply (evaluate_ok o Rng rows cols tps ker) with (J := fun _ => True); auto; lia. Qed.
Lemma init_e_ok0 tn c d s p : 1 <= rows -> 1 <= cols ->
  Hw o rows cols d s tn c -> p = near d \/ p = far d ->
  init_bten o tn p s c = Ok (set_bt o c p (btS o rows cols tn p s 1)).
Proof. intros Hr Hc HG. apply (init_e_ok o Rng rows cols tps ker) with (J := fun _ => True); auto. Qed.
Lemma t_init_e0 d s : 1 <= rows -> 1 <= cols ->
  triple o Rng rows cols tps ker (fun _ => True) (sH o Rng rows cols d s) [InitE (near d) s] (sEn o Rng rows cols d s 1).
Proof. intros Hr Hc. apply t_init_e; auto. Qed.
Lemma t_grow_e0 d s l rem : 1 <= rows -> 1 <= cols -> 1 <= rem <= wid rows cols (side1 d) ->
  triple o Rng rows cols tps ker (fun _ => True) (sEn o Rng rows cols d s l) [GrowE (far d) s rem true]
    (sE o Rng rows cols d s l (S (wid rows cols (side1 d) - rem))).
Proof. intros Hr Hc. apply t_grow_e; auto. Qed.
Lemma t_generate0 d : 1 <= rows -> 1 <= cols ->
  triple o Rng rows cols tps ker (fun _ => True) (sG o Rng rows cols) [Generate (side1 d)] (sH o Rng rows cols d 0).
Proof. intros Hr Hc. apply t_generate; auto. Qed.

Lemma evaluate_ready (w : wst o Rng) : 1 <= rows -> 2 <= cols -> ready o rows cols w ->
  exists w' lg, run o tps ker evaluate_amplitude w = Ok (w', lg) /\ ready o rows cols w' /\
    cfg w' = cfg w /\ tn w' = tn w /\ rng w' = rng w /\
    amp w' = trace_at o rows cols (tn w) HORIZONTAL (0, 0) 2 /\ log_fresh o rows cols lg.
Proof.
  intros Hr Hc Hw. apply ready_sG in Hw.
  destruct (evaluate_ok0 w Hr Hc Hw) as (w' & lg & E & G & R).
  exists w', lg. split; [exact E|]. split; [apply ready_sG; exact G|exact R].
Qed.

Lemma init_ready tn0 (c : con o) (w : wst o Rng) : 1 <= rows -> 1 <= cols -> rows_ c = rows -> cols_ c = cols ->
  tn w = tn0 -> ctr w = init o c -> ready o rows cols w.
Proof.
  intros Hr Hc R C T E. unfold ready. rewrite E, T.
  split; [exact R|]. split; [exact C|]. split.
  - apply (init_fresh o tn0 c rows cols R C).
  - intros p. destruct p; simpl; lia.
Qed.

Lemma construct_ok c a0 g : 1 <= rows -> 2 <= cols ->
  exists w lg, construct tps ker rows cols c a0 g = Ok (w, lg) /\ ready o rows cols w /\
    cfg w = c /\ (forall r k, tn w r k = tps r k (c r k)) /\ rng w = g /\
    amp w = trace_at o rows cols (fun r k => tps r k (c r k)) HORIZONTAL (0, 0) 2 /\ log_fresh o rows cols lg.
Proof.
  intros Hr Hc. destruct (evaluate_ready (new_component o tps rows cols c a0 g) Hr Hc) as (w & lg & E & R & A & B & D & F & G).
  - eapply (init_ready _ (new_con o rows cols)); try reflexivity; lia.
  - exists w, lg. split; [exact E|]. split; [exact R|]. rewrite A, B. auto.
Qed.

Lemma run_app l1 l2 (w w1 : wst o Rng) g1 : run o tps ker l1 w = Ok (w1, g1) ->
  run o tps ker (l1 ++ l2) w = (r <- run o tps ker l2 w1 ;; Ok (fst r, g1 ++ snd r)).
Proof.
  revert w g1. induction l1 as [|x l1 IH]; intros w g1 E; cbn [run app] in *.
  - inversion E; subst. destruct (run o tps ker l2 w1) as [[? ?]|]; reflexivity.
  - destruct (exec o tps ker x w) as [[wa ga]|] eqn:E1; cbn [bind fst snd] in *; [|discriminate].
    destruct (run o tps ker l1 wa) as [[wb gb]|] eqn:E2; cbn [bind fst snd] in *; [|discriminate].
    inversion E; subst. rewrite (IH _ _ E2).
    destruct (run o tps ker l2 w1) as [[? ?]|]; cbn [bind fst snd]; [|reflexivity]. now rewrite app_assoc.
Qed.

(** A program whose prefix is fine and whose next call is undefined is undefined. *)
Lemma run_ub l1 l2 (w w1 : wst o Rng) g1 f : run o tps ker l1 w = Ok (w1, g1) ->
  run o tps ker l2 w1 = Fail f -> run o tps ker (l1 ++ l2) w = Fail f.
Proof. intros E1 E2. rewrite (run_app _ _ _ _ _ E1), E2. reflexivity. Qed.

(** A far boundary tensor for a window wider than the slice is undefined. *)
Lemma grow_e_ub d s rem rest (w : wst o Rng) : 1 <= rows -> 1 <= cols ->
  sH o Rng rows cols d s w -> wid rows cols (side1 d) < rem ->
  run o tps ker (GrowE (far d) s rem true :: rest) w = Fail UB.
Proof.
  intros Hr Hc HH Hlt. cbn [run exec]. unfold grow_full_bten.
  rewrite (init_e_ok0 _ _ d s (far d) Hr Hc (H_Hw o rows cols Hr Hc _ _ _ _ HH) (or_intror eq_refl)). cbn [bind].
  destruct HH as [[R [C _]] _]. rewrite R, C.
  replace (wid rows cols (pre_of (far d))) with (wid rows cols (side1 d)) by (destruct d; reflexivity).
  unfold usub. destruct (Nat.ltb_spec (wid rows cols (side1 d)) rem); [reflexivity|lia].
Qed.

Lemma strip_ub d s rem tl (w : wst o Rng) : 1 <= rows -> 1 <= cols -> sH o Rng rows cols d s w ->
  wid rows cols (side1 d) < rem ->
  run o tps ker (InitE (near d) s :: GrowE (far d) s rem true :: tl) w = Fail UB.
Proof.
  intros Hr Hc HH Hlt.
  destruct (t_init_e0 d s Hr Hc w HH I) as (w1 & g & E & [H1 _] & _).
  change (InitE (near d) s :: GrowE (far d) s rem true :: tl)
    with ([InitE (near d) s] ++ (GrowE (far d) s rem true :: tl)).
  eapply run_ub; [exact E|]. apply grow_e_ub; auto.
Qed.
Lemma part_ub d s0 rem body tl (w : wst o Rng) : 1 <= rows -> 1 <= cols -> ready o rows cols w ->
  wid rows cols (side1 d) < rem -> s0 = 0 ->
  run o tps ker ([Generate (side1 d)] ++ (InitE (near d) s0 :: GrowE (far d) s0 rem true :: body) ++ tl) w = Fail UB.
Proof.
  intros Hr Hc Hw Hlt ->. apply ready_sG in Hw.
  destruct (t_generate0 d Hr Hc w Hw I) as (w1 & g & E & H1 & _).
  eapply run_ub; [exact E|]. cbn [app]. apply strip_ub; auto.
Qed.

Lemma for_first {X} n (f : nat -> list X) : 1 <= n -> exists tl, for_ 0 n f = f 0 ++ tl.
Proof. intros H. destruct n as [|n]; [lia|]. unfold for_. simpl. eauto. Qed.
End Main.

Section Narrow.
Context (o : ops) (Rng : Type) (rows cols : nat) (tps : sitps o) (ker : kernel o Rng).

Lemma first_part_ub l rem (w : wst o Rng) : 1 <= rows -> cols < rem -> 1 <= cols -> ready o rows cols w ->
  (exists body tl, l = [Generate UP] ++ (InitE LEFT 0 :: GrowE RIGHT 0 rem true :: body) ++ tl) ->
  run o tps ker l w = Fail UB.
Proof.
  intros Hr Hc Hc1 Hw (body & tl & ->).
  apply (part_ub o Rng rows cols tps ker HORIZONTAL 0 rem body tl w Hr Hc1 Hw); [exact Hc|reflexivity].
Qed.
Lemma second_part_ub l l1 rem (w : wst o Rng) : 1 <= cols -> rows < rem -> 1 <= rows -> ready o rows cols w ->
  run_ok o Rng rows cols tps ker l1 ->
  (exists body tl, l = l1 ++ [Generate LEFT] ++ (InitE UP 0 :: GrowE DOWN 0 rem true :: body) ++ tl) ->
  run o tps ker l w = Fail UB.
Proof.
  intros Hc Hr Hr1 Hw Hok (body & tl & ->).
  destruct (Hok w Hw) as (w1 & lg & E & R & _). eapply run_ub; [exact E|].
  apply (part_ub o Rng rows cols tps ker VERTICAL 0 rem body tl w1 Hr1 Hc R); [exact Hr|reflexivity].
Qed.

Lemma nn_narrow (w : wst o Rng) : 1 <= rows -> 1 <= cols -> rows < 2 \/ cols < 2 -> ready o rows cols w ->
  run o tps ker (sweep_nn_obc rows cols) w = Fail UB.
Proof.
  intros Hr Hc H Hw. destruct (le_lt_dec 2 cols) as [Hc2|Hc2].
  - eapply second_part_ub with (rem := 2); [lia|lia|lia|exact Hw| |].
    + apply triple_run_ok with (l := part rows cols HORIZONTAL (fun s => strip rows cols HORIZONTAL 2 s []) ++
         [DeleteInner LEFT] ++ [DeleteInner RIGHT]).
      eapply triple_app; [apply t_slices; auto; intros s Hs; apply t_strip_full; auto using triple_nil; simpl; lia|].
      eapply triple_app; [apply t_delete; auto|]. apply t_delete; auto.
    + rewrite sweep_nn_parts. unfold part at 2.
      match goal with |- context [for_ 0 (nsl rows cols (side1 VERTICAL)) ?f] =>
        destruct (for_first (nsl rows cols (side1 VERTICAL)) f) as [tl E]; [simpl; lia|rewrite E] end.
      eexists; eexists. unfold strip at 2. rewrite <- !app_assoc. reflexivity.
  - eapply first_part_ub with (rem := 2); [lia|lia|lia|exact Hw|].
    unfold sweep_nn_obc. match goal with |- context [for_ 0 rows ?f] =>
        destruct (for_first rows f) as [tl E]; [lia|rewrite E] end.
    eexists; eexists. rewrite <- !app_assoc. reflexivity.
Qed.

End Narrow.

Lemma traverse_narrow_rows o Rng rows cols tps ker nnn (w : wst o Rng) : rows = 1 -> 2 <= cols -> ready o rows cols w ->
  run o tps ker (traverse_all nnn rows cols) w = Fail UB.
Proof.
  intros -> Hc Hw. eapply second_part_ub with (rem := 2) (rows := 1) (cols := cols); [lia|lia|lia|exact Hw| |].
  - apply triple_run_ok with (l := traverse_horizontal nnn 1 cols). rewrite traverse_horizontal_part by lia.
    apply t_slices; auto; try lia. intros s Hs.
    eapply triple_app; [apply t_row_read; auto; lia|]. apply t_row_nnn; auto; simpl in Hs; lia.
  - unfold traverse_all, traverse_vertical.
    match goal with |- context [for_ 0 cols ?f] =>
        match f with context [InitE UP] => destruct (for_first cols f) as [tl E]; [lia|rewrite E] end end.
    eexists; eexists. rewrite <- !app_assoc. reflexivity.
Qed.

Lemma traverse_narrow_cols o Rng rows cols tps ker nnn (w : wst o Rng) : 1 <= rows -> cols = 1 -> ready o rows cols w ->
  exists f, run o tps ker (traverse_all nnn rows cols) w = Fail f.
Proof.
  intros Hr -> Hw. unfold traverse_all, traverse_horizontal.
  destruct (t_generate0 o Rng rows 1 tps ker HORIZONTAL Hr (le_n 1) w (proj1 (ready_sG _ _ _ _ _) Hw) I) as (w1 & g1 & E1 & H1 & _).
  destruct (t_init_e0 o Rng rows 1 tps ker HORIZONTAL 0 Hr (le_n 1) w1 H1 I) as (w2 & g2 & E2 & H2 & _).
  destruct (t_grow_e0 o Rng rows 1 tps ker HORIZONTAL 0 1 1 Hr (le_n 1) ltac:(simpl; lia) w2 H2 I) as (w3 & g3 & E3 & [[HG HH] _] & _).
  match goal with |- context [for_ 0 rows ?f] =>
        destruct (for_first rows f) as [tl E]; [lia|rewrite E] end. clear E.
  cbn [app].
  match goal with |- context [Query ?q :: ?l] =>
    assert (EQ : run o tps ker (Query q :: l) w3 = Fail UB \/ run o tps ker (Query q :: l) w3 = Fail Throw) end.
  { cbn [run exec do_query]. unfold window1. destruct HG as [R [C F]]. rewrite R, C.
    destruct (bmps_at_slice o (ctr w3) (side1 HORIZONTAL) (across HORIZONTAL (0, 0))) as [b1|[]]; cbn [bind]; auto.
    destruct (bmps_at_slice o (ctr w3) (side2 HORIZONTAL) (across HORIZONTAL (0, 0))) as [b2|[]]; cbn [bind]; auto. }
  match goal with |- exists f, run _ _ _ ?l _ = _ =>
    change l with ([Generate UP] ++ [InitE LEFT 0] ++ [GrowE RIGHT 0 1 true] ++ skipn 3 l) end.
  destruct EQ as [EQ|EQ]; eexists; (eapply run_ub; [exact E1|]; eapply run_ub; [exact E2|];
    eapply run_ub; [exact E3|]; exact EQ).
Qed.

Lemma evaluate_narrow o Rng rows cols tps ker (w : wst o Rng) : 1 <= rows -> cols = 1 -> ready o rows cols w ->
  run o tps ker evaluate_amplitude w = Fail UB.
Proof.
  intros Hr -> Hw. unfold evaluate_amplitude. apply ready_sG in Hw.
  destruct (grow_for_row_ok o rows 1 Hr (le_n 1) (tn w) (ctr w) 0 Hw) as (c1 & E1 & H1 & _); [lia|].
  cbn [run exec]. rewrite E1. cbn [bind fst snd]. unfold grow_full_bten.
  cbn [ctr set_con tn].
  rewrite (init_e_ok0 o Rng rows 1 tps ker _ _ HORIZONTAL 0 RIGHT Hr (le_n 1) H1 (or_intror eq_refl)). cbn [bind].
  destruct H1 as [[R [C _]] _]. rewrite R, C. reflexivity.
Qed.
