(** The structure factor: the loops. *)
From Coq Require Import List Arith Lia Bool ZArith Reals.
From Verif Require Import Base Cplx WalkModel WalkSpec WalkAlg WalkProofs WalkMain SfModel SfSpec SfProofs.
Import ListNotations.

Section Main.
Variables (D : nat) (absorb : list tensor -> list tensor -> list tensor) (Ly Lx : nat).
Variables (tn : nat -> nat -> tensor) (tps : nat -> nat -> nat -> tensor) (cfg : nat -> nat -> nat).
Hypothesis D1 : 1 <= D.
Hypothesis x1_pos : 1 <= Lx.
Hypothesis x_size : (Z.of_nat Lx < 2 ^ 64)%Z.
Notation row := (get_row Lx tn).
Lemma row_len y : length (row y) = Lx.
Proof. unfold get_row. rewrite map_length, seq_length. reflexivity. Qed.

(** *** One target row *)
Section Row.
Variables (up opp : list tensor) (y2 : nat) (src : bool).
Hypothesis Hu : length up = Lx.
Hypothesis Ho : length opp = Lx.
Definition scanned (x2 : nat) : C :=
  if src && (cfg y2 x2 =? 1) then row_value D up (replace (row y2) x2 (tps y2 x2 0)) opp else RtoC 0.
Lemma shape : row_shape D up (row y2) opp.
Proof. unfold row_shape. rewrite row_len. lia. Qed.
Lemma scan_ok : forall k w, k <= Lx -> inv D up (row y2) opp w -> w_left w <> [] -> w_left_col w = Z.of_nat Lx ->
  w_right w <> [] -> w_right_col w = Z.of_nat (max 1 k) ->
  exists w', scan_row D Lx tn tps cfg src y2 opp k w = Ok (w', map scanned (seq 0 k)) /\ w_up w' = up.
Proof.
  destruct shape as (_ & n1 & n_size & mpo_n & opp_n).
  induction k as [|x2 IH]; intros w Hk I NL CL NR CR.
  - exists w. split; [reflexivity|apply I].
  - cbn [scan_row].
    assert (V : (if src && (cfg y2 x2 =? 1) then value_ok (trace_with D w (tps y2 x2 0) x2 opp) else Ok (RtoC 0)) = Ok (scanned x2)).
    { unfold scanned. destruct (src && (cfg y2 x2 =? 1)); [|reflexivity].
      destruct (trace_with_spec D D1 up (row y2) opp n1 mpo_n opp_n w (tps y2 x2 0) x2 I) as [[E _]|[_ X]].
      - rewrite E. reflexivity.
      - exfalso. apply X. repeat split; auto; lia. }
    rewrite V. cbn [bind].
    assert (N : exists w1, (if 0 <? x2 then call_ok (grow_right_step D w (row y2) opp) else Ok w) = Ok w1 /\
      inv D up (row y2) opp w1 /\ w_left w1 <> [] /\ w_left_col w1 = Z.of_nat Lx /\ w_right w1 <> [] /\ w_right_col w1 = Z.of_nat (max 1 x2)).
    { destruct (Nat.ltb_spec 0 x2) as [P|P].
      - destruct (grow_right_step_inv D D1 up (row y2) opp n1 n_size mpo_n opp_n w I) as (I' & _ & G & L1 & L2).
        destruct (G NR) as [G1 G2]; [lia|]. exists (fst (grow_right_step D w (row y2) opp)).
        unfold call_ok. rewrite G1. set (w1 := fst (grow_right_step D w (row y2) opp)) in *.
        assert (NE1 : w_right w1 <> []) by (intros X; rewrite X in G2; simpl in G2; lia).
        destruct (inv_right_col _ _ _ _ w I NR) as [C1 _]. destruct (inv_right_col _ _ _ _ w1 I' NE1) as [C1' _].
        rewrite L1, L2. split; [reflexivity|]. split; [exact I'|]. repeat (split; [assumption|]). lia.
      - exists w. assert (x2 = 0) by lia. subst x2. split; [reflexivity|]. split; [exact I|]. auto. }
    destruct N as (w1 & -> & I1 & NL1 & CL1 & NR1 & CR1). cbn [bind].
    destruct (IH w1 ltac:(lia) I1 NL1 CL1 NR1 CR1) as (w' & -> & U). cbn [bind fst snd].
    exists w'. split; [|exact U]. rewrite seq_S, map_app. reflexivity.
Qed.
Lemma row_ok st : exists w1 w2 w3,
  call_ok (init_left D (fresh up st) (row y2) opp Lx) = Ok w1 /\
  call_ok (init_right D w1 (row y2) opp (Lx - 1)) = Ok w2 /\
  scan_row D Lx tn tps cfg src y2 opp Lx w2 = Ok (w3, map scanned (seq 0 Lx)) /\ w_up w3 = up.
Proof.
  destruct shape as (_ & n1 & n_size & mpo_n & opp_n).
  destruct (init_left_inv D D1 up (row y2) opp n1 n_size mpo_n opp_n Lx (fresh up st) (fresh_inv _ _ _ _ st)) as (I1 & E1 & C1 & NL & _).
  set (w1 := fst (init_left D (fresh up st) (row y2) opp Lx)) in *.
  destruct (init_right_inv D D1 up (row y2) opp n1 n_size mpo_n opp_n (Lx - 1) w1 I1) as (I2 & E2 & C2 & NR & L2 & LC2).
  set (w2 := fst (init_right D w1 (row y2) opp (Lx - 1))) in *.
  destruct (scan_ok Lx w2) as (w3 & E3 & U3); auto; try congruence.
  - rewrite LC2, C1. lia.
  - rewrite C2, wrap_small by lia. lia.
  - exists w1, w2, w3. unfold call_ok. rewrite E1. fold w1. rewrite E2. auto.
Qed.
End Row.

(** *** One source site *)
Lemma fold_snoc : forall A r v, absorbs absorb v (A ++ [r]) = absorb (absorbs absorb v A) r.
Proof. intros A r v. unfold absorbs. rewrite fold_left_app. reflexivity. Qed.
Variables (down_stack : list (list tensor)) (vac : list tensor).
Hypothesis Hv : vacuum_up D Lx vac.
Hypothesis Hb : forall i opp, nth_error down_stack i = Some opp -> i < Ly -> bottom_of D Lx opp (map row (seq (Ly - i) i)).
(** the rows that enter for the source row [y1]: those above it, itself, and those below whose environment is kept *)
Definition kept (y1 y : nat) : bool := (y <=? y1) || (Ly <=? y + length down_stack).
Notation exc := (excited_row Lx tn tps cfg).

Section Source.
Variables (y1 x1 : nat).
Hypothesis Hy1 : y1 < Ly - 1.
Hypothesis Hx1 : x1 < Lx.
Notation src := (cfg y1 x1 =? 0).
Hypothesis He : exact_along D Lx absorb vac (map (exc (y1, x1)) (filter (kept y1) (seq 0 (Ly - 1)))).
Definition value (x2y2 : site) : C :=
  let '(y2, x2) := x2y2 in
  if y2 + length down_stack <? Ly then RtoC 0
  else flipped_on (filter (kept y1) (seq 0 Ly)) D Lx tn tps cfg (y1, x1) (y2, x2).

Lemma exc_other y : y <> y1 -> exc (y1, x1) y = row y.
Proof.
  intros H. unfold excited_row, get_row. apply map_ext. intros x. cbn [fst snd].
  destruct (Nat.eqb_spec y y1); [contradiction|]. reflexivity.
Qed.
Lemma exc_len y : length (exc (y1, x1) y) = Lx.
Proof. unfold excited_row. rewrite map_length, seq_length. reflexivity. Qed.
Lemma map_replace {X} (f : nat -> X) (c : nat) (v : X) n : c < n ->
  firstn c (map f (seq 0 n)) ++ v :: skipn (c + 1) (map f (seq 0 n)) = map (fun x => if x =? c then v else f x) (seq 0 n).
Proof.
  intros Hc. replace (seq 0 n) with (seq 0 c ++ c :: seq (c + 1) (n - c - 1)).
  - rewrite !map_app. cbn [map]. rewrite firstn_app, firstn_all2 by (rewrite map_length, seq_length; lia).
    rewrite map_length, seq_length. replace (c - c) with 0 by lia. cbn [firstn]. rewrite app_nil_r.
    rewrite skipn_app, skipn_all2 by (rewrite map_length, seq_length; lia). rewrite map_length, seq_length.
    replace (c + 1 - c) with 1 by lia. cbn [skipn app]. rewrite Nat.eqb_refl. f_equal; [|f_equal].
    + apply map_ext_in. intros x Hx. apply in_seq in Hx. destruct (Nat.eqb_spec x c); [lia|reflexivity].
    + apply map_ext_in. intros x Hx. apply in_seq in Hx. destruct (Nat.eqb_spec x c); [lia|reflexivity].
  - replace (c :: seq (c + 1) (n - c - 1)) with (seq c (n - c)).
    + replace n with (c + (n - c)) at 2 by lia. rewrite seq_app. reflexivity.
    + destruct (n - c) as [|m] eqn:E; [lia|]. cbn [seq]. f_equal. f_equal; lia.
Qed.
Lemma exc_source : (if src then put_at (row y1) x1 (tps y1 x1 1) else row y1) = exc (y1, x1) y1.
Proof.
  unfold excited_row. cbn [fst snd]. rewrite Nat.eqb_refl. cbn [andb]. destruct (cfg y1 x1 =? 0).
  - unfold put_at, get_row. rewrite map_replace by exact Hx1. apply map_ext. intros x. destruct (x =? x1); reflexivity.
  - unfold get_row. apply map_ext. intros x. rewrite andb_false_r. reflexivity.
Qed.
Lemma filter_all {X} (f : X -> bool) l : (forall x, In x l -> f x = true) -> filter f l = l.
Proof.
  induction l as [|a l IH]; intros H; [reflexivity|]. cbn [filter]. rewrite (H a) by (left; reflexivity).
  f_equal. apply IH. intros x Hx. apply H. right. exact Hx.
Qed.
Lemma kept_split y : y <= Ly -> filter (kept y1) (seq 0 Ly) = filter (kept y1) (seq 0 y) ++ filter (kept y1) (seq y (Ly - y)).
Proof. intros H. rewrite <- filter_app, <- seq_app. do 2 f_equal. lia. Qed.

Lemma prefix_exact y : y <= Ly - 1 -> exact_along D Lx absorb vac (map (exc (y1, x1)) (filter (kept y1) (seq 0 y))).
Proof.
  intros Hy. assert (E : seq 0 (Ly - 1) = seq 0 y ++ seq y (Ly - 1 - y)) by (rewrite <- seq_app; f_equal; lia).
  rewrite E, filter_app, map_app in He. apply exact_along_app in He. apply He.
Qed.
Notation state y := (absorbs absorb vac (map (exc (y1, x1)) (filter (kept y1) (seq 0 y)))).
Lemma state_len y : y <= Ly - 1 -> length (state y) = Lx.
Proof. intros Hy. apply absorbs_len with (D := D); [apply Hv|]. apply prefix_exact. exact Hy. Qed.

Lemma scanned_value y2 opp x2 : y1 < y2 < Ly -> x2 < Lx -> Ly <= y2 + length down_stack -> nth_error down_stack (Ly - 1 - y2) = Some opp ->
  scanned (state y2) opp y2 src x2 = value (y2, x2).
Proof.
  intros Hy Hx HK En. unfold scanned, value, flipped_on. cbn [fst snd].
  destruct (Nat.ltb_spec (y2 + length down_stack) Ly) as [|_]; [lia|].
  destruct (Nat.eqb_spec (cfg y1 x1) 0) as [S0|_]; [|reflexivity]. cbn [andb].
  destruct (cfg y2 x2 =? 1); [|reflexivity].
  rewrite (row_amplitude D Lx absorb D1 vac _ _ opp (map row (seq (y2 + 1) (Ly - 1 - y2)))).
  - f_equal. unfold rows_with. rewrite (kept_split y2) by lia. rewrite map_app. f_equal.
    + apply map_ext_in. intros y Hin. apply filter_In in Hin. destruct Hin as [Hin _]. apply in_seq in Hin.
      unfold excited_row. apply map_ext. intros x. cbn [fst snd]. rewrite S0. cbn [Nat.eqb]. rewrite andb_true_r.
      destruct ((y =? y1) && (x =? x1)); [reflexivity|]. destruct (Nat.eqb_spec y y2); [lia|reflexivity].
    + replace (seq y2 (Ly - y2)) with (y2 :: seq (y2 + 1) (Ly - 1 - y2)) by (replace (Ly - y2) with (S (Ly - 1 - y2)) by lia; cbn [seq]; f_equal; f_equal; lia).
      rewrite filter_all.
      * cbn [map]. f_equal.
        -- unfold replace, get_row. rewrite map_replace by exact Hx. apply map_ext. intros x. cbn [fst snd].
           destruct (Nat.eqb_spec y2 y1); [lia|]. cbn [andb]. rewrite Nat.eqb_refl. cbn [andb]. destruct (x =? x2); reflexivity.
        -- apply map_ext_in. intros y Hin. apply in_seq in Hin. unfold get_row. apply map_ext. intros x. cbn [fst snd].
           destruct (Nat.eqb_spec y y1); [lia|]. destruct (Nat.eqb_spec y y2); [lia|]. reflexivity.
      * intros y Hin. unfold kept. assert (y2 <= y) by (destruct Hin as [->|Hin]; [lia|apply in_seq in Hin; lia]).
        destruct (Nat.leb_spec Ly (y + length down_stack)); [apply orb_true_r|lia].
  - exact Hv.
  - apply prefix_exact. lia.
  - unfold replace. rewrite app_length. cbn [length]. rewrite firstn_length, skipn_length, row_len. lia.
  - replace (seq (y2 + 1) (Ly - 1 - y2)) with (seq (Ly - (Ly - 1 - y2)) (Ly - 1 - y2)) by (f_equal; lia). apply Hb; [exact En|lia].
Qed.

Lemma entries_map y2 (f : nat -> C) m : entries y1 x1 y2 (map f (seq 0 m)) = map (fun x2 => (y1, x1, y2, x2, f x2)) (seq 0 m).
Proof.
  unfold entries. rewrite map_length, seq_length. generalize (seq 0 m). intros l.
  induction l as [|a l IH]; [reflexivity|]. cbn [map combine fst snd]. f_equal. exact IH.
Qed.
Definition target_entries (y2 : nat) : list entry := map (fun x2 => (y1, x1, y2, x2, value (y2, x2))) (seq 0 Lx).
Lemma clear_fresh w : w_up w = state 0 \/ True -> clear w = (fresh (w_up w) (w_stack w), Done).
Proof. reflexivity. Qed.

Lemma targets_ok : forall m y2 st, y1 < y2 -> y2 + m = Ly ->
  targets D absorb Ly Lx tn tps cfg down_stack src y1 x1 (seq y2 m) (fresh (state (min y2 (Ly - 1))) st)
  = Ok (flat_map target_entries (seq y2 m)).
Proof.
  induction m as [|m IH]; intros y2 st Hy Hm; [reflexivity|]. cbn [seq targets flat_map].
  rewrite Nat.min_l by lia. unfold usub at 1. destruct (Nat.ltb_spec (Ly - 1) y2) as [|_]; [lia|]. cbn [bind].
  destruct (nth_error down_stack (Ly - 1 - y2)) as [opp|] eqn:En.
  - assert (HK : Ly <= y2 + length down_stack).
    { assert (Ly - 1 - y2 < length down_stack) by (apply nth_error_Some; rewrite En; discriminate). lia. }
    destruct (Hb _ _ En ltac:(lia)) as [Lo _].
    destruct (row_ok (state y2) opp y2 src (state_len y2 ltac:(lia)) Lo st) as (w1 & w2 & w3 & -> & E2 & E3 & U3).
    cbn [bind]. unfold usub. destruct (Nat.ltb_spec Lx 1) as [|_]; [lia|]. cbn [bind]. rewrite E2. cbn [bind]. rewrite E3. cbn [bind fst snd].
    rewrite (clear_fresh w3 (or_intror I)), U3. unfold call_ok at 1. cbn [snd fst bind].
    assert (Nx : exists st', (if y2 <? Ly - 1 then call_ok (evolve absorb (fresh (state y2) (w_stack w3)) (row y2)) else Ok (fresh (state y2) (w_stack w3)))
                 = Ok (fresh (state (min (S y2) (Ly - 1))) st')).
    { exists (w_stack w3). destruct (Nat.ltb_spec y2 (Ly - 1)) as [P|P].
      - rewrite Nat.min_l by lia. unfold call_ok, evolve. cbn [snd fst w_up w_left w_left_col w_right w_right_col w_stack fresh].
        unfold fresh. do 2 f_equal. rewrite seq_S, filter_app. cbn [filter Nat.add].
        assert (K : kept y1 y2 = true) by (unfold kept; destruct (Nat.leb_spec Ly (y2 + length down_stack)); [apply orb_true_r|lia]).
        rewrite K, map_app. cbn [map]. rewrite fold_snoc, exc_other by lia. reflexivity.
      - rewrite Nat.min_r by lia. replace (Ly - 1) with y2 by lia. reflexivity. }
    destruct Nx as [st' ->]. cbn [bind]. rewrite (IH (S y2) st') by lia. cbn [bind]. do 2 f_equal.
    rewrite entries_map. unfold target_entries. apply map_ext_in. intros x2 Hx2. apply in_seq in Hx2.
    rewrite <- (scanned_value y2 opp x2) by (auto; lia). reflexivity.
  - apply nth_error_None in En.
    assert (St : state (min (S y2) (Ly - 1)) = state y2).
    { destruct (Nat.leb_spec (S y2) (Ly - 1)) as [P|P].
      - rewrite Nat.min_l by lia. rewrite seq_S, filter_app. cbn [filter Nat.add].
        assert (K : kept y1 y2 = false).
        { unfold kept. destruct (Nat.leb_spec Ly (y2 + length down_stack)); [lia|]. destruct (Nat.leb_spec y2 y1); [lia|reflexivity]. }
        rewrite K, app_nil_r. reflexivity.
      - rewrite Nat.min_r by lia. replace (Ly - 1) with y2 by lia. reflexivity. }
    rewrite <- St. rewrite (IH (S y2) st) by lia. cbn [bind]. do 2 f_equal.
    replace (repeat (RtoC 0) Lx) with (map (fun _ : nat => RtoC 0) (seq 0 Lx)).
    + rewrite entries_map. unfold target_entries, value. destruct (Nat.ltb_spec (y2 + length down_stack) Ly) as [_|Q]; [reflexivity|].
      exfalso. lia.
    + clear. generalize 0 at 1. induction Lx as [|k IHk]; intros z; [reflexivity|]. cbn [seq map repeat]. f_equal. apply IHk.
Qed.
End Source.
End Main.
