(** Lemmas closing the theorems of SfProps.v. *)
From Coq Require Import List Arith Lia Bool ZArith Reals.
From Verif Require Import Base Cplx WalkModel WalkSpec WalkAlg WalkProofs WalkMain SfModel SfSpec SfProofs SfMain.
Import ListNotations.

Section Claims.
Variables (D : nat) (absorb : list tensor -> list tensor -> list tensor) (Ly Lx : nat).
Variables (tn : nat -> nat -> tensor) (tps : nat -> nat -> nat -> tensor) (cfg : nat -> nat -> nat).
Variables (vac : list tensor) (down_stack : list (list tensor)).
Hypothesis St : sf_setting D absorb Ly Lx tn tps cfg vac down_stack.
Notation row := (get_row Lx tn).
Notation val := (fun a b : site => value D Ly Lx tn tps cfg down_stack (fst a) (snd a) b).

Lemma source_main y1 x1 : y1 < Ly - 1 -> x1 < Lx ->
  source D absorb Ly Lx tn tps cfg down_stack y1 x1 (fresh (absorbs absorb vac (map row (seq 0 y1))) 1)
  = Ok (flat_map (target_entries D Ly Lx tn tps cfg down_stack y1 x1) (seq (y1 + 1) (Ly - 1 - y1))).
Proof.
  intros Hy Hx. destruct St. unfold source. cbv zeta. rewrite (exc_source D Ly Lx tn tps cfg sf_D sf_cols y1 x1 Hy Hx).
  unfold call_ok at 1, evolve. cbn [snd fst bind w_up w_left w_left_col w_right w_right_col w_stack fresh].
  pose proof (targets_ok D absorb Ly Lx tn tps cfg sf_D sf_cols sf_size down_stack vac sf_vac sf_down y1 x1 Hy Hx (sf_exact y1 x1 Hy Hx)
    (Ly - 1 - y1) (y1 + 1) 1 ltac:(lia) ltac:(lia)) as T.
  rewrite <- T. unfold fresh. do 2 f_equal. rewrite Nat.min_l by lia. rewrite Nat.add_1_r, seq_S, filter_app, map_app. cbn [filter Nat.add].
  assert (K : kept Ly down_stack y1 y1 = true) by (unfold kept; rewrite Nat.leb_refl; reflexivity).
  rewrite K. cbn [map]. rewrite fold_snoc. f_equal.
  rewrite filter_all by (intros y Hin; apply in_seq in Hin; unfold kept; destruct (Nat.leb_spec y y1); [reflexivity|lia]).
  f_equal. apply map_ext_in. intros y Hin. apply in_seq in Hin. symmetry. apply exc_other. lia.
Qed.
Lemma source_row_main y1 xs : y1 < Ly - 1 -> (forall x, In x xs -> x < Lx) ->
  source_row D absorb Ly Lx tn tps cfg down_stack y1 xs (fresh (absorbs absorb vac (map row (seq 0 y1))) 1)
  = Ok (flat_map (fun x1 => flat_map (target_entries D Ly Lx tn tps cfg down_stack y1 x1) (seq (y1 + 1) (Ly - 1 - y1))) xs).
Proof.
  intros Hy. induction xs as [|x xs IH]; intros Hx; [reflexivity|]. cbn [source_row flat_map].
  rewrite source_main by (auto; apply Hx; left; reflexivity). cbn [bind]. rewrite IH by (intros z Hz; apply Hx; right; exact Hz). reflexivity.
Qed.
Lemma source_rows_main : forall m y1, y1 + m = Ly - 1 ->
  source_rows D absorb Ly Lx tn tps cfg down_stack (seq y1 m) (fresh (absorbs absorb vac (map row (seq 0 y1))) 1)
  = Ok (flat_map (fun y1 => flat_map (fun x1 => flat_map (target_entries D Ly Lx tn tps cfg down_stack y1 x1) (seq (y1 + 1) (Ly - 1 - y1))) (seq 0 Lx)) (seq y1 m)).
Proof.
  induction m as [|m IH]; intros y1 Hm; [reflexivity|]. cbn [seq source_rows flat_map].
  rewrite source_row_main by (try lia; intros x Hx; apply in_seq in Hx; lia). cbn [bind].
  unfold call_ok, evolve. cbn [snd fst bind w_up w_left w_left_col w_right w_right_col w_stack fresh].
  specialize (IH (S y1) ltac:(lia)). rewrite seq_S, map_app in IH. cbn [map Nat.add] in IH. rewrite fold_snoc in IH.
  unfold fresh in IH. rewrite IH. reflexivity.
Qed.
Lemma sf_main up_rest : structure_factor D absorb Ly Lx tn tps cfg (vac :: up_rest) down_stack = Ok (all_entries Ly Lx val).
Proof.
  destruct St. unfold structure_factor. unfold usub. destruct (Nat.ltb_spec Ly 1) as [|_]; [lia|]. cbn [bind].
  exact (source_rows_main (Ly - 1) 0 eq_refl).
Qed.
End Claims.

Lemma all_entries_ext Ly Lx f g : (forall y1 x1 y2 x2, y1 < y2 < Ly -> x1 < Lx -> x2 < Lx -> f (y1, x1) (y2, x2) = g (y1, x1) (y2, x2)) ->
  all_entries Ly Lx f = all_entries Ly Lx g.
Proof.
  intros H. unfold all_entries. rewrite !flat_map_concat_map. f_equal. apply map_ext_in. intros y1 Hy1. apply in_seq in Hy1.
  rewrite !flat_map_concat_map. f_equal. apply map_ext_in. intros x1 Hx1. apply in_seq in Hx1.
  rewrite !flat_map_concat_map. f_equal. apply map_ext_in. intros y2 Hy2. apply in_seq in Hy2.
  apply map_ext_in. intros x2 Hx2. apply in_seq in Hx2. rewrite H by lia. reflexivity.
Qed.
Lemma filter_id {X} (f : X -> bool) l : (forall x, In x l -> f x = true) -> filter f l = l.
Proof. apply filter_all. Qed.

Lemma filter_none {X} (f : X -> bool) l : (forall x, In x l -> f x = false) -> filter f l = [].
Proof.
  induction l as [|a l IH]; intros H; [reflexivity|]. cbn [filter]. rewrite (H a) by (left; reflexivity).
  apply IH. intros x Hx. apply H. right. exact Hx.
Qed.

Lemma sf_general D absorb Ly Lx tn tps cfg vac ups down_stack : sf_setting D absorb Ly Lx tn tps cfg vac down_stack ->
  structure_factor D absorb Ly Lx tn tps cfg (vac :: ups) down_stack = Ok (all_entries Ly Lx (fun a b =>
    if fst b + length down_stack <? Ly then RtoC 0
    else flipped_on (filter (fun y => (y <=? fst a) || (Ly <=? y + length down_stack)) (seq 0 Ly)) D Lx tn tps cfg a b)).
Proof.
  intros St. rewrite (sf_main _ _ _ _ _ _ _ _ _ St). f_equal.
Qed.
Lemma sf_full D absorb Ly Lx tn tps cfg vac ups down_stack : sf_setting D absorb Ly Lx tn tps cfg vac down_stack ->
  Ly - 1 <= length down_stack ->
  structure_factor D absorb Ly Lx tn tps cfg (vac :: ups) down_stack = Ok (all_entries Ly Lx (flipped D Ly Lx tn tps cfg)).
Proof.
  intros St HL. rewrite (sf_general _ _ _ _ _ _ _ _ _ _ St). f_equal. apply all_entries_ext. intros y1 x1 y2 x2 Hy Hx1 Hx2. cbn [fst].
  destruct (Nat.ltb_spec (y2 + length down_stack) Ly) as [|_]; [lia|]. unfold flipped. f_equal. apply filter_id.
  intros y Hin. apply in_seq in Hin. destruct (Nat.leb_spec y y1); [reflexivity|]. cbn [orb]. apply Nat.leb_le. lia.
Qed.
Lemma sf_one D absorb Ly Lx tn tps cfg vac ups bottom : sf_setting D absorb Ly Lx tn tps cfg vac [bottom] ->
  structure_factor D absorb Ly Lx tn tps cfg (vac :: ups) [bottom] = Ok (all_entries Ly Lx (fun a b =>
    if fst b =? Ly - 1 then flipped_on (seq 0 (fst a + 1) ++ [Ly - 1]) D Lx tn tps cfg a b else RtoC 0)).
Proof.
  intros St. rewrite (sf_general _ _ _ _ _ _ _ _ _ _ St). f_equal. apply all_entries_ext. intros y1 x1 y2 x2 Hy Hx1 Hx2. cbn [fst length].
  destruct (Nat.ltb_spec (y2 + 1) Ly) as [P|P]; destruct (Nat.eqb_spec y2 (Ly - 1)) as [Q|Q]; try lia; [reflexivity|]. f_equal.
  replace (seq 0 Ly) with (seq 0 (y1 + 1) ++ seq (y1 + 1) (Ly - 2 - y1) ++ [Ly - 1]).
  - rewrite !filter_app. f_equal; [|].
    + apply filter_id. intros y Hin. apply in_seq in Hin. destruct (Nat.leb_spec y y1); [reflexivity|lia].
    + replace (filter (fun y => (y <=? y1) || (Ly <=? y + 1)) (seq (y1 + 1) (Ly - 2 - y1))) with (@nil nat).
      * cbn [app filter]. destruct (Nat.leb_spec Ly (Ly - 1 + 1)); [rewrite orb_true_r; reflexivity|lia].
      * symmetry. apply filter_none. intros y Hin. apply in_seq in Hin. destruct (Nat.leb_spec y y1); [lia|].
        destruct (Nat.leb_spec Ly (y + 1)); [lia|reflexivity].
  - transitivity (seq 0 ((y1 + 1) + ((Ly - 2 - y1) + 1))); [|f_equal; lia]. rewrite !seq_app. cbn [Nat.add]. do 2 f_equal. cbn [seq]. f_equal. lia.
Qed.

(** *** Two columns: every state is represented without truncation *)
Section TwoColumns.
Variables (D : nat).
Hypothesis D1 : 1 <= D.
Definition up_of (V : list nat -> C) : list tensor :=
  [ (fun i => match i with [m; x; a] => V [a; x] | _ => RtoC 0 end);
    (fun i => match i with [m; x; a] => if m =? x then RtoC 1 else RtoC 0 | _ => RtoC 0 end) ].
Definition down_of (V : list nat -> C) : list tensor :=
  [ (fun i => match i with [a; y; m] => if m =? y then RtoC 1 else RtoC 0 | _ => RtoC 0 end);
    (fun i => match i with [a; y; m] => V [a; y] | _ => RtoC 0 end) ].
Lemma delta_l (f : nat -> C) x : x < D -> sumC (fun m => Cmul (if m =? x then RtoC 1 else RtoC 0) (f m)) (seq 0 D) = f x.
Proof.
  intros H. rewrite <- (sum_delta_nat D x f H). apply sumC_ext. intros m _. destruct (m =? x); ring.
Qed.
Lemma delta_r (c : C) : sumC (fun m => Cmul c (if m =? 0 then RtoC 1 else RtoC 0)) (seq 0 D) = c.
Proof.
  transitivity (sumC (fun m => if m =? 0 then c else RtoC 0) (seq 0 D)); [|apply (sum_delta_nat D 0 (fun _ => c)); lia].
  apply sumC_ext. intros m _. destruct (m =? 0); ring.
Qed.
Lemma up_of_vec V q : In q (tuples D 2) -> up_vector D (up_of V) q = V q.
Proof.
  intros Hq. apply tuples_in in Hq. destruct Hq as [L F]. destruct q as [|x [|y [|]]]; try discriminate.
  inversion F as [|? ? Fx _]; subst. unfold up_vector, up_of. cbn [rev app up_vec].
  rewrite (delta_l (fun m => sumC _ (seq 0 D)) x Fx). apply delta_r.
Qed.
Lemma down_of_vec V q : In q (tuples D 2) -> down_vector D (down_of V) q = V q.
Proof.
  intros Hq. apply tuples_in in Hq. destruct Hq as [L F]. destruct q as [|x [|y [|]]]; try discriminate.
  inversion F as [|? ? Fx _]; subst. unfold down_vector, down_of. cbn [down_vec].
  rewrite (delta_l (fun m => sumC _ (seq 0 D)) x Fx). apply delta_r.
Qed.
Definition absorb2 (up row : list tensor) : list tensor :=
  up_of (fun q => sumC (fun p => Cmul (up_vector D up p) (transfer D row p q 0 0)) (tuples D 2)).
Lemma absorb2_exact : forall rows up, exact_along D 2 absorb2 up rows.
Proof.
  induction rows as [|r rows IH]; intros up; cbn [exact_along]; [exact I|]. split; [|apply IH].
  split; [reflexivity|]. intros q Hq. unfold absorb2. rewrite (up_of_vec _ q Hq). reflexivity.
Qed.
Definition vac2 : list tensor := up_of (fun p => if forallb (Nat.eqb 0) p then RtoC 1 else RtoC 0).
Lemma two_columns Ly tn tps cfg k : 1 <= Ly -> sf_setting D absorb2 Ly 2 tn tps cfg vac2
  (map (fun i => down_of (below D 2 (map (get_row 2 tn) (seq (Ly - i) i)))) (seq 0 k)).
Proof.
  intros HL. constructor; try lia.
  - split; [reflexivity|]. intros p Hp. unfold vac2. rewrite (up_of_vec _ p Hp). reflexivity.
  - intros i opp Hi _. assert (Hk : i < k).
    { assert (X : nth_error (map (fun i => down_of (below D 2 (map (get_row 2 tn) (seq (Ly - i) i)))) (seq 0 k)) i <> None) by (rewrite Hi; discriminate).
      apply nth_error_Some in X. rewrite map_length, seq_length in X. exact X. }
    rewrite (map_nth_error (fun i => down_of (below D 2 (map (get_row 2 tn) (seq (Ly - i) i)))) i (seq 0 k) (d := i)) in Hi
      by (rewrite (nth_error_nth' _ 0) by (rewrite seq_length; exact Hk); rewrite seq_nth by exact Hk; reflexivity).
    injection Hi as <-. split; [reflexivity|]. intros q Hq. apply (down_of_vec _ q Hq).
  - intros. apply absorb2_exact.
Qed.
End TwoColumns.

(** *** One DOWN environment is not enough *)
(** bond dimension one: a tensor is a number *)
Definition num (x : R) : tensor := fun _ => RtoC x.
Lemma tuples_one : forall n, tuples 1 n = [repeat 0 n].
Proof. induction n as [|n IH]; [reflexivity|]. cbn [tuples seq flat_map app]. rewrite IH. reflexivity. Qed.
Lemma up_ones : forall n m, up_vec 1 (repeat (num 1) n) (repeat 0 m) 0 0 = RtoC 1.
Proof.
  induction n as [|n IH]; intros [|m]; try reflexivity. cbn [repeat up_vec seq]. rewrite sumC_cons, sumC_nil, IH.
  apply C_ext; simpl; ring.
Qed.
Lemma down_ones : forall n m, down_vec 1 (repeat (num 1) n) (repeat 0 m) 0 0 = RtoC 1.
Proof.
  induction n as [|n IH]; intros [|m]; try reflexivity. cbn [repeat down_vec seq]. rewrite sumC_cons, sumC_nil, IH.
  apply C_ext; simpl; ring.
Qed.
Lemma transfer_ones : forall n m k, transfer 1 (repeat (num 1) n) (repeat 0 m) (repeat 0 k) 0 0 = RtoC 1.
Proof.
  induction n as [|n IH]; intros [|m] [|k]; try reflexivity. cbn [repeat transfer seq]. rewrite sumC_cons, sumC_nil, IH.
  apply C_ext; simpl; ring.
Qed.
Lemma forallb_zeros n : forallb (Nat.eqb 0) (repeat 0 n) = true.
Proof. induction n as [|n IH]; [reflexivity|exact IH]. Qed.
Lemma below_ones : forall n k, below 1 n (repeat (repeat (num 1) n) k) (repeat 0 n) = RtoC 1.
Proof.
  intros n. induction k as [|k IH]; cbn [repeat below]; [rewrite forallb_zeros; reflexivity|].
  rewrite tuples_one, sumC_cons, sumC_nil, transfer_ones, IH. apply C_ext; simpl; ring.
Qed.
Lemma map_const {X Y} (f : X -> Y) y l : (forall x, In x l -> f x = y) -> map f l = repeat y (length l).
Proof.
  induction l as [|a l IH]; intros H; [reflexivity|]. cbn [map length repeat]. rewrite (H a) by (left; reflexivity). f_equal.
  apply IH. intros x Hx. apply H. right. exact Hx.
Qed.
Lemma ones_row {X} (f : X -> tensor) l : (forall x, In x l -> f x = num 1) -> map f l = repeat (num 1) (length l).
Proof. apply map_const. Qed.
Definition one_up (y x : nat) : nat := if y =? 0 then 0 else 1.
Lemma ones_setting Ly Lx : 1 <= Ly -> 1 <= Lx -> (Z.of_nat Lx < 2 ^ 64)%Z ->
  sf_setting 1 (fun up _ => up) Ly Lx (fun _ _ => num 1) (fun _ _ _ => num 1) one_up (repeat (num 1) Lx) [repeat (num 1) Lx].
Proof.
  intros HL HX HS. constructor; try lia; auto.
  - split; [apply repeat_length|]. intros p Hp. rewrite tuples_one in Hp. destruct Hp as [<-|[]]. rewrite forallb_zeros.
    unfold up_vector. assert (Rv : rev (repeat (num 1) Lx) = repeat (num 1) Lx).
    { clear. induction Lx as [|k IH]; [reflexivity|]. cbn [repeat rev]. rewrite IH. clear.
      induction k as [|k IH]; [reflexivity|]. cbn [repeat app]. f_equal. exact IH. }
    rewrite Rv. apply up_ones.
  - intros i opp Hi _. destruct i as [|i]; [|destruct i; discriminate]. injection Hi as <-. split; [apply repeat_length|].
    intros q Hq. rewrite tuples_one in Hq. destruct Hq as [<-|[]]. cbn [seq map below]. rewrite forallb_zeros. apply down_ones.
  - intros y1 x1 _ _. generalize (filter (fun y => (y <=? y1) || (Ly <=? y + length [repeat (num 1) Lx])) (seq 0 (Ly - 1))).
    induction l as [|y l IH]; [exact I|]. cbn [map exact_along]. split; [|exact IH]. split; [apply repeat_length|].
    intros q Hq. rewrite tuples_one in *. destruct Hq as [<-|[]]. rewrite sumC_cons, sumC_nil.
    assert (E : excited_row Lx (fun _ _ => num 1) (fun _ _ _ => num 1) one_up (y1, x1) y = repeat (num 1) Lx).
    { unfold excited_row. rewrite (ones_row _ (seq 0 Lx)), seq_length; [reflexivity|]. intros x _.
      destruct ((y =? fst (y1, x1)) && (x =? snd (y1, x1)) && (one_up (fst (y1, x1)) (snd (y1, x1)) =? 0)); reflexivity. }
    rewrite E, transfer_ones. apply C_ext; simpl; ring.
Qed.
Lemma ones_flipped Ly Lx y2 : 2 <= Ly -> 1 <= Lx -> 1 <= y2 < Ly ->
  flipped 1 Ly Lx (fun _ _ => num 1) (fun _ _ _ => num 1) one_up (0, 0) (y2, 0) = RtoC 1.
Proof.
  intros HL HX Hy. unfold flipped, flipped_on. cbn [fst snd one_up Nat.eqb]. unfold one_up.
  destruct (Nat.eqb_spec y2 0) as [|_]; [lia|]. cbn [Nat.eqb andb]. unfold amplitude, rows_with.
  rewrite (map_const _ (repeat (num 1) Lx)).
  - apply below_ones.
  - intros y _. rewrite (ones_row _ (seq 0 Lx)), seq_length; [reflexivity|]. intros x _. cbn [fst snd].
    destruct ((y =? 0) && (x =? 0)); [reflexivity|]. destruct ((y =? y2) && (x =? 0)); reflexivity.
Qed.
Lemma in_entries Ly Lx f y1 x1 y2 x2 : y1 < y2 < Ly -> x1 < Lx -> x2 < Lx -> In (y1, x1, y2, x2, f (y1, x1) (y2, x2)) (all_entries Ly Lx f).
Proof.
  intros Hy H1 H2. unfold all_entries. apply in_flat_map. exists y1. split; [apply in_seq; lia|].
  apply in_flat_map. exists x1. split; [apply in_seq; lia|]. apply in_flat_map. exists y2. split; [apply in_seq; lia|].
  apply in_map_iff. exists x2. split; [reflexivity|apply in_seq; lia].
Qed.
Lemma sf_zero_refuted : forall Ly Lx, 3 <= Ly -> 1 <= Lx -> (Z.of_nat Lx < 2 ^ 64)%Z ->
  exists D absorb tn tps cfg vac bottom es, sf_setting D absorb Ly Lx tn tps cfg vac [bottom] /\
    structure_factor D absorb Ly Lx tn tps cfg [vac] [bottom] = Ok es /\
    In (0, 0, 1, 0, RtoC 0) es /\ flipped D Ly Lx tn tps cfg (0, 0) (1, 0) = RtoC 1.
Proof.
  intros Ly Lx HL HX HS. pose proof (ones_setting Ly Lx ltac:(lia) HX HS) as St.
  exists 1, (fun up _ => up), (fun _ _ => num 1), (fun _ _ _ => num 1), one_up, (repeat (num 1) Lx), (repeat (num 1) Lx). eexists.
  split; [exact St|]. split; [apply (sf_one _ _ _ _ _ _ _ _ _ _ St)|]. split; [|apply ones_flipped; lia].
  match goal with |- In _ (all_entries _ _ ?f) => pose proof (in_entries Ly Lx f 0 0 1 0 ltac:(lia) ltac:(lia) ltac:(lia)) as X end.
  cbn [fst] in X. destruct (Nat.eqb_spec 1 (Ly - 1)) as [Q|_]; [lia|]. exact X.
Qed.
