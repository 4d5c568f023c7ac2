(** Learning-rate schedules. *)
From Coq Require Import List Arith Bool Reals Lia Lra Permutation Ranalysis.
From Verif Require Import Base OptModel OptProofs LbModel LbProofs.
Import ListNotations.
Local Open Scope R_scope.

Lemma pow_down g n m : 0 <= g <= 1 -> (n <= m)%nat -> 0 <= g ^ m <= g ^ n.
Proof.
  intros Hg H. replace m with (n + (m - n))%nat by lia. rewrite pow_add. assert (0 <= g ^ n) by (apply pow_le; lra).
  assert (0 <= g ^ (m - n) <= 1). { split; [apply pow_le; lra|]. induction (m - n)%nat as [|k IH]; simpl; [lra|]. assert (0 <= g ^ k) by (apply pow_le; lra). nra. }
  split; [apply Rmult_le_pos; lra|nra].
Qed.
Lemma exponential_spec lr0 rate steps : 0 <= lr0 -> 0 < rate <= 1 -> (0 < steps)%nat ->
  exponential_lr lr0 rate steps 0 = lr0 /\
  (forall i, exponential_lr lr0 rate steps (i + steps) = rate * exponential_lr lr0 rate steps i) /\
  (forall i j, (i <= j)%nat -> 0 <= exponential_lr lr0 rate steps j <= exponential_lr lr0 rate steps i).
Proof.
  intros H0 Hr Hs. assert (S : 0 < INR steps) by (apply lt_0_INR; lia). unfold exponential_lr. split.
  - simpl INR at 1. unfold Rdiv. rewrite Rmult_0_l, Rpower_O by lra. ring.
  - split.
    + intros i. rewrite plus_INR. replace ((INR i + INR steps) / INR steps) with (INR i / INR steps + 1) by (field; lra). rewrite Rpower_plus, Rpower_1 by lra. ring.
    + intros i j Hij. assert (P : forall x, 0 < Rpower rate x) by (intros; unfold Rpower; apply exp_pos). split; [apply Rmult_le_pos; [lra|left; apply P]|].
      apply Rmult_le_compat_l; [lra|]. unfold Rpower.
      assert (Hln : ln rate <= 0) by (rewrite <- ln_1; destruct (Req_dec rate 1) as [-> |]; [lra|left; apply ln_increasing; lra]).
      assert (Hd : INR i / INR steps <= INR j / INR steps) by (apply Rmult_le_compat_r; [left; apply Rinv_0_lt_compat; lra|apply le_INR; exact Hij]).
      assert (Hx : INR j / INR steps * ln rate <= INR i / INR steps * ln rate) by nra.
      destruct (Rle_lt_or_eq_dec _ _ Hx) as [Hl| ->]; [left; apply exp_increasing; exact Hl|lra].
Qed.
Lemma step_spec lr0 size gamma : 0 <= lr0 -> 0 <= gamma <= 1 -> (0 < size)%nat ->
  exists r : nat -> R, (forall i, step_lr lr0 size gamma i = Ok (r i)) /\ (forall i, (i < size)%nat -> r i = lr0) /\ (forall i, r (i + size)%nat = gamma * r i) /\
  (forall i j, (i <= j)%nat -> 0 <= r j <= r i).
Proof.
  intros H0 Hg Hs. exists (fun i => lr0 * gamma ^ (i / size)). split.
  - intros i. unfold step_lr. destruct (Nat.eqb_spec size 0); [lia|reflexivity].
  - split; [intros i Hi; rewrite Nat.div_small by exact Hi; simpl; ring|]. split.
    + intros i. replace (i + size)%nat with (i + 1 * size)%nat by lia. rewrite Nat.div_add by lia. rewrite Nat.add_1_r. simpl. ring.
    + intros i j Hij. destruct (pow_down gamma (i / size) (j / size) Hg) as (P1 & P2); [apply Nat.div_le_mono; lia|]. split; [apply Rmult_le_pos; lra|nra].
Qed.
Lemma cosine_spec hi T lo : lo <= hi -> (0 < T)%nat ->
  cosine_lr hi T lo 0 = hi /\ (forall i, (T <= i)%nat -> cosine_lr hi T lo i = lo) /\
  (forall i, lo <= cosine_lr hi T lo i <= hi) /\ (forall i j, (i <= j)%nat -> cosine_lr hi T lo j <= cosine_lr hi T lo i).
Proof.
  intros H HT. assert (S : 0 < INR T) by (apply lt_0_INR; lia). unfold cosine_lr. destruct (Nat.eqb_spec T 0); [lia|].
  assert (B : forall i, 0 <= PI * INR (Nat.min i T) / INR T <= PI).
  { intros i. pose proof PI_RGT_0. pose proof (pos_INR (Nat.min i T)). assert (INR (Nat.min i T) <= INR T) by (apply le_INR; lia). split.
    - apply Rmult_le_pos; [nra|left; apply Rinv_0_lt_compat; lra].
    - apply Rmult_le_reg_r with (INR T); [lra|]. unfold Rdiv. rewrite Rmult_assoc, Rinv_l by lra. nra. }
  split; [|split; [|split]].
  - rewrite Nat.min_0_l. simpl (INR 0). unfold Rdiv. rewrite Rmult_0_r, Rmult_0_l, cos_0. lra.
  - intros i Hi. rewrite Nat.min_r by lia. replace (PI * INR T / INR T) with PI by (field; lra). rewrite cos_PI. lra.
  - intros i. pose proof (COS_bound (PI * INR (Nat.min i T) / INR T)). nra.
  - intros i j Hij. set (x := PI * INR (Nat.min i T) / INR T). set (y := PI * INR (Nat.min j T) / INR T).
    assert (Hxy : x <= y). { unfold x, y. pose proof PI_RGT_0. assert (INR (Nat.min i T) <= INR (Nat.min j T)) by (apply le_INR; lia). apply Rmult_le_compat_r; [left; apply Rinv_0_lt_compat; lra|nra]. }
    assert (Hc : cos y <= cos x). { destruct (B i), (B j). destruct (Rle_lt_or_eq_dec _ _ Hxy) as [Hl|Eq]; [left; apply cos_decreasing_1; assumption|rewrite Eq; lra]. } nra.
Qed.
Lemma warmup_spec base steps lo : lo <= base ->
  (forall i, (steps <= S i)%nat -> warmup_lr base steps lo i = base) /\ (forall i, lo <= warmup_lr base steps lo i <= base) /\
  (forall i j, (i <= j)%nat -> warmup_lr base steps lo i <= warmup_lr base steps lo j).
Proof.
  intros H. unfold warmup_lr. destruct (Nat.eqb_spec steps 0) as [-> |Hn]; [repeat split; intros; lra|].
  assert (S : 0 < INR steps) by (apply lt_0_INR; lia).
  assert (B : forall i, (i < steps)%nat -> 0 <= INR (i + 1) / INR steps <= 1).
  { intros i Hi. split; [apply Rmult_le_pos; [apply pos_INR|left; apply Rinv_0_lt_compat; lra]|]. apply Rmult_le_reg_r with (INR steps); [lra|]. unfold Rdiv. rewrite Rmult_assoc, Rinv_l by lra.
    rewrite Rmult_1_l, Rmult_1_r. apply le_INR. lia. }
  split; [|split].
  - intros i Hi. destruct (Nat.leb_spec steps i); [reflexivity|]. replace (i + 1)%nat with steps by lia. field. lra.
  - intros i. destruct (Nat.leb_spec steps i) as [|Hi]; [lra|]. specialize (B i Hi). nra.
  - intros i j Hij. destruct (Nat.leb_spec steps i), (Nat.leb_spec steps j); try lia; try lra; [specialize (B i ltac:(assumption)); nra|].
    assert (INR (i + 1) / INR steps <= INR (j + 1) / INR steps) by (apply Rmult_le_compat_r; [left; apply Rinv_0_lt_compat; lra|apply le_INR; lia]). nra.
Qed.
Lemma insert_perm x l : Permutation (x :: l) (insert_sorted x l).
Proof. induction l as [|y t IH]; cbn; [reflexivity|]. destruct (x <=? y)%nat; [reflexivity|]. rewrite perm_swap. now constructor. Qed.
Lemma sort_perm l : Permutation l (sort_up l).
Proof. induction l as [|x l IH]; cbn; [reflexivity|]. rewrite <- insert_perm. now constructor. Qed.
Fixpoint ascending (l : list nat) : Prop := match l with x :: (y :: _) as t => (x <= y)%nat /\ ascending t | _ => True end.
Lemma insert_ascending x l : ascending l -> ascending (insert_sorted x l).
Proof.
  induction l as [|y t IH]; cbn; [auto|]. intros H. destruct (Nat.leb_spec x y) as [Hx|Hx]; [cbn; auto|]. destruct t as [|z t]; cbn in *; [lia|].
  destruct H as [H1 H2]. destruct (Nat.leb_spec x z); cbn; [split; [lia|auto]|]. split; [exact H1|]. specialize (IH H2). exact IH.
Qed.
Lemma sort_ascending l : ascending (sort_up l).
Proof. induction l as [|x l IH]; cbn; [exact I|]. now apply insert_ascending. Qed.
Lemma upper_count l i : ascending l -> upper_bound l i = length (filter (fun m => m <=? i)%nat l).
Proof.
  induction l as [|x l IH]; cbn; [reflexivity|]. intros H. assert (Ha : ascending l) by (destruct l; [exact I|apply H]).
  destruct (Nat.leb_spec x i) as [Hx|Hx]; cbn; [now rewrite IH|].
  assert (Z : filter (fun m => m <=? i)%nat l = []); [|now rewrite Z]. clear IH Ha. revert x H Hx. induction l as [|y l IH]; cbn; [reflexivity|]. intros x [H1 H2] Hx.
  destruct (Nat.leb_spec y i); [lia|]. apply (IH y); [|lia]. destruct l; [exact I|exact H2].
Qed.
Lemma filter_len_perm (f : nat -> bool) l l' : Permutation l l' -> length (filter f l) = length (filter f l').
Proof. induction 1; cbn; [reflexivity| | |congruence]; repeat destruct (f _); cbn; congruence. Qed.
Lemma multistep_count lr0 ms gamma i : multistep_lr lr0 ms gamma i = lr0 * gamma ^ length (filter (fun m => m <=? i)%nat ms).
Proof. unfold multistep_lr. rewrite upper_count by apply sort_ascending. f_equal. f_equal. symmetry. apply filter_len_perm, sort_perm. Qed.
Lemma multistep_down lr0 ms gamma i j : 0 <= lr0 -> 0 <= gamma <= 1 -> (i <= j)%nat -> 0 <= multistep_lr lr0 ms gamma j <= multistep_lr lr0 ms gamma i.
Proof.
  intros H0 Hg Hij. rewrite !multistep_count.
  destruct (pow_down gamma (length (filter (fun m => m <=? i)%nat ms)) (length (filter (fun m => m <=? j)%nat ms)) Hg) as (P1 & P2).
  { induction ms as [|m ms IH]; cbn; [lia|]. destruct (Nat.leb_spec m i), (Nat.leb_spec m j); cbn; lia. }
  split; [apply Rmult_le_pos; lra|nra].
Qed.

(** *** Plateau *)
Section P.
Context (factor : R) (patience : nat) (thr : R).
Notation rates := (plateau_rates factor patience thr).
(** The state after some calls. *)
Definition after (s : plateau) (es : list R) : plateau := fold_left (fun s e => snd (plateau_lr factor patience thr s e)) es s.
Lemma rates_app s es es' : rates s (es ++ es') = rates s es ++ rates (after s es) es'.
Proof.
  revert s; induction es as [|e es IH]; intros s; [reflexivity|]. cbn [app plateau_rates after fold_left]. destruct (plateau_lr factor patience thr s e) as [r s'] eqn:E. cbn [snd app]. f_equal. apply IH.
Qed.
Lemma rates_length s es : length (rates s es) = length es.
Proof. revert s; induction es as [|e es IH]; intros s; [reflexivity|]. cbn [plateau_rates]. destruct (plateau_lr _ _ _ s e). simpl. now rewrite IH. Qed.
Lemma rates_nth s es e : nth (length es) (rates s (es ++ [e])) 0 = pl_lr (after s (es ++ [e])).
Proof.
  rewrite rates_app, app_nth2 by (rewrite rates_length; lia). rewrite rates_length, Nat.sub_diag. unfold after. rewrite fold_left_app. cbn [fold_left plateau_rates].
  unfold plateau_lr at 1 3. cbn [fst snd nth]. reflexivity.
Qed.
Lemma after_snoc s es e : after s (es ++ [e]) = snd (plateau_lr factor patience thr (after s es) e).
Proof. unfold after. rewrite fold_left_app. reflexivity. Qed.
(** Where the counter stands: that many of the last energies did not improve on the best one, which was
    set by the energy before them (or is the initial one), and the rate has not changed over them. *)
Definition standing (lr0 : R) (es : list R) (s : plateau) : Prop :=
  (pl_count s <= length es)%nat /\ (pl_count s < Nat.max 1 patience)%nat /\
  Forall (fun e => pl_best s - thr <= e) (skipn (length es - pl_count s) es) /\
  pl_best s = last (firstn (length es - pl_count s) es) dbl_max /\
  pl_lr s = last (lr0 :: firstn (length es - pl_count s) (rates (plateau_fresh lr0) es)) 0 /\
  Forall (fun r => r = pl_lr s) (skipn (length es - pl_count s) (rates (plateau_fresh lr0) es)).
Lemma standing_start lr0 : standing lr0 [] (plateau_fresh lr0).
Proof. unfold standing, plateau_fresh. cbn [pl_count pl_lr pl_best length firstn skipn plateau_rates last Nat.sub]. repeat split; auto; lia. Qed.
Lemma last_snoc {X} (l : list X) x d : last (l ++ [x]) d = x.
Proof. induction l as [|y l IH]; [reflexivity|]. cbn. destruct (l ++ [x]) eqn:E; [destruct l; discriminate|exact IH]. Qed.
Lemma last_cons_snoc {X} (a : X) l x d : last (a :: (l ++ [x])) d = x.
Proof. change (a :: l ++ [x]) with ((a :: l) ++ [x]). apply last_snoc. Qed.
Lemma standing_all lr0 es : standing lr0 es (after (plateau_fresh lr0) es).
Proof.
  induction es as [|e es IH] using rev_ind; [apply standing_start|]. rewrite after_snoc. set (s := after (plateau_fresh lr0) es) in *.
  destruct IH as (H1 & H2 & H3 & H4 & H5 & H6).
  assert (Er : rates (plateau_fresh lr0) (es ++ [e]) = rates (plateau_fresh lr0) es ++ [pl_lr (snd (plateau_lr factor patience thr s e))]).
  { rewrite rates_app. fold s. cbn [plateau_rates]. unfold plateau_lr. reflexivity. }
  unfold standing. rewrite Er. assert (Hl : length (rates (plateau_fresh lr0) es) = length es) by apply rates_length.
  set (rs := rates (plateau_fresh lr0) es) in *. rewrite app_length. cbn [length].
  unfold plateau_lr. destruct (rlt e (pl_best s - thr)) eqn:B; cbn [snd pl_count pl_lr pl_best].
  - rewrite Nat.sub_0_r. rewrite !skipn_all2, !firstn_all2 by (rewrite app_length; simpl; lia). rewrite last_snoc, last_cons_snoc. repeat split; auto; lia.
  - apply rlt_false in B. destruct (Nat.leb_spec patience (S (pl_count s))) as [Hp|Hp]; cbn [snd pl_count pl_lr pl_best].
    + rewrite Nat.sub_0_r. rewrite !skipn_all2, !firstn_all2 by (rewrite app_length; simpl; lia). rewrite last_snoc, last_cons_snoc. repeat split; auto; lia.
    + replace (length es + 1 - S (pl_count s))%nat with (length es - pl_count s)%nat by lia. rewrite !skipn_app, !firstn_app, Hl.
      replace (length es - pl_count s - length es)%nat with 0%nat by lia. cbn [firstn skipn]. rewrite !app_nil_r.
      split; [lia|]. split; [lia|]. split; [apply Forall_app; auto|]. split; [exact H4|]. split; [exact H5|]. apply Forall_app; auto.
Qed.
(** A reduction: the rate changes at call [n] only if the last [patience] energies, this one included,
    all failed to improve on a best energy that was seen before them, and it is multiplied by the factor. *)
Lemma plateau_reduction lr0 es e : (0 < patience)%nat -> let before := pl_lr (after (plateau_fresh lr0) es) in let now := pl_lr (after (plateau_fresh lr0) (es ++ [e])) in
  now = before \/
  now = before * factor /\ (patience <= length (es ++ [e]))%nat /\
    exists best, (best = dbl_max \/ In best es) /\ Forall (fun x => best - thr <= x) (skipn (length (es ++ [e]) - patience) (es ++ [e])).
Proof.
  intros Hp before now. unfold now. rewrite after_snoc. unfold before. pose proof (standing_all lr0 es) as (H1 & H2 & H3 & H4 & _). set (s := after (plateau_fresh lr0) es) in *. clearbody s.
  unfold plateau_lr. destruct (rlt e (pl_best s - thr)) eqn:B; cbn [snd pl_lr]; [left; reflexivity|]. apply rlt_false in B.
  destruct (Nat.leb_spec patience (S (pl_count s))) as [Hc|Hc]; cbn [snd pl_lr]; [right|left; reflexivity]. split; [reflexivity|]. rewrite app_length. cbn [length]. split; [lia|].
  exists (pl_best s). split.
  - rewrite H4. destruct (firstn (length es - pl_count s) es) as [|x l] eqn:F; [left; reflexivity|right].
    assert (In (last (x :: l) dbl_max) (firstn (length es - pl_count s) es)) by (rewrite F; destruct (@exists_last _ (x :: l) ltac:(discriminate)) as (l' & y & ->); rewrite last_snoc; apply in_or_app; right; left; reflexivity).
    rewrite <- (firstn_skipn (length es - pl_count s) es). apply in_or_app. left. assumption.
  - replace (length es + 1 - patience)%nat with (length es - pl_count s)%nat by lia. rewrite skipn_app. replace (length es - pl_count s - length es)%nat with 0%nat by lia. cbn [skipn]. apply Forall_app; auto.
Qed.
Lemma plateau_down lr0 es e : 0 <= lr0 -> 0 <= factor <= 1 -> 0 <= pl_lr (after (plateau_fresh lr0) (es ++ [e])) <= pl_lr (after (plateau_fresh lr0) es).
Proof.
  intros H0 Hf. assert (P : forall l, 0 <= pl_lr (after (plateau_fresh lr0) l)).
  { induction l as [|x l IH] using rev_ind; [exact H0|]. rewrite after_snoc. unfold plateau_lr. destruct (rlt _ _); [exact IH|]. destruct (patience <=? _)%nat; [|exact IH]. cbn. nra. }
  split; [apply P|]. rewrite after_snoc. specialize (P es). unfold plateau_lr. destruct (rlt _ _); [cbn; lra|]. destruct (patience <=? _)%nat; cbn; nra.
Qed.
(** Constant energy: one reduction every [patience] calls, without a floor. *)
Lemma plateau_constant lr0 e n : (0 < patience)%nat -> 0 <= thr -> e < dbl_max - thr ->
  let s := after (plateau_fresh lr0) (repeat e (S n)) in pl_lr s = lr0 * factor ^ (n / patience) /\ pl_count s = (n mod patience)%nat /\ pl_best s = e.
Proof.
  intros Hp Ht He. induction n as [|n IH].
  - cbn. unfold plateau_lr, plateau_fresh. cbn [pl_best]. rewrite (proj2 (rlt_true e (dbl_max - thr)) He). cbn. rewrite Nat.div_0_l, Nat.mod_0_l by lia. cbn. repeat split; lra.
  - replace (repeat e (S (S n))) with (repeat e (S n) ++ [e]) by (rewrite <- repeat_cons; reflexivity). cbv zeta in *. rewrite after_snoc. set (s := after _ _) in *. clearbody s. destruct IH as (I1 & I2 & I3).
    unfold plateau_lr. rewrite I3. rewrite (proj2 (rlt_false e (e - thr))) by lra. rewrite I2.
    pose proof (Nat.div_mod n patience ltac:(lia)) as Dm. pose proof (Nat.mod_upper_bound n patience ltac:(lia)) as Mb.
    destruct (Nat.leb_spec patience (S (n mod patience))) as [Hc|Hc]; cbn [snd pl_lr pl_count pl_best].
    + assert (Eq : (S n = patience * S (n / patience) + 0)%nat) by lia.
      rewrite <- (Nat.div_unique (S n) patience (S (n / patience)) 0 ltac:(lia) Eq), <- (Nat.mod_unique (S n) patience (S (n / patience)) 0 ltac:(lia) Eq). rewrite I1. cbn. repeat split; ring.
    + assert (Eq : (S n = patience * (n / patience) + S (n mod patience))%nat) by lia.
      rewrite <- (Nat.div_unique (S n) patience (n / patience) (S (n mod patience)) ltac:(lia) Eq), <- (Nat.mod_unique (S n) patience (n / patience) (S (n mod patience)) ltac:(lia) Eq). auto.
Qed.
End P.
(** Schedules rely on the order of the parameters only through these facts. *)
Lemma plateau_floor factor patience thr lr0 e : (0 < patience)%nat -> 0 < factor < 1 -> 0 <= thr -> e < dbl_max - thr -> 0 < lr0 ->
  forall floor, 0 < floor -> exists n, pl_lr (after factor patience thr (plateau_fresh lr0) (repeat e n)) < floor.
Proof.
  intros Hp Hf Ht He Hl fl Hfl. destruct (pow_lt_1_zero factor ltac:(rewrite Rabs_right; lra) (fl / lr0)) as (N & HN); [apply Rdiv_lt_0_compat; lra|].
  exists (S (N * patience)). destruct (plateau_constant factor patience thr lr0 e (N * patience) Hp Ht He) as (-> & _). rewrite Nat.div_mul by lia.
  specialize (HN N ltac:(lia)). rewrite Rabs_right in HN by (apply Rle_ge, pow_le; lra). apply Rmult_lt_compat_l with (r := lr0) in HN; [|lra]. replace (lr0 * (fl / lr0)) with fl in HN by (field; lra). exact HN.
Qed.
