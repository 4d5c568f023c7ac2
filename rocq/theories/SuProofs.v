(** Sums over the gates of a sweep. *)
From Coq Require Import List Arith Lia Bool Reals Lra Permutation.
From Verif Require Import Base Rsum UpdaterSpec EnergySpec EnergyMain SweepModel SweepProofs EnergyHoles PbcProofs HistoryProofs SuModel SuSpec.
Import ListNotations.
Local Open Scope R_scope.

Definition S1 (n : nat) (f : nat -> R) : R := rsum f (seq 0 n).
Definition S2 (m n : nat) (f : nat -> nat -> R) : R := S1 m (fun r => S1 n (f r)).
Lemma S1_ext n f g : (forall i, (i < n)%nat -> f i = g i) -> S1 n f = S1 n g.
Proof. intros H. apply rsum_ext. intros i Hi. apply in_seq in Hi. apply H. lia. Qed.
Lemma S2_ext m n f g : (forall r c, (r < m)%nat -> (c < n)%nat -> f r c = g r c) -> S2 m n f = S2 m n g.
Proof. intros H. apply S1_ext. intros r Hr. apply S1_ext. intros c Hc. apply H; assumption. Qed.
Lemma S1_add n f g : S1 n (fun i => f i + g i) = S1 n f + S1 n g.
Proof. apply rsum_add. Qed.
Lemma S2_add m n f g : S2 m n (fun r c => f r c + g r c) = S2 m n f + S2 m n g.
Proof. unfold S2. rewrite <- S1_add. apply S1_ext. intros r _. apply S1_add. Qed.
Lemma S2_swap m n f : S2 m n f = S2 n m (fun c r => f r c).
Proof. unfold S2, S1. apply rsum_swap. Qed.
Lemma S1_S n f : S1 (S n) f = S1 n f + f n.
Proof. unfold S1. rewrite seq_S, rsum_app, rsum_cons, rsum_nil. simpl. lra. Qed.
Lemma S1_S' n f : S1 (S n) f = f 0%nat + S1 n (fun i => f (i + 1)%nat).
Proof.
  unfold S1. cbn [seq]. rewrite rsum_cons. f_equal. rewrite <- seq_shift, rsum_map. apply rsum_ext. intros i _. f_equal. lia.
Qed.
Definition when (b : bool) (x : R) : R := if b then x else 0.
Lemma S1_lim n f : S1 (n - 1) f = S1 n (fun c => when (c + 1 <? n)%nat (f c)).
Proof.
  destruct n as [|n]; [reflexivity|]. rewrite S1_S. replace (S n - 1)%nat with n by lia. unfold when.
  replace (n + 1 <? S n)%nat with false by (symmetry; apply Nat.ltb_ge; lia). rewrite Rplus_0_r. apply S1_ext. intros i Hi.
  replace (i + 1 <? S n)%nat with true by (symmetry; apply Nat.ltb_lt; lia). reflexivity.
Qed.
Lemma S1_up n f : S1 (n - 1) (fun c => f (c + 1)%nat) = S1 n (fun c => when (0 <? c)%nat (f c)).
Proof.
  destruct n as [|n]; [reflexivity|]. rewrite S1_S'. replace (S n - 1)%nat with n by lia. replace (when (0 <? 0)%nat (f 0%nat)) with 0 by reflexivity. rewrite Rplus_0_l.
  apply S1_ext. intros i Hi. unfold when. replace (0 <? i + 1)%nat with true by (symmetry; apply Nat.ltb_lt; lia). reflexivity.
Qed.
Lemma S1_rot n f : S1 n (fun c => f ((c + 1) mod n)%nat) = S1 n f.
Proof.
  destruct n as [|n]; [reflexivity|]. rewrite S1_S, (S1_S' n f). replace ((n + 1) mod S n)%nat with 0%nat.
  - rewrite Rplus_comm. f_equal. apply S1_ext. intros i Hi. rewrite Nat.mod_small by lia. reflexivity.
  - replace (n + 1)%nat with (S n) by lia. rewrite Nat.mod_same by lia. reflexivity.
Qed.
Lemma S2_limc m n f : S2 m (n - 1) f = S2 m n (fun r c => when (c + 1 <? n)%nat (f r c)).
Proof. apply S1_ext. intros. apply S1_lim. Qed.
Lemma S2_upc m n f : S2 m (n - 1) (fun r c => f r (c + 1)%nat) = S2 m n (fun r c => when (0 <? c)%nat (f r c)).
Proof. apply S1_ext. intros. apply S1_up. Qed.
Lemma S2_limr m n f : S2 (m - 1) n f = S2 m n (fun r c => when (r + 1 <? m)%nat (f r c)).
Proof. rewrite S2_swap, (S2_swap m n). apply S2_limc. Qed.
Lemma S2_upr m n f : S2 (m - 1) n (fun r c => f (r + 1)%nat c) = S2 m n (fun r c => when (0 <? r)%nat (f r c)).
Proof. rewrite S2_swap, (S2_swap m n). apply (S2_upc n m (fun c r => f r c)). Qed.
Lemma S2_rotc m n f : S2 m n (fun r c => f r ((c + 1) mod n)%nat) = S2 m n f.
Proof. apply S1_ext. intros. apply S1_rot. Qed.
Lemma S2_rotr m n f : S2 m n (fun r c => f ((r + 1) mod m)%nat c) = S2 m n f.
Proof. rewrite S2_swap, (S2_swap m n f). apply (S2_rotc n m (fun c r => f r c)). Qed.

(** *** The specification as sums over rows and columns *)
Lemma sites_sum rows cols g : rsum g (all_sites rows cols) = S2 rows cols (fun r c => g (r, c)).
Proof. exact (rsum_prod g (seq 0 rows) (seq 0 cols)). Qed.
Lemma nearest_sum rows cols F : rsum F (pairs rows cols nearest) =
  S2 rows (cols - 1) (fun r c => F ((r, c), (r, c + 1)%nat)) + S2 (rows - 1) cols (fun r c => F ((r, c), (r + 1, c)%nat)).
Proof.
  rewrite <- (rsum_perm F _ _ (bonds_of_pairs rows cols)). unfold bonds_of. rewrite rsum_app. f_equal.
  - unfold for_. rewrite rsum_flat_map. rewrite ?Nat.sub_0_r. apply rsum_ext. intros r _. rewrite rsum_flat_map. rewrite ?Nat.sub_0_r. apply rsum_ext.
    intros c _. rewrite rsum_cons, rsum_nil. lra.
  - rewrite S2_swap. unfold for_. rewrite rsum_flat_map. rewrite ?Nat.sub_0_r. apply rsum_ext. intros r _. rewrite rsum_flat_map. rewrite ?Nat.sub_0_r. apply rsum_ext.
    intros c _. rewrite rsum_cons, rsum_nil. lra.
Qed.
Definition rise (s : site) : site * site := ((fst s + 1, snd s)%nat, (fst s, snd s + 1)%nat).
Definition fall (s : site) : site * site := (s, (fst s + 1, snd s + 1)%nat).
Lemma rise_inj : forall a b, rise a = rise b -> a = b.
Proof. intros [r c] [r' c'] E. inversion E. f_equal; lia. Qed.
Lemma fall_inj : forall a b, fall a = fall b -> a = b.
Proof. intros [r c] [r' c'] E. inversion E. f_equal; lia. Qed.
Lemma rising_perm rows cols : Permutation (map rise (all_sites (rows - 1) (cols - 1))) (pairs rows cols rising).
Proof.
  apply NoDup_Permutation.
  - apply nodup_map_in; [apply all_sites_nodup|]. intros a b _ _. apply rise_inj.
  - apply pairs_nodup.
  - intros [[r c] [r' c']]. rewrite pairs_in, in_map_iff. unfold rising. simpl fst. simpl snd. rewrite andb_true_iff, !Nat.eqb_eq. split.
    + intros ([i j] & E & H). apply all_sites_in in H. unfold rise in E. simpl in E, H. inversion E; subst. lia.
    + intros (A & B & -> & D). exists (r', c). split; [|apply all_sites_in; simpl; lia]. unfold rise. simpl. rewrite D. reflexivity.
Qed.
Lemma diagonal_perm rows cols : Permutation (map rise (all_sites (rows - 1) (cols - 1)) ++ map fall (all_sites (rows - 1) (cols - 1))) (pairs rows cols diagonal).
Proof.
  apply NoDup_Permutation.
  - apply NoDup_app_intro.
    + apply nodup_map_in; [apply all_sites_nodup|]. intros a b _ _. apply rise_inj.
    + apply nodup_map_in; [apply all_sites_nodup|]. intros a b _ _. apply fall_inj.
    + intros x Ha Hb. apply in_map_iff in Ha, Hb. destruct Ha as ([i j] & <- & _), Hb as ([k l] & E & _). unfold fall, rise in E. simpl in E. inversion E; lia.
  - apply pairs_nodup.
  - intros [[r c] [r' c']]. rewrite pairs_in, in_app_iff, !in_map_iff. unfold diagonal. simpl fst. simpl snd. rewrite andb_true_iff, orb_true_iff, !Nat.eqb_eq. split.
    + intros [([i j] & E & H)|([i j] & E & H)]; apply all_sites_in in H; unfold rise, fall in E; simpl in E, H; inversion E; subst; lia.
    + intros (A & B & -> & [->|D]).
      * right. exists (r, c). split; [reflexivity|apply all_sites_in; simpl; lia].
      * left. exists (r', c). split; [|apply all_sites_in; simpl; lia]. unfold rise. simpl. rewrite D. reflexivity.
Qed.
Lemma rising_sum rows cols K : rsum K (pairs rows cols rising) = S2 (rows - 1) (cols - 1) (fun r c => K ((r + 1, c)%nat, (r, c + 1)%nat)).
Proof. rewrite <- (rsum_perm K _ _ (rising_perm rows cols)), rsum_map, sites_sum. reflexivity. Qed.
Lemma diagonal_sum rows cols K : rsum K (pairs rows cols diagonal) =
  S2 (rows - 1) (cols - 1) (fun r c => K ((r + 1, c)%nat, (r, c + 1)%nat)) + S2 (rows - 1) (cols - 1) (fun r c => K ((r, c), (r + 1, c + 1)%nat)).
Proof. rewrite <- (rsum_perm K _ _ (diagonal_perm rows cols)), rsum_app, !rsum_map, !sites_sum. reflexivity. Qed.

(** *** The sweeps as sums *)
Section S.
Variables F K G : site -> site -> R.
Ltac bool_cases := repeat match goal with
  | |- context [(?a =? ?b)%nat] => destruct (Nat.eqb_spec a b)
  | |- context [(?a <? ?b)%nat] => destruct (Nat.ltb_spec a b) end.

Lemma nn_open rows cols : (2 <= rows)%nat -> (2 <= cols)%nat ->
  sweep_value F none G (nn_sweep rows cols false) = open_total rows cols F none G.
Proof.
  intros Hr Hc. unfold open_total. rewrite nearest_sum, sites_sum, (rsum_zero _ (pairs rows cols diagonal)) by reflexivity.
  pose (g := fun r c => G (r, c) (r, c)). cbn [fst snd].
  transitivity (S2 (rows - 1) cols (fun r c => F (r, c) (r + 1, c)%nat +
      (inv (4 - b2n ((c =? 0) || (c =? cols - 1)) - b2n (r =? 0))%nat * g r c +
       inv (4 - b2n ((c =? 0) || (c =? cols - 1)) - b2n (r + 1 =? rows - 1))%nat * g (r + 1)%nat c)) +
    S2 rows (cols - 1) (fun r c => F (r, c) (r, c + 1)%nat +
      (inv (4 - b2n ((r =? 0) || (r =? rows - 1)) - b2n (c =? 0))%nat * g r c +
       inv (4 - b2n ((r =? 0) || (r =? rows - 1)) - b2n (c + 1 =? cols - 1))%nat * g r (c + 1)%nat))).
  { unfold nn_sweep. unfold sweep_value. rewrite rsum_app. f_equal.
    - rewrite S2_swap. rewrite rsum_flat_map. apply S1_ext. intros c _. rewrite rsum_map. unfold ver_limit. apply S1_ext. intros r Hr'.
      unfold ver_gate. rewrite !rsum_cons, rsum_nil. cbn [fst snd value negb andb]. rewrite (Nat.mod_small (r + 1)) by lia.
      replace (r =? rows - 2)%nat with (r + 1 =? rows - 1)%nat by (destruct (Nat.eqb_spec r (rows - 2)); [apply Nat.eqb_eq|apply Nat.eqb_neq]; lia).
      unfold g. lra.
    - rewrite S2_swap. rewrite rsum_flat_map. apply S1_ext. intros c Hc'. rewrite rsum_map. unfold hor_limit in *. apply S1_ext. intros r _.
      unfold hor_gate. rewrite !rsum_cons, rsum_nil. cbn [fst snd value negb andb]. rewrite (Nat.mod_small (c + 1)) by lia.
      replace (c =? cols - 2)%nat with (c + 1 =? cols - 1)%nat by (destruct (Nat.eqb_spec c (cols - 2)); [apply Nat.eqb_eq|apply Nat.eqb_neq]; lia).
      unfold g. lra. }
  rewrite !S2_add.
  rewrite (S2_upr rows cols (fun r c => inv (4 - b2n ((c =? 0) || (c =? cols - 1)) - b2n (r =? rows - 1))%nat * g r c)).
  rewrite (S2_upc rows cols (fun r c => inv (4 - b2n ((r =? 0) || (r =? rows - 1)) - b2n (c =? cols - 1))%nat * g r c)).
  rewrite (S2_limr rows cols (fun r c => inv (4 - b2n ((c =? 0) || (c =? cols - 1)) - b2n (r =? 0))%nat * g r c)).
  rewrite (S2_limc rows cols (fun r c => inv (4 - b2n ((r =? 0) || (r =? rows - 1)) - b2n (c =? 0))%nat * g r c)).
  enough (E : S2 rows cols (fun r c => when (r + 1 <? rows)%nat (inv (4 - b2n ((c =? 0) || (c =? cols - 1)) - b2n (r =? 0))%nat * g r c) +
     (when (0 <? r)%nat (inv (4 - b2n ((c =? 0) || (c =? cols - 1)) - b2n (r =? rows - 1))%nat * g r c) +
     (when (c + 1 <? cols)%nat (inv (4 - b2n ((r =? 0) || (r =? rows - 1)) - b2n (c =? 0))%nat * g r c) +
      when (0 <? c)%nat (inv (4 - b2n ((r =? 0) || (r =? rows - 1)) - b2n (c =? cols - 1))%nat * g r c)))) = S2 rows cols g).
  { rewrite !S2_add in E. unfold g in *. lra. }
  apply S2_ext. intros r c Hr' Hc'. unfold when, inv, b2n.
  bool_cases; try (exfalso; lia); cbn [orb Nat.sub]; simpl INR; field.
Qed.

Lemma nn_torus rows cols : sweep_value F none G (nn_sweep rows cols true) = torus_total rows cols F none G.
Proof.
  unfold torus_total. rewrite (rsum_zero (fun s => none s _ + none _ _)) by (intros; unfold none; lra). rewrite !sites_sum. pose (g := fun r c => G (r, c) (r, c)). cbn [fst snd right_of below].
  transitivity (S2 rows cols (fun r c => F (r, c) ((r + 1) mod rows, c)%nat + (/ 4 * g r c + / 4 * g ((r + 1) mod rows)%nat c)) +
    S2 rows cols (fun r c => F (r, c) (r, (c + 1) mod cols)%nat + (/ 4 * g r c + / 4 * g r ((c + 1) mod cols)%nat))).
  { unfold nn_sweep, sweep_value. rewrite rsum_app. f_equal; rewrite S2_swap, rsum_flat_map; apply S1_ext; intros c _; rewrite rsum_map;
    apply S1_ext; intros r _; unfold ver_gate, hor_gate; rewrite !rsum_cons, rsum_nil; cbn [fst snd value negb andb b2n Nat.sub]; unfold inv; simpl INR; unfold g;
    replace (1 + 1 + 1 + 1) with 4 by lra; lra. }
  rewrite !S2_add. rewrite (S2_rotr rows cols (fun r c => / 4 * g r c)), (S2_rotc rows cols (fun r c => / 4 * g r c)).
  assert (Q : S2 rows cols (fun r c => / 4 * g r c) = / 4 * S2 rows cols g).
  { unfold S2, S1. rewrite <- rsum_scal. apply rsum_ext. intros. rewrite <- rsum_scal. reflexivity. }
  rewrite !Q. unfold right_of, below, g. cbn [fst snd]. lra.
Qed.
End S.
