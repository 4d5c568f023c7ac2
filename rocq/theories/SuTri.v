(** Sums over the gates of the three-site executors. *)
From Coq Require Import List Arith Lia Bool Reals Lra Permutation.
From Verif Require Import Base Rsum UpdaterSpec EnergySpec EnergyMain SweepModel SuModel SuSpec SuProofs.
Import ListNotations.
Local Open Scope R_scope.
Ltac bool_cases := repeat match goal with
  | |- context [(?a =? ?b)%nat] => destruct (Nat.eqb_spec a b)
  | |- context [(?a <? ?b)%nat] => destruct (Nat.ltb_spec a b) end.

Lemma tri_sum F K G rows cols pbc o :
  sweep_value F K G (nnn_sweep rows cols pbc o) =
  S2 (ver_limit rows pbc) (hor_limit cols pbc) (fun r c => rsum (fun p => rsum (fun tw => snd tw * value F K G (fst tw)) (tri_gate rows cols pbc o p r c))
    [UpperRight; LowerRight; LowerLeft; UpperLeft]).
Proof.
  rewrite S2_swap. unfold nnn_sweep, sweep_value. rewrite rsum_flat_map. unfold S2, S1.
  rewrite (rsum_ext _ (fun p => rsum (fun c => rsum (fun r => rsum (fun tw => snd tw * value F K G (fst tw)) (tri_gate rows cols pbc o p r c)) (seq 0 (ver_limit rows pbc))) (seq 0 (hor_limit cols pbc))) [UpperRight; LowerRight; LowerLeft; UpperLeft])
    by (intros p _; rewrite rsum_flat_map; apply rsum_ext; intros c _; rewrite rsum_map; reflexivity).
  rewrite rsum_swap. apply rsum_ext. intros c _. rewrite rsum_swap. reflexivity.
Qed.

Lemma nnn_open F K G rows cols : symmetric F -> symmetric K -> (2 <= rows)%nat -> (2 <= cols)%nat ->
  sweep_value F K G (nnn_sweep rows cols false false) = open_total rows cols F K none.
Proof.
  intros SF SK Hr Hc. unfold open_total. rewrite nearest_sum, diagonal_sum, (rsum_zero (fun s => none s s)), Rplus_0_r by reflexivity. cbn [fst snd].
  pose (fh := fun r c => F (r, c) (r, c + 1)%nat). pose (fv := fun r c => F (r, c) (r + 1, c)%nat).
  pose (w := fun b : bool => if b then 1 else / 2).
  rewrite tri_sum. unfold ver_limit, hor_limit.
  transitivity (S2 (rows - 1) (cols - 1) (fun r c =>
    (K (r + 1, c)%nat (r, c + 1)%nat + K (r, c) (r + 1, c + 1)%nat) +
    ((w (r =? 0)%nat * fh r c + w (r + 1 =? rows - 1)%nat * fh (r + 1)%nat c) +
     (w (c =? 0)%nat * fv r c + w (c + 1 =? cols - 1)%nat * fv r (c + 1)%nat)))).
  { apply S2_ext. intros r c Hr' Hc'. unfold tri_gate, corner, acted, tri_sites. rewrite !rsum_cons, rsum_nil.
    rewrite (Nat.mod_small (r + 1)), (Nat.mod_small (c + 1)) by (unfold lv_rows, lh_cols; lia).
    cbn [fst snd app]. rewrite !rsum_cons, !rsum_nil. cbn [fst snd value hor_num ver_num negb andb].
    rewrite (SK (r, c + 1)%nat (r + 1, c)%nat), (SF (r, c + 1)%nat (r, c)), (SF (r + 1, c + 1)%nat (r + 1, c)%nat). unfold fh, fv, w, inv.
    bool_cases; simpl INR; field. }
  rewrite !S2_add.
  rewrite (S2_upr rows (cols - 1) (fun r c => w (r =? rows - 1)%nat * fh r c)), (S2_limr rows (cols - 1) (fun r c => w (r =? 0)%nat * fh r c)).
  rewrite (S2_upc (rows - 1) cols (fun r c => w (c =? cols - 1)%nat * fv r c)), (S2_limc (rows - 1) cols (fun r c => w (c =? 0)%nat * fv r c)).
  assert (E1 : S2 rows (cols - 1) (fun r c => when (r + 1 <? rows)%nat (w (r =? 0)%nat * fh r c) + when (0 <? r)%nat (w (r =? rows - 1)%nat * fh r c)) = S2 rows (cols - 1) fh).
  { apply S2_ext. intros r c Hr' Hc'. unfold when, w. bool_cases; try (exfalso; lia); lra. }
  assert (E2 : S2 (rows - 1) cols (fun r c => when (c + 1 <? cols)%nat (w (c =? 0)%nat * fv r c) + when (0 <? c)%nat (w (c =? cols - 1)%nat * fv r c)) = S2 (rows - 1) cols fv).
  { apply S2_ext. intros r c Hr' Hc'. unfold when, w. bool_cases; try (exfalso; lia); lra. }
  rewrite S2_add in E1, E2. unfold fh, fv in *. lra.
Qed.

(** on the torus, with on-site terms that do not depend on the site they were given for *)
Lemma nnn_torus F K G o rows cols : symmetric F -> symmetric K -> (forall a b, G a b = G a a) ->
  sweep_value F K G (nnn_sweep rows cols true o) = torus_total rows cols F K (if o then G else none).
Proof.
  intros SF SK UG. unfold torus_total. rewrite !sites_sum, tri_sum. unfold ver_limit, hor_limit, right_of, below. cbn [fst snd].
  pose (fh := fun r c => F (r, c) (r, (c + 1) mod cols)%nat). pose (fv := fun r c => F (r, c) ((r + 1) mod rows, c)%nat).
  pose (g := fun r c => when o (G (r, c) (r, c))).
  transitivity (S2 rows cols (fun r c =>
    (K (r, c) ((r + 1) mod rows, (c + 1) mod cols)%nat + K (r, (c + 1) mod cols)%nat ((r + 1) mod rows, c)%nat) +
    (((/ 2 * fh r c + / 2 * fh ((r + 1) mod rows)%nat c) + (/ 2 * fv r c + / 2 * fv r ((c + 1) mod cols)%nat)) +
     ((/ 4 * g r c + / 4 * g ((r + 1) mod rows)%nat c) + (/ 4 * g r ((c + 1) mod cols)%nat + / 4 * g ((r + 1) mod rows)%nat ((c + 1) mod cols)%nat))))).
  { apply S2_ext. intros r c Hr Hc. unfold tri_gate, corner, acted, tri_sites. unfold lv_rows, lh_cols. cbn [fst snd].
    set (r' := ((r + 1) mod rows)%nat). set (c' := ((c + 1) mod cols)%nat).
    rewrite !rsum_cons, rsum_nil. unfold fh, fv. fold c' r'.
    destruct o; cbn [app]; rewrite !rsum_cons, !rsum_nil; cbn [fst snd value hor_num ver_num negb andb]; unfold inv, g, when;
      rewrite (SF (r, c') (r, c)), (SF (r', c') (r', c)); cbn [site_num];
      repeat match goal with |- context [G (?x, ?y) (?z, ?w)] => lazymatch constr:(((x, y), (z, w))) with (?a, ?a) => fail | _ => rewrite (UG (x, y) (z, w)) end end;
      simpl INR; field. }
  rewrite !S2_add.
  rewrite (S2_rotr rows cols (fun r c => / 2 * fh r c)), (S2_rotc rows cols (fun r c => / 2 * fv r c)).
  rewrite (S2_rotr rows cols (fun r c => / 4 * g r c)), (S2_rotc rows cols (fun r c => / 4 * g r c)).
  rewrite (S2_rotr rows cols (fun r c => / 4 * g r ((c + 1) mod cols)%nat)), (S2_rotc rows cols (fun r c => / 4 * g r c)).
  assert (Q : forall x h, S2 rows cols (fun r c => x * h r c) = x * S2 rows cols h).
  { intros x h. unfold S2, S1. rewrite <- rsum_scal. apply rsum_ext. intros. rewrite <- rsum_scal. reflexivity. }
  rewrite !Q. assert (E : S2 rows cols g = S2 rows cols (fun r c => (if o then G else none) (r, c) (r, c))).
  { apply S2_ext. intros r c _ _. unfold g, when. destruct o; reflexivity. }
  rewrite E. unfold fh, fv. lra.
Qed.

Lemma triangle_halves F K G rows cols : symmetric F -> symmetric K -> (1 <= rows)%nat -> (1 <= cols)%nat ->
  sweep_value F K G (triangle_first rows cols) = triangular_total rows cols F K /\
  sweep_value F K G (triangle_second rows cols) = triangular_total rows cols F K.
Proof.
  intros SF SK Hr Hc. unfold triangular_total. rewrite nearest_sum, rising_sum. cbn [fst snd].
  pose (fh := fun r c => F (r, c) (r, c + 1)%nat). pose (fv := fun r c => F (r, c) (r + 1, c)%nat). pose (k := fun r c => K (r + 1, c)%nat (r, c + 1)%nat).
  assert (HS : forall n f, S1 (n - 1) f + S1 (n - 1) f = 2 * S1 (n - 1) f) by (intros; lra).
  assert (L : forall n f, (1 <= n)%nat -> S1 n f = f 0%nat + S1 (n - 1) (fun i => f (i + 1)%nat)).
  { intros [|n] f Hn; [lia|]. rewrite S1_S'. replace (S n - 1)%nat with n by lia. reflexivity. }
  assert (B : forall n f, (1 <= n)%nat -> S1 n f = S1 (n - 1) f + f (n - 1)%nat).
  { intros [|n] f Hn; [lia|]. rewrite S1_S. replace (S n - 1)%nat with n by lia. reflexivity. }
  split.
  - transitivity (S1 (rows - 1) (fun r => fv r 0%nat) + S1 (cols - 1) (fun c => fh 0%nat c + (S1 (rows - 1) (fun r => fv r (c + 1)%nat) +
      (S1 (rows - 1) (fun r => fh (r + 1)%nat c) + S1 (rows - 1) (fun r => k r c))))).
    { unfold triangle_first, sweep_value. rewrite rsum_app. f_equal.
      - rewrite rsum_map. apply S1_ext. intros r _. unfold edge_gate. rewrite rsum_cons, rsum_nil. cbn [fst snd value]. unfold fv. lra.
      - rewrite rsum_flat_map. change (seq 1 (cols - 1)) with (seq (1 + 0) (cols - 1)). rewrite <- seq_shift, rsum_map. apply S1_ext. intros c Hc'.
        rewrite rsum_cons, rsum_map. replace (S c - 1)%nat with c by lia. replace (S c) with (c + 1)%nat by lia. f_equal.
        + unfold edge_gate. rewrite rsum_cons, rsum_nil. cbn [fst snd value]. unfold fh. lra.
        + rewrite <- !S1_add. apply S1_ext. intros r _. unfold triangle_gate. rewrite !rsum_cons, rsum_nil. cbn [fst snd value].
          rewrite (SF (r + 1, c + 1)%nat (r + 1, c)%nat), (SK (r, c + 1)%nat (r + 1, c)%nat). unfold fh, fv, k. lra. }
    rewrite !S1_add. change (fun r c => F (r, c) (r, c + 1)%nat) with fh. change (fun r c => F (r, c) (r + 1, c)%nat) with fv. change (fun r c => K (r + 1, c)%nat (r, c + 1)%nat) with k.
    rewrite (S2_swap (rows - 1) cols fv). unfold S2 at 2. rewrite (L cols) by lia.
    unfold S2 at 1. rewrite (L rows) by lia. rewrite (S2_swap (rows - 1) (cols - 1) k). unfold S2.
    assert (E : S1 (cols - 1) (fun c => S1 (rows - 1) (fun r => fh (r + 1)%nat c)) = S1 (rows - 1) (fun i => S1 (cols - 1) (fh (i + 1)%nat))) by (apply (S2_swap (cols - 1) (rows - 1) (fun c r => fh (r + 1)%nat c))).
    rewrite <- E. change (fun i : nat => fh 0%nat i) with (fh 0%nat). lra.
  - transitivity (S1 (cols - 1) (fun c => (S1 (rows - 1) (fun r => fh r c) + (S1 (rows - 1) (fun r => fv r c) + S1 (rows - 1) (fun r => k r c))) + fh (rows - 1)%nat c) +
      S1 (rows - 1) (fun r => fv r (cols - 1)%nat)).
    { unfold triangle_second, sweep_value. rewrite rsum_app. f_equal.
      - rewrite rsum_flat_map. apply S1_ext. intros c Hc'. rewrite rsum_app, rsum_map. f_equal.
        + rewrite <- !S1_add. apply S1_ext. intros r _. unfold triangle_gate. rewrite !rsum_cons, rsum_nil. cbn [fst snd value].
          rewrite (SF (r, c + 1)%nat (r, c)%nat), (SK (r, c + 1)%nat (r + 1, c)%nat). unfold fh, fv, k. lra.
        + rewrite rsum_cons, rsum_nil. unfold edge_gate. rewrite rsum_cons, rsum_nil. cbn [fst snd value]. unfold fh. lra.
      - rewrite rsum_map. apply S1_ext. intros r _. unfold edge_gate. rewrite rsum_cons, rsum_nil. cbn [fst snd value]. unfold fv. lra. }
    rewrite !S1_add. change (fun r c => F (r, c) (r, c + 1)%nat) with fh. change (fun r c => F (r, c) (r + 1, c)%nat) with fv. change (fun r c => K (r + 1, c)%nat (r, c + 1)%nat) with k.
    rewrite (S2_swap (rows - 1) cols fv). unfold S2 at 2. rewrite (B cols (fun r => S1 (rows - 1) (fun c => fv c r))) by lia.
    unfold S2 at 1. rewrite (B rows) by lia. rewrite (S2_swap (rows - 1) (cols - 1) k). unfold S2.
    assert (E : S1 (cols - 1) (fun c => S1 (rows - 1) (fun r => fh r c)) = S1 (rows - 1) (fun i => S1 (cols - 1) (fh i))) by (apply (S2_swap (cols - 1) (rows - 1) (fun c r => fh r c))).
    rewrite <- E. change (fun i : nat => fh (rows - 1)%nat i) with (fh (rows - 1)%nat). lra.
Qed.

(** *** Findings *)
Definition at_site (s a : site) : R := if ((fst a =? fst s) && (snd a =? snd s))%nat then 1 else 0.
Lemma chain_onsite : sweep_value none none (fun a _ => at_site (0, 1)%nat a) (nn_sweep 1 3 false) = 2 / 3.
Proof. unfold sweep_value, nn_sweep. cbn. unfold none, at_site, inv. simpl. lra. Qed.
Lemma nnn_onsite_open : sweep_value none none (fun a _ => at_site (1, 1)%nat a) (nnn_sweep 3 3 false true) = 13 / 12.
Proof. unfold sweep_value, nnn_sweep. cbn. unfold none, at_site, inv. simpl. lra. Qed.
Lemma nnn_onsite_torus : sweep_value none none (fun a o => at_site (1, 1)%nat a * at_site (1, 1)%nat o) (nnn_sweep 3 3 true true) = 11 / 12.
Proof. unfold sweep_value, nnn_sweep. cbn. unfold none, at_site, inv. simpl. lra. Qed.
