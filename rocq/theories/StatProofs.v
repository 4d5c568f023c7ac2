(** Binned means, pooled gradients, rescue and normalisation. *)
From Coq Require Import List Arith Lia Lra Bool Reals Permutation.
From Verif Require Import Base Cplx Rsum StatModel StatSpec.
Import ListNotations.
Local Open Scope nat_scope.
Arguments sumC : simpl never.
Arguments rsum : simpl never.

Lemma csum_sumC l : csum l = sumC (fun x => x) l.
Proof.
  unfold csum. assert (G : forall a, fold_left Cadd l a = (a + sumC (fun x => x) l)%C).
  { induction l as [|x l IH]; intros a; simpl; [rewrite sumC_nil; ring|]. rewrite IH, sumC_cons. ring. }
  rewrite G. ring.
Qed.
Lemma over_average l : over (csum l) (length l) = average (fun x => x) l.
Proof. unfold over, average. rewrite csum_sumC. reflexivity. Qed.
Lemma mean_average l : mean l = average (fun x => x) l.
Proof. destruct l; [unfold mean, average; rewrite sumC_nil; ring|]. apply over_average. Qed.
(** *** Gatherv *)
Lemma total_counts blocks : forall a, fold_left Nat.add (map (@length C) blocks) a = a + length (concat blocks).
Proof. induction blocks as [|b bs IH]; intros a; simpl; [lia|]. rewrite IH, app_length. lia. Qed.
Lemma gatherv_concat blocks : gatherv blocks = concat blocks.
Proof.
  unfold gatherv. rewrite total_counts. cbn [Nat.add].
  assert (G : forall bs pre off, length pre = off ->
    fold_left (fun buf db => write_block buf (fst db) (snd db)) (combine (displacements off (map (@length C) bs)) bs) (pre ++ repeat (RtoC 0) (length (concat bs))) = pre ++ concat bs).
  { induction bs as [|b bs IH]; intros pre off H; simpl; [reflexivity|]. rewrite app_length.
    unfold write_block at 2. cbn [fst snd]. rewrite firstn_app, skipn_app, H, Nat.sub_diag. cbn [firstn]. rewrite app_nil_r, firstn_all2 by lia.
    rewrite (skipn_all2 pre) by lia. cbn [app]. replace (off + length b - off) with (length b) by lia. rewrite repeat_app, skipn_app, repeat_length, Nat.sub_diag. cbn [skipn].
    rewrite skipn_all2 by (rewrite repeat_length; lia). cbn [app]. rewrite app_assoc. rewrite IH by (rewrite app_length; lia). rewrite <- app_assoc. reflexivity. }
  apply (G blocks [] 0 eq_refl).
Qed.
(** *** Bins *)
Lemma blocks_exist {X} b (l : list X) : 0 < b -> exists bs, blocks b l bs.
Proof.
  intros Hb. remember (length l) as n eqn:E. revert l E. induction n as [n IH] using lt_wf_ind. intros l ->.
  destruct (Nat.lt_ge_cases (length l) b) as [L|L]; [exists []; constructor; exact L|].
  destruct (IH (length (skipn b l)) ltac:(rewrite skipn_length; lia) (skipn b l) eq_refl) as [bs H].
  exists (firstn b l :: bs). rewrite <- (firstn_skipn b l) at 1. constructor; [apply firstn_length_le; exact L|exact H].
Qed.
Lemma blocks_slices {X} b (l : list X) bs : 0 < b -> blocks b l bs -> map (fun i => firstn b (skipn (i * b) l)) (seq 0 (length l / b)) = bs.
Proof.
  intros Hb H. induction H as [rest L|blk rest bs L H IH]; [rewrite Nat.div_small by exact L; reflexivity|].
  rewrite app_length, L. replace (b + length rest) with (1 * b + length rest) by lia. rewrite Nat.div_add_l by lia. cbn [Nat.add seq map Nat.mul skipn].
  f_equal; [rewrite <- L, firstn_app, Nat.sub_diag, firstn_all; cbn [firstn]; apply app_nil_r|]. rewrite <- IH, <- seq_shift, map_map. apply map_ext. intros i.
  f_equal. replace (S i * b) with (length blk + i * b) by (simpl; lia). rewrite skipn_app, skipn_all2 by lia. cbn [app]. f_equal. lia.
Qed.
Lemma blocks_length {X} b (l : list X) bs : blocks b l bs -> Forall (fun blk => length blk = b) bs.
Proof. induction 1; constructor; assumption. Qed.
Lemma blocks_prefix {X} b (l : list X) bs : blocks b l bs -> exists rest, l = concat bs ++ rest /\ length rest < b.
Proof.
  induction 1 as [rest L|blk rest bs L H (r & -> & Hr)]; [exists rest; split; [reflexivity|exact L]|]. exists r. simpl. rewrite app_assoc. split; [reflexivity|exact Hr].
Qed.
Lemma bin_size_sqrt n b : 1 <= b -> b * b <= n < S b * S b -> bin_size n = b.
Proof. intros H1 H2. unfold bin_size. rewrite (Nat.sqrt_unique n b H2). lia. Qed.
Lemma bin_means_blocks b l bs : bin_size (length l) = b -> blocks b l bs -> bin_means l = map (average (fun x => x)) bs.
Proof.
  intros B H. assert (Hb : 0 < b) by (rewrite <- B; unfold bin_size; lia). unfold bin_means. rewrite B.
  rewrite <- (map_map (fun i => firstn b (skipn (i * b) l)) (fun blk => over (csum blk) b)), (blocks_slices b l bs Hb H).
  apply map_ext_in. intros blk Hblk. pose proof (proj1 (Forall_forall _ _) (blocks_length _ _ _ H) _ Hblk) as L. cbv beta in L. rewrite <- L. apply over_average.
Qed.
Lemma average_of_averages b (bs : list (list C)) : 0 < b -> bs <> [] -> Forall (fun blk => length blk = b) bs ->
  average (fun x => x) (map (average (fun x => x)) bs) = average (fun x => x) (concat bs).
Proof.
  intros Hb Hn H. assert (S1 : sumC (fun x => x) (map (average (fun x => x)) bs) = (RtoC (/ INR b) * sumC (fun x => x) (concat bs))%C /\ length (concat bs) = length bs * b).
  { clear Hn. induction H as [|blk bs L F IH]; [split; [cbn [map concat length INR]; rewrite ?sumC_nil; ring|reflexivity]|]. destruct IH as [A B]. simpl concat. cbn [map].
    rewrite sumC_cons, A, sumC_app, app_length, B, L. split; [|simpl; lia]. unfold average at 1. rewrite L. ring. }
  destruct S1 as [S1 S2]. unfold average at 1. rewrite S1, map_length. unfold average. rewrite S2, mult_INR.
  rewrite Rinv_mult, RtoC_mul. ring.
Qed.
Lemma Forall2_concat_blocks b (ranks : list (list C)) bss : Forall2 (blocks b) ranks bss -> Forall (fun blk => length blk = b) (concat bss).
Proof. induction 1 as [|l bs ranks bss H F IH]; [constructor|]. simpl. apply Forall_app. split; [eapply blocks_length; eauto|exact IH]. Qed.
Lemma all_bin_means b ranks bss : 0 < b -> (forall l, In l ranks -> bin_size (length l) = b) -> Forall2 (blocks b) ranks bss ->
  gatherv (map bin_means ranks) = map (average (fun x => x)) (concat bss).
Proof.
  intros Hb HN F. rewrite gatherv_concat. induction F as [|l bs ranks bss H F IH]; [reflexivity|]. cbn [map concat]. rewrite map_app, IH by (intros; apply HN; right; assumption).
  f_equal. apply (bin_means_blocks b); [apply HN; left; reflexivity|exact H].
Qed.
Lemma rsum_norm_nonneg (l : list C) (m : C) : (0 <= rsum (fun x => Cnorm2 (x - m)%C) l)%R.
Proof. apply rsum_nonneg. intros. apply Cnorm2_nonneg. Qed.
Lemma standard_error2 l : 2 <= length l -> exists e, standard_error l (mean l) = Err e /\ (0 <= e)%R /\ (e * e = error2 l)%R.
Proof.
  intros H. unfold standard_error. destruct (length l) as [|[|n]] eqn:E; try lia. rewrite <- E.
  assert (P : (0 < INR (length l) - 1)%R).
  { rewrite E, S_INR, S_INR. pose proof (pos_INR n). lra. }
  exists (sqrt (variance l (mean l) / (INR (length l) - 1))). split; [reflexivity|]. split; [apply sqrt_pos|].
  rewrite sqrt_sqrt.
  - unfold variance, error2. rewrite mean_average. field. split; lra.
  - unfold variance. apply Rmult_le_pos; [apply Rmult_le_pos; [apply rsum_norm_nonneg|]|]; left; apply Rinv_0_lt_compat; lra.
Qed.
Theorem binned_value N b ranks bss : 1 <= b -> b * b <= N < S b * S b -> ranks <> [] -> Forall (fun l => length l = N) ranks ->
  Forall2 (blocks b) ranks bss ->
  fst (binned ranks 0) = average (fun x => x) (concat (concat bss)) /\
  (length (concat bss) = 1 -> snd (binned ranks 0) = ErrInf) /\
  (length (concat bss) <> 1 -> exists e, snd (binned ranks 0) = Err e /\ (0 <= e)%R /\ (e * e = error2 (map (average (fun x => x)) (concat bss)))%R).
Proof.
  intros Hb HN HR HL F.
  assert (BS : forall l, In l ranks -> bin_size (length l) = b).
  { intros l Hl. rewrite Forall_forall in HL. rewrite (HL l Hl). apply bin_size_sqrt; assumption. }
  assert (NE : concat bss <> []).
  { destruct F as [|l bs ranks bss H F]; [congruence|]. simpl. inversion H as [rest L|blk rest bs' L H']; subst; [|discriminate].
    inversion HL; subst. exfalso. nia. }
  unfold binned. cbn [Nat.eqb]. rewrite (all_bin_means b ranks bss Hb BS F), map_length.
  pose proof (average_of_averages b (concat bss) ltac:(lia) NE (Forall2_concat_blocks _ _ _ F)) as AV.
  destruct (length (concat bss)) as [|[|n]] eqn:E.
  - destruct (concat bss); [congruence|discriminate].
  - cbn [fst snd]. rewrite mean_average, AV. split; [reflexivity|]. split; [reflexivity|]. intros Q. congruence.
  - cbn [fst snd]. rewrite mean_average, AV. split; [reflexivity|]. split; [intros Q; discriminate|]. intros _. rewrite <- AV, <- mean_average.
    apply standard_error2. rewrite map_length, E. lia.
Qed.
(** Adding a constant to every sample. *)
Definition shift (c : C) (l : list C) : list C := map (fun x => (x + c)%C) l.
Lemma sum_shift c l : sumC (fun x => x) (shift c l) = (sumC (fun x => x) l + RtoC (INR (length l)) * c)%C.
Proof.
  unfold shift. rewrite sumC_map, sumC_add. f_equal. induction l as [|x l IH]; [cbn [map concat length INR]; rewrite ?sumC_nil; ring|]. rewrite sumC_cons, IH. cbn [length]. rewrite S_INR, RtoC_add. ring.
Qed.
Lemma average_shift c l : l <> [] -> average (fun x => x) (shift c l) = (average (fun x => x) l + c)%C.
Proof.
  intros H. unfold average. rewrite sum_shift. unfold shift. rewrite map_length. assert (N : INR (length l) <> 0%R) by (apply not_0_INR; destruct l; [congruence|discriminate]).
  transitivity (sumC (fun x => x) l * RtoC (/ INR (length l)) + RtoC (INR (length l) * / INR (length l)) * c)%C; [rewrite RtoC_mul; ring|]. rewrite Rinv_r by exact N. ring.
Qed.
Lemma mean_shift c l : l <> [] -> mean (shift c l) = (mean l + c)%C.
Proof. intros H. rewrite !mean_average. apply average_shift. exact H. Qed.
Lemma standard_error_shift c l : l <> [] -> standard_error (shift c l) (mean (shift c l)) = standard_error l (mean l).
Proof.
  intros H. rewrite mean_shift by exact H. unfold standard_error, variance. replace (length (shift c l)) with (length l) by (unfold shift; rewrite map_length; reflexivity).
  unfold shift. rewrite rsum_map. destruct (length l) as [|[|n]]; try reflexivity. do 4 f_equal. apply rsum_ext. intros x _. f_equal. ring.
Qed.
Lemma bin_means_shift c l : bin_means (shift c l) = shift c (bin_means l).
Proof.
  unfold bin_means. replace (length (shift c l)) with (length l) by (unfold shift; rewrite map_length; reflexivity). set (b := bin_size (length l)).
  assert (Hb : 0 < b) by (unfold b, bin_size; lia).
  unfold shift at 2. rewrite map_map. apply map_ext_in. intros i Hi. apply in_seq in Hi.
  assert (L : length (firstn b (skipn (i * b) l)) = b).
  { rewrite firstn_length, skipn_length. pose proof (Nat.mul_div_le (length l) b ltac:(lia)). assert (i + 1 <= length l / b) by lia. assert ((i + 1) * b <= length l / b * b) by (apply Nat.mul_le_mono_r; lia). lia. }
  unfold shift. rewrite skipn_map, firstn_map. set (w := firstn b (skipn (i * b) l)) in *. change (map (fun x => (x + c)%C) w) with (shift c w).
  rewrite <- L. replace (length w) with (length (shift c w)) at 1 by (unfold shift; apply map_length). rewrite !over_average. apply average_shift. destruct w; [simpl in L; lia|discriminate].
Qed.
Theorem binned_shift c ranks : concat ranks <> [] -> binned (map (shift c) ranks) 0 = ((fst (binned ranks 0) + c)%C, snd (binned ranks 0)).
Proof.
  intros H. unfold binned. cbn [Nat.eqb]. rewrite !gatherv_concat, !map_map. rewrite (map_ext (fun x => bin_means (shift c x)) (fun x => shift c (bin_means x))) by (intros; apply bin_means_shift).
  rewrite <- (map_map bin_means (shift c)). unfold shift at 1 2 3 4 5. rewrite <- !concat_map. set (all := concat (map bin_means ranks)).
  change (map (fun x => (x + c)%C) all) with (shift c all). replace (length (shift c all)) with (length all) by (unfold shift; rewrite map_length; reflexivity).
  assert (NE : all <> []).
  { unfold all. clear all. induction ranks as [|l ranks IH]; [simpl in H; congruence|]. simpl. destruct l as [|x l].
    - simpl in H. unfold bin_means at 1. simpl. apply IH. exact H.
    - intros Q. apply app_eq_nil in Q. destruct Q as [Q _]. apply (f_equal (@length C)) in Q. unfold bin_means in Q. rewrite map_length, seq_length in Q. change (length (@nil C)) with 0 in Q.
      set (n := length (x :: l)) in *. assert (Hn : 0 < n) by (unfold n; simpl; lia). apply Nat.div_small_iff in Q; [|unfold bin_size; lia]. unfold bin_size in Q. pose proof (Nat.sqrt_le_lin n). lia. }
  destruct (length all) as [|[|n]] eqn:E; [destruct all; [congruence|discriminate]| |].
  - cbn [fst snd]. rewrite mean_shift by exact NE. reflexivity.
  - cbn [fst snd]. rewrite standard_error_shift, mean_shift by exact NE. reflexivity.
Qed.
(** *** One value per rank *)
Lemma variance_formula l : l <> [] -> (rsum Cnorm2 l / INR (length l) - Cnorm2 (over (csum l) (length l)) = variance l (mean l))%R.
Proof.
  intros H. rewrite mean_average, over_average. set (m := average (fun x => x) l). assert (N : INR (length l) <> 0%R) by (apply not_0_INR; destruct l; [congruence|discriminate]).
  assert (SM : sumC (fun x => x) l = (RtoC (INR (length l)) * m)%C).
  { unfold m, average. transitivity (RtoC (INR (length l) * / INR (length l)) * sumC (fun x => x) l)%C; [rewrite Rinv_r by exact N; ring|rewrite RtoC_mul; ring]. }
  unfold variance. assert (E : rsum (fun x => Cnorm2 (x - m)%C) l = (rsum Cnorm2 l - INR (length l) * Cnorm2 m)%R).
  { assert (G : forall k, rsum (fun x => Cnorm2 (x - m)%C) k = (rsum Cnorm2 k - 2 * (fst m * fst (sumC (fun x => x) k) + snd m * snd (sumC (fun x => x) k)) + INR (length k) * Cnorm2 m)%R).
    { induction k as [|x k IH]; [unfold rsum, sumC; simpl; ring|]. rewrite !rsum_cons, IH, sumC_cons. cbn [length]. rewrite S_INR. unfold Cnorm2. simpl. ring. }
    rewrite G, SM. unfold Cnorm2. simpl. ring. }
  rewrite E. field. exact N.
Qed.
Lemma gather_single_ok l : 2 <= length l -> gather_single l = (mean l, standard_error l (mean l)).
Proof.
  intros H. destruct l as [|x [|y l]]; [simpl in H; lia|simpl in H; lia|]. set (k := x :: y :: l) in *. unfold gather_single. subst k. set (k := x :: y :: l) in *.
  rewrite (variance_formula k) by discriminate. f_equal.
  destruct (Rlt_dec (variance k (mean k)) 0) as [L|L]; [|reflexivity]. exfalso. unfold variance in L. assert (P : (0 < INR (length k))%R) by (apply lt_0_INR; simpl; lia).
  pose proof (rsum_norm_nonneg k (mean k)). assert (0 <= rsum (fun x0 => Cnorm2 (x0 - mean k)%C) k / INR (length k))%R; [|lra]. apply Rmult_le_pos; [exact H0|]. left. apply Rinv_0_lt_compat. exact P.
Qed.
Lemma nth_concat_rows (data : list (list C)) size i j : Forall (fun d => length d = size) data -> i < length data -> j < size ->
  nth (i * size + j) (concat data) (RtoC 0) = nth j (nth i data []) (RtoC 0).
Proof.
  revert i. induction data as [|d data IH]; intros i F Hi Hj; [simpl in Hi; lia|]. inversion F as [|? ? L F']; subst. simpl concat. destruct i as [|i].
  - rewrite app_nth1 by lia. reflexivity.
  - rewrite app_nth2 by (simpl; lia). replace (S i * length d + j - length d) with (i * length d + j) by (simpl; lia). rewrite IH; [reflexivity|exact F'|simpl in Hi; lia|exact Hj].
Qed.
Lemma column_ok (data : list (list C)) size j : Forall (fun d => length d = size) data -> j < size ->
  map (fun i => nth (i * size + j) (concat data) (RtoC 0)) (seq 0 (length data)) = map (fun d => nth j d (RtoC 0)) data.
Proof.
  intros F Hj. rewrite (map_ext_in _ (fun i => nth j (nth i data []) (RtoC 0))) by (intros i Hi; apply in_seq in Hi; apply nth_concat_rows; [exact F|lia|exact Hj]).
  rewrite <- (map_map (fun i => nth i data []) (fun d => nth j d (RtoC 0))). f_equal. apply (nth_ext _ _ [] []); rewrite map_length, seq_length; [reflexivity|]. intros k Hk.
  rewrite (nth_indep _ [] (nth 0 data [])) by (rewrite map_length, seq_length; exact Hk). rewrite (map_nth (fun i => nth i data [])), seq_nth by exact Hk. reflexivity.
Qed.
Lemma gather_list_ok (data : list (list C)) size : 2 <= length data -> Forall (fun d => length d = size) data ->
  gather_list data = (map (fun j => mean (map (fun d => nth j d (RtoC 0)) data)) (seq 0 size),
                      map (fun j => standard_error (map (fun d => nth j d (RtoC 0)) data) (mean (map (fun d => nth j d (RtoC 0)) data))) (seq 0 size)).
Proof.
  intros H F. destruct data as [|d0 [|d1 data]]; [simpl in H; lia|simpl in H; lia|]. assert (L : length d0 = size) by (inversion F; assumption).
  unfold gather_list. rewrite L. f_equal; apply map_ext_in; intros j Hj; apply in_seq in Hj; rewrite (column_ok (d0 :: d1 :: data) size j F) by lia; reflexivity.
Qed.
(** *** Samples per rank *)
Lemma samples_ok total size : 0 < size ->
  total <= size * samples_per_rank total size < total + size /\ forall s, total <= size * s -> samples_per_rank total size <= s.
Proof.
  intros H. unfold samples_per_rank. pose proof (Nat.div_mod (total + size - 1) size ltac:(lia)) as D. pose proof (Nat.mod_upper_bound (total + size - 1) size ltac:(lia)) as M.
  set (q := (total + size - 1) / size) in *. split; [lia|]. intros s Hs. destruct (Nat.le_gt_cases q s) as [L|L]; [exact L|]. exfalso. assert (size * (s + 1) <= size * q) by (apply Nat.mul_le_mono_l; lia). lia.
Qed.
