(** All runs of a measurement are pooled. *)
From Coq Require Import String List Arith Bool Reals Lia.
From Verif Require Import Base Cplx StatSpec StatModel StatMain MeasModel MeasProofs MsrModel MsrSpec.
Import ListNotations.
Local Open Scope nat_scope.

(** registry with a value for each name *)
Definition reg {V} (f : string -> V) (ks : list string) : list (string * V) := map (fun k => (k, f k)) ks.
Lemma find_reg {V} (f : string -> V) ks k : In k ks -> find_key k (reg f ks) = Some (f k).
Proof. induction ks as [|x ks IH]; cbn; [contradiction|]. intros [->|H]; [rewrite String.eqb_refl; reflexivity|]. destruct (String.eqb_spec k x) as [->|]; [reflexivity|auto]. Qed.
Lemma reg_keys {V} (f : string -> V) ks : map fst (reg f ks) = ks.
Proof. unfold reg. rewrite map_map. cbn [fst]. apply map_id. Qed.
Lemma reg_ext {V} (f g : string -> V) ks : (forall k, In k ks -> f k = g k) -> reg f ks = reg g ks.
Proof. intros H. apply map_ext_in. intros k K. rewrite H by exact K. reflexivity. Qed.
Lemma obs_reg z ks : NoDup ks -> map fst (z_obs z) = ks -> z_obs z = reg (fun k => values k z) ks.
Proof.
  unfold values. generalize (z_obs z). clear z. intros l. revert ks. induction l as [|[k v] l IH]; intros ks N E; cbn [map fst] in E; subst ks; [reflexivity|]. inversion N as [|? ? N1 N2]; subst.
  cbn [reg map find_key]. rewrite String.eqb_refl. f_equal. rewrite (IH (map fst l) N2 eq_refl) at 1. apply map_ext_in. intros k' K. destruct (String.eqb_spec k' k) as [->|]; [contradiction|reflexivity].
Qed.
Lemma push_skip k v pre l : ~ In k (map fst pre) -> push k v (pre ++ l) = pre ++ push k v l.
Proof. induction pre as [|[k' w] pre IH]; cbn; [reflexivity|]. intros H. destruct (String.eqb_spec k k') as [->|]; [tauto|]. rewrite IH by tauto. reflexivity. Qed.
Lemma push_all f g : forall suf pre, NoDup (pre ++ suf) ->
  fold_left (fun l kv => push (fst kv) (snd kv) l) (reg g suf) (reg (fun k => f k ++ [g k]) pre ++ reg f suf) = reg (fun k => f k ++ [g k]) (pre ++ suf).
Proof.
  induction suf as [|k suf IH]; intros pre N; cbn [reg map fold_left]; [rewrite !app_nil_r; reflexivity|]. fold (reg g suf). fold (reg f suf). cbn [fst snd].
  rewrite push_skip by (rewrite reg_keys; apply NoDup_remove_2 in N; rewrite in_app_iff in N; tauto). cbn [push]. rewrite String.eqb_refl.
  change (pre ++ k :: suf) with (pre ++ [k] ++ suf) in *. rewrite app_assoc in *. rewrite <- IH by exact N. f_equal. unfold reg at 3. rewrite map_app. cbn [map]. rewrite <- app_assoc. reflexivity.
Qed.
Lemma push_new g : forall suf pre, NoDup (pre ++ suf) ->
  fold_left (fun l kv => push (fst kv) (snd kv) l) (reg g suf) (reg (fun k => [g k]) pre) = reg (fun k => [g k]) (pre ++ suf).
Proof.
  induction suf as [|k suf IH]; intros pre N; cbn [reg map fold_left]; [rewrite app_nil_r; reflexivity|]. fold (reg g suf). cbn [fst snd].
  fold (reg (fun k => [g k]) pre). rewrite <- (app_nil_r (reg (fun k => [g k]) pre)). rewrite push_skip by (rewrite reg_keys; apply NoDup_remove_2 in N; rewrite in_app_iff in N; tauto). cbn [push].
  change (pre ++ k :: suf) with (pre ++ [k] ++ suf) in *. rewrite app_assoc in *. rewrite <- IH by exact N. f_equal. unfold reg. rewrite map_app. reflexivity.
Qed.
(** the registry after the samples [zs] *)
Definition reg_of (ks : list string) (zs : list sample) : list (string * list (list C)) := match zs with [] => [] | _ => reg (fun k => map (values k) zs) ks end.
Lemma sample_reg ks zs z m : NoDup ks -> map fst (z_obs z) = ks -> t_samples m = reg_of ks zs -> t_samples (measure_sample m z) = reg_of ks (zs ++ [z]).
Proof.
  intros N E S. cbn [measure_sample t_samples]. rewrite S, (obs_reg z ks N E). destruct zs as [|z0 zs].
  - exact (push_new (fun k => values k z) ks [] N).
  - cbn [reg_of app]. refine (eq_trans (push_all (fun k => map (values k) (z0 :: zs)) (fun k => values k z) ks [] N) _). apply reg_ext. intros k _. change (z0 :: zs ++ [z]) with ((z0 :: zs) ++ [z]). rewrite map_app. reflexivity.
Qed.
(** what one rank has after the samples [zs] *)
Definition has (ks : list string) (zs : list sample) (m : mst) : Prop := t_samples m = reg_of ks zs /\ t_psi m = map z_psi zs /\ t_counts m = counts zs.
Lemma sample_has ks zs z m : NoDup ks -> map fst (z_obs z) = ks -> has ks zs m -> has ks (zs ++ [z]) (measure_sample m z).
Proof.
  intros N E (S1 & S2 & S3). split; [apply sample_reg; assumption|]. split; cbn [measure_sample t_psi t_counts].
  - rewrite S2, map_app. reflexivity.
  - rewrite S3. unfold counts. rewrite map_app, concat_app. cbn [map concat]. rewrite app_nil_r. destruct (z_count z); [reflexivity|rewrite app_nil_r; reflexivity].
Qed.
Lemma samples_has ks zs' : NoDup ks -> forall zs m, (forall z, In z zs' -> map fst (z_obs z) = ks) -> has ks zs m -> has ks (zs ++ zs') (fold_left measure_sample zs' m) /\ t_stats (fold_left measure_sample zs' m) = t_stats m.
Proof.
  intros N. induction zs' as [|z zs' IH]; intros zs m E H; cbn [fold_left]; [rewrite app_nil_r; auto|].
  destruct (IH (zs ++ [z]) (measure_sample m z)) as [A B]; [intros; apply E; right; assumption|apply sample_has; auto; apply E; left; reflexivity|]. rewrite <- app_assoc in A. split; [exact A|exact B].
Qed.
Lemma assign_find {V} k k' (v : V) l : find_key k (assign k' v l) = if String.eqb k k' then Some v else find_key k l.
Proof. induction l as [|[x w] l IH]; cbn. { reflexivity. } destruct (String.eqb_spec k' x) as [->|N]; cbn; [destruct (String.eqb_spec k x); reflexivity|]. rewrite IH. destruct (String.eqb_spec k x) as [->|]; [destruct (String.eqb_spec x k'); [congruence|reflexivity]|reflexivity]. Qed.
Lemma assign_all {V} (new : list (string * V)) : NoDup (map fst new) -> forall old k, find_key k (fold_left (fun l kv => assign (fst kv) (snd kv) l) new old) = match find_key k new with Some v => Some v | None => find_key k old end.
Proof.
  induction new as [|[x w] new IH]; intros N old k; cbn [fold_left find_key fst snd map] in *; [reflexivity|]. inversion N as [|? ? N1 N2]; subst. rewrite IH by exact N2. rewrite assign_find. destruct (String.eqb_spec k x) as [->|]; [|reflexivity].
  assert (F : find_key x new = None). { clear - N1. induction new as [|[y u] new IH]; cbn in *; [reflexivity|]. destruct (String.eqb_spec x y) as [->|]; [tauto|]. apply IH. tauto. } rewrite F. reflexivity.
Qed.
Lemma gather_keys_find ks ms l : gather_keys ks ms = Ok l -> map fst l = ks /\ forall k, In k ks -> exists s, find_key k l = Some s /\ gather_stats (map (fun m => match find_key k (t_samples m) with Some l => l | None => [] end) ms) = Ok s.
Proof.
  revert l. induction ks as [|x ks IH]; intros l E; cbn [gather_keys] in E; [injection E as <-; split; [reflexivity|intros k []]|].
  destruct (gather_stats _) as [s|] eqn:G; cbn [bind] in E; [|discriminate]. destruct (gather_keys ks ms) as [t|] eqn:T; cbn [bind] in E; [|discriminate]. injection E as <-. destruct (IH t eq_refl) as [K F]. split; [cbn; rewrite K; reflexivity|].
  intros k H. cbn [find_key]. destruct (String.eqb_spec k x) as [->|]; [eauto|]. destruct H as [->|H]; [congruence|auto].
Qed.
Lemma gather_keys_ok ks ms : (forall k, In k ks -> exists s, gather_stats (map (fun m => match find_key k (t_samples m) with Some l => l | None => [] end) ms) = Ok s) -> exists l, gather_keys ks ms = Ok l.
Proof.
  induction ks as [|x ks IH]; intros H; cbn [gather_keys]; [eauto|]. destruct (H x (or_introl eq_refl)) as [s ->]. destruct IH as [l ->]; [intros; apply H; right; assumption|]. cbn [bind]. eauto.
Qed.

Lemma combine_nth' {X Y} (l : list X) (l' : list Y) r x y : length l = length l' -> nth r (combine l l') (x, y) = (nth r l x, nth r l' y).
Proof. apply combine_nth. Qed.
Lemma gather_shape ms ms' : gather_statistic ms = Ok ms' -> length ms' = length ms /\
  (forall r, r < length ms -> t_samples (nth r ms' new_mst) = t_samples (nth r ms new_mst) /\ t_psi (nth r ms' new_mst) = t_psi (nth r ms new_mst) /\ t_counts (nth r ms' new_mst) = t_counts (nth r ms new_mst)) /\
  (ms <> [] -> exists s, gather_keys (map fst (t_samples (nth 0 ms new_mst))) ms = Ok s /\ t_stats (nth 0 ms' new_mst) = fold_left (fun l kv => assign (fst kv) (snd kv) l) s (t_stats (nth 0 ms new_mst)) /\
    forall r, 0 < r < length ms -> t_stats (nth r ms' new_mst) = fold_left (fun l kv => assign (fst kv) (snd kv) l) (map (fun kv => (fst kv, ([], []))) s) (t_stats (nth r ms new_mst))).
Proof.
  unfold gather_statistic. destruct ms as [|m0 rest]; [intros E; injection E as <-; split; [reflexivity|]; split; [intros r H; cbn in H; lia|congruence]|].
  destruct (forallb _ rest); [|discriminate]. destruct (gather_keys _ _) as [s|] eqn:G; cbn [bind]; [|discriminate]. intros E. injection E as <-. cbn [nth length]. rewrite map_length. split; [reflexivity|].
  assert (Q : forall r f, r < length rest -> nth r (map f rest) new_mst = f (nth r rest new_mst)). { intros r f H. rewrite (nth_indep _ new_mst (f new_mst)) by (rewrite map_length; exact H). apply map_nth. }
  split.
  - intros [|r] H; [repeat split|]. rewrite Q by lia. repeat split.
  - intros _. exists s. split; [first [exact G|reflexivity]|]. split; [reflexivity|]. intros [|r] H; [lia|]. rewrite Q by lia. reflexivity.
Qed.
Section Runs.
Variable metas : list (string * list nat).
Variable P : nat.
Variable ks : list string.
Variable len : string -> nat.
Hypothesis Hks : NoDup ks.
Hypothesis HP : 0 < P.
Notation measured := (measured metas P).
Lemma of_rank_snoc runs b r : of_rank (runs ++ [b]) r = of_rank runs r ++ nth r b [].
Proof. unfold of_rank. rewrite map_app, concat_app. cbn [map concat]. rewrite app_nil_r. reflexivity. Qed.
Lemma run_once batch ms runs ms' d : length ms = P -> length batch = P -> (forall r, r < P -> has ks (of_rank runs r) (nth r ms new_mst)) ->
  (forall r z, r < P -> In z (nth r batch []) -> map fst (z_obs z) = ks) -> execute_measure metas batch ms = Ok (ms', d) ->
  length ms' = P /\ (forall r, r < P -> has ks (of_rank (runs ++ [batch]) r) (nth r ms' new_mst) /\ t_finished (nth r ms' new_mst) = true) /\
  (exists s, gather_keys (match of_rank (runs ++ [batch]) 0 with [] => [] | _ => ks end) ms' = Ok s /\ t_stats (nth 0 ms' new_mst) = fold_left (fun l kv => assign (fst kv) (snd kv) l) s (t_stats (nth 0 ms new_mst)) /\
    forall r, 0 < r < P -> t_stats (nth r ms' new_mst) = fold_left (fun l kv => assign (fst kv) (snd kv) l) (map (fun kv => (fst kv, ([], []))) s) (t_stats (nth r ms new_mst))) /\
  dump_stats metas (t_stats (nth 0 ms' new_mst)) = Ok (d_stats d) /\ d_psi d = numbered (map z_psi (of_rank (runs ++ [batch]) 0)) /\ d_counts d = map (fun r => numbered (counts (of_rank (runs ++ [batch]) r))) (seq 0 P).
Proof.
  intros Lm Lb H E X. unfold execute_measure in X. set (sm := map _ (combine ms batch)) in X.
  assert (Ls : length sm = P) by (unfold sm; rewrite map_length, combine_length; lia).
  assert (S : forall r, r < P -> has ks (of_rank (runs ++ [batch]) r) (nth r sm new_mst) /\ t_stats (nth r sm new_mst) = t_stats (nth r ms new_mst)).
  { intros r R. unfold sm. rewrite (nth_indep _ new_mst ((fun mb => fold_left measure_sample (snd mb) (fst mb)) (new_mst, []))) by (rewrite map_length, combine_length; lia). rewrite (map_nth (fun mb => fold_left measure_sample (snd mb) (fst mb))), combine_nth by lia. cbn [fst snd]. rewrite of_rank_snoc. apply samples_has; [exact Hks|intros z Z; exact (E r z R Z)|exact (H r R)]. }
  clearbody sm. destruct (gather_statistic sm) as [gm|] eqn:G; cbn [bind] in X; [|discriminate]. destruct (gather_shape sm gm G) as (L & Sh & St). rewrite Ls in *.
  assert (HG : hd new_mst gm = nth 0 gm new_mst) by (destruct gm; reflexivity).
  replace (match gm with m :: _ => m | [] => new_mst end) with (nth 0 gm new_mst) in X by (destruct gm; reflexivity).
  destruct (dump_stats metas (t_stats (nth 0 gm new_mst))) as [f|] eqn:D; cbn [bind] in X; [|discriminate]. injection X as <- <-. cbn [d_stats d_psi d_counts].
  set (fin := fun m => mkMst (t_samples m) (t_psi m) (t_counts m) (t_stats m) true).
  assert (Nf : forall r, r < P -> nth r (map fin gm) new_mst = fin (nth r gm new_mst)). { intros r R. rewrite (nth_indep _ new_mst (fin new_mst)) by (rewrite map_length; lia). apply map_nth. }
  assert (HH : forall r, r < P -> has ks (of_rank (runs ++ [batch]) r) (nth r gm new_mst)). { intros r R. destruct (Sh r R) as (A1 & A2 & A3). destruct (S r R) as [(B1 & B2 & B3) _]. unfold has. rewrite A1, A2, A3. auto. }
  split; [rewrite map_length; exact L|]. split; [intros r R; rewrite Nf by exact R; split; [exact (HH r R)|reflexivity]|]. split; [|split; [|split]].
  - destruct St as (s & K & T0 & Tr); [destruct sm; [cbn in Ls; lia|discriminate]|]. exists s. split; [|split].
    + replace (match of_rank (runs ++ [batch]) 0 with [] => [] | _ => ks end) with (map fst (t_samples (nth 0 sm new_mst))).
      2:{ destruct (S 0 HP) as [(B1 & _) _]. rewrite B1. unfold reg_of. destruct (of_rank _ 0); [reflexivity|apply reg_keys]. }
      rewrite <- K. clear K T0 Tr.
      assert (Eq : forall k, map (fun m => match find_key k (t_samples m) with Some l => l | None => [] end) (map fin gm) = map (fun m => match find_key k (t_samples m) with Some l => l | None => [] end) sm).
      { intros k. rewrite map_map. apply (nth_ext _ _ [] []); [rewrite !map_length; lia|]. intros r R. rewrite map_length, L in R.
        set (h := fun m => match find_key k (t_samples m) with Some l => l | None => [] end).
        rewrite (nth_indep _ [] (h (fin new_mst))) by (rewrite map_length; lia). rewrite (map_nth (fun x => h (fin x))). rewrite (nth_indep (map h sm) [] (h new_mst)) by (rewrite map_length; lia). rewrite map_nth. unfold h. cbn [fin t_samples]. rewrite (proj1 (Sh r R)). reflexivity. }
      generalize (map fst (t_samples (nth 0 sm new_mst))). intros l. induction l as [|k l IH]; cbn [gather_keys]; [reflexivity|]. rewrite Eq, IH. reflexivity.
    + rewrite Nf by exact HP. cbn [fin t_stats]. rewrite T0. rewrite (proj2 (S 0 HP)). reflexivity.
    + intros r R. rewrite Nf by lia. cbn [fin t_stats]. rewrite (Tr r R). rewrite (proj2 (S r ltac:(lia))). reflexivity.
  - rewrite Nf by exact HP. exact D.
  - destruct (HH 0 HP) as (_ & -> & _). reflexivity.
  - apply (nth_ext _ _ [] []); [rewrite !map_length, seq_length; exact L|]. intros r R. rewrite map_length, L in R.
    rewrite (nth_indep _ [] ((fun m => numbered (t_counts m)) new_mst)) by (rewrite map_length; lia). rewrite (map_nth (fun m => numbered (t_counts m))). rewrite (nth_indep (map _ (seq 0 P)) [] ((fun r => numbered (counts (of_rank (runs ++ [batch]) r))) 0)) by (rewrite map_length, seq_length; lia). rewrite (map_nth (fun r => numbered (counts (of_rank (runs ++ [batch]) r)))). rewrite seq_nth by exact R. destruct (HH r R) as (_ & _ & ->). reflexivity.
Qed.
Notation same_names := (same_names P ks).
Lemma same_names_snoc runs b : same_names (runs ++ [b]) -> same_names runs /\ forall r z, r < P -> In z (nth r b []) -> map fst (z_obs z) = ks.
Proof. intros H. split; intros r z R Z; apply (H r z R); rewrite of_rank_snoc; apply in_or_app; auto. Qed.
Lemma all_has runs ms d : measured runs ms d -> same_names runs -> length ms = P /\ (forall r, r < P -> has ks (of_rank runs r) (nth r ms new_mst) /\ t_finished (nth r ms new_mst) = match runs with [] => false | _ => true end) /\
  match d with None => runs = [] | Some d => d_psi d = numbered (map z_psi (of_rank runs 0)) /\ d_counts d = map (fun r => numbered (counts (of_rank runs r))) (seq 0 P) /\ dump_stats metas (t_stats (nth 0 ms new_mst)) = Ok (d_stats d) end.
Proof.
  induction 1 as [|runs ms d batch ms' d' H IH Lb X]; intros S.
  - split; [apply repeat_length|]. split; [|reflexivity]. intros r R. rewrite nth_repeat. repeat split.
  - destruct (same_names_snoc _ _ S) as [S1 S2]. destruct (IH S1) as (L & A & _). destruct (run_once batch ms runs ms' d' L Lb (fun r R => proj1 (A r R)) S2 X) as (L' & A' & _ & D1 & D2 & D3). split; [exact L'|]. split; [|auto].
    intros r R. destruct (A' r R) as [B1 B2]. split; [exact B1|]. rewrite B2. destruct runs; reflexivity.
Qed.
Lemma uniform_names runs : uniform ks len P runs -> same_names runs.
Proof. intros [_ U] r z R Z. exact (proj1 (U r z R Z)). Qed.
Lemma uniform_counts runs : Forall (fun b => exists n, forall r, r < P -> length (nth r b []) = n) runs -> forall r, r < P -> length (of_rank runs r) = length (of_rank runs 0).
Proof.
  intros F r R. unfold of_rank. induction F as [|b runs [n B] F IH]; cbn [map concat]; [reflexivity|]. rewrite !app_length, (B r R), (B 0 HP). f_equal. exact IH.
Qed.
Lemma last_run runs ms d : measured runs ms d -> runs <> [] -> exists runs' batch ms0 d0 d1, runs = runs' ++ [batch] /\ measured runs' ms0 d0 /\ length batch = P /\ execute_measure metas batch ms0 = Ok (ms, d1) /\ d = Some d1.
Proof. intros H N. destruct H as [|runs' ms0 d0 batch ms' d' H L X]; [congruence|]. exists runs', batch, ms0, d0, d'. auto. Qed.
Lemma pooled runs ms d : measured runs ms d -> uniform ks len P runs -> of_rank runs 0 <> [] -> forall k, In k ks ->
  exists means errs, find_key k (t_stats (nth 0 ms new_mst)) = Some (means, errs) /\ length means = len k /\
    forall i, i < len k -> nth i means (RtoC 0) = average (fun z => nth i (values k z) (RtoC 0)) (of_all P runs).
Proof.
  intros M U N k K. assert (SN := uniform_names runs U). assert (HA := all_has runs ms d M SN). destruct HA as (Lm & A & _).
  destruct (last_run runs ms d M) as (runs' & batch & ms0 & d0 & d1 & -> & M0 & Lb & X & ->); [intros ->; apply N; reflexivity|].
  destruct (same_names_snoc _ _ SN) as [S1 S2]. destruct (all_has runs' ms0 d0 M0 S1) as (L0 & A0 & _). destruct (run_once batch ms0 runs' ms d1 L0 Lb (fun r R => proj1 (A0 r R)) S2 X) as (_ & _ & (s & G & T & _) & _).
  set (rs := runs' ++ [batch]) in *. destruct (of_rank rs 0) as [|z0 zs0] eqn:Z0; [congruence|]. destruct (gather_keys_find ks ms s G) as [GK GF]. destruct (GF k K) as (st & F1 & F2).
  assert (F : find_key k (t_stats (nth 0 ms new_mst)) = Some st). { rewrite T, assign_all by (rewrite GK; exact Hks). rewrite F1. reflexivity. }
  assert (LL : forall r, r < P -> length (of_rank rs r) = S (length zs0)). { intros r R. destruct U as [U _]. rewrite (uniform_counts rs U r R), Z0. reflexivity. }
  assert (E : map (fun m => match find_key k (t_samples m) with Some l => l | None => [] end) ms = map (fun r => map (values k) (of_rank rs r)) (seq 0 P)).
  { apply (nth_ext _ _ [] []); [rewrite !map_length, seq_length; exact Lm|]. intros r R. rewrite map_length, Lm in R. set (h := fun m => match find_key k (t_samples m) with Some l => l | None => [] end).
    rewrite (nth_indep _ [] (h new_mst)) by (rewrite map_length; lia). rewrite map_nth. rewrite (nth_indep (map _ (seq 0 P)) [] ((fun r => map (values k) (of_rank rs r)) 0)) by (rewrite map_length, seq_length; exact R). rewrite (map_nth (fun r => map (values k) (of_rank rs r))). rewrite seq_nth by exact R. cbn [Nat.add].
    unfold h. destruct (A r R) as [(-> & _) _]. unfold reg_of. specialize (LL r R). destruct (of_rank rs r) as [|z zs]; [discriminate|]. rewrite find_reg by exact K. reflexivity. }
  rewrite E in F2. destruct (pooled_value (map (fun r => map (values k) (of_rank rs r)) (seq 0 P)) (S (length zs0)) (len k)) as (means & errs & G2 & Ln & V).
  - lia.
  - destruct P; [lia|discriminate].
  - apply Forall_forall. intros l Hl. apply in_map_iff in Hl. destruct Hl as (r & <- & Hr). apply in_seq in Hr. rewrite map_length. apply LL. lia.
  - apply Forall_forall. intros l Hl. apply in_map_iff in Hl. destruct Hl as (r & <- & Hr). apply in_seq in Hr. apply Forall_forall. intros v Hv. apply in_map_iff in Hv. destruct Hv as (z & <- & Hz). destruct U as [_ U]. apply (proj2 (U r z ltac:(lia) Hz)). exact K.
  - rewrite F2 in G2. injection G2 as ->. exists means, errs. split; [exact F|]. split; [exact Ln|]. intros i Hi. rewrite V by exact Hi. unfold of_all. rewrite <- (map_map (of_rank rs) (map (values k))). rewrite <- concat_map. apply average_map.
Qed.
Lemma others_empty runs ms d : measured runs ms d -> same_names runs -> forall r, 0 < r < P -> forall k s, find_key k (t_stats (nth r ms new_mst)) = Some s -> s = ([], []).
Proof.
  induction 1 as [|runs ms d batch ms' d' H IH Lb X]; intros S r R k s.
  - rewrite nth_repeat. discriminate.
  - destruct (same_names_snoc _ _ S) as [S1 S2]. destruct (all_has runs ms d H S1) as (L & A & _). destruct (run_once batch ms runs ms' d' L Lb (fun r R => proj1 (A r R)) S2 X) as (_ & _ & (s' & G & _ & T) & _). rewrite (T r R).
    assert (Nd : NoDup (map fst (map (fun kv : string * (list C * list err) => (fst kv, (@nil C, @nil err))) s'))). { rewrite map_map. change (NoDup (map fst s')). destruct (gather_keys_find _ _ _ G) as [GK _]. change (NoDup (map fst s')). rewrite GK. destruct (of_rank _ 0); [constructor|exact Hks]. }
    rewrite assign_all by exact Nd. destruct (find_key k (map _ s')) as [v|] eqn:F.
    + intros E. injection E as <-. clear - F. induction s' as [|[x w] s' IH]; cbn in F; [discriminate|]. destruct (String.eqb k x); [injection F as <-; reflexivity|exact (IH F)].
    + apply (IH S1 r R).
Qed.
Lemma others_energy runs ms d : measured runs ms d -> same_names runs -> forall r, 0 < r < P -> output_energy (nth r ms new_mst) = (RtoC 0, Err 0) /\ energy_estimate (nth r ms new_mst) = None.
Proof.
  intros M S r R. assert (Q : query_energy (nth r ms new_mst) = None). { unfold query_energy. destruct (find_key _ _) as [[vals errs]|] eqn:F; [|reflexivity]. pose proof (others_empty _ _ _ M S r R _ _ F) as E. injection E as -> ->. reflexivity. }
  unfold output_energy, energy_estimate. rewrite Q. destruct (t_finished _); auto.
Qed.
Lemma nothing runs ms d : measured runs ms d -> same_names runs -> of_rank runs 0 = [] -> t_stats (nth 0 ms new_mst) = [].
Proof.
  induction 1 as [|runs ms d batch ms' d' H IH Lb X]; intros S Z.
  - rewrite nth_repeat. reflexivity.
  - destruct (same_names_snoc _ _ S) as [S1 S2]. destruct (all_has runs ms d H S1) as (L & A & _). destruct (run_once batch ms runs ms' d' L Lb (fun r R => proj1 (A r R)) S2 X) as (_ & _ & (s' & G & T & _) & _). rewrite Z in G. cbn [gather_keys] in G. injection G as <-. cbn [fold_left] in T. rewrite T. rewrite of_rank_snoc in Z. apply app_eq_nil in Z. apply IH; [exact S1|apply Z].
Qed.
Lemma no_energy runs ms d : measured runs ms d -> same_names runs -> of_rank runs 0 = [] -> runs <> [] -> t_finished (nth 0 ms new_mst) = true /\ energy_estimate (nth 0 ms new_mst) = None /\ output_energy (nth 0 ms new_mst) = (RtoC 0, Err 0).
Proof.
  intros M S Z N. pose proof (nothing _ _ _ M S Z) as T. destruct (all_has _ _ _ M S) as (_ & A & _). destruct (A 0 HP) as [_ F]. unfold energy_estimate, output_energy, query_energy. rewrite T. cbn [find_key]. split; [rewrite F; destruct runs; [congruence|reflexivity]|]. destruct (t_finished _); auto.
Qed.
Lemma energy_first (m : mst) means errs : find_key "energy"%string (t_stats m) = Some (means, errs) -> means <> [] -> fst (output_energy m) = nth 0 means (RtoC 0) /\ snd (output_energy m) = dumped_error errs 0 /\ (t_finished m = true -> energy_estimate m = Some (output_energy m)).
Proof.
  intros F N. unfold energy_estimate, output_energy, query_energy. rewrite F. destruct means as [|e means]; [congruence|]. cbn [fst snd nth]. split; [reflexivity|]. split; [destruct errs; reflexivity|]. intros ->. reflexivity.
Qed.
End Runs.
Lemma dump_found metas l f k s : dump_stats metas l = Ok f -> find_key k l = Some s -> exists x, dump_key (find_key k metas) s = Ok x /\ find_key k f = Some x.
Proof.
  revert f. induction l as [|[k' s'] l IH]; intros f E F; cbn [dump_stats find_key] in *; [discriminate|]. destruct (dump_key _ s') as [x|] eqn:D; cbn [bind] in E; [|discriminate]. destruct (dump_stats metas l) as [t|] eqn:T; cbn [bind] in E; [|discriminate]. injection E as <-. cbn [find_key].
  destruct (String.eqb_spec k k') as [->|]; [injection F as <-; eauto|apply IH; auto].
Qed.
Lemma nth_map_seq' {X} (f : nat -> X) n i x : i < n -> nth i (map f (seq 0 n)) x = f i.
Proof. intros H. rewrite (nth_indep _ x (f 0)) by (rewrite map_length, seq_length; exact H). rewrite map_nth, seq_nth by exact H. reflexivity. Qed.
Lemma matrix_file metas l f k means errs rows cols : dump_stats metas l = Ok f -> find_key k l = Some (means, errs) -> find_key k metas = Some [rows; cols] ->
  length means = rows * cols /\ exists M E, find_key k f = Some (Matrix M E) /\ length M = rows /\ length E = rows /\
    forall r, r < rows -> length (nth r M []) = cols /\ length (nth r E []) = cols /\ forall c, c < cols -> nth c (nth r M []) (RtoC 0) = nth (r * cols + c) means (RtoC 0) /\ nth c (nth r E []) (Err 0) = dumped_error errs (r * cols + c).
Proof.
  intros D F K. destruct (dump_found _ _ _ _ _ D F) as (x & X & Fx). rewrite K in X. unfold dump_key in X. cbn [fst snd] in X. destruct (existsb _ _); [discriminate|]. destruct (Nat.eqb_spec (fold_left Nat.mul [rows; cols] 1) (length means)) as [Q|]; [|discriminate]. cbn [fold_left] in Q. injection X as <-. split; [lia|].
  eexists. eexists. split; [exact Fx|]. rewrite !map_length, seq_length. split; [reflexivity|]. split; [reflexivity|]. intros r R. rewrite !nth_map_seq' by exact R. rewrite !map_length, seq_length. split; [reflexivity|]. split; [reflexivity|]. intros c Cc. rewrite !nth_map_seq' by exact Cc. split; reflexivity.
Qed.
Lemma flat_file metas l f k means errs : dump_stats metas l = Ok f -> find_key k l = Some (means, errs) -> find_key k metas = None ->
  exists F, find_key k f = Some (Flat F) /\ length F = length means /\ forall i, i < length means -> nth i F (0, RtoC 0, Err 0) = (i, nth i means (RtoC 0), dumped_error errs i).
Proof.
  intros D F K. destruct (dump_found _ _ _ _ _ D F) as (x & X & Fx). rewrite K in X. injection X as <-. cbn [fst snd] in Fx. eexists. split; [exact Fx|]. rewrite map_length, seq_length. split; [reflexivity|]. intros i Hi. rewrite nth_map_seq' by exact Hi. reflexivity.
Qed.
(** one observable *)
Definition energy_sample (x : R) : sample := mkSample [("energy"%string, [RtoC x])] (RtoC 1, 0%R) None.
Lemma uniform_demo (P : nat) (xs : list R) : uniform ["energy"%string] (fun _ => 1) P (map (fun x => repeat [energy_sample x] P) xs).
Proof.
  split.
  - apply Forall_forall. intros b Hb. apply in_map_iff in Hb. destruct Hb as (x & <- & _). exists 1. intros r R. rewrite (nth_indep _ [] [energy_sample x]) by (rewrite repeat_length; exact R). rewrite nth_repeat. reflexivity.
  - intros r z R Z. unfold of_rank in Z. apply in_concat in Z. destruct Z as (b & Hb & Z). rewrite map_map in Hb. apply in_map_iff in Hb. destruct Hb as (x & <- & _). rewrite (nth_indep _ [] [energy_sample x]) in Z by (rewrite repeat_length; exact R). rewrite nth_repeat in Z. destruct Z as [<-|[]]. split; [reflexivity|]. intros k [<-|[]]. reflexivity.
Qed.
Lemma demo_runs (x y : R) : exists ms d, measured [] 1 [[[energy_sample x]]; [[energy_sample y]]] ms d.
Proof.
  eexists. eexists. change [[[energy_sample x]]; [[energy_sample y]]] with (([] ++ [[[energy_sample x]]]) ++ [[[energy_sample y]]]). eapply measured_more; [eapply measured_more; [apply measured_none|reflexivity|]|reflexivity|]; reflexivity.
Qed.
Lemma pooled_twice : exists ms d, measured [] 1 [[[energy_sample 0]]; [[energy_sample 2]]] ms d /\ fst (output_energy (nth 0 ms new_mst)) = RtoC 1.
Proof.
  destruct (demo_runs 0 2) as (ms & d & M). exists ms, d. split; [exact M|].
  destruct (pooled [] 1 ["energy"%string] (fun _ => 1) ltac:(constructor; [intros []|constructor]) ltac:(lia) _ _ _ M (uniform_demo 1 [0%R; 2%R]) ltac:(discriminate) "energy"%string (or_introl eq_refl)) as (means & errs & F & L & V).
  destruct (energy_first (nth 0 ms new_mst) means errs F) as (E & _); [destruct means; discriminate|]. rewrite E, V by lia. change (of_all 1 [[[energy_sample 0]]; [[energy_sample 2]]]) with [energy_sample 0; energy_sample 2]. unfold average, sumC. cbn [fold_right length].
  change (values "energy"%string (energy_sample 0)) with [RtoC 0]. change (values "energy"%string (energy_sample 2)) with [RtoC 2]. cbn [nth]. replace (INR 2) with 2%R by (simpl; ring). unfold RtoC, Cmul, Cadd. cbn [fst snd]. f_equal; field.
Qed.
Lemma two_ranks (x : R) : exists ms d, measured [("energy"%string, [1; 1])] 2 [[[energy_sample x]; [energy_sample x]]] ms (Some d).
Proof. eexists. eexists. change [[[energy_sample x]; [energy_sample x]]] with ([] ++ [[[energy_sample x]; [energy_sample x]]]). eapply measured_more; [apply measured_none|reflexivity|]. reflexivity. Qed.
Lemma files metas P ks : NoDup ks -> 0 < P -> forall runs ms d, measured metas P runs ms d -> same_names P ks runs ->
  length ms = P /\ (forall r, r < P -> t_finished (nth r ms new_mst) = match runs with [] => false | _ => true end) /\
  match d with None => runs = [] | Some d => d_psi d = numbered (map z_psi (of_rank runs 0)) /\ d_counts d = map (fun r => numbered (counts (of_rank runs r))) (seq 0 P) /\ dump_stats metas (t_stats (nth 0 ms new_mst)) = Ok (d_stats d) end.
Proof. intros N H runs ms d M S. destruct (all_has metas P ks N H runs ms d M S) as (L & A & D). split; [exact L|]. split; [|exact D]. intros r R. exact (proj2 (A r R)). Qed.
Lemma one_call metas P (periodic trg_params trg bmps : bool) batch :
  (periodic <> trg_params \/ (if periodic then trg else bmps) = false -> monte_carlo_measure metas P periodic trg_params trg bmps batch = Fail Throw) /\
  (forall l, length batch = P -> monte_carlo_measure metas P periodic trg_params trg bmps batch = Ok l -> periodic = trg_params /\ (if periodic then trg else bmps) = true /\
   exists ms d, measured metas P [batch] ms d /\ l = map (fun m => (output_energy m, t_stats m)) ms).
Proof.
  unfold monte_carlo_measure, ExecModel.cross_check. split.
  - destruct periodic, trg_params; cbn [negb bind]; intros [H|H]; try reflexivity; try congruence; rewrite H; reflexivity.
  - intros l L. destruct periodic, trg_params; cbn [negb bind]; try discriminate.
    + destruct trg; cbn [bind]; [|discriminate]. destruct (execute_measure _ _ _) as [[ms d]|] eqn:E; cbn [bind fst]; [|discriminate]. intros Q. injection Q as <-. split; [reflexivity|]. split; [reflexivity|]. exists ms, (Some d). split; [|reflexivity]. exact (measured_more metas P [] _ _ batch ms d (measured_none metas P) L E).
    + destruct bmps; cbn [bind]; [|discriminate]. destruct (execute_measure _ _ _) as [[ms d]|] eqn:E; cbn [bind fst]; [|discriminate]. intros Q. injection Q as <-. split; [reflexivity|]. split; [reflexivity|]. exists ms, (Some d). split; [|reflexivity]. exact (measured_more metas P [] _ _ batch ms d (measured_none metas P) L E).
Qed.
Lemma bad_shape metas l k means errs d dims : find_key k l = Some (means, errs) -> find_key k metas = Some (d :: dims) ->
  In 0 (d :: dims) \/ fold_left Nat.mul (d :: dims) 1 <> length means -> exists e, dump_stats metas l = Fail e.
Proof.
  intros F M B. induction l as [|[k' [v e]] l IH]; [discriminate|]. cbn [find_key] in F. cbn [dump_stats]. destruct (String.eqb k k') eqn:Q.
  - apply String.eqb_eq in Q. subst k'. injection F as -> ->. rewrite M. exists Throw. unfold dump_key. cbn [fst snd].
    destruct (existsb (fun d0 => d0 =? 0) (d :: dims)) eqn:X; [reflexivity|]. destruct B as [B|B].
    + exfalso. assert (Y : existsb (fun d0 => d0 =? 0) (d :: dims) = true) by (apply existsb_exists; exists 0; split; [exact B|reflexivity]). congruence.
    + apply Nat.eqb_neq in B. rewrite B. reflexivity.
  - destruct (dump_key _ _) as [f|x]; cbn [bind]; [|exists x; reflexivity]. destruct (IH F) as (x & ->). exists x. reflexivity.
Qed.
Lemma dump_throws metas l : forall e, dump_stats metas l = Fail e -> e = Throw.
Proof.
  induction l as [|[k [v w]] l IH]; cbn [dump_stats]; intros e; [discriminate|]. destruct (dump_key (find_key k metas) (v, w)) as [f|x] eqn:D; cbn [bind].
  - destruct (dump_stats metas l) as [t|y]; cbn [bind]; [discriminate|]. intros E. injection E as <-. exact (IH y eq_refl).
  - intros E. injection E as <-. revert D. unfold dump_key. destruct (find_key k metas) as [[|d dims]|]; try discriminate. destruct (existsb _ _); [congruence|]. destruct (_ =? _); [|congruence].
    destruct dims as [|? [|? ?]]; discriminate.
Qed.
Lemma bad_shape_throws metas l k means errs d dims : find_key k l = Some (means, errs) -> find_key k metas = Some (d :: dims) ->
  In 0 (d :: dims) \/ fold_left Nat.mul (d :: dims) 1 <> length means -> dump_stats metas l = Fail Throw.
Proof. intros F M B. destruct (bad_shape metas l k means errs d dims F M B) as (e & E). rewrite E. rewrite (dump_throws metas l e E). reflexivity. Qed.
