(** Stationarity of the updaters as Markov chains. *)
From Coq Require Import List Arith Lia Bool Permutation Reals Lra.
From Verif Require Import Base ContractorModel SweepModel SweepSpec UpdaterModel UpdaterSpec SuwaTodoProofs UpdaterProofs.
Import ListNotations.
Local Open Scope nat_scope.

(** ** Metropolis *)
Section Metropolis.
Local Open Scope R_scope.
Lemma accept_prob_ge pa pb : 0 <= pa <= pb -> accept_prob pa pb = 1.
Proof.
  intros H. unfold accept_prob. destruct (Req_EM_T pa 0); [reflexivity|]. apply Rmin_left.
  apply (Rmult_le_reg_r (pa * pa)); [nra|]. unfold Rdiv. rewrite Rmult_assoc, Rinv_l by nra. nra.
Qed.
Lemma accept_prob_lt pa pb : 0 <= pb < pa -> accept_prob pa pb = (pb / pa) * (pb / pa).
Proof.
  intros H. unfold accept_prob. destruct (Req_EM_T pa 0); [lra|].
  rewrite Rmin_right; [field; lra|].
  apply (Rmult_le_reg_r (pa * pa)); [nra|]. unfold Rdiv. rewrite Rmult_assoc, Rinv_l by nra. nra.
Qed.
Lemma accept_prob_bounds pa pb : 0 <= pa -> 0 <= pb -> 0 <= accept_prob pa pb <= 1.
Proof.
  intros Ha Hb. destruct (Rle_dec pa pb).
  - rewrite accept_prob_ge by lra. lra.
  - rewrite accept_prob_lt by lra. assert (0 <= pb / pa <= 1).
    { split; [apply Rmult_le_pos; [lra|]; left; apply Rinv_0_lt_compat; lra|].
      apply (Rmult_le_reg_r pa); [lra|]. unfold Rdiv. rewrite Rmult_assoc, Rinv_l by lra. lra. }
    split; nra.
Qed.
Lemma metropolis_iff pa pb u : 0 <= pa -> 0 <= pb -> 0 <= u < 1 ->
  metropolis pa pb u = true <-> u < accept_prob pa pb.
Proof.
  intros Ha Hb Hu. unfold metropolis. destruct (Rle_dec pa pb) as [L|L].
  - rewrite accept_prob_ge by lra. split; [lra|reflexivity].
  - rewrite accept_prob_lt by lra. cbv zeta. destruct (Rlt_dec u (pb / pa * (pb / pa))); split; intros; auto; try discriminate; contradiction.
Qed.
Lemma detailed_balance pa pb : 0 <= pa -> 0 <= pb ->
  pa * pa * accept_prob pa pb = pb * pb * accept_prob pb pa.
Proof.
  intros Ha Hb. destruct (Rtotal_order pa pb) as [H|[<-|H]]; [| reflexivity |].
  - rewrite (accept_prob_ge pa pb), (accept_prob_lt pb pa) by lra. field. lra.
  - rewrite (accept_prob_lt pa pb), (accept_prob_ge pb pa) by lra. field. lra.
Qed.
Lemma metropolis_accept_spec {A Rng} (abs : A -> R) (draw : Rng -> R * Rng) a b g :
  (forall x, 0 <= abs x) -> 0 <= fst (draw g) < 1 ->
  (fst (metropolis_accept abs draw a b g) = true <-> fst (draw g) < accept_prob (abs a) (abs b)) /\
  snd (metropolis_accept abs draw a b g) = if Rle_dec (abs a) (abs b) then g else snd (draw g).
Proof.
  intros Habs Hu. unfold metropolis_accept. destruct (Rle_dec (abs a) (abs b)) as [L|L].
  - rewrite accept_prob_ge by (split; auto). simpl. split; [|reflexivity]. split; [lra|reflexivity].
  - destruct (draw g) as [u g']. simpl in *. split; [|reflexivity]. apply metropolis_iff; auto.
Qed.
End Metropolis.

(** ** Finite sums *)
Section Sums.
Context {S : Type} (dec : forall x y : S, {x = y} + {x <> y}).
Local Open Scope R_scope.
Lemma sumR_ext (f g : S -> R) l : (forall s, In s l -> f s = g s) -> sumR f l = sumR g l.
Proof.
  induction l as [|a l IH]; intros H; simpl; [reflexivity|].
  rewrite (H a) by (left; reflexivity). rewrite IH; [reflexivity|]. intros; apply H; right; assumption.
Qed.
Lemma sumR_zero (f : S -> R) l : (forall s, In s l -> f s = 0) -> sumR f l = 0.
Proof.
  induction l as [|a l IH]; intros H; simpl; [reflexivity|].
  rewrite (H a) by (left; reflexivity). rewrite IH; [lra|]. intros; apply H; right; assumption.
Qed.
Lemma sumR_perm (f : S -> R) l l' : Permutation l l' -> sumR f l = sumR f l'.
Proof. induction 1; simpl; lra. Qed.
Lemma sumR_app (f : S -> R) l l' : sumR f (l ++ l') = sumR f l + sumR f l'.
Proof. induction l; simpl; lra. Qed.
Lemma sumR_sub (f : S -> R) l ss : NoDup l -> NoDup ss -> (forall s, In s ss -> In s l) ->
  (forall s, In s l -> ~ In s ss -> f s = 0) -> sumR f l = sumR f ss.
Proof.
  intros Hl Hs Hin Hz. destruct (total_split dec l ss Hl Hs Hin) as (rest & HP & Hr).
  rewrite (sumR_perm f _ _ HP), sumR_app, (sumR_zero f rest); [lra|].
  intros s H. apply Hz; [|apply Hr, H]. apply (Permutation_in s (Permutation_sym HP)), in_or_app. right. exact H.
Qed.
End Sums.

(** ** Exchange moves *)
Section Exchange.
Context {S : Type} (eqb : S -> S -> bool) (eqb_ok : forall x y, eqb x y = true <-> x = y).
Context (states : list S) (Hnd : NoDup states).
Local Open Scope R_scope.
Lemma eqb_dec : forall x y : S, {x = y} + {x <> y}.
Proof.
  intros x y. destruct (eqb x y) eqn:E; [left; apply eqb_ok, E|right].
  intros H. apply eqb_ok in H. congruence.
Defined.
Lemma eqb_no x y : x <> y -> eqb x y = false.
Proof. intros H. destruct (eqb x y) eqn:E; [|reflexivity]. apply eqb_ok in E. contradiction. Qed.
Lemma eqb_yes x : eqb x x = true.
Proof. apply eqb_ok. reflexivity. Qed.

Lemma exchange_stationary (swap : S -> S) (p : S -> R) s' :
  (forall s, In s states -> swap (swap s) = s) -> (forall s, In s states -> In (swap s) states) ->
  (forall s, 0 <= p s) -> In s' states ->
  push states (fun s => p s * p s) (exchange_K eqb swap (fun s t => accept_prob (p s) (p t))) s' = p s' * p s'.
Proof.
  intros Hinv Hcl Hp Hin. unfold push.
  destruct (eqb_dec (swap s') s') as [E|E].
  - rewrite (sumR_sub eqb_dec _ states [s'] Hnd).
    + simpl. unfold exchange_K. rewrite E, !eqb_yes. lra.
    + repeat constructor. intros [].
    + intros s [<-|[]]. exact Hin.
    + intros s Hs Hne. simpl in Hne. assert (s <> s') by (intros ->; tauto).
      unfold exchange_K. rewrite (eqb_no s s') by auto. destruct (eqb (swap s) s); [lra|].
      rewrite eqb_no; [lra|]. intros Hsw. apply H. rewrite <- (Hinv s Hs), Hsw. exact E.
  - rewrite (sumR_sub eqb_dec _ states [s'; swap s'] Hnd).
    + simpl. unfold exchange_K. rewrite (Hinv s' Hin), !eqb_yes.
      rewrite (eqb_no (swap s') s') by exact E. rewrite (eqb_no s' (swap s')) by congruence.
      pose proof (detailed_balance (p s') (p (swap s')) (Hp _) (Hp _)). lra.
    + repeat constructor; simpl; [intros [H|[]]; congruence | intros []].
    + intros s [<-|[<-|[]]]; auto.
    + intros s Hs Hne. simpl in Hne. assert (s <> s') by (intros ->; tauto).
      unfold exchange_K. rewrite (eqb_no s s') by auto. destruct (eqb (swap s) s); [lra|].
      rewrite eqb_no; [lra|]. intros Hsw. apply Hne. right. left. rewrite <- Hsw. apply Hinv, Hs.
Qed.
(** Rows of the transition matrix sum to one. *)
Lemma exchange_stochastic (swap : S -> S) (acc : S -> S -> R) s :
  (forall s, In s states -> In (swap s) states) -> In s states ->
  sumR (exchange_K eqb swap acc s) states = 1.
Proof.
  intros Hcl Hin. destruct (eqb_dec (swap s) s) as [E|E].
  - rewrite (sumR_sub eqb_dec _ states [s] Hnd).
    + simpl. unfold exchange_K. rewrite E, !eqb_yes. lra.
    + repeat constructor. intros [].
    + intros x [<-|[]]. exact Hin.
    + intros x _ Hne. unfold exchange_K. rewrite E, eqb_yes. rewrite eqb_no; [reflexivity|]. simpl in Hne. tauto.
  - rewrite (sumR_sub eqb_dec _ states [s; swap s] Hnd).
    + simpl. unfold exchange_K. rewrite (eqb_no (swap s) s), (eqb_no s (swap s)), !eqb_yes by congruence. lra.
    + repeat constructor; simpl; [intros [H|[]]; congruence | intros []].
    + intros x [<-|[<-|[]]]; auto.
    + intros x _ Hne. simpl in Hne. unfold exchange_K. rewrite (eqb_no (swap s) s) by exact E.
      rewrite !eqb_no by tauto. reflexivity.
Qed.
Lemma push_ext (mu nu : S -> R) K s' : (forall s, In s states -> mu s = nu s) -> push states mu K s' = push states nu K s'.
Proof. intros H. unfold push. apply sumR_ext. intros s Hs. rewrite H; auto. Qed.
Lemma pushes_stationary (mu : S -> R) Ks :
  (forall K, In K Ks -> forall s', In s' states -> push states mu K s' = mu s') ->
  forall s', In s' states -> pushes states mu Ks s' = mu s'.
Proof.
  intros H. unfold pushes.
  assert (G : forall nu, (forall s, In s states -> nu s = mu s) -> forall s', In s' states -> fold_left (push states) Ks nu s' = mu s').
  { induction Ks as [|K Ks IH]; intros nu Hnu s' Hs'; simpl; [auto|].
    apply IH; [intros; apply H; [right|]; assumption| |exact Hs'].
    intros s Hs. rewrite (push_ext nu mu) by exact Hnu. apply H; [left; reflexivity|exact Hs]. }
  apply G. reflexivity.
Qed.
End Exchange.

(** ** Configurations as lists *)
Lemma all_configs_in dim n l : In l (all_configs dim n) <-> length l = n /\ Forall (fun x => x < dim) l.
Proof.
  revert l. induction n as [|n IH]; intros l; simpl.
  - split; [intros [<-|[]]; auto|]. intros [H _]. destruct l; [auto|discriminate].
  - rewrite in_flat_map. split.
    + intros (t & Ht & H). apply IH in Ht. apply in_map_iff in H. destruct H as (x & <- & Hx). apply in_seq in Hx.
      simpl. destruct Ht as [<- Ht]. split; [reflexivity|]. constructor; [lia|exact Ht].
    + intros [Hl HF]. destruct l as [|x t]; [discriminate|]. inversion HF; subst. exists t. split.
      * apply IH. split; [simpl in Hl; lia|assumption].
      * apply in_map_iff. exists x. split; [reflexivity|]. apply in_seq. lia.
Qed.
Lemma all_configs_nodup dim n : NoDup (all_configs dim n).
Proof.
  induction n as [|n IH]; simpl; [repeat constructor; intros []|].
  apply NoDup_flat_map; [exact IH| |].
  - intros t _. apply FinFun.Injective_map_NoDup; [|apply seq_NoDup]. intros a b H. congruence.
  - intros x y z _ _ Hx Hy. apply in_map_iff in Hx. destruct Hx as (a & <- & _).
    apply in_map_iff in Hy. destruct Hy as (b & E & _). congruence.
Qed.
Definition label (i j k : nat) : nat := if k =? i then j else if k =? j then i else k.
Lemma label_invol i j k : label i j (label i j k) = k.
Proof.
  unfold label. destruct (k =? i) eqn:E1.
  - apply Nat.eqb_eq in E1. subst. destruct (j =? i) eqn:E2; [apply Nat.eqb_eq in E2; auto|].
    rewrite Nat.eqb_refl. reflexivity.
  - destruct (k =? j) eqn:E2.
    + apply Nat.eqb_eq in E2. subst. rewrite Nat.eqb_refl. reflexivity.
    + rewrite E1, E2. reflexivity.
Qed.
Lemma label_lt i j k n : i < n -> j < n -> k < n -> label i j k < n.
Proof. unfold label. intros. destruct (k =? i); [lia|]. destruct (k =? j); lia. Qed.
Lemma exchange_length i j l : length (exchange i j l) = length l.
Proof. unfold exchange. rewrite map_length, seq_length. reflexivity. Qed.
Lemma exchange_nth i j l k : k < length l -> nth k (exchange i j l) 0 = nth (label i j k) l 0.
Proof. intros H. unfold exchange. rewrite nth_map_seq by exact H. reflexivity. Qed.
Lemma exchange_invol i j l : i < length l -> j < length l -> exchange i j (exchange i j l) = l.
Proof.
  intros Hi Hj. apply (nth_ext _ _ 0 0); rewrite !exchange_length; [reflexivity|].
  intros k Hk. rewrite !exchange_nth; rewrite ?exchange_length; auto using label_lt.
  rewrite label_invol. reflexivity.
Qed.
Lemma exchange_config dim n i j l : i < n -> j < n -> In l (all_configs dim n) -> In (exchange i j l) (all_configs dim n).
Proof.
  intros Hi Hj H. apply all_configs_in in H. destruct H as [Hl HF]. apply all_configs_in.
  rewrite exchange_length. split; [exact Hl|]. apply Forall_forall. intros x Hx.
  apply (In_nth _ _ 0) in Hx. destruct Hx as (k & Hk & <-). rewrite exchange_length in Hk.
  rewrite exchange_nth by exact Hk. rewrite Forall_forall in HF. apply HF, nth_In. rewrite Hl. apply label_lt; lia.
Qed.
Lemma exchange_sweep_stationary dim n (p : list nat -> R) bonds :
  (forall l, (0 <= p l)%R) -> Forall (fun b => fst b < n /\ snd b < n) bonds ->
  forall l', In l' (all_configs dim n) ->
  pushes (all_configs dim n) (fun l => p l * p l)%R
    (map (fun b => exchange_K list_eqb (exchange (fst b) (snd b)) (fun l t => accept_prob (p l) (p t))) bonds) l'
  = (p l' * p l')%R.
Proof.
  intros Hp HB l' Hl'.
  apply (pushes_stationary (all_configs dim n) (fun l => (p l * p l)%R)); [|exact Hl'].
  intros K HK s' Hs'. apply in_map_iff in HK. destruct HK as (b & <- & Hb).
  rewrite Forall_forall in HB. destruct (HB b Hb) as [H1 H2].
  apply exchange_stationary; auto using list_eqb_true, all_configs_nodup, exchange_config.
  intros s Hs. apply all_configs_in in Hs. apply exchange_invol; lia.
Qed.

(** Positions of sites in the list. *)
Lemma all_sites_nth rows cols k : k < rows * cols -> nth k (all_sites rows cols) (0, 0) = (k / cols, k mod cols).
Proof.
  unfold all_sites. intros Hk. assert (Hc : 0 < cols) by nia.
  assert (G : forall m a, k < m * cols -> nth k (list_prod (seq a m) (seq 0 cols)) (0, 0) = (a + k / cols, k mod cols)).
  { clear Hk. revert k. intros k m. revert k. induction m as [|m IH]; intros k a Hk; [lia|].
    cbn [seq list_prod]. destruct (lt_dec k cols) as [L|L].
    - rewrite app_nth1 by (rewrite map_length, seq_length; lia).
      rewrite (nth_indep _ _ (a, 0)) by (rewrite map_length, seq_length; lia).
      rewrite (map_nth (fun y => (a, y))). rewrite seq_nth by lia.
      rewrite Nat.div_small, Nat.mod_small by lia. f_equal. lia.
    - rewrite app_nth2 by (rewrite map_length, seq_length; lia). rewrite map_length, seq_length.
      rewrite IH by nia. replace k with ((k - cols) + 1 * cols) at 3 4 by lia.
      rewrite Nat.div_add, Nat.mod_add by lia. f_equal. lia. }
  rewrite G by exact Hk. reflexivity.
Qed.
Lemma all_sites_length rows cols : length (all_sites rows cols) = rows * cols.
Proof. pose proof (prod_length (seq 0 rows) (seq 0 cols)) as H. rewrite !seq_length in H. exact H. Qed.
Lemma flat_length rows cols c : length (flat rows cols c) = rows * cols.
Proof. unfold flat. rewrite map_length. exact (all_sites_length rows cols). Qed.
Lemma flat_nth rows cols c k : k < rows * cols -> nth k (flat rows cols c) 0 = c (k / cols) (k mod cols).
Proof.
  intros H. unfold flat. rewrite (nth_indep _ 0 ((fun s : site => c (fst s) (snd s)) (0, 0))) by (rewrite map_length, all_sites_length; exact H).
  rewrite (map_nth (fun s : site => c (fst s) (snd s))). pose proof (all_sites_nth rows cols k H) as E. rewrite E. reflexivity.
Qed.
Definition pos_of (cols : nat) (s : site) : nat := fst s * cols + snd s.
Lemma pos_of_lt rows cols s : fst s < rows -> snd s < cols -> pos_of cols s < rows * cols.
Proof. unfold pos_of. nia. Qed.
Lemma pos_of_site cols k : 0 < cols -> pos_of cols (k / cols, k mod cols) = k.
Proof. intros H. unfold pos_of. simpl. rewrite (Nat.div_mod_eq k cols) at 3. lia. Qed.
Lemma site_of_pos cols s : snd s < cols -> (pos_of cols s / cols, pos_of cols s mod cols) = s.
Proof.
  intros H. unfold pos_of. destruct s as [r c]; simpl in *.
  rewrite Nat.div_add_l by lia. rewrite (Nat.div_small c) by lia.
  rewrite (Nat.add_comm _ c), Nat.mod_add by lia. rewrite Nat.mod_small by lia. f_equal. lia.
Qed.
Lemma flat_pos rows cols c s : fst s < rows -> snd s < cols -> nth (pos_of cols s) (flat rows cols c) 0 = c (fst s) (snd s).
Proof.
  intros Hr Hc. rewrite flat_nth by (apply pos_of_lt; auto).
  pose proof (site_of_pos cols s Hc) as E.
  assert (E1 := f_equal fst E). assert (E2 := f_equal snd E). cbn [fst snd] in E1, E2. rewrite E1, E2. reflexivity.
Qed.
(** Exchanging two sites of a lattice exchanges the two entries of the list. *)
Lemma flat_exchange rows cols c s1 s2 : fst s1 < rows -> snd s1 < cols -> fst s2 < rows -> snd s2 < cols -> s1 <> s2 ->
  flat rows cols (set_sites c (combine [s1; s2] [c (fst s2) (snd s2); c (fst s1) (snd s1)]))
  = exchange (pos_of cols s1) (pos_of cols s2) (flat rows cols c).
Proof.
  intros R1 C1 R2 C2 Hne. apply (nth_ext _ _ 0 0).
  - rewrite exchange_length, !flat_length. reflexivity.
  - intros k Hk. rewrite flat_length in Hk. rewrite exchange_nth by (rewrite flat_length; exact Hk).
    rewrite flat_nth by exact Hk. assert (Hc : 0 < cols) by lia.
    unfold set_sites, upd2. simpl. unfold label.
    pose proof (pos_of_site cols k Hc) as Ek.
    destruct (site_eqb (k / cols, k mod cols) s2) eqn:E2.
    + apply site_eqb_true in E2. rewrite E2 in Ek.
      assert (N1 : k =? pos_of cols s1 = false).
      { apply Nat.eqb_neq. intros H. apply Hne. rewrite <- (site_of_pos cols s1 C1), <- H, E2. reflexivity. }
      rewrite N1, <- Ek, Nat.eqb_refl. rewrite flat_pos by auto. reflexivity.
    + assert (N2 : k =? pos_of cols s2 = false).
      { apply Nat.eqb_neq. intros ->. rewrite site_of_pos in E2 by auto.
        assert (site_eqb s2 s2 = true) by (apply site_eqb_true; reflexivity). congruence. }
      destruct (site_eqb (k / cols, k mod cols) s1) eqn:E1.
      * apply site_eqb_true in E1. rewrite E1 in Ek. rewrite <- Ek at 1. rewrite Nat.eqb_refl. rewrite flat_pos by auto. reflexivity.
      * assert (N1 : k =? pos_of cols s1 = false).
        { apply Nat.eqb_neq. intros ->. rewrite site_of_pos in E1 by auto.
          assert (site_eqb s1 s1 = true) by (apply site_eqb_true; reflexivity). congruence. }
        rewrite N1, N2, flat_nth by exact Hk. reflexivity.
Qed.
