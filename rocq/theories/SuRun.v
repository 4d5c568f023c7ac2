(** The passes of the loop update and the stopping rule. *)
From Coq Require Import List Arith Lia Bool Reals Lra Permutation.
From Verif Require Import Base Rsum UpdaterSpec EnergySpec EnergyMain HistoryProofs OptModel OptProofs LbModel LbProofs SuModel SuSpec.
Import ListNotations.
Local Open Scope nat_scope.

(** *** Passes *)
Lemma evens_in s n x : s < 2 -> (In x (evens s n) <-> s <= x < n /\ x mod 2 = s).
Proof.
  intros Hs. unfold evens. rewrite in_map_iff. split.
  - intros (k & <- & Hk). apply in_seq in Hk. pose proof (Nat.div_mod (n + 1 - s) 2 ltac:(lia)) as D. pose proof (Nat.mod_upper_bound (n + 1 - s) 2 ltac:(lia)) as B.
    split; [lia|]. replace (s + 2 * k) with (s + k * 2) by lia. rewrite Nat.mod_add by lia. apply Nat.mod_small. exact Hs.
  - intros (Hx & Hm). pose proof (Nat.div_mod x 2 ltac:(lia)) as D. exists (x / 2). split; [lia|]. apply in_seq. split; [lia|].
    cbn [plus]. apply Nat.div_le_lower_bound; lia.
Qed.
Lemma evens_nodup s n : NoDup (evens s n).
Proof. apply FinFun.Injective_map_NoDup; [intros a b; lia|apply seq_NoDup]. Qed.
Section P.
Variables (rows cols : nat) (pbc : bool).
Lemma loop_pass_in sc sr r c : sc < 2 -> sr < 2 ->
  (In (r, c) (loop_pass rows cols pbc sc sr) <-> (r < ver_limit rows pbc /\ r mod 2 = sr) /\ (c < hor_limit cols pbc /\ c mod 2 = sc)).
Proof.
  intros Hc Hr. unfold loop_pass. rewrite in_flat_map. split.
  - intros (c' & Hc' & H). apply in_map_iff in H. destruct H as (r' & E & Hr'). inversion E; subst. apply evens_in in Hc', Hr'; try assumption. lia.
  - intros (Hr' & Hc'). exists c. pose proof (Nat.div_mod c 2 ltac:(lia)). pose proof (Nat.div_mod r 2 ltac:(lia)). split; [apply evens_in; lia|]. apply in_map_iff. exists r. split; [reflexivity|]. apply evens_in; lia.
Qed.
Lemma loop_pass_nodup sc sr : NoDup (loop_pass rows cols pbc sc sr).
Proof.
  unfold loop_pass. assert (G : forall l : list nat, NoDup l -> NoDup (flat_map (fun c => map (fun r => (r, c)) (evens sr (ver_limit rows pbc))) l)).
  { induction 1 as [|x l Hx Hl IH]; [constructor|]. cbn [flat_map]. apply NoDup_app_intro.
    - apply FinFun.Injective_map_NoDup; [intros a b E; congruence|apply evens_nodup].
    - exact IH.
    - intros p Ha Hb. apply in_map_iff in Ha. destruct Ha as (r & <- & _). apply in_flat_map in Hb. destruct Hb as (c & Hc & Hb).
      apply in_map_iff in Hb. destruct Hb as (r' & E & _). inversion E; subst. contradiction. }
  apply G, evens_nodup.
Qed.
Lemma mod2 x : x mod 2 = 0 \/ x mod 2 = 1.
Proof. pose proof (Nat.mod_upper_bound x 2). lia. Qed.
Lemma plaquettes_in r c : In (r, c) (plaquettes rows cols pbc) <-> r < ver_limit rows pbc /\ c < hor_limit cols pbc.
Proof.
  etransitivity; [exact (in_prod_iff (seq 0 (ver_limit rows pbc)) (seq 0 (hor_limit cols pbc)) r c)|]. rewrite !in_seq. lia.
Qed.
Lemma passes_cover : Permutation (concat (loop_passes rows cols pbc)) (plaquettes rows cols pbc).
Proof.
  unfold loop_passes. cbn [concat]. apply NoDup_Permutation.
  - repeat (apply NoDup_app_intro; [apply loop_pass_nodup| |]); try (constructor);
    intros [r c] Ha Hb; rewrite ?in_app_iff, ?loop_pass_in in * by lia; cbn [In] in *; lia.
  - apply nodup_prod; apply seq_NoDup.
  - intros [r c]. rewrite plaquettes_in, !in_app_iff, !loop_pass_in by lia. unfold ver_limit, hor_limit. cbn [In].
    pose proof (mod2 r). pose proof (mod2 c). destruct pbc; split; intros; lia.
Qed.
Lemma loop_corners p : In p (plaquettes rows cols pbc) -> loop_sites rows cols pbc p = corners_of rows cols pbc p.
Proof.
  destruct p as [r c]. rewrite plaquettes_in. unfold ver_limit, hor_limit, loop_sites, corners_of, lv_rows, lh_cols, right_of, below. cbn [fst snd].
  destruct pbc; intros H; [reflexivity|]. rewrite !Nat.mod_small by lia. reflexivity.
Qed.
Lemma step_same n a b : n mod 2 = 0 -> a < n -> b < n -> a mod 2 = b mod 2 ->
  (a = b \/ (a + 1) mod n = b \/ a = (b + 1) mod n \/ (a + 1) mod n = (b + 1) mod n) -> a = b.
Proof.
  intros Hn Ha Hb Hab. pose proof (Nat.div_mod n 2 ltac:(lia)). pose proof (Nat.div_mod a 2 ltac:(lia)). pose proof (Nat.div_mod b 2 ltac:(lia)).
  assert (M : forall x, x < n -> (x + 1) mod n = x + 1 /\ x + 1 < n \/ (x + 1) mod n = 0 /\ x + 1 = n).
  { intros x Hx. destruct (Nat.eq_dec (x + 1) n) as [E|E]; [right; rewrite E, Nat.mod_same by lia; lia|left; rewrite Nat.mod_small by lia; lia]. }
  destruct (M a Ha) as [[E1 L1]|[E1 L1]], (M b Hb) as [[E2 L2]|[E2 L2]]; rewrite E1, E2; intros D; try lia.
Qed.
Lemma pass_disjoint l p q s : (pbc = true -> rows mod 2 = 0 /\ cols mod 2 = 0) ->
  In l (loop_passes rows cols pbc) -> In p l -> In q l -> In s (corners_of rows cols pbc p) -> In s (corners_of rows cols pbc q) -> p = q.
Proof.
  intros Even Hl Hp Hq. destruct p as [r c], q as [r' c'].
  assert (X : exists sc sr, sc < 2 /\ sr < 2 /\ l = loop_pass rows cols pbc sc sr).
  { unfold loop_passes in Hl. cbn [In] in Hl. destruct Hl as [<-|[<-|[<-|[<-|[]]]]]; [exists 0, 0|exists 0, 1|exists 1, 0|exists 1, 1]; repeat split; lia. }
  destruct X as (sc & sr & Hsc & Hsr & ->). apply loop_pass_in in Hp; try assumption. apply loop_pass_in in Hq; try assumption.
  unfold ver_limit, hor_limit in *. unfold corners_of, right_of, below. destruct pbc.
  - destruct (Even eq_refl) as [E1 E2]. cbn [fst snd In]. intros Hs Hs'.
    assert (c = c' /\ r = r'); [|destruct H; subst; reflexivity].
    split; [apply (step_same cols)|apply (step_same rows)]; try lia;
    destruct Hs as [<-|[<-|[<-|[<-|[]]]]], Hs' as [Q|[Q|[Q|[Q|[]]]]]; inversion Q; lia.
  - clear Even. pose proof (Nat.div_mod r 2 ltac:(lia)). pose proof (Nat.div_mod r' 2 ltac:(lia)). pose proof (Nat.div_mod c 2 ltac:(lia)). pose proof (Nat.div_mod c' 2 ltac:(lia)).
    cbn [In]. intros Hs Hs'. destruct Hs as [<-|[<-|[<-|[<-|[]]]]], Hs' as [Q|[Q|[Q|[Q|[]]]]]; inversion Q; f_equal; lia.
Qed.
Lemma construct_even gr gc : loop_construct rows cols pbc gr gc = Ok tt -> pbc = true -> rows mod 2 = 0 /\ cols mod 2 = 0.
Proof.
  unfold loop_construct. intros H ->. cbn [andb] in H. destruct (Nat.eqb_spec (cols mod 2) 0), (Nat.eqb_spec (rows mod 2) 0); cbn [negb orb] in H; try discriminate. split; assumption.
Qed.
End P.

(** *** Stopping *)
Local Open Scope R_scope.
Lemma valid_spec c : valid_config c = false <-> invalid c.
Proof.
  unfold valid_config, invalid. rewrite !andb_false_iff, !negb_false_iff, !Nat.eqb_eq.
  assert (L : forall x, rlt x 0 = true <-> x < 0).
  { intros x. split; [apply rlt_true|]. intros H. destruct (rlt x 0) eqn:E; [reflexivity|]. apply rlt_false in E. lra. }
  rewrite !L. tauto.
Qed.
Lemma rle_iff x y : rle x y = true <-> x <= y.
Proof. split; [apply rle_true|]. intros H. destruct (rle x y) eqn:E; [reflexivity|]. apply rle_false in E. lra. Qed.
Lemma combine_diff (a : list R) : forall b, length a = length b ->
  map (fun '(x, y) => y - x) (combine a b) = map (fun i => nth i b 0 - nth i a 0) (seq 0 (length a)).
Proof.
  induction a as [|x a IH]; intros [|y b] E; try discriminate; [reflexivity|]. cbn [combine map length seq]. f_equal.
  rewrite <- seq_shift, map_map. apply IH. injection E; auto.
Qed.
Lemma dbl_eps_pos' : 0 < dbl_eps.
Proof. unfold dbl_eps. apply Rinv_0_lt_compat. apply pow_lt. lra. Qed.
Lemma drift_close tol a b : length a = length b -> (drift a b <= tol <-> bond_close tol a b).
Proof.
  intros E. unfold drift, bond_close, length_of, norm2. rewrite combine_diff by exact E.
  set (m := Rmax _ dbl_eps). assert (P : 0 < m) by (unfold m; pose proof dbl_eps_pos'; pose proof (Rmax_r (sqrt (rsum (fun x => x * x) a)) dbl_eps); lra).
  set (d := sqrt _). split.
  - intros H. split; [exact E|]. apply (Rmult_le_compat_r m) in H; [|lra]. unfold Rdiv in H. rewrite Rmult_assoc, Rinv_l, Rmult_1_r in H by lra. exact H.
  - intros (_ & H). apply (Rmult_le_reg_r m); [exact P|]. unfold Rdiv. rewrite Rmult_assoc, Rinv_l, Rmult_1_r by lra. exact H.
Qed.
Lemma fold_max (l : list (list R * list R)) tol : forall m, fold_left (fun m '(a, b) => Rmax m (drift a b)) l m <= tol <->
  m <= tol /\ forall a b, In (a, b) l -> drift a b <= tol.
Proof.
  induction l as [|[a b] l IH]; intros m; cbn [fold_left].
  - split; [intros H; split; [exact H|intros ? ? []]|tauto].
  - rewrite IH. split.
    + intros (H & K). pose proof (Rmax_l m (drift a b)). pose proof (Rmax_r m (drift a b)). split; [lra|]. intros a' b' [E|Hi]; [inversion E; subst; lra|auto].
    + intros (H & K). split; [apply Rmax_lub; [exact H|apply K; left; reflexivity]|]. intros a' b' Hi. apply K. right. exact Hi.
Qed.
Lemma in_combine_nth {X} (d : X) : forall (l l' : list X) a b, length l = length l' -> (In (a, b) (combine l l') <-> exists i, (i < length l')%nat /\ nth i l d = a /\ nth i l' d = b).
Proof.
  induction l as [|x l IH]; intros [|y l'] a b E; try discriminate; cbn [combine length].
  - split; [intros []|intros (i & Hi & _); lia].
  - injection E as E. split.
    + intros [Q|H]; [inversion Q; subst; exists 0%nat; repeat split; lia|]. apply (IH l' a b E) in H. destruct H as (i & Hi & Ha & Hb). exists (S i). repeat split; [lia|exact Ha|exact Hb].
    + intros ([|i] & Hi & Ha & Hb); cbn [nth] in *; [left; subst; reflexivity|right; apply (IH l' a b E); exists i; repeat split; [lia|exact Ha|exact Hb]].
Qed.
Lemma dims_spec p q : dims_stable p q = true <-> length p = length q /\ forall i, (i < length q)%nat -> length (nth i p []) = length (nth i q []).
Proof.
  unfold dims_stable. rewrite andb_true_iff, Nat.eqb_eq, forallb_forall. split.
  - intros (E & H). split; [exact E|]. intros i Hi. specialize (H (nth i p [], nth i q [])). cbn beta iota in H. apply Nat.eqb_eq, H.
    apply (in_combine_nth (@nil R)); [exact E|]. exists i. auto.
  - intros (E & H). split; [exact E|]. intros [a b] Hi. apply (in_combine_nth (@nil R)) in Hi; [|exact E]. destruct Hi as (i & Hi & <- & <-). apply Nat.eqb_eq, H, Hi.
Qed.
Lemma tolerance_spec c p q d : d <= energy_tolerance c p q <-> d <= abs_tol c \/ d <= rel_tol c * Rmax 1 (Rmax (Rabs q) (Rabs p)).
Proof.
  unfold energy_tolerance. replace (Rmax (Rmax 1 (Rabs p)) (Rabs q)) with (Rmax 1 (Rmax (Rabs q) (Rabs p))).
  - apply Rmax_Rle.
  - rewrite <- Rmax_assoc. f_equal. apply Rmax_comm.
Qed.
Lemma gate_spec c sweep k : 0 <= lambda_tol c ->
  (gate_passed c (k + 1) (match k with O => None | S j => Some (sweep j) end) (sweep k) = true <-> settled c sweep k).
Proof.
  intros L0. unfold gate_passed, settled. destruct k as [|j].
  - split; [discriminate|intros (H & _); lia].
  - replace (S j - 1)%nat with j by lia. rewrite !andb_true_iff, !rle_iff, Nat.leb_le, tolerance_spec, dims_spec. unfold max_drift. rewrite fold_max. split.
    + intros ((E & D) & (M & T) & _ & H). split; [lia|]. split; [exact M|]. split; [exact T|]. split; [exact E|]. intros i Hi.
      apply drift_close; [apply D, Hi|]. apply H. apply (in_combine_nth (@nil R)); [exact E|]. exists i. auto.
    + intros (_ & M & T & E & H). split; [split; [exact E|intros i Hi; exact (proj1 (H i Hi))]|]. split; [split; [exact M|exact T]|]. split; [exact L0|].
      intros a b Hi. apply (in_combine_nth (@nil R)) in Hi; [|exact E]. destruct Hi as (i & Hi & <- & <-). apply drift_close; [exact (proj1 (H i Hi))|exact (H i Hi)].
Qed.

Definition prev_of (sweep : nat -> outcome) (k : nat) : option outcome := match k with O => None | S j => Some (sweep j) end.
Definition metric_of (sweep : nat -> outcome) (k : nat) : metric := (k, o_energy (sweep k), changed sweep k).
Lemma changed_spec sweep k : dim_changed (prev_of sweep k) (sweep k) = changed sweep k.
Proof. unfold changed. destruct k as [|j]; [reflexivity|]. cbn [prev_of dim_changed]. replace (S j - 1)%nat with j by lia. cbn [Nat.ltb Nat.leb andb]. rewrite negb_andb. reflexivity. Qed.
Definition energies (sweep : nat -> outcome) (n : nat) : summary :=
  mkSum n false (map (metric_of sweep) (seq 0 n)) (match n with O => None | S j => Some (o_energy (sweep j)) end).
Lemma energies_step sweep n :
  mkSum (s_executed (energies sweep n) + 1) (s_converged (energies sweep n)) (s_metrics (energies sweep n) ++ [(n, o_energy (sweep n), dim_changed (prev_of sweep n) (sweep n))]) (Some (o_energy (sweep n)))
  = energies sweep (n + 1).
Proof.
  unfold energies. cbn [s_executed s_converged s_metrics]. rewrite changed_spec. replace (n + 1)%nat with (S n) by lia. rewrite seq_S, map_app. reflexivity.
Qed.
Lemma run_none sweep : forall left n st, run_from None sweep left n st (prev_of sweep n) (energies sweep n) = energies sweep (n + left).
Proof.
  induction left as [|left IH]; intros n st; cbn [run_from]; [rewrite Nat.add_0_r; reflexivity|].
  rewrite energies_step. specialize (IH (n + 1)%nat st). replace (n + 1 + left)%nat with (n + S left)%nat in IH by lia. rewrite <- IH. f_equal. rewrite Nat.add_1_r. reflexivity.
Qed.
(** [st] is the number of settled sweeps just before [n] *)
Definition streak_is (c : stop_config) (sweep : nat -> outcome) (n st : nat) : Prop :=
  (st <= n)%nat /\ (forall j, (n - st <= j < n)%nat -> settled c sweep j) /\ (st < n -> ~ settled c sweep (n - st - 1))%nat.
Lemma run_some c sweep : 0 <= lambda_tol c -> (0 < patience c)%nat -> forall left n st, streak_is c sweep n st -> (st < patience c)%nat ->
  (forall k, (k < n)%nat -> ~ converged_at c sweep k) ->
  let s := run_from (Some c) sweep left n st (prev_of sweep n) (energies sweep n) in
  (exists m, (n <= m < n + left)%nat /\ converged_at c sweep m /\ (forall k, (k < m)%nat -> ~ converged_at c sweep k) /\
    s = mkSum (m + 1) true (map (metric_of sweep) (seq 0 (m + 1))) (Some (o_energy (sweep m)))) \/
  (s = energies sweep (n + left) /\ forall k, (k < n + left)%nat -> ~ converged_at c sweep k).
Proof.
  intros L0 P0. induction left as [|left IH]; intros n st St Lt No; cbn [run_from].
  - right. rewrite Nat.add_0_r. split; [reflexivity|exact No].
  - rewrite energies_step. cbn [s_executed].
    destruct St as (S1 & S2 & S3).
    assert (GS : gate_passed c (n + 1) (prev_of sweep n) (sweep n) = true <-> settled c sweep n) by (apply gate_spec; exact L0).
    assert (X : s_executed (energies sweep (n + 1)) = (n + 1)%nat) by reflexivity. rewrite X.
    destruct (gate_passed c (n + 1) (prev_of sweep n) (sweep n)) eqn:EG.
    + assert (ST : settled c sweep n) by (apply GS; reflexivity).
      assert (St' : streak_is c sweep (n + 1) (st + 1)).
      { split; [lia|]. split.
        - intros j Hj. destruct (Nat.eq_dec j n) as [-> |]; [exact ST|apply S2; lia].
        - intros H. replace (n + 1 - (st + 1) - 1)%nat with (n - st - 1)%nat by lia. apply S3. lia. }
      destruct (Nat.leb_spec (patience c) (st + 1)) as [Le|Gt].
      * left. exists n. split; [lia|]. split; [|split; [exact No|]].
        -- assert (St0 : (st < n)%nat).
           { destruct (Nat.eq_dec st n) as [E|E]; [|lia]. destruct n; [destruct ST as [H _]; lia|]. exfalso. destruct (S2 0%nat ltac:(lia)) as [H _]. lia. }
           split; [lia|]. intros j Hj. destruct (Nat.eq_dec j n) as [-> |]; [exact ST|]. apply S2. lia.
        -- unfold energies. replace (n + 1)%nat with (S n) by lia. reflexivity.
      * assert (No' : forall k, (k < n + 1)%nat -> ~ converged_at c sweep k).
        { intros k Hk. destruct (Nat.eq_dec k n) as [-> |]; [|apply No; lia]. intros (A & B). destruct St' as (_ & _ & S3').
          destruct (le_lt_dec (n + 1) (st + 1)) as [Hn|Hn]; [|apply (S3' Hn), B; lia].
          destruct (B 0%nat) as [H _]; [lia|lia]. }
        destruct (IH (n + 1)%nat (st + 1)%nat St' Gt No') as [(m & A & B & C & D)|(A & B)].
        -- left. exists m. split; [lia|]. split; [exact B|]. split; [exact C|]. rewrite <- D. f_equal. rewrite Nat.add_1_r. reflexivity.
        -- right. replace (n + S left)%nat with (n + 1 + left)%nat by lia. split; [|exact B]. rewrite <- A. f_equal. rewrite Nat.add_1_r. reflexivity.
    + assert (NS : ~ settled c sweep n) by (intros H; apply GS in H; discriminate).
      assert (St' : streak_is c sweep (n + 1) 0).
      { split; [lia|]. split; [intros j Hj; lia|]. intros _. replace (n + 1 - 0 - 1)%nat with n by lia. exact NS. }
      destruct (Nat.leb_spec (patience c) 0) as [Le|Gt]; [lia|].
      assert (No' : forall k, (k < n + 1)%nat -> ~ converged_at c sweep k).
      { intros k Hk. destruct (Nat.eq_dec k n) as [-> |]; [|apply No; lia]. intros (A & B). apply NS, B. lia. }
      destruct (IH (n + 1)%nat 0%nat St' Gt No') as [(m & A & B & C & D)|(A & B)].
      -- left. exists m. split; [lia|]. split; [exact B|]. split; [exact C|]. rewrite <- D. f_equal. rewrite Nat.add_1_r. reflexivity.
      -- right. replace (n + S left)%nat with (n + 1 + left)%nat by lia. split; [|exact B]. rewrite <- A. f_equal. rewrite Nat.add_1_r. reflexivity.
Qed.
Lemma run_valid cfg steps sweep : update_run cfg steps sweep = Fail Throw <-> exists c, cfg = Some c /\ invalid c.
Proof.
  unfold update_run. destruct cfg as [c|]; [|split; [discriminate|intros (c & H & _); discriminate]]. destruct (valid_config c) eqn:E; cbn [negb].
  - split; [discriminate|]. intros (c' & Q & H). inversion Q; subst. apply valid_spec in H. congruence.
  - split; [|reflexivity]. intros _. exists c. split; [reflexivity|apply valid_spec; exact E].
Qed.
Lemma run_stops c steps sweep s : update_run (Some c) steps sweep = Ok s ->
  (s_executed s <= steps)%nat /\
  (s_converged s = true <-> exists k, (k < steps)%nat /\ converged_at c sweep k) /\
  (s_converged s = true -> (1 <= s_executed s)%nat /\ converged_at c sweep (s_executed s - 1) /\ forall k, (k < s_executed s - 1)%nat -> ~ converged_at c sweep k) /\
  (s_converged s = false -> s_executed s = steps).
Proof.
  unfold update_run. destruct (valid_config c) eqn:E; cbn [negb]; [|discriminate]. intros Q. injection Q as <-.
  assert (V : ~ invalid c) by (intros H; apply valid_spec in H; congruence).
  assert (L0 : 0 <= lambda_tol c) by (destruct (Rle_lt_dec 0 (lambda_tol c)); [assumption|exfalso; apply V; unfold invalid; tauto]).
  assert (P0 : (0 < patience c)%nat) by (destruct (Nat.eq_dec (patience c) 0); [exfalso; apply V; unfold invalid; tauto|lia]).
  change (run_from (Some c) sweep steps 0 0 None _) with (run_from (Some c) sweep steps 0 0 (prev_of sweep 0) (energies sweep 0)).
  destruct (run_some c sweep L0 P0 steps 0%nat 0%nat) as [(m & A & B & C & ->)|(-> & N)].
  - split; [lia|]. split; [intros j Hj; lia|lia].
  - exact P0.
  - intros k Hk. lia.
  - cbn [s_executed s_converged]. split; [lia|]. split; [split; [intros _; exists m; split; [lia|exact B]|reflexivity]|]. split; [|discriminate].
    intros _. replace (m + 1 - 1)%nat with m by lia. split; [lia|]. split; [exact B|exact C].
  - cbn [plus]. cbn [s_executed s_converged energies]. split; [lia|]. split; [|split; [discriminate|reflexivity]]. split; [discriminate|]. intros (k & Hk & H). exfalso. exact (N k Hk H).
Qed.
Lemma run_plain steps sweep : exists s, update_run None steps sweep = Ok s /\ s_executed s = steps /\ s_converged s = false.
Proof.
  eexists. split; [reflexivity|]. change (run_from None sweep steps 0 0 None _) with (run_from None sweep steps 0 0 (prev_of sweep 0) (energies sweep 0)).
  rewrite run_none. split; reflexivity.
Qed.
Lemma run_metrics cfg steps sweep s : update_run cfg steps sweep = Ok s ->
  s_metrics s = map (fun k => (k, o_energy (sweep k), changed sweep k)) (seq 0 (s_executed s)) /\
  s_final s = match s_executed s with O => None | S j => Some (o_energy (sweep j)) end.
Proof.
  destruct cfg as [c|].
  - unfold update_run. destruct (valid_config c) eqn:E; cbn [negb]; [|discriminate]. intros Q. injection Q as <-.
    assert (V : ~ invalid c) by (intros H; apply valid_spec in H; congruence).
    assert (L0 : 0 <= lambda_tol c) by (destruct (Rle_lt_dec 0 (lambda_tol c)); [assumption|exfalso; apply V; unfold invalid; tauto]).
    assert (P0 : (0 < patience c)%nat) by (destruct (Nat.eq_dec (patience c) 0); [exfalso; apply V; unfold invalid; tauto|lia]).
    change (run_from (Some c) sweep steps 0 0 None _) with (run_from (Some c) sweep steps 0 0 (prev_of sweep 0) (energies sweep 0)).
    destruct (run_some c sweep L0 P0 steps 0%nat 0%nat) as [(m & A & B & C & ->)|(-> & N)].
    + split; [lia|]. split; [intros j Hj; lia|lia].
    + exact P0.
    + intros k Hk. lia.
    + cbn [s_executed s_metrics s_final]. split; [reflexivity|]. rewrite Nat.add_1_r. reflexivity.
    + split; reflexivity.
  - unfold update_run. intros Q. injection Q as <-. change (run_from None sweep steps 0 0 None _) with (run_from None sweep steps 0 0 (prev_of sweep 0) (energies sweep 0)).
    rewrite run_none. split; reflexivity.
Qed.
