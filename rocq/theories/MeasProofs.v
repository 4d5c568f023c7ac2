(** Statistics, distributions, psi consistency and size check. *)
From Coq Require Import List Arith Lia Bool Reals Lra.
From Verif Require Import Base Cplx Rsum OptModel OptProofs LbModel StatModel StatSpec StatProofs StatMain MinsrModel MeasModel MeasSpec.
Import ListNotations.
Local Open Scope nat_scope.

(** *** Pooled means *)
Lemma local_mean_value (s : list (list C)) L : s <> [] -> Forall (fun d => length d = L) s ->
  local_mean s = Ok (map (fun i => average (fun d => nth i d (RtoC 0)) s) (seq 0 L)).
Proof.
  intros Hs F. destruct s as [|d0 s]; [congruence|]. unfold local_mean, ave_list. pose proof (Forall_inv F) as L0. cbv beta in L0.
  assert (B : forallb (fun d => length d0 <=? length d) (d0 :: s) = true).
  { apply forallb_forall. intros d Hd. rewrite Forall_forall in F. apply Nat.leb_le. rewrite (F d Hd), L0. lia. }
  rewrite B, L0. f_equal. apply map_ext. intros i. rewrite <- (average_map (fun x => x) (fun d => nth i d (RtoC 0))). rewrite <- over_average. now rewrite map_length.
Qed.
Lemma local_means_value (ranks : list (list (list C))) L : Forall (fun s => s <> [] /\ Forall (fun d => length d = L) s) ranks ->
  local_means ranks = Ok (map (fun s => map (fun i => average (fun d => nth i d (RtoC 0)) s) (seq 0 L)) ranks).
Proof. induction 1 as [|s t (A & B) F IH]; [reflexivity|]. cbn [local_means map]. rewrite (local_mean_value s L A B). cbn [bind]. rewrite IH. reflexivity. Qed.
Lemma nth_map_seq {X} (f : nat -> X) n i d : i < n -> nth i (map f (seq 0 n)) d = f i.
Proof. intros H. rewrite (nth_indep _ d (f 0)) by (rewrite map_length, seq_length; assumption). rewrite map_nth, seq_nth by assumption. reflexivity. Qed.
Lemma average_pool {X} (f : X -> C) (ranks : list (list X)) n : 0 < n -> ranks <> [] -> Forall (fun l => length l = n) ranks ->
  average (fun x => x) (map (average f) ranks) = average f (concat ranks).
Proof.
  intros Hn Hr F. assert (F' : Forall (fun blk => length blk = n) (map (map f) ranks)) by (apply Forall_map; eapply Forall_impl; [|exact F]; intros; now rewrite map_length).
  rewrite <- (average_map (fun x => x) f), <- concat_map_map. rewrite <- (average_of_averages n); [|assumption|destruct ranks; cbn; congruence|assumption].
  rewrite map_map. f_equal. apply map_ext. intros l. now rewrite average_map.
Qed.
Theorem pooled_value (ranks : list (list (list C))) n L : 0 < n -> ranks <> [] -> Forall (fun s => length s = n) ranks ->
  Forall (Forall (fun d => length d = L)) ranks ->
  exists means errs, gather_stats ranks = Ok (means, errs) /\ length means = L /\
    forall i, i < L -> nth i means (RtoC 0) = average (fun d => nth i d (RtoC 0)) (concat ranks).
Proof.
  intros Hn Hr Fn FL. assert (F : Forall (fun s => s <> [] /\ Forall (fun d => length d = L) s) ranks).
  { rewrite Forall_forall in *. intros s Hs. split; [|auto]. intros ->. specialize (Fn [] Hs). cbn in Fn. lia. }
  unfold gather_stats. rewrite (local_means_value ranks L F). cbn [bind].
  set (ms := map _ ranks). destruct ranks as [|s0 [|s1 ranks]]; [congruence| |].
  - subst ms. cbn [map gather_list]. do 2 eexists. split; [reflexivity|]. rewrite map_length, seq_length. split; [reflexivity|].
    intros i Hi. rewrite nth_map_seq by assumption. cbn [concat]. now rewrite app_nil_r.
  - assert (Lm : Forall (fun d => length d = L) ms) by (unfold ms; apply Forall_map; apply Forall_forall; intros; now rewrite map_length, seq_length).
    rewrite (gather_list_ok ms L) by (assumption || (unfold ms; cbn; lia)). do 2 eexists. split; [reflexivity|]. rewrite map_length, seq_length. split; [reflexivity|].
    intros i Hi. rewrite nth_map_seq, mean_average by assumption. unfold ms. rewrite map_map.
    rewrite (map_ext _ (average (fun d => nth i d (RtoC 0)))) by (intros s; apply (nth_map_seq (fun i => average (fun d => nth i d (RtoC 0)) s)); assumption). now apply average_pool with n.
Qed.
Theorem single_rank_error (s : list (list C)) m e i : gather_stats [s] = Ok (m, e) -> dumped_error e i = Err 0.
Proof. unfold gather_stats. cbn [local_means]. destruct (local_mean s); [|discriminate]. cbn. intros [= <- <-]. unfold dumped_error. destruct i; reflexivity. Qed.

(** *** Particle numbers *)
Lemma count_value config pps : Forall (fun s => s < length pps) config -> count_particles config pps = Ok (total_particles config pps).
Proof.
  induction 1 as [|s t L F IH]; [reflexivity|]. cbn [count_particles]. rewrite (nth_error_nth' pps 0 L). rewrite IH. reflexivity.
Qed.
Lemma count_throws config pps : Exists (fun s => length pps <= s) config -> count_particles config pps = Fail Throw.
Proof.
  induction 1 as [s t L|s t E IH]; cbn [count_particles].
  - now rewrite (proj2 (nth_error_None _ _) L).
  - destruct (nth_error pps s); [|reflexivity]. rewrite IH. reflexivity.
Qed.
Lemma max_particles_le pps s : nth s pps 0 <= max_particles pps.
Proof. revert s. induction pps as [|p t IH]; intros [|s]; cbn [nth max_particles fold_right]; try lia. specialize (IH s). unfold max_particles in IH. lia. Qed.
Lemma total_le config pps : total_particles config pps <= length config * max_particles pps.
Proof. unfold total_particles. induction config as [|s t IH]; cbn [map list_sum fold_right length]; [lia|]. pose proof (max_particles_le pps s). unfold list_sum in IH. lia. Qed.
Theorem one_hot config pps : pps <> [] -> Forall (fun s => s < length pps) config ->
  exists v, particle_sample config pps = Ok (total_particles config pps, v) /\ length v = length config * max_particles pps + 1 /\
    (total_particles config pps < length v) /\
    forall k, k < length v -> nth k v (RtoC 0) = if k =? total_particles config pps then RtoC 1 else RtoC 0.
Proof.
  intros Hp F. destruct pps as [|p pps]; [congruence|]. unfold particle_sample. rewrite (count_value _ _ F). cbn [bind bin_count].
  pose proof (total_le config (p :: pps)) as L. rewrite (proj2 (Nat.ltb_lt _ _)) by lia. eexists. split; [reflexivity|]. rewrite map_length, seq_length. split; [reflexivity|]. split; [lia|].
  intros k Hk. now apply (nth_map_seq (fun k => if k =? total_particles config (p :: pps) then RtoC 1 else RtoC 0)).
Qed.
Definition histogram (configs : list (list nat)) pps k : R := INR (length (filter (fun c => total_particles c pps =? k) configs)).
Lemma sum_indicator (configs : list (list nat)) pps k :
  sumC (fun c => if k =? total_particles c pps then RtoC 1 else RtoC 0) configs = RtoC (histogram configs pps k).
Proof.
  unfold histogram. induction configs as [|c t IH]; [now rewrite sumC_nil|]. rewrite sumC_cons, IH. cbn [filter]. rewrite (Nat.eqb_sym k). destruct (total_particles c pps =? k).
  - cbn [length]. rewrite S_INR, RtoC_add. ring.
  - ring.
Qed.
(** the samples of a run: one configuration of [sites] sites per sample *)
Definition one_hots (configs : list (list nat)) pps (samples : list (list C)) : Prop :=
  Forall2 (fun c v => particle_sample c pps = Ok (total_particles c pps, v)) configs samples.
Theorem distribution configs pps sites samples : pps <> [] -> configs <> [] ->
  Forall (fun c => length c = sites /\ Forall (fun s => s < length pps) c) configs -> one_hots configs pps samples ->
  Forall (fun v => length v = sites * max_particles pps + 1) samples /\
  (forall k, k < sites * max_particles pps + 1 -> average (fun v => nth k v (RtoC 0)) samples = RtoC (histogram configs pps k / INR (length configs))) /\
  sumC (fun k => average (fun v => nth k v (RtoC 0)) samples) (seq 0 (sites * max_particles pps + 1)) = RtoC 1.
Proof.
  intros Hp Hc F O. set (b := sites * max_particles pps + 1).
  assert (K : Forall2 (fun c v => length v = b /\ total_particles c pps < b /\ forall k, k < b -> nth k v (RtoC 0) = if k =? total_particles c pps then RtoC 1 else RtoC 0) configs samples).
  { clear Hc. unfold one_hots in O. revert F. induction O as [|c v cs vs E O IH]; intros F; [constructor|]. inversion F as [|c' cs' (L & Fc) F']; subst c' cs'. constructor; [|auto].
    destruct (one_hot c pps Hp Fc) as (v' & E' & L' & B' & N'). rewrite E in E'. injection E' as <-. rewrite L in L'. fold b in L'. rewrite L' in B', N'. auto. }
  assert (A : forall k, k < b -> average (fun v => nth k v (RtoC 0)) samples = RtoC (histogram configs pps k / INR (length configs))).
  { intros k Hk. unfold average. assert (E : sumC (fun v => nth k v (RtoC 0)) samples = RtoC (histogram configs pps k)).
    { rewrite <- sum_indicator. clear -K Hk. induction K as [|c v cs vs (A & B & N) K IH]; [reflexivity|]. rewrite !sumC_cons, IH, (N k Hk). reflexivity. }
    rewrite E, <- (Forall2_len _ _ _ K), <- RtoC_mul. reflexivity. }
  split; [|split; [exact A|]].
  - clear -K. induction K as [|c v cs vs (A & _) K IH]; constructor; assumption.
  - unfold average. rewrite (sumC_ext _ (fun k => RtoC (/ INR (length samples)) * sumC (fun v => nth k v (RtoC 0)) samples)%C) by (intros; ring).
    rewrite sumC_scal, sumC_swap. assert (E : sumC (fun v => sumC (fun k => nth k v (RtoC 0)) (seq 0 b)) samples = RtoC (INR (length samples))).
    { clear -K. induction K as [|c v cs vs (A & B & N) K IH]; [now rewrite sumC_nil|]. rewrite sumC_cons, IH. cbn [length]. rewrite S_INR, RtoC_add.
      rewrite (sumC_ext _ (fun k => if k =? total_particles c pps then RtoC 1 else RtoC 0)) by (intros k Hk; apply in_seq in Hk; apply N; lia).
      assert (P : forall n a, sumC (fun k => if k =? total_particles c pps then RtoC 1 else RtoC 0) (seq a n) = if (a <=? total_particles c pps) && (total_particles c pps <? a + n) then RtoC 1 else RtoC 0).
      { induction n as [|n IHn]; intros a; cbn [seq].
        - rewrite sumC_nil. destruct (Nat.leb_spec a (total_particles c pps)), (Nat.ltb_spec (total_particles c pps) (a + 0)); cbn; lia || reflexivity.
        - rewrite sumC_cons, IHn. destruct (Nat.eqb_spec a (total_particles c pps)), (Nat.leb_spec a (total_particles c pps)), (Nat.leb_spec (S a) (total_particles c pps)), (Nat.ltb_spec (total_particles c pps) (S a + n)), (Nat.ltb_spec (total_particles c pps) (a + S n)); cbn [andb]; try lia; ring. }
      rewrite P. cbn [Nat.leb andb]. rewrite (proj2 (Nat.ltb_lt _ _)) by (cbn; assumption). ring. }
    rewrite E, <- RtoC_mul, Rinv_l; [reflexivity|]. apply not_0_INR. rewrite <- (Forall2_len _ _ _ K). destruct configs; [congruence|discriminate].
Qed.

(** *** Size check *)
Lemma strip_odd fuel m : m mod 2 = 1 -> strip_twos fuel m = m.
Proof. intros H. destruct fuel; [reflexivity|]. cbn [strip_twos]. now rewrite H. Qed.
Lemma strip_power k : forall fuel m, m mod 2 = 1 -> k <= fuel -> strip_twos fuel (2 ^ k * m) = m.
Proof.
  induction k as [|k IH]; intros fuel m H L.
  - rewrite Nat.pow_0_r, Nat.mul_1_l. now apply strip_odd.
  - destruct fuel as [|f]; [lia|]. cbn [strip_twos]. replace (2 ^ S k * m) with ((2 ^ k * m) * 2) by (rewrite Nat.pow_succ_r'; lia).
    rewrite Nat.mod_mul, Nat.div_mul by lia. cbn [Nat.eqb]. apply IH; [assumption|lia].
Qed.
Lemma odd_part n : 0 < n -> exists k m, n = 2 ^ k * m /\ m mod 2 = 1 /\ k <= n.
Proof.
  induction n as [n IH] using (well_founded_induction lt_wf). intros Hn. destruct (Nat.eq_dec (n mod 2) 1) as [E|E].
  - exists 0, n. rewrite Nat.pow_0_r. lia.
  - pose proof (Nat.mod_upper_bound n 2). pose proof (Nat.div_mod n 2). destruct (IH (n / 2)) as (k & m & E1 & E2 & E3); [apply Nat.div_lt; lia|lia|].
    exists (S k), m. rewrite Nat.pow_succ_r'. split; [|split; [assumption|]]; [|pose proof (Nat.div_lt n 2); lia]. rewrite <- Nat.mul_assoc, <- E1. lia.
Qed.
Lemma pow2_ge k : k <= 2 ^ k.
Proof. induction k as [|k IH]; [cbn; lia|]. rewrite Nat.pow_succ_r'. destruct k; [cbn; lia|lia]. Qed.
Theorem trg_sizes n : trg_size_ok n = true <-> exists k, n = 2 ^ k \/ n = 3 * 2 ^ k.
Proof.
  unfold trg_size_ok. destruct (Nat.eqb_spec n 0) as [->|N].
  - split; [discriminate|]. intros (k & [E|E]); pose proof (Nat.pow_nonzero 2 k); lia.
  - split.
    + destruct (odd_part n) as (k & m & E & M & L); [lia|]. assert (Q : strip_twos n n = m) by (rewrite E at 2; apply strip_power; assumption). cbv zeta. rewrite Q. intros H. apply orb_true_iff in H. exists k. destruct H as [H|H]; apply Nat.eqb_eq in H; rewrite H in E; lia.
    + intros (k & [E|E]).
      * replace (strip_twos n n) with 1; [reflexivity|]. symmetry. rewrite E at 2. rewrite <- (Nat.mul_1_r (2 ^ k)). apply strip_power; [reflexivity|]. pose proof (pow2_ge k). lia.
      * replace (strip_twos n n) with 3; [reflexivity|]. symmetry. rewrite E at 2. rewrite Nat.mul_comm. apply strip_power; [reflexivity|]. pose proof (pow2_ge k). lia.
Qed.

(** *** Psi consistency *)
Local Open Scope R_scope.
Definition pm (x y : C) : Prop := y = x \/ y = Copp x.
Lemma cabs_opp x : cabs (Copp x) = cabs x.
Proof. unfold cabs, Cnorm2, Copp. simpl. f_equal. ring. Qed.
Lemma cabs_pm x y : pm x y -> cabs y = cabs x.
Proof. intros [->| ->]; [reflexivity|apply cabs_opp]. Qed.
Lemma cabs_0 : cabs (RtoC 0) = 0.
Proof. unfold cabs, Cnorm2, RtoC. simpl. replace (0 * 0 + 0 * 0) with 0 by ring. apply sqrt_0. Qed.
Definition pick : C * R -> C -> C * R := fun '(best, a) x => if rlt a (cabs x) then (x, cabs x) else (best, a).
Lemma pick_pm l : forall l' b b' a, Forall2 pm l l' -> pm b b' ->
  pm (fst (fold_left pick l (b, a))) (fst (fold_left pick l' (b', a))) /\ snd (fold_left pick l (b, a)) = snd (fold_left pick l' (b', a)).
Proof.
  induction l as [|x l IH]; intros l' b b' a F Hb; inversion F as [|x0 y l0 l1 Hxy F']; subst.
  - split; [exact Hb|reflexivity].
  - cbn [fold_left pick]. rewrite (cabs_pm x y Hxy). destruct (rlt a (cabs x)); apply IH; assumption.
Qed.
Lemma pick_from l : forall b a, (snd (fold_left pick l (b, a)) = a /\ fst (fold_left pick l (b, a)) = b) \/
  (In (fst (fold_left pick l (b, a))) l /\ snd (fold_left pick l (b, a)) = cabs (fst (fold_left pick l (b, a)))).
Proof.
  induction l as [|x l IH]; intros b a; [left; split; reflexivity|]. cbn [fold_left pick]. destruct (rlt a (cabs x)).
  - destruct (IH x (cabs x)) as [(A & B)|(A & B)]; right; [rewrite A, B; split; [left|]; reflexivity|split; [right; assumption|assumption]].
  - destruct (IH b a) as [K|(A & B)]; [left; exact K|right; split; [right|]; assumption].
Qed.
Lemma pick_max l : forall b a, a <= snd (fold_left pick l (b, a)) /\ forall x, In x l -> cabs x <= snd (fold_left pick l (b, a)).
Proof.
  induction l as [|y l IH]; intros b a; [split; [cbn; lra|intros x []]|]. cbn [fold_left pick]. destruct (rlt a (cabs y)) eqn:E.
  - apply rlt_true in E. destruct (IH y (cabs y)) as (A & B). split; [lra|]. intros x [<-|H]; auto.
  - apply rlt_false in E. destruct (IH b a) as (A & B). split; [assumption|]. intros x [<-|H]; [lra|auto].
Qed.
Lemma reference_pick l : reference l = fold_left pick l (nth 0 l (RtoC 0), 0). Proof. reflexivity. Qed.
Lemma tol_pos : 0 < reference_tol. Proof. unfold reference_tol. apply Rinv_0_lt_compat, pow_lt. lra. Qed.
Lemma eps_pos : 0 < dbl_eps. Proof. unfold dbl_eps. apply Rinv_0_lt_compat, pow_lt. lra. Qed.
Lemma reference_valid l : (exists x, In x l /\ reference_tol < cabs x) ->
  reference_tol < snd (reference l) /\ In (fst (reference l)) l /\ fst (reference l) <> RtoC 0.
Proof.
  intros (x & Hx & Tx). rewrite reference_pick. destruct (pick_max l (nth 0 l (RtoC 0)) 0) as (_ & M). specialize (M x Hx). pose proof tol_pos.
  split; [lra|]. destruct (pick_from l (nth 0 l (RtoC 0)) 0) as [(A & B)|(A & B)]; [lra|]. split; [exact A|]. intros E. rewrite E, cabs_0 in B. lra.
Qed.
Definition sgn (s : R) := s = 1 \/ s = -1.
Lemma pm_scal x y : pm x y -> exists s, sgn s /\ y = (RtoC s * x)%C.
Proof. intros [->| ->]; [exists 1; split; [left; reflexivity|ring]|exists (-1); split; [right; reflexivity|]]. apply C_ext; unfold RtoC, Cmul, Copp; simpl; ring. Qed.
Lemma re_scal s t x r : fst ((RtoC t * x) * Cconj (RtoC s * r))%C = t * s * fst (x * Cconj r)%C.
Proof. unfold RtoC, Cmul, Cconj. simpl. ring. Qed.
Lemma nth0_pm l l' : Forall2 pm l l' -> pm (nth 0 l (RtoC 0)) (nth 0 l' (RtoC 0)).
Proof. destruct 1; [left; reflexivity|assumption]. Qed.
Lemma align_flip l l' : Forall2 pm l l' -> sign_defined l -> (exists x, In x l /\ reference_tol < cabs x) ->
  exists s, sgn s /\ align l' = map (fun x => (RtoC s * x)%C) (align l).
Proof.
  intros F D V. destruct (reference_valid l V) as (T & I & N).
  destruct (pick_pm l l' _ _ 0 F (nth0_pm l l' F)) as (Hr & Ha). rewrite <- !reference_pick in Hr, Ha. unfold align. destruct (reference l) as [ref a], (reference l') as [ref' a']. cbn [fst snd] in *. subst a'.
  rewrite (proj2 (rlt_true _ _) T). cbn [andb]. destruct (pm_scal _ _ Hr) as (s & Hs & ->). exists s. split; [assumption|]. rewrite map_map.
  assert (K : forall x y, pm x y -> (fst (x * Cconj ref)%C = 0 -> x = RtoC 0) ->
    (if rlt (fst (y * Cconj (RtoC s * ref))%C) 0 then Copp y else y) = (RtoC s * (if rlt (fst (x * Cconj ref)%C) 0 then Copp x else x))%C).
  { intros x y Hxy Z. destruct (pm_scal _ _ Hxy) as (t & Ht & ->). rewrite re_scal. set (u := fst (x * Cconj ref)%C) in *.
    destruct (Rtotal_order u 0) as [L|[E|G]].
    - rewrite (proj2 (rlt_true u 0) L). destruct Hs as [->| ->], Ht as [->| ->].
      + rewrite (proj2 (rlt_true _ _)) by lra. ring.
      + rewrite (proj2 (rlt_false _ _)) by lra. apply C_ext; unfold RtoC, Cmul, Copp; simpl; ring.
      + rewrite (proj2 (rlt_false _ _)) by lra. apply C_ext; unfold RtoC, Cmul, Copp; simpl; ring.
      + rewrite (proj2 (rlt_true _ _)) by lra. apply C_ext; unfold RtoC, Cmul, Copp; simpl; ring.
    - rewrite (Z E). destruct (rlt u 0), (rlt (t * s * u) 0); apply C_ext; unfold RtoC, Cmul, Copp; simpl; ring.
    - rewrite (proj2 (rlt_false u 0)) by lra. destruct Hs as [->| ->], Ht as [->| ->].
      + rewrite (proj2 (rlt_false _ _)) by lra. ring.
      + rewrite (proj2 (rlt_true _ _)) by lra. apply C_ext; unfold RtoC, Cmul, Copp; simpl; ring.
      + rewrite (proj2 (rlt_true _ _)) by lra. apply C_ext; unfold RtoC, Cmul, Copp; simpl; ring.
      + rewrite (proj2 (rlt_false _ _)) by lra. apply C_ext; unfold RtoC, Cmul, Copp; simpl; ring. }
  assert (Z : forall x, In x l -> fst (x * Cconj ref)%C = 0 -> x = RtoC 0) by (intros x Hx E; destruct (D x ref Hx I E); [assumption|contradiction]).
  clear -F K Z. induction F as [|x y l l' Hxy F IH]; [reflexivity|]. cbn [map]. rewrite (K x y Hxy) by (apply Z; left; reflexivity). f_equal. apply IH. intros; apply Z; [right; assumption|assumption].
Qed.
Lemma csum_scal s l : csum (map (fun x => (RtoC s * x)%C) l) = (RtoC s * csum l)%C.
Proof. rewrite !csum_sumC, sumC_map. apply (sumC_scal (RtoC s) (fun x => x)). Qed.
Lemma cabs_sgn s x : sgn s -> cabs (RtoC s * x)%C = cabs x.
Proof. intros [->| ->]; unfold cabs, Cnorm2, RtoC, Cmul; simpl; f_equal; ring. Qed.
Theorem psi_flip l l' : flipped l l' -> sign_defined l -> (exists x, In x l /\ reference_tol < cabs x) ->
  (fst (psi_summary l') = fst (psi_summary l) \/ fst (psi_summary l') = Copp (fst (psi_summary l))) /\ snd (psi_summary l') = snd (psi_summary l).
Proof.
  intros F D V. destruct (align_flip l l' F D V) as (s & Hs & E). pose proof (Forall2_len _ _ _ F) as L. destruct l as [|x l], l' as [|y l']; try discriminate; [split; [left|]; reflexivity|].
  unfold psi_summary. cbn [fst snd]. rewrite E, csum_scal, <- L. set (m := over (csum (align (x :: l))) _).
  assert (Em : over (RtoC s * csum (align (x :: l)))%C (length (x :: l)) = (RtoC s * m)%C) by (unfold m, over; ring).
  rewrite Em, (cabs_sgn s m Hs). split.
  - destruct Hs as [->| ->]; [left; ring|right]. apply C_ext; unfold RtoC, Cmul, Copp; simpl; ring.
  - f_equal. clearbody m. clear -Hs. generalize 0 as d. induction (align (x :: l)) as [|z al IH]; intros d; [reflexivity|]. cbn [map fold_left]. 
    replace (RtoC s * z - RtoC s * m)%C with (RtoC s * (z - m))%C by ring. rewrite (cabs_sgn s _ Hs). apply IH.
Qed.
Lemma fold_rmax_ge (f : C -> R) l : forall d, d <= fold_left (fun d x => Rmax d (f x)) l d.
Proof. induction l as [|x l IH]; intros d; [cbn; lra|]. cbn [fold_left]. apply Rle_trans with (Rmax d (f x)); [apply Rmax_l|apply IH]. Qed.
Lemma fold_rmax_in (f : C -> R) l x : In x l -> forall d, f x <= fold_left (fun d x => Rmax d (f x)) l d.
Proof. induction l as [|y l IH]; [intros []|]. intros [->|H] d; cbn [fold_left]; [|now apply IH]. apply Rle_trans with (Rmax d (f x)); [apply Rmax_r|apply fold_rmax_ge]. Qed.
Theorem psi_nonneg l : 0 <= snd (psi_summary l).
Proof.
  destruct l as [|x l]; [cbn; lra|]. unfold psi_summary. cbn [snd]. apply Rmult_le_pos; [apply fold_rmax_ge|]. left. apply Rinv_0_lt_compat.
  eapply Rlt_le_trans; [apply eps_pos|apply Rmax_r].
Qed.
Theorem psi_equal l x0 : l <> [] -> reference_tol < cabs x0 -> (forall x, In x l -> x = x0 \/ x = Copp x0) ->
  snd (psi_summary l) = 0 /\ (fst (psi_summary l) = x0 \/ fst (psi_summary l) = Copp x0).
Proof.
  intros Hl T A. assert (V : exists x, In x l /\ reference_tol < cabs x).
  { destruct l as [|x l]; [congruence|]. exists x. split; [left; reflexivity|]. destruct (A x (or_introl eq_refl)) as [->| ->]; [assumption|now rewrite cabs_opp]. }
  destruct (reference_valid l V) as (T' & I & N). pose proof (A _ I) as Hr.
  assert (E : align l = map (fun _ => fst (reference l)) l).
  { unfold align. destruct (reference l) as [ref a]. cbn [fst snd] in *. rewrite (proj2 (rlt_true _ _) T'). cbn [andb]. apply map_ext_in. intros x Hx.
    assert (Q : x = ref \/ x = Copp ref). { destruct (A x Hx) as [->| ->], Hr as [->| ->]; auto; right; ring. }
    pose proof (Cnorm2_pos ref N) as P. unfold Cnorm2 in P. destruct Q as [->| ->].
    - rewrite (proj2 (rlt_false _ _)); [reflexivity|]. unfold Cmul, Cconj. simpl. lra.
    - rewrite (proj2 (rlt_true _ _)); [ring|]. unfold Cmul, Cconj, Copp. simpl. lra. }
  destruct l as [|x l]; [congruence|]. unfold psi_summary. cbn [fst snd]. rewrite E. set (ref := fst (reference (x :: l))) in *. clearbody ref. set (k := x :: l) in *.
  assert (M : over (csum (map (fun _ => ref) k)) (length k) = ref).
  { unfold over. rewrite csum_sumC, sumC_map. assert (Q : sumC (fun _ => ref) k = (RtoC (INR (length k)) * ref)%C).
    { clear. induction k as [|y k IH]; [rewrite sumC_nil; cbn; ring|]. rewrite sumC_cons, IH. cbn [length]. rewrite S_INR, RtoC_add. ring. }
    rewrite Q. replace (RtoC (INR (length k)) * ref * RtoC (/ INR (length k)))%C with (ref * (RtoC (INR (length k)) * RtoC (/ INR (length k))))%C by ring.
    rewrite <- RtoC_mul, Rinv_r by (apply not_0_INR; unfold k; discriminate). ring. }
  rewrite M. split; [|destruct Hr as [->| ->]; auto].
  assert (Z : fold_left (fun d x => Rmax d (cabs (x - ref)%C)) (map (fun _ => ref) k) 0 = 0).
  { clear. induction k as [|y k IH]; [reflexivity|]. cbn [map fold_left]. replace (ref - ref)%C with (RtoC 0) by ring. rewrite cabs_0, Rmax_left by lra. exact IH. }
  rewrite Z. unfold Rdiv. ring.
Qed.

(** Entries with a purely imaginary overlap with the reference keep whatever sign they came with. *)
Lemma cabs_pair a b : cabs (a, b) = sqrt (a * a + b * b). Proof. reflexivity. Qed.
Lemma pick_unit l : forall b, (forall x, In x l -> cabs x = 1) -> fold_left pick l (b, 1) = (b, 1).
Proof. induction l as [|x l IH]; intros b H; [reflexivity|]. cbn [fold_left pick]. rewrite (H x (or_introl eq_refl)). rewrite (proj2 (rlt_false 1 1)) by lra. apply IH. intros; apply H; now right. Qed.
Lemma cabs_i s : s * s = 1 -> cabs (0, s) = 1.
Proof. intros H. rewrite cabs_pair. replace (0 * 0 + s * s) with 1 by lra. apply sqrt_1. Qed.
Lemma cabs_1 : cabs (1, 0) = 1. Proof. rewrite cabs_pair. replace (1 * 1 + 0 * 0) with 1 by ring. apply sqrt_1. Qed.
Lemma tol_lt_1 : reference_tol < 1.
Proof. unfold reference_tol. rewrite <- Rinv_1. apply Rinv_lt_contravar; [|simpl; lra]. rewrite Rmult_1_l. apply pow_lt. lra. Qed.
Lemma align_i s t : s * s = 1 -> t * t = 1 -> align [(1, 0); (0, s); (0, t)] = [(1, 0); (0, s); (0, t)].
Proof.
  intros Hs Ht. unfold align. assert (E : reference [(1, 0); (0, s); (0, t)] = ((1, 0), 1)).
  { rewrite reference_pick. cbn [nth fold_left]. unfold pick at 3. rewrite cabs_1, (proj2 (rlt_true 0 1)) by lra. apply (pick_unit [(0, s); (0, t)]). intros x [<-|[<-|[]]]; now apply cabs_i. }
  rewrite E. cbn [map]. rewrite !(proj2 (rlt_true _ _) tol_lt_1). cbn [andb].
  assert (Z : forall u : R, rlt (fst (Cmul (0, u) (Cconj (1, 0)))) 0 = false) by (intros u; apply rlt_false; unfold Cmul, Cconj; simpl; lra).
  rewrite !Z. rewrite (proj2 (rlt_false _ _)); [reflexivity|]. unfold Cmul, Cconj. simpl. lra.
Qed.
Theorem psi_flip_complex : exists l l', flipped l l' /\ (exists x, In x l /\ reference_tol < cabs x) /\
  fst (psi_summary l') <> fst (psi_summary l) /\ fst (psi_summary l') <> Copp (fst (psi_summary l)).
Proof.
  exists [(1, 0); (0, 1); (0, 1)], [(1, 0); (0, 1); (0, -1)]. split; [|split].
  - constructor; [left; reflexivity|constructor; [left; reflexivity|constructor; [right|constructor]]]. apply C_ext; unfold Copp; simpl; lra.
  - exists (1, 0). split; [left; reflexivity|]. rewrite cabs_1. apply tol_lt_1.
  - unfold psi_summary. cbn [fst]. rewrite !align_i by lra. unfold csum, over. cbn [fold_left length].
    split; intros E; apply (f_equal snd) in E; revert E; unfold Cadd, Cmul, RtoC, Copp; simpl; lra.
Qed.
(** Below the reference threshold nothing is aligned: two opposite entries are reported as inconsistent. *)
Theorem psi_tiny : exists l l', flipped l l' /\ sign_defined l /\ snd (psi_summary l) = 0 /\ snd (psi_summary l') <> 0.
Proof.
  set (t := / 10 ^ 15). assert (Ht : 0 < t) by (apply Rinv_0_lt_compat, pow_lt; lra).
  assert (Lt : t < reference_tol). { unfold t, reference_tol. apply Rinv_lt_contravar; [apply Rmult_lt_0_compat; apply pow_lt; lra|]. simpl. lra. }
  assert (A : forall s, s * s = t * t -> cabs (s, 0) = t). { intros s Hs. rewrite cabs_pair. replace (s * s + 0 * 0) with (t * t) by lra. apply sqrt_square. lra. }
  assert (Al : forall s, s * s = t * t -> align [(t, 0); (s, 0)] = [(t, 0); (s, 0)]).
  { intros s Hs. unfold align. rewrite reference_pick. cbn [nth fold_left]. unfold pick at 2. rewrite (A t eq_refl), (proj2 (rlt_true 0 t)) by lra. unfold pick. rewrite (A s Hs), (proj2 (rlt_false t t)) by lra.
    cbn [map]. rewrite (proj2 (rlt_false reference_tol t)) by lra. reflexivity. }
  exists [(t, 0); (t, 0)], [(t, 0); (- t, 0)]. split; [|split; [|split]].
  - constructor; [left; reflexivity|constructor; [right|constructor]]. apply C_ext; unfold Copp; simpl; lra.
  - intros x y Hx Hy E. assert (x = (t, 0)) by (destruct Hx as [H|[H|[]]]; auto). assert (y = (t, 0)) by (destruct Hy as [H0|[H0|[]]]; auto). subst. unfold Cmul, Cconj in E. simpl in E. nra.
  - unfold psi_summary. cbn [snd]. rewrite (Al t eq_refl). assert (M : over (csum [(t, 0); (t, 0)]) 2 = (t, 0)) by (apply C_ext; unfold over, csum, Cadd, Cmul, RtoC; simpl; lra).
    cbn [length]. rewrite M. cbn [fold_left]. replace (Csub (t, 0) (t, 0)) with (RtoC 0) by ring. rewrite cabs_0. rewrite (Rmax_left 0 0) by lra. rewrite (Rmax_left 0 0) by lra. unfold Rdiv. ring.
  - unfold psi_summary. cbn [snd]. rewrite (Al (- t)) by ring. assert (M : over (csum [(t, 0); (- t, 0)]) 2 = RtoC 0) by (apply C_ext; unfold over, csum, Cadd, Cmul, RtoC; simpl; lra).
    cbn [length]. rewrite M. intros E. apply Rmult_integral in E. destruct E as [E|E].
    + pose proof (fold_rmax_in (fun x => cabs (x - RtoC 0)%C) [(t, 0); (- t, 0)] (t, 0) (or_introl eq_refl) 0) as G. apply (Rle_trans _ _ 0) in G; [|right; exact E]. assert (Q : Csub (t, 0) (RtoC 0) = (t, 0)) by (apply C_ext; unfold Csub, Cadd, Copp, RtoC; simpl; ring). cbv beta in G. rewrite Q, (A t eq_refl) in G. lra.
    + assert (0 < / Rmax (cabs (RtoC 0)) dbl_eps); [|lra]. apply Rinv_0_lt_compat. eapply Rlt_le_trans; [apply eps_pos|apply Rmax_r].
Qed.
