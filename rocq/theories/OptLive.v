(** The moving average, the step selectors, and a run that never accepts another step. *)
From Coq Require Import List Arith Bool Reals Lra Lia.
From Verif Require Import Base OptModel OptSpec OptProofs OptMain OptRuns OptLoop OptTerm.
Import ListNotations.
Local Open Scope R_scope.

(** *** C57 *)
Definition ema_of (window : nat) (xs : list R) : ema := fold_left (ema_update window) xs ema_fresh.
Lemma ema_snoc window xs x : ema_of window (xs ++ [x]) = ema_update window (ema_of window xs) x.
Proof. unfold ema_of. rewrite fold_left_app. reflexivity. Qed.
Lemma ema_on window xs : m_on (ema_of window xs) = match xs with [] => false | _ => true end.
Proof.
  induction xs as [|x xs IH] using rev_ind; [reflexivity|]. rewrite ema_snoc. unfold ema_update. destruct (m_on _), xs; reflexivity.
Qed.
Lemma alpha_range window : (1 <= window)%nat -> 0 < ema_alpha window <= 1.
Proof.
  intros H. apply le_INR in H. simpl in H. unfold ema_alpha. split; [apply Rdiv_lt_0_compat; lra|]. apply (Rmult_le_reg_r (INR window + 1)); [lra|]. unfold Rdiv. rewrite Rmult_assoc, Rinv_l by lra. lra.
Qed.
Lemma alpha_one window : (1 < window)%nat -> ema_alpha window < 1.
Proof.
  intros H. apply lt_INR in H. simpl in H. unfold ema_alpha. apply (Rmult_lt_reg_r (INR window + 1)); [lra|]. unfold Rdiv. rewrite Rmult_assoc, Rinv_l by lra. lra.
Qed.
Lemma ema_bounds window xs lo hi : (1 <= window)%nat -> xs <> [] -> (forall x, In x xs -> lo <= x <= hi) ->
  lo <= m_mean (ema_of window xs) <= hi /\ 0 <= m_var (ema_of window xs).
Proof.
  intros Hw. pose proof (alpha_range window Hw) as Ha. induction xs as [|x xs IH] using rev_ind; [congruence|]. intros _ B.
  assert (Bx : lo <= x <= hi) by (apply B; apply in_or_app; right; left; reflexivity). rewrite ema_snoc. unfold ema_update. rewrite ema_on. destruct xs as [|y xs']; [cbn; lra|].
  destruct IH as [[I1 I2] I3]; [discriminate|intros z Hz; apply B; apply in_or_app; left; exact Hz|]. set (m := ema_of window (y :: xs')) in *. cbn [m_mean m_var]. set (a := ema_alpha window) in *. clearbody m a. split; [split; nra|].
  assert (0 <= a * (x - m_mean m) * (x - m_mean m)). { rewrite Rmult_assoc. apply Rmult_le_pos; [lra|]. pose proof (Rle_0_sqr (x - m_mean m)). unfold Rsqr in *. lra. }
  apply Rmult_le_pos; lra.
Qed.
Lemma ema_constant window xs c : xs <> [] -> (forall x, In x xs -> x = c) -> m_mean (ema_of window xs) = c /\ m_var (ema_of window xs) = 0.
Proof.
  induction xs as [|x xs IH] using rev_ind; [congruence|]. intros _ B. assert (Bx : x = c) by (apply B; apply in_or_app; right; left; reflexivity). rewrite ema_snoc. unfold ema_update. rewrite ema_on. destruct xs as [|y xs']; [cbn; auto|].
  destruct IH as [I1 I2]; [discriminate|intros z Hz; apply B; apply in_or_app; left; exact Hz|]. set (m := ema_of window (y :: xs')) in *. cbn [m_mean m_var]. rewrite I1, I2, Bx. split; ring.
Qed.
Lemma ema_window_zero : m_var (ema_of 0 [0; 1]) < 0 /\ m_mean (ema_of 0 [0; 1]) > 1.
Proof. unfold ema_of, ema_update, ema_alpha. cbn. split; lra. Qed.

(** *** C36: the selectors by themselves *)
Lemma initial_spec cs : cs <> [] -> exists i c, select_initial cs = Ok (c_eta c) /\ nth_error cs i = Some c /\
  (forall j d, nth_error cs j = Some d -> c_energy c <= c_energy d) /\ (forall j d, (j < i)%nat -> nth_error cs j = Some d -> c_energy c < c_energy d).
Proof.
  destruct cs as [|c0 cs]; [congruence|]. intros _. cbn [select_initial fold_left fst]. destruct (rlt_spec (c_energy c0) (c_energy c0)) as [H|_]; [lra|].
  cut (forall rest pre i c, nth_error (c0 :: pre) i = Some c -> (forall j d, nth_error (c0 :: pre) j = Some d -> c_energy c <= c_energy d) -> (forall j d, (j < i)%nat -> nth_error (c0 :: pre) j = Some d -> c_energy c < c_energy d) ->
    exists i c', snd (fold_left (fun be c => if rlt (c_energy c) (fst be) then (c_energy c, c_eta c) else be) rest (c_energy c, c_eta c)) = c_eta c' /\ nth_error (c0 :: pre ++ rest) i = Some c' /\
      (forall j d, nth_error (c0 :: pre ++ rest) j = Some d -> c_energy c' <= c_energy d) /\ (forall j d, (j < i)%nat -> nth_error (c0 :: pre ++ rest) j = Some d -> c_energy c' < c_energy d)).
  { intros H. destruct (H cs [] 0%nat c0 eq_refl) as (i & c & E1 & E2 & E3 & E4).
    - intros [|j] d Hd; simpl in Hd; [injection Hd as <-; lra|destruct j; discriminate].
    - intros j d Hj. lia.
    - exists i, c. split; [cbn [fst]; f_equal; exact E1|]. auto. }
  induction rest as [|x rest IH]; intros pre i c N Mn Fi.
  - exists i, c. rewrite app_nil_r. cbn. auto.
  - cbn [fold_left fst]. replace (pre ++ x :: rest) with ((pre ++ [x]) ++ rest) by (rewrite <- app_assoc; reflexivity).
    assert (Il : (i < length (c0 :: pre))%nat) by (apply nth_error_Some; congruence).
    assert (Hs : forall j d, nth_error (c0 :: pre ++ [x]) j = Some d -> nth_error (c0 :: pre) j = Some d \/ (j = length (c0 :: pre) /\ d = x)).
    { intros j d Hd. change (c0 :: pre ++ [x]) with ((c0 :: pre) ++ [x]) in Hd. destruct (Nat.lt_ge_cases j (length (c0 :: pre))) as [Q|Q]; [rewrite nth_error_app1 in Hd by exact Q; auto|].
      rewrite nth_error_app2 in Hd by exact Q. destruct (j - length (c0 :: pre))%nat as [|k] eqn:Ek; [right; simpl in Hd; injection Hd as <-; split; [lia|reflexivity]|destruct k; discriminate]. }
    destruct (rlt_spec (c_energy x) (c_energy c)) as [L|L].
    + apply (IH (pre ++ [x]) (length (c0 :: pre)) x).
      * change (c0 :: pre ++ [x]) with ((c0 :: pre) ++ [x]). rewrite nth_error_app2, Nat.sub_diag by lia. reflexivity.
      * intros j d Hd. destruct (Hs j d Hd) as [Q|[_ ->]]; [specialize (Mn j d Q); lra|lra].
      * intros j d Hj Hd. destruct (Hs j d Hd) as [Q|[Q _]]; [specialize (Mn j d Q); lra|lia].
    + apply (IH (pre ++ [x]) i c).
      * change (c0 :: pre ++ [x]) with ((c0 :: pre) ++ [x]). rewrite nth_error_app1 by exact Il. exact N.
      * intros j d Hd. destruct (Hs j d Hd) as [Q|[_ ->]]; [exact (Mn j d Q)|lra].
      * intros j d Hj Hd. destruct (Hs j d Hd) as [Q|[Q _]]; [exact (Fi j d Hj Q)|lia].
Qed.
Lemma periodic_spec p iter a b e0 r0 e1 r1 : exists eta, select_periodic p iter [(a, e0, r0); (b, e1, r1)] = Ok eta /\
  (INR iter < p_per_ratio p * INR (p_max_iter p) -> (e1 < e0 -> eta = b) /\ (e0 <= e1 -> eta = a)) /\
  (p_per_ratio p * INR (p_max_iter p) <= INR iter -> (Rmax r0 r1 < e0 - e1 -> eta = b) /\ (e0 - e1 <= Rmax r0 r1 -> eta = a)).
Proof.
  unfold select_periodic, c_energy, c_eta, c_error. cbn [fst snd]. destruct (rlt_spec (INR iter) (p_per_ratio p * INR (p_max_iter p))) as [L|L]; eexists; (split; [reflexivity|]); split; intros H; try lra.
  - destruct (rlt_spec e1 e0); split; intros; try lra; reflexivity.
  - rewrite Rmult_1_l. destruct (rlt_spec (Rmax r0 r1) (e0 - e1)); split; intros; try lra; reflexivity.
Qed.

(** *** C33: an evaluator that keeps the loop from ever accepting a third step *)
Definition still : algorithm (W:=unit) (G:=unit) (A:=unit) (P:=unit) :=
  mkAlg false false (fun a => a) (fun a _ _ => Ok a) (fun a => a) (fun a => a) (fun _ _ _ => Ok tt) (fun _ _ w _ _ => w)
        (fun _ a _ w _ lr => Ok (a, (w, lr), (0, None), 0%nat)) (fun a => a) (fun a _ _ => a).
Section Live.
Variable p : params.
Hypothesis Hroll : p_rollback p = true.
Hypothesis Hsel : p_init_on p = false /\ p_per_on p = false.
Hypothesis Hmax : (2 < p_max_iter p)%nat.
Hypothesis Hwin : (1 < p_window p)%nat.
Hypothesis Hpat : (0 < p_patience p)%nat.
Hypothesis Hg : p_gtol p <= 0.
Let x := - (Rabs (p_etol p) + 1).
Let m2 := ema_of (p_window p) [0; x].
Let big := m_mean m2 + (Rabs (p_sigma p) + 1) * sqrt (m_var m2) + 1.
Definition spiky (n : nat) (_ : unit) : R * unit * R := match n with 0%nat => (0, tt, 0) | 1%nat => (x, tt, 0) | _ => (big, tt, 0) end.
Notation st := (st (W:=unit) (A:=unit) (Sc:=unit)).
Notation passS := (pass p still spiky (fun _ _ => (0, 0)) (fun _ => 0) (fun sc _ _ => (p_rate p, sc)) (fun _ _ _ => false)).
Notation runS := (run p still spiky (fun _ _ => (0, 0)) (fun _ => 0) (fun sc _ _ => (p_rate p, sc)) (fun _ _ _ => false)).
Lemma m2_var : 0 < m_var m2.
Proof.
  unfold m2, ema_of, ema_update. cbn [fold_left m_on ema_fresh m_mean m_var]. pose proof (alpha_range (p_window p) ltac:(lia)) as A1. pose proof (alpha_one (p_window p) Hwin) as A2. set (a := ema_alpha (p_window p)) in *.
  assert (x < 0) by (unfold x; pose proof (Rabs_pos (p_etol p)); lra). apply Rmult_lt_0_compat; [lra|]. rewrite Rplus_0_l, Rminus_0_r, Rmult_assoc. apply Rmult_lt_0_compat; [lra|]. nra.
Qed.
Definition quiet12 (s : st) : Prop := m_mean (s_mErr s) = 0 /\ m_mean (s_mG s) = 0.
Lemma d12 (s : st) err gn : quiet12 s -> detect12 p (s_mErr s) (s_mG s) err gn = None.
Proof. intros [Q1 Q2]. unfold detect12. rewrite Q1, Q2. assert (R0 : rlt 0 0 = false) by (apply rlt_false; lra). rewrite R0, !andb_false_r. reflexivity. Qed.
Lemma live_pass (s : st) : s_done s = false -> s_iter s = 2%nat -> s_mE s = m2 -> quiet12 s -> (2 <= s_calls s)%nat ->
  exists s', passS s = Ok s' /\ s_done s' = false /\ s_iter s' = 2%nat /\ s_mE s' = m2 /\ quiet12 s' /\ (2 <= s_calls s')%nat.
Proof.
  intros D It Me Q Ca. unfold pass. assert (Ev : spiky (s_calls s) (s_cur s) = (big, tt, 0)) by (destruct (s_calls s) as [|[|n]]; [lia|lia|reflexivity]). rewrite Ev.
  set (s0 := saw (Eval (s_cur s) big 0 0) (set_calls (S (s_calls s)) s)). cbn [a_seen still bind]. set (s1 := set_A (s_A s0) s0).
  rewrite (d12 s1) by exact Q. assert (N : (if p_auto p && (0 <? s_iter s1)%nat then @None signal else None) = None) by (destruct (_ && _); reflexivity). rewrite N. cbn [check].
  destruct Hsel as [H1 H2]. unfold any_selector, select. rewrite H1, H2. cbn [orb andb negb bind a_step still].
  set (s2 := set_calls _ _). cbn [a_natural still andb check]. rewrite Hroll. change (s_iter s2) with (s_iter s). rewrite It. cbn [andb Nat.ltb Nat.leb]. change (s_mE s2) with (s_mE s). rewrite Me.
  pose proof m2_var as V. pose proof (sqrt_lt_R0 _ V) as Sq. pose proof (Rle_abs (p_sigma p)) as Ra. pose proof (Rabs_pos (p_sigma p)) as Rp.
  assert (D4 : detect4 p m2 big = Some S4).
  { unfold detect4. assert (On : m_on m2 = true) by (unfold m2; rewrite ema_on; reflexivity). rewrite On. rewrite !(proj2 (rlt_true _ _)); [reflexivity|unfold big; nra|exact Sq|unfold big; nra]. }
  rewrite D4. cbn [check discards]. eexists. split; [reflexivity|]. assert (F := recover_fields still Rollback S4 big (m_mean m2 + p_sigma p * sqrt (m_var m2)) s2 eq_refl). cbv zeta in F. destruct F as (F1 & _ & _ & _ & _ & _ & _ & _ & _ & _ & _ & F12 & _).
  rewrite F12, F1. split; [exact D|]. split; [exact It|]. cbn [recover log]. unfold back_to_prev. cbn [s_prev]. unfold quiet12. destruct (s_prev _); cbn; (split; [exact Me|split; [exact Q|lia]]).
Qed.
Lemma live_run fuel : forall s, s_done s = false -> s_iter s = 2%nat -> s_mE s = m2 -> quiet12 s -> (2 <= s_calls s)%nat -> exists s', runS fuel s = Ok (Running s') /\ s_iter s' = 2%nat.
Proof.
  induction fuel as [|f IH]; intros s D It Me Q Ca; cbn [run]; rewrite D, It; cbn [orb]; (destruct (Nat.leb_spec (p_max_iter p) 2); [lia|]); [exists s; auto|].
  destruct (live_pass s D It Me Q Ca) as (s' & Ep & H1 & H2 & H3 & H4 & H5). rewrite Ep. cbn [bind]. apply IH; assumption.
Qed.
(** A pass in which nothing is detected is an acceptance. *)
Lemma calm_pass (s : st) e : spiky (s_calls s) (s_cur s) = (e, tt, 0) -> quiet12 s -> (s_iter s = 0%nat \/ detect4 p (s_mE s) e = None) ->
  exists t, passS s = Ok (accept p still (fun _ _ _ => false) e tt 0 0 (p_rate p) 0 (s_cur s) t) /\ s_calls t = S (s_calls s) /\ s_iter t = s_iter s /\ s_mE t = s_mE s /\ s_mErr t = s_mErr s /\ s_mG t = s_mG s /\ s_lowE t = s_lowE s /\ s_prevE t = s_prevE s /\ s_done t = s_done s /\ s_stall t = s_stall s.
Proof.
  intros Ev Q D4. unfold pass. rewrite Ev. set (s0 := saw (Eval (s_cur s) e 0 0) (set_calls (S (s_calls s)) s)). cbn [a_seen still bind]. set (s1 := set_A (s_A s0) s0).
  rewrite (d12 s1) by exact Q. assert (N : (if p_auto p && (0 <? s_iter s1)%nat then @None signal else None) = None) by (destruct (_ && _); reflexivity). rewrite N. cbn [check].
  destruct Hsel as [H1 H2]. unfold any_selector, select. rewrite H1, H2. cbn [orb andb negb bind a_step still]. set (s2 := set_calls _ _). cbn [a_natural still andb check]. rewrite Hroll. cbn [andb].
  assert (N4 : (if (0 <? s_iter s2)%nat then detect4 p (s_mE s2) e else None) = None). { change (s_iter s2) with (s_iter s). change (s_mE s2) with (s_mE s). destruct D4 as [->|D4]; [reflexivity|]. rewrite D4. destruct (0 <? s_iter s)%nat; reflexivity. }
  rewrite N4. cbn [check]. exists s2. split; [reflexivity|]. unfold s2. cbn. rewrite Nat.add_0_r. auto 12.
Qed.
Theorem livelock fuel : exists s, optimize p still spiky (fun _ _ => (0, 0)) (fun _ => 0) false (fun sc _ _ => (p_rate p, sc)) (fun _ _ _ => false) (S (S fuel)) (new_members tt tt) tt = Ok (Running s) /\ s_iter s = 2%nat.
Proof.
  unfold optimize, checks, any_selector. destruct Hsel as [H1 H2]. rewrite H1, H2. cbn [orb andb bind]. set (b := start p still (new_members tt tt) tt).
  assert (Bm : 1 < dbl_max). { unfold dbl_max. replace 1024%nat with (971 + 53)%nat by reflexivity. rewrite pow_add. pose proof (pow_R1_Rle 2 971 ltac:(lra)) as P1. assert (P2 : 2 ^ 53 > 3) by (simpl; lra). nra. }
  cbn [run]. change (s_done b) with false. change (s_iter b) with 0%nat. cbn [orb]. destruct (Nat.leb_spec (p_max_iter p) 0); [lia|].
  destruct (calm_pass b 0) as (t & Ep & T1 & T2 & T3 & T4 & T5 & T6 & T7 & T8 & T9); [reflexivity|split; reflexivity|left; reflexivity|]. rewrite Ep. cbn [bind]. clear Ep.
  set (s1 := accept p still (fun _ _ _ => false) 0 tt 0 0 (p_rate p) 0 (s_cur b) t).
  change (s_iter b) with 0%nat in T2. change (s_done b) with false in T8.
  assert (St : stops p 0 0 t = false) by (unfold stops; rewrite T2; reflexivity).
  pose proof (accept_fields p still (fun _ _ _ => false) 0 tt 0 0 (p_rate p) 0 (s_cur b) t) as F. pose proof (accept_flow p still (fun _ _ _ => false) 0 tt 0 0 (p_rate p) 0 (s_cur b) t) as Fl. cbv zeta in F, Fl. rewrite St in Fl. fold s1 in F, Fl. cbn beta iota in Fl.
  assert (E1 : s_mE s1 = ema_of (p_window p) [0]). { unfold s1, accept. cbn [s_mE]. rewrite T3. reflexivity. }
  assert (Q1 : quiet12 s1). { unfold s1, accept, quiet12. cbn [s_mErr s_mG]. rewrite T4, T5. split; reflexivity. }
  assert (C1 : s_calls s1 = 1%nat) by (unfold s1, accept; cbn [s_calls]; exact T1).
  destruct Fl as (L1 & _ & L3 & _ & L5 & L6 & L7 & _). rewrite T8 in L5. rewrite T2 in L6. destruct F as (_ & _ & _ & _ & _ & _ & F7 & _ & F9 & _).
  assert (Low1 : s_lowE s1 = 0). { rewrite F7. unfold new_low. rewrite T6. change (s_lowE b) with dbl_max. rewrite (proj2 (rlt_true 0 dbl_max)) by lra. reflexivity. }
  clearbody s1. clear t T1 T2 T3 T4 T5 T6 T7 T8 T9 St F7 F9 L7.
  cbn [run]. rewrite L5, L6. cbn [orb]. destruct (Nat.leb_spec (p_max_iter p) 1); [lia|].
  assert (xneg : x < 0) by (unfold x; pose proof (Rabs_pos (p_etol p)); lra).
  destruct (calm_pass s1 x) as (t & Ep & T1 & T2 & T3 & T4 & T5 & T6 & T7 & T8 & T9); [rewrite C1; reflexivity|exact Q1| |].
  { right. rewrite E1. unfold detect4, ema_of. cbn [fold_left ema_update ema_fresh m_on m_mean m_var]. assert (Z : rlt 0 (x - 0) = false) by (apply rlt_false; lra). rewrite Z. reflexivity. }
  rewrite Ep. cbn [bind]. clear Ep. set (s2 := accept p still (fun _ _ _ => false) x tt 0 0 (p_rate p) 0 (s_cur s1) t).
  assert (Nl : new_low x t = true) by (unfold new_low; rewrite T6, Low1; apply rlt_true; exact xneg).
  assert (St : stops p x 0 t = false).
  { unfold stops, should_stop, stall'. rewrite Nl, T2, L6, T7, L1. cbn [Nat.ltb Nat.leb andb]. rewrite (proj2 (rlt_false 0 (p_gtol p))) by lra. rewrite Rminus_0_r. rewrite (proj2 (rlt_false (Rabs x) (p_etol p))); [|rewrite Rabs_left by exact xneg; unfold x; pose proof (Rle_abs (p_etol p)); lra].
    cbn [orb]. apply Nat.leb_gt. exact Hpat. }
  pose proof (accept_flow p still (fun _ _ _ => false) x tt 0 0 (p_rate p) 0 (s_cur s1) t) as Fl. cbv zeta in Fl. rewrite St in Fl. fold s2 in Fl. cbn beta iota in Fl. destruct Fl as (_ & _ & _ & _ & M5 & M6 & _).
  apply (live_run fuel s2).
  - rewrite M5, T8. exact L5.
  - rewrite M6, T2, L6. reflexivity.
  - unfold s2, accept. cbn [s_mE]. rewrite T3, E1. reflexivity.
  - destruct Q1 as [Qa Qb]. unfold s2, accept, quiet12. cbn [s_mErr s_mG]. rewrite T4, T5. unfold ema_update. destruct (m_on (s_mErr s1)), (m_on (s_mG s1)); cbn [m_mean]; rewrite ?Qa, ?Qb; split; ring.
  - unfold s2, accept. cbn [s_calls]. rewrite T1, C1. lia.
Qed.
End Live.

(** *** A run with a repeated evaluation *)
(** two steps; the second evaluation has an error bar 200 times the usual one and is repeated *)
Definition counter : algorithm (W:=nat) (G:=unit) (A:=unit) (P:=unit) :=
  mkAlg false false (fun a => a) (fun a _ _ => Ok a) (fun a => a) (fun a => a) (fun _ _ _ => Ok tt) (fun _ _ w _ _ => w)
        (fun _ a _ w _ lr => Ok (a, (S w, lr), (0, None), 0%nat)) (fun a => a) (fun a _ _ => a).
Definition demo_params : params := mkParams 2 0 0 9 1 true 1 100 100 100 0 false 10 1 false 0 false false 0 0 false 1.
Definition demo_eval (n : nat) (_ : nat) : R * unit * R := match n with 0%nat => (0, tt, 1) | 1%nat => (-1, tt, 200) | _ => (-2, tt, 1) end.
Lemma dbl_big : 1 < dbl_max.
Proof. unfold dbl_max. replace 1024%nat with (971 + 53)%nat by reflexivity. rewrite pow_add. pose proof (pow_R1_Rle 2 971 ltac:(lra)) as P1. assert (P2 : 2 ^ 53 > 3) by (simpl; lra). nra. Qed.
Section Demo.
Notation st := (st (W:=nat) (A:=unit) (Sc:=unit)).
Notation passD := (pass demo_params counter demo_eval (fun _ _ => (0, 0)) (fun _ => 1) (fun (sc : unit) _ _ => (1, sc)) (fun _ _ _ => false)).
Notation acceptD := (accept demo_params counter (fun _ _ _ => false)).
Lemma demo_calm (s : st) e err : demo_eval (s_calls s) (s_cur s) = (e, tt, err) -> (s_iter s = 0%nat \/ detect12 demo_params (s_mErr s) (s_mG s) err 1 = None) ->
  exists t, passD s = Ok (acceptD e tt err 1 1 0 (S (s_cur s)) t) /\ core t = core s /\ s_obs t = s_obs s ++ [Eval (s_cur s) e err 1] /\ s_calls t = S (s_calls s) /\ s_nres t = s_nres s /\ s_mErr t = s_mErr s /\ s_mG t = s_mG s.
Proof.
  intros Ev H. unfold pass. rewrite Ev. set (s0 := saw (Eval (s_cur s) e err 1) (set_calls (S (s_calls s)) s)). cbn [a_seen counter bind]. set (s1 := set_A (s_A s0) s0).
  assert (N : (if p_auto demo_params && (0 <? s_iter s1)%nat then detect12 demo_params (s_mErr s1) (s_mG s1) err 1 else None) = None).
  { change (s_iter s1) with (s_iter s). change (s_mErr s1) with (s_mErr s). change (s_mG s1) with (s_mG s). destruct H as [H|H]; rewrite H; [reflexivity|]. destruct (p_auto demo_params && _); reflexivity. }
  rewrite N. cbn [check]. unfold any_selector, select. cbn [demo_params p_init_on p_per_on orb andb negb bind a_step counter]. set (s2 := set_calls _ _). cbn [a_natural andb check p_rollback].
  exists s2. split; [reflexivity|]. unfold s2. cbn. rewrite !Nat.add_0_r. repeat split.
Qed.
Lemma demo_spike (s : st) e err : demo_eval (s_calls s) (s_cur s) = (e, tt, err) -> (0 < s_iter s)%nat -> s_att s = 0%nat -> detect12 demo_params (s_mErr s) (s_mG s) err 1 = Some S1 ->
  exists s', passD s = Ok s' /\ s_iter s' = s_iter s /\ s_cur s' = s_cur s /\ s_done s' = s_done s /\ s_lowE s' = s_lowE s /\ s_prevE s' = s_prevE s /\ s_mErr s' = s_mErr s /\ s_mG s' = s_mG s /\ s_calls s' = S (s_calls s) /\ s_nres s' = S (s_nres s) /\ s_stall s' = s_stall s /\
    s_obs s' = s_obs s ++ [Eval (s_cur s) e err 1; Spike (mkEvent (s_iter s) 0 S1 Resample err (100 * m_mean (s_mErr s)))].
Proof.
  intros Ev Hi Ha H. unfold pass. rewrite Ev. set (s0 := saw (Eval (s_cur s) e err 1) (set_calls (S (s_calls s)) s)). cbn [a_seen counter bind]. set (s1 := set_A (s_A s0) s0).
  change (s_iter s1) with (s_iter s). change (s_mErr s1) with (s_mErr s). change (s_mG s1) with (s_mG s). change (s_att s1) with (s_att s). rewrite H, Ha. change (p_auto demo_params) with true. destruct (Nat.ltb_spec 0 (s_iter s)) as [L|L]; [|lia]. cbn [andb check].
  change (decide demo_params (has_prev s1) 0 (s_iter s)) with Resample. cbn [discards]. eexists. split; [reflexivity|]. unfold s1, s0. cbn. rewrite Ha, <- app_assoc. repeat split.
Qed.
Lemma demo_run : exists s, optimize demo_params counter demo_eval (fun _ _ => (0, 0)) (fun _ => 1) false (fun (sc : unit) _ _ => (1, sc)) (fun _ _ _ => false) 3 (new_members tt tt) 0%nat = Ok (Finished s) /\
  accepted (s_obs s) = [(0%nat, 0, 1, 1); (1%nat, -2, 1, 1)] /\ s_nres s = 1%nat /\ checkpoints (s_obs s) = [(1%nat, 2%nat)] /\
  s_obs s = [Eval 0%nat 0 1 1; Lowest 0%nat 0; Iter 0 0 1 1; Eval 1%nat (-1) 200 1; Spike (mkEvent 1 0 S1 Resample 200 (100 * 1)); Eval 1%nat (-2) 1 1; Lowest 1%nat (-2); Iter 1 (-2) 1 1; Ckpt 1 2%nat].
Proof.
  unfold optimize. change (checks demo_params counter false) with (@Ok unit tt). cbn [bind]. set (b := start demo_params counter (new_members tt tt) 0%nat). cbn [run]. change (s_done b) with false. change (s_iter b) with 0%nat. change (p_max_iter demo_params) with 2%nat. cbn [orb Nat.leb].
  destruct (demo_calm b 0 1 eq_refl (or_introl eq_refl)) as (t & Ep & Co & Ob & Ca & Nr & M1 & M2). rewrite Ep. cbn [bind]. clear Ep.
  pose proof (accept_flow demo_params counter (fun _ _ _ => false) 0 tt 1 1 1 0 (S (s_cur b)) t) as Fl. pose proof (accept_fields demo_params counter (fun _ _ _ => false) 0 tt 1 1 1 0 (S (s_cur b)) t) as F. cbv zeta in Fl, F.
  assert (Q1 : s_mErr (acceptD 0 tt 1 1 1 0 (S (s_cur b)) t) = mkEma 1 0 true /\ s_mG (acceptD 0 tt 1 1 1 0 (S (s_cur b)) t) = mkEma 1 0 true /\ s_calls (acceptD 0 tt 1 1 1 0 (S (s_cur b)) t) = 1%nat) by (unfold accept; cbn [s_mErr s_mG s_calls]; rewrite M1, M2, Ca; repeat split).
  set (s1 := acceptD 0 tt 1 1 1 0 (S (s_cur b)) t) in *. clearbody s1. unfold stops, low_obs, ck_obs, stall', new_low in Fl, F. rewrite (core_iter _ _ Co), (core_lowE _ _ Co), (core_cur _ _ Co), (core_done _ _ Co), (core_stall _ _ Co) in *. change (s_iter b) with 0%nat in *. change (s_lowE b) with dbl_max in *. change (s_cur b) with 0%nat in *. change (s_done b) with false in *. rewrite (proj2 (rlt_true 0 dbl_max)) in Fl, F by (pose proof dbl_big; lra).
  cbn [Nat.ltb Nat.leb andb] in Fl. destruct Fl as (A1 & _ & A3 & _ & A5 & A6 & A7 & A8). rewrite andb_false_r in A8. cbn [andb] in A8. rewrite Ob in A8. change (s_obs b) with (@nil (obs (W:=nat))) in A8. cbn [app] in A8.
  destruct F as (_ & _ & _ & _ & _ & _ & F7 & _ & F9 & _ & F11 & _). rewrite Nr in F11. change (s_nres b) with 0%nat in F11. destruct Q1 as (Q1 & Q2 & Q3). clear t Co Ob Ca Nr M1 M2.
  cbn [run]. rewrite A5, A6. change (p_max_iter demo_params) with 2%nat. cbn [orb Nat.leb].
  destruct (demo_spike s1 (-1) 200) as (s2 & Ep & B1 & B2 & B3 & B4 & B5 & B6 & B7 & B8 & B9 & B10 & B11); [rewrite Q3; reflexivity|rewrite A6; lia|exact A7| |].
  { rewrite Q1, Q2. unfold detect12. cbn [m_on m_mean andb demo_params p_ferr]. rewrite (proj2 (rlt_true 0 1)) by lra. rewrite (proj2 (rlt_true (100 * 1) 200)) by lra. reflexivity. }
  rewrite Ep. cbn [bind]. clear Ep. rewrite A3, A6, A8, Q1 in *. rewrite A5, F7, A1, Q2, Q3, F11, F9 in *. cbn [app m_mean] in B11. clear s1 A1 A3 A5 A6 A7 A8 F7 F9 F11 Q1 Q2 Q3.
  cbn [run]. rewrite B3, B1. change (p_max_iter demo_params) with 2%nat. cbn [orb Nat.leb].
  destruct (demo_calm s2 (-2) 1) as (t & Ep & Co & Ob & Ca & Nr & M1 & M2); [rewrite B8; reflexivity| |].
  { right. rewrite B6, B7. unfold detect12. cbn [m_on m_mean andb demo_params p_ferr p_fgrad]. rewrite (proj2 (rlt_true 0 1)) by lra. rewrite (proj2 (rlt_false (100 * 1) 1)) by lra. reflexivity. }
  rewrite Ep. cbn [bind]. clear Ep.
  pose proof (accept_flow demo_params counter (fun _ _ _ => false) (-2) tt 1 1 1 0 (S (s_cur s2)) t) as Fl. pose proof (accept_fields demo_params counter (fun _ _ _ => false) (-2) tt 1 1 1 0 (S (s_cur s2)) t) as F. cbv zeta in Fl, F.
  set (s3 := acceptD (-2) tt 1 1 1 0 (S (s_cur s2)) t) in *. clearbody s3. unfold stops, low_obs, ck_obs, stall', new_low in Fl, F. rewrite (core_iter _ _ Co), (core_lowE _ _ Co), (core_cur _ _ Co), (core_done _ _ Co), (core_prevE _ _ Co), B1, B2, B3, B4, B5 in *. rewrite (proj2 (rlt_true (-2) 0)) in Fl, F by lra.
  assert (Ss : should_stop demo_params (-2) 0 1 0 = false). { unfold should_stop. cbn [demo_params p_gtol p_etol p_patience]. rewrite (proj2 (rlt_false 1 0)) by lra. rewrite (proj2 (rlt_false (Rabs (-2 - 0)) 0)) by (pose proof (Rabs_pos (-2 - 0)); lra). reflexivity. }
  rewrite Ss in Fl. rewrite andb_false_r in Fl. destruct Fl as (_ & _ & _ & _ & C5 & C6 & _ & C8). destruct F as (_ & _ & _ & _ & _ & _ & _ & _ & _ & _ & F11 & _).
  assert (Ho : s_obs s3 = [Eval 0%nat 0 1 1; Lowest 0%nat 0; Iter 0 0 1 1; Eval 1%nat (-1) 200 1; Spike (mkEvent 1 0 S1 Resample 200 (100 * 1)); Eval 1%nat (-2) 1 1; Lowest 1%nat (-2); Iter 1 (-2) 1 1; Ckpt 1 2%nat]) by (rewrite C8, Ob, B11; reflexivity).
  exists s3. cbn [run]. rewrite C5, C6. change (p_max_iter demo_params) with 2%nat. cbn [orb Nat.leb]. split; [reflexivity|]. rewrite Ho. split; [reflexivity|]. split; [rewrite F11, Nr, B9; reflexivity|]. split; reflexivity.
Qed.
End Demo.
