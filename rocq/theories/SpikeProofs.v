(** The spike messages of a run are those of the specification. *)
From Coq Require Import List Arith Bool Reals Lra Lia.
From Verif Require Import Base OptModel OptSpec OptProofs OptMain OptRuns OptLive SpikeSpec.
Import ListNotations.
Local Open Scope R_scope.

Lemma Ok_inj {X} (a b : X) : Ok a = Ok b -> a = b.
Proof. intros E. inversion E. reflexivity. Qed.
(** *** Moving averages *)
Lemma smooth_snoc n xs x : smooth n (xs ++ [x]) = Some (match smooth n xs with None => (x, 0) | Some (m, v) => ((1 - weight n) * m + weight n * x, (1 - weight n) * (v + weight n * (x - m) ^ 2)) end).
Proof. unfold smooth. rewrite fold_left_app. cbn [fold_left]. destruct (fold_left _ xs None) as [[m v]|]; reflexivity. Qed.
Lemma smooth_ema n xs : smooth n xs = if m_on (ema_of n xs) then Some (m_mean (ema_of n xs), m_var (ema_of n xs)) else None.
Proof.
  induction xs as [|x xs IH] using rev_ind; [reflexivity|]. rewrite smooth_snoc, ema_snoc, IH. unfold ema_update. destruct (m_on (ema_of n xs)); cbn [m_on m_mean m_var]; [|reflexivity].
  unfold weight, ema_alpha. f_equal. f_equal; ring.
Qed.
Lemma smooth_some n xs : xs <> [] -> smooth n xs = Some (m_mean (ema_of n xs), m_var (ema_of n xs)).
Proof. intros H. rewrite smooth_ema, ema_on. destruct xs; [congruence|reflexivity]. Qed.
Lemma exceeded_ema n f xs x : exceeded n f xs x = if m_on (ema_of n xs) && rlt 0 (m_mean (ema_of n xs)) && rlt (f * m_mean (ema_of n xs)) x then Some (f * m_mean (ema_of n xs)) else None.
Proof. unfold exceeded. rewrite smooth_ema. destruct (m_on (ema_of n xs)); reflexivity. Qed.
Lemma rlt_ext a b c d : (a < b <-> c < d) -> rlt a b = rlt c d.
Proof. intros H. destruct (rlt_spec a b), (rlt_spec c d); tauto. Qed.
Lemma jumped_ema n k xs x : jumped n k xs x = if m_on (ema_of n xs) && rlt 0 (x - m_mean (ema_of n xs)) && rlt 0 (sqrt (m_var (ema_of n xs))) && rlt (k * sqrt (m_var (ema_of n xs))) (x - m_mean (ema_of n xs)) then Some (m_mean (ema_of n xs) + k * sqrt (m_var (ema_of n xs))) else None.
Proof.
  unfold jumped. rewrite smooth_ema. destruct (m_on (ema_of n xs)); [|reflexivity]. cbn [andb].
  rewrite (rlt_ext (m_mean (ema_of n xs)) x 0 (x - m_mean (ema_of n xs))) by lra.
  rewrite (rlt_ext (m_mean (ema_of n xs) + k * sqrt (m_var (ema_of n xs))) x (k * sqrt (m_var (ema_of n xs))) (x - m_mean (ema_of n xs))) by lra.
  destruct (rlt 0 (x - _)), (rlt 0 (sqrt _)); reflexivity.
Qed.

Section Traces.
Context {W : Type}.
Notation obs := (obs (W:=W)).
Lemma tries_app (a b : list obs) : fold_left tries_step (a ++ b) (false, 0%nat) = fold_left tries_step b (fold_left tries_step a (false, 0%nat)).
Proof. apply fold_left_app. Qed.
Lemma tries_quiet (l : list obs) (k : bool * nat) : Forall quiet l -> fold_left tries_step l k = k.
Proof. induction 1 as [|o l Q _ IH]; [reflexivity|]. destruct o; simpl in Q; try contradiction; exact IH. Qed.
Lemma tries_warn ws (k : bool * nat) : Forall (fun v => v_action v = AcceptWithWarning) ws -> fold_left tries_step (map (Spike (W:=W)) ws) k = k.
Proof. induction 1 as [|v l Q _ IH]; [reflexivity|]. cbn [map fold_left tries_step]. rewrite Q. exact IH. Qed.
Lemma tries_discard (t : list obs) w e err gn ws v : Forall (fun v => v_action v = AcceptWithWarning) ws -> discards (v_action v) = true ->
  tries (t ++ Eval w e err gn :: map Spike ws ++ [Spike v]) = match v_action v with Resample => S (tries t) | _ => 0%nat end.
Proof.
  intros F D. unfold tries. rewrite tries_app. cbn [fold_left]. rewrite fold_left_app, tries_warn by exact F. cbn [fold_left tries_step]. destruct (v_action v); try discriminate; reflexivity.
Qed.
Lemma tries_accept (t : list obs) w e err gn ws l : Forall (fun v => v_action v = AcceptWithWarning) ws -> Forall quiet l -> tries (t ++ Eval w e err gn :: map Spike ws ++ l) = 0%nat.
Proof. intros F Q. unfold tries. rewrite tries_app. cbn [fold_left]. rewrite fold_left_app, tries_warn by exact F. rewrite tries_quiet by exact Q. reflexivity. Qed.
Lemma before_all (t : list obs) : no_eval t -> before_eval t = t.
Proof. induction t as [|o t IH]; intros H; [reflexivity|]. pose proof (H o (or_introl eq_refl)) as Ho. destruct o; try contradiction; cbn [before_eval]; f_equal; apply IH; intros x Hx; apply H; right; exact Hx. Qed.
Lemma before_app (a b : list obs) w e err gn : before_eval (a ++ Eval w e err gn :: b) = before_eval a.
Proof. induction a as [|o a IH]; [reflexivity|]. destruct o; cbn [app before_eval]; congruence. Qed.
Lemma no_eval_msgs ws (l : list obs) : Forall quiet l -> no_eval (map Spike ws ++ l).
Proof.
  intros Q o Ho. apply in_app_or in Ho. destruct Ho as [Ho|Ho]; [apply in_map_iff in Ho; destruct Ho as (v & <- & _); exact I|]. rewrite Forall_forall in Q. specialize (Q o Ho). destruct o; try exact I. destruct Q.
Qed.
End Traces.

Section Loop.
Context {W G A P Sc : Type}.
Variable p : params.
Variable alg : algorithm (W:=W) (G:=G) (A:=A) (P:=P).
Variable eval : nat -> W -> R * G * R.
Variable trial : nat -> W -> R * R.
Variable gnorm : G -> R.
Variable scheduled : bool.
Variable rate : Sc -> nat -> R -> R * Sc.
Variable user_stop : nat -> R -> R -> bool.
Notation st := (st (W:=W) (A:=A) (Sc:=Sc)).
Notation pass := (pass p alg eval trial gnorm rate user_stop).
Notation run := (run p alg eval trial gnorm rate user_stop).
Notation optimize := (optimize p alg eval trial gnorm scheduled rate user_stop).
Notation accept := (accept p alg user_stop).
Notation recover := (recover alg).
Notation obs := (obs (W:=W)).

(** What the state after a pass owes to the messages [vs] about it. *)
Definition ev_of (s : st) sig act v t : event := mkEvent (s_iter s) (s_att s) sig act v t.
Definition act_of (s : st) : action := decide p (has_prev s) (s_att s) (s_iter s).
Definition msg1 (s : st) (err gn : R) : list event :=
  match (if p_auto p && (0 <? s_iter s)%nat then detect12 p (s_mErr s) (s_mG s) err gn else None) with
  | Some x => [ev_of s x (act_of s) (match x with S1 => err | _ => gn end) (match x with S1 => p_ferr p * m_mean (s_mErr s) | _ => p_fgrad p * m_mean (s_mG s) end)]
  | None => [] end.
Definition msg3 (s : st) (ng : R) (iters : option nat) : list event :=
  match (if a_natural alg && p_auto p && (0 <? s_iter s)%nat then detect3 p (s_mN s) ng iters else None) with
  | Some x => [ev_of s x (act_of s) ng (p_fngrad p * m_mean (s_mN s))] | None => [] end.
Definition msg4 (s : st) (e : R) : list event :=
  match (if p_rollback p && (0 <? s_iter s)%nat then detect4 p (s_mE s) e else None) with
  | Some x => [ev_of s x Rollback e (m_mean (s_mE s) + p_sigma p * sqrt (m_var (s_mE s)))] | None => [] end.
Lemma msg4_until s e : until_discarded (msg4 s e) = msg4 s e.
Proof. unfold msg4. destruct (if p_rollback p && (0 <? s_iter s)%nat then detect4 p (s_mE s) e else None); reflexivity. Qed.
(** a step of the algorithm on the state [w] gave this natural gradient norm in so many iterations *)
Definition stepped (w : W) (ng : R) (iters : option nat) : Prop := exists k a d g lr a' next eff more, a_step alg k a d w g lr = Ok (a', (next, eff), (ng, iters), more).

Lemma check_sem sig act v th (s : st) : check alg sig act v th s =
  match sig with
  | None => inl s
  | Some x => if discards (act x) then inr (recover (act x) (log x (act x) (v x) (th x) s)) else inl (log x (act x) (v x) (th x) s)
  end.
Proof. reflexivity. Qed.
Lemma log_core sig act v th (s : st) : core (log sig act v th s) = core s.
Proof. destruct act; reflexivity. Qed.
Lemma log_obs sig act v th (s : st) : s_obs (log sig act v th s) = s_obs s ++ [Spike (ev_of s sig act v th)].
Proof. destruct act; reflexivity. Qed.
(** after a discarded evaluation *)
Definition after_discard (s s' : st) (act : action) : Prop :=
  s_iter s' = s_iter s /\ s_done s' = s_done s /\ s_mE s' = s_mE s /\ s_mErr s' = s_mErr s /\ s_mG s' = s_mG s /\ s_mN s' = s_mN s /\
  s_att s' = match act with Resample => S (s_att s) | _ => 0%nat end /\ has_prev s' = match act with Resample => has_prev s | _ => false end.
Lemma recover_sem act (s t : st) : discards act = true -> core t = core s -> after_discard s (recover act t) act /\ s_obs (recover act t) = s_obs t.
Proof.
  intros D C. unfold core in C. injection C as E1 E2 E3 E4 E5 E6 E7 E8 E9 E10 E11 E12 E13 E14 E15 E16 E17 E18 E19 E20. unfold after_discard, has_prev. destruct act; try discriminate; cbn; [rewrite E13; repeat split; congruence|].
  unfold back_to_prev. destruct (s_prev t) eqn:Q; cbn; rewrite ?Q; repeat split; congruence.
Qed.
Definition after_accept (s s' : st) (e err gn ng : R) : Prop :=
  s_mE s' = ema_update (p_window p) (s_mE s) e /\ s_mErr s' = ema_update (p_window p) (s_mErr s) err /\ s_mG s' = ema_update (p_window p) (s_mG s) gn /\
  s_mN s' = (if a_natural alg then ema_update (p_window p) (s_mN s) ng else s_mN s) /\
  (s_done s' = false -> s_iter s' = S (s_iter s) /\ s_att s' = 0%nat /\ has_prev s' = p_rollback p || has_prev s).
Lemma accept_sem e g err gn eff ng next (s t : st) : core t = core s -> s_done s = false -> after_accept s (accept e g err gn eff ng next t) e err gn ng.
Proof.
  intros C D. unfold core in C. injection C as E1 E2 E3 E4 E5 E6 E7 E8 E9 E10 E11 E12 E13 E14 E15 E16 E17 E18 E19 E20. unfold after_accept, OptModel.accept. cbn [s_mE s_mErr s_mG s_mN s_done s_iter s_att s_prev].
  rewrite E9, E10, E11, E12. do 4 (split; [reflexivity|]).
  unfold has_prev. cbn [s_prev]. rewrite E1. destruct (_ && should_stop _ _ _ _ _) eqn:Sp; cbn [orb]; [discriminate|]. destruct (user_stop _ _ _); [discriminate|]. intros _. repeat split. destruct (p_rollback p); [reflexivity|]. rewrite E13. reflexivity.
Qed.

Theorem pass_judged s s' : s_done s = false -> pass s = Ok s' -> exists e g err ng iters vs l,
  eval (s_calls s) (s_cur s) = (e, g, err) /\ s_obs s' = s_obs s ++ Eval (s_cur s) e err (gnorm g) :: map Spike vs ++ l /\ Forall quiet l /\
  vs = until_discarded (msg1 s err (gnorm g) ++ msg3 s ng iters ++ msg4 s e) /\
  (existsb (fun v => discards (v_action v)) (msg1 s err (gnorm g)) = true \/ stepped (s_cur s) ng iters) /\
  ((exists ws v, vs = ws ++ [v] /\ l = [] /\ Forall (fun v => v_action v = AcceptWithWarning) ws /\ discards (v_action v) = true /\ after_discard s s' (v_action v)) \/
   (Forall (fun v => v_action v = AcceptWithWarning) vs /\ stepped (s_cur s) ng iters /\ after_accept s s' e err (gnorm g) ng)).
Proof.
  intros Dn. unfold OptModel.pass. destruct (eval (s_calls s) (s_cur s)) as [[e g] err] eqn:Ev.
  set (s0 := saw (Eval (s_cur s) e err (gnorm g)) (set_calls (S (s_calls s)) s)).
  destruct (a_seen alg (s_A s0) (s_cur s0) g) as [acc|f]; [|discriminate]. cbn [bind].
  set (s1 := set_A acc s0).
  assert (C1 : core s1 = core s) by reflexivity. assert (O1 : s_obs s1 = s_obs s ++ [Eval (s_cur s) e err (gnorm g)]) by reflexivity.
  assert (M1 : exists m, msg1 s err (gnorm g) = m /\ m = msg1 s1 err (gnorm g)) by (eexists; split; reflexivity). destruct M1 as (m1 & M1 & M1').
  rewrite check_sem. unfold msg1 in M1'. unfold act_of in M1'.
  set (sig1 := if p_auto p && (0 <? s_iter s1)%nat then detect12 p (s_mErr s1) (s_mG s1) err (gnorm g) else None) in *.
  assert (Dc : forall b : st, discards (decide p (has_prev b) (s_att b) (s_iter b)) = false -> decide p (has_prev b) (s_att b) (s_iter b) = AcceptWithWarning).
  { intros b. destruct (decide_cases p (has_prev b) (s_att b) (s_iter b)) as [[-> _]|[(-> & _)|[-> _]]]; [discriminate|discriminate|reflexivity]. }
  clearbody s1. 
  assert (K2 : forall (s2 : st) ws, core s2 = core s -> s_obs s2 = s_obs s ++ Eval (s_cur s) e err (gnorm g) :: map Spike ws -> ws = m1 -> Forall (fun v => v_action v = AcceptWithWarning) ws ->
    (let '(lr0, sc) := if any_selector p then (s_base s2, s_sched s2) else rate (s_sched s2) (s_iter s2) (if (s_iter s2 =? 0)%nat then e else s_prevE s2) in
      let s := set_sched sc s2 in
      sel <- select p alg trial s g err;;
      let '(lr, d, extra) := match sel with Some (r, d, k) => (r, Some d, k) | None => (lr0, None, 0%nat) end in
      let s := set_calls (s_calls s + extra) (match sel with Some _ => set_base lr s | None => s end) in
      out <- a_step alg (s_calls s) (s_A s) d (s_cur s) g lr;;
      let '(acc, (next, eff), (ng, iters), more) := out in
      let s := set_calls (s_calls s + more) (set_A acc s) in
      match check alg (if a_natural alg && p_auto p && (0 <? s_iter s)%nat then detect3 p (s_mN s) ng iters else None)
                  (fun _ => decide p (has_prev s) (s_att s) (s_iter s))
                  (fun _ => ng) (fun _ => p_fngrad p * m_mean (s_mN s)) s with
      | inr s => Ok s
      | inl s =>
          match check alg (if p_rollback p && (0 <? s_iter s)%nat then detect4 p (s_mE s) e else None)
                      (fun _ => Rollback) (fun _ => e) (fun _ => m_mean (s_mE s) + p_sigma p * sqrt (m_var (s_mE s))) s with
          | inr s => Ok s
          | inl s => Ok (accept e g err (gnorm g) eff ng next s)
          end
      end) = Ok s' -> exists ng iters vs l, s_obs s' = s_obs s ++ Eval (s_cur s) e err (gnorm g) :: map Spike vs ++ l /\ Forall quiet l /\
      vs = ws ++ until_discarded (msg3 s ng iters ++ msg4 s e) /\ stepped (s_cur s) ng iters /\
      ((exists ws v, vs = ws ++ [v] /\ l = [] /\ Forall (fun v => v_action v = AcceptWithWarning) ws /\ discards (v_action v) = true /\ after_discard s s' (v_action v)) \/
       (Forall (fun v => v_action v = AcceptWithWarning) vs /\ stepped (s_cur s) ng iters /\ after_accept s s' e err (gnorm g) ng))).
  { intros s2 ws C2 O2 _ Fw. destruct (if any_selector p then _ else _) as [lr0 sc]. cbv zeta.
    destruct (select p alg trial (set_sched sc s2) g err) as [sel|f]; [|discriminate]. cbn [bind].
    destruct (match sel with Some (r, d, k) => (r, Some d, k) | None => (lr0, None, 0%nat) end) as [[lr d] extra].
    set (s4 := set_calls _ (match sel with Some _ => _ | None => _ end)).
    assert (C4 : core s4 = core s) by (unfold s4; destruct sel as [[[? ?] ?]|]; exact C2). assert (O4 : s_obs s4 = s_obs s ++ Eval (s_cur s) e err (gnorm g) :: map Spike ws) by (unfold s4; destruct sel as [[[? ?] ?]|]; exact O2). clearbody s4.
    destruct (a_step alg (s_calls s4) (s_A s4) d (s_cur s4) g lr) as [[[[acc' [next eff]] [ng iters]] more]|f] eqn:Ea; [|discriminate]. cbn [bind].
    rewrite (core_cur _ _ C4) in Ea.
    set (s5 := set_calls (s_calls s4 + more) (set_A acc' s4)).
    assert (C5 : core s5 = core s) by exact C4. assert (O5 : s_obs s5 = s_obs s ++ Eval (s_cur s) e err (gnorm g) :: map Spike ws) by exact O4. clearbody s5.
    assert (Sg : stepped (s_cur s) ng iters) by (repeat eexists; exact Ea).
    intros E. exists ng, iters. rewrite !check_sem in E.
    assert (H5 : s_iter s5 = s_iter s /\ s_att s5 = s_att s /\ has_prev s5 = has_prev s /\ s_mN s5 = s_mN s).
    { unfold core in C5. injection C5 as E1 E2 E3 E4 E5 E6 E7 E8 E9 E10 E11 E12 E13 E14 E15 E16 E17 E18 E19 E20. unfold has_prev. rewrite E13. auto. }
    destruct H5 as (I5 & T5 & P5 & N5). rewrite I5, T5, P5, N5 in E.
    set (m3 := msg3 s ng iters). assert (M3 : m3 = msg3 s ng iters) by reflexivity. unfold msg3, act_of in M3. clearbody m3.
    assert (K6 : forall (s6 : st) ws6, core s6 = core s -> s_obs s6 = s_obs s ++ Eval (s_cur s) e err (gnorm g) :: map Spike ws6 -> ws6 = ws ++ m3 -> Forall (fun v => v_action v = AcceptWithWarning) ws6 ->
      match check alg (if p_rollback p && (0 <? s_iter s6)%nat then detect4 p (s_mE s6) e else None)
                      (fun _ => Rollback) (fun _ => e) (fun _ => m_mean (s_mE s6) + p_sigma p * sqrt (m_var (s_mE s6))) s6 with
          | inr s => Ok s
          | inl s => Ok (accept e g err (gnorm g) eff ng next s)
          end = Ok s' -> exists vs l, s_obs s' = s_obs s ++ Eval (s_cur s) e err (gnorm g) :: map Spike vs ++ l /\ Forall quiet l /\
      vs = ws6 ++ msg4 s e /\ stepped (s_cur s) ng iters /\
      ((exists ws v, vs = ws ++ [v] /\ l = [] /\ Forall (fun v => v_action v = AcceptWithWarning) ws /\ discards (v_action v) = true /\ after_discard s s' (v_action v)) \/
       (Forall (fun v => v_action v = AcceptWithWarning) vs /\ stepped (s_cur s) ng iters /\ after_accept s s' e err (gnorm g) ng))).
    { intros s6 ws6 C6 O6 _ F6 E6. rewrite check_sem in E6.
      assert (H6 : s_iter s6 = s_iter s /\ s_att s6 = s_att s /\ s_mE s6 = s_mE s). { unfold core in C6. injection C6 as ? ? ? ? ? ? ? ? ? ? ? ? ? ? ? ? ? ? ? ?. auto. }
      destruct H6 as (I6 & T6 & N6). rewrite I6, N6 in E6. unfold msg4. destruct (if p_rollback p && (0 <? s_iter s)%nat then detect4 p (s_mE s) e else None) as [x|].
      - cbn [discards] in E6. apply Ok_inj in E6. subst s'. eexists (ws6 ++ [_]), []. destruct (recover_sem Rollback s (log x Rollback e (m_mean (s_mE s) + p_sigma p * sqrt (m_var (s_mE s))) s6) eq_refl) as [Q1 Q2]; [rewrite log_core; exact C6|].
        rewrite Q2, log_obs, O6. split; [rewrite map_app, !app_nil_r, <- app_assoc; cbn [app map]; reflexivity|]. split; [constructor|]. split; [unfold ev_of; rewrite I6, T6; reflexivity|]. split; [exact Sg|]. left. eexists ws6, _. split; [reflexivity|]. split; [reflexivity|]. split; [exact F6|]. split; [reflexivity|exact Q1].
      - apply Ok_inj in E6. subst s'. exists ws6, (tail_obs p user_stop e err (gnorm g) next s6). rewrite accept_obs, O6, <- app_assoc. cbn [app]. split; [reflexivity|]. split; [apply tail_quiet|]. split; [rewrite app_nil_r; reflexivity|]. split; [exact Sg|]. right. split; [exact F6|]. split; [exact Sg|]. apply accept_sem; assumption. }
    destruct (if a_natural alg && p_auto p && (0 <? s_iter s)%nat then detect3 p (s_mN s) ng iters else None) as [x|] eqn:Sx.
    - destruct (discards (decide p (has_prev s) (s_att s) (s_iter s))) eqn:D3.
      + apply Ok_inj in E. subst s'. eexists (ws ++ [_]), []. destruct (recover_sem _ s (log x (decide p (has_prev s) (s_att s) (s_iter s)) ng (p_fngrad p * m_mean (s_mN s)) s5) D3) as [Q1 Q2]; [rewrite log_core; exact C5|].
        rewrite Q2, log_obs, O5. split; [rewrite map_app, !app_nil_r, <- app_assoc; cbn [app map]; reflexivity|]. split; [constructor|].
        split; [rewrite M3; cbn [app until_discarded v_action ev_of]; rewrite D3; unfold ev_of; rewrite I5, T5; reflexivity|]. split; [exact Sg|]. left. eexists ws, _. split; [reflexivity|]. split; [reflexivity|]. split; [exact Fw|]. split; [exact D3|exact Q1].
      + destruct (K6 (log x (decide p (has_prev s) (s_att s) (s_iter s)) ng (p_fngrad p * m_mean (s_mN s)) s5) (ws ++ m3)) with (5 := E) as (vs & l & H1 & H2 & H3 & H4 & H5); [rewrite log_core; exact C5| |reflexivity| |].
        * rewrite log_obs, O5, M3, <- app_assoc, map_app. cbn [app map]. unfold ev_of. rewrite I5, T5. reflexivity.
        * apply Forall_app. split; [exact Fw|]. rewrite M3. constructor; [|constructor]. cbn [v_action ev_of]. apply Dc. exact D3.
        * exists vs, l. split; [exact H1|]. split; [exact H2|]. split; [|split; assumption]. rewrite H3, <- app_assoc. f_equal. rewrite M3. cbn [app until_discarded v_action ev_of]. rewrite D3. f_equal. symmetry. apply msg4_until.
    - destruct (K6 s5 ws) with (5 := E) as (vs & l & H1 & H2 & H3 & H4 & H5); [exact C5|exact O5|rewrite M3, app_nil_r; reflexivity|exact Fw|].
      exists vs, l. split; [exact H1|]. split; [exact H2|]. split; [|split; assumption]. rewrite H3. f_equal. rewrite M3. cbn [app]. symmetry. apply msg4_until. }
  destruct sig1 as [x|] eqn:Sx.
  - destruct (discards (decide p (has_prev s1) (s_att s1) (s_iter s1))) eqn:D1.
    + intros E. apply Ok_inj in E. subst s'. exists e, g, err, 0, None. eexists [_], []. destruct (recover_sem _ s (log x (decide p (has_prev s1) (s_att s1) (s_iter s1)) (match x with S1 => err | _ => gnorm g end) (match x with S1 => p_ferr p * m_mean (s_mErr s1) | _ => p_fgrad p * m_mean (s_mG s1) end) s1) D1) as [Q1 Q2]; [rewrite log_core; exact C1|].
      split; [reflexivity|]. rewrite Q2, log_obs, O1. split; [rewrite <- app_assoc; cbn [app map]; reflexivity|]. split; [constructor|]. split; [rewrite M1, M1'; cbn [app until_discarded v_action ev_of]; rewrite D1; reflexivity|].
      split; [left; rewrite M1, M1'; cbn [existsb v_action ev_of]; rewrite D1; reflexivity|]. left. eexists [], _. split; [reflexivity|]. split; [reflexivity|]. split; [constructor|]. split; [exact D1|exact Q1].
    + intros E. destruct (K2 (log x (decide p (has_prev s1) (s_att s1) (s_iter s1)) (match x with S1 => err | _ => gnorm g end) (match x with S1 => p_ferr p * m_mean (s_mErr s1) | _ => p_fgrad p * m_mean (s_mG s1) end) s1) m1) with (5 := E) as (ng & iters & vs & l & H1 & H2 & H3 & H4 & H5); [rewrite log_core; exact C1| |reflexivity| |].
      * rewrite log_obs, O1, M1', <- app_assoc. reflexivity.
      * rewrite M1'. constructor; [|constructor]. cbn [v_action ev_of]. apply Dc. exact D1.
      * exists e, g, err, ng, iters, vs, l. split; [reflexivity|]. split; [exact H1|]. split; [exact H2|]. split; [|split; [right; exact H4|exact H5]]. rewrite H3, M1, M1'. cbn [app until_discarded v_action ev_of]. rewrite D1. reflexivity.
  - intros E. destruct (K2 s1 []) with (5 := E) as (ng & iters & vs & l & H1 & H2 & H3 & H4 & H5); [exact C1|exact O1|symmetry; exact M1'|constructor|].
    exists e, g, err, ng, iters, vs, l. split; [reflexivity|]. split; [exact H1|]. split; [exact H2|]. split; [|split; [right; exact H4|exact H5]]. rewrite H3, M1, M1'. reflexivity.
Qed.

Definition discarded (l : list event) : bool := existsb (fun v => discards (v_action v)) l.
Definition judged (ns : list R) (t1 : list obs) (w : W) (e err gn : R) (rest : list obs) : Prop := exists ng iters,
  (discarded (first_message p t1 err gn) = true \/ stepped w ng iters) /\
  spikes (before_eval rest) = until_discarded (first_message p t1 err gn ++ (if a_natural alg then natural_message p t1 (firstn (length (accepted t1)) ns) ng iters else []) ++ energy_message p t1 e).
Definition synced (s : st) : Prop := s_iter s = length (accepted (s_obs s)) /\ s_att s = tries (s_obs s) /\ has_prev s = can_go_back p (s_obs s).
Definition averaged (s : st) (ns : list R) : Prop := let acc := accepted (s_obs s) in
  length ns = length acc /\
  s_mE s = ema_of (p_window p) (map ev_energy acc) /\ s_mErr s = ema_of (p_window p) (map ev_error acc) /\ s_mG s = ema_of (p_window p) (map ev_gnorm acc) /\
  (a_natural alg = true -> s_mN s = ema_of (p_window p) ns).
Lemma act_remedy s : synced s -> act_of s = remedy p (s_obs s).
Proof.
  intros (H1 & H2 & H3). unfold act_of, remedy, decide. rewrite H2. destruct (_ <? _)%nat; [reflexivity|]. rewrite H3, H1. unfold can_go_back.
  destruct (p_rollback p); cbn [andb]; [|reflexivity]. destruct (0 <? length (accepted (s_obs s)))%nat; cbn [andb]; [|reflexivity]. rewrite andb_true_r. reflexivity.
Qed.
Lemma msg1_spec s ns err gn : synced s -> averaged s ns -> msg1 s err gn = first_message p (s_obs s) err gn.
Proof.
  intros S1' A1. pose proof (act_remedy s S1') as Ra. destruct S1' as (H1 & H2 & H3). destruct A1 as (_ & _ & A2 & A3 & _). unfold msg1, first_message, watching. rewrite H1.
  destruct (p_auto p && _); [|reflexivity]. rewrite !exceeded_ema. unfold detect12, ev_of, about. rewrite A2, A3, Ra, H1, H2.
  destruct (m_on _ && _ && rlt (p_ferr p * _) err); [reflexivity|]. destruct (m_on _ && _ && _); reflexivity.
Qed.
Lemma msg3_spec s ns ng iters : synced s -> averaged s ns -> msg3 s ng iters = if a_natural alg then natural_message p (s_obs s) ns ng iters else [].
Proof.
  intros S1' A1. pose proof (act_remedy s S1') as Ra. destruct S1' as (H1 & H2 & H3). destruct A1 as (Ln & _ & _ & _ & A3). unfold msg3, natural_message, watching. destruct (a_natural alg); [|reflexivity]. cbn [andb]. specialize (A3 eq_refl). rewrite H1.
  destruct (p_auto p && (0 <? length (accepted (s_obs s)))%nat) eqn:Q; [|reflexivity]. apply andb_prop in Q. destruct Q as [_ Q]. apply Nat.ltb_lt in Q.
  rewrite !exceeded_ema, smooth_some by (intros ->; cbn in Ln; lia). unfold detect3, ev_of, about. rewrite A3, Ra, H1, H2.
  destruct (m_on _ && _ && rlt _ ng); [reflexivity|]. destruct iters as [k|]; [destruct (_ <=? _)%nat; reflexivity|reflexivity].
Qed.
Lemma msg4_spec s ns e : synced s -> averaged s ns -> msg4 s e = energy_message p (s_obs s) e.
Proof.
  intros (H1 & H2 & H3) (_ & A2 & _). unfold msg4, energy_message. rewrite H1. destruct (p_rollback p && _); [|reflexivity]. rewrite jumped_ema. unfold detect4, ev_of, about. rewrite A2, H1, H2.
  destruct (m_on _ && _ && _ && _); reflexivity.
Qed.
Definition InvS (s : st) : Prop := exists ns,
  Forall2 (fun x n => exists iters, stepped (ev_state x) n iters) (accepted (s_obs s)) ns /\ averaged s ns /\ (s_done s = false -> synced s) /\
  forall t1 w e err gn rest, s_obs s = t1 ++ Eval w e err gn :: rest -> (length (accepted t1) <= length ns)%nat /\ judged ns t1 w e err gn rest.
Lemma judged_more ns n t1 w e err gn rest : (length (accepted t1) <= length ns)%nat -> judged ns t1 w e err gn rest -> judged (ns ++ [n]) t1 w e err gn rest.
Proof. intros L (ng & iters & H1 & H2). exists ng, iters. split; [exact H1|]. rewrite firstn_app, (proj2 (Nat.sub_0_le _ _) L), firstn_O, app_nil_r. exact H2. Qed.
Lemma InvS_pass s s' : InvS s -> s_done s = false -> (s_iter s < p_max_iter p)%nat -> pass s = Ok s' -> InvS s'.
Proof.
  intros (ns & F & Av & Sy & Ju) D _ Ep. specialize (Sy D). destruct (pass_judged s s' D Ep) as (e & g & err & ng & iters & vs & l & Ev & Ob & Ql & Vs & St & C).
  rewrite (msg1_spec s ns) in Vs, St by assumption. rewrite (msg3_spec s ns) in Vs by assumption. rewrite (msg4_spec s ns) in Vs by assumption.
  assert (Ln : length ns = length (accepted (s_obs s))) by apply Av.
  assert (J0 : judged ns (s_obs s) (s_cur s) e err (gnorm g) (map Spike vs ++ l)).
  { exists ng, iters. split; [exact St|]. rewrite before_all by (apply no_eval_msgs; exact Ql). rewrite spikes_app, spikes_map, spikes_quiet by exact Ql. rewrite app_nil_r, <- Ln, firstn_all. exact Vs. }
  assert (Jn : forall t1 w e0 err0 gn rest, s_obs s' = t1 ++ Eval w e0 err0 gn :: rest -> (length (accepted t1) <= length ns)%nat /\ judged ns t1 w e0 err0 gn rest).
  { intros t1 w e0 err0 gn rest E. rewrite Ob in E.
    destruct (split_eval (s_obs s) (map Spike vs ++ l) t1 rest (Eval (s_cur s) e err (gnorm g)) (Eval w e0 err0 gn) I I (no_eval_msgs vs l Ql) E) as [(t2' & E1 & E2)|(E1 & E2 & E3)].
    - destruct (Ju _ _ _ _ _ _ E1) as [L (ng' & it' & J1 & J2)]. split; [exact L|]. exists ng', it'. split; [exact J1|]. rewrite E2, before_app. exact J2.
    - subst t1 rest. injection E2 as <- <- <- <-. split; [lia|exact J0]. }
  destruct C as [(ws & v & Ev' & El & Fw & Dv & Ad)|(Fw & Sg & Aa)].
  - subst l. rewrite app_nil_r, Ev', map_app in Ob. cbn [map] in Ob. destruct (hist_discard (s_obs s) (s_cur s) e err (gnorm g) ws v Fw Dv) as [A1 A2].
    pose proof (tries_discard (s_obs s) (s_cur s) e err (gnorm g) ws v Fw Dv) as A3. rewrite <- Ob in A1, A2, A3. destruct Ad as (B1 & B2 & B3 & B4 & B5 & B6 & B7 & B8).
    exists ns. rewrite A1. split; [exact F|]. split; [|split; [|exact Jn]].
    + unfold averaged. rewrite A1, B3, B4, B5, B6. exact Av.
    + intros _. destruct Sy as (S1' & S2' & S3'). unfold synced. rewrite A1, A3, B1, B7, B8, S2'. split; [exact S1'|]. split; [destruct (v_action v); reflexivity|]. unfold can_go_back. rewrite A1, A2.
      destruct (v_action v); try discriminate; [exact S3'|]. cbn [negb]. rewrite andb_false_r. reflexivity.
  - destruct (hist_accept (s_obs s) (s_cur s) e err (gnorm g) vs l Fw Ql) as [A1 A2]. pose proof (tries_accept (s_obs s) (s_cur s) e err (gnorm g) vs l Fw Ql) as A3. rewrite <- Ob in A1, A2, A3.
    destruct Aa as (B3 & B4 & B5 & B6 & B7). exists (ns ++ [ng]). rewrite A1. split; [apply Forall2_app; [exact F|]; constructor; [exists iters; exact Sg|constructor]|]. split; [|split].
    + destruct Av as (_ & V1 & V2 & V3 & V4). unfold averaged. rewrite A1, !map_app. cbn [map ev_energy ev_error ev_gnorm fst snd]. rewrite !ema_snoc, B3, B4, B5, B6, V1, V2, V3, !app_length, Ln. repeat (split; [reflexivity|]). intros N. rewrite N, (V4 N). reflexivity.
    + intros D'. destruct (B7 D') as (B8 & B9 & B10). destruct Sy as (S1' & S2' & S3'). unfold synced. rewrite A1, A3, B8, B9, B10, app_length, S1', S3'. cbn [length]. split; [lia|]. split; [reflexivity|]. unfold can_go_back. rewrite A1, A2, app_length. cbn [length]. rewrite (proj2 (Nat.ltb_lt 0 (length (accepted (s_obs s)) + 1))) by lia. cbn [negb]. rewrite !andb_true_r.
      destruct (p_rollback p); reflexivity.
    + intros t1 w e0 err0 gn rest E. destruct (Jn _ _ _ _ _ _ E) as [L J]. split; [rewrite app_length; lia|]. apply judged_more; assumption.
Qed.
Lemma InvS_begin fresh sc w0 : InvS (start p alg (new_members fresh sc) w0).
Proof.
  exists []. split; [constructor|]. split; [|split].
  - repeat split.
  - intros _. unfold synced, can_go_back. cbn. rewrite andb_false_r. repeat split.
  - intros t1 w e err gn rest E. cbn in E. destruct t1; discriminate.
Qed.
(** C79 *)
Theorem spike_messages fresh sc w0 fuel s : (optimize fuel (new_members fresh sc) w0 = Ok (Finished s) \/ optimize fuel (new_members fresh sc) w0 = Ok (Running s)) ->
  exists ns, Forall2 (fun x n => exists iters, stepped (ev_state x) n iters) (accepted (s_obs s)) ns /\
  forall t1 w e err gn rest, s_obs s = t1 ++ Eval w e err gn :: rest -> exists ng iters,
    (discarded (first_message p t1 err gn) = true \/ stepped w ng iters) /\
    spikes (before_eval rest) = until_discarded (first_message p t1 err gn ++ (if a_natural alg then natural_message p t1 (firstn (length (accepted t1)) ns) ng iters else []) ++ energy_message p t1 e).
Proof.
  intros H. assert (I1 : InvS s).
  { destruct H as [H|H]; apply optimize_run in H; pose proof (run_induct p alg eval trial gnorm rate user_stop InvS InvS_pass fuel _ _ (InvS_begin fresh sc w0) H) as Q; [apply Q|exact Q]. }
  destruct I1 as (ns & F & _ & _ & J). exists ns. split; [exact F|]. intros t1 w e err gn rest E. exact (proj2 (J _ _ _ _ _ _ E)).
Qed.
(** algorithms without a natural gradient *)
Theorem spike_messages_plain fresh sc w0 fuel s : a_natural alg = false -> (optimize fuel (new_members fresh sc) w0 = Ok (Finished s) \/ optimize fuel (new_members fresh sc) w0 = Ok (Running s)) ->
  forall t1 w e err gn rest, s_obs s = t1 ++ Eval w e err gn :: rest ->
    spikes (before_eval rest) = until_discarded (first_message p t1 err gn ++ energy_message p t1 e).
Proof.
  intros N H t1 w e err gn rest E. destruct (spike_messages fresh sc w0 fuel s H) as (ns & _ & J). destruct (J _ _ _ _ _ _ E) as (ng & iters & _ & Q). rewrite N in Q. exact Q.
Qed.
End Loop.

Lemma rlt_is a b : a < b -> rlt a b = true. Proof. apply rlt_true. Qed.
Lemma smooth_two : smooth 3 [0; 1] = Some (1 / 2, 1 / 4).
Proof. unfold smooth, weight. cbn [fold_left INR]. f_equal. f_equal; field. Qed.
Lemma jump_demo : jumped 3 2 [0; 1] 5 = Some (3 / 2).
Proof.
  unfold jumped. rewrite smooth_two. assert (Q : sqrt (1 / 4) = 1 / 2). { replace (1 / 4) with ((1 / 2) * (1 / 2)) by field. apply sqrt_square. lra. } rewrite Q.
  rewrite !rlt_is by lra. cbn [andb]. f_equal. field.
Qed.
Lemma spike_demo : first_message demo_params [Eval 0%nat 0 1 1; Lowest 0%nat 0; Iter 0 0 1 1] 200 1 = [mkEvent 1 0 S1 Resample 200 (100 * 1)] /\
  energy_message demo_params [Eval 0%nat 0 1 1; Lowest 0%nat 0; Iter 0 0 1 1] (-1) = [] /\ a_natural counter = false.
Proof.
  split; [|split; reflexivity]. unfold first_message, exceeded. change (watching demo_params _) with true. change (smooth (p_window demo_params) _) with (Some (1, 0)). cbn iota. cbn [p_ferr demo_params]. rewrite !rlt_is by lra. reflexivity.
Qed.
