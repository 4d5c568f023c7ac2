(** Invariants of the optimisation loop. *)
From Coq Require Import List Arith Bool Reals Lra Lia.
From Verif Require Import Base OptModel OptSpec.
Import ListNotations.
Local Open Scope R_scope.

Lemma rlt_spec a b : reflect (a < b) (rlt a b).
Proof. unfold rlt. destruct (Rlt_dec a b); constructor; assumption. Qed.
Lemma rle_spec a b : reflect (a <= b) (rle a b).
Proof. unfold rle. destruct (Rle_dec a b); constructor; assumption. Qed.
Lemma rlt_true a b : rlt a b = true <-> a < b.
Proof. destruct (rlt_spec a b); split; intros H; congruence || lra. Qed.
Lemma rlt_false a b : rlt a b = false <-> b <= a.
Proof. destruct (rlt_spec a b); split; intros H; congruence || lra. Qed.

Section Loop.
Context {W G A P Sc : Type}.
Variable p : params.
Variable alg : algorithm (W:=W) (G:=G) (A:=A) (P:=P).
Variable eval : nat -> W -> R * G * R.
Variable trial : nat -> W -> R * R.
Variable gnorm : G -> R.
Variable scheduled : bool.
Variable rate : Sc -> nat -> R -> R * Sc.
Variable user_stop : nat -> R -> R -> bool.
Notation st := (st (W:=W) (A:=A) (Sc:=Sc)).
Notation pass := (pass p alg eval trial gnorm rate user_stop).
Notation run := (run p alg eval trial gnorm rate user_stop).
Notation accept := (accept p alg user_stop).
Notation recover := (recover alg).
Notation obs := (obs (W:=W)).

(** Everything but calls, accumulators, rates, log and trace. *)
Definition core (s : st) := (s_iter s, s_att s, s_cur s, (s_low s, s_lowE s, s_prevE s, s_last s, s_stall s), (s_mE s, s_mErr s, s_mG s, s_mN s), s_prev s,
  (s_energies s, s_rates s, s_errors s, s_gnorms s, s_total s), (s_done s, s_conv s)).
Lemma core_iter s t : core t = core s -> s_iter t = s_iter s. Proof. unfold core. congruence. Qed.
Lemma core_att s t : core t = core s -> s_att t = s_att s. Proof. unfold core. congruence. Qed.
Lemma core_cur s t : core t = core s -> s_cur t = s_cur s. Proof. unfold core. congruence. Qed.
Lemma core_low s t : core t = core s -> s_low t = s_low s. Proof. unfold core. congruence. Qed.
Lemma core_lowE s t : core t = core s -> s_lowE t = s_lowE s. Proof. unfold core. congruence. Qed.
Lemma core_prevE s t : core t = core s -> s_prevE t = s_prevE s. Proof. unfold core. congruence. Qed.
Lemma core_last s t : core t = core s -> s_last t = s_last s. Proof. unfold core. congruence. Qed.
Lemma core_stall s t : core t = core s -> s_stall t = s_stall s. Proof. unfold core. congruence. Qed.
Lemma core_mE s t : core t = core s -> s_mE t = s_mE s. Proof. unfold core. congruence. Qed.
Lemma core_mErr s t : core t = core s -> s_mErr t = s_mErr s. Proof. unfold core. congruence. Qed.
Lemma core_mG s t : core t = core s -> s_mG t = s_mG s. Proof. unfold core. congruence. Qed.
Lemma core_mN s t : core t = core s -> s_mN t = s_mN s. Proof. unfold core. congruence. Qed.
Lemma core_prev s t : core t = core s -> s_prev t = s_prev s. Proof. unfold core. congruence. Qed.
Lemma core_energies s t : core t = core s -> s_energies t = s_energies s. Proof. unfold core. congruence. Qed.
Lemma core_rates s t : core t = core s -> s_rates t = s_rates s. Proof. unfold core. congruence. Qed.
Lemma core_errors s t : core t = core s -> s_errors t = s_errors s. Proof. unfold core. congruence. Qed.
Lemma core_gnorms s t : core t = core s -> s_gnorms t = s_gnorms s. Proof. unfold core. congruence. Qed.
Lemma core_total s t : core t = core s -> s_total t = s_total s. Proof. unfold core. congruence. Qed.
Lemma core_done s t : core t = core s -> s_done t = s_done s. Proof. unfold core. congruence. Qed.
Lemma core_conv s t : core t = core s -> s_conv t = s_conv s. Proof. unfold core. congruence. Qed.
Definition logs (s : st) := (s_log s, s_nres s, s_nroll s, s_nforced s, s_obs s).
(** from [s], messages [ws] that discard nothing *)
Definition warned (s t : st) (ws : list event) : Prop :=
  core t = core s /\ s_obs t = s_obs s ++ map Spike ws /\ s_log t = s_log s ++ ws /\ s_nres t = s_nres s /\ s_nroll t = s_nroll s /\
  s_nforced t = (s_nforced s + length ws)%nat /\ Forall (fun v => v_action v = AcceptWithWarning) ws /\ Forall (fun v => v_signal v <> S4) ws.
Lemma warned_refl s : warned s s [].
Proof. unfold warned. rewrite !app_nil_r. repeat split; auto. Qed.
Lemma warned_trans s t u ws vs : warned s t ws -> warned t u vs -> warned s u (ws ++ vs).
Proof.
  intros (A1 & B1 & C1 & D1 & E1 & F1 & G1 & H1) (A2 & B2 & C2 & D2 & E2 & F2 & G2 & H2). unfold warned. rewrite map_app, app_length.
  split; [congruence|]. split; [rewrite B2, B1, app_assoc; reflexivity|]. split; [rewrite C2, C1, app_assoc; reflexivity|]. split; [congruence|]. split; [congruence|]. split; [lia|].
  split; apply Forall_app; auto.
Qed.
Lemma warned_same s t : core t = core s -> logs t = logs s -> warned s t [].
Proof. intros C L. unfold logs in L. injection L as L1 L2 L3 L4 L5. unfold warned. rewrite !app_nil_r. simpl. repeat split; auto; try lia. Qed.
Lemma decide_cases hp att it : decide p hp att it = Resample /\ (att < p_retries p)%nat \/
  decide p hp att it = Rollback /\ (p_retries p <= att)%nat /\ p_rollback p = true /\ hp = true /\ (0 < it)%nat \/
  decide p hp att it = AcceptWithWarning /\ (p_retries p <= att)%nat.
Proof.
  unfold decide. destruct (Nat.ltb_spec att (p_retries p)); [left; auto|]. destruct (p_rollback p); simpl; [|auto]. destruct hp; simpl; [|auto].
  destruct (Nat.ltb_spec 0 it); [right; left; auto|auto].
Qed.
(** a discarded evaluation: which action, from which state *)
Definition discarding (s : st) (sig : signal) (act : action) : Prop :=
  (0 < s_iter s)%nat /\
  (sig <> S4 /\ p_auto p = true /\ act = Resample /\ (s_att s < p_retries p)%nat \/
   sig <> S4 /\ p_auto p = true /\ act = Rollback /\ (p_retries p <= s_att s)%nat /\ p_rollback p = true /\ s_prev s <> None \/
   sig = S4 /\ act = Rollback /\ p_rollback p = true).
Lemma log_warned x v th (s : st) : x <> S4 -> exists ev, warned s (log x AcceptWithWarning v th s) [ev].
Proof. intros Hx. eexists. unfold warned. cbn. repeat split; try reflexivity; try lia; constructor; auto; constructor. Qed.
Lemma check_inl (s u : st) sig act v th : (forall x, sig = Some x -> discards (act x) = false -> act x = AcceptWithWarning /\ x <> S4) ->
  check alg sig act v th s = inl u -> (exists ws, warned s u ws) /\ s_base u = s_base s /\ s_A u = s_A s /\ s_calls u = s_calls s.
Proof.
  intros H. unfold check. destruct sig as [x|]; [|intros E; injection E as <-; split; [exists []; apply warned_refl|auto]].
  destruct (discards (act x)) eqn:D; intros E; [discriminate|]. injection E as <-. destruct (H x eq_refl D) as [-> Hx]. destruct (log_warned x (v x) (th x) s Hx) as (ev & E). split; [exists [ev]; exact E|]. auto.
Qed.
Lemma check_inr (s u : st) sig act v th : check alg sig act v th s = inr u -> exists x, sig = Some x /\ discards (act x) = true /\ u = recover (act x) (log x (act x) (v x) (th x) s).
Proof. unfold check. destruct sig as [x|]; [|discriminate]. destruct (discards (act x)) eqn:D; intros E; [|discriminate]. injection E as <-. exists x. auto. Qed.

Definition seen (s : st) (e : R) (g : G) (err : R) : st := saw (Eval (s_cur s) e err (gnorm g)) (set_calls (S (s_calls s)) s).
(** the base rate after a pass: kept, chosen by the initial selector, or by the periodic one *)
Definition base_moves (s t : st) : Prop :=
  s_base t = s_base s /\ (p_init_on p = true -> s_iter s <> 0%nat) \/
  p_init_on p = true /\ s_iter s = 0%nat /\ (exists k f, select_initial (try_all trial k f (candidates_initial p (s_base s))) = Ok (s_base t)) \/
  p_per_on p = true /\ (0 < s_iter s)%nat /\ (s_iter s mod p_per_every p = 0)%nat /\ 0 < s_base s /\
    (exists k f eta, select_periodic p (s_iter s) (try_all trial k f [s_base s; s_base s * (1 / 2)]) = Ok eta /\ s_base t = Rmin (s_base s) eta).
Theorem pass_spec s s' : pass s = Ok s' ->
  exists e g err t ws, eval (s_calls s) (s_cur s) = (e, g, err) /\ warned (seen s e g err) t ws /\
    base_moves s t /\
    ((exists sig act v th, discarding s sig act /\ s' = recover act (log sig act v th t)) \/
     (exists next eff ng k a d a' iters more lr, s' = accept e g err (gnorm g) eff ng next t /\
        a_step alg k a d (s_cur s) g lr = Ok (a', (next, eff), (ng, iters), more) /\ (any_selector p = true -> lr = s_base t))).
Proof.
  unfold OptModel.pass. destruct (eval (s_calls s) (s_cur s)) as [[e g] err] eqn:Ev.
  set (s0 := saw (Eval (s_cur s) e err (gnorm g)) (set_calls (S (s_calls s)) s)).
  destruct (a_seen alg (s_A s0) (s_cur s0) g) as [acc|f]; [|discriminate]. cbn [bind].
  set (s1 := set_A acc s0).
  assert (W1 : warned (seen s e g err) s1 []) by (apply warned_same; reflexivity).
  assert (B1 : s_base s1 = s_base s) by reflexivity.
  destruct (check alg _ _ _ _ s1) as [s2|s2] eqn:C1.
  2:{ intros E. injection E as <-. apply check_inr in C1. destruct C1 as (x & Sx & Dx & ->). exists e, g, err, s1, []. split; [reflexivity|]. split; [exact W1|]. assert (Bm : base_moves s s1) by (left; split; [exact B1|intros _ Qz; destruct (p_auto p && (0 <? s_iter s1)%nat) eqn:Q; [|discriminate]; apply andb_prop in Q; destruct Q as [_ Q]; apply Nat.ltb_lt in Q; change (s_iter s1) with (s_iter s) in Q; lia]). split; [exact Bm|]. left.
      do 4 eexists. split; [|reflexivity]. destruct (p_auto p && (0 <? s_iter s1)%nat) eqn:Q; [|discriminate]. apply andb_prop in Q. destruct Q as [Qa Qi]. apply Nat.ltb_lt in Qi. split; [exact Qi|].
      assert (x <> S4). { unfold detect12 in Sx. destruct (_ && _ && _); [injection Sx as <-; discriminate|]. destruct (_ && _ && _); [injection Sx as <-; discriminate|discriminate]. }
      destruct (decide_cases (has_prev s1) (s_att s1) (s_iter s1)) as [[D1 D2]|[(D1 & D2 & D3 & D4 & D5)|[D1 D2]]]; rewrite D1 in *; [left; repeat split; auto|right; left; repeat split; auto|discriminate].
      change (s_prev s1) with (s_prev s) in *. unfold has_prev in D4. change (s_prev s1) with (s_prev s) in D4. destruct (s_prev s); [discriminate|discriminate]. }
  apply check_inl in C1.
  2:{ intros x Sx Dx. destruct (decide_cases (has_prev s1) (s_att s1) (s_iter s1)) as [[D1 D2]|[(D1 & D2 & _)|[D1 D2]]]; rewrite D1 in *; [discriminate|discriminate|split; [reflexivity|]].
      destruct (p_auto p && (0 <? s_iter s1)%nat); [|discriminate]. unfold detect12 in Sx. destruct (_ && _ && _); [injection Sx as <-; discriminate|]. destruct (_ && _ && _); [injection Sx as <-; discriminate|discriminate]. }
  destruct C1 as ((ws & W2) & B2 & A2 & K2). pose proof (warned_trans _ _ _ _ _ W1 W2) as W2'. cbn [app] in W2'.
  destruct (if any_selector p then _ else _) as [lr0 sc] eqn:Er.
  set (s3 := set_sched sc s2). destruct (select p alg trial s3 g err) as [sel|f] eqn:Es; [|discriminate]. cbn [bind].
  assert (C2 : core s2 = core (seen s e g err)) by apply W2'.
  assert (I2 : s_iter s2 = s_iter s) by exact (core_iter _ _ C2).
  destruct (match sel with Some (r, d, k) => (r, Some d, k) | None => (lr0, None, 0%nat) end) as [[lr d] extra] eqn:Em.
  set (s4 := set_calls (s_calls (match sel with Some _ => set_base lr s3 | None => s3 end) + extra) (match sel with Some _ => set_base lr s3 | None => s3 end)).
  assert (S4e : set_calls (s_calls s3 + extra) (match sel with Some _ => set_base lr s3 | None => s3 end) = s4) by (unfold s4; destruct sel as [[[? ?] ?]|]; reflexivity).
  rewrite S4e. clear S4e.
  assert (B4 : base_moves s s4).
  { unfold base_moves, s4. unfold select in Es. change (s_iter s3) with (s_iter s2) in Es. change (s_base s3) with (s_base s2) in Es. rewrite I2, B2, B1 in Es.
    destruct (p_init_on p && (s_iter s =? 0)%nat) eqn:Qi.
    - apply andb_prop in Qi. destruct Qi as [Q1 Q2]. apply Nat.eqb_eq in Q2. cbn [orb negb andb] in Es. destruct (_ && rle err 0); [discriminate|]. cbn [bind] in Es. destruct (a_prepare _ _ _ _) as [dd|]; [|discriminate]. cbn [bind] in Es.
      destruct (select_initial _) as [eta|] eqn:Se; [|discriminate]. cbn [bind] in Es. injection Es as <-. injection Em as <- <- <-. right. left. split; [exact Q1|]. split; [exact Q2|]. exists (s_calls s3). eexists. exact Se.
    - cbn [orb negb] in Es. destruct (p_per_on p && (0 <? s_iter s)%nat && (s_iter s mod p_per_every p =? 0)%nat && true) eqn:Qp; cbn [negb] in Es.
      2:{ injection Es as <-. left. split; [cbn; rewrite B2; exact B1|]. intros Q1 Q2. rewrite Q1, Q2 in Qi. discriminate. }
      destruct (_ && rle err 0); [discriminate|]. unfold candidates_periodic in Es. destruct (rle_spec (s_base s * (1 / 2)) 0) as [Hl|Hl]; [discriminate|]. cbn [bind] in Es. destruct (a_prepare _ _ _ _) as [dd|]; [|discriminate]. cbn [bind] in Es.
      destruct (select_periodic _ _ _) as [eta|] eqn:Se; [|discriminate]. cbn [bind] in Es. injection Es as <-. injection Em as <- <- <-. rewrite !andb_true_iff in Qp. destruct Qp as [[[Q1 Q2] Q3] _]. apply Nat.ltb_lt in Q2. apply Nat.eqb_eq in Q3.
      right. right. split; [exact Q1|]. split; [exact Q2|]. split; [exact Q3|]. split; [lra|]. exists (s_calls s3). do 2 eexists. split; [exact Se|]. reflexivity. }
  assert (L4 : any_selector p = true -> lr = s_base s4).
  { intros Qa. rewrite Qa in Er. unfold s4. destruct sel as [[[r d'] k]|]; injection Em as <- <- <-; [reflexivity|]. cbn. injection Er as <- <-. reflexivity. }
  assert (W4 : warned (seen s e g err) s4 ws).
  { assert (Q : warned s2 s4 []) by (apply warned_same; unfold s4; destruct sel as [[[? ?] ?]|]; reflexivity). pose proof (warned_trans _ _ _ _ _ W2' Q) as T. rewrite app_nil_r in T. exact T. }
  clearbody s4. clear Em Er Es.
  destruct (a_step alg (s_calls s4) (s_A s4) d (s_cur s4) g lr) as [[[[acc' [next eff]] [ng iters]] more]|f] eqn:Ea; [|discriminate]. cbn [bind].
  set (s5 := set_calls (s_calls (set_A acc' s4) + more) (set_A acc' s4)). change (set_calls (s_calls s4 + more) (set_A acc' s4)) with s5.
  assert (W5 : warned (seen s e g err) s5 ws). { assert (Q : warned s4 s5 []) by (apply warned_same; reflexivity). pose proof (warned_trans _ _ _ _ _ W4 Q) as T. rewrite app_nil_r in T. exact T. }
  assert (B5 : s_base s5 = s_base s4) by reflexivity.
  assert (C5 : core s5 = core s) by (transitivity (core (seen s e g err)); [apply W5|reflexivity]).
  assert (I5 : s_iter s5 = s_iter s) by exact (core_iter _ _ C5). assert (T5 : s_att s5 = s_att s) by exact (core_att _ _ C5). assert (P5 : s_prev s5 = s_prev s) by exact (core_prev _ _ C5).
  assert (Cur4 : s_cur s4 = s_cur s). { assert (C4 : core s4 = core (seen s e g err)) by apply W4. exact (core_cur _ _ C4). }
  clearbody s5. clear C5.
  destruct (check alg _ _ _ _ s5) as [s6|s6] eqn:C6.
  2:{ intros E. injection E as <-. apply check_inr in C6. destruct C6 as (x & Sx & Dx & ->). exists e, g, err, s5, ws. split; [reflexivity|]. split; [exact W5|]. split; [unfold base_moves; rewrite B5; exact B4|]. left.
      do 4 eexists. split; [|reflexivity]. destruct (a_natural alg && p_auto p && (0 <? s_iter s5)%nat) eqn:Q; [|discriminate]. rewrite !andb_true_iff in Q. destruct Q as [[Qn Qa] Qi]. apply Nat.ltb_lt in Qi. rewrite I5 in Qi. split; [exact Qi|].
      assert (x <> S4). { unfold detect3 in Sx. destruct (_ && _ && _); [injection Sx as <-; discriminate|]. destruct iters as [k|]; [|discriminate]. destruct (_ <=? _)%nat; [injection Sx as <-; discriminate|discriminate]. }
      destruct (decide_cases (has_prev s5) (s_att s5) (s_iter s5)) as [[D1 D2]|[(D1 & D2 & D3 & D4 & D5)|[D1 D2]]]; rewrite D1 in *; rewrite ?T5 in D2; [left; repeat split; auto|right; left; repeat split; auto|discriminate].
      unfold has_prev in D4. rewrite P5 in D4. destruct (s_prev s); [discriminate|discriminate]. }
  apply check_inl in C6.
  2:{ intros x Sx Dx. destruct (decide_cases (has_prev s5) (s_att s5) (s_iter s5)) as [[D1 D2]|[(D1 & D2 & _)|[D1 D2]]]; rewrite D1 in *; [discriminate|discriminate|split; [reflexivity|]].
      destruct (a_natural alg && p_auto p && (0 <? s_iter s5)%nat); [|discriminate]. unfold detect3 in Sx. destruct (_ && _ && _); [injection Sx as <-; discriminate|]. destruct iters as [k|]; [|discriminate]. destruct (_ <=? _)%nat; [injection Sx as <-; discriminate|discriminate]. }
  destruct C6 as ((ws' & W6) & B6 & A6 & K6). pose proof (warned_trans _ _ _ _ _ W5 W6) as W6'. clear W6.
  assert (C6' : core s6 = core s) by (transitivity (core (seen s e g err)); [apply W6'|reflexivity]).
  assert (I6 : s_iter s6 = s_iter s) by exact (core_iter _ _ C6').
  destruct (check alg _ _ _ _ s6) as [s7|s7] eqn:C7.
  2:{ intros E. injection E as <-. apply check_inr in C7. destruct C7 as (x & Sx & Dx & ->). exists e, g, err, s6, (ws ++ ws'). split; [reflexivity|]. split; [exact W6'|]. split; [unfold base_moves; rewrite B6, B5; exact B4|]. left.
      do 4 eexists. split; [|reflexivity]. destruct (p_rollback p && (0 <? s_iter s6)%nat) eqn:Q; [|discriminate]. rewrite !andb_true_iff in Q. destruct Q as [Qn Qi]. apply Nat.ltb_lt in Qi. rewrite I6 in Qi. split; [exact Qi|].
      right. right. unfold detect4 in Sx. destruct (_ && _ && _ && _); [injection Sx as <-|discriminate]. auto. }
  apply check_inl in C7; [|intros x Sx Dx; discriminate]. destruct C7 as ((ws7 & W7) & B7 & A7 & K7). pose proof (warned_trans _ _ _ _ _ W6' W7) as W7'. clear W7.
  intros E. injection E as <-. exists e, g, err, s7, ((ws ++ ws') ++ ws7). split; [reflexivity|]. split; [exact W7'|]. split; [unfold base_moves; rewrite B7, B6, B5; exact B4|]. right.
  exists next, eff, ng, (s_calls s4), (s_A s4), d, acc', iters, more, lr. split; [reflexivity|]. split; [rewrite <- Cur4; exact Ea|]. rewrite B7, B6, B5. exact L4.
Qed.
End Loop.
