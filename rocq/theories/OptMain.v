(** Properties of whole runs. *)
From Coq Require Import List Arith Bool Reals Lra Lia.
From Verif Require Import Base OptModel OptSpec OptProofs.
Import ListNotations.
Local Open Scope R_scope.

Section History.
Context {W : Type}.
Notation obs := (obs (W:=W)).
Lemma history_app (a b : list obs) : history_of (a ++ b) = fold_left h_step b (history_of a).
Proof. unfold history_of. apply fold_left_app. Qed.
Lemma fold_warn ws (h : history (W:=W)) : Forall (fun v => v_action v = AcceptWithWarning) ws -> fold_left h_step (map Spike ws) h = h.
Proof. induction ws as [|v ws IH]; intros F; simpl; [reflexivity|]. inversion F as [|? ? Fv Fw]; subst. rewrite Fv. apply IH. exact Fw. Qed.
Definition quiet (o : obs) : Prop := match o with Eval _ _ _ _ | Spike _ => False | _ => True end.
Lemma fold_quiet l (h : history (W:=W)) : Forall quiet l -> fold_left h_step l h = h.
Proof. induction l as [|o l IH]; intros F; simpl; [reflexivity|]. inversion F as [|? ? Fo Fl]; subst. destruct o; simpl in Fo; try contradiction; apply IH; exact Fl. Qed.
Lemma hist_discard (t : list obs) w e err gn ws v : Forall (fun v => v_action v = AcceptWithWarning) ws -> discards (v_action v) = true ->
  accepted (t ++ Eval w e err gn :: map Spike ws ++ [Spike v]) = accepted t /\
  rolled (t ++ Eval w e err gn :: map Spike ws ++ [Spike v]) = (match v_action v with Rollback => true | _ => rolled t end).
Proof.
  intros F D. unfold accepted, rolled. rewrite history_app. cbn [fold_left]. rewrite fold_left_app, fold_warn by exact F. destruct (history_of t) as [st pd rl]. unfold pending_list. destruct pd as [x|]; cbn [h_step h_pending h_settled h_rolled fold_left];
    destruct (v_action v); try discriminate; cbn; rewrite ?app_nil_r; split; reflexivity.
Qed.
Lemma hist_accept (t : list obs) w e err gn ws l : Forall (fun v => v_action v = AcceptWithWarning) ws -> Forall quiet l ->
  accepted (t ++ Eval w e err gn :: map Spike ws ++ l) = accepted t ++ [(w, e, err, gn)] /\ rolled (t ++ Eval w e err gn :: map Spike ws ++ l) = false.
Proof.
  intros F Q. unfold accepted, rolled. rewrite history_app. cbn [fold_left]. rewrite fold_left_app, fold_warn by exact F. rewrite fold_quiet by exact Q.
  destruct (history_of t) as [st pd rl]. unfold pending_list. destruct pd as [x|]; cbn; rewrite ?app_nil_r; split; reflexivity.
Qed.
Lemma split_eval (a r L t2 : list obs) x y : match x with Eval _ _ _ _ => True | _ => False end -> match y with Eval _ _ _ _ => True | _ => False end ->
  no_eval r -> a ++ x :: r = L ++ y :: t2 -> (exists t2', a = L ++ y :: t2' /\ t2 = t2' ++ x :: r) \/ (L = a /\ x = y /\ r = t2).
Proof.
  intros Hx Hy N. revert L. induction a as [|o a IH]; intros L E.
  - destruct L as [|z L]; simpl in E; injection E as E1 E2; [right; auto|]. exfalso. subst r. specialize (N y ltac:(apply in_or_app; right; left; reflexivity)). destruct y; contradiction.
  - destruct L as [|z L]; simpl in E; injection E as E1 E2.
    + left. exists a. subst. auto.
    + subst z. destruct (IH L E2) as [(t2' & -> & ->)|(-> & B & C)]; [left; exists t2'; auto|right; auto].
Qed.
End History.

Section Loop.
Context {W G A P Sc : Type}.
Variable p : params.
Variable alg : algorithm (W:=W) (G:=G) (A:=A) (P:=P).
Variable eval : nat -> W -> R * G * R.
Variable trial : nat -> W -> R * R.
Variable gnorm : G -> R.
Variable scheduled : bool.
Variable rate : Sc -> nat -> R -> R * Sc.
Variable user_stop : nat -> R -> R -> bool.
Notation st := (st (W:=W) (A:=A) (Sc:=Sc)).
Notation pass := (pass p alg eval trial gnorm rate user_stop).
Notation run := (run p alg eval trial gnorm rate user_stop).
Notation optimize := (optimize p alg eval trial gnorm scheduled rate user_stop).
Notation accept := (accept p alg user_stop).
Notation recover := (recover alg).
Notation obs := (obs (W:=W)).

Definition new_low (e : R) (s : st) : bool := rlt e (s_lowE s).
Definition low_obs (e : R) (s : st) : list obs := if new_low e s then [Lowest (s_cur s) e] else [].
Definition stall' (e : R) (s : st) : nat := if new_low e s then 0%nat else S (s_stall s).
Definition stops (e gn : R) (s : st) : bool := (0 <? s_iter s)%nat && should_stop p e (s_prevE s) gn (stall' e s).
Definition ck_obs (next : W) (s : st) : list obs :=
  if (0 <? p_every p)%nat && (0 <? s_iter s)%nat && (s_iter s mod p_every p =? 0)%nat then [Ckpt (s_iter s) next] else [].
Lemma accept_fields e g err gn eff ng next s : let s' := accept e g err gn eff ng next s in
  s_energies s' = s_energies s ++ [e] /\ s_rates s' = s_rates s ++ [eff] /\ s_errors s' = s_errors s ++ [err] /\ s_gnorms s' = s_gnorms s ++ [gn] /\
  s_total s' = S (s_iter s) /\ s_last s' = e /\ s_lowE s' = (if new_low e s then e else s_lowE s) /\ s_low s' = (if new_low e s then s_cur s else s_low s) /\ s_stall s' = stall' e s /\
  s_log s' = s_log s /\ s_nres s' = s_nres s /\ s_nroll s' = s_nroll s /\ s_nforced s' = s_nforced s /\ s_base s' = s_base s.
Proof. repeat split. Qed.
Lemma accept_flow e g err gn eff ng next s : let s' := accept e g err gn eff ng next s in
  if stops e gn s then s_done s' = true /\ s_conv s' = true /\ s_iter s' = s_iter s /\ s_cur s' = s_cur s /\ s_obs s' = s_obs s ++ low_obs e s
  else s_prevE s' = e /\ s_prev s' = (if p_rollback p then Some (s_cur s) else s_prev s) /\ s_cur s' = next /\ s_conv s' = s_conv s /\
    if user_stop (s_iter s) e err then s_done s' = true /\ s_iter s' = s_iter s /\ s_obs s' = s_obs s ++ low_obs e s ++ [Iter (s_iter s) e err gn]
    else s_done s' = s_done s /\ s_iter s' = S (s_iter s) /\ s_att s' = 0%nat /\ s_obs s' = s_obs s ++ low_obs e s ++ [Iter (s_iter s) e err gn] ++ ck_obs next s.
Proof.
  unfold OptModel.accept. cbn [s_done s_conv s_iter s_cur s_obs s_prevE s_prev s_att]. change (rlt e (s_lowE s)) with (new_low e s). change (if new_low e s then 0%nat else S (s_stall s)) with (stall' e s). change ((0 <? s_iter s)%nat && should_stop p e (s_prevE s) gn (stall' e s)) with (stops e gn s).
  destruct (stops e gn s); cbn; [unfold low_obs; rewrite app_nil_r; repeat split|]. destruct (user_stop _ _ _); cbn; unfold low_obs, ck_obs; rewrite ?app_nil_r; repeat split.
Qed.
Lemma recover_fields act sig v th (s : st) : discards act = true -> let s' := recover act (log sig act v th s) in
  s_iter s' = s_iter s /\ s_energies s' = s_energies s /\ s_rates s' = s_rates s /\ s_errors s' = s_errors s /\ s_gnorms s' = s_gnorms s /\ s_total s' = s_total s /\
  s_last s' = s_last s /\ s_lowE s' = s_lowE s /\ s_low s' = s_low s /\ s_stall s' = s_stall s /\ s_prevE s' = s_prevE s /\ s_done s' = s_done s /\ s_conv s' = s_conv s /\ s_base s' = s_base s /\
  exists ev, v_action ev = act /\ v_signal ev = sig /\ s_obs s' = s_obs s ++ [Spike ev] /\ s_log s' = s_log s ++ [ev] /\
  s_nforced s' = s_nforced s /\
  (act = Resample /\ s_att s' = S (s_att s) /\ s_cur s' = s_cur s /\ s_prev s' = s_prev s /\ s_nres s' = S (s_nres s) /\ s_nroll s' = s_nroll s \/
   act = Rollback /\ s_att s' = 0%nat /\ s_cur s' = (match s_prev s with Some w => w | None => s_cur s end) /\ s_prev s' = None /\ s_nres s' = s_nres s /\ s_nroll s' = S (s_nroll s)).
Proof.
  intros D. destruct act; try discriminate; cbn.
  - repeat split. eexists. split; [|split; [|split; [reflexivity|]]]; [reflexivity|reflexivity|]. repeat split. left. repeat split.
  - unfold back_to_prev. cbn. destruct (s_prev s) as [w|] eqn:Pv; cbn; repeat split; (eexists; split; [|split; [|split; [reflexivity|]]]; [reflexivity|reflexivity|]; repeat split; right; rewrite ?Pv; repeat split).
Qed.

Lemma low_quiet e s : Forall quiet (low_obs e s). Proof. unfold low_obs. destruct (new_low e s); repeat constructor. Qed.
Lemma ck_quiet next s : Forall quiet (ck_obs next s). Proof. unfold ck_obs. destruct (_ && _ && _); repeat constructor. Qed.
(** What acceptance adds to the trace. *)
Definition tail_obs (e err gn : R) (next : W) (t : st) : list obs :=
  if stops e gn t then low_obs e t
  else if user_stop (s_iter t) e err then low_obs e t ++ [Iter (s_iter t) e err gn]
  else low_obs e t ++ [Iter (s_iter t) e err gn] ++ ck_obs next t.
Lemma accept_obs e g err gn eff ng next s : s_obs (accept e g err gn eff ng next s) = s_obs s ++ tail_obs e err gn next s.
Proof.
  pose proof (accept_flow e g err gn eff ng next s) as F. cbv zeta in F. unfold tail_obs. destruct (stops e gn s); [apply F|]. destruct F as (_ & _ & _ & _ & F). destruct (user_stop _ _ _); apply F.
Qed.
Lemma tail_quiet e err gn next t : Forall quiet (tail_obs e err gn next t).
Proof.
  unfold tail_obs. destruct (stops e gn t); [apply low_quiet|]. destruct (user_stop _ _ _); repeat (apply Forall_app; split); try apply low_quiet; try apply ck_quiet; repeat constructor.
Qed.

(** One pass as a transition of what matters. *)
Theorem pass_cases s s' : pass s = Ok s' -> exists e g err t ws, let x := (s_cur s, e, err, gnorm g) in
  eval (s_calls s) (s_cur s) = (e, g, err) /\ core t = core s /\
  s_obs t = s_obs s ++ Eval (s_cur s) e err (gnorm g) :: map Spike ws /\ s_log t = s_log s ++ ws /\ s_nres t = s_nres s /\ s_nroll t = s_nroll s /\ s_nforced t = (s_nforced s + length ws)%nat /\
  Forall (fun v => v_action v = AcceptWithWarning) ws /\ Forall (fun v => v_signal v <> S4) ws /\
  base_moves p trial s t /\
  ((exists sig act v th, discarding p s sig act /\ discards act = true /\ s' = recover act (log sig act v th t) /\ accepted (s_obs s') = accepted (s_obs s) /\
      rolled (s_obs s') = match act with Rollback => true | _ => rolled (s_obs s) end) \/
   (exists next eff ng k a d a' iters more lr, s' = accept e g err (gnorm g) eff ng next t /\
      a_step alg k a d (s_cur s) g lr = Ok (a', (next, eff), (ng, iters), more) /\ (any_selector p = true -> lr = s_base t) /\
      accepted (s_obs s') = accepted (s_obs s) ++ [x] /\ rolled (s_obs s') = false)).
Proof.
  intros E. destruct (pass_spec _ _ _ _ _ _ _ _ _ E) as (e & g & err & t & ws & Ev & Wn & B & C). exists e, g, err, t, ws. cbv zeta.
  destruct Wn as (W1 & W2 & W3 & W4 & W5 & W6 & W7 & W8). cbn in W2. rewrite <- app_assoc in W2. cbn [app] in W2.
  split; [exact Ev|]. split; [exact W1|]. split; [exact W2|]. split; [exact W3|]. split; [exact W4|]. split; [exact W5|]. split; [exact W6|]. split; [exact W7|]. split; [exact W8|]. split; [exact B|].
  destruct C as [(sig & act & v & th & D & ->)|(next & eff & ng & k & a & d & a' & iters & more & lr & -> & S1 & S2)].
  - left. exists sig, act, v, th. assert (Da : discards act = true) by (destruct D as (_ & [(_ & _ & -> & _)|[(_ & _ & -> & _)|(_ & -> & _)]]); reflexivity).
    split; [exact D|]. split; [exact Da|]. split; [reflexivity|]. destruct (recover_fields act sig v th t Da) as (_ & _ & _ & _ & _ & _ & _ & _ & _ & _ & _ & _ & _ & _ & ev & Ea & _ & Eo & _).
    rewrite Eo, W2, <- app_assoc. cbn [app]. rewrite <- Ea in Da. destruct (hist_discard (s_obs s) (s_cur s) e err (gnorm g) ws ev W7 Da) as [H1 H2]. rewrite Ea in H2. auto.
  - right. exists next, eff, ng, k, a, d, a', iters, more, lr. split; [reflexivity|]. split; [exact S1|]. split; [exact S2|]. rewrite accept_obs, W2, <- app_assoc. cbn [app].
    apply hist_accept; [exact W7|apply tail_quiet].
Qed.

(** *** Generic induction *)
Lemma run_induct (I : st -> Prop) : (forall s s', I s -> s_done s = false -> (s_iter s < p_max_iter p)%nat -> pass s = Ok s' -> I s') ->
  forall fuel s o, I s -> run fuel s = Ok o -> match o with Finished s' => I s' /\ (s_done s' = true \/ (p_max_iter p <= s_iter s')%nat) | Running s' => I s' end.
Proof.
  intros St. induction fuel as [|f IH]; intros s o Hs E; cbn [OptModel.run] in E.
  - destruct (s_done s) eqn:D; cbn [orb] in E; [injection E as <-; auto|]. destruct (Nat.leb_spec (p_max_iter p) (s_iter s)); injection E as <-; auto.
  - destruct (s_done s) eqn:D; cbn [orb] in E; [injection E as <-; auto|]. destruct (Nat.leb_spec (p_max_iter p) (s_iter s)) as [L|L]; [injection E as <-; auto|].
    destruct (pass s) as [s1|] eqn:Ep; [|discriminate]. cbn [bind] in E. apply (IH s1 o); [apply (St s s1); assumption|exact E].
Qed.
End Loop.
