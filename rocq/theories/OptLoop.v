(** Runs of the optimiser: stopping, rollback, checkpoints, callbacks, termination, learning rates. *)
From Coq Require Import List Arith Bool Reals Lra Lia.
From Verif Require Import Base OptModel OptSpec OptProofs OptMain OptRuns.
Import ListNotations.
Local Open Scope R_scope.

(** The state the evaluation after a discarded one starts from: the same state after a resample; after a
    rollback the last accepted state, unless a rollback was already made since. *)
Definition retried {W} (t : list (obs (W:=W))) (w : W) (act : action) : W :=
  match act with Rollback => if rolled t then w else last (map ev_state (accepted t)) w | _ => w end.
Definition due (p : params) (i : nat) : bool := (0 <? p_every p)%nat && (0 <? i)%nat && (i mod p_every p =? 0)%nat.

Section Loop.
Context {W G A P Sc : Type}.
Variable p : params.
Variable alg : algorithm (W:=W) (G:=G) (A:=A) (P:=P).
Variable eval : nat -> W -> R * G * R.
Variable trial : nat -> W -> R * R.
Variable gnorm : G -> R.
Variable scheduled : bool.
Variable rate : Sc -> nat -> R -> R * Sc.
Variable user_stop : nat -> R -> R -> bool.
Notation st := (st (W:=W) (A:=A) (Sc:=Sc)).
Notation pass := (pass p alg eval trial gnorm rate user_stop).
Notation run := (run p alg eval trial gnorm rate user_stop).
Notation optimize := (optimize p alg eval trial gnorm scheduled rate user_stop).
Notation obs := (obs (W:=W)).
Variable fresh : A.
Variable sc : Sc.
Variable w0 : W.
Notation begin := (start p alg (new_members fresh sc) w0).
Notation E := (map ev_energy). Notation Gn := (map ev_gnorm).
Notation Inv1 := (Inv1 p w0).

Definition low_of (e : R) (s : st) : list obs := if rlt e (s_lowE s) then [Lowest (s_cur s) e] else [].
Definition stop_of (e gn : R) (s : st) : bool := (0 <? s_iter s)%nat && should_stop p e (s_prevE s) gn (if rlt e (s_lowE s) then 0%nat else S (s_stall s)).
Definition discarded (s s' : st) (e err gn : R) (ws : list event) : Prop := exists sig act ev,
  discarding p s sig act /\ discards act = true /\ v_action ev = act /\ v_signal ev = sig /\ accepted (s_obs s') = accepted (s_obs s) /\
  rolled (s_obs s') = match act with Rollback => true | _ => rolled (s_obs s) end /\
  s_obs s' = s_obs s ++ Eval (s_cur s) e err gn :: map Spike ws ++ [Spike ev] /\ s_log s' = s_log s ++ ws ++ [ev] /\
  s_iter s' = s_iter s /\ s_rates s' = s_rates s /\ s_done s' = s_done s /\ s_conv s' = s_conv s /\ s_low s' = s_low s /\ s_lowE s' = s_lowE s /\ base_moves p trial s s' /\
  (act = Resample /\ s_att s' = S (s_att s) /\ s_cur s' = s_cur s /\ s_prev s' = s_prev s \/
   act = Rollback /\ s_att s' = 0%nat /\ s_cur s' = (match s_prev s with Some w => w | None => s_cur s end) /\ s_prev s' = None).
Definition taken (s s' : st) (e err gn : R) (ws : list event) : Prop := exists next eff tl,
  accepted (s_obs s') = accepted (s_obs s) ++ [(s_cur s, e, err, gn)] /\ rolled (s_obs s') = false /\
  s_obs s' = s_obs s ++ Eval (s_cur s) e err gn :: map Spike ws ++ tl /\ s_log s' = s_log s ++ ws /\ s_rates s' = s_rates s ++ [eff] /\ base_moves p trial s s' /\
  s_low s' = (if rlt e (s_lowE s) then s_cur s else s_low s) /\ s_lowE s' = (if rlt e (s_lowE s) then e else s_lowE s) /\
  (exists g k a d a' ng iters more lr, a_step alg k a d (s_cur s) g lr = Ok (a', (next, eff), (ng, iters), more) /\ (any_selector p = true -> lr = s_base s')) /\
  if stop_of e gn s then s_done s' = true /\ s_conv s' = true /\ s_iter s' = s_iter s /\ s_cur s' = s_cur s /\ tl = low_of e s
  else s_prev s' = (if p_rollback p then Some (s_cur s) else s_prev s) /\ s_cur s' = next /\ s_conv s' = s_conv s /\
    if user_stop (s_iter s) e err then s_done s' = true /\ s_iter s' = s_iter s /\ tl = low_of e s ++ [Iter (s_iter s) e err gn]
    else s_done s' = s_done s /\ s_iter s' = S (s_iter s) /\ s_att s' = 0%nat /\ tl = low_of e s ++ [Iter (s_iter s) e err gn] ++ (if due p (s_iter s) then [Ckpt (s_iter s) next] else []).
Lemma moves_base (s t s' : st) : s_base s' = s_base t -> base_moves p trial s t -> base_moves p trial s s'.
Proof. intros H. unfold base_moves. rewrite H. auto. Qed.
Lemma pass_facts (s s' : st) : pass s = Ok s' -> exists e err gn ws, Forall (fun v => v_action v = AcceptWithWarning) ws /\ Forall (fun v => v_signal v <> S4) ws /\ (discarded s s' e err gn ws \/ taken s s' e err gn ws).
Proof.
  intros Ep. destruct (pass_cases _ _ _ _ _ _ _ _ _ Ep) as (e & g & err & t & ws & Ev & Co & Ob & Lg & Nr & Nb & Nf & Fw & F4 & Bm & [(sig & act & v & th & Dg & Da & -> & Ac & Ro)|(next & eff & ng & k & a & d & a' & iters & more & lr & -> & St & Slr & Ac & Ro)]); exists e, err, (gnorm g), ws; (split; [exact Fw|]); (split; [exact F4|]).
  - left. destruct (recover_fields alg act sig v th t Da) as (R1 & R2 & R3 & R4 & R5 & R6 & R7 & R8 & R9 & R10 & R11 & R12 & R13 & R14 & ev & Ea & Es & Eo & El & Ef & Ec). set (s' := recover alg act (log sig act v th t)) in *. clearbody s'.
    exists sig, act, ev. split; [exact Dg|]. split; [exact Da|]. split; [exact Ea|]. split; [exact Es|]. split; [exact Ac|]. split; [exact Ro|].
    split; [rewrite Eo, Ob, <- app_assoc; reflexivity|]. split; [rewrite El, Lg, <- app_assoc; reflexivity|].
    rewrite R1, R3, R12, R13, R9, R8, (core_iter _ _ Co), (core_rates _ _ Co), (core_done _ _ Co), (core_conv _ _ Co), (core_low _ _ Co), (core_lowE _ _ Co). do 6 (split; [reflexivity|]). split; [exact (moves_base _ _ _ R14 Bm)|].
    rewrite (core_att _ _ Co), (core_cur _ _ Co), (core_prev _ _ Co) in Ec. destruct Ec as [(C1 & C2 & C3 & C4 & _)|(C1 & C2 & C3 & C4 & _)]; [left|right]; auto.
  - right. pose proof (accept_fields p alg user_stop e g err (gnorm g) eff ng next t) as F. pose proof (accept_flow p alg user_stop e g err (gnorm g) eff ng next t) as Fl. pose proof (accept_obs p alg user_stop e g err (gnorm g) eff ng next t) as Fo. cbv zeta in F, Fl.
    set (s' := accept p alg user_stop e g err (gnorm g) eff ng next t) in *. clearbody s'.
    destruct F as (F1 & F2 & F3 & F4' & F5 & F6 & F7 & F8 & F9 & F10 & F11 & F12 & F13 & F14).
    exists next, eff, (tail_obs p user_stop e err (gnorm g) next t). split; [exact Ac|]. split; [exact Ro|]. split; [rewrite Fo, Ob, <- app_assoc; reflexivity|]. split; [rewrite F10; exact Lg|]. split; [rewrite F2, (core_rates _ _ Co); reflexivity|]. split; [exact (moves_base _ _ _ F14 Bm)|].
    unfold new_low in F7, F8. rewrite (core_lowE _ _ Co), (core_cur _ _ Co), (core_low _ _ Co) in *. split; [exact F8|]. split; [exact F7|]. split; [exists g, k, a, d, a', ng, iters, more, lr; split; [exact St|rewrite F14; exact Slr]|].
    unfold tail_obs, low_obs, ck_obs, stops, stall', new_low in *. unfold stop_of, low_of, due. rewrite !(core_iter _ _ Co), !(core_lowE _ _ Co), ?(core_cur _ _ Co), ?(core_prevE _ _ Co), ?(core_stall _ _ Co), ?(core_prev _ _ Co), ?(core_conv _ _ Co), ?(core_done _ _ Co) in *.
    destruct (_ && should_stop _ _ _ _ _); [destruct Fl as (L1 & L2 & L3 & L4 & L5); auto|]. destruct Fl as (L1 & L2 & L3 & L4 & Fl). split; [exact L2|]. split; [exact L3|]. split; [exact L4|].
    destruct (user_stop _ _ _); [destruct Fl as (L5 & L6 & L7); auto|destruct Fl as (L5 & L6 & L7 & L8); auto].
Qed.

(** *** C62: the stopping criterion *)
Lemma crit_last es gs e gn : length gs = length es ->
  (criterion p (es ++ [e]) (gs ++ [gn]) (length es) <-> (0 < length es)%nat /\ should_stop p e (last es 0) gn (stalled (es ++ [e])) = true).
Proof.
  intros L. unfold criterion. rewrite app_length. cbn [length]. rewrite (app_nth2 gs), L, Nat.sub_diag by lia. rewrite (app_nth2 es), Nat.sub_diag by lia. cbn [nth].
  rewrite firstn_all2 by (rewrite app_length; simpl; lia). unfold should_stop. rewrite !orb_true_iff, Nat.leb_le.
  destruct (Nat.eq_dec (length es) 0) as [Z|Z]; [split; intros [H _]; lia|]. rewrite (app_nth1 es) by lia. rewrite (nth_last es 0) by (intros ->; apply Z; reflexivity).
  split.
  - intros (_ & [H|[H|H]]); (split; [lia|]); [left; left; apply rlt_true; exact H|left; right; apply rlt_true; exact H|right; exact H].
  - intros (_ & [[H|H]|H]); (split; [lia|]); [left; destruct (rlt_spec gn (p_gtol p)); [assumption|discriminate]|right; left|right; right; exact H].
    destruct (rlt_spec (Rabs (e - last es 0)) (p_etol p)); [assumption|discriminate].
Qed.
Lemma crit_early es gs e gn i : length gs = length es -> (i < length es)%nat -> (criterion p (es ++ [e]) (gs ++ [gn]) i <-> criterion p es gs i).
Proof.
  intros L H. unfold criterion. rewrite app_length. cbn [length]. rewrite !app_nth1 by lia. rewrite firstn_app. replace (S i - length es)%nat with 0%nat by lia. rewrite firstn_O, app_nil_r. split; intros [A1 A2]; (split; [lia|exact A2]).
Qed.
Definition Inv62 (s : st) : Prop := let acc := accepted (s_obs s) in Inv1 s /\
  (forall i, (S i < length acc)%nat -> ~ criterion p (E acc) (Gn acc) i) /\
  (if s_conv s then s_done s = true /\ criterion p (E acc) (Gn acc) (length acc - 1)
   else ~ criterion p (E acc) (Gn acc) (length acc - 1)) /\
  (s_done s = true -> s_conv s = false -> exists x, nth_error acc (length acc - 1) = Some x /\ user_stop (length acc - 1) (ev_energy x) (ev_error x) = true).
Lemma Inv62_begin : Inv62 begin.
Proof.
  split; [apply Inv1_begin|]. cbn. split; [intros i H; lia|]. split; [intros [H _]; cbn in H; lia|]. intros H; discriminate.
Qed.
Lemma stop_of_spec s e gn : Inv1 s -> s_done s = false -> stop_of e gn s = true <-> criterion p (E (accepted (s_obs s)) ++ [e]) (Gn (accepted (s_obs s)) ++ [gn]) (length (accepted (s_obs s))).
Proof.
  intros (I1 & I2 & I3 & I4 & I5 & I6) D. rewrite D in I2. destruct I2 as [I2 I2']. set (acc := accepted (s_obs s)) in *.
  assert (Le : length (E acc) = length acc) by apply map_length. assert (Lg : length (Gn acc) = length (E acc)) by (rewrite !map_length; reflexivity).
  rewrite <- Le, (crit_last _ _ e gn Lg). unfold stop_of. rewrite andb_true_iff, Nat.ltb_lt, I2, Le.
  assert (St : (if rlt e (s_lowE s) then 0%nat else S (s_stall s)) = stalled (E acc ++ [e])).
  { rewrite stalled_snoc, (stalled_low w0), <- I4, I3. reflexivity. }
  rewrite St. destruct acc as [|x acc']; [simpl; split; intros [H _]; lia|]. rewrite I2' by discriminate. reflexivity.
Qed.
Lemma Inv62_pass (s s' : st) : Inv62 s -> s_done s = false -> (s_iter s < p_max_iter p)%nat -> pass s = Ok s' -> Inv62 s'.
Proof.
  intros (I1 & Ie & Ic & Iu) D Lm Ep. split; [eapply Inv1_pass; eassumption|].
  destruct (pass_facts _ _ Ep) as (e & err & gn & ws & Fw & _ & [(sig & act & ev & Dg & Da & Va & Vs & Ac & Ro & Ob & Lg & It & Ra & Do & Co & Lo & LoE & Bm & Cs)|(next & eff & tl & Ac & Ro & Ob & Lg & Ra & Bm & Lo & LoE & St & Fl)]).
  - rewrite Ac, Co, Do. auto.
  - pose proof (stop_of_spec s e gn I1 D) as Sp. rewrite Ac, !map_app, !app_length. cbn [map length]. rewrite Nat.add_sub. change (ev_energy (s_cur s, e, err, gn)) with e. change (ev_gnorm (s_cur s, e, err, gn)) with gn.
    set (acc := accepted (s_obs s)) in *. assert (Lg' : length (Gn acc) = length (E acc)) by (rewrite !map_length; reflexivity). assert (Le : length (E acc) = length acc) by apply map_length.
    assert (Cf : s_conv s = false) by (destruct (s_conv s); [destruct Ic as [Ic _]; congruence|reflexivity]). rewrite Cf in Ic.
    assert (Iter : s_iter s = length acc) by (destruct I1 as (_ & I2 & _); rewrite D in I2; apply I2).
    split; [|split].
    + intros i Hi. rewrite crit_early by lia. destruct (Nat.eq_dec (S i) (length acc)) as [Q|Q]; [replace i with (length acc - 1)%nat by lia; exact Ic|apply Ie; lia].
    + destruct (stop_of e gn s); [destruct Fl as (F1 & F2 & _); rewrite F2; split; [exact F1|apply Sp; reflexivity]|].
      destruct Fl as (_ & _ & F3 & _). rewrite F3, Cf. intros Q. apply Sp in Q. discriminate.
    + intros D' C'. destruct (stop_of e gn s); [destruct Fl as (F1 & F2 & _); congruence|]. destruct Fl as (_ & _ & _ & Fl). exists (s_cur s, e, err, gn). rewrite nth_error_app2, Nat.sub_diag by lia. split; [reflexivity|].
      rewrite <- Iter. change (ev_energy (s_cur s, e, err, gn)) with e. change (ev_error (s_cur s, e, err, gn)) with err. destruct (user_stop (s_iter s) e err); [reflexivity|]. destruct Fl as (F1 & _). congruence.
Qed.
Theorem stopping fuel s : optimize fuel (new_members fresh sc) w0 = Ok (Finished s) -> let acc := accepted (s_obs s) in
  (s_conv s = true <-> criterion p (E acc) (Gn acc) (length acc - 1)) /\
  (forall i, (S i < length acc)%nat -> ~ criterion p (E acc) (Gn acc) i) /\
  (s_conv s = false -> length acc = p_max_iter p \/ exists x, nth_error acc (length acc - 1) = Some x /\ user_stop (length acc - 1) (ev_energy x) (ev_error x) = true).
Proof.
  intros Eo. apply optimize_run in Eo. destruct (run_induct p alg eval trial gnorm rate user_stop Inv62 Inv62_pass fuel begin _ Inv62_begin Eo) as [(I1 & Ie & Ic & Iu) T]. cbv zeta.
  split; [|split; [exact Ie|]].
  - destruct (s_conv s); [split; [intros _; apply Ic|reflexivity]|split; [discriminate|intros Q; contradiction]].
  - intros C. destruct (s_done s) eqn:D; [right; auto|left]. destruct T as [T|T]; [discriminate|]. destruct I1 as (_ & I2 & _ & _ & I5 & _). rewrite D in I2. destruct I2 as [I2 _]. lia.
Qed.

(** *** C35: where a retried evaluation starts *)
Definition Inv35 (s : st) : Prop :=
  (forall t1 w e err gn mid v w' e' err' gn' t2, s_obs s = t1 ++ Eval w e err gn :: mid ++ Spike v :: Eval w' e' err' gn' :: t2 -> no_eval mid -> discards (v_action v) = true -> w' = retried t1 w (v_action v)) /\
  (forall t1 w e err gn mid v, s_obs s = t1 ++ Eval w e err gn :: mid ++ [Spike v] -> no_eval mid -> discards (v_action v) = true -> s_cur s = retried t1 w (v_action v)) /\
  (s_done s = false -> s_prev s = if p_rollback p then (if rolled (s_obs s) then None else last (map (fun x => Some (ev_state x)) (accepted (s_obs s))) None) else None).
Lemma Inv35_begin : Inv35 begin.
Proof.
  split; [|split].
  - intros. cbn in H. destruct t1; discriminate.
  - intros. cbn in H. destruct t1; discriminate.
  - intros _. cbn. destruct (p_rollback p); reflexivity.
Qed.
Lemma no_eval_spikes ws : no_eval (map (Spike (W:=W)) ws). Proof. intros o H. apply in_map_iff in H. destruct H as (v & <- & _). exact I. Qed.
Lemma no_eval_quiet (l : list obs) : Forall quiet l -> no_eval l.
Proof. intros F o H. rewrite Forall_forall in F. specialize (F o H). destruct o; simpl in *; auto. Qed.
Lemma no_eval_app (a b : list obs) : no_eval a -> no_eval b -> no_eval (a ++ b).
Proof. intros A1 B1 o H. apply in_app_or in H. destruct H as [H|H]; [exact (A1 o H)|exact (B1 o H)]. Qed.
Lemma last_some {X} (l : list X) d : match last (map Some l) None with Some x => x | None => d end = last l d.
Proof. induction l as [|x l IH] using rev_ind; [reflexivity|]. rewrite map_app. simpl. rewrite !last_last. reflexivity. Qed.
Lemma tl_quiet (s s' : st) e err gn next tl : (if stop_of e gn s then s_done s' = true /\ s_conv s' = true /\ s_iter s' = s_iter s /\ s_cur s' = s_cur s /\ tl = low_of e s
  else s_prev s' = (if p_rollback p then Some (s_cur s) else s_prev s) /\ s_cur s' = next /\ s_conv s' = s_conv s /\
    if user_stop (s_iter s) e err then s_done s' = true /\ s_iter s' = s_iter s /\ tl = low_of e s ++ [Iter (s_iter s) e err gn]
    else s_done s' = s_done s /\ s_iter s' = S (s_iter s) /\ s_att s' = 0%nat /\ tl = low_of e s ++ [Iter (s_iter s) e err gn] ++ (if due p (s_iter s) then [Ckpt (s_iter s) next] else [])) -> Forall quiet tl.
Proof.
  intros Fl. assert (Ql : Forall quiet (low_of e s)) by (unfold low_of; destruct (rlt e (s_lowE s)); repeat constructor).
  destruct (stop_of e gn s); [destruct Fl as (_ & _ & _ & _ & ->); exact Ql|]. destruct Fl as (_ & _ & _ & Fl). destruct (user_stop _ _ _); [destruct Fl as (_ & _ & ->)|destruct Fl as (_ & _ & _ & ->)].
  - apply Forall_app. split; [exact Ql|repeat constructor].
  - apply Forall_app. split; [exact Ql|]. destruct (due p (s_iter s)); repeat constructor.
Qed.
Lemma Inv35_pass (s s' : st) : Inv35 s -> s_done s = false -> pass s = Ok s' -> Inv35 s'.
Proof.
  intros (Ia & Ib & Ic) D Ep. specialize (Ic D).
  assert (Hgen : forall e err gn ws l, (no_eval l) -> s_obs s' = s_obs s ++ Eval (s_cur s) e err gn :: map Spike ws ++ l ->
    forall t1 w e1 err1 gn1 mid v w' e' err' gn' t2, s_obs s' = t1 ++ Eval w e1 err1 gn1 :: mid ++ Spike v :: Eval w' e' err' gn' :: t2 -> no_eval mid -> discards (v_action v) = true -> w' = retried t1 w (v_action v)).
  { intros e err gn ws l Nl Ob t1 w e1 err1 gn1 mid v w' e' err' gn' t2 Q Nm Da. rewrite Ob in Q.
    replace (t1 ++ Eval w e1 err1 gn1 :: mid ++ Spike v :: Eval w' e' err' gn' :: t2) with ((t1 ++ Eval w e1 err1 gn1 :: mid ++ [Spike v]) ++ Eval w' e' err' gn' :: t2) in Q by (rewrite <- app_assoc; cbn [app]; rewrite <- app_assoc; reflexivity).
    apply split_eval in Q; [|exact I|exact I|apply no_eval_app; [apply no_eval_spikes|exact Nl]]. destruct Q as [(t2' & Q & _)|(Q1 & Q2 & _)].
    - refine (Ia t1 w e1 err1 gn1 mid v w' e' err' gn' t2' _ Nm Da). rewrite Q, <- app_assoc. cbn [app]. rewrite <- app_assoc. reflexivity.
    - injection Q2 as Q2 _ _ _. rewrite <- Q2. refine (Ib t1 w e1 err1 gn1 mid v _ Nm Da). symmetry. exact Q1. }
  destruct (pass_facts _ _ Ep) as (e & err & gn & ws & Fw & _ & [(sig & act & ev & Dg & Da & Va & Vs & Ac & Ro & Ob & Lg & It & Ra & Do & Co & Lo & LoE & Bm & Cs)|(next & eff & tl & Ac & Ro & Ob & Lg & Ra & Bm & Lo & LoE & St & Fl)]).
  - assert (Nl : no_eval [Spike (W:=W) ev]) by (intros o [<-|[]]; exact I).
    split; [exact (Hgen _ _ _ _ _ Nl Ob)|]. split.
    + intros t1 w e1 err1 gn1 mid v Q Nm Dv. rewrite Ob in Q. symmetry in Q.
      replace (t1 ++ Eval w e1 err1 gn1 :: mid ++ [Spike v]) with (t1 ++ Eval w e1 err1 gn1 :: (mid ++ [Spike v])) in Q by reflexivity.
      apply split_eval in Q; [|exact I|exact I|apply no_eval_app; [exact Nm|intros o [<-|[]]; exact I]]. destruct Q as [(t2' & Q1 & Q2)|(Q1 & Q2 & Q3)].
      { exfalso. assert (Nn : no_eval (map (Spike (W:=W)) ws ++ [Spike ev])) by (apply no_eval_app; [apply no_eval_spikes|exact Nl]). apply (Nn (Eval w e1 err1 gn1)). rewrite Q2. apply in_or_app. right. left. reflexivity. }
      injection Q2 as Q2 _ _ _. apply app_inj_tail in Q3. destruct Q3 as [_ Q3]. injection Q3 as Q3. rewrite Q3, Va, <- Q1, Q2. unfold retried.
      destruct Cs as [(-> & _ & C1 & C2)|(-> & _ & C1 & C2)]; [exact C1|]. rewrite C1, Ic. destruct Dg as (_ & [(_ & _ & Q & _)|[(_ & _ & _ & _ & Rb & _)|(_ & _ & Rb)]]); [discriminate| |]; rewrite Rb; (destruct (rolled (s_obs s)); [reflexivity|]); rewrite <- (map_map ev_state (@Some W)), last_some; reflexivity.
    + intros _. rewrite Ac, Ro. destruct Cs as [(-> & _ & C1 & C2)|(-> & _ & C1 & C2)]; rewrite C2; [exact Ic|destruct (p_rollback p); reflexivity].
  - pose proof (no_eval_quiet tl (tl_quiet _ _ _ _ _ _ _ Fl)) as Nl. pose proof (tl_quiet _ _ _ _ _ _ _ Fl) as Qt.
    split; [exact (Hgen _ _ _ _ _ Nl Ob)|]. split.
    + intros t1 w e1 err1 gn1 mid v Q Nm Dv. exfalso. rewrite Ob in Q. assert (Hin : Forall (fun o => match o with Spike v => discards (v_action v) = false | _ => True end) (Eval (s_cur s) e err gn :: map Spike ws ++ tl)).
      { constructor; [exact I|]. apply Forall_app. split; [apply Forall_map; revert Fw; apply Forall_impl; intros x ->; reflexivity|]. revert Qt. apply Forall_impl. intros o. destruct o; simpl; auto; contradiction. }
      assert (Ql : exists l0, Eval (s_cur s) e err gn :: map Spike ws ++ tl = l0 ++ [Spike v]).
      { destruct (@exists_last _ (Eval (s_cur s) e err gn :: map Spike ws ++ tl)) as (l0 & o & Q0); [discriminate|]. exists l0. rewrite Q0. rewrite Q0 in Q. rewrite app_assoc in Q. change (t1 ++ Eval w e1 err1 gn1 :: mid ++ [Spike v]) with (t1 ++ (Eval w e1 err1 gn1 :: mid) ++ [Spike v]) in Q. rewrite app_assoc in Q. apply app_inj_tail in Q. destruct Q as [_ ->]. reflexivity. }
      destruct Ql as (l0 & Ql). rewrite Ql in Hin. apply Forall_app in Hin. destruct Hin as [_ Hin]. apply Forall_inv in Hin. congruence.
    + intros D'. destruct (stop_of e gn s); [destruct Fl as (F1 & _); congruence|]. destruct Fl as (F1 & _ & _ & Fl). rewrite F1, Ac, Ro, map_app, Ic. cbn [map]. rewrite last_last. destruct (p_rollback p); reflexivity.
Qed.
Theorem restart fuel s : optimize fuel (new_members fresh sc) w0 = Ok (Finished s) \/ optimize fuel (new_members fresh sc) w0 = Ok (Running s) ->
  forall t1 w e err gn mid v w' e' err' gn' t2, s_obs s = t1 ++ Eval w e err gn :: mid ++ Spike v :: Eval w' e' err' gn' :: t2 -> no_eval mid -> discards (v_action v) = true ->
  w' = retried t1 w (v_action v).
Proof.
  intros Eo. assert (St : forall u u', Inv35 u -> s_done u = false -> (s_iter u < p_max_iter p)%nat -> pass u = Ok u' -> Inv35 u') by (intros u u' H1 H2 _ H3; exact (Inv35_pass u u' H1 H2 H3)).
  destruct Eo as [Eo|Eo]; apply optimize_run in Eo; pose proof (run_induct p alg eval trial gnorm rate user_stop Inv35 St fuel begin _ Inv35_begin Eo) as K; [destruct K as [[K _] _]|destruct K as [K _]]; exact K.
Qed.
End Loop.
