(** The algorithms inside the optimisation loop: what a discarded evaluation leaves behind. *)
From Coq Require Import List Arith Bool Reals Lia Lra.
From Verif Require Import Base Cplx Rsum OptModel OptSpec OptProofs OptMain MsgModel TpsModel TpsSpec TpsProofs TpsMain AlgModel AlgSpec AlgProofs.
Import ListNotations.
Local Open Scope R_scope.

Section L.
Context {W G A P Sc : Type} (p : params) (alg : algorithm (W:=W) (G:=G) (A:=A) (P:=P)) (eval : nat -> W -> R * G * R) (trial : nat -> W -> R * R) (gnorm : G -> R)
  (scheduled : bool) (rate : Sc -> nat -> R -> R * Sc) (user_stop : nat -> R -> R -> bool).
Notation st := (st (W:=W) (A:=A) (Sc:=Sc)).
Notation pass := (pass p alg eval trial gnorm rate user_stop).
Lemma detect12_sig (mErr mG : ema) err gn x : detect12 p mErr mG err gn = Some x -> x <> S4.
Proof. unfold detect12. repeat match goal with |- context [if ?b then _ else _] => destruct b end; intros E; inversion E; discriminate. Qed.
Lemma detect3_sig mN ng it x : detect3 p mN ng it = Some x -> x <> S4.
Proof. unfold detect3. destruct (m_on mN && _ && _); [intros E; inversion E; discriminate|]. destruct it; [destruct (_ <=? _)%nat|]; intros E; inversion E; discriminate. Qed.
Lemma recover_last sig act v th (s : st) : discards act = true ->
  exists ev, v_signal ev = sig /\ s_log (recover alg act (log sig act v th s)) = s_log s ++ [ev].
Proof.
  intros D. destruct act; try discriminate; unfold recover, log, back_to_prev; cbn; [|destruct (s_prev s)]; eexists; split; try reflexivity; reflexivity.
Qed.
Lemma warn_log sig act v th (s u : st) : (forall x, sig = Some x -> x <> S4) -> check alg sig act v th s = inl u ->
  u = s \/ exists x, u = log x (act x) (v x) (th x) s /\ discards (act x) = false /\ x <> S4.
Proof.
  intros H. unfold check. destruct sig as [x|]; [|intros E; injection E as <-; auto]. destruct (discards (act x)) eqn:D; intros E; [discriminate|]. injection E as <-. right. eauto.
Qed.
Lemma log_keeps x act v th (s : st) : s_A (log x act v th s) = s_A s /\ s_cur (log x act v th s) = s_cur s /\ s_prev (log x act v th s) = s_prev s.
Proof. destruct act; repeat split. Qed.
Lemma log_events x act v th (s : st) : exists ev, v_signal ev = x /\ s_log (log x act v th s) = s_log s ++ [ev].
Proof. destruct act; eexists; split; try reflexivity; reflexivity. Qed.
Lemma end_event (l l' : list event) a b : l ++ [a] = l' ++ [b] -> a = b.
Proof. intros E. now apply app_inj_tail in E. Qed.

(** An evaluation is discarded for its energy only after the algorithm has taken its step. *)
Lemma discarded_after_step (s s' : st) l ev : pass s = Ok s' -> s_log s' = l ++ [ev] -> (length (s_log s) < length (s_log s'))%nat -> v_signal ev = S4 ->
  exists g err acc0 d lr k acc next eff ng iters more,
    (let '(e1, g1, err1) := eval (s_calls s) (s_cur s) in g = g1 /\ err = err1) /\
    a_seen alg (s_A s) (s_cur s) g = Ok acc0 /\ a_step alg k acc0 d (s_cur s) g lr = Ok (acc, (next, eff), (ng, iters), more) /\
    match s_prev s with
    | Some w => s_cur s' = w /\ s_A s' = a_rollback alg acc
    | None => s_cur s' = s_cur s /\ s_A s' = acc
    end.
Proof.
  intros E El Hl Sg. unfold OptModel.pass in E. destruct (eval (s_calls s) (s_cur s)) as [[e g] err] eqn:Ev.
  set (t0 := saw _ _) in E. destruct (a_seen alg (s_A t0) (s_cur t0) g) as [acc0|] eqn:Se; [|discriminate]. cbn [bind] in E.
  change (s_A t0) with (s_A s) in Se. change (s_cur t0) with (s_cur s) in Se.
  set (t1 := set_A acc0 t0) in E.
  assert (K1 : s_A t1 = acc0 /\ s_cur t1 = s_cur s /\ s_prev t1 = s_prev s /\ s_log t1 = s_log s) by (repeat split).
  match type of E with context [check alg ?a ?b ?c ?d t1] => destruct (check alg a b c d t1) as [u1|u1] eqn:C1 end.
  2:{ exfalso. injection E as <-. apply check_inr in C1 as (x & Hx & D & Eu). subst u1.
      match type of El with context [log x ?a ?v ?t t1] => destruct (recover_last x a v t t1 D) as (ev' & Hs & Hlog) end. rewrite Hlog in El. apply end_event in El. subst ev'.
      destruct (p_auto p && _); [|discriminate]. apply detect12_sig in Hx. congruence. }
  apply warn_log in C1. 2:{ intros x Hx. destruct (p_auto p && _); [|discriminate]. eapply detect12_sig; eauto. }
  assert (K2 : s_A u1 = acc0 /\ s_cur u1 = s_cur s /\ s_prev u1 = s_prev s /\ (s_log u1 = s_log s \/ exists ev1, v_signal ev1 <> S4 /\ s_log u1 = s_log s ++ [ev1])).
  { destruct C1 as [->|(x & -> & D & Hx)]; [destruct K1 as (? & ? & ? & ?); auto 10|].
    match goal with |- context [log x ?a ?v ?t t1] => destruct (log_keeps x a v t t1) as (-> & -> & ->); destruct (log_events x a v t t1) as (ev1 & Hs & ->) end.
    destruct K1 as (? & ? & ? & ->). repeat split; auto. right. exists ev1. split; congruence. }
  clearbody t0 t1. clear C1 K1.
  destruct (if any_selector p then _ else _) as [lr0 sc]. set (u2 := set_sched sc u1) in E.
  destruct (select p alg trial u2 g err) as [sel|]; [|discriminate]. cbn [bind] in E.
  destruct (match sel with Some (r, d, k) => (r, Some d, k) | None => (lr0, None, 0%nat) end) as [[lr d] extra].
  set (u3 := set_calls _ _) in E.
  assert (K3 : s_A u3 = s_A u1 /\ s_cur u3 = s_cur u1 /\ s_prev u3 = s_prev u1 /\ s_log u3 = s_log u1) by (unfold u3, u2; destruct sel; repeat split).
  clearbody u3. destruct (a_step alg (s_calls u3) (s_A u3) d (s_cur u3) g lr) as [[[[acc [next eff]] [ng iters]] more]|] eqn:Stp; [|discriminate]. cbn [bind] in E.
  destruct K2 as (KA & KC & KP & KL). destruct K3 as (JA & JC & JP & JL). rewrite JA, KA, JC, KC in Stp.
  set (u4 := set_calls (s_calls u3 + more) (set_A acc u3)) in E.
  assert (K4 : s_A u4 = acc /\ s_cur u4 = s_cur s /\ s_prev u4 = s_prev s /\ s_log u4 = s_log u1) by (unfold u4; cbn; rewrite JC, JP, JL; auto).
  clearbody u4. clear u2 JA JC JP JL.
  match type of E with context [check alg ?a ?b ?c ?d u4] => destruct (check alg a b c d u4) as [u5|u5] eqn:C3 end.
  2:{ exfalso. injection E as <-. apply check_inr in C3 as (x & Hx & D & Eu). subst u5.
      match type of El with context [log x ?a ?v ?t u4] => destruct (recover_last x a v t u4 D) as (ev' & Hs & Hlog) end. rewrite Hlog in El. apply end_event in El. subst ev'.
      destruct (a_natural alg && _ && _); [|discriminate]. apply detect3_sig in Hx. congruence. }
  apply warn_log in C3. 2:{ intros x Hx. destruct (a_natural alg && _ && _); [|discriminate]. eapply detect3_sig; eauto. }
  assert (K5 : s_A u5 = acc /\ s_cur u5 = s_cur s /\ s_prev u5 = s_prev s /\ (s_log u5 = s_log u1 \/ exists ev1, v_signal ev1 <> S4 /\ s_log u5 = s_log u1 ++ [ev1])).
  { destruct C3 as [->|(x & -> & D & Hx)]; [destruct K4 as (? & ? & ? & ?); auto 10|].
    match goal with |- context [log x ?a ?v ?t u4] => destruct (log_keeps x a v t u4) as (-> & -> & ->); destruct (log_events x a v t u4) as (ev1 & Hs & ->) end.
    destruct K4 as (? & ? & ? & ->). repeat split; auto. right. exists ev1. split; congruence. }
  clear K4 C3. destruct K5 as (LA & LC & LP & LL).
  match type of E with context [check alg ?a ?b ?c ?d u5] => destruct (check alg a b c d u5) as [u6|u6] eqn:C4 end.
  { exfalso. injection E as <-. unfold check in C4. destruct (if p_rollback p && _ then _ else _); [discriminate|]. injection C4 as <-.
    cbn [s_log accept] in El, Hl. destruct LL as [LL|(ev1 & N1 & LL)]; rewrite LL in *.
    - destruct KL as [KL|(ev2 & N2 & KL)]; rewrite KL in *; [lia|]. apply end_event in El. congruence.
    - apply end_event in El. congruence. }
  injection E as <-. apply check_inr in C4 as (x & Hx & D & ->). cbn [discards] in *.
  exists g, err, acc0, d, lr, (s_calls u3), acc, next, eff, ng, iters, more.
  split; [auto|]. split; [exact Se|]. split; [exact Stp|].
  unfold recover, back_to_prev. match goal with |- context [log x Rollback ?v ?t u5] => destruct (log_keeps x Rollback v t u5) as (QA & QC & QP) end.
  rewrite QP, LP. destruct (s_prev s); cbn [s_cur s_A set_att set_A set_cur set_prev]; rewrite ?QA, ?QC, ?LA, ?LC; auto.
Qed.
End L.

(** SGD: the velocity keeps the discarded gradient. *)
Lemma momentum_keeps_discarded {Sc} p q cv cn eval trial gnorm (rate : Sc -> nat -> R -> R * Sc) user_stop s s' l ev :
  pass p (sgd_algorithm q cv cn) eval trial gnorm rate user_stop s = Ok s' ->
  s_log s' = l ++ [ev] -> (length (s_log s) < length (s_log s'))%nat -> v_signal ev = S4 ->
  exists g' lr next, preprocess cv cn (snd (fst (eval (s_calls s) (s_cur s)))) = Ok g' /\
    sgd_update true q (s_A s) (s_cur s) g' lr = Ok (next, s_A s') /\
    s_cur s' = match s_prev s with Some w => w | None => s_cur s end.
Proof.
  intros E El Hl Sg. destruct (discarded_after_step p (sgd_algorithm q cv cn) eval trial gnorm rate user_stop s s' l ev E El Hl Sg)
    as (g & err & acc0 & d & lr & k & acc & next & eff & ng & it & more & Eg & Se & Stp & Fin).
  destruct (eval (s_calls s) (s_cur s)) as [[e1 g1] err1]. destruct Eg as [-> ->]. cbn [a_seen sgd_algorithm] in Se. injection Se as <-.
  cbn [a_step sgd_algorithm] in Stp. cbn [fst snd]. destruct (preprocess cv cn g1) as [g'|]; [|discriminate]. cbn [bind] in Stp.
  destruct (sgd_update true q (s_A s) (s_cur s) g' lr) as [[w' v']|] eqn:U; [|discriminate]. cbn [bind fst snd] in Stp. injection Stp as <- <- _ _ _ _.
  exists g', lr, w'. split; [reflexivity|]. destruct (s_prev s); destruct Fin as (-> & ->); auto.
Qed.
(** Previews, on states of one layout and inside the loop. *)
Lemma preview_shaped L p vel cur g lr : shaped L cur -> shaped L g -> match vel with Some v => shaped L v | None => True end ->
  exists w v, sgd_update true p vel cur g lr = Ok (w, Some v) /\ sgd_preview true p vel cur g lr = Ok w.
Proof.
  intros X Y Z. destruct (sgd_step L p vel cur g lr (at_place cur) (at_place g) (match vel with Some v => at_place v | None => fun _ => RtoC 0 end)) as (u & v & E & _).
  - now apply shaped_vec.
  - now apply shaped_vec.
  - destruct vel; [now apply shaped_vec|reflexivity].
  - exists u, v. split; [exact E|]. rewrite sgd_preview_is_update, E by eauto. reflexivity.
Qed.
Lemma trial_is_step p cv cn k acc d w g lr acc' next eff ng it more :
  a_step (sgd_algorithm p cv cn) k acc d w g lr = Ok (acc', (next, eff), (ng, it), more) ->
  a_trial (sgd_algorithm p cv cn) acc tt w g lr = next /\ eff = lr.
Proof.
  cbn [a_step a_trial sgd_algorithm]. destruct (preprocess cv cn g) as [g'|]; [|discriminate]. cbn [bind].
  destruct (sgd_update true p acc w g' lr) as [[w' v']|] eqn:U; [|discriminate]. cbn [bind fst snd]. intros E. injection E as _ <- <- _ _ _.
  rewrite sgd_preview_is_update, U by eauto. auto.
Qed.
(** *** The gradient handed to the first-order updates *)
Lemma preprocess_spec L cv cn g : shaped L g ->
  let clipped := fun q => match cv with Some c => if Rlt_dec 0 c then clip_elem c (at_place g q) else at_place g q | None => at_place g q end in
  let n := sqrt (rsum (fun q => Cnorm2 (clipped q)) (places L)) in
  exists g' x, preprocess cv cn g = Ok g' /\ is_vector L g' (fun q => RtoC x * clipped q)%C /\ p_bc g' = p_bc g /\ (0 <= x <= 1)%R /\
    sqrt (rsum (fun q => Cnorm2 (at_place g' q)) (places L)) = match cn with Some c => if Rlt_dec 0 c then Rmin n c else n | None => n end.
Proof.
  intros A clipped n.
  assert (E1 : exists g1, match cv with Some c => if rlt 0 c then clip_value c g else Ok g | None => Ok g end = Ok g1 /\ is_vector L g1 clipped /\ p_bc g1 = p_bc g).
  { unfold clipped, rlt. destruct cv as [c|]; [|exists g; split; [reflexivity|split; [split; [exact A|reflexivity]|reflexivity]]].
    destruct (Rlt_dec 0 c) as [H|H]; [|exists g; split; [reflexivity|split; [split; [exact A|reflexivity]|reflexivity]]].
    exact (clip_value_spec L c g (Rlt_le _ _ H) A). }
  destruct E1 as (g1 & E1 & [A1 V1] & B1). unfold preprocess. rewrite E1. cbn [bind].
  assert (N1 : sqrt (rsum (fun q => Cnorm2 (at_place g1 q)) (places L)) = n) by (unfold n; f_equal; apply rsum_ext; intros q Hq; rewrite (V1 q Hq); reflexivity).
  assert (S0 : exists g' x, Ok g1 = Ok g' /\ is_vector L g' (fun q => RtoC x * clipped q)%C /\ p_bc g' = p_bc g /\ (0 <= x <= 1)%R /\ sqrt (rsum (fun q => Cnorm2 (at_place g' q)) (places L)) = n).
  { exists g1, 1%R. split; [reflexivity|]. split; [split; [exact A1|intros q Hq; rewrite (V1 q Hq); ring]|]. split; [exact B1|]. split; [lra|exact N1]. }
  destruct cn as [c|]; [|exact S0]. unfold rlt. destruct (Rlt_dec 0 c) as [H|H]; [|exact S0].
  destruct (clip_norm_spec L c g1 (Rlt_le _ _ H) A1) as (v & x & E & X & [AV V] & B & N & _). exists v, x. split; [exact E|]. split; [split; [exact AV|intros q Hq; rewrite (V q Hq), (V1 q Hq); reflexivity]|]. split; [congruence|]. split; [exact X|]. rewrite N, N1. reflexivity.
Qed.
