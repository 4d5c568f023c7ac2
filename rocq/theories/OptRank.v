(** The optimisation loop on all ranks: what the master broadcasts and how a worker follows. *)
From Coq Require Import List Arith Bool Reals Lra Lia.
From Verif Require Import Base OptModel OptSpec OptProofs OptMain OptRuns OptLoop.
Import ListNotations.
Local Open Scope R_scope.

(** Collective operations of one pass, with what the master puts in: an evaluation (all ranks receive the
    energy, mc_energy_grad_evaluator.h:293), a spike action (optimizer_impl.h:1947-1953), the decision to
    stop (1764-1804). Operations inside the algorithms and the step selectors are not listed: both sides
    enter them under conditions that do not depend on the rank. *)
Inductive coll := CEval (e : R) | CAction (a : action) | CStop (b : bool).
(** What the master finds out during one pass: energy, error bar, the actions decided by the three spike
    checks, whether the stopping criterion holds. (optimizer_impl.h:240-300, 700-800) *)
Record decision := mkD { d_e : R; d_err : R; d_12 : action; d_3 : action; d_4 : action; d_stop : bool }.
Section Ranks.
Variable p : params.
Variable natural : bool.
(** callback.should_stop *)
Variable user_stop : nat -> R -> R -> bool.
(** The pass on the master (252-300, 690-730, 732-765, 800-890), as operations and next (iteration, done). *)
Definition end_pass (iter : nat) (e err : R) : nat * bool := if user_stop iter e err then (iter, true) else (S iter, false).
(** optimizer_impl.h:790-830 *)
Definition master_stop (iter : nat) (d : decision) : list coll * (nat * bool) :=
  if (0 <? iter)%nat then (CStop (d_stop d) :: [], if d_stop d then (iter, true) else end_pass iter (d_e d) (d_err d))
  else ([], end_pass iter (d_e d) (d_err d)).
(** optimizer_impl.h:255-300, 700-775 *)
Definition master_check (on : bool) (a : action) (iter : nat) (k : list coll * (nat * bool)) : list coll * (nat * bool) :=
  if on && (0 <? iter)%nat then if discards a then ([CAction a], (iter, false)) else (CAction a :: fst k, snd k) else k.
(** optimizer_impl.h:233-900, master branches *)
Definition master_pass (iter : nat) (d : decision) : list coll * (nat * bool) :=
  let k := master_check (p_auto p) (d_12 d) iter (master_check (natural && p_auto p) (d_3 d) iter (master_check (p_rollback p) (d_4 d) iter (master_stop iter d))) in
  (CEval (d_e d) :: fst k, snd k).
(** The same pass on another rank: it takes the payloads from the master; the error bar it passes to the
    callback is 0 (mc_energy_grad_evaluator.h:320). [None]: the operation offered is not the one it enters. *)
Definition worker_stop (iter : nat) (e : R) (l : list coll) : option (list coll * (nat * bool)) :=
  if (0 <? iter)%nat then match l with CStop b :: r => Some (r, if b then (iter, true) else end_pass iter e 0) | _ => None end
  else Some (l, end_pass iter e 0).
(** optimizer_impl.h:255-300, 700-775 *)
Definition worker_check (on : bool) (iter : nat) (l : list coll) (k : list coll -> option (list coll * (nat * bool))) : option (list coll * (nat * bool)) :=
  if on && (0 <? iter)%nat then match l with CAction a :: r => if discards a then Some (r, (iter, false)) else k r | _ => None end else k l.
(** optimizer_impl.h:205-900, worker branches *)
Definition worker_pass (iter : nat) (l : list coll) : option (list coll * (nat * bool)) :=
  match l with
  | CEval e :: r => worker_check (p_auto p) iter r (fun r => worker_check (natural && p_auto p) iter r (fun r => worker_check (p_rollback p) iter r (worker_stop iter e)))
  | _ => None
  end.
(** A run: the master goes through as many passes as there are decisions, or until it is done. (optimizer_impl.h:205-900) *)
Fixpoint master_run (s : nat * bool) (ds : list decision) : list coll * (nat * bool) :=
  match ds with
  | [] => ([], s)
  | d :: r => if snd s || (p_max_iter p <=? fst s)%nat then ([], s)
              else let '(l, s1) := master_pass (fst s) d in let '(l', s2) := master_run s1 r in (l ++ l', s2)
  end.
(** A worker enters as many operations as the master offers; [None]: it enters another one, or has left. (optimizer_impl.h:205-900) *)
Fixpoint worker_run (fuel : nat) (s : nat * bool) (l : list coll) : option (nat * bool) :=
  match fuel with
  | O => None
  | S f => match l with
           | [] => Some s
           | _ => if snd s || (p_max_iter p <=? fst s)%nat then None
                  else match worker_pass (fst s) l with Some (r, s1) => worker_run f s1 r | None => None end
           end
  end.

Hypothesis blind : forall i e err, user_stop i e err = user_stop i e 0.
Lemma worker_follows iter d l : worker_pass iter (fst (master_pass iter d) ++ l) = Some (l, snd (master_pass iter d)).
Proof.
  unfold master_pass, worker_pass, master_check, worker_check, master_stop, worker_stop, end_pass. cbn [fst snd app]. rewrite (blind iter (d_e d) (d_err d)).
  destruct (p_auto p), natural, (p_rollback p), (0 <? iter)%nat; cbn [andb]; destruct (discards (d_12 d)) eqn:D1, (discards (d_3 d)) eqn:D2, (discards (d_4 d)) eqn:D3; cbn [fst snd app]; rewrite ?D1, ?D2, ?D3; cbn [fst snd app]; rewrite ?D1, ?D2, ?D3; cbn [fst snd app]; rewrite ?D1, ?D2, ?D3; reflexivity.
Qed.
Lemma master_pass_some iter d : exists c r, fst (master_pass iter d) = c :: r. Proof. unfold master_pass. cbn [fst]. eauto. Qed.
Theorem ranks_agree ds : forall s, exists fuel, worker_run fuel s (fst (master_run s ds)) = Some (snd (master_run s ds)).
Proof.
  induction ds as [|d ds IH]; intros s; cbn [master_run]; [exists 1%nat; reflexivity|]. destruct (snd s || (p_max_iter p <=? fst s)%nat) eqn:T; [exists 1%nat; reflexivity|].
  destruct (master_pass (fst s) d) as [l s1] eqn:Em. destruct (IH s1) as (f & Hf). destruct (master_run s1 ds) as [l' s2]. cbn [fst snd] in *. exists (S f). cbn [worker_run].
  pose proof (worker_follows (fst s) d l') as Wf. destruct (master_pass_some (fst s) d) as (c & r & Ec). rewrite Em in Wf, Ec. cbn [fst snd] in Wf, Ec. rewrite T, Wf. subst l. cbn [app] in *. exact Hf.
Qed.
End Ranks.

(** *** The passes of the loop are such passes *)
Section Link.
Context {W G A P Sc : Type}.
Variable p : params.
Variable alg : algorithm (W:=W) (G:=G) (A:=A) (P:=P).
Variable eval : nat -> W -> R * G * R.
Variable trial : nat -> W -> R * R.
Variable gnorm : G -> R.
Variable rate : Sc -> nat -> R -> R * Sc.
Variable user_stop : nat -> R -> R -> bool.
Notation st := (st (W:=W) (A:=A) (Sc:=Sc)).
Notation pass := (pass p alg eval trial gnorm rate user_stop).
(** optimizer_impl.h:255-300 *)
Definition verdict (sig : option signal) (act : signal -> action) : action := match sig with Some x => act x | None => Accept end.
(** proof notion, not part of the code *)
Definition same (s t : st) : Prop := s_iter t = s_iter s /\ s_done t = s_done s /\ s_prevE t = s_prevE s /\ s_lowE t = s_lowE s /\ s_stall t = s_stall s.
Lemma check_flow (s u : st) sig act v th :
  (check alg sig act v th s = inl u -> discards (verdict sig act) = false /\ same s u) /\ (check alg sig act v th s = inr u -> discards (verdict sig act) = true /\ same s u).
Proof.
  unfold check, verdict. destruct sig as [x|]; [|split; intros H; [injection H as <-; unfold same; repeat split|discriminate]]. destruct (discards (act x)) eqn:D; split; intros H; try discriminate; injection H as <-; (split; [reflexivity|]).
  - destruct (act x); try discriminate; unfold same; cbn; [repeat split|]. unfold back_to_prev. cbn. destruct (s_prev s); cbn; repeat split.
  - destruct (act x); try discriminate; unfold same; cbn; repeat split.
Qed.
Lemma same_trans a b c : same a b -> same b c -> same a c.
Proof. unfold same. intuition congruence. Qed.
Lemma gated (b c : bool) (x : option signal) act : verdict (if b && c then x else None) act = if b && c then verdict x act else Accept.
Proof. destruct (b && c); reflexivity. Qed.
Theorem pass_is_master (s s' : st) : s_done s = false -> pass s = Ok s' -> exists d,
  snd (master_pass p (a_natural alg) user_stop (s_iter s) d) = (s_iter s', s_done s').
Proof.
  intros D. unfold OptModel.pass. destruct (eval (s_calls s) (s_cur s)) as [[e g] err] eqn:Ev. set (s0 := saw (Eval (s_cur s) e err (gnorm g)) (set_calls (S (s_calls s)) s)).
  destruct (a_seen alg (s_A s0) (s_cur s0) g) as [acc|f]; [|discriminate]. cbn [bind]. set (s1 := set_A acc s0).
  assert (X1 : same s s1) by (unfold same; cbn; repeat split). clearbody s1.
  set (sg1 := if p_auto p && (0 <? s_iter s1)%nat then _ else _). set (ac1 := fun _ : signal => decide p (has_prev s1) (s_att s1) (s_iter s1)).
  destruct (check alg sg1 ac1 _ _ s1) as [s2|s2] eqn:C1; apply check_flow in C1; destruct C1 as [V1 Y1].
  2:{ intros E. injection E as <-. exists (mkD e err (verdict sg1 ac1) Accept Accept false). unfold master_pass, master_check. cbn [snd d_12 d_3 d_4]. destruct X1 as (X1 & Xd & _). destruct Y1 as (Y1 & Yd & _). unfold sg1 in V1. rewrite gated, X1 in V1.
      destruct (p_auto p && (0 <? s_iter s)%nat) eqn:Q; [|discriminate]. assert (V : discards (verdict sg1 ac1) = true) by (unfold sg1; rewrite X1, Q; exact V1). rewrite V. cbn [snd]. rewrite Y1, X1, Yd, Xd, D. reflexivity. }
  pose proof (same_trans _ _ _ X1 Y1) as X2. clear Y1.
  destruct (if any_selector p then _ else _) as [lr0 sc] eqn:Er. set (s3 := set_sched sc s2). destruct (select p alg trial s3 g err) as [sel|f]; [|discriminate]. cbn [bind].
  destruct (match sel with Some (r, d, k) => (r, Some d, k) | None => (lr0, None, 0%nat) end) as [[lr d] extra]. set (s4 := set_calls _ _).
  assert (X4 : same s s4) by (refine (same_trans _ _ _ X2 _); unfold s4, same; destruct sel as [[[? ?] ?]|]; cbn; repeat split). clearbody s4.
  destruct (a_step alg (s_calls s4) (s_A s4) d (s_cur s4) g lr) as [[[[acc' [next eff]] [ng iters]] more]|f]; [|discriminate]. cbn [bind].
  set (s5 := set_calls _ _). assert (X5 : same s s5) by (refine (same_trans _ _ _ X4 _); unfold s5, same; cbn; repeat split). clearbody s5.
  set (sg3 := if a_natural alg && p_auto p && (0 <? s_iter s5)%nat then _ else _). set (ac3 := fun _ : signal => decide p (has_prev s5) (s_att s5) (s_iter s5)).
  assert (I1 : s_iter s1 = s_iter s) by apply X1. assert (I5 : s_iter s5 = s_iter s) by apply X5.
  assert (V1' : p_auto p && (0 <? s_iter s)%nat = true -> discards (verdict sg1 ac1) = false) by (intros _; exact V1).
  destruct (check alg sg3 ac3 _ _ s5) as [s6|s6] eqn:C3; apply check_flow in C3; destruct C3 as [V3 Y3].
  2:{ intros E. injection E as <-. pose proof (same_trans _ _ _ X5 Y3) as (Z1 & Z2 & _). exists (mkD e err (verdict sg1 ac1) (verdict sg3 ac3) Accept false). unfold master_pass, master_check. cbn [snd d_12 d_3 d_4].
      assert (Q : a_natural alg && p_auto p && (0 <? s_iter s)%nat = true). { unfold sg3 in V3. rewrite I5 in V3. destruct (a_natural alg && p_auto p && (0 <? s_iter s)%nat); [reflexivity|discriminate]. }
      rewrite Q, V3, V1. assert (Q' : p_auto p && (0 <? s_iter s)%nat = true) by (rewrite !andb_true_iff in *; tauto). rewrite Q'. cbn [snd]. rewrite Z1, Z2, D. reflexivity. }
  pose proof (same_trans _ _ _ X5 Y3) as X6. clear Y3. assert (I6 : s_iter s6 = s_iter s) by apply X6.
  set (sg4 := if p_rollback p && (0 <? s_iter s6)%nat then _ else _). set (ac4 := fun _ : signal => Rollback).
  destruct (check alg sg4 ac4 _ _ s6) as [s7|s7] eqn:C4; apply check_flow in C4; destruct C4 as [V4 Y4]; intros E; injection E as <-; pose proof (same_trans _ _ _ X6 Y4) as X7.
  2:{ destruct X7 as (Z1 & Z2 & _). exists (mkD e err (verdict sg1 ac1) (verdict sg3 ac3) (verdict sg4 ac4) false). unfold master_pass, master_check. cbn [snd d_12 d_3 d_4].
      assert (Q : p_rollback p && (0 <? s_iter s)%nat = true). { unfold sg4 in V4. rewrite I6 in V4. destruct (p_rollback p && (0 <? s_iter s)%nat); [reflexivity|discriminate]. }
      rewrite Q, V4, V3, V1. destruct (p_auto p && (0 <? s_iter s)%nat), (a_natural alg && p_auto p && (0 <? s_iter s)%nat); cbn [snd]; rewrite Z1, Z2, D; reflexivity. }
  pose proof (accept_flow p alg user_stop e g err (gnorm g) eff ng next s7) as Fl. cbv zeta in Fl. set (s' := accept p alg user_stop e g err (gnorm g) eff ng next s7) in *. clearbody s'. destruct X7 as (Z1 & Z2 & _).
  exists (mkD e err (verdict sg1 ac1) (verdict sg3 ac3) (verdict sg4 ac4) (stops p e (gnorm g) s7)). unfold master_pass, master_check, master_stop, end_pass. cbn [snd fst d_12 d_3 d_4 d_stop d_e d_err]. rewrite V4, V3, V1.
  assert (R : forall (b1 b2 b3 : bool) (l : list coll) (x y z : coll) (k : list coll * (nat * bool)), snd (if b1 then (x :: fst (if b2 then (y :: fst (if b3 then (z :: fst k, snd k) else k), snd (if b3 then (z :: fst k, snd k) else k)) else (if b3 then (z :: fst k, snd k) else k)), snd (if b2 then (y :: fst (if b3 then (z :: fst k, snd k) else k), snd (if b3 then (z :: fst k, snd k) else k)) else (if b3 then (z :: fst k, snd k) else k))) else (if b2 then (y :: fst (if b3 then (z :: fst k, snd k) else k), snd (if b3 then (z :: fst k, snd k) else k)) else (if b3 then (z :: fst k, snd k) else k))) = snd k) by (intros [|] [|] [|]; reflexivity).
  rewrite R by exact []. clear R. rewrite <- Z1. destruct (stops p e (gnorm g) s7) eqn:Sp.
  - destruct Fl as (F1 & _ & F3 & _). unfold stops in Sp. apply andb_prop in Sp. destruct Sp as [Sp _]. rewrite Sp. cbn [snd]. rewrite F1, F3. reflexivity.
  - destruct Fl as (_ & _ & _ & _ & Fl). destruct (0 <? s_iter s7)%nat; cbn [snd]; (destruct (user_stop (s_iter s7) e err); [destruct Fl as (F1 & F2 & _); rewrite F1, F2; reflexivity|destruct Fl as (F1 & F2 & _); rewrite F1, F2, Z2, D; reflexivity]).
Qed.
End Link.

(** A callback that stops on a small error bar: the master goes on, the other ranks leave. (parameters of the counterexample) *)
Definition quiet_params : params := mkParams 5 0 0 9 1 false 0 1 1 1 0 false 10 1 false 0 false false 0 0 false 0.
(** callback of the counterexample *)
Definition error_stop (i : nat) (e err : R) : bool := rlt err (1 / 10).
Lemma ranks_diverge : let ds := [mkD 0 1 Accept Accept Accept false; mkD 0 1 Accept Accept Accept false] in
  snd (master_run quiet_params false error_stop (0%nat, false) ds) = (2%nat, false) /\ forall fuel, worker_run quiet_params false error_stop fuel (0%nat, false) (fst (master_run quiet_params false error_stop (0%nat, false) ds)) = None.
Proof.
  assert (H1 : rlt 1 (1 / 10) = false) by (apply rlt_false; lra). assert (H0 : rlt 0 (1 / 10) = true) by (apply rlt_true; lra).
  assert (M0 : forall d, d_err d = 1 -> master_pass quiet_params false error_stop 0 d = ([CEval (d_e d)], (1%nat, false))).
  { intros d Hd. unfold master_pass, master_check, master_stop, end_pass, error_stop. cbn. rewrite Hd, H1. reflexivity. }
  assert (M1 : forall d, d_err d = 1 -> d_stop d = false -> master_pass quiet_params false error_stop 1 d = ([CEval (d_e d); CStop false], (2%nat, false))).
  { intros d Hd Hs. unfold master_pass, master_check, master_stop, end_pass, error_stop. cbn. rewrite Hd, Hs, H1. reflexivity. }
  assert (W0 : forall l, worker_pass quiet_params false error_stop 0 (CEval 0 :: l) = Some (l, (0%nat, true))).
  { intros l. unfold worker_pass, worker_check, worker_stop, end_pass, error_stop. cbn. rewrite H0. reflexivity. }
  cbv zeta. cbn [master_run snd fst orb]. change (p_max_iter quiet_params <=? 0)%nat with false. cbn [orb]. rewrite M0 by reflexivity. cbn [master_run snd fst orb]. change (p_max_iter quiet_params <=? 1)%nat with false. cbn [orb]. rewrite M1 by reflexivity. cbn [master_run snd fst app d_e]. split; [reflexivity|].
  intros [|fuel]; [reflexivity|]. cbn [worker_run snd fst orb]. change (p_max_iter quiet_params <=? 0)%nat with false. cbn [orb]. rewrite W0. destruct fuel; reflexivity.
Qed.
