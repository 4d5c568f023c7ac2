(** Any number of runs. *)
From Coq Require Import List Arith Bool Reals Lra Lia.
From Verif Require Import Base OptModel OptSpec OptProofs OptMain OptRuns OptTerm OptLive ExecModel ExecSpec ExecProofs.
Import ListNotations.
Local Open Scope R_scope.

Lemma announced_energy {W} (l : list (W * R * R * R)) : forall i, map (fun c => snd (fst (fst c))) (announced i l) = map ev_energy l /\ map (fun c => snd (fst c)) (announced i l) = map ev_error l /\ map snd (announced i l) = map ev_gnorm l.
Proof. induction l as [|x l IH]; intros i; cbn [announced map]; [auto|]. destruct (IH (S i)) as (-> & -> & ->). auto. Qed.
Lemma map_seq_combine {W} (l : list (W * R * R * R)) : map (fun i => (i, nth i (map ev_energy l) 0, (if (i <? length (map ev_error l))%nat then nth i (map ev_error l) 0 else 0), (if (i <? length (map ev_gnorm l))%nat then nth i (map ev_gnorm l) 0 else 0))) (seq 0 (length (map ev_energy l))) = lines l.
Proof.
  unfold lines. rewrite !map_length. apply nth_ext with (d := (0%nat, 0, 0, 0)) (d' := (0%nat, 0, 0, 0)); [rewrite map_length, seq_length, !combine_length, !map_length, seq_length; lia|].
  intros i Hi. rewrite map_length, seq_length in Hi.
  match goal with |- nth i (map ?f _) _ = _ => rewrite (nth_indep (map f (seq 0 (length l))) (0%nat, 0, 0, 0) (f 0%nat)) by (rewrite map_length, seq_length; exact Hi); rewrite (map_nth f) end.
  rewrite seq_nth by exact Hi. rewrite !combine_nth by (rewrite ?combine_length, ?map_length, ?seq_length; lia). rewrite seq_nth by exact Hi. cbn [Nat.add]. destruct (Nat.ltb_spec i (length l)); [reflexivity|lia].
Qed.

Section Main.
Context {W G A P Sc : Type}.
Variable p : params.
Variable alg : algorithm (W:=W) (G:=G) (A:=A) (P:=P).
Variable gnorm : G -> R.
Variable scheduled : bool.
Variable rate : Sc -> nat -> R -> R * Sc.
Variable fresh : A.
Notation st := (st (W:=W) (A:=A) (Sc:=Sc)).
Notation exec := (exec (W:=W) (Sc:=Sc)).
Notation execute := (execute p alg gnorm scheduled rate fresh).
Notation executed := (executed p alg gnorm scheduled rate fresh).

Lemma execute_inv fuel v named (x : nat -> exec) s x' : execute fuel v named x = Ok (Some (s, x')) ->
  optimize p alg (v_eval v) (v_trial v) gnorm scheduled rate (v_stop v) fuel (new_members fresh (x_sched (x 0%nat))) (v_warm v (x_state (x 0%nat))) = Ok (Finished s) /\
  v_valid v (s_cur s) = true /\
  let y r := reacts p (r =? 0)%nat (v_engine v) [] (s_obs s) (x r) in
  forall r, let z := mkExec (x_energies (y r)) (x_errors (y r)) (x_gnorms (y r)) (x_min (y r)) (x_low (y 0%nat)) (v_norm v (s_cur s)) (s_sched s) (x_csv (y r)) (x_dump (y r)) in
    x' r = if (r =? 0)%nat then dump_data named z else z.
Proof.
  unfold ExecModel.execute. destruct (optimize _ _ _ _ _ _ _ _ _ _ _) as [[s1|s1]|] eqn:E; cbn [bind]; try discriminate. destruct (v_valid v (s_cur s1)) eqn:V; [|discriminate]. intros Q. injection Q as <- <-. auto.
Qed.
Lemma low_run fuel v named (x : nat -> exec) s x' : x_min (x 0%nat) <= dbl_max -> execute fuel v named x = Ok (Some (s, x')) ->
  (s_lowE s = dbl_max /\ x_min (x' 0%nat) = x_min (x 0%nat) /\ x_low (x' 0%nat) = x_low (x 0%nat)) \/ (s_lowE s < dbl_max /\ x_min (x' 0%nat) = s_lowE s /\ x_low (x' 0%nat) = s_low s).
Proof.
  intros H E. destruct (execute_inv _ _ _ _ _ _ E) as (O & _ & X). specialize (X 0%nat). cbn in X. rewrite X. cbn [dump_data x_min x_low]. apply optimize_run in O.
  apply (run_induct p alg (v_eval v) (v_trial v) gnorm rate (v_stop v) (InvM p (v_engine v) (x 0%nat))) in O; [destruct O as [O _]; exact O| |left; repeat split; reflexivity].
  intros s1 s2 I _ _ Ep. eapply InvM_pass; eassumption.
Qed.
Lemma all_runs w sc runs x : executed w sc runs x -> let h := concat (map recorded runs) in
  x_energies (x 0%nat) = map ev_energy h /\ x_errors (x 0%nat) = map ev_error h /\ x_gnorms (x 0%nat) = map ev_gnorm h /\
  (runs <> [] -> x_csv (x 0%nat) = Some (lines h)) /\
  (forall r, x_low (x r) = x_low (x 0%nat) /\ x_state (x r) = x_state (x 0%nat)) /\
  (forall r, r <> 0%nat -> x_energies (x r) = [] /\ x_errors (x r) = [] /\ x_gnorms (x r) = [] /\ x_min (x r) = dbl_max) /\ x_min (x 0%nat) <= dbl_max.
Proof.
  induction 1 as [|runs x fuel v named s x' H IH E]; cbv zeta.
  - cbn. repeat split; try congruence; try lra.
  - cbv zeta in IH. destruct IH as (I1 & I2 & I3 & I4 & I5 & I6 & I7). destruct (execute_inv _ _ _ _ _ _ E) as (O & _ & X). cbv zeta in X.
    pose proof (callbacks p alg _ _ gnorm scheduled rate _ fresh _ _ _ _ O) as [_ IC]. fold (recorded s) in IC.
    destruct (reacts_lists p (v_engine v) (s_obs s) [] (x 0%nat)) as (L1 & L2 & L3). rewrite IC in L1, L2, L3. destruct (announced_energy (recorded s) 0%nat) as (A1 & A2 & A3). rewrite A1 in L1. rewrite A2 in L2. rewrite A3 in L3. rewrite I1 in L1. rewrite I2 in L2. rewrite I3 in L3.
    rewrite map_app, concat_app. cbn [map concat]. rewrite app_nil_r, !map_app.
    assert (X0 := X 0%nat). cbn [Nat.eqb] in X0. rewrite X0. unfold dump_data. cbn [x_energies x_errors x_gnorms x_csv x_min x_low x_state].
    split; [exact L1|]. split; [exact L2|]. split; [exact L3|]. split.
    { intros _. f_equal. unfold csv_lines. cbn [x_energies x_errors x_gnorms]. rewrite L1, L2, L3, <- !map_app. apply map_seq_combine. }
    split; [intros [|r]; rewrite X; cbn; split; reflexivity|]. split.
    { intros r Hr. rewrite X. destruct r as [|r]; [congruence|]. cbn [Nat.eqb]. rewrite reacts_other. cbn [x_energies x_errors x_gnorms x_min]. apply (I6 (S r)). discriminate. }
    pose proof (low_run fuel v named x s x' I7 E) as LR. rewrite X0 in LR. cbn [dump_data x_min x_low] in LR. destruct LR as [(_ & -> & _)|(LL & -> & _)]; lra.
Qed.
Lemma last_run_minimum w sc runs s x : executed w sc (runs ++ [s]) x -> accepted (s_obs s) <> [] -> (forall y, In y (accepted (s_obs s)) -> ev_energy y < dbl_max) ->
  exists i y, nth_error (accepted (s_obs s)) i = Some y /\ (forall r, x_low (x r) = ev_state y) /\ x_min (x 0%nat) = ev_energy y /\
    (forall j z, nth_error (accepted (s_obs s)) j = Some z -> ev_energy y <= ev_energy z) /\
    (forall j z, (j < i)%nat -> nth_error (accepted (s_obs s)) j = Some z -> ev_energy y < ev_energy z).
Proof.
  intros H N B. pose proof (all_runs _ _ _ _ H) as (_ & _ & _ & _ & AL & _ & _). inversion H as [|runs' x1 fuel v named s1 x' H1 E ER EX]; [destruct runs; discriminate|]. subst x'. apply app_inj_tail in ER. destruct ER as [-> ->].
  destruct (all_runs _ _ _ _ H1) as (_ & _ & _ & _ & _ & _ & M). destruct (execute_inv _ _ _ _ _ _ E) as (O & _ & _).
  destruct (minimum p alg _ _ gnorm scheduled rate _ fresh _ _ _ _ O N B) as (i & y & Hi & S1 & S2 & S3 & S4). exists i, y. split; [exact Hi|].
  assert (LB : s_lowE s < dbl_max) by (rewrite S2; apply B; exact (nth_error_In _ _ Hi)).
  destruct (low_run _ _ _ _ _ _ M E) as [(Q & _)|(_ & Q1 & Q2)]; [lra|]. split; [intros r; rewrite (proj1 (AL r)), Q2; exact S1|]. split; [rewrite Q1; exact S2|]. split; assumption.
Qed.
Lemma final_state fuel v named (x : nat -> exec) s x' : execute fuel v named x = Ok (Some (s, x')) ->
  (forall r, x_state (x' r) = v_norm v (s_cur s)) /\ x_dump (x' 0%nat) = (if named then Some (x_state (x' 0%nat), x_low (x' 0%nat)) else x_dump (reacts p true (v_engine v) [] (s_obs s) (x 0%nat))).
Proof. intros E. destruct (execute_inv _ _ _ _ _ _ E) as (_ & _ & X). cbv zeta in X. split; [intros [|r]; rewrite X; reflexivity|]. rewrite X. cbn. destruct named; reflexivity. Qed.
Lemma api fuel (v : env) (named periodic trg_params trg bmps : bool) (w : W) (sc : Sc) :
  (periodic <> trg_params \/ (if periodic then trg else bmps) = false -> vmc_optimize (Sc:=Sc) p alg gnorm scheduled rate fresh fuel v named periodic trg_params trg bmps w sc = Fail Throw) /\
  (periodic = trg_params -> (if periodic then trg else bmps) = true ->
   vmc_optimize (Sc:=Sc) p alg gnorm scheduled rate fresh fuel v named periodic trg_params trg bmps w sc =
   (z <- execute fuel v named (fun _ => new_exec w sc);; Ok (match z with Some (_, x) => Some (fun r => result_of (x r)) | None => None end))).
Proof.
  unfold vmc_optimize, cross_check. destruct periodic, trg_params; cbn [negb]; split; intros; try reflexivity; try congruence.
  - destruct H as [H|H]; [congruence|]. rewrite H. reflexivity.
  - rewrite H0. reflexivity.
  - destruct H as [H|H]; [congruence|]. rewrite H. reflexivity.
  - rewrite H0. reflexivity.
Qed.
Lemma api_fields fuel (v : env) (named periodic trg_params trg bmps : bool) (w : W) (sc : Sc) :
  (periodic <> trg_params \/ (if periodic then trg else bmps) = false -> vmc_optimize (Sc:=Sc) p alg gnorm scheduled rate fresh fuel v named periodic trg_params trg bmps w sc = Fail Throw) /\
  (periodic = trg_params -> (if periodic then trg else bmps) = true ->
   vmc_optimize (Sc:=Sc) p alg gnorm scheduled rate fresh fuel v named periodic trg_params trg bmps w sc =
   (z <- execute fuel v named (fun _ => new_exec w sc);; Ok (match z with Some (_, x) => Some (fun r => result_of (x r)) | None => None end))) /\
  (forall f, vmc_optimize (Sc:=Sc) p alg gnorm scheduled rate fresh fuel v named periodic trg_params trg bmps w sc = Ok (Some f) ->
   exists s x, executed w sc [s] x /\ forall r : nat,
     r_state (f r) = x_state (x r) /\ r_lowest (f r) = x_low (x r) /\ r_min (f r) = x_min (x r) /\
     r_energies (f r) = x_energies (x r) /\ r_errors (f r) = x_errors (x r) /\ r_gnorms (f r) = x_gnorms (x r)).
Proof.
  destruct (api fuel v named periodic trg_params trg bmps w sc) as (F & S). split; [exact F|]. split; [exact S|]. intros f E.
  assert (Q : periodic = trg_params /\ (if periodic then trg else bmps) = true).
  { split.
    - destruct (bool_dec periodic trg_params) as [q|q]; [exact q|]. rewrite (F (or_introl q)) in E. discriminate.
    - destruct (if periodic then trg else bmps) eqn:b; [reflexivity|]. rewrite (F (or_intror eq_refl)) in E. discriminate. }
  rewrite (S (proj1 Q) (proj2 Q)) in E. destruct (execute fuel v named (fun _ => new_exec w sc)) as [[[s x]|]|] eqn:X; cbn [bind] in E; try discriminate.
  injection E as <-. exists s, x. split; [exact (executed_more _ _ _ _ _ _ w sc [] _ fuel v named s x (executed_none _ _ _ _ _ _ w sc) X)|].
  intros r. repeat split.
Qed.
End Main.

(** *** Runs of a counting algorithm; nothing is detected or selected *)
(** [n] iterations at most; converged when the gradient is below [tol] *)
Definition still_params (n : nat) (tol : R) : params := mkParams n 0 tol 9 1 false 0 1 1 1 0 false 10 1 false 0 false false 0 0 false 0.
(** energies [e]; the engine holds the newest state of the trace *)
Definition still_env (e : nat -> R) : env (W:=nat) (G:=unit) :=
  mkEnv (fun n _ => (e n, tt, 0)) (fun _ _ => (0, 0)) (fun l => match rev l with Eval w _ _ _ :: _ => w | _ => 0%nat end) (fun w => w) (fun w => w) (fun _ _ _ => false) (fun _ => true).
Notation still_execute n tol := (execute (still_params n tol) counter (fun _ => 0) false (fun (sc : unit) _ _ => (1, sc)) tt).
Section Still.
Variable n : nat.
Variable tol : R.
Variable e : nat -> R.
Notation st := (st (W:=nat) (A:=unit) (Sc:=unit)).
Notation passL := (pass (still_params n tol) counter (fun (k : nat) (_ : nat) => (e k, tt, 0)) (fun _ _ => (0, 0)) (fun _ => 0) (fun (sc : unit) _ _ => (1, sc)) (fun _ _ _ => false)).
Notation acceptL := (accept (still_params n tol) counter (fun _ _ _ => false)).
Lemma still_calm (s : st) : exists t, passL s = Ok (acceptL (e (s_calls s)) tt 0 0 1 0 (S (s_cur s)) t) /\ core t = core s /\ s_obs t = s_obs s ++ [Eval (s_cur s) (e (s_calls s)) 0 0] /\ s_calls t = S (s_calls s).
Proof.
  unfold pass. set (s0 := saw _ _). cbn [a_seen counter bind]. set (s1 := set_A (s_A s0) s0). cbn [still_params p_auto andb check]. unfold any_selector, select. cbn [still_params p_init_on p_per_on orb andb negb bind a_step counter]. set (s2 := set_calls _ _). cbn [a_natural andb check p_rollback still_params].
  exists s2. split; [reflexivity|]. unfold s2. cbn. rewrite !Nat.add_0_r. repeat split.
Qed.
Lemma still_first (s : st) : s_iter s = 0%nat -> e (s_calls s) < s_lowE s -> exists s', passL s = Ok s' /\ s_iter s' = 1%nat /\ s_done s' = s_done s /\ s_conv s' = s_conv s /\ s_cur s' = S (s_cur s) /\ s_lowE s' = e (s_calls s) /\ s_calls s' = S (s_calls s) /\
  s_obs s' = s_obs s ++ [Eval (s_cur s) (e (s_calls s)) 0 0; Lowest (s_cur s) (e (s_calls s)); Iter 0 (e (s_calls s)) 0 0].
Proof.
  intros I L. destruct (still_calm s) as (t & E & C & O & K). eexists. split; [exact E|]. assert (CA : s_calls (acceptL (e (s_calls s)) tt 0 0 1 0 (S (s_cur s)) t) = S (s_calls s)) by (unfold accept; cbn [s_calls]; exact K).
  pose proof (accept_flow (still_params n tol) counter (fun _ _ _ => false) (e (s_calls s)) tt 0 0 1 0 (S (s_cur s)) t) as Fl. pose proof (accept_fields (still_params n tol) counter (fun _ _ _ => false) (e (s_calls s)) tt 0 0 1 0 (S (s_cur s)) t) as F. cbv zeta in Fl, F.
  set (s1 := acceptL _ _ _ _ _ _ _ _) in *. clearbody s1. unfold stops, low_obs, ck_obs, stall', new_low in Fl, F. rewrite (core_iter _ _ C), (core_lowE _ _ C), (core_cur _ _ C), (core_done _ _ C), (core_conv _ _ C), I, (proj2 (rlt_true _ _) L) in *. cbn [Nat.ltb Nat.leb andb still_params p_every] in Fl.
  destruct Fl as (A1 & _ & A3 & A4 & A5 & A6 & A7 & A8). destruct F as (_ & _ & _ & _ & _ & _ & F7 & _). rewrite O, <- app_assoc in A8. repeat split; assumption.
Qed.
Lemma still_second (s : st) : s_iter s = 1%nat -> e (s_calls s) < s_lowE s -> 0 < tol -> exists s', passL s = Ok s' /\ s_done s' = true /\ s_conv s' = true /\ s_obs s' = s_obs s ++ [Eval (s_cur s) (e (s_calls s)) 0 0; Lowest (s_cur s) (e (s_calls s))].
Proof.
  intros I L T. destruct (still_calm s) as (t & E & C & O & K). eexists. split; [exact E|].
  pose proof (accept_flow (still_params n tol) counter (fun _ _ _ => false) (e (s_calls s)) tt 0 0 1 0 (S (s_cur s)) t) as Fl. cbv zeta in Fl.
  set (s1 := acceptL _ _ _ _ _ _ _ _) in *. clearbody s1. unfold stops, low_obs, ck_obs, stall', new_low, should_stop in Fl. rewrite (core_iter _ _ C), (core_lowE _ _ C), (core_cur _ _ C), I, (proj2 (rlt_true _ _) L) in Fl. cbn [Nat.ltb Nat.leb andb still_params p_gtol] in Fl. rewrite (proj2 (rlt_true 0 tol) T) in Fl. cbn [orb] in Fl.
  destruct Fl as (A1 & A2 & _ & _ & A5). rewrite O, <- app_assoc in A5. repeat split; assumption.
Qed.
End Still.
Lemma execute_finished {W G A P Sc} p (alg : algorithm (W:=W) (G:=G) (A:=A) (P:=P)) gnorm scheduled rate fresh fuel v named (x : nat -> exec (W:=W) (Sc:=Sc)) s :
  optimize p alg (v_eval v) (v_trial v) gnorm scheduled rate (v_stop v) fuel (new_members fresh (x_sched (x 0%nat))) (v_warm v (x_state (x 0%nat))) = Ok (Finished s) -> v_valid v (s_cur s) = true ->
  exists x', execute p alg gnorm scheduled rate fresh fuel v named x = Ok (Some (s, x')).
Proof. intros E V. unfold execute. rewrite E. cbn [bind]. rewrite V. eauto. Qed.
Lemma one_step (e : nat -> R) : e 0%nat < dbl_max -> forall named (x : nat -> exec (W:=nat) (Sc:=unit)), exists s x', still_execute 1%nat 0 1%nat (still_env e) named x = Ok (Some (s, x')) /\
  s_obs s = [Eval (x_state (x 0%nat)) (e 0%nat) 0 0; Lowest (x_state (x 0%nat)) (e 0%nat); Iter 0 (e 0%nat) 0 0] /\ s_conv s = false /\ s_cur s = S (x_state (x 0%nat)).
Proof.
  intros H named x. set (b := start (still_params 1 0) counter (new_members tt (x_sched (x 0%nat))) (x_state (x 0%nat))).
  destruct (still_first 1 0 e b eq_refl H) as (s & E & A1 & A2 & A3 & A4 & _ & _ & A7). exists s.
  assert (O : optimize (still_params 1 0) counter (v_eval (still_env e)) (v_trial (still_env e)) (fun _ => 0) false (fun (sc : unit) _ _ => (1, sc)) (v_stop (still_env e)) 1 (new_members tt (x_sched (x 0%nat))) (v_warm (still_env e) (x_state (x 0%nat))) = Ok (Finished s)).
  { unfold optimize. change (checks (still_params 1 0) counter false) with (@Ok unit tt). cbn [bind still_env v_warm v_eval v_trial v_stop]. fold b. cbn [run]. change (s_done b) with false. change (s_iter b) with 0%nat. change (p_max_iter (still_params 1 0)) with 1%nat. cbn [orb Nat.leb v_trial v_stop]. rewrite E. cbn [bind]. rewrite A1, orb_true_r. reflexivity. }
  destruct (execute_finished _ _ _ _ _ _ _ _ named _ _ O eq_refl) as (x' & X). exists x'. split; [exact X|]. split; [exact A7|]. split; [exact A3|exact A4].
Qed.
Lemma two_steps (e : nat -> R) : e 0%nat < dbl_max -> e 1%nat < e 0%nat -> forall named (x : nat -> exec (W:=nat) (Sc:=unit)), exists s x', still_execute 2%nat 1 2%nat (still_env e) named x = Ok (Some (s, x')) /\
  s_obs s = [Eval (x_state (x 0%nat)) (e 0%nat) 0 0; Lowest (x_state (x 0%nat)) (e 0%nat); Iter 0 (e 0%nat) 0 0; Eval (S (x_state (x 0%nat))) (e 1%nat) 0 0; Lowest (S (x_state (x 0%nat))) (e 1%nat)] /\ s_conv s = true.
Proof.
  intros H H1 named x. set (b := start (still_params 2 1) counter (new_members tt (x_sched (x 0%nat))) (x_state (x 0%nat))).
  destruct (still_first 2 1 e b eq_refl H) as (s1 & E & A1 & A2 & A3 & A4 & A5 & A6 & A7). change (s_calls b) with 0%nat in *. change (s_cur b) with (x_state (x 0%nat)) in *. change (s_done b) with false in *. change (s_obs b) with (@nil (obs (W:=nat))) in A7.
  destruct (still_second 2 1 e s1 A1 ltac:(rewrite A5, A6; exact H1) ltac:(lra)) as (s & E2 & B1 & B2 & B3). rewrite A4, A6, A7 in B3. exists s.
  assert (O : optimize (still_params 2 1) counter (v_eval (still_env e)) (v_trial (still_env e)) (fun _ => 0) false (fun (sc : unit) _ _ => (1, sc)) (v_stop (still_env e)) 2 (new_members tt (x_sched (x 0%nat))) (v_warm (still_env e) (x_state (x 0%nat))) = Ok (Finished s)).
  { unfold optimize. change (checks (still_params 2 1) counter false) with (@Ok unit tt). cbn [bind still_env v_warm v_eval v_trial v_stop]. fold b. cbn [run]. change (s_done b) with false. change (s_iter b) with 0%nat. change (p_max_iter (still_params 2 1)) with 2%nat. cbn [orb Nat.leb v_trial v_stop]. rewrite E. cbn [bind]. rewrite A1, A2. cbn [orb]. rewrite E2. cbn [bind]. rewrite B1. reflexivity. }
  destruct (execute_finished _ _ _ _ _ _ _ _ named _ _ O eq_refl) as (x' & X). exists x'. split; [exact X|]. split; [exact B3|exact B2].
Qed.

(** *** What the results do not say *)
Notation demo_executed n tol := (executed (still_params n tol) counter (fun _ => 0) false (fun (sc : unit) _ _ => (1, sc)) tt 0%nat tt).
(** the energy that ended a converged run is the least and is not in the trajectory *)
Lemma unrecorded : exists s x, demo_executed 2%nat 1 [s] x /\ x_energies (x 0%nat) = [0] /\ x_min (x 0%nat) = -1 /\ x_low (x 0%nat) = 1%nat.
Proof.
  destruct (two_steps (fun k => match k with O => 0 | _ => -1 end) ltac:(pose proof dbl_big; cbv beta iota; lra) ltac:(cbv beta iota; lra) true (fun _ => new_exec 0%nat tt)) as (s & x & E & O & Cv). exists s, x. cbn [new_exec x_state] in O.
  assert (X : demo_executed 2%nat 1 ([] ++ [s]) x) by (eapply executed_more; [apply executed_none|exact E]). split; [exact X|].
  destruct (all_runs _ _ _ _ _ _ _ _ _ _ X) as (A & _). cbn [app map concat] in A. unfold recorded in A. rewrite Cv, O in A. split; [rewrite A; reflexivity|].
  assert (M : x_min ((fun _ : nat => new_exec (Sc:=unit) 0%nat tt) 0%nat) <= dbl_max) by (cbn [new_exec x_min]; lra).
  destruct (last_run_minimum _ _ _ _ _ _ _ _ [] _ _ X) as (i & y & Hi & L1 & L2 & L3 & _).
  - rewrite O. discriminate.
  - intros y. rewrite O. pose proof dbl_big. intros [<-|[<-|[]]]; unfold ev_energy; cbn [fst snd]; lra.
  - rewrite O in Hi, L3. cbn in Hi, L3. destruct i as [|[|[|i]]]; try discriminate Hi.
    + injection Hi as <-. specialize (L3 1%nat _ eq_refl). cbn in L3. lra.
    + injection Hi as <-. rewrite L1, L2. cbn. split; [lra|reflexivity].
Qed.
(** a second run forgets a lower energy of the first *)
Lemma forgotten : exists s1 s2 x, demo_executed 1%nat 0 [s1; s2] x /\ x_energies (x 0%nat) = [-1; 0] /\ x_min (x 0%nat) = 0 /\ x_low (x 0%nat) = 1%nat.
Proof.
  destruct (one_step (fun _ => -1) ltac:(pose proof dbl_big; cbv beta iota; lra) true (fun _ => new_exec 0%nat tt)) as (s1 & x1 & E1 & O1 & C1 & D1).
  assert (X1 : demo_executed 1%nat 0 ([] ++ [s1]) x1) by (eapply executed_more; [apply executed_none|exact E1]).
  destruct (one_step (fun _ => 0) ltac:(pose proof dbl_big; cbv beta iota; lra) true x1) as (s2 & x & E2 & O2 & C2 & _). exists s1, s2, x.
  assert (X : demo_executed 1%nat 0 ([s1] ++ [s2]) x) by (eapply executed_more; [exact X1|exact E2]). split; [exact X|].
  destruct (all_runs _ _ _ _ _ _ _ _ _ _ X) as (A & _). cbn [app map concat] in A. unfold recorded in A. rewrite C1, C2, O1, O2 in A. split; [rewrite A; reflexivity|].
  assert (S1 : x_state (x1 0%nat) = 1%nat). { destruct (final_state _ _ _ _ _ _ _ _ _ _ _ _ E1) as [F _]. rewrite F. cbn [still_env v_norm].
    rewrite D1. reflexivity. }
  rewrite S1 in O2. destruct (last_run_minimum _ _ _ _ _ _ _ _ [s1] _ _ X) as (i & y & Hi & L1 & L2 & L3 & _).
  - rewrite O2. discriminate.
  - intros y. rewrite O2. pose proof dbl_big. intros [<-|[]]; unfold ev_energy; cbn [fst snd]; lra.
  - rewrite O2 in Hi. cbn in Hi. destruct i as [|[|i]]; try discriminate Hi. injection Hi as <-. rewrite L1, L2. split; reflexivity.
Qed.
(** on the other ranks of the first example *)
Lemma elsewhere : exists s x, demo_executed 1%nat 0 [s] x /\ r_energies (result_of (x 0%nat)) = [-1] /\ r_min (result_of (x 0%nat)) = -1 /\ forall r, r <> 0%nat -> r_energies (result_of (x r)) = [] /\ r_min (result_of (x r)) = dbl_max.
Proof.
  destruct (one_step (fun _ => -1) ltac:(pose proof dbl_big; cbv beta iota; lra) true (fun _ => new_exec 0%nat tt)) as (s1 & x1 & E1 & O1 & C1 & _). exists s1, x1.
  assert (X1 : demo_executed 1%nat 0 ([] ++ [s1]) x1) by (eapply executed_more; [apply executed_none|exact E1]). split; [exact X1|].
  destruct (all_runs _ _ _ _ _ _ _ _ _ _ X1) as (A & _ & _ & _ & _ & B & _). cbn [app map concat] in A. unfold recorded in A. rewrite C1, O1 in A. cbn [result_of r_energies r_min]. split; [rewrite A; reflexivity|]. split; [|intros r Hr; destruct (B r Hr) as (B1 & _ & _ & B4); auto].
  destruct (last_run_minimum _ _ _ _ _ _ _ _ [] _ _ X1) as (i & y & Hi & L1 & L2 & L3 & _).
  - rewrite O1. discriminate.
  - intros y. rewrite O1. pose proof dbl_big. intros [<-|[]]; unfold ev_energy; cbn [fst snd]; lra.
  - rewrite O1 in Hi. cbn in Hi. destruct i as [|[|i]]; try discriminate Hi. injection Hi as <-. rewrite L2. reflexivity.
Qed.
Lemma two_runs : exists s1 s2 x, demo_executed 2%nat 1 [s1; s2] x /\ length (accepted (s_obs s1)) = 2%nat /\ length (accepted (s_obs s2)) = 2%nat /\ length (x_energies (x 0%nat)) = 2%nat.
Proof.
  destruct (two_steps (fun k => match k with O => 0 | _ => -1 end) ltac:(pose proof dbl_big; cbv beta iota; lra) ltac:(cbv beta iota; lra) true (fun _ => new_exec 0%nat tt)) as (s1 & x1 & E1 & O1 & C1).
  destruct (two_steps (fun k => match k with O => 0 | _ => -1 end) ltac:(pose proof dbl_big; cbv beta iota; lra) ltac:(cbv beta iota; lra) true x1) as (s2 & x & E2 & O2 & C2). exists s1, s2, x.
  assert (X : demo_executed 2%nat 1 (([] ++ [s1]) ++ [s2]) x) by (eapply executed_more; [eapply executed_more; [apply executed_none|exact E1]|exact E2]). split; [exact X|]. split; [rewrite O1; reflexivity|]. split; [rewrite O2; reflexivity|].
  destruct (all_runs _ _ _ _ _ _ _ _ _ _ X) as (A & _). rewrite A. cbn [app map concat]. unfold recorded. rewrite C1, C2, O1, O2. reflexivity.
Qed.
