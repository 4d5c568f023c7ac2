(** The optimisation loop (optimizer/optimizer_impl.h:103-923), on the master rank. *)
From Coq Require Import List Arith Bool Reals Lra.
From Verif Require Import Base.
Import ListNotations.
Local Open Scope R_scope.

(** comparison of doubles *)
Definition rlt (a b : R) : bool := if Rlt_dec a b then true else false.
(** comparison of doubles *)
Definition rle (a b : R) : bool := if Rle_dec a b then true else false.
(** std::numeric_limits<double>::max(); (used in optimizer_impl.h:120-130) *)
Definition dbl_max : R := 2 ^ 1024 - 2 ^ 971.

(** *** spike_detection.h:80-114 EMATracker; [alpha]: 82 *)
Record ema := mkEma { m_mean : R; m_var : R; m_on : bool }.
(** spike_detection.h:82-84 *)
Definition ema_alpha (window : nat) : R := 2 / (INR window + 1).
(** spike_detection.h:84 *)
Definition ema_fresh : ema := mkEma 0 0 false.
(** spike_detection.h:86-97 *)
Definition ema_update (window : nat) (m : ema) (x : R) : ema :=
  if m_on m then
    let delta := x - m_mean m in
    mkEma (m_mean m + ema_alpha window * delta) ((1 - ema_alpha window) * (m_var m + ema_alpha window * delta * delta)) true
  else mkEma x 0 true.

(** spike_detection.h:28-46 *)
Inductive signal := S1 | S2 | S3 | S4.
(** spike_detection.h:40-46 *)
Inductive action := Accept | Resample | Rollback | AcceptWithWarning.
(** 51-58 *)
Record event := mkEvent { v_step : nat; v_attempt : nat; v_signal : signal; v_action : action; v_value : R; v_threshold : R }.

(** optimizer_params.h: the parameters the loop reads. [p_every]: checkpoint interval, 0 if disabled
    (278-283). *)
Record params := mkParams {
  p_max_iter : nat; p_etol : R; p_gtol : R; p_patience : nat; p_rate : R;
  p_auto : bool; p_retries : nat; p_ferr : R; p_fgrad : R; p_fngrad : R; p_min_iters : nat;
  p_rollback : bool; p_window : nat; p_sigma : R;
  p_init_on : bool; p_init_steps : nat; p_init_det : bool;
  p_per_on : bool; p_per_every : nat; p_per_ratio : R; p_per_det : bool;
  p_every : nat }.

(** 1872-1886 *)
Definition detect12 (p : params) (mErr mG : ema) (err gn : R) : option signal :=
  if m_on mErr && rlt 0 (m_mean mErr) && rlt (p_ferr p * m_mean mErr) err then Some S1
  else if m_on mG && rlt 0 (m_mean mG) && rlt (p_fgrad p * m_mean mG) gn then Some S2
  else None.
(** 1889-1906; [iters]: conjugate-gradient iterations, [None] for MinSR (693-697) *)
Definition detect3 (p : params) (mN : ema) (ng : R) (iters : option nat) : option signal :=
  if m_on mN && rlt 0 (m_mean mN) && rlt (p_fngrad p * m_mean mN) ng then Some S3
  else match iters with Some k => if (k <=? p_min_iters p)%nat then Some S3 else None | None => None end.
(** 1909-1920 *)
Definition detect4 (p : params) (mE : ema) (e : R) : option signal :=
  if m_on mE && rlt 0 (e - m_mean mE) && rlt 0 (sqrt (m_var mE)) && rlt (p_sigma p * sqrt (m_var mE)) (e - m_mean mE) then Some S4 else None.
(** 1923-1944, for a signal S1, S2 or S3 *)
Definition decide (p : params) (has_prev : bool) (attempts step : nat) : action :=
  if (attempts <? p_retries p)%nat then Resample
  else if p_rollback p && has_prev && (0 <? step)%nat then Rollback
  else AcceptWithWarning.
(** 1764-1804 *)
Definition should_stop (p : params) (e prev gn : R) (stall : nat) : bool :=
  rlt gn (p_gtol p) || rlt (Rabs (e - prev)) (p_etol p) || (p_patience p <=? stall)%nat.

(** *** Step selectors, 357-541. A candidate: step, trial energy, trial error. *)
Notation cand := (R * R * R)%type.
(** candidate steps, optimizer_impl.h:380-440 *)
Definition c_eta (c : cand) : R := fst (fst c).
(** candidate steps, optimizer_impl.h:380-440 *)
Definition c_energy (c : cand) : R := snd (fst c).
(** candidate steps, optimizer_impl.h:380-440 *)
Definition c_error (c : cand) : R := snd c.
(** 358-372 *)
Definition candidates_initial (p : params) (base : R) : list R := map (fun i => base * INR i) (seq 1 (p_init_steps p)).
(** optimizer_impl.h:373-380 *)
Definition candidates_periodic (base : R) : res (list R) :=
  if rle (base * (1 / 2)) 0 then Fail Throw else Ok [base; base * (1 / 2)].
(** 492-500 *)
Definition select_initial (cs : list cand) : res R :=
  match cs with
  | [] => Fail UB
  | c0 :: _ => Ok (snd (fold_left (fun be c => if rlt (c_energy c) (fst be) then (c_energy c, c_eta c) else be) cs (c_energy c0, c_eta c0)))
  end.
(** 501-519 *)
Definition select_periodic (p : params) (iter : nat) (cs : list cand) : res R :=
  match cs with
  | c0 :: c1 :: _ =>
      if rlt (INR iter) (p_per_ratio p * INR (p_max_iter p)) then Ok (if rlt (c_energy c1) (c_energy c0) then c_eta c1 else c_eta c0)
      else Ok (if rlt (1 * Rmax (c_error c0) (c_error c1)) (c_energy c0 - c_energy c1) then c_eta c1 else c_eta c0)
  | _ => Fail UB
  end.

Section Loop.
(** [W]: states; [G]: gradients; [A]: accumulators of the algorithm; [P]: what the selector
    precomputes (the natural direction of SR and MinSR); [Sc]: state of the rate scheduler. *)
Context {W G A P Sc : Type}.
(** The optimisation algorithm as the loop uses it. Gradient clipping (306-318) belongs to the step.
    [a_step calls acc direction state gradient rate]: new accumulators, new state, effective rate,
    natural gradient norm, iterations of its linear solver, number of evaluator calls made. *)
Record algorithm := mkAlg {
  a_natural : bool;                         (* SR or MinSR *)
  a_selectable : bool;                      (* SGD, SR or MinSR *)
  a_begin : A -> A;                         (* 217-222 *)
  a_seen : A -> W -> G -> res A;            (* 246-251 *)
  a_resample : A -> A;                      (* 224-233 *)
  a_rollback : A -> A;                      (* 278-281 *)
  a_prepare : A -> W -> G -> res P;         (* 438-476 *)
  a_trial : A -> P -> W -> G -> R -> W;     (* 417-428, 433 *)
  a_step : nat -> A -> option P -> W -> G -> R -> res (A * (W * R) * (R * option nat) * nat);  (* 550-679 *)
  a_save : A -> A;                          (* 842-844 *)
  a_accept : A -> W -> G -> A }.            (* 847-851 *)
Variable p : params.
Variable alg : algorithm.
(** The evaluator's answers may depend on everything it has seen: [eval n w] is the answer to the
    [n]-th call, made with state [w]; [trial] likewise for energies of candidate steps. *)
Variable eval : nat -> W -> R * G * R.
Variable trial : nat -> W -> R * R.
Variable gnorm : G -> R.
(** 71-79 with the scheduler's own state; [scheduled]: whether there is one *)
Variable scheduled : bool.
Variable rate : Sc -> nat -> R -> R * Sc.
(** callback.should_stop (constantly false when absent) *)
Variable user_stop : nat -> R -> R -> bool.

(** What an observer sees: evaluations, spike messages, callbacks, checkpoints. (evaluator calls, messages, callbacks and checkpoints of optimizer_impl.h:103-923) *)
Inductive obs :=
| Eval (w : W) (e err gn : R)
| Spike (v : event)
| Lowest (w : W) (e : R)
| Iter (i : nat) (e err gn : R)
| Ckpt (i : nat) (w : W).
(** The variables of the loop and the members it uses. (optimizer_impl.h:120-240 and optimizer.h:367-410) *)
Record st := mkSt {
  s_iter : nat;
  s_att : nat;
  s_calls : nat;
  s_cur : W;
  s_low : W;
  s_lowE : R;
  s_prevE : R;
  s_last : R;
  s_stall : nat;
  s_A : A;
  s_mE : ema;
  s_mErr : ema;
  s_mG : ema;
  s_mN : ema;
  s_prev : option W;
  s_base : R;
  s_sched : Sc;
  s_energies : list R;
  s_rates : list R;
  s_errors : list R;
  s_gnorms : list R;
  s_total : nat;
  s_log : list event;
  s_nres : nat;
  s_nroll : nat;
  s_nforced : nat;
  s_done : bool;
  s_conv : bool;
  s_obs : list obs }.
(** assignment to one variable of the loop, optimizer_impl.h:103-923 *)
Definition set_iter (v : nat) (s : st) : st := mkSt v (s_att s) (s_calls s) (s_cur s) (s_low s) (s_lowE s) (s_prevE s) (s_last s) (s_stall s) (s_A s) (s_mE s) (s_mErr s) (s_mG s) (s_mN s) (s_prev s) (s_base s) (s_sched s) (s_energies s) (s_rates s) (s_errors s) (s_gnorms s) (s_total s) (s_log s) (s_nres s) (s_nroll s) (s_nforced s) (s_done s) (s_conv s) (s_obs s).
(** assignment to one variable of the loop, optimizer_impl.h:103-923 *)
Definition set_att (v : nat) (s : st) : st := mkSt (s_iter s) v (s_calls s) (s_cur s) (s_low s) (s_lowE s) (s_prevE s) (s_last s) (s_stall s) (s_A s) (s_mE s) (s_mErr s) (s_mG s) (s_mN s) (s_prev s) (s_base s) (s_sched s) (s_energies s) (s_rates s) (s_errors s) (s_gnorms s) (s_total s) (s_log s) (s_nres s) (s_nroll s) (s_nforced s) (s_done s) (s_conv s) (s_obs s).
(** assignment to one variable of the loop, optimizer_impl.h:103-923 *)
Definition set_calls (v : nat) (s : st) : st := mkSt (s_iter s) (s_att s) v (s_cur s) (s_low s) (s_lowE s) (s_prevE s) (s_last s) (s_stall s) (s_A s) (s_mE s) (s_mErr s) (s_mG s) (s_mN s) (s_prev s) (s_base s) (s_sched s) (s_energies s) (s_rates s) (s_errors s) (s_gnorms s) (s_total s) (s_log s) (s_nres s) (s_nroll s) (s_nforced s) (s_done s) (s_conv s) (s_obs s).
(** assignment to one variable of the loop, optimizer_impl.h:103-923 *)
Definition set_cur (v : W) (s : st) : st := mkSt (s_iter s) (s_att s) (s_calls s) v (s_low s) (s_lowE s) (s_prevE s) (s_last s) (s_stall s) (s_A s) (s_mE s) (s_mErr s) (s_mG s) (s_mN s) (s_prev s) (s_base s) (s_sched s) (s_energies s) (s_rates s) (s_errors s) (s_gnorms s) (s_total s) (s_log s) (s_nres s) (s_nroll s) (s_nforced s) (s_done s) (s_conv s) (s_obs s).
(** assignment to one variable of the loop, optimizer_impl.h:103-923 *)
Definition set_low (v : W) (s : st) : st := mkSt (s_iter s) (s_att s) (s_calls s) (s_cur s) v (s_lowE s) (s_prevE s) (s_last s) (s_stall s) (s_A s) (s_mE s) (s_mErr s) (s_mG s) (s_mN s) (s_prev s) (s_base s) (s_sched s) (s_energies s) (s_rates s) (s_errors s) (s_gnorms s) (s_total s) (s_log s) (s_nres s) (s_nroll s) (s_nforced s) (s_done s) (s_conv s) (s_obs s).
(** assignment to one variable of the loop, optimizer_impl.h:103-923 *)
Definition set_lowE (v : R) (s : st) : st := mkSt (s_iter s) (s_att s) (s_calls s) (s_cur s) (s_low s) v (s_prevE s) (s_last s) (s_stall s) (s_A s) (s_mE s) (s_mErr s) (s_mG s) (s_mN s) (s_prev s) (s_base s) (s_sched s) (s_energies s) (s_rates s) (s_errors s) (s_gnorms s) (s_total s) (s_log s) (s_nres s) (s_nroll s) (s_nforced s) (s_done s) (s_conv s) (s_obs s).
(** assignment to one variable of the loop, optimizer_impl.h:103-923 *)
Definition set_prevE (v : R) (s : st) : st := mkSt (s_iter s) (s_att s) (s_calls s) (s_cur s) (s_low s) (s_lowE s) v (s_last s) (s_stall s) (s_A s) (s_mE s) (s_mErr s) (s_mG s) (s_mN s) (s_prev s) (s_base s) (s_sched s) (s_energies s) (s_rates s) (s_errors s) (s_gnorms s) (s_total s) (s_log s) (s_nres s) (s_nroll s) (s_nforced s) (s_done s) (s_conv s) (s_obs s).
(** assignment to one variable of the loop, optimizer_impl.h:103-923 *)
Definition set_last (v : R) (s : st) : st := mkSt (s_iter s) (s_att s) (s_calls s) (s_cur s) (s_low s) (s_lowE s) (s_prevE s) v (s_stall s) (s_A s) (s_mE s) (s_mErr s) (s_mG s) (s_mN s) (s_prev s) (s_base s) (s_sched s) (s_energies s) (s_rates s) (s_errors s) (s_gnorms s) (s_total s) (s_log s) (s_nres s) (s_nroll s) (s_nforced s) (s_done s) (s_conv s) (s_obs s).
(** assignment to one variable of the loop, optimizer_impl.h:103-923 *)
Definition set_stall (v : nat) (s : st) : st := mkSt (s_iter s) (s_att s) (s_calls s) (s_cur s) (s_low s) (s_lowE s) (s_prevE s) (s_last s) v (s_A s) (s_mE s) (s_mErr s) (s_mG s) (s_mN s) (s_prev s) (s_base s) (s_sched s) (s_energies s) (s_rates s) (s_errors s) (s_gnorms s) (s_total s) (s_log s) (s_nres s) (s_nroll s) (s_nforced s) (s_done s) (s_conv s) (s_obs s).
(** assignment to one variable of the loop, optimizer_impl.h:103-923 *)
Definition set_A (v : A) (s : st) : st := mkSt (s_iter s) (s_att s) (s_calls s) (s_cur s) (s_low s) (s_lowE s) (s_prevE s) (s_last s) (s_stall s) v (s_mE s) (s_mErr s) (s_mG s) (s_mN s) (s_prev s) (s_base s) (s_sched s) (s_energies s) (s_rates s) (s_errors s) (s_gnorms s) (s_total s) (s_log s) (s_nres s) (s_nroll s) (s_nforced s) (s_done s) (s_conv s) (s_obs s).
(** assignment to one variable of the loop, optimizer_impl.h:103-923 *)
Definition set_mE (v : ema) (s : st) : st := mkSt (s_iter s) (s_att s) (s_calls s) (s_cur s) (s_low s) (s_lowE s) (s_prevE s) (s_last s) (s_stall s) (s_A s) v (s_mErr s) (s_mG s) (s_mN s) (s_prev s) (s_base s) (s_sched s) (s_energies s) (s_rates s) (s_errors s) (s_gnorms s) (s_total s) (s_log s) (s_nres s) (s_nroll s) (s_nforced s) (s_done s) (s_conv s) (s_obs s).
(** assignment to one variable of the loop, optimizer_impl.h:103-923 *)
Definition set_mErr (v : ema) (s : st) : st := mkSt (s_iter s) (s_att s) (s_calls s) (s_cur s) (s_low s) (s_lowE s) (s_prevE s) (s_last s) (s_stall s) (s_A s) (s_mE s) v (s_mG s) (s_mN s) (s_prev s) (s_base s) (s_sched s) (s_energies s) (s_rates s) (s_errors s) (s_gnorms s) (s_total s) (s_log s) (s_nres s) (s_nroll s) (s_nforced s) (s_done s) (s_conv s) (s_obs s).
(** assignment to one variable of the loop, optimizer_impl.h:103-923 *)
Definition set_mG (v : ema) (s : st) : st := mkSt (s_iter s) (s_att s) (s_calls s) (s_cur s) (s_low s) (s_lowE s) (s_prevE s) (s_last s) (s_stall s) (s_A s) (s_mE s) (s_mErr s) v (s_mN s) (s_prev s) (s_base s) (s_sched s) (s_energies s) (s_rates s) (s_errors s) (s_gnorms s) (s_total s) (s_log s) (s_nres s) (s_nroll s) (s_nforced s) (s_done s) (s_conv s) (s_obs s).
(** assignment to one variable of the loop, optimizer_impl.h:103-923 *)
Definition set_mN (v : ema) (s : st) : st := mkSt (s_iter s) (s_att s) (s_calls s) (s_cur s) (s_low s) (s_lowE s) (s_prevE s) (s_last s) (s_stall s) (s_A s) (s_mE s) (s_mErr s) (s_mG s) v (s_prev s) (s_base s) (s_sched s) (s_energies s) (s_rates s) (s_errors s) (s_gnorms s) (s_total s) (s_log s) (s_nres s) (s_nroll s) (s_nforced s) (s_done s) (s_conv s) (s_obs s).
(** assignment to one variable of the loop, optimizer_impl.h:103-923 *)
Definition set_prev (v : option W) (s : st) : st := mkSt (s_iter s) (s_att s) (s_calls s) (s_cur s) (s_low s) (s_lowE s) (s_prevE s) (s_last s) (s_stall s) (s_A s) (s_mE s) (s_mErr s) (s_mG s) (s_mN s) v (s_base s) (s_sched s) (s_energies s) (s_rates s) (s_errors s) (s_gnorms s) (s_total s) (s_log s) (s_nres s) (s_nroll s) (s_nforced s) (s_done s) (s_conv s) (s_obs s).
(** assignment to one variable of the loop, optimizer_impl.h:103-923 *)
Definition set_base (v : R) (s : st) : st := mkSt (s_iter s) (s_att s) (s_calls s) (s_cur s) (s_low s) (s_lowE s) (s_prevE s) (s_last s) (s_stall s) (s_A s) (s_mE s) (s_mErr s) (s_mG s) (s_mN s) (s_prev s) v (s_sched s) (s_energies s) (s_rates s) (s_errors s) (s_gnorms s) (s_total s) (s_log s) (s_nres s) (s_nroll s) (s_nforced s) (s_done s) (s_conv s) (s_obs s).
(** assignment to one variable of the loop, optimizer_impl.h:103-923 *)
Definition set_sched (v : Sc) (s : st) : st := mkSt (s_iter s) (s_att s) (s_calls s) (s_cur s) (s_low s) (s_lowE s) (s_prevE s) (s_last s) (s_stall s) (s_A s) (s_mE s) (s_mErr s) (s_mG s) (s_mN s) (s_prev s) (s_base s) v (s_energies s) (s_rates s) (s_errors s) (s_gnorms s) (s_total s) (s_log s) (s_nres s) (s_nroll s) (s_nforced s) (s_done s) (s_conv s) (s_obs s).
(** assignment to one variable of the loop, optimizer_impl.h:103-923 *)
Definition set_energies (v : list R) (s : st) : st := mkSt (s_iter s) (s_att s) (s_calls s) (s_cur s) (s_low s) (s_lowE s) (s_prevE s) (s_last s) (s_stall s) (s_A s) (s_mE s) (s_mErr s) (s_mG s) (s_mN s) (s_prev s) (s_base s) (s_sched s) v (s_rates s) (s_errors s) (s_gnorms s) (s_total s) (s_log s) (s_nres s) (s_nroll s) (s_nforced s) (s_done s) (s_conv s) (s_obs s).
(** assignment to one variable of the loop, optimizer_impl.h:103-923 *)
Definition set_rates (v : list R) (s : st) : st := mkSt (s_iter s) (s_att s) (s_calls s) (s_cur s) (s_low s) (s_lowE s) (s_prevE s) (s_last s) (s_stall s) (s_A s) (s_mE s) (s_mErr s) (s_mG s) (s_mN s) (s_prev s) (s_base s) (s_sched s) (s_energies s) v (s_errors s) (s_gnorms s) (s_total s) (s_log s) (s_nres s) (s_nroll s) (s_nforced s) (s_done s) (s_conv s) (s_obs s).
(** assignment to one variable of the loop, optimizer_impl.h:103-923 *)
Definition set_errors (v : list R) (s : st) : st := mkSt (s_iter s) (s_att s) (s_calls s) (s_cur s) (s_low s) (s_lowE s) (s_prevE s) (s_last s) (s_stall s) (s_A s) (s_mE s) (s_mErr s) (s_mG s) (s_mN s) (s_prev s) (s_base s) (s_sched s) (s_energies s) (s_rates s) v (s_gnorms s) (s_total s) (s_log s) (s_nres s) (s_nroll s) (s_nforced s) (s_done s) (s_conv s) (s_obs s).
(** assignment to one variable of the loop, optimizer_impl.h:103-923 *)
Definition set_gnorms (v : list R) (s : st) : st := mkSt (s_iter s) (s_att s) (s_calls s) (s_cur s) (s_low s) (s_lowE s) (s_prevE s) (s_last s) (s_stall s) (s_A s) (s_mE s) (s_mErr s) (s_mG s) (s_mN s) (s_prev s) (s_base s) (s_sched s) (s_energies s) (s_rates s) (s_errors s) v (s_total s) (s_log s) (s_nres s) (s_nroll s) (s_nforced s) (s_done s) (s_conv s) (s_obs s).
(** assignment to one variable of the loop, optimizer_impl.h:103-923 *)
Definition set_total (v : nat) (s : st) : st := mkSt (s_iter s) (s_att s) (s_calls s) (s_cur s) (s_low s) (s_lowE s) (s_prevE s) (s_last s) (s_stall s) (s_A s) (s_mE s) (s_mErr s) (s_mG s) (s_mN s) (s_prev s) (s_base s) (s_sched s) (s_energies s) (s_rates s) (s_errors s) (s_gnorms s) v (s_log s) (s_nres s) (s_nroll s) (s_nforced s) (s_done s) (s_conv s) (s_obs s).
(** assignment to one variable of the loop, optimizer_impl.h:103-923 *)
Definition set_log (v : list event) (s : st) : st := mkSt (s_iter s) (s_att s) (s_calls s) (s_cur s) (s_low s) (s_lowE s) (s_prevE s) (s_last s) (s_stall s) (s_A s) (s_mE s) (s_mErr s) (s_mG s) (s_mN s) (s_prev s) (s_base s) (s_sched s) (s_energies s) (s_rates s) (s_errors s) (s_gnorms s) (s_total s) v (s_nres s) (s_nroll s) (s_nforced s) (s_done s) (s_conv s) (s_obs s).
(** assignment to one variable of the loop, optimizer_impl.h:103-923 *)
Definition set_nres (v : nat) (s : st) : st := mkSt (s_iter s) (s_att s) (s_calls s) (s_cur s) (s_low s) (s_lowE s) (s_prevE s) (s_last s) (s_stall s) (s_A s) (s_mE s) (s_mErr s) (s_mG s) (s_mN s) (s_prev s) (s_base s) (s_sched s) (s_energies s) (s_rates s) (s_errors s) (s_gnorms s) (s_total s) (s_log s) v (s_nroll s) (s_nforced s) (s_done s) (s_conv s) (s_obs s).
(** assignment to one variable of the loop, optimizer_impl.h:103-923 *)
Definition set_nroll (v : nat) (s : st) : st := mkSt (s_iter s) (s_att s) (s_calls s) (s_cur s) (s_low s) (s_lowE s) (s_prevE s) (s_last s) (s_stall s) (s_A s) (s_mE s) (s_mErr s) (s_mG s) (s_mN s) (s_prev s) (s_base s) (s_sched s) (s_energies s) (s_rates s) (s_errors s) (s_gnorms s) (s_total s) (s_log s) (s_nres s) v (s_nforced s) (s_done s) (s_conv s) (s_obs s).
(** assignment to one variable of the loop, optimizer_impl.h:103-923 *)
Definition set_nforced (v : nat) (s : st) : st := mkSt (s_iter s) (s_att s) (s_calls s) (s_cur s) (s_low s) (s_lowE s) (s_prevE s) (s_last s) (s_stall s) (s_A s) (s_mE s) (s_mErr s) (s_mG s) (s_mN s) (s_prev s) (s_base s) (s_sched s) (s_energies s) (s_rates s) (s_errors s) (s_gnorms s) (s_total s) (s_log s) (s_nres s) (s_nroll s) v (s_done s) (s_conv s) (s_obs s).
(** assignment to one variable of the loop, optimizer_impl.h:103-923 *)
Definition set_done (v : bool) (s : st) : st := mkSt (s_iter s) (s_att s) (s_calls s) (s_cur s) (s_low s) (s_lowE s) (s_prevE s) (s_last s) (s_stall s) (s_A s) (s_mE s) (s_mErr s) (s_mG s) (s_mN s) (s_prev s) (s_base s) (s_sched s) (s_energies s) (s_rates s) (s_errors s) (s_gnorms s) (s_total s) (s_log s) (s_nres s) (s_nroll s) (s_nforced s) v (s_conv s) (s_obs s).
(** assignment to one variable of the loop, optimizer_impl.h:103-923 *)
Definition set_conv (v : bool) (s : st) : st := mkSt (s_iter s) (s_att s) (s_calls s) (s_cur s) (s_low s) (s_lowE s) (s_prevE s) (s_last s) (s_stall s) (s_A s) (s_mE s) (s_mErr s) (s_mG s) (s_mN s) (s_prev s) (s_base s) (s_sched s) (s_energies s) (s_rates s) (s_errors s) (s_gnorms s) (s_total s) (s_log s) (s_nres s) (s_nroll s) (s_nforced s) (s_done s) v (s_obs s).
(** assignment to one variable of the loop, optimizer_impl.h:103-923 *)
Definition set_obs (v : list obs) (s : st) : st := mkSt (s_iter s) (s_att s) (s_calls s) (s_cur s) (s_low s) (s_lowE s) (s_prevE s) (s_last s) (s_stall s) (s_A s) (s_mE s) (s_mErr s) (s_mG s) (s_mN s) (s_prev s) (s_base s) (s_sched s) (s_energies s) (s_rates s) (s_errors s) (s_gnorms s) (s_total s) (s_log s) (s_nres s) (s_nroll s) (s_nforced s) (s_done s) (s_conv s) v.

(** ghost *)
Definition saw (o : obs) (s : st) : st := set_obs (s_obs s ++ [o]) s.

(** 1956-1973 LogSpikeEvent_ *)
Definition log (sig : signal) (act : action) (v t : R) (s : st) : st :=
  let ev := mkEvent (s_iter s) (s_att s) sig act v t in
  let s1 := match act with
            | Resample => set_nres (S (s_nres s)) s
            | Rollback => set_nroll (S (s_nroll s)) s
            | AcceptWithWarning => set_nforced (S (s_nforced s)) s
            | Accept => s
            end in
  saw (Spike ev) (set_log (s_log s1 ++ [ev]) s1).
(** 264-290, 705-724, 746-762: the current state is evaluated again, or the previous one. *)
Definition back_to_prev (s : st) : st :=
  match s_prev s with Some w => set_A (a_rollback alg (s_A s)) (set_prev None (set_cur w s)) | None => s end.
(** optimizer_impl.h:268-300, 705-770 *)
Definition recover (act : action) (s : st) : st :=
  match act with
  | Resample => set_att (S (s_att s)) (set_A (a_resample alg (s_A s)) s)
  | Rollback => set_att 0%nat (back_to_prev s)
  | _ => s
  end.
(** optimizer_impl.h:262-300 *)
Definition discards (act : action) : bool := match act with Resample | Rollback => true | _ => false end.
(** One check: [inr]: the evaluation is discarded; [inl]: go on. (optimizer_impl.h:255-300, 700-775) *)
Definition check (sig : option signal) (act : signal -> action) (v t : signal -> R) (s : st) : st + st :=
  match sig with
  | None => inl s
  | Some x => let s1 := log x (act x) (v x) (t x) s in
              if discards (act x) then inr (recover (act x) s1) else inl s1
  end.

(** optimizer.h:408-410, optimizer_impl.h:262-300 *)
Definition has_prev (s : st) : bool := match s_prev s with Some _ => true | None => false end.
(** optimizer_impl.h:320-357 *)
Definition any_selector : bool := p_init_on p || p_per_on p.
(** 384-414, 432-476: trial energies, one evaluation per candidate *)
Fixpoint try_all (calls : nat) (f : R -> W) (etas : list R) : list cand :=
  match etas with [] => [] | x :: t => let '(e, err) := trial calls (f x) in (x, e, err) :: try_all (S calls) f t end.
(** 320-542: the rate for this step, the new base rate, the precomputed direction, calls made *)
Definition select (s : st) (g : G) (err : R) : res (option (R * P * nat)) :=
  let initial := p_init_on p && (s_iter s =? 0)%nat in
  let periodic := p_per_on p && (0 <? s_iter s)%nat && (s_iter s mod p_per_every p =? 0)%nat && negb initial in
  if negb (initial || periodic) then Ok None
  else if ((initial && negb (p_init_det p)) || (periodic && negb (p_per_det p))) && rle err 0 then Fail Throw
  else
    etas <- (if initial then Ok (candidates_initial p (s_base s)) else candidates_periodic (s_base s));;
    d <- a_prepare alg (s_A s) (s_cur s) g;;
    let cs := try_all (s_calls s) (a_trial alg (s_A s) d (s_cur s) g) etas in
    eta <- (if initial then select_initial cs else select_periodic p (s_iter s) cs);;
    Ok (Some (if initial then eta else Rmin (s_base s) eta, d, length etas)).

(** 766-898: an accepted step, as the values the variables have at the end of the pass *)
Definition accept (e : R) (g : G) (err gn eff ng : R) (next : W) (s : st) : st :=
  let low := rlt e (s_lowE s) in                                                        (* 789 *)
  let stall := if low then 0%nat else S (s_stall s) in                                  (* 793, 798 *)
  let stop := (0 <? s_iter s)%nat && should_stop p e (s_prevE s) gn stall in            (* 802-804 *)
  let user := user_stop (s_iter s) e err in                                             (* 887 *)
  let ck := (0 <? p_every p)%nat && (0 <? s_iter s)%nat && (s_iter s mod p_every p =? 0)%nat in  (* 894 *)
  let leave := stop || user in
  let saved := if p_rollback p then a_save alg (s_A s) else s_A s in                    (* 840-845 *)
  let anchored := a_accept alg saved (s_cur s) g in                                     (* 847-851 *)
  mkSt
    (if leave then s_iter s else S (s_iter s))
    (if leave then s_att s else 0%nat)
    (s_calls s)
    (if stop then s_cur s else next)                                                    (* 857 *)
    (if low then s_cur s else s_low s)                                                  (* 791 *)
    (if low then e else s_lowE s)                                                       (* 790 *)
    (if stop then s_prevE s else e)                                                     (* 834, 836 *)
    e                                                                                   (* 780 *)
    stall
    (if stop then s_A s else if user then anchored else a_begin alg anchored)
    (ema_update (p_window p) (s_mE s) e)                                                (* 768-772 *)
    (ema_update (p_window p) (s_mErr s) err)
    (ema_update (p_window p) (s_mG s) gn)
    (if a_natural alg then ema_update (p_window p) (s_mN s) ng else s_mN s)
    (if stop then s_prev s else if p_rollback p then Some (s_cur s) else s_prev s)      (* 840-841 *)
    (s_base s)
    (s_sched s)
    (s_energies s ++ [e])                                                               (* 778-784 *)
    (s_rates s ++ [eff])
    (s_errors s ++ [err])
    (s_gnorms s ++ [gn])
    (S (s_iter s))                                                                      (* 786 *)
    (s_log s) (s_nres s) (s_nroll s) (s_nforced s)
    (if leave then true else s_done s)                                                  (* 830, 889 *)
    (if stop then true else s_conv s)                                                   (* 827 *)
    (s_obs s ++ (if low then [Lowest (s_cur s) e] else [])
             ++ (if stop then [] else [Iter (s_iter s) e err gn])
             ++ (if leave then [] else if ck then [Ckpt (s_iter s) next] else [])).

(** 235-900: one pass of the inner loop *)
Definition pass (s : st) : res st :=
  let '(e, g, err) := eval (s_calls s) (s_cur s) in
  let gn := gnorm g in
  let s := saw (Eval (s_cur s) e err gn) (set_calls (S (s_calls s)) s) in
  acc <- a_seen alg (s_A s) (s_cur s) g;;
  let s := set_A acc s in
  match check (if p_auto p && (0 <? s_iter s)%nat then detect12 p (s_mErr s) (s_mG s) err gn else None)
              (fun _ => decide p (has_prev s) (s_att s) (s_iter s))
              (fun x => match x with S1 => err | _ => gn end)
              (fun x => match x with S1 => p_ferr p * m_mean (s_mErr s) | _ => p_fgrad p * m_mean (s_mG s) end) s with
  | inr s => Ok s
  | inl s =>
      let '(lr0, sc) := if any_selector then (s_base s, s_sched s) else rate (s_sched s) (s_iter s) (if (s_iter s =? 0)%nat then e else s_prevE s) in
      let s := set_sched sc s in
      sel <- select s g err;;
      let '(lr, d, extra) := match sel with Some (r, d, k) => (r, Some d, k) | None => (lr0, None, 0%nat) end in
      let s := set_calls (s_calls s + extra) (match sel with Some _ => set_base lr s | None => s end) in
      out <- a_step alg (s_calls s) (s_A s) d (s_cur s) g lr;;
      let '(acc, (next, eff), (ng, iters), more) := out in
      let s := set_calls (s_calls s + more) (set_A acc s) in
      match check (if a_natural alg && p_auto p && (0 <? s_iter s)%nat then detect3 p (s_mN s) ng iters else None)
                  (fun _ => decide p (has_prev s) (s_att s) (s_iter s))
                  (fun _ => ng) (fun _ => p_fngrad p * m_mean (s_mN s)) s with
      | inr s => Ok s
      | inl s =>
          match check (if p_rollback p && (0 <? s_iter s)%nat then detect4 p (s_mE s) e else None)
                      (fun _ => Rollback) (fun _ => e) (fun _ => m_mean (s_mE s) + p_sigma p * sqrt (m_var (s_mE s))) s with
          | inr s => Ok s
          | inl s => Ok (accept e g err gn eff ng next s)
          end
      end
  end.

(** 199-901; out of fuel: still running *)
Inductive outcome := Finished (s : st) | Running (s : st).
(** the loop of optimizer_impl.h:205-900 *)
Fixpoint run (fuel : nat) (s : st) : res outcome :=
  if s_done s || (p_max_iter p <=? s_iter s)%nat then Ok (Finished s)
  else match fuel with O => Ok (Running s) | S f => s1 <- pass s;; run f s1 end.

(** Members of the optimizer the loop starts from (optimizer.h) and leaves behind. (optimizer.h:367-410) *)
Record members := mkMembers { k_A : A; k_mE : ema; k_mErr : ema; k_mG : ema; k_mN : ema; k_prev : option W;
                              k_log : list event; k_nres : nat; k_nroll : nat; k_nforced : nat; k_sched : Sc }.
(** 112-195; [a0]: the accumulators after the reset of 172-174 (L-BFGS) *)
Definition checks : res unit :=
  if any_selector && negb (a_selectable alg) then Fail Throw
  else if any_selector && scheduled then Fail Throw
  else if p_init_on p && (p_init_steps p =? 0)%nat then Fail Throw
  else if p_per_on p && ((p_per_every p =? 0)%nat || rlt (p_per_ratio p) 0 || rlt 1 (p_per_ratio p)) then Fail Throw
  else if any_selector && rle (p_rate p) 0 then Fail Throw
  else Ok tt.
(** optimizer_impl.h:112-200 *)
Definition start (k : members) (w : W) : st :=
  mkSt 0 0 0 w w dbl_max dbl_max dbl_max 0 (a_begin alg (k_A k)) (k_mE k) (k_mErr k) (k_mG k) (k_mN k) (k_prev k) (p_rate p) (k_sched k)
       [] [] [] [] 0 (k_log k) (k_nres k) (k_nroll k) (k_nforced k) false false [].
(** 1807-1866 ClearUp; [fresh]: cleared accumulators. The scheduler is not touched. *)
Definition clear_up (fresh : A) (s : st) : members := mkMembers fresh ema_fresh ema_fresh ema_fresh ema_fresh None [] 0 0 0 (s_sched s).
(** optimizer.h:367-410 after construction *)
Definition new_members (fresh : A) (sc : Sc) : members := mkMembers fresh ema_fresh ema_fresh ema_fresh ema_fresh None [] 0 0 0 sc.
(** optimizer_impl.h:103-923 *)
Definition optimize (fuel : nat) (k : members) (w : W) : res outcome := checks >> run fuel (start k w).
End Loop.
