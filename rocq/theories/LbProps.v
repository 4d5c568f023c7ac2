(** C39, C40, C41: L-BFGS, its line search and the learning-rate schedules. *)
From Coq Require Import List Arith Bool Reals Lra Lia.
From Verif Require Import Base Cplx Rsum OptModel OptProofs MsgModel TpsModel TpsSpec TpsMain LbModel LbSpec LbProofs LbMain LrProofs.
Import ListNotations.
Local Open Scope R_scope.

(** In every run, whatever the evaluator, the schedule, the spikes and the recoveries, the history has
    at most history_size pairs, each with curvature above the threshold, and the state keeps its shape. *)
Theorem c39_history : forall {Sc} L q p eval trial gnorm scheduled (rate : Sc -> nat -> R -> R * Sc) user_stop fuel sc w0 s,
  (0 < l_size q)%nat -> shaped L w0 -> (forall n w, shaped L w -> shaped L (snd (fst (eval n w)))) ->
  optimize p (lb_algorithm q eval) eval trial gnorm scheduled rate user_stop fuel (new_members lb_fresh sc) w0 = Ok (Finished s) \/
  optimize p (lb_algorithm q eval) eval trial gnorm scheduled rate user_stop fuel (new_members lb_fresh sc) w0 = Ok (Running s) ->
  good_history L q (h_hist (s_A s)) /\ shaped L (s_cur s).
Proof. intros Sc. exact lb_run. Qed.
Print Assumptions c39_history.

(** The direction of any usable history is a descent direction, no longer than the configured norm. *)
Theorem c39_descent : forall L p hist g, (0 < l_size p)%nat -> 0 <= l_min_curv p -> Forall (usable L p) hist -> shaped L g -> nonzero L g ->
  exists d, lb_direction p hist g = Ok d /\ shaped L d /\ dot L (at_place g) (at_place d) < 0 /\
    (0 < l_max_norm p -> sqrt (dot L (at_place d) (at_place d)) <= l_max_norm p).
Proof. exact direction_descends. Qed.
Print Assumptions c39_descent.

(** The implied inverse Hessian maps the newest gradient change to the newest displacement. *)
Theorem c39_secant : forall L p hist h, (0 < l_size p)%nat -> 0 <= l_min_curv p -> l_max_norm p <= 0 -> Forall (usable L p) (hist ++ [h]) ->
  exists d, lb_direction p (hist ++ [h]) (h_y h) = Ok d /\ is_vector L d (fun q => - at_place (h_s h) q)%C.
Proof. exact direction_secant. Qed.
Print Assumptions c39_secant.

Definition demo_pair : pair := mkPair (one_site false [Some [RtoC 1]]) (one_site false [Some [RtoC 2]]) (1 / 2).
Definition demo_lb : lb_params := mkLbP 5 0 (1 / 100) 20 true (1 / 10) (1 / 2) 0 2 0 false 0 false 0.
Lemma demo_dot x y : dot unit_layout (at_place (one_site false [Some [RtoC x]])) (at_place (one_site false [Some [RtoC y]])) = x * y.
Proof. unfold dot, rsum. cbn. unfold Cmul, Cconj, RtoC. simpl. lra. Qed.
Example demo_usable : Forall (usable unit_layout demo_lb) [demo_pair] /\ nonzero unit_layout (one_site false [Some [RtoC 3]]).
Proof.
  split.
  - constructor; [|constructor]. unfold usable. cbn [h_s h_y h_rho demo_pair]. rewrite demo_dot. cbn [l_min_curv demo_lb]. split; [apply one_site_shaped|]. split; [apply one_site_shaped|]. lra.
  - exists (0, 0, 0, 0)%nat. split; [left; reflexivity|]. cbn. intros E. injection E. lra.
Qed.

(** History pairs need not be distinct steps: when a spike rolls the state back, the restored history
    already holds the step that led to the restored state and the next evaluation records it again. *)
Theorem c39_distinct_pairs_refuted : exists q a0 w g a b h, h_hist a0 = [] /\
  lb_seen q (lb_begin a0) w g = Ok a /\ h_hist a = [h] /\ lb_seen q (lb_restore (lb_save a)) w g = Ok b /\ h_hist b = [h; h].
Proof. exact duplicated_example. Qed.
Print Assumptions c39_distinct_pairs_refuted.

(** Whatever values the evaluations return, a search that reports success spent at most max_eval
    evaluations, and its step is in (0, max_step], was the last one probed, decreases the energy enough
    and has a small enough slope. *)
Theorem c40_accepted : forall {W} p (probe : nat -> R -> res (R * R * W)) phi0 dphi0 lr w al m, 0 < l_min_step p ->
  strong_wolfe p probe phi0 dphi0 lr = Ok (Accepted w al m) ->
  (0 < m <= l_max_eval p)%nat /\ 0 < al <= l_max_step p /\ exists phi dphi, probe (m - 1)%nat al = Ok (phi, dphi, w) /\
    phi <= phi0 + l_c1 p * al * dphi0 /\ phi < phi0 /\ Rabs dphi <= Rmax (l_c2 p * Rabs dphi0) (l_tol_grad p).
Proof. intros W. exact wolfe_decreases. Qed.
Print Assumptions c40_accepted.

(** A search that gives up is within the budget too. *)
Theorem c40_budget : forall {W} p (probe : nat -> R -> res (R * R * W)) phi0 dphi0 lr m, 0 < l_min_step p ->
  strong_wolfe p probe phi0 dphi0 lr = Ok (Failed m) -> (m <= l_max_eval p)%nat.
Proof. intros W. exact wolfe_budget. Qed.
Print Assumptions c40_budget.

(** The accepted step can be smaller than min_step: zoom interpolates below it. *)
Theorem c40_min_step_refuted : exists p probe phi0 dphi0 lr al m, strong_wolfe (W := unit) p probe phi0 dphi0 lr = Ok (Accepted tt al m) /\ al < l_min_step p.
Proof. exact (ex_intro _ valley_params (ex_intro _ valley (ex_intro _ 0 (ex_intro _ (-1) (ex_intro _ 1 (ex_intro _ (1 / 2) (ex_intro _ 2%nat below_min_step))))))). Qed.
Print Assumptions c40_min_step_refuted.

Example demo_search : 0 < l_min_step valley_params /\ exists al m, strong_wolfe valley_params valley 0 (-1) 1 = Ok (Accepted tt al m) /\ (m = 2)%nat.
Proof. split; [simpl; lra|]. exists (1 / 2), 2%nat. split; [exact (proj1 below_min_step)|reflexivity]. Qed.

(** Exponential: lr0 at first, one factor every decay_steps, never rising. *)
Theorem c41_exponential : forall lr0 rate steps, 0 <= lr0 -> 0 < rate <= 1 -> (0 < steps)%nat ->
  exponential_lr lr0 rate steps 0 = lr0 /\
  (forall i, exponential_lr lr0 rate steps (i + steps) = rate * exponential_lr lr0 rate steps i) /\
  (forall i j, (i <= j)%nat -> 0 <= exponential_lr lr0 rate steps j <= exponential_lr lr0 rate steps i).
Proof. exact exponential_spec. Qed.
Print Assumptions c41_exponential.

Theorem c41_step : forall lr0 size gamma, 0 <= lr0 -> 0 <= gamma <= 1 -> (0 < size)%nat ->
  exists r : nat -> R, (forall i, step_lr lr0 size gamma i = Ok (r i)) /\ (forall i, (i < size)%nat -> r i = lr0) /\ (forall i, r (i + size)%nat = gamma * r i) /\
  (forall i j, (i <= j)%nat -> 0 <= r j <= r i).
Proof. exact step_spec. Qed.
Print Assumptions c41_step.

(** Milestones: one factor for each milestone passed, whatever order they were given in. *)
Theorem c41_multistep : forall lr0 ms gamma i, multistep_lr lr0 ms gamma i = lr0 * gamma ^ length (filter (fun m => m <=? i)%nat ms).
Proof. exact multistep_count. Qed.
Print Assumptions c41_multistep.

Theorem c41_multistep_down : forall lr0 ms gamma i j, 0 <= lr0 -> 0 <= gamma <= 1 -> (i <= j)%nat -> 0 <= multistep_lr lr0 ms gamma j <= multistep_lr lr0 ms gamma i.
Proof. exact multistep_down. Qed.
Print Assumptions c41_multistep_down.

Theorem c41_cosine : forall hi T lo, lo <= hi -> (0 < T)%nat ->
  cosine_lr hi T lo 0 = hi /\ (forall i, (T <= i)%nat -> cosine_lr hi T lo i = lo) /\
  (forall i, lo <= cosine_lr hi T lo i <= hi) /\ (forall i j, (i <= j)%nat -> cosine_lr hi T lo j <= cosine_lr hi T lo i).
Proof. exact cosine_spec. Qed.
Print Assumptions c41_cosine.

Theorem c41_warmup : forall base steps lo, lo <= base ->
  (forall i, (steps <= S i)%nat -> warmup_lr base steps lo i = base) /\ (forall i, lo <= warmup_lr base steps lo i <= base) /\
  (forall i j, (i <= j)%nat -> warmup_lr base steps lo i <= warmup_lr base steps lo j).
Proof. exact warmup_spec. Qed.
Print Assumptions c41_warmup.

(** Plateau, over any sequence of energies: the list of rates is the one the states carry; each call
    keeps the rate or multiplies it by the factor, the latter only when the last [patience] energies all
    failed to improve on an earlier energy by the threshold. *)
Theorem c41_plateau_rates : forall factor patience thr s es e,
  nth (length es) (plateau_rates factor patience thr s (es ++ [e])) 0 = pl_lr (after factor patience thr s (es ++ [e])).
Proof. exact rates_nth. Qed.
Print Assumptions c41_plateau_rates.

Theorem c41_plateau_reduction : forall factor patience thr lr0 es e, (0 < patience)%nat ->
  let before := pl_lr (after factor patience thr (plateau_fresh lr0) es) in let now := pl_lr (after factor patience thr (plateau_fresh lr0) (es ++ [e])) in
  now = before \/
  now = before * factor /\ (patience <= length (es ++ [e]))%nat /\
    exists best, (best = dbl_max \/ In best es) /\ Forall (fun x => best - thr <= x) (skipn (length (es ++ [e]) - patience) (es ++ [e])).
Proof. exact plateau_reduction. Qed.
Print Assumptions c41_plateau_reduction.

Theorem c41_plateau_down : forall factor patience thr lr0 es e, 0 <= lr0 -> 0 <= factor <= 1 ->
  0 <= pl_lr (after factor patience thr (plateau_fresh lr0) (es ++ [e])) <= pl_lr (after factor patience thr (plateau_fresh lr0) es).
Proof. exact plateau_down. Qed.
Print Assumptions c41_plateau_down.

(** When the energy no longer changes, there is one reduction every [patience] calls... *)
Theorem c41_plateau_constant : forall factor patience thr lr0 e n, (0 < patience)%nat -> 0 <= thr -> e < dbl_max - thr ->
  let s := after factor patience thr (plateau_fresh lr0) (repeat e (S n)) in pl_lr s = lr0 * factor ^ (n / patience) /\ pl_count s = (n mod patience)%nat /\ pl_best s = e.
Proof. exact plateau_constant. Qed.
Print Assumptions c41_plateau_constant.

(** ... and no floor: the rate goes below every positive number. *)
Theorem c41_plateau_floor_refuted : forall factor patience thr lr0 e, (0 < patience)%nat -> 0 < factor < 1 -> 0 <= thr -> e < dbl_max - thr -> 0 < lr0 ->
  forall floor, 0 < floor -> exists n, pl_lr (after factor patience thr (plateau_fresh lr0) (repeat e n)) < floor.
Proof. exact plateau_floor. Qed.
Print Assumptions c41_plateau_floor_refuted.

(** Parameters of the documentation meet the hypotheses; two milestones given in descending order. *)
Example demo_milestones : multistep_lr 1 [10; 4]%nat (1 / 2) 3 = 1 /\ multistep_lr 1 [10; 4]%nat (1 / 2) 7 = 1 / 2 /\ multistep_lr 1 [10; 4]%nat (1 / 2) 10 = 1 / 4.
Proof. unfold multistep_lr. cbn. lra. Qed.
Example demo_plateau : forall lr e, e < dbl_max -> plateau_rates (1 / 2) 2 0 (plateau_fresh lr) [e; e; e; e - 1; e] = [lr; lr; lr * (1 / 2); lr * (1 / 2); lr * (1 / 2)].
Proof.
  intros lr e H. cbn [plateau_rates plateau_lr plateau_fresh pl_best pl_lr pl_count]. rewrite (proj2 (rlt_true e (dbl_max - 0))) by lra. cbn [pl_best pl_lr pl_count].
  rewrite (proj2 (rlt_false e (e - 0))) by lra. cbn [Nat.leb pl_best pl_lr pl_count]. rewrite (proj2 (rlt_false e (e - 0))) by lra. cbn [pl_best pl_lr pl_count].
  rewrite (proj2 (rlt_true (e - 1) (e - 0))) by lra. cbn [pl_best pl_lr pl_count]. rewrite (proj2 (rlt_false e (e - 1 - 0))) by lra. cbn [pl_best pl_lr pl_count]. reflexivity.
Qed.
