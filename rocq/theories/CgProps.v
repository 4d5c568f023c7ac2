(** C42, C43, C44: conjugate gradients, their distributed form and the stochastic-reconfiguration matrix. *)
From Coq Require Import List Arith Bool Reals Lra Lia.
From Verif Require Import Base Cplx Rsum OptModel LbModel LbProofs CgModel CgSpec CgProofs CgNet SrProofs.
Import ListNotations.
Local Open Scope R_scope.

(** The reported norm is the residual of the returned vector, never above the initial one; the result
    says Converged exactly when that residual meets the tolerance; iterations are within the limit. *)
Theorem c42_residual : forall dim A p b, linear dim A -> forall x0, let res := cg_serial dim p A b x0 in
  g_norm res = residual dim A b (g_x res) /\ g_norm res <= residual dim A b x0 /\ (g_iter res <= c_max p)%nat /\
  (g_reason res = Converged <->
     residual dim A b (g_x res) * residual dim A b (g_x res) <= Rmax (c_rel p * c_rel p * vnsq dim b) (c_abs p * c_abs p)).
Proof. exact cg_honest. Qed.
Print Assumptions c42_residual.

(** Twice the identity, in any dimension, meets the hypotheses of these theorems. *)
Example c42_operator dim : linear dim (vscale (RtoC 2)) /\ self_adjoint dim (vscale (RtoC 2)) /\ positive_definite dim (vscale (RtoC 2)).
Proof.
  split; [split|split].
  - intros u v H i Hi. unfold vscale. now rewrite (H i Hi).
  - intros u v c i _. unfold vscale, vadd. ring.
  - intros u v. rewrite dot_scale_r, dot_scale_l, Cconj_R. reflexivity.
  - intros v H. rewrite dot_scale_r. unfold vnsq in H. unfold Cmul, RtoC. cbn [fst snd]. nra.
Qed.
(** One component, 2 x = 1 from x = 0: a non-zero residual, and the solver ends in one iteration. *)
Example c42_solves : let p := mkCg 5 0 0 0 0 in let res := cg_serial 1 p (vscale (RtoC 2)) (fun _ => RtoC 1) vzero in
  residual 1 (vscale (RtoC 2)) (fun _ => RtoC 1) vzero = 1 /\ (g_reason res = Converged \/ g_reason res = Stagnated) /\ (g_iter res <= 1)%nat.
Proof.
  intros p res. split.
  - unfold residual. replace (vnsq 1 _) with 1; [apply sqrt_1|]. unfold vnsq, vdot, vsub, vscale, vzero. cbn [seq]. rewrite sumC_cons, sumC_nil. unfold Csub, Cadd, Copp, Cmul, Cconj, RtoC. simpl. lra.
  - destruct (c42_operator 1) as (L & S & P). apply (cg_short 1 _ p (fun _ => RtoC 1) L S P); cbn; [lra|lia].
Qed.

(** The number of matrix-vector products is bounded. *)
Theorem c42_products : forall dim A p b x0, (products A (cg dim p b x0) <= 1 + 2 * c_max p)%nat.
Proof. exact cg_products. Qed.
Print Assumptions c42_products.

(** A self-adjoint positive-definite operator is never reported as indefinite. *)
Theorem c42_definite : forall dim A p b, linear dim A -> self_adjoint dim A -> positive_definite dim A ->
  forall x0, g_reason (cg_serial dim p A b x0) <> Indefinite.
Proof. exact cg_definite. Qed.
Print Assumptions c42_definite.

(** If the limit is at least the dimension, such a system ends within as many iterations as it has
    components, converged or stagnated at the last digit. *)
Theorem c42_dimension : forall dim A p b, linear dim A -> self_adjoint dim A -> positive_definite dim A -> 0 <= c_ortho p ->
  forall x0, (dim <= c_max p)%nat -> let res := cg_serial dim p A b x0 in
  (g_reason res = Converged \/ g_reason res = Stagnated) /\ (g_iter res <= dim)%nat.
Proof. exact cg_short. Qed.
Print Assumptions c42_dimension.

(** Any number of slaves, any products, any interleaving: every schedule ends; until it has, some rank
    can move even if MPI buffers nothing; no rank ever reads a message meant for another purpose; the
    result is the serial one for the operator that adds every rank's product exactly once. *)
Theorem c43_protocol : forall n mean own muls dim p b x0, let init := net_start (master n mean own IStart (cg dim p b x0)) n in
  Acc (fun b a => exists s, step muls s a b) init /\
  forall c, steps muls init c ->
    (finished c \/ exists c', step muls true c c') /\ (forall x, In x (t_nodes c) -> n_state x <> SBad) /\
    (forall r, t_master c = ADone r ->
       r = cg_serial dim p (fun v c => own v (mean v) c + sumC (fun j => muls j v (mean v) c) (seq 0 n))%C b x0).
Proof. exact net_correct. Qed.
Print Assumptions c43_protocol.

(** The products of all ranks add up to (1/N) sum_i (O_i - Obar) <O_i - Obar, v> + shift v. *)
Theorem c44_covariance : forall dim ranks shift v s, ranks <> [] -> (0 < s)%nat -> (forall l, In l ranks -> length l = s) ->
  sr_product dim ranks (mean_of (concat ranks)) shift v = Ok (covariance dim (concat ranks) shift v).
Proof. exact sr_is_covariance. Qed.
Print Assumptions c44_covariance.

(** A rank without samples is undefined behaviour. *)
Theorem c44_no_samples : forall dim ranks mean shift v, ranks = [] \/ In [] ranks -> sr_product dim ranks mean shift v = Fail UB.
Proof. exact sr_empty. Qed.
Print Assumptions c44_no_samples.

(** That operator is linear, self-adjoint, and at least shift times the identity. *)
Theorem c44_operator : forall dim os shift, os <> [] ->
  linear dim (covariance dim os (RtoC shift)) /\ self_adjoint dim (covariance dim os (RtoC shift)) /\
  (forall v, shift * vnsq dim v <= fst (vdot dim v (covariance dim os (RtoC shift) v))) /\
  (0 < shift -> positive_definite dim (covariance dim os (RtoC shift))).
Proof. exact cov_operator. Qed.
Print Assumptions c44_operator.

(** The whole natural-gradient solve: with a positive shift and equally many samples on every rank, it
    ends on every schedule, never reports an indefinite matrix, and its residual is that of the
    covariance of all the samples. *)
Theorem c44_natural_gradient : forall dim p g x0 own others shift s, (0 < s)%nat -> (forall l, In l (own :: others) -> length l = s) -> 0 < shift ->
  let P := length (own :: others) in
  let init := net_start (master (length others) (vdot dim (mean_of (concat (own :: others))))
    (fun v z => ok_or_zero (sr_master dim own P (RtoC shift) v z)) IStart (cg dim p g x0)) (length others) in
  let muls := fun j v z => ok_or_zero (sr_rank dim (nth j others []) P v z) in
  Acc (fun b a => exists s, step muls s a b) init /\
  forall c, steps muls init c -> (finished c \/ exists c', step muls true c c') /\
    forall r, t_master c = ADone r ->
      g_reason r <> Indefinite /\ g_norm r = residual dim (covariance dim (concat (own :: others)) (RtoC shift)) g (g_x r) /\
      (g_reason r = Converged -> g_norm r * g_norm r <= Rmax (c_rel p * c_rel p * vnsq dim g) (c_abs p * c_abs p)).
Proof. exact natural_gradient. Qed.
Print Assumptions c44_natural_gradient.

(** Two ranks with the one-component samples 1 and 3: the variance is 1, so the product is (1 + shift) v. *)
Example c44_two_ranks shift v : exists w, sr_product 1 [[fun _ => RtoC 1]; [fun _ => RtoC 3]] (mean_of [fun _ => RtoC 1; fun _ => RtoC 3]) (RtoC shift) v = Ok w /\
  w 0%nat = (RtoC (1 + shift) * v 0%nat)%C.
Proof.
  eexists. split; [apply (c44_covariance 1 [[fun _ => RtoC 1]; [fun _ => RtoC 3]] (RtoC shift) v 1); [discriminate|lia|]|].
  - intros l [<-|[<-|[]]]; reflexivity.
  - unfold covariance, mean_of. cbn [concat app length]. unfold vdot, vsub. cbn [seq]. rewrite !sumC_cons, !sumC_nil. apply C_ext; unfold Csub, Cadd, Copp, Cmul, Cconj, RtoC; simpl; lra.
Qed.
