(** The stochastic-reconfiguration matrix is a covariance matrix plus a shift. *)
From Coq Require Import List Arith Bool Reals Lia Lra FunctionalExtensionality.
From Verif Require Import Base Cplx Rsum CgModel CgSpec CgProofs CgNet ExactProofs.
Import ListNotations.
Local Open Scope R_scope.

Section S.
Variable dim : nat.
Notation dot := (vdot dim).
Lemma dot_sum_l {X} (f : X -> vec) l v : dot (fun c => sumC (fun x => f x c) l) v = sumC (fun x => dot (f x) v) l.
Proof.
  induction l as [|a l IH]; [apply dot_zero_l; intros i _; reflexivity|]. rewrite sumC_cons, <- IH. rewrite <- (dot_add_l dim (f a)). apply dot_ext; [|apply veq_refl]. intros i _. unfold vadd. now rewrite sumC_cons.
Qed.
Lemma dot_sum_r {X} (f : X -> vec) l v : dot v (fun c => sumC (fun x => f x c) l) = sumC (fun x => dot v (f x)) l.
Proof.
  induction l as [|a l IH]; [apply dot_zero_r; intros i _; reflexivity|]. rewrite sumC_cons, <- IH. rewrite <- (dot_add_r dim v (f a)). apply dot_ext; [apply veq_refl|]. intros i _. unfold vadd. now rewrite sumC_cons.
Qed.
Lemma len_inv {X} (l : list X) : l <> [] -> (RtoC (INR (length l)) * RtoC (/ INR (length l)))%C = RtoC 1.
Proof. intros H. rewrite <- RtoC_mul. f_equal. apply Rinv_r. apply not_0_INR. destruct l; [congruence|discriminate]. Qed.
Lemma sumC_const {X} (c : C) (l : list X) : sumC (fun _ => c) l = (RtoC (INR (length l)) * c)%C.
Proof. induction l as [|a l IH]; [rewrite sumC_nil; cbn; apply C_ext; unfold Cmul, RtoC; simpl; ring|]. rewrite sumC_cons, IH. cbn [length]. rewrite S_INR, RtoC_add. ring. Qed.
Lemma mean_dot os v : dot (mean_of os) v = (RtoC (/ INR (length os)) * sumC (fun o => dot o v) os)%C.
Proof.
  rewrite <- (dot_sum_l (fun o => o)). rewrite <- (Cconj_R (/ INR (length os))) at 1. rewrite <- dot_scale_l. apply dot_ext; [|apply veq_refl]. intros i _. reflexivity.
Qed.
Lemma deviations_cancel os v : os <> [] -> sumC (fun o => dot (vsub o (mean_of os)) v) os = RtoC 0.
Proof.
  intros H. rewrite (sumC_ext _ (fun o => dot o v + RtoC (-1) * dot (mean_of os) v)%C).
  - rewrite sumC_add, sumC_const, mean_dot. pose proof (len_inv os H) as E. set (n := RtoC (INR _)) in *. set (m := RtoC (/ _)) in *. set (s := sumC _ _).
    replace (s + n * (RtoC (-1) * (m * s)))%C with (s + (n * m) * (RtoC (-1) * s))%C by ring. rewrite E. apply C_ext; unfold Cmul, Cadd, RtoC; simpl; ring.
  - intros o _. rewrite dot_sub_l. apply C_ext; unfold Cmul, Cadd, Csub, Copp, RtoC; simpl; ring.
Qed.
(** The form the code uses: only the projections are centred. *)
Lemma covariance_code os shift v : os <> [] ->
  covariance dim os shift v = (fun c => RtoC (/ INR (length os)) * sumC (fun o => (dot o v - dot (mean_of os) v) * o c) os + shift * v c)%C.
Proof.
  intros H. apply functional_extensionality. intros c. unfold covariance. f_equal. f_equal.
  rewrite (sumC_ext _ (fun o => (dot o v - dot (mean_of os) v) * o c + (RtoC (-1) * mean_of os c) * dot (vsub o (mean_of os)) v)%C).
  - rewrite sumC_add, sumC_scal, (deviations_cancel os v H). ring.
  - intros o _. rewrite dot_sub_l. unfold vsub. apply C_ext; unfold Cmul, Cadd, Csub, Copp, RtoC; simpl; ring.
Qed.
Lemma fold_vadd l m c : fold_left vadd l m c = (m c + sumC (fun w => w c) l)%C.
Proof. revert m; induction l as [|w l IH]; intros m; cbn [fold_left]; [rewrite sumC_nil; ring|]. rewrite IH, sumC_cons. unfold vadd. ring. Qed.
Lemma sr_rank_value samples world v z : samples <> [] ->
  sr_rank dim samples world v z = Ok (fun c => RtoC (1 / INR (length samples * world)) * sumC (fun o => (dot o v - z) * o c) samples)%C.
Proof.
  intros H. destruct samples as [|o t]; [congruence|]. unfold sr_rank. f_equal. apply functional_extensionality. intros c. unfold vscale at 1. f_equal.
  assert (K : forall l acc, fold_left (fun acc o => vadd acc (vscale (dot o v - z)%C o)) l acc c = (acc c + sumC (fun o => (dot o v - z) * o c) l)%C).
  { induction l as [|a l IH]; intros acc; cbn [fold_left]; [rewrite sumC_nil; ring|]. rewrite IH, sumC_cons. unfold vadd, vscale. ring. }
  rewrite K, sumC_cons. reflexivity.
Qed.
Lemma sr_product_value ranks mean shift v s : ranks <> [] -> (0 < s)%nat -> (forall l, In l ranks -> length l = s) ->
  sr_product dim ranks mean shift v = Ok (fun c => RtoC (/ INR (length (concat ranks))) * sumC (fun o => (dot o v - dot mean v) * o c) (concat ranks) + shift * v c)%C.
Proof.
  intros Hr Hs Hl. destruct ranks as [|own others]; [congruence|]. unfold sr_product. set (z := dot mean v). set (P := length (own :: others)).
  assert (Lc : length (concat (own :: others)) = (s * P)%nat).
  { unfold P. revert Hl. generalize (own :: others). clear. induction l as [|a l IH]; intros Hl; [cbn; lia|]. cbn [concat length]. rewrite app_length, IH, (Hl a) by (intros; try apply Hl; auto with datatypes). lia. }
  assert (Ne : forall l, In l (own :: others) -> l <> []) by (intros l Hi E; specialize (Hl l Hi); rewrite E in Hl; cbn in Hl; lia).
  unfold sr_master. rewrite sr_rank_value by (apply Ne; left; reflexivity). cbn [bind].
  rewrite (Hl own) by (left; reflexivity).
  set (go := fix go (l : list (list vec)) : res (list vec) := match l with [] => Ok [] | s0 :: t => r <- sr_rank dim s0 P v z;; rs <- go t;; Ok (r :: rs) end).
  assert (G : forall l, (forall x, In x l -> x <> [] /\ length x = s) -> go l = Ok (map (fun x => fun c => RtoC (1 / INR (s * P)) * sumC (fun o => (dot o v - z) * o c) x)%C l)).
  { induction l as [|a l IH]; intros Ha; [reflexivity|]. cbn [go map]. destruct (Ha a (or_introl eq_refl)) as (A1 & A2). rewrite (sr_rank_value a P v z A1), A2. cbn [bind]. fold go. rewrite IH by (intros; apply Ha; right; assumption). reflexivity. }
  rewrite G by (intros x Hx; split; [apply Ne|apply Hl]; right; assumption). cbn [bind]. f_equal. apply functional_extensionality. intros c. rewrite fold_vadd, sumC_map.
  assert (Lead : (if Ceq_dec shift (RtoC 0) then (fun c => RtoC (1 / INR (s * P)) * sumC (fun o => (dot o v - z) * o c) own)%C else vadd (fun c => RtoC (1 / INR (s * P)) * sumC (fun o => (dot o v - z) * o c) own)%C (vscale shift v)) c =
                 (RtoC (1 / INR (s * P)) * sumC (fun o => (dot o v - z) * o c) own + shift * v c)%C).
  { destruct (Ceq_dec shift (RtoC 0)) as [->|]; [ring|reflexivity]. }
  etransitivity; [apply (f_equal2 Cadd); [exact Lead|reflexivity]|]. rewrite Lc, sumC_scal. cbn [concat]. rewrite sumC_app. replace (1 / INR (s * P)) with (/ INR (s * P)) by (unfold Rdiv; ring).
  assert (Sc : sumC (fun o => ((dot o v - z) * o c)%C) (concat others) = sumC (sumC (fun o => ((dot o v - z) * o c)%C)) others).
  { clear. induction others as [|a l IH]; [reflexivity|]. cbn [concat]. now rewrite sumC_app, sumC_cons, IH. }
  rewrite Sc. ring.
Qed.
Lemma sr_is_covariance ranks shift v s : ranks <> [] -> (0 < s)%nat -> (forall l, In l ranks -> length l = s) ->
  sr_product dim ranks (mean_of (concat ranks)) shift v = Ok (covariance dim (concat ranks) shift v).
Proof.
  intros Hr Hs Hl. rewrite (sr_product_value ranks _ shift v s Hr Hs Hl). f_equal. symmetry. apply covariance_code. destruct ranks as [|a l]; [congruence|]. specialize (Hl a (or_introl eq_refl)). cbn. destruct a; [cbn in Hl; lia|discriminate].
Qed.
Lemma go_empty P v z others : In [] others ->
  (fix go (l : list (list vec)) : res (list vec) := match l with [] => Ok [] | s0 :: t => r <- sr_rank dim s0 P v z;; rs <- go t;; Ok (r :: rs) end) others = Fail UB.
Proof.
  intros Hin. induction others as [|a l IH]; [destruct Hin|]. destruct a as [|b a]; [reflexivity|]. destruct Hin as [Hin|Hin]; [discriminate|]. specialize (IH Hin).
  rewrite (sr_rank_value (b :: a)) by discriminate. cbn [bind]. rewrite IH. reflexivity.
Qed.
Lemma sr_empty ranks mean shift v : ranks = [] \/ In [] ranks -> sr_product dim ranks mean shift v = Fail UB.
Proof.
  intros H. destruct ranks as [|own others]; [reflexivity|]. destruct H as [H|H]; [discriminate|]. unfold sr_product, sr_master. destruct own as [|o t]; [reflexivity|].
  destruct H as [H|H]; [discriminate|]. rewrite (sr_rank_value (o :: t)) by discriminate. cbn [bind]. rewrite (go_empty _ v _ others H). reflexivity.
Qed.

(** *** Consequences for the linear system *)
Variables (os : list vec) (shift : R).
Notation S := (covariance dim os (RtoC shift)).
Lemma cov_linear : linear dim S.
Proof.
  split.
  - intros u v H i Hi. unfold covariance. rewrite (H i Hi). f_equal. f_equal. apply sumC_ext. intros o _. now rewrite (dot_ext dim _ _ _ _ (veq_refl dim _) H).
  - intros u v c i Hi. unfold covariance, vadd at 3, vscale at 3. rewrite (sumC_ext _ (fun o => dot (vsub o (mean_of os)) u * vsub o (mean_of os) i + c * (dot (vsub o (mean_of os)) v * vsub o (mean_of os) i))%C).
    + rewrite sumC_add, sumC_scal. unfold vadd at 1, vscale at 1. ring.
    + intros o _. rewrite dot_add_r, dot_scale_r. ring.
Qed.
Lemma cov_dot u v : dot u (S v) = (RtoC (/ INR (length os)) * sumC (fun o => Cconj (dot (vsub o (mean_of os)) u) * dot (vsub o (mean_of os)) v) os + RtoC shift * dot u v)%C.
Proof.
  unfold covariance. set (w := vsub). change (fun c => (RtoC (/ INR (length os)) * sumC (fun o => dot (w o (mean_of os)) v * w o (mean_of os) c) os + RtoC shift * v c)%C)
    with (vadd (vscale (RtoC (/ INR (length os))) (fun c => sumC (fun o => vscale (dot (w o (mean_of os)) v) (w o (mean_of os)) c) os)) (vscale (RtoC shift) v)).
  rewrite dot_add_r, !dot_scale_r, (dot_sum_r (fun o => vscale (dot (w o (mean_of os)) v) (w o (mean_of os)))). f_equal. f_equal. apply sumC_ext. intros o _. rewrite dot_scale_r, (dot_conj dim _ u). ring.
Qed.
Lemma cov_self_adjoint : self_adjoint dim S.
Proof.
  intros u v. rewrite cov_dot, (dot_conj dim v (S u)), cov_dot, Cconj_add, !Cconj_mul, !Cconj_R, <- (dot_conj dim v u). f_equal. f_equal.
  assert (K : forall l, sumC (fun o => (Cconj (dot (vsub o (mean_of os)) u) * dot (vsub o (mean_of os)) v)%C) l = Cconj (sumC (fun o => (Cconj (dot (vsub o (mean_of os)) v) * dot (vsub o (mean_of os)) u)%C) l)).
  { induction l as [|a l IH]; [rewrite !sumC_nil, Cconj_R; reflexivity|]. rewrite !sumC_cons, Cconj_add, IH, Cconj_mul, Cconj_invol. f_equal. ring. } apply K.
Qed.
Lemma cov_form v : fst (dot v (S v)) = / INR (length os) * rsum (fun o => Cnorm2 (dot (vsub o (mean_of os)) v)) os + shift * vnsq dim v.
Proof.
  rewrite cov_dot, dot_self, <- RtoC_mul. unfold Cadd at 1. cbn [fst RtoC]. f_equal. unfold Cmul at 1. cbn [fst snd RtoC]. rewrite Rmult_0_l, Rminus_0_r. f_equal.
  generalize (mean_of os). intros m. induction os as [|a l IH]; [reflexivity|]. rewrite sumC_cons, rsum_cons, <- IH. unfold Cadd at 1. cbn [fst]. f_equal. unfold Cmul, Cconj, Cnorm2. cbn [fst snd]. ring.
Qed.
Lemma cov_nonneg v : os <> [] -> shift * vnsq dim v <= fst (dot v (S v)).
Proof.
  intros H. rewrite cov_form. assert (0 <= / INR (length os)). { left. apply Rinv_0_lt_compat, lt_0_INR. destruct os; [congruence|cbn; lia]. }
  assert (0 <= rsum (fun o => Cnorm2 (dot (vsub o (mean_of os)) v)) os) by (apply rsum_nonneg; intros; apply Cnorm2_nonneg). nra.
Qed.
Lemma cov_positive : os <> [] -> 0 < shift -> positive_definite dim S.
Proof. intros H Hs v Hv. pose proof (cov_nonneg v H). nra. Qed.
End S.

(** *** The whole solve: every rank multiplies by its own part of the matrix. *)
Definition ok_or_zero (r : res vec) : vec := match r with Ok w => w | Fail _ => vzero end.
Lemma sr_total dim own others shift s : (0 < s)%nat -> (forall l, In l (own :: others) -> length l = s) ->
  let mean := mean_of (concat (own :: others)) in
  total (length others) (vdot dim mean) (fun v z => ok_or_zero (sr_master dim own (length (own :: others)) shift v z))
    (fun j v z => ok_or_zero (sr_rank dim (nth j others []) (length (own :: others)) v z)) = covariance dim (concat (own :: others)) shift.
Proof.
  intros Hs Hl mean. apply functional_extensionality. intros v. pose proof (sr_is_covariance dim (own :: others) shift v s ltac:(discriminate) Hs Hl) as E. fold mean in E.
  assert (Ne : forall l, In l (own :: others) -> l <> []) by (intros l Hi Eq; specialize (Hl l Hi); rewrite Eq in Hl; cbn in Hl; lia).
  unfold sr_product in E. set (P := length (own :: others)) in *. set (z := vdot dim mean v) in *.
  unfold sr_master in E. rewrite sr_rank_value in E by (apply Ne; left; reflexivity). cbn [bind] in E.
  set (go := fix go (l : list (list vec)) : res (list vec) := match l with [] => Ok [] | s0 :: t => r <- sr_rank dim s0 P v z;; rs <- go t;; Ok (r :: rs) end) in E.
  assert (G : forall l, (forall x, In x l -> x <> []) -> go l = Ok (map (fun x => ok_or_zero (sr_rank dim x P v z)) l)).
  { induction l as [|a l IH]; intros Ha; [reflexivity|]. cbn [go map]. rewrite (sr_rank_value dim a P v z) by (apply Ha; left; reflexivity). cbn [bind]. fold go. rewrite IH by (intros; apply Ha; right; assumption). reflexivity. }
  rewrite G in E by (intros; apply Ne; right; assumption). cbn [bind] in E. apply (f_equal ok_or_zero) in E. cbn [ok_or_zero] in E. rewrite <- E. apply functional_extensionality. intros c. rewrite fold_vadd. unfold total. fold z. f_equal.
  - unfold sr_master. rewrite sr_rank_value by (apply Ne; left; reflexivity). reflexivity.
  - rewrite sumC_map. rewrite <- (sumC_map (fun x => ok_or_zero (sr_rank dim x P v z) c) (fun j => nth j others [])). f_equal. clear. rewrite <- (map_seq_nth others []) at 2. reflexivity.
Qed.
Lemma cov_operator dim os shift : os <> [] ->
  linear dim (covariance dim os (RtoC shift)) /\ self_adjoint dim (covariance dim os (RtoC shift)) /\
  (forall v, shift * vnsq dim v <= fst (vdot dim v (covariance dim os (RtoC shift) v))) /\
  (0 < shift -> positive_definite dim (covariance dim os (RtoC shift))).
Proof.
  intros H. split; [apply cov_linear|]. split; [apply cov_self_adjoint|]. split; [intros v; now apply cov_nonneg|]. intros Hs. now apply cov_positive.
Qed.
Lemma natural_gradient dim p g x0 own others shift s : (0 < s)%nat -> (forall l, In l (own :: others) -> length l = s) -> 0 < shift ->
  let P := length (own :: others) in
  let init := net_start (master (length others) (vdot dim (mean_of (concat (own :: others))))
    (fun v z => ok_or_zero (sr_master dim own P (RtoC shift) v z)) IStart (cg dim p g x0)) (length others) in
  let muls := fun j v z => ok_or_zero (sr_rank dim (nth j others []) P v z) in
  Acc (fun b a => exists s, step muls s a b) init /\
  forall c, steps muls init c -> (finished c \/ exists c', step muls true c c') /\
    forall r, t_master c = ADone r ->
      g_reason r <> Indefinite /\ g_norm r = residual dim (covariance dim (concat (own :: others)) (RtoC shift)) g (g_x r) /\
      (g_reason r = Converged -> g_norm r * g_norm r <= Rmax (c_rel p * c_rel p * vnsq dim g) (c_abs p * c_abs p)).
Proof.
  intros Hs Hl Hp P init muls. pose proof (sr_total dim own others (RtoC shift) s Hs Hl) as T. cbv zeta in T.
  destruct (net_correct (length others) (vdot dim (mean_of (concat (own :: others)))) (fun v z => ok_or_zero (sr_master dim own P (RtoC shift) v z)) muls dim p g x0) as (N1 & N2).
  split; [exact N1|]. intros c Hc. destruct (N2 c Hc) as (F & _ & D). split; [exact F|]. intros r Er. specialize (D r Er). fold P in T. fold muls in T. rewrite T in D. clear T.
  assert (Ne : concat (own :: others) <> []). { specialize (Hl own (or_introl eq_refl)). destruct own; [cbn in Hl; lia|discriminate]. }
  destruct (cov_operator dim (concat (own :: others)) shift Ne) as (Li & Sa & _ & Pd). specialize (Pd Hp).
  destruct (cg_honest dim _ p g Li x0) as (H1 & _ & _ & H4). pose proof (cg_definite dim _ p g Li Sa Pd x0) as H5. unfold cg_serial in D. rewrite <- D in H1, H4, H5.
  split; [exact H5|]. split; [exact H1|]. intros Hc'. rewrite H1. now apply H4.
Qed.
