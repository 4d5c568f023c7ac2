(** How far the series is from its limit. *)
From Coq Require Import List Arith Bool Reals Lia Lra Rgeom.
From Verif Require Import Base Cplx Rsum SumModel SumSpec TrgTensor ProjModel ProjSpec ExpModel ExpSpec ExpAlg.
Import ListNotations.
Local Open Scope R_scope.

Lemma modulus_nonneg z : 0 <= modulus z.
Proof. apply sqrt_pos. Qed.
Lemma modulus_triangle a b : modulus (a + b)%C <= modulus a + modulus b.
Proof.
  destruct a as [a1 a2], b as [b1 b2]. pose proof (triangle 0 0 (a1 + b1) (a2 + b2) a1 a2) as T. unfold dist_euc in T. unfold modulus, Cnorm2. cbn [fst snd Cadd].
  unfold Rsqr in T. replace ((0 - (a1 + b1)) * (0 - (a1 + b1)) + (0 - (a2 + b2)) * (0 - (a2 + b2))) with ((a1 + b1) * (a1 + b1) + (a2 + b2) * (a2 + b2)) in T by ring.
  replace ((0 - a1) * (0 - a1) + (0 - a2) * (0 - a2)) with (a1 * a1 + a2 * a2) in T by ring. replace ((a1 - (a1 + b1)) * (a1 - (a1 + b1)) + (a2 - (a2 + b2)) * (a2 - (a2 + b2))) with (b1 * b1 + b2 * b2) in T by ring. exact T.
Qed.
Lemma modulus_zero : modulus (RtoC 0) = 0.
Proof. unfold modulus, Cnorm2. cbn. replace (0 * 0 + 0 * 0) with 0 by ring. apply sqrt_0. Qed.
Lemma modulus_sum {X} (f : X -> C) l : modulus (sumC f l) <= rsum (fun x => modulus (f x)) l.
Proof. induction l as [|x l IH]; [rewrite sumC_nil, modulus_zero; cbn; lra|]. rewrite sumC_cons, rsum_cons. eapply Rle_trans; [apply modulus_triangle|]. lra. Qed.
Lemma modulus_scal x z : modulus (RtoC x * z)%C = Rabs x * modulus z.
Proof.
  unfold modulus. replace (Cnorm2 (RtoC x * z)%C) with (Rsqr x * Cnorm2 z) by (unfold Cnorm2, Rsqr; cbn; ring). rewrite sqrt_mult; [|apply Rle_0_sqr|apply Cnorm2_nonneg]. rewrite sqrt_Rsqr_abs. reflexivity.
Qed.
Lemma parts_le z : Rabs (fst z) <= modulus z /\ Rabs (snd z) <= modulus z.
Proof.
  unfold modulus, Cnorm2. split; (rewrite <- sqrt_Rsqr_abs; apply sqrt_le_1_alt; unfold Rsqr; destruct z as [a b]; cbn; nra).
Qed.
Lemma modulus_parts z : modulus z <= Rabs (fst z) + Rabs (snd z).
Proof.
  replace z with ((fst z, 0%R) + (0%R, snd z))%C at 1 by (destruct z; unfold Cadd; cbn; f_equal; ring). eapply Rle_trans; [apply modulus_triangle|]. apply Rplus_le_compat; unfold modulus, Cnorm2; cbn [fst snd].
  - replace (fst z * fst z + 0 * 0) with (Rsqr (fst z)) by (unfold Rsqr; ring). rewrite sqrt_Rsqr_abs. lra.
  - replace (0 * 0 + snd z * snd z) with (Rsqr (snd z)) by (unfold Rsqr; ring). rewrite sqrt_Rsqr_abs. lra.
Qed.
Lemma fst_sum {X} (f : X -> C) l : fst (sumC f l) = rsum (fun x => fst (f x)) l.
Proof. induction l as [|x l IH]; [reflexivity|]. rewrite sumC_cons, rsum_cons, <- IH. reflexivity. Qed.

Lemma le_of_sq x y : 0 <= y -> x * x <= y * y -> x <= y.
Proof. intros H Q. destruct (Rle_dec x y) as [L|L]; [exact L|]. nra. Qed.
Lemma cauchy {X} (a b : X -> C) l : Cnorm2 (sumC (fun x => (a x * b x)%C) l) <= rsum (fun x => Cnorm2 (a x)) l * rsum (fun x => Cnorm2 (b x)) l.
Proof.
  induction l as [|x l IH]; [unfold Cnorm2; cbn; lra|]. rewrite sumC_cons, !rsum_cons.
  set (S := sumC (fun x => (a x * b x)%C) l) in *. set (A := rsum (fun x => Cnorm2 (a x)) l) in *. set (B := rsum (fun x => Cnorm2 (b x)) l) in *.
  assert (HA : 0 <= A) by (apply rsum_nonneg; intros; apply Cnorm2_nonneg). assert (HB : 0 <= B) by (apply rsum_nonneg; intros; apply Cnorm2_nonneg).
  set (p := (a x * b x)%C). assert (Hp : Cnorm2 p = Cnorm2 (a x) * Cnorm2 (b x)) by (unfold p, Cnorm2; destruct (a x), (b x); cbn; ring).
  pose proof (Cnorm2_nonneg (a x)) as Ha. pose proof (Cnorm2_nonneg (b x)) as Hb. set (u := Cnorm2 (a x)) in *. set (v := Cnorm2 (b x)) in *.
  set (r := fst p * fst S + snd p * snd S).
  assert (E : Cnorm2 (p + S)%C = u * v + Cnorm2 S + 2 * r) by (rewrite <- Hp; unfold r, Cnorm2; destruct p, S; cbn; ring). rewrite E.
  assert (Q : r * r <= (u * v) * Cnorm2 S) by (rewrite <- Hp; unfold r, Cnorm2; destruct p as [p1 p2], S as [s1 s2]; cbn [fst snd]; pose proof (Rle_0_sqr (p1 * s2 - p2 * s1)) as W; unfold Rsqr in W; nra).
  assert (2 * r <= A * v + B * u).
  { assert (Huv : 0 <= u * v) by (apply Rmult_le_pos; assumption). apply le_of_sq; [apply Rplus_le_le_0_compat; apply Rmult_le_pos; assumption|].
    assert (u * v * Cnorm2 S <= u * v * (A * B)) by (apply Rmult_le_compat_l; assumption). pose proof (Rle_0_sqr (A * v - B * u)) as W. unfold Rsqr in W. nra. }
  nra.
Qed.
Section Frob.
Context (d : list nat).
Notation X := (choices d).
Definition frob2 (A : matrix) : R := rsum (fun i => rsum (fun j => Cnorm2 (A i j)) X) X.
Lemma frob2_nonneg A : 0 <= frob2 A.
Proof. apply rsum_nonneg. intros. apply rsum_nonneg. intros. apply Cnorm2_nonneg. Qed.
Lemma frobenius_eq A : frobenius d A = sqrt (frob2 A).
Proof. unfold frobenius, frob2. f_equal. rewrite fst_sum. apply rsum_ext. intros i _. rewrite fst_sum. reflexivity. Qed.
Lemma frob_product A B : frob2 (product d A B) <= frob2 A * frob2 B.
Proof.
  unfold frob2, product. eapply Rle_trans; [apply rsum_le; intros i _; apply rsum_le; intros j _; apply cauchy|].
  assert (E : forall i, rsum (fun j => rsum (fun x => Cnorm2 (A i x)) X * rsum (fun x => Cnorm2 (B x j)) X) X = rsum (fun i => rsum (fun j => Cnorm2 (B i j)) X) X * rsum (fun x => Cnorm2 (A i x)) X).
  { intros i. rewrite rsum_scal. rewrite (rsum_swap (fun j x => Cnorm2 (B x j))). ring. }
  apply Req_le. etransitivity; [apply rsum_ext; intros i _; apply E|]. rewrite rsum_scal. apply Rmult_comm.
Qed.
Lemma frob_entry A i j : In i X -> In j X -> modulus (A i j) <= frobenius d A.
Proof.
  intros Hi Hj. rewrite frobenius_eq. unfold modulus. apply sqrt_le_1_alt. unfold frob2.
  assert (G : forall (f : list nat -> R) l x, (forall y, 0 <= f y) -> In x l -> f x <= rsum f l).
  { intros f l x P. induction l as [|y l IH]; intros []; rewrite rsum_cons; [subst; pose proof (rsum_nonneg f l (fun z _ => P z)); lra|]. specialize (IH H). specialize (P y). lra. }
  eapply Rle_trans; [apply (G (fun j => Cnorm2 (A i j)) X j); [intros; apply Cnorm2_nonneg|exact Hj]|]. apply (G (fun i => rsum (fun j => Cnorm2 (A i j)) X) X i); [intros; apply rsum_nonneg; intros; apply Cnorm2_nonneg|exact Hi].
Qed.
Lemma frob_nonneg A : 0 <= frobenius d A.
Proof. apply sqrt_pos. Qed.
Lemma frob_power A K : forall m, frobenius d (power d A (K + m)) <= frobenius d (power d A K) * frobenius d A ^ m.
Proof.
  induction m as [|m IH]; [rewrite Nat.add_0_r; cbn; lra|]. replace (K + S m)%nat with (S (K + m)) by lia. cbn [power].
  apply Rle_trans with (frobenius d (power d A (K + m)) * frobenius d A); [|cbn [pow]; pose proof (frob_nonneg A); nra].
  rewrite !frobenius_eq, <- sqrt_mult by apply frob2_nonneg. apply sqrt_le_1_alt. apply frob_product.
Qed.
Lemma frob_scal x A : frobenius d (fun i j => (RtoC x * A i j)%C) = Rabs x * frobenius d A.
Proof.
  rewrite !frobenius_eq. rewrite <- sqrt_Rsqr_abs. rewrite <- sqrt_mult; [|apply Rle_0_sqr|apply frob2_nonneg]. f_equal. unfold frob2. rewrite <- rsum_scal. apply rsum_ext. intros i _. rewrite <- rsum_scal. apply rsum_ext. intros j _. unfold Cnorm2, Rsqr. destruct (A i j). cbn. ring.
Qed.
End Frob.

(** *** Remainder *)
Lemma fact_mult K m : (fact K * fact m <= fact (K + m))%nat.
Proof.
  induction m as [|m IH]; [rewrite Nat.add_0_r; cbn; lia|]. replace (K + S m)%nat with (S (K + m)) by lia. rewrite !fact_simpl. nia.
Qed.
Lemma exp_partial x n : 0 <= x -> sum_f_R0 (fun k => / INR (fact k) * x ^ k) n <= exp x.
Proof.
  intros H. unfold exp. destruct (exist_exp x) as [l Hl]. cbn. apply (sum_incr _ n l Hl). intros k. apply Rmult_le_pos; [left; apply Rinv_0_lt_compat, INR_fact_lt_0|apply pow_le; exact H].
Qed.
Lemma sum_seq (f : nat -> C) : forall K, fst (sumC f (seq 0 (S K))) = sum_f_R0 (fun k => fst (f k)) K /\ snd (sumC f (seq 0 (S K))) = sum_f_R0 (fun k => snd (f k)) K.
Proof.
  induction K as [|K [I1 I2]]; [cbn; split; ring|]. rewrite seq_S, sumC_app, sumC_cons, sumC_nil. cbn [Nat.add sum_f_R0]. rewrite <- I1, <- I2. unfold Cadd. cbn [fst snd RtoC]. split; ring.
Qed.
Section Rest.
Context (d : list nat) (tau : R) (A : matrix).
Let x := Rabs tau * frobenius d A.
Let t (k : nat) : matrix := fun i j => (RtoC ((- tau) ^ k / INR (fact k)) * power d A k i j)%C.
Lemma x_nonneg : 0 <= x.
Proof. apply Rmult_le_pos; [apply Rabs_pos|apply frob_nonneg]. Qed.
Lemma coef_abs k : Rabs ((- tau) ^ k / INR (fact k)) = Rabs tau ^ k / INR (fact k).
Proof. unfold Rdiv. rewrite Rabs_mult, <- RPow_abs, Rabs_Ropp. f_equal. apply Rabs_pos_eq. left. apply Rinv_0_lt_compat, INR_fact_lt_0. Qed.
Lemma term_bound K m i j : In i (choices d) -> In j (choices d) -> modulus (t (K + m) i j) <= frobenius d (t K) * (/ INR (fact m) * x ^ m).
Proof.
  intros Hi Hj. unfold t. rewrite modulus_scal, frob_scal, !coef_abs. pose proof (frob_entry d (power d A (K + m)) i j Hi Hj) as E. pose proof (frob_power d A K m) as F. pose proof (frob_nonneg d (power d A K)) as N.
  assert (P1 : 0 <= Rabs tau ^ (K + m) / INR (fact (K + m))) by (apply Rmult_le_pos; [apply pow_le, Rabs_pos|left; apply Rinv_0_lt_compat, INR_fact_lt_0]).
  apply Rle_trans with (Rabs tau ^ (K + m) / INR (fact (K + m)) * (frobenius d (power d A K) * frobenius d A ^ m)); [apply Rmult_le_compat_l; [exact P1|lra]|].
  assert (I : / INR (fact (K + m)) <= / INR (fact K) * / INR (fact m)).
  { rewrite <- Rinv_mult by idtac. apply Rinv_le_contravar; [apply Rmult_lt_0_compat; apply INR_fact_lt_0|]. rewrite <- mult_INR. apply le_INR, fact_mult. }
  unfold x. rewrite Rpow_mult_distr, pow_add. unfold Rdiv.
  assert (G : 0 <= Rabs tau ^ K * Rabs tau ^ m * (frobenius d (power d A K) * frobenius d A ^ m)).
  { apply Rmult_le_pos; [apply Rmult_le_pos; apply pow_le, Rabs_pos|]. apply Rmult_le_pos; [exact N|apply pow_le, frob_nonneg]. }
  nra.
Qed.
Lemma rest_bound K n i j : In i (choices d) -> In j (choices d) -> modulus (partial_exp d tau A (K + n) i j - partial_exp d tau A K i j)%C <= frobenius d (t K) * (exp x - 1).
Proof.
  intros Hi Hj. unfold partial_exp. replace (S (K + n)) with (S K + n)%nat by lia. rewrite seq_app, sumC_app. cbn [Nat.add].
  match goal with |- modulus (?a + ?b - ?a)%C <= _ => replace (a + b - a)%C with b by ring end.
  eapply Rle_trans; [apply modulus_sum|]. eapply Rle_trans with (rsum (fun k => frobenius d (t K) * (/ INR (fact (k - K)) * x ^ (k - K))) (seq (S K) n)).
  { apply rsum_le. intros k Hk. apply in_seq in Hk. pose proof (term_bound K (k - K) i j Hi Hj) as B. replace (K + (k - K))%nat with k in B by lia. exact B. }
  rewrite rsum_scal. apply Rmult_le_compat_l; [apply frob_nonneg|].
  assert (E : 1 + rsum (fun k => / INR (fact (k - K)) * x ^ (k - K)) (seq (S K) n) = sum_f_R0 (fun k => / INR (fact k) * x ^ k) n).
  { induction n as [|n IH]; [cbn; field|]. rewrite seq_S, rsum_app, rsum_cons, rsum_nil. cbn [sum_f_R0]. rewrite <- IH. replace (S K + n - K)%nat with (S n) by lia. ring. }
  pose proof (exp_partial x n x_nonneg). lra.
Qed.
(** the limit exists *)
Lemma exp_exists : exists E, is_exp d tau A E.
Proof.
  assert (G : forall f : nat -> R, (forall k, Rabs (f k) <= frobenius d (t 0) * (/ INR (fact k) * x ^ k)) -> {l : R | Un_cv (fun n => sum_f_R0 f n) l}).
  { intros f H. apply R_complete. apply cauchy_abs. apply cv_cauchy_1. apply (Rseries_CV_comp (fun k => Rabs (f k)) (fun k => frobenius d (t 0) * (/ INR (fact k) * x ^ k))).
    - intros k. split; [apply Rabs_pos|apply H].
    - destruct (exist_exp x) as [l Hl]. exists (frobenius d (t 0) * l). unfold exp_in, infinite_sum in Hl.
      assert (C : Un_cv (fun n => sum_f_R0 (fun k => / INR (fact k) * x ^ k) n) l) by exact Hl.
      apply (CV_mult (fun _ => frobenius d (t 0)) _ (frobenius d (t 0)) l) in C; [|intros e He; exists 0%nat; intros; unfold R_dist; rewrite Rminus_diag_eq by reflexivity; rewrite Rabs_R0; exact He].
      intros e He. destruct (C e He) as [N HN]. exists N. intros n Hn. specialize (HN n Hn). rewrite scal_sum in HN. rewrite (sum_eq _ (fun k => / INR (fact k) * x ^ k * frobenius d (t 0)) n); [exact HN|]. intros; ring. }
  assert (H1 : forall i j, In i (choices d) -> In j (choices d) -> forall k, Rabs (fst (t k i j)) <= frobenius d (t 0) * (/ INR (fact k) * x ^ k)).
  { intros i j Hi Hj k. eapply Rle_trans; [apply parts_le|]. apply (term_bound 0 k); assumption. }
  assert (H2 : forall i j, In i (choices d) -> In j (choices d) -> forall k, Rabs (snd (t k i j)) <= frobenius d (t 0) * (/ INR (fact k) * x ^ k)).
  { intros i j Hi Hj k. eapply Rle_trans; [apply parts_le|]. apply (term_bound 0 k); assumption. }
  pose (dec := in_dec (list_eq_dec Nat.eq_dec)).
  exists (fun i j => match dec i (choices d), dec j (choices d) with
                     | left Hi, left Hj => (proj1_sig (G _ (H1 i j Hi Hj)), proj1_sig (G _ (H2 i j Hi Hj))) | _, _ => RtoC 0 end).
  intros i j Hi Hj. destruct (dec i (choices d)) as [Hi'|]; [|contradiction]. destruct (dec j (choices d)) as [Hj'|]; [|contradiction]. cbn [fst snd].
  destruct (G _ (H1 i j Hi' Hj')) as [l1 L1]. destruct (G _ (H2 i j Hi' Hj')) as [l2 L2]. cbn [proj1_sig]. unfold partial_exp. split.
  - intros e He. destruct (L1 e He) as [N HN]. exists N. intros n Hn. pose proof (proj1 (sum_seq (fun k => t k i j) n)) as Q. unfold t in Q at 1. rewrite Q. apply HN. exact Hn.
  - intros e He. destruct (L2 e He) as [N HN]. exists N. intros n Hn. pose proof (proj2 (sum_seq (fun k => t k i j) n)) as Q. unfold t in Q at 1. rewrite Q. apply HN. exact Hn.
Qed.
Lemma limit_bound E K i j : is_exp d tau A E -> In i (choices d) -> In j (choices d) -> modulus (partial_exp d tau A K i j - E i j)%C <= frobenius d (t K) * (exp x - 1).
Proof.
  intros HE Hi Hj. destruct (HE i j Hi Hj) as [C1 C2]. apply le_epsilon. intros e He. destruct (C1 (e / 2)) as [N1 H1]; [lra|]. destruct (C2 (e / 2)) as [N2 H2]; [lra|].
  set (n := Nat.max N1 N2). specialize (H1 (K + n)%nat ltac:(lia)). specialize (H2 (K + n)%nat ltac:(lia)). unfold R_dist in H1, H2. set (S := partial_exp d tau A (K + n) i j) in *.
  replace (partial_exp d tau A K i j - E i j)%C with (- (S - partial_exp d tau A K i j) + (S - E i j))%C by ring. eapply Rle_trans; [apply modulus_triangle|]. apply Rplus_le_compat.
  - replace (modulus (- (S - partial_exp d tau A K i j))%C) with (modulus (S - partial_exp d tau A K i j)%C) by (unfold modulus, Cnorm2; f_equal; destruct (S - partial_exp d tau A K i j)%C; cbn; ring). apply rest_bound; assumption.
  - eapply Rle_trans; [apply modulus_parts|]. unfold Csub, Cadd, Copp. cbn [fst snd]. unfold Rminus in H1, H2. lra.
Qed.
Lemma first_bound K : frobenius d (t K) <= frobenius d (power d A 0) * (/ INR (fact K) * x ^ K).
Proof.
  unfold t. rewrite frob_scal, coef_abs. pose proof (frob_power d A 0 K) as F. cbn [Nat.add] in F. unfold x. rewrite Rpow_mult_distr. unfold Rdiv.
  assert (0 <= Rabs tau ^ K * / INR (fact K)) by (apply Rmult_le_pos; [apply pow_le, Rabs_pos|left; apply Rinv_0_lt_compat, INR_fact_lt_0]).
  apply Rle_trans with (Rabs tau ^ K * / INR (fact K) * (frobenius d (power d A 0) * frobenius d A ^ K)); [apply Rmult_le_compat_l; assumption|]. apply Req_le. ring.
Qed.
End Rest.
Lemma choices_app d d' f : sumC f (choices (d ++ d')) = sumC (fun i => sumC (fun j => f (i ++ j)) (choices d')) (choices d).
Proof.
  revert f. induction d as [|a d IH]; intros f; [cbn [app choices]; rewrite sumC_cons, sumC_nil; cbn [app]; change (fun j : list nat => f j) with f; ring|]. cbn [app choices]. rewrite !sumC_flat_map. apply sumC_ext. intros i _. rewrite !sumC_map. rewrite IH. reflexivity.
Qed.
Lemma term_norm d tau ham T K : is_term tau d ham T K -> tnorm T = frobenius d (fun i j => (RtoC ((- tau) ^ K / INR (fact K)) * power d (matrix_of ham) K i j)%C).
Proof.
  intros [S E]. unfold tnorm, frobenius. f_equal. f_equal. rewrite S, nsum_choices, choices_app. apply sumC_ext. intros i Hi. apply sumC_ext. intros j Hj. rewrite E by assumption. reflexivity.
Qed.
(** the gate is close to the exponential *)
Theorem gate_close eps tau d ham E : 0 <= eps -> shape ham = zip d d -> is_exp d tau (matrix_of ham) E ->
  let x := Rabs tau * frobenius d (matrix_of ham) in
  forall i j, In i (choices d) -> In j (choices d) ->
  modulus (entry (taylor_exp eps tau ham) (i ++ j) - E i j)%C <= Rmax eps (frobenius d (power d (matrix_of ham) 0) * (/ INR (fact 999) * x ^ 999)) * (exp x - 1).
Proof.
  intros He S HE x i j Hi Hj. destruct (taylor_ok eps tau d ham S) as (K & HK & _ & T & Q). rewrite T by assumption. eapply Rle_trans; [apply limit_bound; assumption|]. fold x.
  assert (0 <= exp x - 1) by (assert (0 <= x) by (apply (x_nonneg d tau (matrix_of ham))); pose proof (exp_ineq1_le x); lra).
  apply Rmult_le_compat_r; [assumption|]. destruct Q as [->|(T' & HT & L)]; [eapply Rle_trans; [|apply Rmax_r]; apply first_bound|]. eapply Rle_trans; [|apply Rmax_l]. rewrite <- (term_norm _ _ _ _ _ HT). lra.
Qed.
