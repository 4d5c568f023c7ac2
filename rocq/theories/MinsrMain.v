(** The MinSR direction solves the stochastic-reconfiguration equation. *)
From Coq Require Import List Arith Bool Reals Lia Lra FunctionalExtensionality.
From Verif Require Import Base Cplx Rsum OptModel OptProofs LbModel CgModel CgSpec CgProofs ExactProofs SrProofs MinsrModel MinsrSpec MinsrProofs.
Import ListNotations.
Local Open Scope R_scope.

Lemma conj_sum {X} (f : X -> C) l : Cconj (sumC f l) = sumC (fun x => Cconj (f x)) l.
Proof. induction l as [|a l IH]; [apply Cconj_R|]. now rewrite !sumC_cons, Cconj_add, IH. Qed.
Lemma sum_scal_r {X} (f : X -> C) c l : sumC (fun x => (f x * c)%C) l = (sumC f l * c)%C.
Proof. induction l as [|a l IH]; rewrite ?sumC_cons; [rewrite ?sumC_nil; ring|]. rewrite IH. ring. Qed.
Lemma sum_pick (f : nat -> C) k n : (k < n)%nat -> sumC (fun l => ((if (k =? l)%nat then RtoC 1 else RtoC 0) * f l)%C) (seq 0 n) = f k.
Proof.
  intros H. induction n as [|n IH]; [lia|]. rewrite seq_S, sumC_app, sumC_cons, sumC_nil. cbn [Nat.add]. destruct (Nat.eqb_spec k n) as [->|N].
  - rewrite sumC_zero; [ring|]. intros l Hl. apply in_seq in Hl. destruct (Nat.eqb_spec n l); [lia|ring].
  - rewrite IH by lia. ring.
Qed.

Lemma sum_at (l : list vec) c : sumC (fun i => nth i l vzero c) (seq 0 (length l)) = sumC (fun o => o c) l.
Proof. symmetry. apply (sum_nth (fun o => o c) l vzero). Qed.
Lemma sum_es (l : list C) : sumC (fun i => nth i l (RtoC 0)) (seq 0 (length l)) = sumC (fun x => x) l.
Proof. symmetry. apply (sum_nth (fun x => x) l (RtoC 0)). Qed.
Lemma minus_zero (a b : C) : (a + Copp (RtoC 1) * b)%C = RtoC 0 -> a = b.
Proof. intros K. apply C_ext; apply (f_equal fst) in K as K1; apply (f_equal snd) in K as K2; unfold Cadd, Cmul, Copp, RtoC in K1, K2; simpl in K1, K2; lra. Qed.
Section M.
Variables (dim : nat) (os : list vec).
Hypothesis Ho : os <> [].
Notation dot := (vdot dim).
Notation n := (length os).
Notation T := (centred_gram dim os).
Notation dev := (deviation os).
Notation comb := (combination os).
Lemma gram_hermitian i j : T i j = Cconj (T j i).
Proof. unfold centred_gram. rewrite Cconj_mul, Cconj_R, <- dot_conj. reflexivity. Qed.
Lemma dev_zero c : sumC (fun j => dev j c) (seq 0 n) = RtoC 0.
Proof.
  unfold deviation, vsub. rewrite (sumC_ext _ (fun j => nth j os vzero c + Copp (mean_of os c))%C) by (intros; unfold Csub; reflexivity). rewrite sumC_add, sumC_const, seq_length.
  rewrite sum_at. unfold mean_of. pose proof (len_inv os Ho) as L.
  replace (RtoC (INR n) * Copp (RtoC (/ INR n) * sumC (fun o => o c) os))%C with (Copp (RtoC (INR n) * RtoC (/ INR n) * sumC (fun o => o c) os))%C by ring. rewrite L. ring.
Qed.
Lemma dot_comb u y : dot u (comb y) = sumC (fun j => y j * dot u (dev j))%C (seq 0 n).
Proof. unfold combination. rewrite (dot_sum_r dim (fun j => vscale (y j) (dev j))). apply sumC_ext. intros j _. apply dot_scale_r. Qed.
Lemma gram_constant i : sumC (T i) (seq 0 n) = RtoC 0.
Proof.
  unfold centred_gram. rewrite sumC_scal. replace (sumC (fun x => dot (dev i) (dev x)) (seq 0 n)) with (RtoC 0); [ring|].
  rewrite <- (dot_sum_r dim dev). symmetry. apply dot_zero_r. intros c _. apply dev_zero.
Qed.
Lemma gram_form x y : sumC (fun i => Cconj (x i) * sumC (fun j => T i j * y j) (seq 0 n))%C (seq 0 n) = (RtoC (/ INR n) * dot (comb x) (comb y))%C.
Proof.
  rewrite dot_conj, dot_comb, conj_sum, <- sumC_scal. apply sumC_ext. intros i _. rewrite Cconj_mul, <- dot_conj, dot_comb.
  replace (RtoC (/ INR n) * (Cconj (x i) * sumC (fun j => y j * dot (dev i) (dev j)) (seq 0 n)))%C with (Cconj (x i) * (RtoC (/ INR n) * sumC (fun j => y j * dot (dev i) (dev j)) (seq 0 n)))%C by ring. f_equal.
  rewrite <- sumC_scal. apply sumC_ext. intros j _. unfold centred_gram. ring.
Qed.
Lemma gram_nonneg x : let q := sumC (fun i => Cconj (x i) * sumC (fun j => T i j * x j) (seq 0 n))%C (seq 0 n) in snd q = 0 /\ 0 <= fst q.
Proof.
  cbv zeta. rewrite gram_form, dot_self, <- RtoC_mul. cbn. split; [reflexivity|]. apply Rmult_le_pos; [|apply nsq_nonneg]. left. apply Rinv_0_lt_compat, lt_0_INR. destruct os; [congruence|cbn; lia].
Qed.
Lemma gram_kernel x : (forall i, (i < n)%nat -> sumC (fun j => T i j * x j)%C (seq 0 n) = RtoC 0) -> veq dim (comb x) vzero.
Proof.
  intros H. apply nsq_zero. pose proof (gram_form x x) as F. rewrite sumC_zero, dot_self, <- RtoC_mul in F.
  - apply (f_equal fst) in F. cbn in F. symmetry in F. apply Rmult_integral in F. destruct F as [F|F]; [|exact F]. exfalso. apply Rinv_neq_0_compat in F; [exact F|]. apply not_0_INR. destruct os; [congruence|discriminate].
  - intros i Hi. apply in_seq in Hi. rewrite H by lia. ring.
Qed.
Lemma cov_comb y c : covariance dim os (RtoC 0) (comb y) c = comb (fun i => sumC (fun j => T i j * y j)%C (seq 0 n)) c.
Proof.
  unfold covariance. rewrite (sum_nth _ os vzero). unfold combination at 3. replace (RtoC 0 * comb y c)%C with (RtoC 0) by ring.
  transitivity (RtoC (/ INR n) * sumC (fun i => dot (dev i) (comb y) * dev i c) (seq 0 n))%C; [unfold deviation; ring|]. rewrite <- sumC_scal. apply sumC_ext. intros i _. rewrite dot_comb.
  replace (RtoC (/ INR n) * (sumC (fun j => y j * dot (dev i) (dev j)) (seq 0 n) * dev i c))%C with (RtoC (/ INR n) * sumC (fun j => y j * dot (dev i) (dev j)) (seq 0 n) * dev i c)%C by ring. f_equal. rewrite <- sumC_scal. apply sumC_ext. intros j _. unfold centred_gram. ring.
Qed.

(** *** The solution through the eigensystem *)
Variables (z : nat -> nat -> C) (lam plus : list R).
Hypothesis He : eigensystem n T z lam.
Section E.
Variable eps : nat -> C.
Let coef k := sumC (fun j => Cconj (z j k) * eps j)%C (seq 0 n).
Let y := apply_pinv n z plus eps.
Lemma back k : (k < n)%nat -> sumC (fun j => Cconj (z j k) * y j)%C (seq 0 n) = (RtoC (nth k plus 0%R) * coef k)%C.
Proof.
  intros Hk. destruct He as (_ & Or & _). unfold y, apply_pinv.
  rewrite (sumC_ext _ (fun j => sumC (fun l => Cconj (z j k) * z j l * (RtoC (nth l plus 0%R) * coef l)) (seq 0 n))%C).
  2:{ intros j _. rewrite <- sumC_scal. apply sumC_ext. intros l _. unfold coef. ring. }
  rewrite sumC_swap. rewrite (sumC_ext _ (fun l => (if (k =? l)%nat then RtoC 1 else RtoC 0) * (RtoC (nth l plus 0%R) * coef l))%C).
  2:{ intros l Hl. apply in_seq in Hl. rewrite sum_scal_r, Or by lia. reflexivity. }
  now rewrite (sum_pick (fun l => (RtoC (nth l plus 0%R) * coef l)%C)).
Qed.
Lemma apply_t (x : nat -> C) i : (i < n)%nat -> sumC (fun j => T i j * x j)%C (seq 0 n) = sumC (fun k => z i k * (RtoC (nth k lam 0%R) * sumC (fun j => Cconj (z j k) * x j) (seq 0 n)))%C (seq 0 n).
Proof.
  intros Hi. destruct He as (_ & _ & De). rewrite (sumC_ext _ (fun j => sumC (fun k => z i k * (RtoC (nth k lam 0%R) * (Cconj (z j k) * x j))) (seq 0 n))%C).
  2:{ intros j Hj. apply in_seq in Hj. rewrite De by lia. rewrite <- sum_scal_r. apply sumC_ext. intros k _. ring. }
  rewrite sumC_swap. apply sumC_ext. intros k _. rewrite !sumC_scal. reflexivity.
Qed.
Lemma apply_ty i : (i < n)%nat -> sumC (fun j => T i j * y j)%C (seq 0 n) = sumC (fun k => z i k * (RtoC (nth k lam 0%R * nth k plus 0%R) * coef k))%C (seq 0 n).
Proof. intros Hi. rewrite apply_t by exact Hi. apply sumC_ext. intros k Hk. apply in_seq in Hk. rewrite back by lia. rewrite RtoC_mul. ring. Qed.
Lemma coef_sum (w : nat -> C) k : (k < n)%nat -> sumC (fun j => Cconj (z j k) * sumC (fun l => z j l * w l) (seq 0 n))%C (seq 0 n) = w k.
Proof.
  intros Hk. destruct He as (_ & Or & _). rewrite (sumC_ext _ (fun j => sumC (fun l => Cconj (z j k) * z j l * w l) (seq 0 n))%C).
  2:{ intros j _. rewrite <- sumC_scal. apply sumC_ext. intros l _. ring. }
  rewrite sumC_swap. rewrite (sumC_ext _ (fun l => (if (k =? l)%nat then RtoC 1 else RtoC 0) * w l)%C).
  2:{ intros l Hl. apply in_seq in Hl. rewrite sum_scal_r, Or by lia. reflexivity. }
  now rewrite sum_pick.
Qed.
(** If no non-zero eigenvalue is cut off, the equation is solved exactly. *)
Lemma solved : (forall k, (k < n)%nat -> nth k lam 0 <> 0 -> nth k plus 0 = / nth k lam 0) -> veq dim (covariance dim os (RtoC 0) (comb y)) (comb eps).
Proof.
  intros Hp. set (d := fun i => (sumC (fun j => T i j * y j)%C (seq 0 n) - eps i)%C).
  assert (K : veq dim (comb d) vzero).
  { apply gram_kernel. intros i Hi. rewrite apply_t by exact Hi. apply sumC_zero. intros k Hk. apply in_seq in Hk. unfold d.
    rewrite (sumC_ext _ (fun j => Cconj (z j k) * sumC (fun j' => T j j' * y j') (seq 0 n) + Copp (RtoC 1) * (Cconj (z j k) * eps j))%C) by (intros; unfold Csub; ring).
    rewrite sumC_add, sumC_scal. fold (coef k).
    rewrite (sumC_ext _ (fun j => Cconj (z j k) * sumC (fun l => z j l * (RtoC (nth l lam 0%R * nth l plus 0%R) * coef l)) (seq 0 n))%C) by (intros j Hj; apply in_seq in Hj; rewrite apply_ty by lia; reflexivity).
    rewrite coef_sum by lia. destruct (Req_EM_T (nth k lam 0) 0) as [E|N].
    - rewrite E. apply C_ext; unfold Cadd, Cmul, Copp, RtoC; simpl; ring.
    - rewrite Hp, Rinv_r by (try lia; assumption). apply C_ext; unfold Cadd, Cmul, Copp, RtoC; simpl; ring. }
  intros c Hc. rewrite cov_comb. specialize (K c Hc). unfold combination, d, vzero in K.
  rewrite (sumC_ext _ (fun j => sumC (fun j0 => T j j0 * y j0) (seq 0 n) * dev j c + Copp (RtoC 1) * (eps j * dev j c))%C) in K by (intros; unfold Csub; ring).
  rewrite sumC_add, sumC_scal in K. unfold combination. apply minus_zero, K.
Qed.
(** Whatever is cut off, the direction does not point against the gradient. *)
Lemma downhill : (forall k, (k < n)%nat -> 0 <= nth k lam 0 * nth k plus 0) -> snd (dot (comb eps) (comb y)) = 0 /\ 0 <= fst (dot (comb eps) (comb y)).
Proof.
  intros Hp. assert (Nn : INR n <> 0) by (apply not_0_INR; destruct os; [congruence|discriminate]).
  assert (F : dot (comb eps) (comb y) = (RtoC (INR n) * RtoC (rsum (fun k => nth k lam 0 * nth k plus 0 * Cnorm2 (coef k))%R (seq 0 n)))%C).
  { transitivity (RtoC (INR n) * (RtoC (/ INR n) * dot (comb eps) (comb y)))%C; [transitivity (RtoC (INR n) * RtoC (/ INR n) * dot (comb eps) (comb y))%C; [rewrite (len_inv os Ho); ring|ring]|]. f_equal.
    rewrite <- gram_form. rewrite (sumC_ext _ (fun i => sumC (fun k => Cconj (eps i) * z i k * (RtoC (nth k lam 0%R * nth k plus 0%R) * coef k)) (seq 0 n))%C).
    2:{ intros i Hi. apply in_seq in Hi. rewrite apply_ty by lia. rewrite <- sumC_scal. apply sumC_ext. intros k _. ring. }
    rewrite sumC_swap. rewrite (sumC_ext _ (fun k => RtoC (nth k lam 0 * nth k plus 0 * Cnorm2 (coef k))%R)).
    - generalize (seq 0 n). induction l as [|a l IH]; [reflexivity|]. rewrite sumC_cons, rsum_cons, RtoC_add, IH. reflexivity.
    - intros k _. rewrite sum_scal_r. replace (sumC (fun x => (Cconj (eps x) * z x k)%C) (seq 0 n)) with (Cconj (coef k)).
      + apply C_ext; unfold Cmul, Cconj, Cnorm2, RtoC; simpl; ring.
      + unfold coef. rewrite conj_sum. apply sumC_ext. intros i _. rewrite Cconj_mul, Cconj_invol. ring. }
  rewrite F, <- RtoC_mul. cbn. split; [reflexivity|]. apply Rmult_le_pos; [apply pos_INR|]. apply rsum_nonneg. intros k Hk. apply in_seq in Hk. apply Rmult_le_pos; [apply Hp; lia|apply Cnorm2_nonneg].
Qed.
End E.
End M.

(** *** The filter *)
Lemma lambda_max_bound l : 0 <= lambda_max l /\ forall x, In x l -> Rabs x <= lambda_max l.
Proof.
  unfold lambda_max. assert (K : forall l m, m <= fold_left (fun m x => Rmax m (Rabs x)) l m /\ forall x, In x l -> Rabs x <= fold_left (fun m x => Rmax m (Rabs x)) l m).
  { clear. induction l as [|a l IH]; intros m; cbn [fold_left]; [split; [lra|intros x []]|]. destruct (IH (Rmax m (Rabs a))) as (H1 & H2). pose proof (Rmax_l m (Rabs a)). pose proof (Rmax_r m (Rabs a)). split; [lra|]. intros x [<-|Hx]; [lra|auto]. }
  apply K.
Qed.
Lemma pinv_length r a soft l : length (pinv r a soft l) = length l.
Proof. unfold pinv. destruct soft; apply map_length. Qed.
Lemma sixth x : 0 <= x * x * (x * x) * x * x.
Proof. replace (x * x * (x * x) * x * x) with ((x * x * x) * (x * x * x)) by ring. nra. Qed.
Theorem pinv_filter r a soft l k : 0 <= r -> 0 <= a -> (k < length l)%nat ->
  let lam := nth k l 0 in let plus := nth k (pinv r a soft l) 0 in let cutoff := r * lambda_max l + a in
  0 <= lam * plus <= 1 /\ (lam = 0 -> plus = 0) /\ (soft = false -> (cutoff < Rabs lam -> plus = / lam) /\ (Rabs lam <= cutoff -> plus = 0)) /\
  (soft = true -> 0 < cutoff -> plus * (lam ^ 6 + cutoff ^ 6) = lam ^ 5).
Proof.
  intros Hr Ha Hk lam plus cutoff. assert (Hc : 0 <= cutoff) by (unfold cutoff; destruct (lambda_max_bound l) as (H & _); nra).
  unfold plus, pinv. fold cutoff. destruct soft.
  - set (c6 := cutoff * cutoff * cutoff * cutoff * cutoff * cutoff). set (f := fun lam => if Req_EM_T _ 0 then 0 else _).
    rewrite (nth_indep _ 0 (f 0)) by (rewrite map_length; exact Hk). rewrite (map_nth f l 0 k). fold lam. unfold f. clear f.
    assert (S1 : 0 <= lam * lam * (lam * lam) * lam * lam) by apply sixth. assert (S2 : 0 <= c6) by (unfold c6; replace (cutoff * cutoff * cutoff * cutoff * cutoff * cutoff) with (cutoff * cutoff * (cutoff * cutoff) * cutoff * cutoff) by ring; apply sixth).
    destruct (Req_EM_T (lam * lam * (lam * lam) * lam * lam + c6) 0) as [E|N].
    + split; [lra|]. split; [reflexivity|]. split; [discriminate|]. intros _ Hp. exfalso. assert (0 < c6); [|lra]. unfold c6. repeat apply Rmult_lt_0_compat; exact Hp.
    + set (D := lam * lam * (lam * lam) * lam * lam + c6) in *. assert (0 < D) by (unfold D in *; lra). split; [|split; [|split]].
      * replace (lam * (lam * lam * (lam * lam) * lam / D)) with (lam * lam * (lam * lam) * lam * lam / D) by (field; lra). split; [apply Rmult_le_pos; [exact S1|left; now apply Rinv_0_lt_compat]|]. apply (Rmult_le_reg_r D); [assumption|]. unfold Rdiv. rewrite Rmult_assoc, Rinv_l by lra. unfold D. lra.
      * intros ->. unfold Rdiv. ring.
      * discriminate.
      * intros _ _. unfold D, c6. field. unfold D, c6 in N. exact N.
  - set (f := fun lam => if rlt cutoff (Rabs lam) then _ else 0). rewrite (nth_indep _ 0 (f 0)) by (rewrite map_length; exact Hk). rewrite (map_nth f l 0 k). fold lam. unfold f. clear f.
    destruct (rlt cutoff (Rabs lam)) eqn:B; [apply rlt_true in B|apply rlt_false in B].
    + assert (Hz : lam <> 0) by (intros E; rewrite E, Rabs_R0 in B; lra). split; [|split; [congruence|split; [intros _; split; [intros _; field; exact Hz|lra]|discriminate]]]. replace (lam * (1 / lam)) with 1 by (field; exact Hz). lra.
    + split; [lra|]. split; [reflexivity|]. split; [intros _; split; [lra|reflexivity]|discriminate].
Qed.

(** *** Back-substitution and the gradient *)
Section D.
Variables (s : nat) (ranks : list (list vec)).
Hypothesis Hs : (0 < s)%nat.
Hypothesis Hl : forall l, In l ranks -> length l = s.
Let os := concat ranks.
Lemma local_y_sum r y : local_y s r y = sumC (fun i => y (r * s + i)%nat) (seq 0 s).
Proof.
  unfold local_y. assert (K : forall l acc, fold_left (fun acc i => (acc + y (r * s + i)%nat)%C) l acc = (acc + sumC (fun i => y (r * s + i)%nat) l)%C).
  { induction l as [|a l IH]; intros acc; cbn [fold_left]; [rewrite sumC_nil; ring|]. rewrite IH, sumC_cons. ring. } rewrite K. ring.
Qed.
Lemma local_sum_value r own y c : local_sum s r own y c = sumC (fun i => y (r * s + i)%nat * nth i own vzero c)%C (seq 0 s).
Proof.
  unfold local_sum. assert (K : forall l acc, fold_left (fun acc i => vadd acc (vscale (y (r * s + i)%nat) (nth i own vzero))) l acc c = (acc c + sumC (fun i => y (r * s + i)%nat * nth i own vzero c)%C l)%C).
  { induction l as [|a l IH]; intros acc; cbn [fold_left]; [rewrite sumC_nil; ring|]. rewrite IH, sumC_cons. unfold vadd, vscale. ring. } rewrite K. unfold vzero at 1. ring.
Qed.
Lemma sum_blocks (f : nat -> C) P : sumC f (seq 0 (P * s)) = sumC (fun r => sumC (fun i => f (r * s + i)%nat) (seq 0 s)) (seq 0 P).
Proof.
  induction P as [|P IH]; [reflexivity|]. rewrite (seq_S P), sumC_app, sumC_cons, sumC_nil, <- IH. replace (S P * s)%nat with (P * s + s)%nat by lia. rewrite seq_app, sumC_app. cbn [Nat.add].
  replace (seq (P * s) s) with (map (fun i => (P * s + i)%nat) (seq 0 s)); [rewrite sumC_map; ring|]. clear. generalize (P * s)%nat. intros a.
  assert (K : forall n b, map (fun i => (a + i)%nat) (seq b n) = seq (a + b) n) by (induction n as [|n IH]; intros b; [reflexivity|]; cbn [seq map]; rewrite IH; f_equal; f_equal; lia). rewrite K. f_equal. lia.
Qed.
Lemma direction_value y c : minsr_direction s ranks (mean_of os) y c = combination os y c.
Proof.
  unfold minsr_direction, combination. unfold vadd at 1, vscale at 1. rewrite fold_vadd, sumC_map. unfold os. rewrite (concat_length ranks s Hl). unfold deviation, vsub.
  rewrite (sumC_ext (fun j => y j * (nth j (concat ranks) vzero c - mean_of (concat ranks) c))%C (fun j => y j * nth j (concat ranks) vzero c + y j * Copp (mean_of (concat ranks) c))%C) by (intros; unfold Csub; ring). rewrite sumC_add, sum_scal_r, !sum_blocks.
  rewrite (sumC_ext (fun r => local_y s r y) (fun r => sumC (fun i => y (r * s + i)%nat) (seq 0 s))) by (intros; apply local_y_sum).
  rewrite (sumC_ext (fun r => local_sum s r (nth r ranks []) y c) (fun r => sumC (fun i => y (r * s + i)%nat * nth (r * s + i) (concat ranks) vzero c)%C (seq 0 s))); [unfold vzero at 1; ring|].
  intros r Hr. apply in_seq in Hr. rewrite local_sum_value. apply sumC_ext. intros i Hi. apply in_seq in Hi. f_equal. rewrite (nth_concat ranks s vzero Hl) by nia.
  replace (r * s + i)%nat with (i + r * s)%nat by lia. rewrite Nat.mod_add, Nat.div_add, Nat.mod_small, Nat.div_small by lia. reflexivity.
Qed.
End D.
Lemma gradient_value os es e c : os <> [] -> length es = length os -> e = (RtoC (/ INR (length os)) * sumC (fun x => x) es)%C ->
  combination os (epsilon_bar es e (length os)) c = energy_gradient os es e c.
Proof.
  intros Ho Le Ee. unfold combination, energy_gradient, epsilon_bar. assert (Ni : Cinv (RtoC (INR (length os))) = RtoC (/ INR (length os))) by (apply Cinv_unique, len_inv, Ho).
  set (n := length os) in *. set (N := RtoC (/ INR n)) in *.
  rewrite (sumC_ext _ (fun j => N * (Cconj (nth j es (RtoC 0)) * nth j os vzero c) + (Copp (N * Cconj e) * nth j os vzero c + Copp (N * mean_of os c) * Cconj (nth j es (RtoC 0) - e)))%C).
  - rewrite !sumC_add, !sumC_scal. fold n. replace (sumC (fun x => nth x os vzero c) (seq 0 n)) with (RtoC (INR n) * mean_of os c)%C.
    + assert (Z : sumC (fun x => Cconj (nth x es (RtoC 0) - e)) (seq 0 n) = RtoC 0).
      { rewrite <- conj_sum. replace (sumC (fun x => (nth x es (RtoC 0) - e)%C) (seq 0 n)) with (RtoC 0); [apply Cconj_R|]. unfold Csub. rewrite sumC_add, sumC_const, seq_length. rewrite <- Le. rewrite sum_es. rewrite Ee. rewrite Le.
        replace (RtoC (INR n) * Copp (N * sumC (fun x => x) es))%C with (Copp (RtoC (INR n) * N * sumC (fun x => x) es))%C by ring. unfold N, n. rewrite (len_inv os Ho). ring. }
      rewrite Z. replace (Copp (N * Cconj e) * (RtoC (INR n) * mean_of os c))%C with (Copp (RtoC (INR n) * N * (Cconj e * mean_of os c)))%C by ring. unfold N at 2, n at 2 3. rewrite (len_inv os Ho). unfold Csub. ring.
    + unfold mean_of. fold n. rewrite sum_at. fold N. replace (RtoC (INR n) * (N * sumC (fun o => o c) os))%C with (RtoC (INR n) * N * sumC (fun o => o c) os)%C by ring. unfold N, n. rewrite (len_inv os Ho). ring.
  - intros j _. unfold deviation, vsub, Cdiv. fold n. rewrite Ni. unfold Csub. rewrite Cconj_add. replace (Cconj (Copp e)) with (Copp (Cconj e)) by (apply C_ext; reflexivity). ring.
Qed.

(** *** Everything together *)
Lemma t_matrix_ext dim s ranks log log' i j : (forall r, (r < length ranks)%nat -> log r = log' r) -> t_matrix dim s ranks log i j = t_matrix dim s ranks log' i j.
Proof.
  intros H. unfold t_matrix. f_equal. unfold t_rows. rewrite !flat_map_concat_map. f_equal. apply map_ext_in. intros r Hr. apply in_seq in Hr. rewrite H by lia. reflexivity.
Qed.
Section Run.
Variables (dim s : nat) (ranks : list (list vec)).
Hypothesis Hr : ranks <> [].
Hypothesis Hs : (0 < s)%nat.
Hypothesis Hl : forall l, In l ranks -> length l = s.
Variables (c : ring vec) (log : nat -> list (list vec)).
Hypothesis Hc : rsteps (length ranks) (ring_start (length ranks) s (fun r => nth r ranks [])) c.
Hypothesis Hd : forall r, (r < length ranks)%nat -> r_act c r = ADone (log r).
Notation os := (concat ranks).
Lemma run_matrix i j : (i < length os)%nat -> (j < length os)%nat -> t_matrix dim s ranks log i j = centred_gram dim os i j.
Proof.
  intros Hi Hj. rewrite <- (t_value dim s ranks Hs Hl Hr i j Hi Hj). apply t_matrix_ext. intros r Hr'.
  assert (Ho : forall r, (r < length ranks)%nat -> length (nth r ranks []) = s) by (intros; now apply rank_len).
  destruct (RingMain.ring_correct (length ranks) s (fun r => nth r ranks []) Ho) as (_ & R). destruct (R c Hc) as (_ & R2). rewrite (R2 r (log r) Hr' (Hd r Hr')). reflexivity.
Qed.
Lemma os_nonempty : os <> [].
Proof. intros E. pose proof (os_pos s ranks Hs Hl Hr) as H. rewrite E in H. cbn in H. lia. Qed.
Variables (z : nat -> nat -> C) (lam : list R).
Hypothesis He : eigensystem (length os) (t_matrix dim s ranks log) z lam.
Lemma run_eigen : eigensystem (length os) (centred_gram dim os) z lam.
Proof. destruct He as (E1 & E2 & E3). split; [exact E1|]. split; [exact E2|]. intros i j Hi Hj. rewrite <- run_matrix by assumption. now apply E3. Qed.
Variables (es : list C) (r_pinv a_pinv : R) (soft : bool).
Hypothesis Hn : length es = length os.
Hypothesis Hrp : 0 <= r_pinv.
Hypothesis Hap : 0 <= a_pinv.
Let e := (RtoC (/ INR (length os)) * sumC (fun x => x) es)%C.
Let y := apply_pinv (length os) z (pinv r_pinv a_pinv soft lam) (epsilon_bar es e (length os)).
Lemma cov_ext dim' os' v w : (forall c, v c = w c) -> covariance dim' os' (RtoC 0) v = covariance dim' os' (RtoC 0) w.
Proof. intros H. replace v with w; [reflexivity|]. apply functional_extensionality. intros. now rewrite H. Qed.
Lemma run_solved : soft = false -> (forall x, In x lam -> x <> 0 -> r_pinv * lambda_max lam + a_pinv < Rabs x) ->
  veq dim (covariance dim os (RtoC 0) (minsr_direction s ranks (mean_of os) y)) (energy_gradient os es e).
Proof.
  intros Hh Hcut k Hk. rewrite (cov_ext dim os _ (combination os y)) by (intros; now apply direction_value).
  rewrite <- (gradient_value os es e k os_nonempty Hn eq_refl). pose proof run_eigen as E. apply (solved dim os os_nonempty z lam _ E); [|exact Hk].
  intros q Hq Hz. destruct E as (El & _). destruct (pinv_filter r_pinv a_pinv soft lam q Hrp Hap ltac:(lia)) as (_ & _ & F & _). destruct (F Hh) as (F1 & _). rewrite F1; [reflexivity|]. apply Hcut; [apply nth_In; lia|exact Hz].
Qed.
Lemma run_downhill : 0 <= fst (vdot dim (energy_gradient os es e) (minsr_direction s ranks (mean_of os) y)).
Proof.
  pose proof run_eigen as E. rewrite (dot_ext dim _ (combination os (epsilon_bar es e (length os))) _ (combination os y)).
  - apply (downhill dim os os_nonempty z lam _ E). intros q Hq. destruct E as (El & _). destruct (pinv_filter r_pinv a_pinv soft lam q Hrp Hap ltac:(lia)) as (F & _). apply F.
  - intros k _. symmetry. apply gradient_value; [apply os_nonempty|exact Hn|reflexivity].
  - intros k _. now apply direction_value.
Qed.
End Run.
