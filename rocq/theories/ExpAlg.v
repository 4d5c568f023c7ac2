(** The tensors of the series are the terms of the exponential series. *)
From Coq Require Import List Arith Bool Reals Lia Lra.
From Verif Require Import Base Cplx SumModel SumSpec TrgTensor BmpsMain ProjModel ProjSpec ExpModel ExpSpec.
Import ListNotations.
Local Open Scope nat_scope.

Lemma nsum_choices ds : forall f, nsum ds f = sumC f (choices ds).
Proof.
  induction ds as [|d ds IH]; intros f; cbn [nsum choices]; [cbn; ring|]. rewrite sumC_flat_map. apply sumC_ext. intros i _. rewrite IH, sumC_map. reflexivity.
Qed.
Lemma choices_in ds : forall l, In l (choices ds) <-> Forall2 lt l ds.
Proof.
  induction ds as [|d ds IH]; intros l; cbn [choices].
  - split; [intros [<-|[]]; constructor|]. intros H. inversion H. left. reflexivity.
  - rewrite in_flat_map. split.
    + intros (i & Hi & Hl). apply in_seq in Hi. apply in_map_iff in Hl. destruct Hl as (t & <- & Ht). constructor; [lia|apply IH; exact Ht].
    + intros H. inversion H as [|i d' t ds' Hi Ht E1 E2]; subst. exists i. split; [apply in_seq; lia|]. apply in_map. apply IH. exact Ht.
Qed.
Lemma choices_length ds l : In l (choices ds) -> length l = length ds.
Proof. intros H. apply choices_in in H. induction H; cbn; congruence. Qed.
Lemma coors_choices ds : all_coors ds = choices ds.
Proof. induction ds as [|d ds IH]; [reflexivity|]. cbn [all_coors choices]. rewrite IH. reflexivity. Qed.
Lemma choices_pick ds : forall (f : list nat -> C) i, In i (choices ds) -> sumC (fun l => ((if list_eq_dec Nat.eq_dec i l then RtoC 1 else RtoC 0) * f l)%C) (choices ds) = f i.
Proof.
  induction ds as [|d ds IH]; intros f i H; cbn [choices].
  - destruct H as [<-|[]]. rewrite sumC_cons. destruct (list_eq_dec Nat.eq_dec [] []); [|contradiction]. cbn. ring.
  - apply choices_in in H. inversion H as [|a d' t ds' Ha Ht E1 E2]; subst. rewrite sumC_flat_map.
    transitivity (sumC (fun z => (f (z :: t) * (if z =? a then RtoC 1 else RtoC 0))%C) (seq 0 d)); [|apply (sumC_pick (fun z => f (z :: t))); exact Ha].
    apply sumC_ext. intros z _. rewrite sumC_map. destruct (Nat.eqb_spec z a) as [->|N].
    + transitivity (sumC (fun l => ((if list_eq_dec Nat.eq_dec t l then RtoC 1 else RtoC 0) * f (a :: l))%C) (choices ds)).
      * apply sumC_ext. intros l _. destruct (list_eq_dec Nat.eq_dec (a :: t) (a :: l)), (list_eq_dec Nat.eq_dec t l); try congruence; reflexivity.
      * rewrite (IH (fun l => f (a :: l)) t) by (apply choices_in; exact Ht). ring.
    + rewrite sumC_zero; [ring|]. intros l _. destruct (list_eq_dec Nat.eq_dec (a :: t) (z :: l)); [congruence|ring].
Qed.

(** *** Positions in the lists of axes *)
Lemma position_seq k : forall n a, position k (seq a n) = if (a <=? k) && (k <? a + n) then Some (k - a) else None.
Proof.
  induction n as [|n IH]; intros a; cbn [seq position].
  - replace (k <? a + 0) with (k <? a) by (f_equal; lia). destruct (Nat.leb_spec a k), (Nat.ltb_spec k a); cbn; try reflexivity; lia.
  - destruct (Nat.eqb_spec a k) as [->|N].
    + rewrite Nat.leb_refl. replace (k <? k + S n) with true by (symmetry; apply Nat.ltb_lt; lia). rewrite Nat.sub_diag. reflexivity.
    + rewrite IH. destruct (Nat.leb_spec (S a) k), (Nat.leb_spec a k), (Nat.ltb_spec k (S a + n)), (Nat.ltb_spec k (a + S n)); cbn; try lia; try reflexivity. f_equal. lia.
Qed.
Lemma position_app k l r : position k (l ++ r) = match position k l with Some p => Some p | None => option_map (fun p => length l + p) (position k r) end.
Proof.
  induction l as [|x l IH]; cbn [app position length]; [destruct (position k r); reflexivity|]. destruct (x =? k); [reflexivity|]. rewrite IH. destruct (position k l); [reflexivity|]. destruct (position k r); reflexivity.
Qed.
Lemma position_map (f : nat -> nat) k : (forall x y, f x = f y -> x = y) -> forall n a, a <= k < a + n -> position (f k) (map f (seq a n)) = Some (k - a).
Proof.
  intros I. induction n as [|n IH]; intros a H; [lia|]. cbn [seq map position]. destruct (Nat.eqb_spec (f a) (f k)) as [E|N].
  - apply I in E. subst. rewrite Nat.sub_diag. reflexivity.
  - assert (a <> k) by congruence. rewrite IH by lia. cbn. f_equal. lia.
Qed.
Lemma position_none k l : ~ In k l -> position k l = None.
Proof. induction l as [|x l IH]; intros H; [reflexivity|]. cbn [position]. destruct (Nat.eqb_spec x k) as [->|N]; [exfalso; apply H; left; reflexivity|]. rewrite IH; [reflexivity|]. intros Q. apply H. right. exact Q. Qed.
Lemma fill_free l vs : forall n m k rest, (forall q, k <= q < k + n -> position q l = None) -> n <= length rest -> fill k (n + m) l vs rest = firstn n rest ++ fill (k + n) m l vs (skipn n rest).
Proof.
  induction n as [|n IH]; intros m k rest H L; [cbn; f_equal; lia|]. destruct rest as [|x rest]; [cbn in L; lia|]. cbn [Nat.add fill firstn skipn app]. rewrite H by lia. f_equal. cbn in L. rewrite IH; [f_equal; f_equal; lia| |lia]. intros q Hq. apply H. lia.
Qed.
Lemma fill_given l vs a : forall n m k rest, (forall q, k <= q < k + n -> position q l = Some (q - a)) -> fill k (n + m) l vs rest = map (fun q => nth (q - a) vs 0) (seq k n) ++ fill (k + n) m l vs rest.
Proof.
  induction n as [|n IH]; intros m k rest H; [cbn; f_equal; lia|]. cbn [Nat.add fill seq map app]. rewrite H by lia. f_equal. rewrite IH; [f_equal; f_equal; lia|]. intros q Hq. apply H. lia.
Qed.
Lemma map_nth_seq (vs : list nat) : forall a, map (fun q => nth (q - a) vs 0) (seq a (length vs)) = vs.
Proof.
  induction vs as [|v vs IH]; intros a; [reflexivity|]. cbn [length seq map]. rewrite Nat.sub_diag. cbn [nth]. f_equal. rewrite <- (IH (S a)) at 2. apply map_ext_in. intros q Hq. apply in_seq in Hq. replace (q - a) with (S (q - S a)) by lia. reflexivity.
Qed.
Lemma others_upper N : others (N + N) (seq N N) = seq 0 N.
Proof.
  unfold others. rewrite seq_app, filter_app. assert (A : filter (fun k => match position k (seq N N) with None => true | Some _ => false end) (seq 0 N) = seq 0 N).
  { assert (G : forall l, (forall x, In x l -> x < N) -> filter (fun k => match position k (seq N N) with None => true | Some _ => false end) l = l).
    { induction l as [|x l IH]; intros H; [reflexivity|]. cbn [filter]. rewrite position_seq. pose proof (H x (or_introl eq_refl)). destruct (Nat.leb_spec N x); [lia|]. cbn [andb]. rewrite IH; [reflexivity|]. intros y Hy. apply H. right. exact Hy. }
    apply G. intros x Hx. apply in_seq in Hx. lia. }
  assert (B : filter (fun k => match position k (seq N N) with None => true | Some _ => false end) (seq (0 + N) N) = []).
  { assert (G : forall l, (forall x, In x l -> N <= x < N + N) -> filter (fun k => match position k (seq N N) with None => true | Some _ => false end) l = []).
    { induction l as [|x l IH]; intros H; [reflexivity|]. cbn [filter]. rewrite position_seq. pose proof (H x (or_introl eq_refl)). destruct (Nat.leb_spec N x); [|lia]. destruct (Nat.ltb_spec x (N + N)); [|lia]. cbn [andb]. apply IH. intros y Hy. apply H. right. exact Hy. }
    apply G. intros x Hx. apply in_seq in Hx. lia. }
  rewrite A, B. apply app_nil_r.
Qed.
Lemma others_lower N : others (N + N) (seq 0 N) = seq N N.
Proof.
  unfold others. rewrite seq_app, filter_app.
  assert (A : filter (fun k => match position k (seq 0 N) with None => true | Some _ => false end) (seq 0 N) = []).
  { assert (G : forall l, (forall x, In x l -> x < N) -> filter (fun k => match position k (seq 0 N) with None => true | Some _ => false end) l = []).
    { induction l as [|x l IH]; intros H; [reflexivity|]. cbn [filter]. rewrite position_seq. pose proof (H x (or_introl eq_refl)). cbn [Nat.leb]. destruct (Nat.ltb_spec x (0 + N)); [|lia]. cbn [andb]. apply IH. intros y Hy. apply H. right. exact Hy. }
    apply G. intros x Hx. apply in_seq in Hx. lia. }
  assert (B : filter (fun k => match position k (seq 0 N) with None => true | Some _ => false end) (seq (0 + N) N) = seq N N).
  { assert (G : forall l, (forall x, In x l -> N <= x) -> filter (fun k => match position k (seq 0 N) with None => true | Some _ => false end) l = l).
    { induction l as [|x l IH]; intros H; [reflexivity|]. cbn [filter]. rewrite position_seq. pose proof (H x (or_introl eq_refl)). destruct (Nat.ltb_spec x (0 + N)); [lia|]. rewrite andb_false_r. rewrite IH; [reflexivity|]. intros y Hy. apply H. right. exact Hy. }
    apply G. intros x Hx. apply in_seq in Hx. lia. }
  rewrite A, B. reflexivity.
Qed.
Lemma map_dimat A d e : shape A = d ++ e -> map (dimat A) (seq 0 (length d)) = d /\ map (dimat A) (seq (length d) (length e)) = e.
Proof.
  intros S. unfold dimat. rewrite S. split.
  - refine (eq_trans _ (map_nth_seq d 0)). apply map_ext_in. intros q Hq. apply in_seq in Hq. rewrite app_nth1 by lia. f_equal. lia.
  - refine (eq_trans _ (map_nth_seq e (length d))). apply map_ext_in. intros q Hq. apply in_seq in Hq. rewrite app_nth2 by lia. reflexivity.
Qed.
(** the contraction of the series is a product of matrices *)
Lemma contract_matrix d A B : shape A = d ++ d -> shape B = d ++ d -> let N := length d in let T := contract A (seq N N) B (seq 0 N) in
  shape T = d ++ d /\ forall i j, length i = N -> length j = N -> entry T (i ++ j) = sumC (fun l => (entry A (i ++ l) * entry B (l ++ j))%C) (choices d).
Proof.
  intros SA SB N T. unfold T, contract. assert (RA : rank A = N + N) by (unfold rank; rewrite SA, app_length; reflexivity). assert (RB : rank B = N + N) by (unfold rank; rewrite SB, app_length; reflexivity).
  rewrite RA, RB, others_upper, others_lower. cbn [shape entry]. destruct (map_dimat A d d SA) as [A1 A2]. destruct (map_dimat B d d SB) as [B1 B2]. fold N in A1, A2, B1, B2.
  split; [rewrite A1, B2; reflexivity|]. intros i j Li Lj. rewrite A2, nsum_choices. apply sumC_ext. intros l Hl. apply choices_length in Hl. fold N in Hl.
  assert (LL : length (seq 0 N) = length i) by (rewrite seq_length; lia). rewrite LL. rewrite firstn_app, firstn_all, Nat.sub_diag, skipn_app, skipn_all, Nat.sub_diag. cbn [firstn skipn app]. rewrite app_nil_r. f_equal.
  - f_equal. rewrite fill_free; [|intros q Hq; rewrite position_seq; destruct (Nat.leb_spec N q); [lia|reflexivity]|lia]. rewrite <- Li at 1. rewrite firstn_all. f_equal.
    replace N with (N + 0) at 2 by lia. rewrite (fill_given _ _ N); [|intros q Hq; rewrite position_seq; destruct (Nat.leb_spec N q); [|lia]; destruct (Nat.ltb_spec q (N + N)); [reflexivity|lia]]. cbn [fill]. rewrite app_nil_r. cbn [Nat.add]. rewrite <- Hl. apply map_nth_seq.
  - f_equal. rewrite (fill_given _ _ 0); [|intros q Hq; rewrite position_seq; cbn [Nat.leb]; destruct (Nat.ltb_spec q (0 + N)); [reflexivity|lia]]. rewrite <- Hl at 1. rewrite map_nth_seq. f_equal.
    replace N with (N + 0) at 2 by lia. rewrite fill_free; [|intros q Hq; rewrite position_seq; cbn [Nat.leb]; destruct (Nat.ltb_spec q (0 + N)); [lia|reflexivity]|lia]. cbn [fill]. rewrite app_nil_r. rewrite <- Lj. apply firstn_all.
Qed.

(** *** The legs in pairs *)
Lemma zip_length o : forall n, length o = length n -> length (zip o n) = length o + length o.
Proof. induction o as [|a o IH]; intros [|b n] L; cbn in *; try lia. rewrite IH; lia. Qed.
Lemma zip_seq : forall o n, length o = length n -> zip o n = flat_map (fun q => [nth q o 0; nth q n 0]) (seq 0 (length o)).
Proof.
  induction o as [|a o IH]; intros [|b n] L; cbn [length] in L; try lia; [reflexivity|]. cbn [zip length seq flat_map nth app]. f_equal. f_equal. rewrite IH by lia. rewrite <- seq_shift.
  generalize (seq 0 (length o)). intros l. induction l as [|x l IHl]; [reflexivity|]. cbn [map flat_map nth app]. rewrite IHl. reflexivity.
Qed.
Lemma map_even (f : nat -> nat) : forall n a, map f (seq (2 * a) (2 * n)) = flat_map (fun q => [f (2 * q); f (2 * q + 1)]) (seq a n).
Proof.
  induction n as [|n IH]; intros a; [reflexivity|]. replace (2 * S n) with (S (S (2 * n))) by lia. cbn [seq map flat_map app]. f_equal. f_equal; [f_equal; lia|]. rewrite <- IH. f_equal. f_equal. lia.
Qed.
Lemma legs_even N q : q < N -> position (2 * q) (legs_first N) = Some q.
Proof. intros H. unfold legs_first. rewrite position_app. rewrite (position_map (fun i => 2 * i)) by (intros; lia). f_equal. lia. Qed.
Lemma legs_odd N q : q < N -> position (2 * q + 1) (legs_first N) = Some (N + q).
Proof.
  intros H. unfold legs_first. rewrite position_app. rewrite position_none. 2:{ intros Q. apply in_map_iff in Q. destruct Q as (x & E & _). lia. }
  rewrite (position_map (fun i => 2 * i + 1)) by (intros; lia). cbn [option_map]. rewrite map_length, seq_length. f_equal. lia.
Qed.
Lemma flat_ext {X Y} (f g : X -> list Y) l : (forall x, In x l -> f x = g x) -> flat_map f l = flat_map g l.
Proof. intros H. induction l as [|x l IH]; [reflexivity|]. cbn [flat_map]. rewrite (H x) by (left; reflexivity). f_equal. apply IH. intros y Hy. apply H. right. exact Hy. Qed.
Lemma legs_entry d A i j : shape A = zip d d -> length i = length d -> length j = length d -> entry (transpose (legs_first (length d)) A) (i ++ j) = entry A (zip i j).
Proof.
  intros S Li Lj. unfold transpose. cbn [entry]. f_equal. unfold rank. rewrite S, zip_length by reflexivity. replace (length d + length d) with (2 * length d) by lia. change (seq 0 (2 * length d)) with (seq (2 * 0) (2 * length d)). rewrite map_even. rewrite zip_seq by lia. rewrite Li. apply flat_ext.
  intros q Hq. apply in_seq in Hq. rewrite legs_even, legs_odd by lia. rewrite app_nth1 by lia. rewrite app_nth2 by lia. replace (length d + q - length i) with q by lia. reflexivity.
Qed.
Lemma nth_zip : forall o n q, length o = length n -> nth (2 * q) (zip o n) 0 = nth q o 0 /\ nth (2 * q + 1) (zip o n) 0 = nth q n 0.
Proof.
  induction o as [|a o IH]; intros [|b n] q L; cbn [length] in L; try lia; [destruct q; split; reflexivity|]. cbn [zip]. destruct q as [|q]; [split; reflexivity|]. replace (2 * S q) with (S (S (2 * q))) by lia. cbn [Nat.add nth]. apply IH. lia.
Qed.
Lemma legs_shape d A : shape A = zip d d -> shape (transpose (legs_first (length d)) A) = d ++ d.
Proof.
  intros S. unfold transpose, legs_first, dimat. cbn [shape]. rewrite S, map_app, !map_map. f_equal.
  - refine (eq_trans _ (map_nth_seq d 0)). apply map_ext. intros q. destruct (nth_zip d d q eq_refl) as [E _]. rewrite E. f_equal. lia.
  - refine (eq_trans _ (map_nth_seq d 0)). apply map_ext. intros q. destruct (nth_zip d d q eq_refl) as [_ E]. rewrite E. f_equal. lia.
Qed.
Lemma zip_inj : forall i j k l, length i = length j -> length k = length l -> zip i j = zip k l -> i = k /\ j = l.
Proof.
  induction i as [|a i IH]; intros [|b j] [|c k] [|e l] L1 L2 Q; cbn [length zip] in *; try lia; try discriminate Q; [auto|]. injection Q as -> -> Q. destruct (IH j k l) as [-> ->]; [lia|lia|exact Q|]. auto.
Qed.
Lemma duplicate_zip l : duplicate l = zip l l.
Proof. induction l as [|x l IH]; [reflexivity|]. cbn [duplicate zip]. rewrite IH. reflexivity. Qed.
Lemma half_rank d : length (zip d d) / 2 = length d.
Proof. rewrite zip_length by reflexivity. replace (length d + length d) with (length d * 2) by lia. apply Nat.div_mul. lia. Qed.
Lemma identity_ok d ham : shape ham = zip d d -> shape (identity ham) = d ++ d /\
  forall i j, In i (choices d) -> length j = length d -> entry (identity ham) (i ++ j) = if list_eq_dec Nat.eq_dec i j then RtoC 1 else RtoC 0.
Proof.
  intros S. unfold identity, rank. rewrite S, half_rank. split; [apply (legs_shape d); reflexivity|]. intros i j Hi Lj. pose proof (choices_length _ _ Hi) as Li.
  rewrite (legs_entry d) by (try reflexivity; assumption). cbn [entry].
  assert (E : firstn (length d) (map (dimat ham) (legs_first (length d))) = d).
  { pose proof (legs_shape d ham S) as Q. unfold transpose in Q. cbn [shape] in Q. rewrite Q. rewrite firstn_app, firstn_all, Nat.sub_diag. apply app_nil_r. }
  rewrite E. destruct (list_eq_dec Nat.eq_dec i j) as [<-|N]; destruct (in_dec _ _ _) as [Q|Q]; try reflexivity; exfalso.
  - apply Q. apply in_map_iff. exists i. split; [apply duplicate_zip|]. rewrite coors_choices. exact Hi.
  - apply in_map_iff in Q. destruct Q as (x & Q & _). rewrite duplicate_zip in Q. destruct (zip_inj x x i j eq_refl ltac:(lia) Q) as [-> ->]. contradiction.
Qed.

(** *** The series *)
Section Series.
Context (eps tau : R) (d : list nat) (ham : tensor) (Sh : shape ham = zip d d).
Notation N := (length d).
Let hs := transpose (legs_first N) (times (RtoC (- tau)) ham).
Let A := matrix_of ham.
Let coef (k : nat) : C := RtoC ((- tau) ^ k / INR (fact k)).
(** a tensor is the k-th term *)
Definition is_term (T : tensor) (k : nat) : Prop := shape T = d ++ d /\ forall i j, In i (choices d) -> In j (choices d) -> entry T (i ++ j) = (coef k * power d A k i j)%C.
Lemma hs_ok : shape hs = d ++ d /\ forall i j, length i = N -> length j = N -> entry hs (i ++ j) = (RtoC (- tau) * A i j)%C.
Proof. split; [apply (legs_shape d); exact Sh|]. intros i j Li Lj. unfold hs. rewrite (legs_entry d) by assumption. reflexivity. Qed.
Lemma hs_term : is_term hs 1.
Proof.
  destruct hs_ok as [H1 H2]. split; [exact H1|]. intros i j Hi Hj. rewrite H2 by (eapply choices_length; eassumption). cbn [power]. unfold product. rewrite (choices_pick d (fun l => A l j) i Hi). unfold coef. f_equal. f_equal. cbn. field.
Qed.
Lemma id_term : is_term (identity ham) 0.
Proof.
  destruct (identity_ok d ham Sh) as [H1 H2]. split; [exact H1|]. intros i j Hi Hj. rewrite H2 by (first [assumption|eapply choices_length; eassumption]). cbn [power]. unfold coef. cbn [pow fact INR]. replace (1 / 1)%R with 1%R by field. ring.
Qed.
Lemma next_term T n : 1 <= n -> is_term T (n - 1) -> is_term (times (RtoC (1 / INR n)) (contract T (seq N N) hs (seq 0 N))) n.
Proof.
  intros Hn [T1 T2]. destruct hs_ok as [H1 H2]. destruct (contract_matrix d T hs T1 H1) as [C1 C2]. split; [exact C1|]. intros i j Hi Hj. cbn [times entry]. rewrite C2 by (eapply choices_length; eassumption).
  destruct n as [|n]; [lia|]. replace (S n - 1) with n in T2 by lia. cbn [power]. unfold product.
  transitivity (sumC (fun l => (coef (S n) * (power d A n i l * A l j))%C) (choices d)); [|apply sumC_scal]. rewrite <- sumC_scal. apply sumC_ext. intros l Hl.
  rewrite T2 by assumption. rewrite H2 by (eapply choices_length; eassumption). unfold coef.
  replace ((- tau) ^ S n / INR (fact (S n)))%R with (1 / INR (S n) * ((- tau) ^ n / INR (fact n)) * (- tau))%R.
  2:{ rewrite fact_simpl, mult_INR. cbn [pow]. pose proof (INR_fact_neq_0 n). pose proof (not_0_INR (S n) ltac:(lia)). field. split; assumption. }
  rewrite !RtoC_mul. ring.
Qed.
Lemma series_terms : forall fuel n T, 1 <= n -> is_term T (n - 1) -> exists len, length (series eps fuel n N hs T) = len /\ len <= fuel /\
  (forall k, k < len -> is_term (nth k (series eps fuel n N hs T) T) (n + k)) /\ (fuel <> 0 -> len <> 0) /\
  (fuel <> 0 -> len = fuel \/ (tnorm (nth (len - 1) (series eps fuel n N hs T) T) < eps)%R).
Proof.
  induction fuel as [|fuel IH]; intros n T Hn HT.
  - exists 0. split; [reflexivity|]. split; [lia|]. split; [intros k Hk; lia|]. split; intros Q; contradiction.
  - cbn [series]. set (T' := times (RtoC (1 / INR n)) (contract T (seq N N) hs (seq 0 N))). assert (HT' : is_term T' n) by (apply next_term; assumption). destruct (Rlt_dec (tnorm T') eps) as [L|L].
    + exists 1. split; [reflexivity|]. split; [lia|]. split; [intros k Hk; replace k with 0 by lia; cbn [nth]; rewrite Nat.add_0_r; exact HT'|]. split; [intros; lia|]. intros _. right. cbn. exact L.
    + destruct (IH (S n) T') as (len & E1 & E2 & E3 & E4 & E5); [lia|replace (S n - 1) with n by lia; exact HT'|]. exists (S len). cbn [length]. split; [congruence|]. split; [lia|]. split.
      * intros [|k] Hk; cbn [nth]; [rewrite Nat.add_0_r; exact HT'|]. replace (n + S k) with (S n + k) by lia. rewrite (nth_indep _ T T') by lia. apply E3. lia.
      * split; [intros; lia|]. intros _. destruct fuel as [|fuel]; [left; cbn in E1; lia|]. specialize (E4 ltac:(lia)). destruct (E5 ltac:(lia)) as [Q|Q]; [left; lia|right]. replace (S len - 1) with (S (len - 1)) by lia. cbn [nth]. rewrite (nth_indep _ T T') by lia. exact Q.
Qed.
Lemma sum_terms l : forall T f, shape T = d ++ d -> (forall k, k < length l -> is_term (nth k l T) (f + k)) -> let E := fold_left tadd l T in
  shape E = d ++ d /\ forall i j, In i (choices d) -> In j (choices d) -> entry E (i ++ j) = (entry T (i ++ j) + sumC (fun k => (coef k * power d A k i j)%C) (seq f (length l)))%C.
Proof.
  induction l as [|T1 l IH]; intros T f ST H; cbn [fold_left length seq]; [split; [exact ST|]; intros; cbn; ring|].
  pose proof (H 0 ltac:(cbn; lia)) as H0. cbn [nth] in H0. rewrite Nat.add_0_r in H0.
  destruct (IH (tadd T T1) (S f) ST) as [E1 E2].
  { intros k Hk. specialize (H (S k) ltac:(cbn; lia)). cbn [nth] in H. replace (S f + k) with (f + S k) by lia. rewrite (nth_indep _ _ T) by exact Hk. exact H. }
  split; [exact E1|]. intros i j Hi Hj. rewrite E2 by assumption. rewrite sumC_cons. cbn [tadd entry]. rewrite (proj2 H0) by assumption. ring.
Qed.
Lemma taylor_fuel fuel : fuel <> 0 -> let G := fold_left tadd (hs :: series eps fuel 2 N hs hs) (identity ham) in exists K, 2 <= K <= S fuel /\ shape G = d ++ d /\
  (forall i j, In i (choices d) -> In j (choices d) -> entry G (i ++ j) = partial_exp d tau A K i j) /\ (K = S fuel \/ exists T, is_term T K /\ (tnorm T < eps)%R).
Proof.
  intros Hf. cbv zeta. destruct (series_terms fuel 2 hs ltac:(lia) hs_term) as (len & E1 & E2 & E3 & E4 & E5). specialize (E4 Hf). specialize (E5 Hf). exists (S len). split; [lia|].
  destruct (sum_terms (hs :: series eps fuel 2 N hs hs) (identity ham) 1 (proj1 id_term)) as [F1 F2].
  { intros [|k] Hk; cbn [nth]; [exact hs_term|]. cbn [length] in Hk. rewrite (nth_indep _ _ hs) by lia. replace (1 + S k) with (2 + k) by lia. apply E3. lia. }
  split; [exact F1|]. split.
  - intros i j Hi Hj. rewrite F2 by assumption. rewrite (proj2 id_term) by assumption. cbn [length]. rewrite E1. unfold partial_exp. fold A. change (seq 0 (S (S len))) with (0 :: seq 1 (S len)). rewrite sumC_cons. reflexivity.
  - destruct E5 as [Q|Q]; [left; lia|]. right. eexists. split; [|exact Q]. replace (S len) with (2 + (len - 1)) by lia. apply E3. lia.
Qed.
(** the gate is the series up to some order; at that order the tolerance or the largest order has been reached *)
Theorem taylor_ok : exists K, 2 <= K <= 999 /\ shape (taylor_exp eps tau ham) = d ++ d /\
  (forall i j, In i (choices d) -> In j (choices d) -> entry (taylor_exp eps tau ham) (i ++ j) = partial_exp d tau A K i j) /\
  (K = 999 \/ exists T, is_term T K /\ (tnorm T < eps)%R).
Proof.
  unfold taylor_exp. assert (RK : rank ham / 2 = N) by (unfold rank; rewrite Sh; apply half_rank). rewrite RK. fold hs.
  assert (Q : S (max_order - 2) = 999) by reflexivity. rewrite <- Q. apply (taylor_fuel (max_order - 2)). intros Z. rewrite Z in Q. discriminate.
Qed.
End Series.
