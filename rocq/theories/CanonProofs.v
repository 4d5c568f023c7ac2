(** Proofs about the canonical-form bookkeeping of the boundary MPS. *)
From Coq Require Import List Arith Lia Bool.
From Verif Require Import Base CanonModel CanonSpec.
Import ListNotations.

Lemma put_inv : forall X (l : list X) i x l', put l i x = Ok l' ->
  exists pre y post, l = pre ++ y :: post /\ length pre = i /\ l' = pre ++ x :: post.
Proof.
  induction l as [|y l IH]; intros i x l' H; destruct i; simpl in H; try discriminate.
  - injection H as <-. exists [], y, l. auto.
  - destruct (put l i x) eqn:E; simpl in H; try discriminate. injection H as <-.
    destruct (IH _ _ _ E) as (pre & z & post & -> & <- & ->).
    exists (y :: pre), z, post. auto.
Qed.
Lemma put_ok : forall X (l : list X) i x, i < length l -> exists l', put l i x = Ok l'.
Proof.
  induction l as [|y l IH]; intros i x H; simpl in H; [lia|]. destruct i; simpl; [eauto|].
  destruct (IH i x) as [l' E]; [lia|]. rewrite E. simpl. eauto.
Qed.
Lemma put_len : forall X (l : list X) i x l', put l i x = Ok l' -> length l' = length l.
Proof. intros X l i x l' H. destruct (put_inv _ _ _ _ _ H) as (p & y & q & -> & _ & ->). rewrite !app_length. reflexivity. Qed.
Lemma put_lt : forall X (l : list X) i x l', put l i x = Ok l' -> i < length l.
Proof. intros X l i x l' H. destruct (put_inv _ _ _ _ _ H) as (p & y & q & -> & <- & ->). rewrite app_length. simpl. lia. Qed.
Lemma put_same : forall X (l : list X) i x l', put l i x = Ok l' -> nth_error l' i = Some x.
Proof. intros X l i x l' H. destruct (put_inv _ _ _ _ _ H) as (p & y & q & -> & <- & ->). rewrite nth_error_app2, Nat.sub_diag by lia. reflexivity. Qed.
Lemma put_other : forall X (l : list X) i x l' j, put l i x = Ok l' -> j <> i -> nth_error l' j = nth_error l j.
Proof.
  intros X l i x l' j H N. destruct (put_inv _ _ _ _ _ H) as (p & y & q & -> & <- & ->).
  destruct (Nat.lt_ge_cases j (length p)).
  - rewrite !nth_error_app1 by lia. reflexivity.
  - rewrite !nth_error_app2 by lia. destruct (j - length p) eqn:E; [lia|]. reflexivity.
Qed.

Lemma idx_some : forall X (l : list X) i x, idx l i = Ok x -> nth_error l i = Some x.
Proof. unfold idx. intros X l i x H. destruct (nth_error l i); congruence. Qed.
Lemma idx_ok : forall X (l : list X) i, i < length l -> exists x, idx l i = Ok x /\ nth_error l i = Some x.
Proof.
  intros X l i H. unfold idx. destruct (nth_error l i) eqn:E; [eauto|].
  apply nth_error_None in E. lia.
Qed.

Section Proofs.
Context (L : library).
Notation A := (lib L).

Lemma amplitude_app : forall l l' c c', length c = length l ->
  amplitude L (l ++ l') (c ++ c') = mul L (amplitude L l c) (amplitude L l' c').
Proof.
  induction l as [|t l IH]; intros l' c c' H; destruct c as [|s c]; simpl in H; try discriminate; simpl.
  - symmetry. apply one_mul.
  - rewrite IH by lia. apply mul_assoc.
Qed.

Lemma same_refl : forall l, same_state L l l.
Proof. intros l. split; auto. Qed.
Lemma same_trans : forall a b c, same_state L a b -> same_state L b c -> same_state L a c.
Proof. intros a b c [H1 H2] [H3 H4]. split; [lia|]. intros d H. rewrite H4 by lia. apply H2. exact H. Qed.

Lemma same_pair : forall pre a b a' b' post,
  (forall s s', mul L (slice L a' s) (slice L b' s') = mul L (slice L a s) (slice L b s')) ->
  same_state L (pre ++ a :: b :: post) (pre ++ a' :: b' :: post).
Proof.
  intros pre a b a' b' post H. split; [rewrite !app_length; reflexivity|].
  intros c Hc. rewrite app_length in Hc. simpl in Hc.
  assert (E : exists c1 s s' c2, c = c1 ++ s :: s' :: c2 /\ length c1 = length pre).
  { exists (firstn (length pre) c).
    destruct (skipn (length pre) c) as [|s [|s' c2]] eqn:F.
    - apply (f_equal (@length _)) in F. rewrite skipn_length in F. simpl in F. lia.
    - apply (f_equal (@length _)) in F. rewrite skipn_length in F. simpl in F. lia.
    - exists s, s', c2. rewrite <- F, firstn_skipn. split; [reflexivity|]. rewrite firstn_length. lia. }
  destruct E as (c1 & s & s' & c2 & -> & E). rewrite !amplitude_app by lia. f_equal. cbn [amplitude].
  rewrite !mul_assoc. rewrite H. reflexivity.
Qed.

(** what one QR step does *)
Lemma left_ten_spec : forall m i m', left_ten A m i = Ok m' ->
  same_state L (tens m) (tens m') /\ center m' = center m /\ length (flags m') = length (flags m)
  /\ i + 1 < length (tens m)
  /\ (exists t, nth_error (tens m') i = Some (fst (qr A t)))
  /\ nth_error (flags m') i = Some LEFT_FLAG /\ nth_error (flags m') (i + 1) = Some NONE
  /\ (forall j, j <> i -> j <> i + 1 -> nth_error (tens m') j = nth_error (tens m) j
                                     /\ nth_error (flags m') j = nth_error (flags m) j).
Proof.
  intros m i m' H. unfold left_ten in H.
  destruct (idx (tens m) i) as [t|] eqn:E1; simpl in H; try discriminate.
  destruct (qr A t) as [q r] eqn:Q.
  destruct (put (tens m) i q) as [l1|] eqn:E2; simpl in H; try discriminate.
  destruct (idx l1 (i + 1)) as [t'|] eqn:E3; simpl in H; try discriminate.
  destruct (put l1 (i + 1) _) as [l2|] eqn:E4; simpl in H; try discriminate.
  destruct (put (flags m) i LEFT_FLAG) as [f1|] eqn:E5; simpl in H; try discriminate.
  destruct (put f1 (i + 1) NONE) as [f2|] eqn:E6; simpl in H; try discriminate.
  injection H as <-. simpl.
  split; [|split; [reflexivity|split; [|split; [|split; [|split; [|split]]]]]].
  - destruct (put_inv _ _ _ _ _ E2) as (pre & y & post & T & P & ->).
    apply idx_some in E1, E3. rewrite T in E1. rewrite nth_error_app2 in E1 by lia.
    rewrite <- P, Nat.sub_diag in E1. simpl in E1. injection E1 as ->.
    rewrite nth_error_app2 in E3 by lia. rewrite P in E3. replace (i + 1 - i) with 1 in E3 by lia.
    destruct post as [|b post]; simpl in E3; [discriminate|]. injection E3 as ->.
    assert (G : put (pre ++ q :: t' :: post) (i + 1) (absorb_left A r t') = Ok (pre ++ q :: absorb_left A r t' :: post)).
    { rewrite <- P. clear. induction pre; simpl; [reflexivity|]. rewrite IHpre. reflexivity. }
    rewrite G in E4. injection E4 as <-. rewrite T.
    apply same_pair. intros s s'. rewrite absorb_left_slice.
    rewrite (qr_factor L t s), Q. simpl. rewrite mul_assoc. reflexivity.
  - rewrite (put_len _ _ _ _ _ E6). apply (put_len _ _ _ _ _ E5).
  - rewrite <- (put_len _ _ _ _ _ E2). apply (put_lt _ _ _ _ _ E4).
  - exists t. rewrite Q. rewrite (put_other _ _ _ _ _ i E4) by lia. apply (put_same _ _ _ _ _ E2).
  - rewrite (put_other _ _ _ _ _ i E6) by lia. apply (put_same _ _ _ _ _ E5).
  - apply (put_same _ _ _ _ _ E6).
  - intros j N1 N2. split.
    + rewrite (put_other _ _ _ _ _ j E4), (put_other _ _ _ _ _ j E2) by lia. reflexivity.
    + rewrite (put_other _ _ _ _ _ j E6), (put_other _ _ _ _ _ j E5) by lia. reflexivity.
Qed.
Lemma left_ten_ok : forall m i, length (flags m) = length (tens m) -> i + 1 < length (tens m) ->
  exists m', left_ten A m i = Ok m'.
Proof.
  intros m i F H. unfold left_ten.
  destruct (idx_ok _ (tens m) i) as (t & E1 & _); [lia|]. rewrite E1. simpl. destruct (qr A t) as [q r].
  destruct (put_ok _ (tens m) i q) as [l1 E2]; [lia|]. rewrite E2. simpl.
  assert (N1 := put_len _ _ _ _ _ E2).
  destruct (idx_ok _ l1 (i + 1)) as (t' & E3 & _); [lia|]. rewrite E3. simpl.
  destruct (put_ok _ l1 (i + 1) (absorb_left A r t')) as [l2 E4]; [lia|]. rewrite E4. simpl.
  destruct (put_ok _ (flags m) i LEFT_FLAG) as [f1 E5]; [lia|]. rewrite E5. simpl.
  assert (N2 := put_len _ _ _ _ _ E5).
  destruct (put_ok _ f1 (i + 1) NONE) as [f2 E6]; [lia|]. rewrite E6. simpl. eauto.
Qed.

(** a factorisation into a bond matrix and a right isometry *)
Definition right_factor (f : mps_tensor A -> bond_matrix A * mps_tensor A) : Prop :=
  (forall t s, slice L t s = mul L (bond L (fst (f t))) (slice L (snd (f t)) s))
  /\ (forall t, right_iso L (snd (f t))).
Lemma lq_right : right_factor (lq A).
Proof. split; [apply lq_factor | apply lq_iso]. Qed.
Lemma svd_right : right_factor (svd A).
Proof. split; [apply svd_factor | apply svd_iso]. Qed.

Lemma right_ten_spec : forall f, right_factor f -> forall m i m', right_ten_with A f m i = Ok m' ->
  same_state L (tens m) (tens m') /\ center m' = center m /\ length (flags m') = length (flags m)
  /\ 0 < i < length (tens m)
  /\ (exists t, nth_error (tens m') i = Some (snd (f t)))
  /\ nth_error (flags m') i = Some RIGHT_FLAG /\ nth_error (flags m') (i - 1) = Some NONE
  /\ (forall j, j <> i -> j <> i - 1 -> nth_error (tens m') j = nth_error (tens m) j
                                     /\ nth_error (flags m') j = nth_error (flags m) j).
Proof.
  intros f [Ff Fi] m i m' H. unfold right_ten_with, usub in H.
  destruct (Nat.ltb_spec i 1) as [|I]; simpl in H; try discriminate.
  destruct (idx (tens m) i) as [t|] eqn:E1; simpl in H; try discriminate.
  destruct (f t) as [l q] eqn:Q.
  destruct (put (tens m) i q) as [l1|] eqn:E2; simpl in H; try discriminate.
  destruct (idx l1 (i - 1)) as [t'|] eqn:E3; simpl in H; try discriminate.
  destruct (put l1 (i - 1) _) as [l2|] eqn:E4; simpl in H; try discriminate.
  destruct (put (flags m) i RIGHT_FLAG) as [f1|] eqn:E5; simpl in H; try discriminate.
  destruct (put f1 (i - 1) NONE) as [f2|] eqn:E6; simpl in H; try discriminate.
  injection H as <-. simpl.
  split; [|split; [reflexivity|split; [|split; [|split; [|split; [|split]]]]]].
  - destruct (put_inv _ _ _ _ _ E4) as (pre & y & post & T & P & ->).
    destruct (put_inv _ _ _ _ _ E2) as (pre2 & y2 & post2 & T2 & P2 & T3).
    apply idx_some in E1, E3. rewrite T in E3. rewrite nth_error_app2 in E3 by lia.
    rewrite P, Nat.sub_diag in E3. simpl in E3. injection E3 as ->.
    rewrite T2 in E1. rewrite nth_error_app2 in E1 by lia. rewrite P2, Nat.sub_diag in E1. simpl in E1. injection E1 as ->.
    assert (G : pre2 = pre ++ [t'] /\ post = q :: post2).
    { rewrite T in T3. assert (Le : length (pre ++ [t']) = length pre2) by (rewrite app_length; simpl; lia).
      change (t' :: post) with ([t'] ++ post) in T3. rewrite app_assoc in T3.
      clear - T3 Le. revert pre2 T3 Le. induction (pre ++ [t']) as [|a w IH]; intros p T3 Le; destruct p; simpl in *; try discriminate.
      - split; auto.
      - injection T3 as -> T3. destruct (IH p T3) as [-> ->]; [lia|]. auto. }
    destruct G as [-> ->]. rewrite T2, <- app_assoc. simpl.
    apply same_pair. intros s s'. rewrite absorb_right_slice.
    rewrite (Ff t s'), Q. simpl. rewrite mul_assoc. reflexivity.
  - rewrite (put_len _ _ _ _ _ E6). apply (put_len _ _ _ _ _ E5).
  - split; [lia|]. apply (put_lt _ _ _ _ _ E2).
  - exists t. rewrite Q. rewrite (put_other _ _ _ _ _ i E4) by lia. apply (put_same _ _ _ _ _ E2).
  - rewrite (put_other _ _ _ _ _ i E6) by lia. apply (put_same _ _ _ _ _ E5).
  - apply (put_same _ _ _ _ _ E6).
  - intros j N1 N2. split.
    + rewrite (put_other _ _ _ _ _ j E4), (put_other _ _ _ _ _ j E2) by lia. reflexivity.
    + rewrite (put_other _ _ _ _ _ j E6), (put_other _ _ _ _ _ j E5) by lia. reflexivity.
Qed.
Lemma right_ten_ok : forall f m i, length (flags m) = length (tens m) -> 0 < i < length (tens m) ->
  exists m', right_ten_with A f m i = Ok m'.
Proof.
  intros f m i F H. unfold right_ten_with, usub.
  destruct (Nat.ltb_spec i 1) as [|I]; [lia|]. simpl.
  destruct (idx_ok _ (tens m) i) as (t & E1 & _); [lia|]. rewrite E1. simpl. destruct (f t) as [l q].
  destruct (put_ok _ (tens m) i q) as [l1 E2]; [lia|]. rewrite E2. simpl.
  assert (N1 := put_len _ _ _ _ _ E2).
  destruct (idx_ok _ l1 (i - 1)) as (t' & E3 & _); [lia|]. rewrite E3. simpl.
  destruct (put_ok _ l1 (i - 1) (absorb_right A t' l)) as [l2 E4]; [lia|]. rewrite E4. simpl.
  destruct (put_ok _ (flags m) i RIGHT_FLAG) as [f1 E5]; [lia|]. rewrite E5. simpl.
  assert (N2 := put_len _ _ _ _ _ E5).
  destruct (put_ok _ f1 (i - 1) NONE) as [f2 E6]; [lia|]. rewrite E6. simpl. eauto.
Qed.

Lemma left_ten_honest : forall m i m', honest L m -> left_ten A m i = Ok m' -> honest L m'.
Proof.
  intros m i m' (N & HL & HR) H. destruct (left_ten_spec _ _ _ H) as (S & _ & F & I & (t & Q) & F1 & F2 & O).
  destruct S as [S _]. split; [lia|]. split.
  - intros j u T G. destruct (Nat.eq_dec j i) as [->|Ni].
    + rewrite Q in T. injection T as <-. apply qr_iso.
    + destruct (Nat.eq_dec j (i + 1)) as [->|Nj]; [congruence|]. destruct (O j Ni Nj) as [O1 O2].
      rewrite O1 in T. rewrite O2 in G. eapply HL; eauto.
  - intros j u T G. destruct (Nat.eq_dec j i) as [->|Ni]; [congruence|].
    destruct (Nat.eq_dec j (i + 1)) as [->|Nj]; [congruence|]. destruct (O j Ni Nj) as [O1 O2].
    rewrite O1 in T. rewrite O2 in G. eapply HR; eauto.
Qed.
(** only the sites other than [i] and [i - 1] need to have been honest *)
Lemma right_ten_honest_but : forall f, right_factor f -> forall m i m',
  length (flags m) = length (tens m) ->
  (forall j t, j <> i -> j <> i - 1 -> nth_error (tens m) j = Some t -> nth_error (flags m) j = Some LEFT_FLAG -> left_iso L t) ->
  (forall j t, j <> i -> j <> i - 1 -> nth_error (tens m) j = Some t -> nth_error (flags m) j = Some RIGHT_FLAG -> right_iso L t) ->
  right_ten_with A f m i = Ok m' -> honest L m'.
Proof.
  intros f Hf m i m' N HL HR H. destruct (right_ten_spec f Hf _ _ _ H) as (S & _ & F & I & (t & Q) & F1 & F2 & O).
  destruct S as [S _]. split; [lia|]. split.
  - intros j u T G. destruct (Nat.eq_dec j i) as [->|Ni]; [congruence|].
    destruct (Nat.eq_dec j (i - 1)) as [->|Nj]; [congruence|]. destruct (O j Ni Nj) as [O1 O2].
    rewrite O1 in T. rewrite O2 in G. eapply HL; eauto.
  - intros j u T G. destruct (Nat.eq_dec j i) as [->|Ni].
    + rewrite Q in T. injection T as <-. apply Hf.
    + destruct (Nat.eq_dec j (i - 1)) as [->|Nj]; [congruence|]. destruct (O j Ni Nj) as [O1 O2].
      rewrite O1 in T. rewrite O2 in G. eapply HR; eauto.
Qed.
Lemma right_ten_honest : forall f, right_factor f -> forall m i m', honest L m -> right_ten_with A f m i = Ok m' -> honest L m'.
Proof.
  intros f Hf m i m' (N & HL & HR) H. eapply right_ten_honest_but; eauto.
Qed.

(** [m'] is obtained from [m] by factorisations *)
Definition moved (m m' : mps A) : Prop :=
  honest L m' /\ same_state L (tens m) (tens m') /\ center m' = center m.

Lemma left_loop_moved : forall k m i m', honest L m -> left_loop A m i k = Ok m' -> moved m m'.
Proof.
  induction k as [|k IH]; intros m i m' H E; simpl in E.
  - injection E as <-. split; [exact H|]. split; [apply same_refl | reflexivity].
  - destruct (left_ten A m i) as [m1|] eqn:E1; simpl in E; try discriminate.
    assert (H1 := left_ten_honest _ _ _ H E1). destruct (IH _ _ _ H1 E) as (G1 & G2 & G3).
    destruct (left_ten_spec _ _ _ E1) as (S & C & _). split; [exact G1|]. split; [eapply same_trans; eauto | congruence].
Qed.
Lemma left_loop_ok : forall k m i, honest L m ->
  (forall j, j < i -> nth_error (flags m) j = Some LEFT_FLAG) -> i + k < length (tens m) ->
  exists m', left_loop A m i k = Ok m' /\ (forall j, j < i + k -> nth_error (flags m') j = Some LEFT_FLAG).
Proof.
  induction k as [|k IH]; intros m i H F N; simpl.
  - exists m. split; [reflexivity|]. intros j J. apply F. lia.
  - destruct (left_ten_ok m i) as [m1 E1]; [apply H | lia |]. rewrite E1. simpl.
    destruct (left_ten_spec _ _ _ E1) as (S & C & _ & _ & _ & F1 & _ & O).
    destruct (IH m1 (i + 1)) as (m' & E & G).
    + eapply left_ten_honest; eauto.
    + intros j J. destruct (Nat.eq_dec j i) as [->|]; [exact F1|]. destruct (O j) as [_ ->]; try lia. apply F. lia.
    + destruct S as [-> _]. lia.
    + exists m'. split; [exact E|]. intros j J. apply G. lia.
Qed.
Lemma scan_left_spec : forall f k i, i + k <= length f ->
  (forall j, j < i -> nth_error f j = Some LEFT_FLAG) ->
  (scan_left f i k = Ok None /\ forall j, j < i + k -> nth_error f j = Some LEFT_FLAG)
  \/ exists s, scan_left f i k = Ok (Some s) /\ s < i + k /\ i <= s /\ forall j, j < s -> nth_error f j = Some LEFT_FLAG.
Proof.
  intros f. induction k as [|k IH]; intros i N F; simpl.
  - left. split; [reflexivity|]. intros j J. apply F. lia.
  - destruct (idx_ok _ f i) as (x & -> & E); [lia|]. simpl. destruct (is_left x) eqn:X.
    + assert (x = LEFT_FLAG) as -> by (destruct x; simpl in X; congruence).
      destruct (IH (i + 1)) as [[-> G]|(s & -> & G1 & G2 & G3)]; [lia| | |].
      * intros j J. destruct (Nat.eq_dec j i) as [->|]; [exact E|]. apply F. lia.
      * left. split; [reflexivity|]. intros j J. apply G. lia.
      * right. exists s. split; [reflexivity|]. repeat split; auto; lia.
    + right. exists i. split; [reflexivity|]. repeat split; auto; lia.
Qed.
Lemma left_canonicalize_moved : forall m s m', honest L m -> left_canonicalize A m s = Ok m' -> moved m m'.
Proof.
  intros m s m' H E. unfold left_canonicalize in E.
  destruct (scan_left _ _ _) as [[st|]|]; simpl in E; try discriminate.
  - eapply left_loop_moved; eauto.
  - injection E as <-. split; [exact H|]. split; [apply same_refl | reflexivity].
Qed.
Lemma left_canonicalize_ok : forall m s, honest L m -> s + 1 < length (tens m) ->
  exists m', left_canonicalize A m s = Ok m' /\ (forall j, j <= s -> nth_error (flags m') j = Some LEFT_FLAG).
Proof.
  intros m s H N. unfold left_canonicalize.
  destruct (scan_left_spec (flags m) (s + 1) 0) as [[-> G]|(st & -> & G1 & G2 & G3)]; simpl.
  - destruct H as [-> _]. lia.
  - intros j J. lia.
  - exists m. split; [reflexivity|]. intros j J. apply G. lia.
  - destruct (left_loop_ok (s + 1 - st) m st) as (m' & E & G); [exact H | exact G3 | lia |].
    exists m'. split; [exact E|]. intros j J. apply G. lia.
Qed.

Lemma right_loop_moved : forall f, right_factor f -> forall k m i m', honest L m -> right_loop_with A f m i k = Ok m' -> moved m m'.
Proof.
  intros f Hf. induction k as [|k IH]; intros m i m' H E; simpl in E.
  - injection E as <-. split; [exact H|]. split; [apply same_refl | reflexivity].
  - destruct (right_ten_with A f m i) as [m1|] eqn:E1; simpl in E; try discriminate.
    assert (H1 := right_ten_honest f Hf _ _ _ H E1). destruct (IH _ _ _ H1 E) as (G1 & G2 & G3).
    destruct (right_ten_spec f Hf _ _ _ E1) as (S & C & _). split; [exact G1|]. split; [eapply same_trans; eauto | congruence].
Qed.
Lemma right_loop_ok : forall f, right_factor f -> forall k m i, honest L m -> i < length (tens m) ->
  (forall j, i < j < length (tens m) -> nth_error (flags m) j = Some RIGHT_FLAG) -> k <= i ->
  exists m', right_loop_with A f m i k = Ok m'
    /\ (forall j, i - k < j < length (tens m) -> nth_error (flags m') j = Some RIGHT_FLAG)
    /\ (forall j, j < i - k -> nth_error (flags m') j = nth_error (flags m) j).
Proof.
  intros f Hf. induction k as [|k IH]; intros m i H I F N; simpl.
  - exists m. split; [reflexivity|]. split; [intros j J; apply F; lia | reflexivity].
  - destruct (right_ten_ok f m i) as [m1 E1]; [apply H | lia |]. rewrite E1. simpl.
    destruct (right_ten_spec f Hf _ _ _ E1) as (S & C & _ & _ & _ & F1 & _ & O).
    assert (Le : length (tens m1) = length (tens m)) by apply S.
    destruct (IH m1 (i - 1)) as (m' & E & G1 & G2).
    + eapply right_ten_honest; eauto.
    + lia.
    + intros j J. destruct (Nat.eq_dec j i) as [->|]; [exact F1|]. destruct (O j) as [_ ->]; try lia. apply F. lia.
    + lia.
    + exists m'. split; [exact E|]. split; [intros j J; apply G1; lia|].
      intros j J. rewrite G2 by lia. apply O; lia.
Qed.
Lemma scan_right_spec : forall f k i n, length f = n -> i < n -> k <= i + 1 ->
  (forall j, i < j < n -> nth_error f j = Some RIGHT_FLAG) ->
  (scan_right f i k = Ok None /\ forall j, i < j + k -> j < n -> nth_error f j = Some RIGHT_FLAG)
  \/ exists s, scan_right f i k = Ok (Some s) /\ s <= i < s + k /\ forall j, s < j < n -> nth_error f j = Some RIGHT_FLAG.
Proof.
  intros f. induction k as [|k IH]; intros i n Le I N F; simpl.
  - left. split; [reflexivity|]. intros j J J'. apply F. lia.
  - destruct (idx_ok _ f i) as (x & -> & E); [lia|]. simpl. destruct (is_right x) eqn:X.
    + assert (x = RIGHT_FLAG) as -> by (destruct x; simpl in X; congruence).
      destruct i as [|i].
      { assert (k = 0) by lia. subst k. simpl. left. split; [reflexivity|]. intros j J J'.
        destruct j; [exact E | apply F; lia]. }
      replace (S i - 1) with i by lia.
      destruct (IH i n Le) as [[-> G]|(s & -> & G2 & G3)]; [lia| lia | | |].
      * intros j J. destruct (Nat.eq_dec j (S i)) as [->|]; [exact E|]. apply F. lia.
      * left. split; [reflexivity|]. intros j J J'. apply G; lia.
      * right. exists s. split; [reflexivity|]. split; [lia | exact G3].
    + right. exists i. split; [reflexivity|]. split; [lia | exact F].
Qed.
Lemma right_canonicalize_moved : forall m s m', honest L m -> right_canonicalize A m s = Ok m' -> moved m m'.
Proof.
  intros m s m' H E. unfold right_canonicalize in E.
  destruct (usub _ _) as [tl|]; simpl in E; try discriminate. destruct (tl <? s); try discriminate.
  destruct (scan_right _ _ _) as [[st|]|]; simpl in E; try discriminate.
  - eapply (right_loop_moved _ lq_right); eauto.
  - injection E as <-. split; [exact H|]. split; [apply same_refl | reflexivity].
Qed.
Lemma right_canonicalize_ok : forall m s, honest L m -> 0 < s < length (tens m) ->
  exists m', right_canonicalize A m s = Ok m'
    /\ (forall j, s <= j < length (tens m) -> nth_error (flags m') j = Some RIGHT_FLAG)
    /\ (forall j, j < s - 1 -> nth_error (flags m') j = nth_error (flags m) j).
Proof.
  intros m s H N. unfold right_canonicalize, usub.
  destruct (Nat.ltb_spec (length (tens m)) 1) as [|Y]; [lia|]. simpl.
  destruct (Nat.ltb_spec (length (tens m) - 1) s) as [|Z]; [lia|].
  destruct (scan_right_spec (flags m) (length (tens m) - 1 - s + 1) (length (tens m) - 1) (length (tens m)))
    as [[-> G]|(st & -> & G1 & G3)]; simpl.
  - apply H.
  - lia.
  - lia.
  - intros j J. lia.
  - exists m. split; [reflexivity|]. split; [intros j J; apply G; lia | reflexivity].
  - destruct (right_loop_ok _ lq_right (st - s + 1) m st) as (m' & E & G & G'); [exact H | lia | intros j J; apply G3; lia | lia |].
    exists m'. split; [exact E|]. split; [intros j J; apply G; lia | intros j J; apply G'; lia].
Qed.

Lemma centralize_moved : forall m c m', honest L m -> centralize A m c = Ok m' ->
  honest L m' /\ same_state L (tens m) (tens m') /\ center m' = Some c.
Proof.
  intros m c m' H E. unfold centralize in E.
  destruct (usub _ _) as [tl|]; simpl in E; try discriminate.
  destruct (if c =? 0 then _ else _) as [m1|] eqn:E1; simpl in E; try discriminate.
  destruct (if c =? tl then _ else _) as [m2|] eqn:E2; simpl in E; try discriminate.
  injection E as <-. simpl.
  assert (M1 : moved m m1).
  { destruct (c =? 0); [injection E1 as <-; split; [exact H | split; [apply same_refl | reflexivity]] |].
    eapply left_canonicalize_moved; eauto. }
  destruct M1 as (H1 & S1 & _).
  assert (M2 : moved m1 m2).
  { destruct (c =? tl); [injection E2 as <-; split; [exact H1 | split; [apply same_refl | reflexivity]] |].
    eapply right_canonicalize_moved; eauto. }
  destruct M2 as (H2 & S2 & _). split; [exact H2|]. split; [eapply same_trans; eauto | reflexivity].
Qed.

Lemma centralize_ok : forall m c, honest L m -> c < length (tens m) ->
  exists m', centralize A m c = Ok m' /\ centred L m' c /\ honest L m' /\ same_state L (tens m) (tens m').
Proof.
  intros m c H N.
  assert (X : exists m', centralize A m c = Ok m'
     /\ (forall j, j < c -> nth_error (flags m') j = Some LEFT_FLAG)
     /\ (forall j, c < j < length (tens m) -> nth_error (flags m') j = Some RIGHT_FLAG)).
  { unfold centralize, usub. destruct (Nat.ltb_spec (length (tens m)) 1) as [|Y]; [lia|]. cbn [bind].
    assert (P1 : exists m1, (if c =? 0 then Ok m else left_canonicalize A m (c - 1)) = Ok m1
              /\ (forall j, j < c -> nth_error (flags m1) j = Some LEFT_FLAG) /\ moved m m1).
    { destruct (Nat.eqb_spec c 0) as [->|C0].
      - exists m. split; [reflexivity|]. split; [intros j J; lia|]. split; [exact H|]. split; [apply same_refl | reflexivity].
      - destruct (left_canonicalize_ok m (c - 1)) as (m1 & E & G); [exact H | lia |].
        exists m1. split; [exact E|]. split; [intros j J; apply G; lia|]. eapply left_canonicalize_moved; eauto. }
    destruct P1 as (m1 & -> & G1 & H1 & [S1 _] & _). cbn [bind].
    destruct (Nat.eqb_spec c (length (tens m) - 1)) as [Ct|Ct]; cbn [bind].
    - eexists. split; [reflexivity|]. simpl. split; [exact G1|]. intros j J. lia.
    - destruct (right_canonicalize_ok m1 (c + 1)) as (m2 & E2 & G2 & G3); [exact H1 | lia |].
      rewrite E2. cbn [bind]. eexists. split; [reflexivity|]. simpl. split.
      + intros j J. rewrite G3 by lia. apply G1. exact J.
      + intros j J. apply G2. lia. }
  destruct X as (m' & E & GL & GR). destruct (centralize_moved _ _ _ H E) as (H' & S & C).
  exists m'. split; [exact E|]. split; [|split; [exact H' | exact S]].
  split; [exact C|]. intros i t T.
  assert (I : i < length (tens m)).
  { destruct S as [S _]. rewrite <- S. apply nth_error_Some. congruence. }
  destruct H' as (_ & HL & HR). split; intros J.
  - split; [eapply HL; eauto | apply GL; lia].
  - split; [eapply HR; eauto | apply GR; lia].
Qed.

Lemma honest_raw : forall l, honest L (raw A l).
Proof.
  intros l. unfold honest, raw; simpl. split; [apply map_length|].
  split; intros i t T G; rewrite nth_error_map, T in G; simpl in G; congruence.
Qed.
Lemma honest_product : forall l, Forall (right_iso L) l -> honest L (product A l).
Proof.
  intros l F. unfold honest, product; simpl. split; [apply map_length|].
  split; intros i t T G; rewrite nth_error_map, T in G; simpl in G; try congruence.
  rewrite Forall_forall in F. apply F. eapply nth_error_In; eauto.
Qed.

Lemma run_factorising : forall l m m', Forall factorising l -> honest L m -> run A l m = Ok m' ->
  honest L m' /\ same_state L (tens m) (tens m').
Proof.
  induction l as [|o l IH]; intros m m' F H E; simpl in E.
  - injection E as <-. split; [exact H | apply same_refl].
  - destruct (step A o m) as [m1|] eqn:E1; simpl in E; try discriminate. inversion F as [|? ? Fo Fl]; subst.
    assert (X : honest L m1 /\ same_state L (tens m) (tens m1)).
    { destruct o; simpl in Fo, E1; try contradiction.
      - split; [eapply left_ten_honest; eauto | eapply left_ten_spec; eauto].
      - split; [eapply (right_ten_honest _ lq_right); eauto | eapply (right_ten_spec _ lq_right); eauto].
      - destruct (left_canonicalize_moved _ _ _ H E1) as (? & ? & _); auto.
      - destruct (right_canonicalize_moved _ _ _ H E1) as (? & ? & _); auto.
      - destruct (centralize_moved _ _ _ H E1) as (? & ? & _); auto. }
    destruct X as [H1 S1]. destruct (IH _ _ Fl H1 E) as [H2 S2]. split; [exact H2 | eapply same_trans; eauto].
Qed.

(** the entropy leaves the flags honest and every site but the first right-canonical *)
Lemma entropy_ok : forall m, honest L m -> 2 <= length (tens m) ->
  exists m', entropy A m = Ok m' /\ honest L m' /\ length (tens m') = length (tens m)
    /\ (forall j, 0 < j < length (tens m) -> nth_error (flags m') j = Some RIGHT_FLAG)
    /\ center m' = Some (length (tens m) - 1).
Proof.
  intros m H N. unfold entropy, usub. destruct (Nat.ltb_spec (length (tens m)) 1) as [|Y]; [lia|]. cbn [bind].
  destruct (centralize_ok m (length (tens m) - 1) H) as (m1 & -> & (C1 & _) & H1 & [S1 _]); [lia|]. cbn [bind].
  set (n := length (tens m)) in *.
  destruct (idx_ok _ (tens m1) (n - 1)) as (t & -> & _); [lia|]. cbn [bind].
  destruct (put_ok _ (tens m1) (n - 1) (normalize A t)) as [l E]; [lia|]. rewrite E. cbn [bind].
  assert (Le := put_len _ _ _ _ _ E).
  replace (right_loop_with A (svd A) (mkMps l (flags m1) (center m1)) (n - 1) (n - 1))
    with (m2 <- right_ten_with A (svd A) (mkMps l (flags m1) (center m1)) (n - 1) ;; right_loop_with A (svd A) m2 (n - 2) (n - 2)).
  2:{ replace (n - 1) with (S (n - 2)) at 3 by lia. simpl. replace (n - 1 - 1) with (n - 2) by lia. reflexivity. }
  destruct H1 as (F1 & HL & HR).
  destruct (right_ten_ok (svd A) (mkMps l (flags m1) (center m1)) (n - 1)) as [m2 E2]; [simpl; lia | simpl; lia |].
  rewrite E2. cbn [bind].
  destruct (right_ten_spec _ svd_right _ _ _ E2) as ([S2 _] & C2 & F2 & _ & _ & G2 & _). simpl in *.
  assert (H2 : honest L m2).
  { apply (right_ten_honest_but _ svd_right (mkMps l (flags m1) (center m1)) (n - 1) m2); [simpl; lia | | | exact E2]; simpl.
    - intros j u J1 J2 T G. rewrite (put_other _ _ _ _ _ j E) in T by lia. eapply HL; eauto.
    - intros j u J1 J2 T G. rewrite (put_other _ _ _ _ _ j E) in T by lia. eapply HR; eauto. }
  destruct (right_loop_ok _ svd_right (n - 2) m2 (n - 2)) as (m' & E' & G1 & _); [exact H2 | lia | | lia |].
  - intros j J. assert (j = n - 1) as -> by lia. exact G2.
  - destruct (right_loop_moved _ svd_right _ _ _ _ H2 E') as (H' & [S' _] & C').
    exists m'. split; [exact E'|]. split; [exact H'|]. split; [lia|]. split; [|congruence].
    intros j J. apply G1. lia.
Qed.

(** Reverse: the represented state is mirrored *)
Lemma amplitude_rev : forall l c, length c = length l ->
  amplitude L (map (transpose A) (rev l)) (rev c) = tr L (amplitude L l c).
Proof.
  induction l as [|t l IH]; intros c H; destruct c as [|s c]; simpl in H; try discriminate; simpl.
  - symmetry. apply tr_one.
  - rewrite map_app. simpl. rewrite amplitude_app by (rewrite map_length, !rev_length; lia).
    rewrite IH by lia. simpl. rewrite transpose_slice, mul_one, <- tr_mul. reflexivity.
Qed.
Lemma reverse_state : forall m m' c, reverse A m = Ok m' -> length c = length (tens m) ->
  amplitude L (tens m') (rev c) = tr L (amplitude L (tens m) c).
Proof.
  intros m m' c H Hc. unfold reverse in H.
  destruct (center m); simpl in H.
  - destruct (usub _ _); simpl in H; try discriminate. injection H as <-. simpl. apply amplitude_rev. exact Hc.
  - injection H as <-. simpl. apply amplitude_rev. exact Hc.
Qed.
End Proofs.
