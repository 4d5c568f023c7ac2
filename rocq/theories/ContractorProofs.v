(** Lemmas about the contractor caches. *)
From Coq Require Import List Arith Lia Bool.
From Verif Require Import Base ContractorModel ContractorSpec.
Import ListNotations.

Lemma pos_eqb_refl p : pos_eqb p p = true.
Proof. destruct p; reflexivity. Qed.
Lemma pos_eqb_eq p q : pos_eqb p q = true <-> p = q.
Proof. destruct p, q; simpl; split; congruence. Qed.
Lemma upd_same {X} (f : pos -> X) p x : upd f p x p = x.
Proof. unfold upd. now rewrite pos_eqb_refl. Qed.
Lemma upd_other {X} (f : pos -> X) p q x : p <> q -> upd f p x q = f q.
Proof. unfold upd. destruct (pos_eqb p q) eqn:E; auto. apply pos_eqb_eq in E. congruence. Qed.

Lemma back_app {A} (l : list A) x : back (l ++ [x]) = Ok x.
Proof. unfold back. rewrite rev_app_distr. reflexivity. Qed.
Lemma back_ok {A} (l : list A) x : back l = Ok x -> exists l', l = l' ++ [x].
Proof.
  unfold back. destruct (rev l) eqn:E; intros H; inversion H; subst.
  exists (rev l0). rewrite <- (rev_involutive l), E. reflexivity.
Qed.
Lemma pop_back_app {A} (l : list A) x : pop_back (l ++ [x]) = Ok l.
Proof.
  unfold pop_back. rewrite removelast_last. destruct l; reflexivity.
Qed.

Lemma usub_1 n : usub (S n) 1 = Ok n.
Proof. unfold usub. destruct (S n <? 1) eqn:E; [apply Nat.ltb_lt in E; lia|]. f_equal. lia. Qed.
Lemma usub_ok a b : b <= a -> usub a b = Ok (a - b).
Proof. intros. unfold usub. destruct (a <? b) eqn:E; [apply Nat.ltb_lt in E; lia|reflexivity]. Qed.

Lemma seq_snoc n m : seq n (S m) = seq n m ++ [n + m].
Proof. rewrite <- Nat.add_1_r, seq_app. reflexivity. Qed.

Lemma firstn_seq n k m : firstn k (seq n m) = seq n (min k m).
Proof.
  revert n m. induction k; intros n m; [reflexivity|]. destruct m; [reflexivity|].
  simpl. f_equal. apply IHk.
Qed.

Lemma nth_error_map_seq {A} (f : nat -> A) n k :
  nth_error (map f (seq 0 n)) k = if k <? n then Some (f k) else None.
Proof.
  destruct (k <? n) eqn:E; [apply Nat.ltb_lt in E|apply Nat.ltb_ge in E].
  - rewrite nth_error_map. rewrite (nth_error_nth' _ 0) by (rewrite seq_length; lia).
    rewrite seq_nth by lia. reflexivity.
  - apply nth_error_None. now rewrite map_length, seq_length.
Qed.

(** A list whose k-th entry is [f k] is the table of [f]. *)
Lemma table_iff {A} (f : nat -> A) (l : list A) :
  (forall k b, nth_error l k = Some b -> b = f k) <-> l = map f (seq 0 (length l)).
Proof.
  split.
  - induction l as [|x l IH] using rev_ind; intros H; [reflexivity|].
    rewrite app_length. simpl. rewrite Nat.add_1_r, seq_snoc, map_app.
    f_equal.
    + apply IH. intros k b Hk. apply H. rewrite nth_error_app1; auto.
      apply nth_error_Some. congruence.
    + simpl. f_equal. apply H. rewrite nth_error_app2, Nat.sub_diag by lia. reflexivity.
  - intros H k b Hk. rewrite H, nth_error_map_seq in Hk.
    destruct (k <? length l); congruence.
Qed.

Section P.
Context (o : ops).
Implicit Types (c : con o) (tn : net o).

Definition bmS rows cols tn p n : list (Mps o) := map (bmps_from o rows cols tn p) (seq 0 n).
Definition btS rows cols tn p s n : list (Env o) := map (env_from o rows cols tn p s) (seq 0 n).
Definition bt2S rows cols tn p s n : list (Env2 o) := map (env2_from o rows cols tn p s) (seq 0 n).
Arguments bmS : simpl never.
Arguments btS : simpl never.
Arguments bt2S : simpl never.

Lemma bmS_length rows cols tn p n : length (bmS rows cols tn p n) = n.
Proof. unfold bmS. now rewrite map_length, seq_length. Qed.
Lemma btS_length rows cols tn p s n : length (btS rows cols tn p s n) = n.
Proof. unfold btS. now rewrite map_length, seq_length. Qed.
Lemma bt2S_length rows cols tn p s n : length (bt2S rows cols tn p s n) = n.
Proof. unfold bt2S. now rewrite map_length, seq_length. Qed.
Lemma bmS_snoc rows cols tn p n :
  bmS rows cols tn p (S n) = bmS rows cols tn p n ++ [bmps_from o rows cols tn p n].
Proof. unfold bmS. now rewrite seq_snoc, map_app. Qed.
Lemma btS_snoc rows cols tn p s n :
  btS rows cols tn p s (S n) = btS rows cols tn p s n ++ [env_from o rows cols tn p s n].
Proof. unfold btS. now rewrite seq_snoc, map_app. Qed.
Lemma bt2S_snoc rows cols tn p s n :
  bt2S rows cols tn p s (S n) = bt2S rows cols tn p s n ++ [env2_from o rows cols tn p s n].
Proof. unfold bt2S. now rewrite seq_snoc, map_app. Qed.

Lemma bm_fresh_iff tn c :
  bm_fresh o tn c <-> forall p, bm c p = bmS (rows_ c) (cols_ c) tn p (length (bm c p)).
Proof.
  split.
  - intros H p. apply table_iff. intros k b. apply H.
  - intros H p. apply table_iff. apply H.
Qed.

(** *** One absorption step *)
Lemma get_slice_outer rows cols tn p k mpo :
  (k < nsl rows cols p -> get_slice o rows cols tn p
      (match p with UP | LEFT => k | DOWN => rows - 1 - k | RIGHT => cols - 1 - k end) = Ok mpo ->
   mpo = outer_slice o rows cols tn p k).
Proof.
  destruct p; simpl; intros Hk; unfold get_row, get_col;
    match goal with |- context [if ?b then _ else _] => destruct b end; congruence.
Qed.
Lemma get_slice_ok rows cols tn p k :
  k < nsl rows cols p ->
  get_slice o rows cols tn p
      (match p with UP | LEFT => k | DOWN => rows - 1 - k | RIGHT => cols - 1 - k end)
  = Ok (outer_slice o rows cols tn p k).
Proof.
  destruct p; simpl; intros Hk; unfold get_row, get_col;
    match goal with |- context [if ?b then _ else _] => destruct b eqn:E end;
    auto; apply Nat.ltb_ge in E; lia.
Qed.

Lemma grow_step_ok tn p c n :
  bm c p = bmS (rows_ c) (cols_ c) tn p n -> 1 <= n <= nsl (rows_ c) (cols_ c) p ->
  grow_bmps_step o tn p c = Ok (set_bm o c p (bmS (rows_ c) (cols_ c) tn p (S n))).
Proof.
  intros Hb Hn. unfold grow_bmps_step. rewrite Hb, bmS_length.
  destruct n as [|m]; [lia|].
  assert (Hk : (match p with
     | LEFT | UP => usub (S m) 1
     | _ => usub (nsl (rows_ c) (cols_ c) p) (S m) end)
     = Ok (match p with UP | LEFT => m | DOWN => rows_ c - 1 - m | RIGHT => cols_ c - 1 - m end)).
  { unfold usub. destruct p; simpl in *;
      try (destruct (_ <? _) eqn:E; [apply Nat.ltb_lt in E; lia|]); f_equal; lia. }
  rewrite Hk. cbn [bind]. rewrite get_slice_ok by lia. cbn [bind].
  rewrite bmS_snoc, back_app. cbn [bind]. rewrite (bmS_snoc _ _ _ _ (S m)), (bmS_snoc _ _ _ _ m).
  reflexivity.
Qed.

(** On success the step is the one above (used for histories). *)
Lemma grow_step_inv tn p c c' :
  grow_bmps_step o tn p c = Ok c' ->
  bm_fresh o tn c -> 1 <= length (bm c p) <= nsl (rows_ c) (cols_ c) p.
Proof.
  intros H _. unfold grow_bmps_step in H.
  remember (length (bm c p)) as n.
  destruct (match p with LEFT | UP => usub n 1 | _ => usub (nsl (rows_ c) (cols_ c) p) n end) eqn:Ek;
    [|discriminate]. cbn [bind] in H.
  destruct (get_slice o (rows_ c) (cols_ c) tn p a) eqn:Es; [|discriminate]. cbn [bind] in H.
  destruct (back (bm c p)) eqn:Eb; [|discriminate].
  apply back_ok in Eb. destruct Eb as [l' Eb]. rewrite Eb, app_length in Heqn. simpl in Heqn.
  split; [lia|].
  destruct p; simpl in *; unfold usub in Ek;
    match type of Ek with (if ?b then _ else _) = _ => destruct b eqn:E end; try discriminate;
    inversion Ek; subst a; apply Nat.ltb_ge in E;
    unfold get_row, get_col in Es;
    match type of Es with (if ?b then _ else _) = _ => destruct b eqn:E2 end; try discriminate;
    apply Nat.ltb_lt in E2; lia.
Qed.

Lemma set_bm_set_bm c p x y : forall q, bm (set_bm o (set_bm o c p x) p y) q = bm (set_bm o c p y) q.
Proof. intros q. simpl. unfold upd. destruct (pos_eqb p q); reflexivity. Qed.

(** Contractor states that agree as far as anybody can observe. *)
Definition ceq c1 c2 : Prop :=
  rows_ c1 = rows_ c2 /\ cols_ c1 = cols_ c2 /\
  (forall p, bm c1 p = bm c2 p) /\ (forall p, bt c1 p = bt c2 p) /\ (forall p, bt2 c1 p = bt2 c2 p).

(** [k] absorption steps at [p]. *)
Lemma iter_grow_ok tn p k : forall c n,
  bm c p = bmS (rows_ c) (cols_ c) tn p n -> 1 <= n -> n + k <= S (nsl (rows_ c) (cols_ c) p) ->
  exists c', iter_res k (grow_bmps_step o tn p) c = Ok c' /\
    rows_ c' = rows_ c /\ cols_ c' = cols_ c /\
    bm c' p = bmS (rows_ c) (cols_ c) tn p (n + k) /\
    (forall q, q <> p -> bm c' q = bm c q) /\
    (forall q, bt c' q = bt c q) /\ (forall q, bt2 c' q = bt2 c q).
Proof.
  induction k as [|k IH]; intros c n Hb H1 H2.
  - exists c. simpl. rewrite Nat.add_0_r. auto 10.
  - simpl. rewrite (grow_step_ok tn p c n Hb) by lia. cbn [bind].
    destruct (IH (set_bm o c p (bmS (rows_ c) (cols_ c) tn p (S n))) (S n)) as
      (c' & E & R & C & B & O1 & O2 & O3).
    + simpl. now rewrite upd_same.
    + lia.
    + simpl. lia.
    + exists c'. split; [exact E|]. simpl in *. rewrite R, C, B.
      repeat split; try (f_equal; lia); auto.
      intros q Hq. rewrite O1 by auto. apply upd_other. auto.
Qed.

(** *** Dependence of the environments on the network *)
Lemma outer_slice_ext rows cols tn tn' p k :
  (forall r q, r < rows -> q < cols ->
     (match p with UP => r = k | DOWN => r = rows - 1 - k
              | LEFT => q = k | RIGHT => q = cols - 1 - k end) -> tn r q = tn' r q) ->
  k < nsl rows cols p ->
  outer_slice o rows cols tn p k = outer_slice o rows cols tn' p k.
Proof.
  intros H Hk. destruct p; simpl in *; apply map_ext_in; intros a Ha; apply in_seq in Ha;
    apply H; lia.
Qed.

Lemma bmps_from_ext rows cols tn tn' p k :
  (forall r q j, r < rows -> q < cols -> j < k ->
     (match p with UP => r = j | DOWN => r = rows - 1 - j
              | LEFT => q = j | RIGHT => q = cols - 1 - j end) -> tn r q = tn' r q) ->
  k <= nsl rows cols p ->
  bmps_from o rows cols tn p k = bmps_from o rows cols tn' p k.
Proof.
  induction k as [|k IH]; intros H Hk; [reflexivity|]. simpl. f_equal.
  - apply outer_slice_ext; [|lia]. intros r q Hr Hq Hp. apply (H r q k); auto.
  - apply IH; [|lia]. intros r q j Hr Hq Hj. apply H; auto.
Qed.

(** Networks that agree outside one site. *)
Definition agree_off (rows cols : nat) (x : site) (tn tn' : net o) : Prop :=
  forall r q, r < rows -> q < cols -> (r, q) <> x -> tn r q = tn' r q.

Lemma bmps_from_update rows cols tn tn' x p k :
  agree_off rows cols x tn tn' -> fst x < rows -> snd x < cols ->
  k < keep_len rows cols x p ->
  bmps_from o rows cols tn p k = bmps_from o rows cols tn' p k.
Proof.
  intros H Hr Hc Hk. apply bmps_from_ext.
  - intros r q j Hr' Hq Hj Hp. apply H; auto. intros E. subst x. simpl in *.
    destruct p; simpl in *; lia.
  - destruct p; simpl in *; lia.
Qed.

Lemma boundary_update rows cols tn tn' x p s :
  agree_off rows cols x tn tn' -> fst x < rows -> snd x < cols ->
  (match p with UP | DOWN => s = fst x | LEFT | RIGHT => s = snd x end) ->
  boundary o rows cols tn p s = boundary o rows cols tn' p s.
Proof.
  intros H Hr Hc Hs. unfold boundary. apply bmps_from_update with x; auto.
  destruct p; simpl in *; lia.
Qed.

(** Environments of the updated slice that stop before the updated site survive. *)
Lemma env_from_update rows cols tn tn' x p s k :
  agree_off rows cols x tn tn' -> fst x < rows -> snd x < cols ->
  (match p with LEFT | RIGHT => s = fst x | UP | DOWN => s = snd x end) ->
  k < keep_len rows cols x p ->
  env_from o rows cols tn p s k = env_from o rows cols tn' p s k.
Proof.
  intros H Hr Hc Hs Hk.
  assert (B1 : boundary o rows cols tn (pre_of p) s = boundary o rows cols tn' (pre_of p) s)
    by (apply boundary_update with x; auto; destruct p; simpl; auto).
  assert (B2 : boundary o rows cols tn (next_of p) s = boundary o rows cols tn' (next_of p) s)
    by (apply boundary_update with x; auto; destruct p; simpl; auto).
  induction k as [|k IH]; simpl.
  - now rewrite B1, B2.
  - rewrite IH by lia. rewrite B1, B2. f_equal.
    destruct p; simpl in *; apply H; try lia; intros E; subst x; simpl in *; lia.
Qed.

Lemma firstn_bmS rows cols tn p n k :
  firstn k (bmS rows cols tn p n) = bmS rows cols tn p (min k n).
Proof. unfold bmS. now rewrite firstn_map, firstn_seq. Qed.
Lemma firstn_btS rows cols tn p s n k :
  firstn k (btS rows cols tn p s n) = btS rows cols tn p s (min k n).
Proof. unfold btS. now rewrite firstn_map, firstn_seq. Qed.

Lemma bmS_update rows cols tn tn' x p n :
  agree_off rows cols x tn tn' -> fst x < rows -> snd x < cols ->
  n <= keep_len rows cols x p ->
  bmS rows cols tn p n = bmS rows cols tn' p n.
Proof.
  intros. unfold bmS. apply map_ext_in. intros k Hk. apply in_seq in Hk.
  apply bmps_from_update with x; auto. lia.
Qed.
Lemma btS_update rows cols tn tn' x p s n :
  agree_off rows cols x tn tn' -> fst x < rows -> snd x < cols ->
  (match p with LEFT | RIGHT => s = fst x | UP | DOWN => s = snd x end) ->
  n <= keep_len rows cols x p ->
  btS rows cols tn p s n = btS rows cols tn' p s n.
Proof.
  intros. unfold btS. apply map_ext_in. intros k Hk. apply in_seq in Hk.
  apply env_from_update with x; auto. lia.
Qed.

(** *** Reading a boundary MPS *)
Lemma bmps_at_slice_ok tn c p s n :
  bm c p = bmS (rows_ c) (cols_ c) tn p n -> s < nsl (rows_ c) (cols_ c) p ->
  depth (rows_ c) (cols_ c) p s < n ->
  bmps_at_slice o c p s = Ok (boundary o (rows_ c) (cols_ c) tn p s).
Proof.
  intros Hb Hs Hd. unfold bmps_at_slice, boundary, at_.
  destruct p; simpl in *;
    try (destruct (_ <? _) eqn:E; [|apply Nat.ltb_ge in E; lia]);
    rewrite Hb; unfold bmS; rewrite nth_error_map_seq;
    match goal with |- context [if ?b then _ else _] => destruct b eqn:E2 end; auto;
    apply Nat.ltb_ge in E2; lia.
Qed.

Lemma get_site_ok rows cols tn r q : r < rows -> q < cols -> get_site o rows cols tn r q = Ok (tn r q).
Proof.
  intros. unfold get_site. destruct (r <? rows) eqn:E1; [|apply Nat.ltb_ge in E1; lia].
  destruct (q <? cols) eqn:E2; [|apply Nat.ltb_ge in E2; lia]. reflexivity.
Qed.

Lemma mps_idx_ok n b i : i < n -> mps_idx o n b i = Ok (mps_at o b i).
Proof. intros. unfold mps_idx. destruct (i <? n) eqn:E; auto. apply Nat.ltb_ge in E; lia. Qed.

Lemma env_site_in rows cols p s i :
  i < wid rows cols (pre_of p) -> s < nsl rows cols (pre_of p) ->
  fst (env_site (wid rows cols (pre_of p)) p s i) < rows /\
  snd (env_site (wid rows cols (pre_of p)) p s i) < cols.
Proof. destruct p; simpl; lia. Qed.

Lemma nsl_next rows cols p : nsl rows cols (next_of p) = nsl rows cols (pre_of p).
Proof. destruct p; reflexivity. Qed.

(** Growing one site with the right boundary MPS yields the next entry of the table. *)
Lemma env_grow_with_ok tn p c s n :
  bt c p = btS (rows_ c) (cols_ c) tn p s (S n) ->
  n < wid (rows_ c) (cols_ c) (pre_of p) -> s < nsl (rows_ c) (cols_ c) (pre_of p) ->
  env_grow_with o tn p (boundary o (rows_ c) (cols_ c) tn (pre_of p) s)
     (boundary o (rows_ c) (cols_ c) tn (next_of p) s) s n c
  = Ok (set_bt o c p (btS (rows_ c) (cols_ c) tn p s (S (S n)))).
Proof.
  intros Hb Hn Hs. unfold env_grow_with.
  destruct (n <? _) eqn:E; [|apply Nat.ltb_ge in E; lia].
  rewrite !mps_idx_ok by lia. cbn [bind].
  destruct (env_site_in (rows_ c) (cols_ c) p s n Hn Hs) as [A B].
  rewrite get_site_ok by auto. cbn [bind].
  rewrite Hb, btS_snoc, back_app. cbn [bind]. rewrite (btS_snoc _ _ _ _ _ (S n)), btS_snoc.
  reflexivity.
Qed.

Lemma iter_env_ok tn p s k : forall c n,
  bt c p = btS (rows_ c) (cols_ c) tn p s (S n) ->
  n + k <= wid (rows_ c) (cols_ c) (pre_of p) -> s < nsl (rows_ c) (cols_ c) (pre_of p) ->
  exists c', iter_res k (fun x => env_grow_with o tn p
      (boundary o (rows_ c) (cols_ c) tn (pre_of p) s)
      (boundary o (rows_ c) (cols_ c) tn (next_of p) s) s (length (bt x p) - 1) x) c = Ok c' /\
    rows_ c' = rows_ c /\ cols_ c' = cols_ c /\
    bt c' p = btS (rows_ c) (cols_ c) tn p s (S (n + k)) /\
    (forall q, q <> p -> bt c' q = bt c q) /\
    (forall q, bm c' q = bm c q) /\ (forall q, bt2 c' q = bt2 c q).
Proof.
  induction k as [|k IH]; intros c n Hb H1 Hs.
  - exists c. simpl. rewrite Nat.add_0_r. auto 10.
  - simpl. rewrite Hb, btS_length. replace (S n - 1) with n by lia.
    rewrite (env_grow_with_ok tn p c s n Hb) by lia. cbn [bind].
    destruct (IH (set_bt o c p (btS (rows_ c) (cols_ c) tn p s (S (S n)))) (S n)) as
      (c' & E & R & C & B & O1 & O2 & O3).
    + simpl. now rewrite upd_same.
    + simpl. lia.
    + exact Hs.
    + exists c'. split; [exact E|]. simpl in *. rewrite R, C, B.
      repeat split; try (f_equal; lia); auto.
      intros q Hq. rewrite O1 by auto. apply upd_other. auto.
Qed.

Lemma init_bten_ok tn p c s n1 n2 :
  bm c (pre_of p) = bmS (rows_ c) (cols_ c) tn (pre_of p) n1 ->
  bm c (next_of p) = bmS (rows_ c) (cols_ c) tn (next_of p) n2 ->
  s < nsl (rows_ c) (cols_ c) (pre_of p) ->
  depth (rows_ c) (cols_ c) (pre_of p) s < n1 ->
  depth (rows_ c) (cols_ c) (next_of p) s < n2 ->
  1 <= wid (rows_ c) (cols_ c) (pre_of p) ->
  init_bten o tn p s c = Ok (set_bt o c p (btS (rows_ c) (cols_ c) tn p s 1)).
Proof.
  intros B1 B2 Hs D1 D2 Hw. unfold init_bten, usub.
  destruct (_ <? 1) eqn:E; [apply Nat.ltb_lt in E; lia|]. cbn [bind].
  rewrite (bmps_at_slice_ok tn c _ s n1) by auto. cbn [bind].
  rewrite mps_idx_ok by lia. cbn [bind].
  rewrite (bmps_at_slice_ok tn c _ s n2) by (auto; rewrite nsl_next; auto). cbn [bind].
  rewrite mps_idx_ok by lia. cbn [bind].
  destruct (env_site_in (rows_ c) (cols_ c) p s 0) as [A B]; [lia|auto|].
  rewrite get_site_ok by auto. cbn [bind]. reflexivity.
Qed.

Lemma grow_full_bten_ok tn p c s rem n1 n2 :
  bm c (pre_of p) = bmS (rows_ c) (cols_ c) tn (pre_of p) n1 ->
  bm c (next_of p) = bmS (rows_ c) (cols_ c) tn (next_of p) n2 ->
  s < nsl (rows_ c) (cols_ c) (pre_of p) ->
  depth (rows_ c) (cols_ c) (pre_of p) s < n1 ->
  depth (rows_ c) (cols_ c) (next_of p) s < n2 ->
  1 <= rem <= wid (rows_ c) (cols_ c) (pre_of p) ->
  exists c', grow_full_bten o tn p s rem true c = Ok c' /\
    rows_ c' = rows_ c /\ cols_ c' = cols_ c /\
    bt c' p = btS (rows_ c) (cols_ c) tn p s (S (wid (rows_ c) (cols_ c) (pre_of p) - rem)) /\
    (forall q, q <> p -> bt c' q = bt c q) /\
    (forall q, bm c' q = bm c q) /\ (forall q, bt2 c' q = bt2 c q).
Proof.
  intros B1 B2 Hs D1 D2 Hw. unfold grow_full_bten.
  rewrite (init_bten_ok tn p c s n1 n2) by (auto; lia). cbn [bind].
  set (c0 := set_bt o c p (btS (rows_ c) (cols_ c) tn p s 1)).
  unfold usub. destruct (_ <? rem) eqn:E; [apply Nat.ltb_lt in E; lia|]. cbn [bind].
  rewrite (bmps_at_slice_ok tn c0 _ s n1) by auto. cbn [bind].
  rewrite (bmps_at_slice_ok tn c0 _ s n2) by (auto; simpl; rewrite nsl_next; auto). cbn [bind].
  assert (L : bt c0 p = btS (rows_ c) (cols_ c) tn p s 1) by (simpl; apply upd_same).
  rewrite L, btS_length. cbn [Nat.eqb]. replace (1 - 1) with 0 by lia. rewrite Nat.sub_0_r.
  destruct (iter_env_ok tn p s (wid (rows_ c) (cols_ c) (pre_of p) - rem) c0 0) as
    (c' & E1 & R & C & B & O1 & O2 & O3).
  - exact L.
  - simpl. lia.
  - exact Hs.
  - exists c'. split; [exact E1|]. simpl in *. repeat split; auto.
    intros q Hq. rewrite O1 by auto. apply upd_other; auto.
Qed.

(** *** Two-layer environments *)
Lemma env2_grow_with_ok tn p c s n :
  bt2 c p = bt2S (rows_ c) (cols_ c) tn p s (S n) ->
  n < wid (rows_ c) (cols_ c) (pre_of p) -> s + 1 < nsl (rows_ c) (cols_ c) (pre_of p) ->
  env2_grow_with o tn p
     (boundary o (rows_ c) (cols_ c) tn (pre_of p) (fst (layers p s)))
     (boundary o (rows_ c) (cols_ c) tn (next_of p) (snd (layers p s))) s n c
  = Ok (set_bt2 o c p (bt2S (rows_ c) (cols_ c) tn p s (S (S n)))).
Proof.
  intros Hb Hn Hs. unfold env2_grow_with.
  rewrite (surjective_pairing (layers p s)) at 1.
  destruct (n <? _) eqn:E; [|apply Nat.ltb_ge in E; lia].
  rewrite !mps_idx_ok by lia. cbn [bind].
  assert (L1 : fst (layers p s) < nsl (rows_ c) (cols_ c) (pre_of p)) by (destruct p; simpl in *; lia).
  assert (L2 : snd (layers p s) < nsl (rows_ c) (cols_ c) (pre_of p)) by (destruct p; simpl in *; lia).
  destruct (env_site_in (rows_ c) (cols_ c) p _ n Hn L1) as [A1 A2].
  destruct (env_site_in (rows_ c) (cols_ c) p _ n Hn L2) as [A3 A4].
  rewrite !get_site_ok by auto. cbn [bind].
  rewrite Hb, bt2S_snoc, back_app. cbn [bind]. rewrite (bt2S_snoc _ _ _ _ _ (S n)), bt2S_snoc.
  reflexivity.
Qed.

Lemma iter_env2_ok tn p s k : forall c n,
  bt2 c p = bt2S (rows_ c) (cols_ c) tn p s (S n) ->
  n + k <= wid (rows_ c) (cols_ c) (pre_of p) -> s + 1 < nsl (rows_ c) (cols_ c) (pre_of p) ->
  exists c', iter_res k (fun x => env2_grow_with o tn p
      (boundary o (rows_ c) (cols_ c) tn (pre_of p) (fst (layers p s)))
      (boundary o (rows_ c) (cols_ c) tn (next_of p) (snd (layers p s))) s (length (bt2 x p) - 1) x) c = Ok c' /\
    rows_ c' = rows_ c /\ cols_ c' = cols_ c /\
    bt2 c' p = bt2S (rows_ c) (cols_ c) tn p s (S (n + k)) /\
    (forall q, q <> p -> bt2 c' q = bt2 c q) /\
    (forall q, bm c' q = bm c q) /\ (forall q, bt c' q = bt c q).
Proof.
  induction k as [|k IH]; intros c n Hb H1 Hs.
  - exists c. simpl. rewrite Nat.add_0_r. auto 10.
  - cbn [iter_res]. rewrite Hb, bt2S_length. replace (S n - 1) with n by lia.
    rewrite (env2_grow_with_ok tn p c s n Hb) by lia. cbn [bind].
    destruct (IH (set_bt2 o c p (bt2S (rows_ c) (cols_ c) tn p s (S (S n)))) (S n)) as
      (c' & E & R & C & B & O1 & O2 & O3).
    + simpl. now rewrite upd_same.
    + simpl. lia.
    + exact Hs.
    + exists c'. split; [exact E|]. simpl in *. rewrite R, C, B.
      repeat split; try (f_equal; lia); auto.
      intros q Hq. rewrite O1 by auto. apply upd_other. auto.
Qed.

Lemma init_bten2_ok tn p c s n1 n2 :
  bm c (pre_of p) = bmS (rows_ c) (cols_ c) tn (pre_of p) n1 ->
  bm c (next_of p) = bmS (rows_ c) (cols_ c) tn (next_of p) n2 ->
  s + 1 < nsl (rows_ c) (cols_ c) (pre_of p) ->
  depth (rows_ c) (cols_ c) (pre_of p) (fst (layers p s)) < n1 ->
  depth (rows_ c) (cols_ c) (next_of p) (snd (layers p s)) < n2 ->
  1 <= wid (rows_ c) (cols_ c) (pre_of p) ->
  init_bten2 o tn p s c = Ok (set_bt2 o c p (bt2S (rows_ c) (cols_ c) tn p s 1)).
Proof.
  intros B1 B2 Hs D1 D2 Hw. unfold init_bten2, usub.
  rewrite (surjective_pairing (layers p s)) at 1.
  assert (L1 : fst (layers p s) < nsl (rows_ c) (cols_ c) (pre_of p)) by (destruct p; simpl in *; lia).
  assert (L2 : snd (layers p s) < nsl (rows_ c) (cols_ c) (pre_of p)) by (destruct p; simpl in *; lia).
  destruct (_ <? 1) eqn:E; [apply Nat.ltb_lt in E; lia|]. cbn [bind].
  rewrite (bmps_at_slice_ok tn c _ _ n1) by auto. cbn [bind].
  rewrite mps_idx_ok by lia. cbn [bind].
  rewrite (bmps_at_slice_ok tn c _ _ n2) by (auto; rewrite nsl_next; auto). cbn [bind].
  rewrite mps_idx_ok by lia. cbn [bind].
  destruct (env_site_in (rows_ c) (cols_ c) p (fst (layers p s)) 0) as [A B]; [lia|auto|].
  destruct (env_site_in (rows_ c) (cols_ c) p (snd (layers p s)) 0) as [A' B']; [lia|auto|].
  rewrite !get_site_ok by auto. cbn [bind]. reflexivity.
Qed.

Lemma grow_full_bten2_ok tn p c s rem n1 n2 :
  bm c (pre_of p) = bmS (rows_ c) (cols_ c) tn (pre_of p) n1 ->
  bm c (next_of p) = bmS (rows_ c) (cols_ c) tn (next_of p) n2 ->
  s + 1 < nsl (rows_ c) (cols_ c) (pre_of p) ->
  depth (rows_ c) (cols_ c) (pre_of p) (fst (layers p s)) < n1 ->
  depth (rows_ c) (cols_ c) (next_of p) (snd (layers p s)) < n2 ->
  1 <= rem <= wid (rows_ c) (cols_ c) (pre_of p) ->
  exists c', grow_full_bten2 o tn p s rem true c = Ok c' /\
    rows_ c' = rows_ c /\ cols_ c' = cols_ c /\
    bt2 c' p = bt2S (rows_ c) (cols_ c) tn p s (S (wid (rows_ c) (cols_ c) (pre_of p) - rem)) /\
    (forall q, q <> p -> bt2 c' q = bt2 c q) /\
    (forall q, bm c' q = bm c q) /\ (forall q, bt c' q = bt c q).
Proof.
  intros B1 B2 Hs D1 D2 Hw. unfold grow_full_bten2.
  rewrite (init_bten2_ok tn p c s n1 n2) by (auto; lia). cbn [bind].
  assert (L1 : fst (layers p s) < nsl (rows_ c) (cols_ c) (pre_of p)) by (destruct p; simpl in *; lia).
  assert (L2 : snd (layers p s) < nsl (rows_ c) (cols_ c) (pre_of p)) by (destruct p; simpl in *; lia).
  set (c0 := set_bt2 o c p (bt2S (rows_ c) (cols_ c) tn p s 1)).
  assert (Q := fun k => iter_env2_ok tn p s k c0 0).
  destruct (layers p s) as [s1 s2] eqn:EL. cbn [fst snd] in *.
  rewrite (bmps_at_slice_ok tn c0 _ _ n1) by auto. cbn [bind].
  rewrite (bmps_at_slice_ok tn c0 _ _ n2) by (auto; simpl; rewrite nsl_next; auto). cbn [bind].
  unfold usub. destruct (_ <? rem) eqn:E; [apply Nat.ltb_lt in E; lia|]. cbn [bind].
  assert (L : bt2 c0 p = bt2S (rows_ c) (cols_ c) tn p s 1) by (simpl; apply upd_same).
  rewrite L, bt2S_length. cbn [Nat.eqb]. replace (1 - 1) with 0 by lia. rewrite Nat.sub_0_r.
  destruct (Q (wid (rows_ c) (cols_ c) (pre_of p) - rem)) as
    (c' & E1 & R & C & B & O1 & O2 & O3).
  - exact L.
  - simpl. lia.
  - exact Hs.
  - exists c'. split; [exact E1|]. simpl in *. repeat split; auto.
    intros q Hq. rewrite O1 by auto. apply upd_other; auto.
Qed.

Lemma bmps_idx_slice_ok tn c p s n :
  bm c p = bmS (rows_ c) (cols_ c) tn p n -> s < nsl (rows_ c) (cols_ c) p ->
  depth (rows_ c) (cols_ c) p s < n ->
  bmps_idx_slice o c p s = Ok (boundary o (rows_ c) (cols_ c) tn p s).
Proof.
  intros Hb Hs Hd. unfold bmps_idx_slice, boundary, idx, usub.
  destruct p; cbn [nsl depth] in *; rewrite ?Hb;
  repeat match goal with
  | |- context [?a <? ?b] => destruct (a <? b) eqn:E;
      [apply Nat.ltb_lt in E; try lia|]
  end; cbn [bind]; unfold bmS; rewrite nth_error_map_seq;
  match goal with |- context [if ?b then _ else _] => destruct b eqn:E2 end;
  try (apply Nat.ltb_ge in E2; lia); do 2 f_equal; lia.
Qed.

End P.
