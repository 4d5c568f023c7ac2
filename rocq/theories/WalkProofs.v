(** The walker's caches over any history of calls. *)
From Coq Require Import List Arith Lia Bool ZArith Reals.
From Verif Require Import Base Cplx WalkModel WalkSpec WalkAlg.
Import ListNotations.

Lemma skipn_cons : forall X (l : list X) i x, nth_error l i = Some x -> skipn i l = x :: skipn (i + 1) l.
Proof.
  induction l as [|a l IH]; intros i x H; destruct i; simpl in H; try discriminate.
  - injection H as ->. reflexivity.
  - simpl. apply IH. exact H.
Qed.
Lemma firstn_snoc : forall X (l : list X) i x, nth_error l i = Some x -> firstn (i + 1) l = firstn i l ++ [x].
Proof.
  induction l as [|a l IH]; intros i x H; destruct i; simpl in H; try discriminate.
  - injection H as ->. reflexivity.
  - simpl. f_equal. apply IH. exact H.
Qed.
Lemma nth_error_combine : forall X Y (l : list X) (l' : list Y) i x y,
  nth_error l i = Some x -> nth_error l' i = Some y -> nth_error (combine l l') i = Some (x, y).
Proof.
  induction l as [|a l IH]; intros l' i x y H H'; destruct i; destruct l'; simpl in *; try discriminate.
  - congruence.
  - apply IH; assumption.
Qed.
Lemma nth_error_rev : forall X (l : list X) i, i < length l -> nth_error (rev l) i = nth_error l (length l - 1 - i).
Proof.
  intros X l i H. destruct l as [|d l0]; [simpl in H; lia|]. set (l := d :: l0) in *.
  rewrite (nth_error_nth' (rev l) d) by (rewrite rev_length; exact H).
  rewrite (nth_error_nth' l d) by lia. f_equal. rewrite rev_nth by exact H. f_equal. lia.
Qed.
Lemma combine_len : forall X Y (l : list X) (l' : list Y), length l = length l' -> length (combine l l') = length l.
Proof. intros. rewrite combine_length. lia. Qed.
Lemma some_lt : forall X (l : list X) i, i < length l -> exists x, nth_error l i = Some x.
Proof. intros X l i H. destruct (nth_error l i) eqn:E; [eauto|]. apply nth_error_None in E. lia. Qed.
Lemma lt_some : forall X (l : list X) i x, nth_error l i = Some x -> i < length l.
Proof. intros X l i x H. apply nth_error_Some. congruence. Qed.

Lemma rev_last : forall X (l : list X) b r, rev l = b :: r -> nth_error l (length l - 1) = Some b.
Proof.
  intros X l b r H. apply (f_equal (@rev X)) in H. rewrite rev_involutive in H. subst l. simpl.
  rewrite app_length, rev_length. simpl. rewrite nth_error_app2 by (rewrite rev_length; lia).
  rewrite rev_length. replace (length r + 1 - 1 - length r) with 0 by lia. reflexivity.
Qed.
Lemma rev_nonempty : forall X (l : list X), l <> [] -> exists b r, rev l = b :: r.
Proof.
  intros X l H. destruct (rev l) eqn:E; [|eauto]. exfalso. apply H. apply (f_equal (@length X)) in E. rewrite rev_length in E.
  destruct l; [reflexivity | discriminate].
Qed.
Lemma removelast_nth : forall X (l : list X) i x, nth_error (removelast l) i = Some x -> nth_error l i = Some x.
Proof.
  induction l as [|a l IH]; intros i x H; [destruct i; discriminate|].
  destruct l as [|b l]; [destruct i; discriminate|]. destruct i; [exact H|]. apply IH. exact H.
Qed.
Lemma removelast_len : forall X (l : list X), length (removelast l) = length l - 1.
Proof.
  induction l as [|a l IH]; [reflexivity|]. destruct l as [|b l]; [reflexivity|].
  change (removelast (a :: b :: l)) with (a :: removelast (b :: l)). simpl length in *. rewrite IH. lia.
Qed.
Lemma app_one_nth : forall X (l : list X) a i x, nth_error (l ++ [a]) i = Some x ->
  nth_error l i = Some x \/ (i = length l /\ x = a).
Proof.
  intros X l a i x H. destruct (Nat.lt_ge_cases i (length l)) as [L|L].
  - rewrite nth_error_app1 in H by exact L. auto.
  - rewrite nth_error_app2 in H by exact L. destruct (i - length l) as [|k] eqn:E; simpl in H.
    + right. split; [lia | congruence].
    + destruct k; discriminate.
Qed.

Section Walk.
Variable D : nat.
Hypothesis D1 : 1 <= D.
Variables up mpo opp : list tensor.
Notation n := (length up).
Hypothesis n1 : 1 <= n.
Hypothesis n_size : (Z.of_nat n < 2 ^ 64)%Z.
Hypothesis mpo_n : length mpo = n.
Hypothesis opp_n : length opp = n.

Notation cols := (columns D up mpo opp).

Lemma zero_in : In zero_bonds (all_bonds D).
Proof. apply in_bonds. simpl. lia. Qed.
Lemma cols_len : length cols = n.
Proof. unfold columns. rewrite map_length, !combine_length, rev_length. lia. Qed.
Lemma cols_nth : forall c u s d, c < n -> nth_error up (n - 1 - c) = Some u -> nth_error mpo c = Some s -> nth_error opp c = Some d ->
  nth_error cols c = Some (column D u s d).
Proof.
  intros c u s d H U S0 D0. unfold columns. rewrite nth_error_map.
  rewrite (nth_error_combine _ _ _ _ c (u, s) d); [reflexivity| |exact D0].
  apply nth_error_combine; [|exact S0]. rewrite nth_error_rev by exact H. exact U.
Qed.

(** what a cached boundary tensor should contain *)
Definition left_ok (k : nat) (t : tensor) : Prop :=
  forall m, In m (all_bonds D) -> t [fst (fst m); snd (fst m); snd m] = weight D (firstn k cols) zero_bonds m.
Definition right_ok (k : nat) (t : tensor) : Prop :=
  forall m, In m (all_bonds D) -> t [snd m; snd (fst m); fst (fst m)] = weight D (skipn (n - k) cols) m zero_bonds.

Lemma vacuum_left : left_ok 0 vacuum.
Proof.
  intros [[x y] z] _. cbn [firstn fst snd]. rewrite weight_nil. unfold vacuum, bonds_eqb, zero_bonds. cbn [fst snd].
  cbn [forallb]. rewrite andb_true_r, andb_assoc. reflexivity.
Qed.
Lemma vacuum_right : right_ok 0 vacuum.
Proof.
  intros [[x y] z] _. rewrite Nat.sub_0_r, <- cols_len, skipn_all. rewrite weight_nil.
  unfold vacuum, bonds_eqb, zero_bonds. cbn [fst snd forallb]. rewrite andb_true_r.
  rewrite (Nat.eqb_sym x), (Nat.eqb_sym y), (Nat.eqb_sym z).
  destruct (0 =? x), (0 =? y), (0 =? z); reflexivity.
Qed.
Lemma grow_left_ok : forall k t u s d, left_ok k t -> k < n ->
  nth_error up (n - 1 - k) = Some u -> nth_error mpo k = Some s -> nth_error opp k = Some d ->
  left_ok (k + 1) (grow_left D t u s d).
Proof.
  intros k t u s d H K U S0 D0 [[x y] z] M. cbn [fst snd]. rewrite grow_left_elem.
  rewrite (firstn_snoc _ _ k _ (cols_nth k u s d K U S0 D0)).
  rewrite weight_snoc; [|exact zero_in | exact M]. apply sumC_ext. intros m Hm. rewrite H by exact Hm. reflexivity.
Qed.
Lemma grow_right_ok : forall k t u s d, right_ok k t -> k < n ->
  nth_error up (n - 1 - (n - 1 - k)) = Some u -> nth_error mpo (n - 1 - k) = Some s -> nth_error opp (n - 1 - k) = Some d ->
  right_ok (k + 1) (grow_right D t d s u).
Proof.
  intros k t u s d H K U S0 D0 [[x y] z] M. cbn [fst snd]. rewrite grow_right_elem.
  assert (X : nth_error cols (n - (k + 1)) = Some (column D u s d)).
  { replace (n - (k + 1)) with (n - 1 - k) by lia. apply cols_nth; auto. lia. }
  rewrite (skipn_cons _ _ _ _ X). cbn [weight].
  apply sumC_ext. intros m Hm. rewrite H by exact Hm. replace (n - (k + 1) + 1) with (n - k) by lia. reflexivity.
Qed.

(** the caches of the walker, at any time *)
Record inv (w : walker) : Prop := {
  inv_up : w_up w = up;
  inv_left : forall k t, nth_error (w_left w) k = Some t -> left_ok k t;
  inv_right : forall k t, nth_error (w_right w) k = Some t -> right_ok k t;
  inv_left_col : w_left w <> [] -> w_left_col w = (Z.of_nat (length (w_left w)) - 1)%Z /\ length (w_left w) <= n + 1;
  inv_right_col : w_right w <> [] -> w_right_col w = (Z.of_nat n - Z.of_nat (length (w_right w)) + 1)%Z /\ length (w_right w) <= n + 1
}.

Lemma wrap_small : forall z, (0 <= z < 2 ^ 64)%Z -> wrap z = z.
Proof. intros z H. unfold wrap. apply Z.mod_small. exact H. Qed.

Lemma mismatch_no : forall w, w_up w = up -> mismatch w mpo opp = false.
Proof.
  intros w H. unfold mismatch. rewrite H, mpo_n, opp_n, Nat.eqb_refl.
  destruct (Nat.eqb_spec n 0); [lia|]. reflexivity.
Qed.

Lemma grow_left_step_inv : forall w, inv w ->
  inv (fst (grow_left_step D w mpo opp)) /\ snd (grow_left_step D w mpo opp) <> Undefined
  /\ (w_left w <> [] -> (w_left_col w < Z.of_nat n)%Z -> snd (grow_left_step D w mpo opp) = Done
       /\ length (w_left (fst (grow_left_step D w mpo opp))) = length (w_left w) + 1)
  /\ w_right (fst (grow_left_step D w mpo opp)) = w_right w
  /\ w_right_col (fst (grow_left_step D w mpo opp)) = w_right_col w.
Proof.
  intros w I. assert (U := inv_up w I). unfold grow_left_step. rewrite (mismatch_no w U).
  destruct (some_lt _ up (n - 1 - 0)) as [u0 U0]; [lia|].
  destruct (some_lt _ mpo 0) as [s0 S0]; [lia|]. destruct (some_lt _ opp 0) as [d0 D0]; [lia|].
  destruct (w_left w) as [|b0 bl] eqn:L.
  - destruct (Z.eqb_spec (w_left_col w) 0) as [Z0|Z0]; cbn [negb].
    + rewrite U. unfold get. rewrite U0, S0, D0. cbn [fst snd].
      split; [|split; [discriminate | split; [congruence | split; reflexivity]]].
      constructor; cbn [w_up w_left w_right w_left_col w_right_col].
      * reflexivity.
      * intros [|[|k]] t T; cbn [nth_error] in T.
        -- injection T as <-. apply vacuum_left.
        -- injection T as <-. apply (grow_left_ok 0); auto. apply vacuum_left.
        -- destruct k; discriminate.
      * apply (inv_right w I).
      * intros _. rewrite Z0. rewrite wrap_small by lia. simpl length. split; lia.
      * apply (inv_right_col w I).
    + cbn [fst snd]. split; [exact I|]. split; [discriminate|]. split; [congruence | split; reflexivity].
  - destruct (inv_left_col w I) as [C1 C2]; [congruence|]. rewrite <- L. rewrite U.
    destruct (Z.leb_spec (Z.of_nat n) (w_left_col w)) as [Le|Lt].
    + cbn [fst snd]. split; [exact I|]. split; [discriminate|]. split; [intros; lia | split; reflexivity].
    + destruct (rev_nonempty _ (w_left w)) as (b & r & R); [congruence|]. rewrite R.
      assert (B := rev_last _ _ _ _ R).
      assert (P : 1 <= length (w_left w)) by (rewrite L; simpl; lia).
      set (c := Z.to_nat (w_left_col w)) in *.
      assert (Cc : c = length (w_left w) - 1) by lia.
      destruct (some_lt _ up (n - 1 - c)) as [u Uu]; [lia|].
      destruct (some_lt _ mpo c) as [s Ss]; [lia|]. destruct (some_lt _ opp c) as [d Dd]; [lia|].
      unfold get. rewrite Uu, Ss, Dd. cbn [fst snd].
      split; [|split; [discriminate | split; [|split; reflexivity]]].
      * constructor; cbn [w_up w_left w_right w_left_col w_right_col].
        -- reflexivity.
        -- intros k t T. apply app_one_nth in T. destruct T as [T|[-> ->]]; [apply (inv_left w I); exact T|].
           replace (length (w_left w)) with (c + 1) by lia. apply grow_left_ok; auto; [|lia].
           apply (inv_left w I). rewrite Cc. exact B.
        -- apply (inv_right w I).
        -- intros _. rewrite app_length. simpl length. rewrite wrap_small by lia. split; lia.
        -- apply (inv_right_col w I).
      * intros _ _. cbn [w_left]. rewrite app_length. split; reflexivity.
Qed.

Lemma grow_right_step_inv : forall w, inv w ->
  inv (fst (grow_right_step D w mpo opp)) /\ snd (grow_right_step D w mpo opp) <> Undefined
  /\ (w_right w <> [] -> (0 < w_right_col w)%Z -> snd (grow_right_step D w mpo opp) = Done
       /\ length (w_right (fst (grow_right_step D w mpo opp))) = length (w_right w) + 1)
  /\ w_left (fst (grow_right_step D w mpo opp)) = w_left w
  /\ w_left_col (fst (grow_right_step D w mpo opp)) = w_left_col w.
Proof.
  intros w I. assert (U := inv_up w I). unfold grow_right_step.
  destruct (rev (w_right w)) as [|b r] eqn:R.
  - assert (w_right w = []) as E.
    { apply (f_equal (@length tensor)) in R. rewrite rev_length in R. destruct (w_right w); [reflexivity | discriminate]. }
    cbn [fst snd]. split; [exact I|]. split; [discriminate|]. split; [congruence | split; reflexivity].
  - assert (NE : w_right w <> []) by (intros E; rewrite E in R; discriminate).
    destruct (inv_right_col w I NE) as [C1 C2]. assert (B := rev_last _ _ _ _ R).
    assert (P : 1 <= length (w_right w)) by (destruct (w_right w); [congruence | simpl; lia]).
    destruct (Z.eqb_spec (w_right_col w) 0) as [Z0|Z0].
    + cbn [fst snd]. split; [exact I|]. split; [discriminate|]. split; [intros; lia | split; reflexivity].
    + rewrite U. set (c := Z.to_nat (w_right_col w - 1)) in *.
      assert (Cc : c = n - 1 - (length (w_right w) - 1)) by lia.
      destruct (Nat.leb_spec n c) as [|Lc]; [lia|].
      destruct (some_lt _ up (n - 1 - c)) as [u Uu]; [lia|].
      destruct (some_lt _ mpo c) as [s Ss]; [lia|]. destruct (some_lt _ opp c) as [d Dd]; [lia|].
      unfold get. rewrite Uu, Ss, Dd. cbn [fst snd].
      split; [|split; [discriminate | split; [|split; reflexivity]]].
      * constructor; cbn [w_up w_left w_right w_left_col w_right_col].
        -- reflexivity.
        -- apply (inv_left w I).
        -- intros k t T. apply app_one_nth in T. destruct T as [T|[-> ->]]; [apply (inv_right w I); exact T|].
           replace (length (w_right w)) with (length (w_right w) - 1 + 1) by lia.
           apply grow_right_ok; try lia; try (rewrite <- Cc; assumption).
           apply (inv_right w I). exact B.
        -- apply (inv_left_col w I).
        -- intros _. rewrite app_length. simpl length. rewrite wrap_small by lia. split; lia.
      * intros _ _. cbn [w_right]. rewrite app_length. split; reflexivity.
Qed.

Lemma init_left_loop_inv : forall f t w, inv w -> w_left w <> [] -> (Z.of_nat n <= w_left_col w + Z.of_nat f)%Z ->
  inv (fst (init_left_loop D f t mpo opp w)) /\ snd (init_left_loop D f t mpo opp w) = Done
  /\ w_left_col (fst (init_left_loop D f t mpo opp w)) = Z.max (w_left_col w) (Z.min (Z.of_nat t) (Z.of_nat n))
  /\ w_left (fst (init_left_loop D f t mpo opp w)) <> []
  /\ w_right (fst (init_left_loop D f t mpo opp w)) = w_right w
  /\ w_right_col (fst (init_left_loop D f t mpo opp w)) = w_right_col w.
Proof.
  induction f as [|f IH]; intros t w I NE Hf; assert (U := inv_up w I); cbn [init_left_loop]; rewrite U.
  - destruct (Z.ltb_spec (w_left_col w) (Z.of_nat t)) as [A|A]; cbn [andb].
    + destruct (Z.ltb_spec (w_left_col w) (Z.of_nat n)) as [B|B]; [lia|]. cbn [fst snd].
      repeat split; try reflexivity; try apply I; auto. destruct (inv_left_col w I NE). lia.
    + cbn [fst snd]. repeat split; try reflexivity; try apply I; auto. lia.
  - destruct (Z.ltb_spec (w_left_col w) (Z.of_nat t)) as [A|A]; cbn [andb].
    + destruct (Z.ltb_spec (w_left_col w) (Z.of_nat n)) as [B|B]; cbn [fst snd].
      * destruct (grow_left_step_inv w I) as (I' & _ & G & R1 & R2). destruct (G NE B) as [G1 G2].
        destruct (grow_left_step D w mpo opp) as [w' o] eqn:E. cbn [fst snd] in *. subst o.
        assert (NE' : w_left w' <> []) by (intros X; rewrite X in G2; simpl in G2; lia).
        destruct (inv_left_col w I NE) as [C1 _]. destruct (inv_left_col w' I' NE') as [C1' _].
        destruct (IH t w' I' NE') as (J1 & J2 & J3 & J4 & J5 & J6); [lia|].
        rewrite J3, J5, J6. repeat split; try apply J1; auto. lia.
      * repeat split; try reflexivity; try apply I; auto. destruct (inv_left_col w I NE). lia.
    + cbn [fst snd]. repeat split; try reflexivity; try apply I; auto. lia.
Qed.
Lemma init_right_loop_inv : forall f t w, inv w -> w_right w <> [] -> (w_right_col w <= Z.of_nat f)%Z ->
  inv (fst (init_right_loop D f t mpo opp w)) /\ snd (init_right_loop D f t mpo opp w) = Done
  /\ w_right_col (fst (init_right_loop D f t mpo opp w)) = Z.min (w_right_col w) (Z.max 0 (wrap (Z.of_nat t + 1)))
  /\ w_right (fst (init_right_loop D f t mpo opp w)) <> []
  /\ w_left (fst (init_right_loop D f t mpo opp w)) = w_left w
  /\ w_left_col (fst (init_right_loop D f t mpo opp w)) = w_left_col w.
Proof.
  assert (Wp : forall z, (0 <= wrap z)%Z) by (intros z; unfold wrap; apply Z.mod_pos_bound; lia).
  induction f as [|f IH]; intros t w I NE Hf; assert (U := inv_up w I); cbn [init_right_loop];
    assert (W0 := Wp (Z.of_nat t + 1)%Z); set (q := wrap (Z.of_nat t + 1)) in *.
  - destruct (inv_right_col w I NE) as [C1 C2].
    destruct (Z.ltb_spec q (w_right_col w)) as [A|A]; cbn [andb].
    + destruct (Z.ltb_spec 0 (w_right_col w)) as [B|B]; [lia|]. cbn [fst snd].
      repeat split; try reflexivity; try apply I; auto. lia.
    + cbn [fst snd]. repeat split; try reflexivity; try apply I; auto. lia.
  - destruct (inv_right_col w I NE) as [C1 C2].
    destruct (Z.ltb_spec q (w_right_col w)) as [A|A]; cbn [andb].
    + destruct (Z.ltb_spec 0 (w_right_col w)) as [B|B]; cbn [fst snd].
      * destruct (grow_right_step_inv w I) as (I' & _ & G & R1 & R2). destruct (G NE B) as [G1 G2].
        destruct (grow_right_step D w mpo opp) as [w' o] eqn:E. cbn [fst snd] in *. subst o.
        assert (NE' : w_right w' <> []) by (intros X; rewrite X in G2; simpl in G2; lia).
        destruct (inv_right_col w' I' NE') as [C1' _].
        destruct (IH t w' I' NE') as (J1 & J2 & J3 & J4 & J5 & J6); [lia|]. fold q in J3.
        rewrite J3, J5, J6. repeat split; try apply J1; auto. lia.
      * lia.
    + cbn [fst snd]. repeat split; try reflexivity; try apply I; auto. lia.
Qed.

Lemma init_left_inv : forall t w, inv w ->
  inv (fst (init_left D w mpo opp t)) /\ snd (init_left D w mpo opp t) = Done
  /\ w_left_col (fst (init_left D w mpo opp t)) = Z.min (Z.of_nat t) (Z.of_nat n)
  /\ w_left (fst (init_left D w mpo opp t)) <> []
  /\ w_right (fst (init_left D w mpo opp t)) = w_right w
  /\ w_right_col (fst (init_left D w mpo opp t)) = w_right_col w.
Proof.
  intros t w I. assert (U := inv_up w I). unfold init_left. rewrite (mismatch_no w U), U.
  match goal with |- context [init_left_loop D n t mpo opp ?w0] => set (w' := w0) end.
  assert (I' : inv w').
  { unfold w'. constructor; cbn [w_up w_left w_right w_left_col w_right_col].
    - reflexivity.
    - intros [|[|k]] b T; simpl in T; try discriminate. injection T as <-. apply vacuum_left.
    - apply (inv_right w I).
    - intros _. simpl. split; lia.
    - apply (inv_right_col w I). }
  destruct (init_left_loop_inv n t w' I') as (J1 & J2 & J3 & J4 & J5 & J6); [discriminate | simpl; lia |].
  split; [exact J1|]. split; [exact J2|]. split; [|split; [exact J4 | split; [exact J5 | exact J6]]].
  rewrite J3. simpl. lia.
Qed.
Lemma init_right_inv : forall t w, inv w ->
  inv (fst (init_right D w mpo opp t)) /\ snd (init_right D w mpo opp t) = Done
  /\ w_right_col (fst (init_right D w mpo opp t)) = Z.min (Z.of_nat n) (wrap (Z.of_nat t + 1))
  /\ w_right (fst (init_right D w mpo opp t)) <> []
  /\ w_left (fst (init_right D w mpo opp t)) = w_left w
  /\ w_left_col (fst (init_right D w mpo opp t)) = w_left_col w.
Proof.
  intros t w I. assert (U := inv_up w I). unfold init_right. rewrite (mismatch_no w U), U.
  match goal with |- context [init_right_loop D n t mpo opp ?w0] => set (w' := w0) end.
  assert (I' : inv w').
  { unfold w'. constructor; cbn [w_up w_left w_right w_left_col w_right_col].
    - reflexivity.
    - apply (inv_left w I).
    - intros [|[|k]] b T; simpl in T; try discriminate. injection T as <-. apply vacuum_right.
    - apply (inv_left_col w I).
    - intros _. simpl. split; lia. }
  destruct (init_right_loop_inv n t w' I') as (J1 & J2 & J3 & J4 & J5 & J6); [discriminate | simpl; lia |].
  split; [exact J1|]. split; [exact J2|]. split; [|split; [exact J4 | split; [exact J5 | exact J6]]].
  rewrite J3. unfold w'. cbn [w_right_col].
  assert (0 <= wrap (Z.of_nat t + 1))%Z by (unfold wrap; apply Z.mod_pos_bound; lia). lia.
Qed.

Lemma step_inv : forall c w, inv w -> inv (fst (step D mpo opp c w)) /\ snd (step D mpo opp c w) <> Undefined.
Proof.
  intros c w I. destruct c; cbn [step].
  - destruct (init_left_inv target w I) as (J & O & _). split; [exact J | congruence].
  - destruct (init_right_inv target w I) as (J & O & _). split; [exact J | congruence].
  - destruct (grow_left_step_inv w I) as (J & O & _). auto.
  - destruct (grow_right_step_inv w I) as (J & O & _). auto.
  - unfold shift_left. destruct (w_left w) as [|b bl] eqn:L; [cbn [fst snd]; split; [exact I | discriminate]|].
    rewrite <- L. match goal with |- inv (fst (grow_right_step D ?w0 mpo opp)) /\ _ => set (w' := w0) end.
    assert (I' : inv w').
    { destruct (inv_left_col w I) as [C1 C2]; [congruence|].
      unfold w'. constructor; cbn [w_up w_left w_right w_left_col w_right_col].
      - apply (inv_up w I).
      - intros k t T. apply (inv_left w I). apply removelast_nth. exact T.
      - apply (inv_right w I).
      - intros NE. rewrite removelast_len.
        assert (2 <= length (w_left w)).
        { assert (X := removelast_len _ (w_left w)). destruct (removelast (w_left w)); [congruence|]. simpl in X. lia. }
        rewrite wrap_small by lia. split; lia.
      - apply (inv_right_col w I). }
    destruct (grow_right_step_inv w' I') as (J & O & _). auto.
  - unfold shift_right. destruct (w_right w) as [|b bl] eqn:L; [cbn [fst snd]; split; [exact I | discriminate]|].
    rewrite <- L. match goal with |- inv (fst (grow_left_step D ?w0 mpo opp)) /\ _ => set (w' := w0) end.
    assert (I' : inv w').
    { destruct (inv_right_col w I) as [C1 C2]; [congruence|].
      unfold w'. constructor; cbn [w_up w_left w_right w_left_col w_right_col].
      - apply (inv_up w I).
      - apply (inv_left w I).
      - intros k t T. apply (inv_right w I). apply removelast_nth. exact T.
      - apply (inv_left_col w I).
      - intros NE. rewrite removelast_len.
        assert (2 <= length (w_right w)).
        { assert (X := removelast_len _ (w_right w)). destruct (removelast (w_right w)); [congruence|]. simpl in X. lia. }
        rewrite wrap_small by lia. split; lia. }
    destruct (grow_left_step_inv w' I') as (J & O & _). auto.
  - cbn [clear fst snd]. split; [|discriminate].
    constructor; cbn [w_up w_left w_right w_left_col w_right_col];
      [apply (inv_up w I) | intros [|k] t T; discriminate | intros [|k] t T; discriminate | congruence | congruence].
Qed.
Lemma fresh_inv : forall st, inv (fresh up st).
Proof. intros st. constructor; simpl; [reflexivity | intros [|k] t T; discriminate | intros [|k] t T; discriminate | congruence | congruence]. Qed.
Lemma run_inv : forall l w, inv w -> inv (run D mpo opp l w).
Proof. induction l as [|c l IH]; intros w I; cbn [run]; [exact I|]. apply IH. apply step_inv. exact I. Qed.

(** the traces *)
Lemma weight_middle : forall A c B, weight D (A ++ c :: B) zero_bonds zero_bonds
  = sumC (fun m => Cmul (sumC (fun k => Cmul (weight D A zero_bonds k) (c k m)) (all_bonds D)) (weight D B m zero_bonds)) (all_bonds D).
Proof.
  intros A c B. change (c :: B) with ([c] ++ B). rewrite app_assoc. rewrite weight_app by exact zero_in.
  apply sumC_ext. intros m Hm. rewrite weight_snoc by (exact zero_in || exact Hm). reflexivity.
Qed.

Lemma cols_replace : forall c s u d, c < n -> nth_error up (n - 1 - c) = Some u -> nth_error opp c = Some d ->
  columns D up (replace mpo c s) opp = firstn c cols ++ column D u s d :: skipn (c + 1) cols.
Proof.
  intros c s u d Hc U Dd. unfold columns, replace. rewrite firstn_map, skipn_map, !combine_firstn.
  assert (R : rev up = firstn c (rev up) ++ u :: skipn (c + 1) (rev up)).
  { rewrite <- (firstn_skipn c (rev up)) at 1. f_equal. apply skipn_cons. rewrite nth_error_rev by exact Hc. exact U. }
  assert (O : opp = firstn c opp ++ d :: skipn (c + 1) opp).
  { rewrite <- (firstn_skipn c opp) at 1. f_equal. apply skipn_cons. exact Dd. }
  assert (Sk : forall X Y k (a : list X) (b : list Y), skipn k (combine a b) = combine (skipn k a) (skipn k b)).
  { clear. induction k as [|k IH]; intros a b; [reflexivity|]. destruct a as [|x a]; [reflexivity|]. destruct b as [|y b].
    - simpl. rewrite combine_nil. reflexivity.
    - simpl. apply IH. }
  rewrite !Sk. rewrite R at 1. rewrite O at 1.
  assert (Ca : forall X Y (a b : list X) (a' b' : list Y), length a = length a' -> combine (a ++ b) (a' ++ b') = combine a a' ++ combine b b').
  { clear. induction a as [|x a IH]; intros b a' b' H; destruct a' as [|y a']; simpl in H; try discriminate; [reflexivity|].
    simpl. f_equal. apply IH. lia. }
  rewrite Ca by (rewrite !firstn_length, rev_length; lia).
  rewrite Ca by (rewrite combine_length, !firstn_length, rev_length; lia).
  rewrite map_app. reflexivity.
Qed.

Lemma trace_value : forall c s u d l r, c < n -> nth_error up (n - 1 - c) = Some u -> nth_error opp c = Some d ->
  left_ok c l -> right_ok (n - 1 - c) r ->
  trace D u l s d r = row_value D up (replace mpo c s) opp.
Proof.
  intros c s u d l r Hc U Dd L R. unfold row_value. rewrite (cols_replace c s u d Hc U Dd), weight_middle, trace_elem.
  apply sumC_ext. intros [[x y] z] Hm. cbn [fst snd]. rewrite grow_left_elem. f_equal.
  - apply sumC_ext. intros k Hk. rewrite L by exact Hk. reflexivity.
  - assert (X := R _ Hm). cbn [fst snd] in X. rewrite X. replace (n - (n - 1 - c)) with (c + 1) by lia. reflexivity.
Qed.

Lemma trace_with_spec : forall w s c, inv w ->
  (trace_with D w s c opp = Value (row_value D up (replace mpo c s) opp)
    /\ w_left w <> [] /\ w_right w <> [] /\ c < n /\ (Z.of_nat c <= w_left_col w)%Z /\ (w_right_col w <= Z.of_nat c + 1)%Z)
  \/ (trace_with D w s c opp = Threw
    /\ ~ (w_left w <> [] /\ w_right w <> [] /\ c < n /\ (Z.of_nat c <= w_left_col w)%Z /\ (w_right_col w <= Z.of_nat c + 1)%Z)).
Proof.
  intros w s c I. assert (U := inv_up w I). unfold trace_with. rewrite U.
  destruct (w_left w) as [|b0 bl] eqn:L. { right. split; [reflexivity|]. tauto. }
  destruct (w_right w) as [|r0 br] eqn:R. { right. split; [reflexivity|]. tauto. }
  rewrite <- L, <- R.
  destruct (inv_left_col w I) as [C1 C2]; [congruence|]. destruct (inv_right_col w I) as [E1 E2]; [congruence|].
  assert (NL : w_left w <> []) by congruence. assert (NR : w_right w <> []) by congruence.
  destruct (Z.ltb_spec (w_left_col w) (Z.of_nat c)) as [A|A]. { right. split; [reflexivity|]. lia. }
  destruct (Z.ltb_spec (Z.of_nat c + 1) (w_right_col w)) as [B|B]. { right. split; [reflexivity|]. lia. }
  destruct (some_lt _ (w_left w) c) as [l Ll]; [lia|]. rewrite Ll.
  destruct (Nat.leb_spec n c) as [F|F]; cbn [orb]. { right. split; [reflexivity|]. lia. }
  destruct (Nat.leb_spec (length (w_right w)) (n - 1 - c)) as [G|G]. { lia. }
  destruct (some_lt _ (w_right w) (n - 1 - c)) as [r Rr]; [lia|]. rewrite Rr.
  destruct (some_lt _ up (n - 1 - c)) as [u Uu]; [lia|]. destruct (some_lt _ opp c) as [d Dd]; [lia|]. rewrite Uu, Dd.
  left. split; [|repeat split; auto; lia]. f_equal. apply trace_value; auto.
  - apply (inv_left w I). exact Ll.
  - apply (inv_right w I). exact Rr.
Qed.
End Walk.
