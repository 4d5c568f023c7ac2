(** Boundary tensors grown along one slice, or two, between two boundary MPS. *)
From Coq Require Import List Arith Lia Bool Reals.
From Verif Require Import Base Cplx SumModel SumSpec SumProofs NetSum NetEx ContractorModel TrgTensor TrgHoleAlg BmpsModel BmpsSpec BmpsAlg BmpsChain.
Import ListNotations.
Local Open Scope nat_scope.

(** *** Chains read from the other end *)
Fixpoint mvalr (k : nat -> C) (ms : list tensor) (us : list nat) (z : nat) : C :=
  match ms with
  | [] => k z
  | B :: ms' => sm (dimat B 0) (fun c => (entry B [c; hd0 us; z] * mvalr k ms' (tl us) c)%C)
  end.
Lemma mvalr_app k l l' : forall us z, length us = length (l ++ l') -> mvalr k (l ++ l') us z = mvalr (mvalr k l' (skipn (length l) us)) l us z.
Proof.
  induction l as [|A l IH]; intros us x L; [reflexivity|]. destruct us as [|u us]; [discriminate L|]. cbn [app mvalr length]. apply sm_ext. intros y _. f_equal. cbn [tl skipn]. apply IH. cbn in L. lia.
Qed.
Lemma mvalr_ext k k' ms : forall us x, (forall y, k y = k' y) -> mvalr k ms us x = mvalr k' ms us x.
Proof. induction ms as [|A ms IH]; intros us x H; cbn [mvalr]; [apply H|]. apply sm_ext. intros y _. f_equal. apply IH, H. Qed.
Lemma mvalr_firstn k ms : forall us x, mvalr k ms us x = mvalr k ms (firstn (length ms) us) x.
Proof. induction ms as [|A ms IH]; intros us x; [reflexivity|]. destruct us as [|u us]; [reflexivity|]. cbn [mvalr length firstn hd0 tl]. apply sm_ext. intros y _. f_equal. apply IH. Qed.
Section Chain.
Context (D : nat) (D1 : 1 <= D).
Lemma mval_reversed k P c ms : forall us L x0 z0, linked D P c ms x0 z0 -> length us = length ms ->
  sm x0 (fun x => (L x * mvalk k ms us x)%C) = sm z0 (fun z => (mvalr L (rev ms) (rev us) z * k z)%C).
Proof.
  induction ms as [|A ms IH]; intros us L x0 z0 Lk Lu.
  - cbn [linked] in Lk. subst. reflexivity.
  - destruct us as [|u us]; [discriminate Lu|]. injection Lu as Lu. cbn [linked] in Lk. destruct Lk as (y & SA & _ & _ & Lk). cbn [mvalk hd0 tl rev].
    replace (dimat A 2) with y by (unfold dimat; rewrite SA; reflexivity).
    transitivity (sm y (fun j => (sm x0 (fun x => (entry A [x; u; j] * L x)%C) * mvalk k ms us j)%C)).
    + transitivity (sm x0 (fun x => sm y (fun j => ((L x * entry A [x; u; j]) * mvalk k ms us j)%C))); [apply sm_ext; intros x _; rewrite <- sm_scal; apply sm_ext; intros; ring|].
      rewrite sm_swap. apply sm_ext. intros j _. rewrite sm_scal_r. f_equal. apply sm_ext. intros. ring.
    + rewrite (IH us (fun j => sm x0 (fun x => (entry A [x; u; j] * L x)%C)) y z0 Lk Lu). apply sm_ext. intros z _. f_equal.
      rewrite mvalr_app by (rewrite !app_length, !rev_length; cbn; lia). rewrite (mvalr_firstn _ (rev ms) (rev us ++ [u])). rewrite firstn_app, firstn_all2, rev_length by (rewrite !rev_length; lia). replace (length ms - length (rev us)) with 0 by (rewrite rev_length; lia). cbn [firstn]. rewrite app_nil_r.
      apply mvalr_ext. intros j. rewrite skipn_app, skipn_all2 by (rewrite !rev_length; lia). replace (length ms - length (rev us)) with 0 by (rewrite rev_length; lia). cbn [skipn app mvalr hd0 tl].
      replace (dimat A 0) with x0 by (unfold dimat; rewrite SA; reflexivity). reflexivity.
Qed.
Lemma mval_rev P c ms us : linked D P c ms 1 1 -> length us = length ms -> mvalr delta0 (rev ms) (rev us) 0 = mval ms us 0.
Proof.
  intros Lk Lu. pose proof (mval_reversed delta0 P c ms us delta0 1 1 Lk Lu) as E. rewrite !sm_1 in E. unfold mval. change (delta0 0) with (RtoC 1) in E.
  transitivity (mvalr delta0 (rev ms) (rev us) 0 * RtoC 1)%C; [ring|]. rewrite <- E. ring.
Qed.
Fixpoint rowvk (k : nat -> C) (fs : list weightf) (us vs : list nat) (h : nat) : C :=
  match fs with
  | [] => k h
  | f :: fs' => sm D (fun h' => (f h (hd0 us) h' (hd0 vs) * rowvk k fs' (tl us) (tl vs) h')%C)
  end.
Lemma rowv_k fs : forall us vs h, rowv D fs us vs h = rowvk delta0 fs us vs h.
Proof. induction fs as [|f fs IH]; intros us vs h; cbn [rowv rowvk]; [reflexivity|]. apply sm_ext. intros h' _. rewrite IH. reflexivity. Qed.
Lemma rowvk_app k l l' : forall us vs z, length us = length (l ++ l') -> length vs = length (l ++ l') ->
  rowvk k (l ++ l') us vs z = rowvk (rowvk k l' (skipn (length l) us) (skipn (length l) vs)) l us vs z.
Proof.
  induction l as [|A l IH]; intros us vs x L L'; [reflexivity|]. destruct us as [|u us]; [discriminate L|]. destruct vs as [|v vs]; [discriminate L'|]. cbn [app rowvk length]. apply sm_ext. intros y _. f_equal. cbn [tl skipn]. apply IH; cbn in *; lia.
Qed.
Lemma rowvk_ext k k' fs : forall us vs x, (forall y, k y = k' y) -> rowvk k fs us vs x = rowvk k' fs us vs x.
Proof. induction fs as [|A ms IH]; intros us vs x H; cbn [rowvk]; [apply H|]. apply sm_ext. intros y _. f_equal. apply IH, H. Qed.
Lemma rowvk_firstn k fs : forall us vs x, rowvk k fs us vs x = rowvk k fs (firstn (length fs) us) (firstn (length fs) vs) x.
Proof.
  induction fs as [|A fs IH]; intros us vs x; [reflexivity|]. cbn [rowvk length]. destruct us as [|u us], vs as [|v vs]; cbn [firstn hd0 tl]; apply sm_ext; intros y _; f_equal; rewrite IH; try rewrite !firstn_nil; reflexivity.
Qed.
Definition flip (f : weightf) : weightf := fun h u h' v => f h' v h u.
Lemma row_reversed k fs : forall us vs L, length us = length fs -> length vs = length fs ->
  sm D (fun x => (L x * rowvk k fs us vs x)%C) = sm D (fun z => (rowvk L (rev (map flip fs)) (rev vs) (rev us) z * k z)%C).
Proof.
  induction fs as [|f fs IH]; intros us vs L Lu Lv; [reflexivity|].
  destruct us as [|u us]; [discriminate Lu|]. injection Lu as Lu. destruct vs as [|v vs]; [discriminate Lv|]. injection Lv as Lv. cbn [rowvk hd0 tl rev map].
  transitivity (sm D (fun j => (sm D (fun x => (flip f j v x u * L x)%C) * rowvk k fs us vs j)%C)).
  + transitivity (sm D (fun x => sm D (fun j => ((L x * f x u j v) * rowvk k fs us vs j)%C))); [apply sm_ext; intros x _; rewrite <- sm_scal; apply sm_ext; intros; ring|].
    rewrite sm_swap. apply sm_ext. intros j _. rewrite sm_scal_r. f_equal. apply sm_ext. intros. unfold flip. ring.
  + rewrite (IH us vs (fun j => sm D (fun x => (flip f j v x u * L x)%C)) Lu Lv). apply sm_ext. intros z _. f_equal.
    rewrite rowvk_app by (rewrite !app_length, !rev_length, map_length; cbn; lia). rewrite (rowvk_firstn _ (rev (map flip fs)) (rev vs ++ [v])). rewrite !firstn_app. rewrite (firstn_all2 (rev vs)) by (rewrite !rev_length, map_length; lia). rewrite (firstn_all2 (rev us)) by (rewrite !rev_length, map_length; lia).
    replace (length (rev (map flip fs)) - length (rev vs)) with 0 by (rewrite !rev_length, map_length; lia). replace (length (rev (map flip fs)) - length (rev us)) with 0 by (rewrite !rev_length, map_length; lia). cbn [firstn]. rewrite !app_nil_r.
    apply rowvk_ext. intros j. rewrite !skipn_app. rewrite (skipn_all2 (rev vs)) by (rewrite !rev_length, map_length; lia). rewrite (skipn_all2 (rev us)) by (rewrite !rev_length, map_length; lia).
    replace (length (rev (map flip fs)) - length (rev vs)) with 0 by (rewrite !rev_length, map_length; lia). replace (length (rev (map flip fs)) - length (rev us)) with 0 by (rewrite !rev_length, map_length; lia). reflexivity.
Qed.
Lemma sum_delta (f : nat -> C) : sm D (fun x => (delta0 x * f x)%C) = f 0.
Proof. rewrite sm_first; [change (delta0 0) with (RtoC 1); ring|exact D1|]. intros i Hi. unfold delta0. destruct (i =? 0) eqn:E; [apply Nat.eqb_eq in E; lia|ring]. Qed.
Lemma sum_delta_r (f : nat -> C) : sm D (fun x => (f x * delta0 x)%C) = f 0.
Proof. rewrite <- sum_delta. apply sm_ext. intros. ring. Qed.
Lemma rowv_rev fs us vs : length us = length fs -> length vs = length fs -> rowv D fs us vs 0 = rowv D (rev (map flip fs)) (rev vs) (rev us) 0.
Proof.
  intros Lu Lv. rewrite !rowv_k. pose proof (row_reversed delta0 fs us vs delta0 Lu Lv) as E. rewrite sum_delta, sum_delta_r in E. exact E.
Qed.
Lemma repeat_snoc {X} (x : X) n : repeat x (S n) = repeat x n ++ [x].
Proof. induction n as [|n IH]; [reflexivity|]. cbn [repeat app] in *. f_equal. exact IH. Qed.
Lemma nsum_snoc n d : forall f, nsum (n ++ [d]) f = nsum n (fun us => sm d (fun i => f (us ++ [i]))).
Proof. induction n as [|e n IH]; intros f; [reflexivity|]. cbn [app nsum]. apply sm_ext. intros i _. apply (IH (fun vs => f (i :: vs))). Qed.
Lemma nsum_rev n : forall f, nsum (repeat D n) f = nsum (repeat D n) (fun us => f (rev us)).
Proof.
  induction n as [|n IH]; intros f; [reflexivity|]. rewrite repeat_snoc at 1. rewrite nsum_snoc. rewrite (nsum_sm (repeat D n) D (fun i us => f (us ++ [i]))). cbn [repeat nsum].
  apply sm_ext. intros i _. rewrite IH. reflexivity.
Qed.


(** *** One layer *)
Lemma sm_nsum n ds (f : nat -> list nat -> C) : sm n (fun i => nsum ds (f i)) = nsum ds (fun us => sm n (fun i => f i us)).
Proof. symmetry. apply nsum_sm. Qed.
Ltac under n tac := lazymatch n with O => tac | S ?k => (apply sm_ext || apply nsum_ext); intros; under k tac end.
Ltac sw n := etransitivity; [under n ltac:(first [apply sm_swap | apply sm_nsum])|cbv beta].
Fixpoint chain3 (l : list (tensor * weightf * tensor)) (x y z : nat) : C :=
  match l with
  | [] => (delta0 x * delta0 y * delta0 z)%C
  | (A, f, B) :: l' => sm (dimat B 0) (fun c => sm D (fun q => (sm D (fun u => sm D (fun b => (sm (dimat A 2) (fun a => (entry A [x; u; a] * chain3 l' a b c)%C) * f y u b q)%C)) * entry B [c; q; z])%C))
  end.
Lemma chain3_split l : forall x y z, chain3 l x y z =
  nsum (repeat D (length l)) (fun us => nsum (repeat D (length l)) (fun vs =>
    (mval (map (fun c => fst (fst c)) l) us x * rowv D (map (fun c => snd (fst c)) l) us vs y * mvalr delta0 (map snd l) vs z)%C)).
Proof.
  induction l as [|[[A f] B] l IH]; intros x y z; [reflexivity|]. cbn [chain3 length repeat map fst snd]. set (N := repeat D (length l)) in *.
  pose (G := fun a b c us vs => (mval (map (fun c => fst (fst c)) l) us a * rowv D (map (fun c => snd (fst c)) l) us vs b * mvalr delta0 (map snd l) vs c)%C).
  transitivity (sm (dimat B 0) (fun c => sm D (fun q => sm D (fun u => sm D (fun b => sm (dimat A 2) (fun a => nsum N (fun us => nsum N (fun vs => ((entry A [x; u; a] * f y u b q * entry B [c; q; z]) * G a b c us vs)%C)))))))).
  - apply sm_ext. intros c _. apply sm_ext. intros q _. rewrite <- sm_scal_r. apply sm_ext. intros u _. rewrite <- sm_scal_r. apply sm_ext. intros b _. rewrite <- !sm_scal_r. apply sm_ext. intros a _. rewrite IH.
    fold (G a b c). transitivity ((entry A [x; u; a] * f y u b q * entry B [c; q; z]) * nsum N (fun us => nsum N (fun vs => G a b c us vs)))%C; [unfold G; ring|].
    rewrite <- nsum_scal. apply nsum_ext. intros us _ _. rewrite <- nsum_scal. reflexivity.
  - sw 0. sw 1. sw 0. sw 4. sw 3. sw 2. sw 1. sw 5. sw 4. sw 3. cbn [nsum]. fold (sm D). apply sm_ext. intros u _. apply nsum_ext. intros us _ _. apply sm_ext. intros q _. apply nsum_ext. intros vs _ _.
    unfold mval. cbn [mvalk rowv mvalr hd0 tl]. fold mval. unfold G.
    rewrite <- sm_scal. apply sm_ext. intros c _. rewrite <- sm_scal, <- sm_scal_r. apply sm_ext. intros b _. rewrite <- !sm_scal_r. apply sm_ext. intros a _. ring.
Qed.
(** *** Two layers *)
Fixpoint chain4 (l : list (tensor * weightf * weightf * tensor)) (x y1 y2 z : nat) : C :=
  match l with
  | [] => (delta0 x * delta0 y1 * delta0 y2 * delta0 z)%C
  | (A, f1, f2, B) :: l' => sm (dimat B 0) (fun c => sm D (fun q => (sm D (fun w => sm D (fun b2 => (sm D (fun u => sm D (fun b1 => (sm (dimat A 2) (fun a => (entry A [x; u; a] * chain4 l' a b1 b2 c)%C) * f1 y1 u b1 w)%C)) * f2 y2 w b2 q)%C)) * entry B [c; q; z])%C))
  end.
Lemma chain4_split l : forall x y1 y2 z, chain4 l x y1 y2 z =
  nsum (repeat D (length l)) (fun us => nsum (repeat D (length l)) (fun ws => nsum (repeat D (length l)) (fun vs =>
    (mval (map (fun c => fst (fst (fst c))) l) us x * rowv D (map (fun c => snd (fst (fst c))) l) us ws y1 * rowv D (map (fun c => snd (fst c)) l) ws vs y2 * mvalr delta0 (map snd l) vs z)%C))).
Proof.
  induction l as [|[[[A f1] f2] B] l IH]; intros x y1 y2 z; [reflexivity|]. cbn [chain4 length repeat map fst snd]. set (N := repeat D (length l)) in *.
  pose (G := fun a b1 b2 c us ws vs => (mval (map (fun c => fst (fst (fst c))) l) us a * rowv D (map (fun c => snd (fst (fst c))) l) us ws b1 * rowv D (map (fun c => snd (fst c)) l) ws vs b2 * mvalr delta0 (map snd l) vs c)%C).
  transitivity (sm (dimat B 0) (fun c => sm D (fun q => sm D (fun w => sm D (fun b2 => sm D (fun u => sm D (fun b1 => sm (dimat A 2) (fun a => nsum N (fun us => nsum N (fun ws => nsum N (fun vs => ((entry A [x; u; a] * f1 y1 u b1 w * f2 y2 w b2 q * entry B [c; q; z]) * G a b1 b2 c us ws vs)%C))))))))))).
  - apply sm_ext. intros c _. apply sm_ext. intros q _. rewrite <- sm_scal_r. apply sm_ext. intros w _. rewrite <- sm_scal_r. apply sm_ext. intros b2 _. rewrite <- !sm_scal_r. apply sm_ext. intros u _. rewrite <- !sm_scal_r. apply sm_ext. intros b1 _. rewrite <- !sm_scal_r. apply sm_ext. intros a _. rewrite IH.
    fold (G a b1 b2 c). transitivity ((entry A [x; u; a] * f1 y1 u b1 w * f2 y2 w b2 q * entry B [c; q; z]) * nsum N (fun us => nsum N (fun ws => nsum N (fun vs => G a b1 b2 c us ws vs))))%C; [unfold G; ring|].
    rewrite <- nsum_scal. apply nsum_ext. intros us _ _. rewrite <- nsum_scal. apply nsum_ext. intros ws _ _. rewrite <- nsum_scal. reflexivity.
  - (* c q w b2 u b1 a us ws vs -> u us w ws q vs c b2 b1 a *)
    sw 3. sw 2. sw 1. sw 0. (* u c q w b2 b1 a us ws vs *) sw 6. sw 5. sw 4. sw 3. sw 2. sw 1. (* u us c q w b2 b1 a ws vs *)
    sw 3. sw 2. (* u us w c q b2 b1 a ws vs *) sw 7. sw 6. sw 5. sw 4. sw 3. (* u us w ws c q b2 b1 a vs *) sw 4. sw 8. sw 7. sw 6. sw 5.
    cbn [nsum]. fold (sm D). apply sm_ext. intros u _. apply nsum_ext. intros us _ _. apply sm_ext. intros w _. apply nsum_ext. intros ws _ _. apply sm_ext. intros q _. apply nsum_ext. intros vs _ _.
    unfold mval. cbn [mvalk rowv mvalr hd0 tl]. fold mval. unfold G.
    rewrite <- sm_scal. apply sm_ext. intros c _. rewrite <- sm_scal, <- sm_scal_r. apply sm_ext. intros b2 _. rewrite <- sm_scal, <- !sm_scal_r. apply sm_ext. intros b1 _. rewrite <- !sm_scal_r. apply sm_ext. intros a _. ring.
Qed.

Section Env.
Context (n : nat) (n1 : 1 <= n) (b1 b2 : nat -> nat) (P1 P2 : nat) (M1 M2 : nat -> tensor).
Definition mps_like (b : nat -> nat) (P : nat) (M : nat -> tensor) : Prop :=
  b 0 = 1 /\ b n = 1 /\ forall i, i < n -> shape (M i) = [b i; P; b (S i)] /\ padded D (M i).
Context (H1 : mps_like b1 P1 M1) (H2 : mps_like b2 P2 M2).
Fixpoint env (p : pos) (m1 m2 : nat -> tensor) (ts : nat -> list nat -> C) (k : nat) : tensor :=
  match k with
  | O => vacuum_env (m1 (n - 1)) (m2 0)
  | S k' => grow D p (env p m1 m2 ts k') (m1 (n - 1 - k')) (ts k') (m2 k')
  end.
Lemma vacuum_env_shape c1 Q1 N1 c2 Q2 N2 : mps_like c1 Q1 N1 -> mps_like c2 Q2 N2 -> vacuum_env (N1 (n - 1)) (N2 0) = unit_at_zero [1; 1; 1].
Proof.
  intros (B0 & Bn & B) (B0' & Bn' & B'). unfold vacuum_env, dimat. rewrite (proj1 (B (n - 1) ltac:(lia))), (proj1 (B' 0 ltac:(lia))). cbn [nth].
  replace (S (n - 1)) with n by lia. rewrite Bn, B0'. reflexivity.
Qed.
Lemma env_shape p c1 Q1 N1 c2 Q2 N2 ts k : mps_like c1 Q1 N1 -> mps_like c2 Q2 N2 -> k <= n ->
  exists y, shape (env p N1 N2 ts k) = [c1 (n - k); y; c2 k] /\ padded D (env p N1 N2 ts k).
Proof.
  intros A B. induction k as [|k IH]; intros Hk.
  - exists 1. cbn [env]. rewrite (vacuum_env_shape _ _ _ _ _ _ A B). split; [cbn [unit_at_zero shape]; rewrite Nat.sub_0_r, (proj1 (proj2 A)), (proj1 B); reflexivity|].
    split; [cbn; exact D1|]. intros x u y Hu. cbn in Hu. unfold unit_at_zero, entry. destruct u; [lia|]. cbn. rewrite andb_false_r. reflexivity.
  - destruct (IH ltac:(lia)) as (y & Sy & Py). destruct A as (A0 & An & A). destruct B as (B0 & Bn & B).
    destruct (A (n - 1 - k) ltac:(lia)) as [SA PA]. destruct (B k ltac:(lia)) as [SB PB]. replace (S (n - 1 - k)) with (n - k) in SA by lia. replace (n - S k) with (n - 1 - k) by lia.
    assert (Sh : shape (env p N1 N2 ts (S k)) = [c1 (n - 1 - k); D; c2 (S k)]) by (cbn [env]; eapply grow_shape; eassumption).
    exists D. split; [exact Sh|]. eapply padded_full. exact Sh.
Qed.
Fixpoint cells (p : pos) (ts : nat -> list nat -> C) (k : nat) : list (tensor * weightf * tensor) :=
  match k with O => [] | S k' => (M1 (n - 1 - k'), local (pre_of p) (ts k'), M2 k') :: cells p ts k' end.
Lemma local_pre p t a b c d : local p t b c d a = local (pre_of p) t a b c d.
Proof. rewrite <- (local_next (pre_of p) t a b c d). destruct p; reflexivity. Qed.
Lemma env_entry p ts k : k <= n -> forall x y z, entry (env p M1 M2 ts k) [x; y; z] = chain3 (cells p ts k) x y z.
Proof.
  induction k as [|k IH]; intros Hk x y z.
  - cbn [env cells chain3]. rewrite (vacuum_env_shape _ _ _ _ _ _ H1 H2). unfold unit_at_zero, entry, delta0. destruct x, y, z; cbn; ring.
  - destruct (env_shape p _ _ _ _ _ _ ts k H1 H2 ltac:(lia)) as (y0 & Sy & Py). destruct H1 as (A0 & An & A). destruct H2 as (B0 & Bn & B).
    destruct (A (n - 1 - k) ltac:(lia)) as [SA PA]. destruct (B k ltac:(lia)) as [SB PB]. replace (S (n - 1 - k)) with (n - k) in SA by lia.
    cbn [env cells chain3]. rewrite (grow_entry D p _ _ _ _ _ _ _ _ _ _ _ _ _ _ Sy SA SB Py PA). unfold dimat. rewrite SA, SB. cbn [nth].
    apply sm_ext. intros c _. apply sm_ext. intros q _. f_equal. apply sm_ext. intros u _. apply sm_ext. intros b _. rewrite local_pre. f_equal. apply sm_ext. intros a _. rewrite IH by lia. reflexivity.
Qed.
Definition far_env (p : pos) (ts : nat -> list nat -> C) (k : nat) : tensor := env (opposite p) M2 M1 (fun i => ts (n - 1 - i)) k.
Lemma slide p ts j : j < n ->
  close (env p M1 M2 ts (S j)) (far_env p ts (n - S j)) = close (env p M1 M2 ts j) (far_env p ts (n - j)).
Proof.
  intros Hj. destruct (env_shape p _ _ _ _ _ _ ts j H1 H2 ltac:(lia)) as (y0 & Sy & Py).
  destruct (env_shape (opposite p) _ _ _ _ _ _ (fun i => ts (n - 1 - i)) (n - S j) H2 H1 ltac:(lia)) as (y' & Sy' & Py'). fold (far_env p ts (n - S j)) in *.
  destruct H1 as (A0 & An & A). destruct H2 as (B0 & Bn & B). destruct (A (n - 1 - j) ltac:(lia)) as [SA PA]. destruct (B j ltac:(lia)) as [SB PB].
  replace (S (n - 1 - j)) with (n - j) in SA by lia. replace (n - (n - S j)) with (S j) in Sy' by lia. replace (n - S j) with (n - 1 - j) in Sy' at 2 by lia.
  replace (n - j) with (S (n - S j)) by lia. unfold far_env at 2. cbn [env]. fold (far_env p ts (n - S j)). replace (n - 1 - (n - S j)) with j by lia.
  rewrite (ring_near D p _ _ _ _ _ _ _ _ _ _ _ _ _ Sy SA SB Sy' Py PA). symmetry. replace (M1 (n - S j)) with (M1 (n - 1 - j)) by (f_equal; lia).
  apply (ring_far D p _ _ _ _ _ _ _ _ _ _ _ _ _ Sy SA SB Sy' Py PB Py').
Qed.
Lemma slides p ts j : j <= n -> close (env p M1 M2 ts j) (far_env p ts (n - j)) = chain3 (cells p ts n) 0 0 0.
Proof.
  intros Hj. transitivity (close (env p M1 M2 ts n) (far_env p ts (n - n))).
  - assert (G : forall k, j + k <= n -> close (env p M1 M2 ts j) (far_env p ts (n - j)) = close (env p M1 M2 ts (j + k)) (far_env p ts (n - (j + k)))).
    { induction k as [|k IH]; intros Hk; [rewrite Nat.add_0_r; reflexivity|]. rewrite IH by lia. rewrite Nat.add_succ_r. symmetry. apply slide. lia. }
    specialize (G (n - j) ltac:(lia)). replace (j + (n - j)) with n in G by lia. exact G.
  - destruct (env_shape p _ _ _ _ _ _ ts n H1 H2 ltac:(lia)) as (y & Sy & Py). rewrite Nat.sub_diag in *. unfold far_env. cbn [env]. rewrite (vacuum_env_shape _ _ _ _ _ _ H2 H1).
    rewrite (proj1 H1), (proj1 (proj2 H2)) in Sy. rewrite (close_value D _ (unit_at_zero [1; 1; 1]) 1 y 1 1 1 1 Sy eq_refl Py).
    rewrite sm_1. transitivity (sm D (fun j => (entry (env p M1 M2 ts n) [0%nat; j; 0%nat] * delta0 j)%C)).
    + apply sm_ext. intros i _. rewrite sm_1. f_equal. unfold unit_at_zero, entry, delta0. destruct i; reflexivity.
    + rewrite sum_delta_r. apply env_entry. lia.
Qed.
Definition pair_at (d : orient) (i : nat) : tensor * tensor := match d with HORIZONTAL => (M1 (n - 1 - i), M2 i) | VERTICAL => (M2 i, M1 (n - 1 - i)) end.
Lemma near_step_env d ts j : near_step D d (env (near d) M1 M2 ts j) (pair_at d j) (ts j) = env (near d) M1 M2 ts (S j).
Proof. destruct d; reflexivity. Qed.
Lemma far_step_env d ts j : j < n -> far_step D d (far_env (near d) ts (n - S j)) (pair_at d j) (ts j) = far_env (near d) ts (n - j).
Proof.
  intros Hj. unfold far_env. replace (n - j) with (S (n - S j)) by lia. cbn [env]. replace (n - 1 - (n - S j)) with j by lia. replace (n - 1 - j) with (n - S j) by lia. destruct d; cbn; replace (n - 1 - j) with (n - S j) by lia; reflexivity.
Qed.
Lemma near_steps_env d ts w : forall j, near_steps D d (env (near d) M1 M2 ts j) (map (pair_at d) (seq j w)) (map ts (seq j w)) = env (near d) M1 M2 ts (j + w).
Proof. induction w as [|w IH]; intros j; cbn [seq map near_steps]; [rewrite Nat.add_0_r; reflexivity|]. rewrite near_step_env, IH. f_equal. lia. Qed.
Theorem trace1_value d ts j w : 1 <= w -> j + w <= n ->
  trace1 D d (map (pair_at d) (seq j w)) (map ts (seq j w)) (env (near d) M1 M2 ts j) (far_env (near d) ts (n - (j + w))) = chain3 (cells (near d) ts n) 0 0 0.
Proof.
  intros Hw Hj. destruct w as [|[|[|w]]]; [lia| | |].
  - replace (n - (j + 1)) with (n - S j) by lia. rewrite <- (slides (near d) ts (S j)) by lia. destruct d; [reflexivity|]. cbn [seq map trace1 pair_at fst snd near].
    destruct (env_shape UP _ _ _ _ _ _ ts j H1 H2 ltac:(lia)) as (y0 & Sy & Py).
    destruct (env_shape DOWN _ _ _ _ _ _ (fun i => ts (n - 1 - i)) (n - S j) H2 H1 ltac:(lia)) as (y' & Sy' & Py'). change (env DOWN M2 M1 (fun i => ts (n - 1 - i)) (n - S j)) with (far_env UP ts (n - S j)) in *.
    destruct H1 as (A0 & An & A). destruct H2 as (B0 & Bn & B). destruct (A (n - 1 - j) ltac:(lia)) as [SA PA]. destruct (B j ltac:(lia)) as [SB PB].
    replace (S (n - 1 - j)) with (n - j) in SA by lia. replace (n - (n - S j)) with (S j) in Sy' by lia. replace (n - S j) with (n - 1 - j) in Sy' at 2 by lia.
    transitivity (ring D UP (env UP M1 M2 ts j) (M1 (n - 1 - j)) (M2 j) (far_env UP ts (n - S j)) (ts j) (b1 (n - j)) (b1 (n - 1 - j)) (b2 j) (b2 (S j))).
    + eapply (ring_turned D UP); eassumption.
    + symmetry. cbn [env]. eapply (ring_near D UP); eassumption.
  - cbn [seq map trace1]. rewrite near_step_env. replace (n - (j + 2)) with (n - S (S j)) by lia. rewrite far_step_env by lia. apply slides. lia.
  - change (trace1 D d (map (pair_at d) (seq j (S (S (S w))))) (map ts (seq j (S (S (S w))))) (env (near d) M1 M2 ts j) (far_env (near d) ts (n - (j + S (S (S w)))))) with (close (near_steps D d (env (near d) M1 M2 ts j) (map (pair_at d) (seq j (S (S (S w))))) (map ts (seq j (S (S (S w)))))) (far_env (near d) ts (n - (j + S (S (S w)))))).
    rewrite near_steps_env. apply slides. exact Hj.
Qed.
(** a hole between two boundary tensors *)
Theorem hole_value d ts j t : j < n ->
  plug_hole (punch d (fst (pair_at d j)) (snd (pair_at d j)) (env (near d) M1 M2 ts j) (far_env (near d) ts (n - S j))) t
  = trace1 D d [pair_at d j] [t] (env (near d) M1 M2 ts j) (far_env (near d) ts (n - S j)).
Proof.
  intros Hj. destruct (env_shape (near d) _ _ _ _ _ _ ts j H1 H2 ltac:(lia)) as (y0 & Sy & Py).
  destruct (env_shape (opposite (near d)) _ _ _ _ _ _ (fun i => ts (n - 1 - i)) (n - S j) H2 H1 ltac:(lia)) as (y' & Sy' & Py'). fold (far_env (near d) ts (n - S j)) in *.
  destruct H1 as (A0 & An & A). destruct H2 as (B0 & Bn & B). destruct (A (n - 1 - j) ltac:(lia)) as [SA PA]. destruct (B j ltac:(lia)) as [SB PB].
  replace (S (n - 1 - j)) with (n - j) in SA by lia. replace (n - (n - S j)) with (S j) in Sy' by lia. replace (n - S j) with (n - 1 - j) in Sy' at 2 by lia.
  destruct d; cbn [pair_at fst snd trace1 near] in *.
  - rewrite (hole_ring D _ _ _ _ t _ _ _ _ _ _ _ _ Sy SA SB Sy' Py PA PB Py'). symmetry. eapply (ring_near D LEFT); eassumption.
  - change (punch VERTICAL (M2 j) (M1 (n - 1 - j)) (env UP M1 M2 ts j) (far_env UP ts (n - S j))) with (punch HORIZONTAL (env UP M1 M2 ts j) (far_env UP ts (n - S j)) (M2 j) (M1 (n - 1 - j))).
    rewrite (hole_ring D (M2 j) (env UP M1 M2 ts j) (far_env UP ts (n - S j)) (M1 (n - 1 - j)) t _ _ _ _ _ _ _ _ SB Sy Sy' SA PB Py Py' PA).
    symmetry. eapply (ring_near D LEFT); eassumption.
Qed.

(** *** two layers *)
Fixpoint env2 (p : pos) (m1 m2 : nat -> tensor) (t1 t2 : nat -> list nat -> C) (k : nat) : tensor :=
  match k with
  | O => vacuum_env2 (m1 (n - 1)) (m2 0)
  | S k' => grow2 D p (env2 p m1 m2 t1 t2 k') (m1 (n - 1 - k')) (t1 k') (t2 k') (m2 k')
  end.
Lemma vacuum_env2_shape c1 Q1 N1 c2 Q2 N2 : mps_like c1 Q1 N1 -> mps_like c2 Q2 N2 -> vacuum_env2 (N1 (n - 1)) (N2 0) = unit_at_zero [1; 1; 1; 1].
Proof.
  intros (B0 & Bn & B) (B0' & Bn' & B'). unfold vacuum_env2, dimat. rewrite (proj1 (B (n - 1) ltac:(lia))), (proj1 (B' 0 ltac:(lia))). cbn [nth].
  replace (S (n - 1)) with n by lia. rewrite Bn, B0'. reflexivity.
Qed.
Lemma env2_shape p c1 Q1 N1 c2 Q2 N2 t1 t2 k : mps_like c1 Q1 N1 -> mps_like c2 Q2 N2 -> k <= n ->
  exists y y', shape (env2 p N1 N2 t1 t2 k) = [c1 (n - k); y; y'; c2 k] /\ padded2 D (env2 p N1 N2 t1 t2 k) /\ (1 <= k -> y = D /\ y' = D).
Proof.
  intros A B. induction k as [|k IH]; intros Hk.
  - exists 1, 1. cbn [env2]. rewrite (vacuum_env2_shape _ _ _ _ _ _ A B). split; [cbn [unit_at_zero shape]; rewrite Nat.sub_0_r, (proj1 (proj2 A)), (proj1 B); reflexivity|]. split; [|lia].
    split; [cbn; exact D1|]. split; [cbn; exact D1|]. intros x u v y Hu Hv Huv. cbn in Huv. unfold unit_at_zero, entry. cbn [forallb]. destruct u, v; try (exfalso; lia); cbn; rewrite ?andb_false_r; reflexivity.
  - destruct (IH ltac:(lia)) as (y & y' & Sy & Py & _). destruct A as (A0 & An & A). destruct B as (B0 & Bn & B).
    destruct (A (n - 1 - k) ltac:(lia)) as [SA PA]. destruct (B k ltac:(lia)) as [SB PB]. replace (S (n - 1 - k)) with (n - k) in SA by lia. replace (n - S k) with (n - 1 - k) by lia.
    assert (Sh : shape (env2 p N1 N2 t1 t2 (S k)) = [c1 (n - 1 - k); D; D; c2 (S k)]) by (cbn [env2]; eapply grow2_shape; eassumption).
    exists D, D. split; [exact Sh|]. split; [eapply padded2_full; exact Sh|]. split; reflexivity.
Qed.
Fixpoint cells2 (p : pos) (t1 t2 : nat -> list nat -> C) (k : nat) : list (tensor * weightf * weightf * tensor) :=
  match k with O => [] | S k' => (M1 (n - 1 - k'), local (pre_of p) (t1 k'), local (pre_of p) (t2 k'), M2 k') :: cells2 p t1 t2 k' end.
Lemma env2_entry p t1 t2 k : k <= n -> forall x y y' z, entry (env2 p M1 M2 t1 t2 k) [x; y; y'; z] = chain4 (cells2 p t1 t2 k) x y y' z.
Proof.
  induction k as [|k IH]; intros Hk x y y' z.
  - cbn [env2 cells2 chain4]. rewrite (vacuum_env2_shape _ _ _ _ _ _ H1 H2). unfold unit_at_zero, entry, delta0. destruct x, y, y', z; cbn; ring.
  - destruct (env2_shape p _ _ _ _ _ _ t1 t2 k H1 H2 ltac:(lia)) as (y0 & y0' & Sy & Py & _). destruct H1 as (A0 & An & A). destruct H2 as (B0 & Bn & B).
    destruct (A (n - 1 - k) ltac:(lia)) as [SA PA]. destruct (B k ltac:(lia)) as [SB PB]. replace (S (n - 1 - k)) with (n - k) in SA by lia.
    cbn [env2 cells2 chain4]. rewrite (grow2_entry D p _ _ _ _ _ _ _ _ _ _ _ _ _ _ _ _ _ Sy SA SB Py PA). unfold dimat. rewrite SA, SB. cbn [nth].
    apply sm_ext. intros c _. apply sm_ext. intros q _. f_equal. apply sm_ext. intros w _. apply sm_ext. intros b2' _. rewrite (local_pre p (t2 k)). f_equal.
    apply sm_ext. intros u _. apply sm_ext. intros b _. rewrite local_pre. f_equal. apply sm_ext. intros a _. rewrite IH by lia. reflexivity.
Qed.
Definition far_env2 (p : pos) (t1 t2 : nat -> list nat -> C) (k : nat) : tensor := env2 (opposite p) M2 M1 (fun i => t2 (n - 1 - i)) (fun i => t1 (n - 1 - i)) k.
Lemma slide2 p t1 t2 j : j < n ->
  close2 (env2 p M1 M2 t1 t2 (S j)) (far_env2 p t1 t2 (n - S j)) = close2 (env2 p M1 M2 t1 t2 j) (far_env2 p t1 t2 (n - j)).
Proof.
  intros Hj. destruct (env2_shape p _ _ _ _ _ _ t1 t2 j H1 H2 ltac:(lia)) as (y0 & y0' & Sy & Py & _).
  destruct (env2_shape (opposite p) _ _ _ _ _ _ (fun i => t2 (n - 1 - i)) (fun i => t1 (n - 1 - i)) (n - S j) H2 H1 ltac:(lia)) as (y' & y'' & Sy' & Py' & _). fold (far_env2 p t1 t2 (n - S j)) in *.
  destruct H1 as (A0 & An & A). destruct H2 as (B0 & Bn & B). destruct (A (n - 1 - j) ltac:(lia)) as [SA PA]. destruct (B j ltac:(lia)) as [SB PB].
  replace (S (n - 1 - j)) with (n - j) in SA by lia. replace (n - (n - S j)) with (S j) in Sy' by lia. replace (n - S j) with (n - 1 - j) in Sy' at 2 by lia.
  replace (n - j) with (S (n - S j)) by lia. unfold far_env2 at 2. cbn [env2]. fold (far_env2 p t1 t2 (n - S j)). replace (n - 1 - (n - S j)) with j by lia.
  rewrite (ring2_near D p _ _ _ _ _ _ _ _ _ _ _ _ _ _ _ _ Sy SA SB Sy' Py PA). symmetry. replace (M1 (n - S j)) with (M1 (n - 1 - j)) by (f_equal; lia).
  apply (ring2_far D p _ _ _ _ _ _ _ _ _ _ _ _ _ _ _ _ Sy SA SB Sy' Py PB Py').
Qed.
Lemma slides2 p t1 t2 j : j <= n -> close2 (env2 p M1 M2 t1 t2 j) (far_env2 p t1 t2 (n - j)) = chain4 (cells2 p t1 t2 n) 0 0 0 0.
Proof.
  intros Hj. transitivity (close2 (env2 p M1 M2 t1 t2 n) (far_env2 p t1 t2 (n - n))).
  - assert (G : forall k, j + k <= n -> close2 (env2 p M1 M2 t1 t2 j) (far_env2 p t1 t2 (n - j)) = close2 (env2 p M1 M2 t1 t2 (j + k)) (far_env2 p t1 t2 (n - (j + k)))).
    { induction k as [|k IH]; intros Hk; [rewrite Nat.add_0_r; reflexivity|]. rewrite IH by lia. rewrite Nat.add_succ_r. symmetry. apply slide2. lia. }
    specialize (G (n - j) ltac:(lia)). replace (j + (n - j)) with n in G by lia. exact G.
  - destruct (env2_shape p _ _ _ _ _ _ t1 t2 n H1 H2 ltac:(lia)) as (y & y' & Sy & Py & _). rewrite Nat.sub_diag in *. unfold far_env2. cbn [env2]. rewrite (vacuum_env2_shape _ _ _ _ _ _ H2 H1).
    rewrite (proj1 H1), (proj1 (proj2 H2)) in Sy. rewrite (close2_value D _ (unit_at_zero [1; 1; 1; 1]) 1 y y' 1 1 1 1 1 Sy eq_refl Py).
    rewrite sm_1. transitivity (sm D (fun j => (sm D (fun l => (entry (env2 p M1 M2 t1 t2 n) [0%nat; j; l; 0%nat] * delta0 l)%C) * delta0 j)%C)).
    + apply sm_ext. intros i _. rewrite <- sm_scal_r. apply sm_ext. intros l _. rewrite sm_1. unfold unit_at_zero, delta0. cbn [entry forallb]. destruct i, l; cbn; ring.
    + rewrite sum_delta_r, sum_delta_r. apply env2_entry. lia.
Qed.
(** the two sites of a position: the first is in the layer counted first by the window *)
Definition sites_at (d : orient) (t1 t2 : nat -> list nat -> C) (i : nat) : (list nat -> C) * (list nat -> C) :=
  match d with HORIZONTAL => (t1 i, t2 i) | VERTICAL => (t2 i, t1 i) end.
Lemma near2_step_env d t1 t2 j : near2_step D d (env2 (near d) M1 M2 t1 t2 j) (pair_at d j) (sites_at d t1 t2 j) = env2 (near d) M1 M2 t1 t2 (S j).
Proof. destruct d; reflexivity. Qed.
Lemma far2_step_env d t1 t2 j : j < n -> far2_step D d (far_env2 (near d) t1 t2 (n - S j)) (pair_at d j) (sites_at d t1 t2 j) = far_env2 (near d) t1 t2 (n - j).
Proof.
  intros Hj. unfold far_env2. replace (n - j) with (S (n - S j)) by lia. cbn [env2]. replace (n - 1 - (n - S j)) with j by lia. replace (n - 1 - j) with (n - S j) by lia. destruct d; cbn; replace (n - 1 - j) with (n - S j) by lia; reflexivity.
Qed.
Lemma near2_steps_env d t1 t2 w : forall j, near2_steps D d (env2 (near d) M1 M2 t1 t2 j) (map (pair_at d) (seq j w)) (map (sites_at d t1 t2) (seq j w)) = env2 (near d) M1 M2 t1 t2 (j + w).
Proof. induction w as [|w IH]; intros j; cbn [seq map near2_steps]; [rewrite Nat.add_0_r; reflexivity|]. rewrite near2_step_env, IH. f_equal. lia. Qed.
Lemma turned2 p t1 t2 j : 1 <= j < n -> close2 (far_env2 p t1 t2 (n - j)) (env2 p M1 M2 t1 t2 j) = close2 (env2 p M1 M2 t1 t2 j) (far_env2 p t1 t2 (n - j)).
Proof.
  intros Hj. destruct (env2_shape p _ _ _ _ _ _ t1 t2 j H1 H2 ltac:(lia)) as (y0 & y0' & Sy & _ & E).
  destruct (env2_shape (opposite p) _ _ _ _ _ _ (fun i => t2 (n - 1 - i)) (fun i => t1 (n - 1 - i)) (n - j) H2 H1 ltac:(lia)) as (y' & y'' & Sy' & _ & E'). fold (far_env2 p t1 t2 (n - j)) in *.
  destruct (E ltac:(lia)) as [-> ->]. destruct (E' ltac:(lia)) as [-> ->]. replace (n - (n - j)) with j in Sy' by lia. symmetry. exact (close2_sym D _ _ _ _ Sy Sy').
Qed.
Theorem trace2_value d t1 t2 j w : 1 <= w -> j + w <= n ->
  trace2 D d (map (pair_at d) (seq j w)) (map (sites_at d t1 t2) (seq j w)) (env2 (near d) M1 M2 t1 t2 j) (far_env2 (near d) t1 t2 (n - (j + w))) = chain4 (cells2 (near d) t1 t2 n) 0 0 0 0.
Proof.
  intros Hw Hj. destruct w as [|[|[|[|w]]]]; [lia| | | |].
  - change (trace2 D d (map (pair_at d) (seq j 1)) (map (sites_at d t1 t2) (seq j 1))) with (fun e1 e2 => close2 (near2_steps D d e1 (map (pair_at d) (seq j 1)) (map (sites_at d t1 t2) (seq j 1))) e2). cbv beta.
    rewrite near2_steps_env. apply slides2. lia.
  - cbn [seq map trace2]. rewrite near2_step_env. replace (n - (j + 2)) with (n - S (S j)) by lia. rewrite far2_step_env by lia. destruct d; [|rewrite turned2 by lia]; apply slides2; lia.
  - cbn [seq map trace2]. replace (n - (j + 3)) with (n - S (S (S j))) by lia. destruct d.
    + rewrite (near2_step_env HORIZONTAL t1 t2 j), (near2_step_env HORIZONTAL t1 t2 (S j)), (far2_step_env HORIZONTAL t1 t2 (S (S j))) by lia. apply slides2. lia.
    + rewrite (near2_step_env VERTICAL t1 t2 j), (far2_step_env VERTICAL t1 t2 (S (S j))), (far2_step_env VERTICAL t1 t2 (S j)) by lia. rewrite turned2 by lia. apply slides2. lia.
  - change (trace2 D d (map (pair_at d) (seq j (S (S (S (S w)))))) (map (sites_at d t1 t2) (seq j (S (S (S (S w))))))) with (fun e1 e2 => close2 (near2_steps D d e1 (map (pair_at d) (seq j (S (S (S (S w)))))) (map (sites_at d t1 t2) (seq j (S (S (S (S w))))))) e2). cbv beta.
    rewrite near2_steps_env. apply slides2. exact Hj.
Qed.
End Env.
End Chain.
