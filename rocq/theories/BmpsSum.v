(** Absorbing the slices of a network one after the other is summing over its bonds. *)
From Coq Require Import List Arith Lia Bool Reals Permutation.
From Verif Require Import Base Cplx SumModel SumSpec SumProofs NetSum TrgTensor BmpsModel BmpsSpec BmpsAlg BmpsChain BmpsEnv.
Import ListNotations.
Local Open Scope nat_scope.

Lemma nth_map_seq {X} (f : nat -> X) n i d : i < n -> nth i (map f (seq 0 n)) d = f i.
Proof. intros H. rewrite (nth_indep _ d (f 0)) by (rewrite map_length, seq_length; assumption). rewrite map_nth, seq_nth by assumption. reflexivity. Qed.
Section Sum.
Context (D : nat) (D1 : 1 <= D) (n : nat) (f : nat -> nat -> weightf).
(** the slices 0 .. K-1 absorbed, as a function of the legs that stick out *)
Fixpoint Wf (K : nat) (vs : list nat) : C :=
  match K with
  | O => if forallb (Nat.eqb 0) vs then RtoC 1 else RtoC 0
  | S k => nsum (repeat D n) (fun us => (Wf k us * rowv D (map (f k) (seq 0 n)) us vs 0)%C)
  end.
Lemma nsum_zero : forall (m : nat) g, nsum (repeat D m) (fun us => ((if forallb (Nat.eqb 0) us then RtoC 1 else RtoC 0) * g us)%C) = g (repeat 0 m).
Proof.
  induction m as [|m IH]; intros g; [cbn; ring|]. cbn [repeat nsum]. fold (sm D).
  transitivity (sm D (fun i => (delta0 i * g (i :: repeat 0%nat m))%C)); [|exact (sum_delta D D1 (fun i => g (i :: repeat 0%nat m)))].
  apply sm_ext. intros i _. destruct i as [|i].
  - transitivity (nsum (repeat D m) (fun us => ((if forallb (Nat.eqb 0) us then RtoC 1 else RtoC 0) * g (0%nat :: us))%C)); [reflexivity|].
    rewrite (IH (fun us => g (0%nat :: us))). unfold delta0. cbn. ring.
  - transitivity (nsum (repeat D m) (fun us => (RtoC 0 * g (S i :: us))%C)); [reflexivity|]. rewrite nsum_scal. unfold delta0. cbn. ring.
Qed.
Lemma forallb_rev {X} (h : X -> bool) l : forallb h (rev l) = forallb h l.
Proof. induction l as [|x l IH]; [reflexivity|]. cbn [rev forallb]. rewrite forallb_app, IH. cbn. rewrite andb_true_r. apply andb_comm. Qed.

Context (N : nat) (hv vv : nat -> nat -> bond).
Context (hv_inj : forall k i k' i', k < N -> 1 <= i < n -> k' < N -> 1 <= i' < n -> hv k i = hv k' i' -> k = k' /\ i = i').
Context (vv_inj : forall k i k' i', S k < N -> i < n -> S k' < N -> i' < n -> vv k i = vv k' i' -> k = k' /\ i = i').
Context (vh_dif : forall k i k' i', vv k i <> hv k' i').
Notation gs l F a := (gsum bond_eq_dec l (fun _ => D) F a).
Lemma nsum_gsum l : NoDup l -> forall F a, nsum (repeat D (length l)) F = gs l (fun a => F (map a l)) a.
Proof.
  induction l as [|v l IH]; intros ND F a; [reflexivity|]. inversion ND as [|? ? Nv ND']; subst. cbn [length repeat nsum gsum]. apply sumC_ext. intros x _.
  rewrite (IH ND' (fun vs => F (x :: vs)) (upd bond_eq_dec a v x)). apply gsum_ext. intros a' E _. cbn [map]. rewrite E by exact Nv. rewrite upd_same. reflexivity.
Qed.
(** one slice *)
Fixpoint rowp (k : nat) (fs : list weightf) (i : nat) (a : bond -> nat) (us vs : list nat) (h : nat) : C :=
  match fs with
  | [] => RtoC 1
  | g :: fs' => match fs' with
                | [] => g h (hd0 us) 0 (hd0 vs)
                | _ => (g h (hd0 us) (a (hv k (S i))) (hd0 vs) * rowp k fs' (S i) a (tl us) (tl vs) (a (hv k (S i))))%C
                end
  end.
Definition hvs (k : nat) : list bond := map (hv k) (seq 1 (n - 1)).
Definition vvs (k : nat) : list bond := map (vv k) (seq 0 n).
Lemma rowv_gsum k : k < N -> forall fs i us vs h a, i + length fs = n -> fs <> [] ->
  rowv D fs us vs h = gs (map (hv k) (seq (S i) (length fs - 1))) (fun a => rowp k fs i a us vs h) a.
Proof.
  intros Hk. induction fs as [|g fs IH]; intros i us vs h a Hi Hf; [contradiction|]. destruct fs as [|g' fs].
  - cbn [length seq map gsum rowp rowv]. exact (sum_delta_r D D1 (fun h' => g h (hd0 us) h' (hd0 vs))).
  - cbn [rowv]. replace (length (g :: g' :: fs) - 1) with (S (length (g' :: fs) - 1)) by (cbn; lia). cbn [seq map gsum]. fold (sm D). apply sm_ext. intros h' _.
    change (sm D (fun h'0 : nat => (g' h' (hd0 (tl us)) h'0 (hd0 (tl vs)) * rowv D fs (tl (tl us)) (tl (tl vs)) h'0)%C)) with (rowv D (g' :: fs) (tl us) (tl vs) h').
    rewrite (IH (S i) (tl us) (tl vs) h' (upd bond_eq_dec a (hv k (S i)) h') ltac:(cbn in *; lia) ltac:(discriminate)).
    rewrite <- (gsum_factor bond_eq_dec _ _ (fun _ => g h (hd0 us) h' (hd0 vs))) by (intros ? ? ? ?; reflexivity).
    apply gsum_ext. intros a' E _.
    change (rowp k (g :: g' :: fs) i a' us vs h) with (g h (hd0 us) (a' (hv k (S i))) (hd0 vs) * rowp k (g' :: fs) (S i) a' (tl us) (tl vs) (a' (hv k (S i))))%C.
    rewrite (E (hv k (S i))), upd_same; [reflexivity|]. intros Q. apply in_map_iff in Q. destruct Q as (j & Ej & Hj). apply in_seq in Hj. cbn [length] in *. destruct (hv_inj k j k (S i)); [lia|lia|lia|lia|exact Ej|lia].
Qed.
Definition H (k : nat) (a : bond -> nat) (i : nat) : nat := if (i =? 0) || (i =? n) then 0 else a (hv k i).
Lemma rowp_prod k a : forall m i g us vs h, i + m = n -> length us = m -> length vs = m -> (1 <= m -> h = H k a i) ->
  rowp k (map g (seq i m)) i a us vs h = prodC (fun j => g j (H k a j) (nth (j - i) us 0) (H k a (S j)) (nth (j - i) vs 0)) (seq i m).
Proof.
  induction m as [|m IH]; intros i g us vs h Hi Lu Lv Hh; [reflexivity|]. destruct us as [|u us]; [discriminate|]. destruct vs as [|v vs]; [discriminate|]. injection Lu as Lu. injection Lv as Lv.
  cbn [seq map]. rewrite prodC_cons, Nat.sub_diag. cbn [nth]. rewrite <- Hh by lia.
  transitivity (g i h u (H k a (S i)) v * prodC (fun j => g j (H k a j) (nth (j - S i) us 0%nat) (H k a (S j)) (nth (j - S i) vs 0%nat)) (seq (S i) m))%C.
  - destruct m as [|m].
    + cbn [seq map rowp hd0]. unfold H. replace (S i =? n) with true by (symmetry; apply Nat.eqb_eq; lia). rewrite orb_true_r. cbn [prodC fold_right]. ring.
    + rewrite <- (IH (S i) g us vs (H k a (S i))) by (lia || reflexivity). assert (EH : H k a (S i) = a (hv k (S i))) by (unfold H; replace (S i =? n) with false by (symmetry; apply Nat.eqb_neq; lia); reflexivity).
      rewrite EH. reflexivity.
  - f_equal. apply prodC_ext. intros j Hj. apply in_seq in Hj. replace (j - i) with (S (j - S i)) by lia. reflexivity.
Qed.
(** all slices *)
Fixpoint Bs (K : nat) : list bond := match K with O => hvs 0 | S k => vvs k ++ Bs k ++ hvs (S k) end.
Definition U (k : nat) (a : bond -> nat) : list nat := match k with O => repeat 0 n | S k' => map a (vvs k') end.
Definition rowk (k : nat) (a : bond -> nat) (us vs : list nat) : C := rowp k (map (f k) (seq 0 n)) 0 a us vs 0.
Fixpoint PP (K : nat) (vs : list nat) (a : bond -> nat) : C :=
  match K with O => rowk 0 a (U 0 a) vs | S k => (PP k (U (S k) a) a * rowk (S k) a (U (S k) a) vs)%C end.
Lemma in_Bs K b : In b (Bs K) <-> (exists k i, k < K /\ i < n /\ b = vv k i) \/ (exists k i, k <= K /\ 1 <= i < n /\ b = hv k i).
Proof.
  induction K as [|K IH]; cbn [Bs].
  - unfold hvs. rewrite in_map_iff. split.
    + intros (i & <- & Hi). apply in_seq in Hi. right. exists 0, i. repeat split; lia.
    + intros [(k & i & Hk & _)|(k & i & Hk & Hi & ->)]; [lia|]. exists i. replace k with 0 by lia. split; [reflexivity|]. apply in_seq. lia.
  - rewrite !in_app_iff, IH. unfold vvs, hvs. rewrite !in_map_iff. split.
    + intros [(i & <- & Hi)|[[(k & i & Hk & Hi & ->)|(k & i & Hk & Hi & ->)]|(i & <- & Hi)]]; try apply in_seq in Hi.
      * left. exists K, i. repeat split; lia.
      * left. exists k, i. repeat split; lia.
      * right. exists k, i. repeat split; lia.
      * right. exists (S K), i. repeat split; lia.
    + intros [(k & i & Hk & Hi & ->)|(k & i & Hk & Hi & ->)].
      * destruct (Nat.eq_dec k K) as [->|Q]; [left; exists i; split; [reflexivity|apply in_seq; lia]|]. right. left. left. exists k, i. repeat split; lia.
      * destruct (Nat.eq_dec k (S K)) as [->|Q]; [right; right; exists i; split; [reflexivity|apply in_seq; lia]|]. right. left. right. exists k, i. repeat split; lia.
Qed.
Lemma NoDup_map_on {X Y} (g : X -> Y) l : (forall x y, In x l -> In y l -> g x = g y -> x = y) -> NoDup l -> NoDup (map g l).
Proof.
  intros I. induction 1 as [|x l Nx ND IH]; cbn [map]; constructor.
  - intros Q. apply in_map_iff in Q. destruct Q as (y & E & Hy). apply Nx. rewrite <- (I y x); [exact Hy|right; exact Hy|left; reflexivity|exact E].
  - apply IH. intros y z Hy Hz. apply I; right; assumption.
Qed.
Lemma hvs_nodup k : k < N -> NoDup (hvs k).
Proof. intros Hk. apply NoDup_map_on; [|apply seq_NoDup]. intros x y Hx Hy E. apply in_seq in Hx, Hy. destruct (hv_inj k x k y); lia || assumption. Qed.
Lemma vvs_nodup k : S k < N -> NoDup (vvs k).
Proof. intros Hk. apply NoDup_map_on; [|apply seq_NoDup]. intros x y Hx Hy E. apply in_seq in Hx, Hy. destruct (vv_inj k x k y); lia || assumption. Qed.
Lemma NoDup_append {X} (l l' : list X) : NoDup l -> NoDup l' -> (forall x, In x l -> ~ In x l') -> NoDup (l ++ l').
Proof.
  induction 1 as [|x l Nx ND IH]; intros ND' Dj; [exact ND'|]. cbn [app]. constructor.
  - intros Q. apply in_app_or in Q. destruct Q as [Q|Q]; [contradiction|]. apply (Dj x); [left; reflexivity|exact Q].
  - apply IH; [exact ND'|]. intros y Hy. apply Dj. right. exact Hy.
Qed.
Lemma Bs_nodup K : K < N -> NoDup (Bs K).
Proof.
  induction K as [|K IH]; intros HK; cbn [Bs]; [apply hvs_nodup; exact HK|]. apply NoDup_append; [apply vvs_nodup; exact HK|apply NoDup_append; [apply IH; lia|apply hvs_nodup; exact HK|]|].
  - intros b Hb Q. apply in_map_iff in Q. destruct Q as (i & <- & Hi). apply in_seq in Hi. apply in_Bs in Hb. destruct Hb as [(k & j & _ & _ & E)|(k & j & Hk & Hj & E)]; [exact (vh_dif k j (S K) i (eq_sym E))|].
    destruct (hv_inj (S K) i k j); lia || exact E.
  - intros b Hb Q. apply in_map_iff in Hb. destruct Hb as (i & <- & Hi). apply in_seq in Hi. apply in_app_or in Q. destruct Q as [Q|Q].
    + apply in_Bs in Q. destruct Q as [(k & j & Hk & Hj & E)|(k & j & _ & _ & E)]; [|exact (vh_dif _ _ _ _ E)]. destruct (vv_inj K i k j); lia || exact E.
    + apply in_map_iff in Q. destruct Q as (j & E & _). exact (vh_dif _ _ _ _ (eq_sym E)).
Qed.
Lemma map_indep a v i l : ~ In v l -> map (upd bond_eq_dec a v i) l = map a l.
Proof. intros Nv. apply map_ext_in. intros w Hw. apply upd_other. intros ->. contradiction. Qed.
Lemma rowp_same k : forall fs i a a' us vs h, (forall j, i < j < i + length fs -> a (hv k j) = a' (hv k j)) -> rowp k fs i a us vs h = rowp k fs i a' us vs h.
Proof.
  induction fs as [|g fs IH]; intros i a a' us vs h E; [reflexivity|]. destruct fs as [|g' fs]; [reflexivity|].
  cbn [rowp]. rewrite (E (S i)) by (cbn; lia). f_equal. apply (IH (S i)). intros j Hj. apply E. cbn in *. lia.
Qed.
Lemma PP_same K : forall vs a a', (forall b, In b (Bs K) -> a b = a' b) -> PP K vs a = PP K vs a'.
Proof.
  assert (Rw : forall k us vs a a', (forall i, 1 <= i < n -> a (hv k i) = a' (hv k i)) -> rowk k a us vs = rowk k a' us vs).
  { intros k us vs a a' E. apply rowp_same. rewrite map_length, seq_length. intros j Hj. apply E. lia. }
  induction K as [|K IH]; intros vs a a' E; cbn [PP].
  - apply Rw. intros i Hi. apply E. apply in_Bs. right. exists 0, i. repeat split; lia.
  - assert (EU : U (S K) a = U (S K) a').
    { cbn [U]. apply map_ext_in. intros b Hb. apply E. cbn [Bs]. apply in_or_app. left. exact Hb. }
    rewrite EU. f_equal.
    + apply IH. intros b Hb. apply E. cbn [Bs]. apply in_or_app. right. apply in_or_app. left. exact Hb.
    + apply Rw. intros i Hi. apply E. apply in_Bs. right. exists (S K), i. repeat split; lia.
Qed.
Lemma row_full k us vs a : 1 <= n -> k < N -> rowv D (map (f k) (seq 0 n)) us vs 0 = gs (hvs k) (fun a => rowk k a us vs) a.
Proof.
  intros Hn Hk. rewrite (rowv_gsum k Hk (map (f k) (seq 0 n)) 0 us vs 0 a); rewrite ?map_length, ?seq_length; [reflexivity|reflexivity|]. destruct n; [lia|discriminate].
Qed.
Theorem Wf_gsum : 1 <= n -> forall K, K < N -> forall vs a, Wf (S K) vs = gs (Bs K) (PP K vs) a.
Proof.
  intros Hn. induction K as [|K IH]; intros HK vs a.
  - cbn [Wf Bs]. rewrite (nsum_zero n (fun us => rowv D (map (f 0) (seq 0 n)) us vs 0)). apply row_full; assumption.
  - change (Wf (S (S K)) vs) with (nsum (repeat D n) (fun us => (Wf (S K) us * rowv D (map (f (S K)) (seq 0 n)) us vs 0)%C)).
    replace (repeat D n) with (repeat D (length (vvs K))) by (unfold vvs; rewrite map_length, seq_length; reflexivity).
    rewrite (nsum_gsum (vvs K) (vvs_nodup K HK) _ a). cbn [Bs]. rewrite gsum_app. apply gsum_ext_all. intros b. rewrite gsum_app.
    assert (D1' : forall v, In v (Bs K) -> ~ In v (vvs K)).
    { intros v Hv Q. apply in_map_iff in Q. destruct Q as (i & <- & Hi). apply in_seq in Hi. apply in_Bs in Hv. destruct Hv as [(k & j & Hk & Hj & E)|(k & j & _ & _ & E)]; [|exact (vh_dif _ _ _ _ E)]. destruct (vv_inj K i k j); lia || exact E. }
    assert (D2 : forall v, In v (hvs (S K)) -> ~ In v (vvs K) /\ ~ In v (Bs K)).
    { intros v Hv. apply in_map_iff in Hv. destruct Hv as (i & <- & Hi). apply in_seq in Hi. split; intros Q.
      - apply in_map_iff in Q. destruct Q as (j & E & _). exact (vh_dif _ _ _ _ E).
      - apply in_Bs in Q. destruct Q as [(k & j & _ & _ & E)|(k & j & Hk & Hj & E)]; [exact (vh_dif _ _ _ _ (eq_sym E))|]. destruct (hv_inj (S K) i k j); lia || exact E. }
    rewrite (IH ltac:(lia) (map b (vvs K)) b).
    transitivity (gs (Bs K) (fun a' => (rowv D (map (f (S K)) (seq 0 n)) (map b (vvs K)) vs 0 * PP K (map b (vvs K)) a')%C) b).
    { rewrite (gsum_factor bond_eq_dec (Bs K) _ (fun _ => rowv D (map (f (S K)) (seq 0 n)) (map b (vvs K)) vs 0) (PP K (map b (vvs K)))) by (intros ? ? ? ?; reflexivity). ring. }
    apply gsum_ext. intros a' E _.
    assert (Eb : map a' (vvs K) = map b (vvs K)).
    { apply map_ext_in. intros v Hv. apply E. intros Q. exact (D1' v Q Hv). }
    rewrite (row_full (S K) (map b (vvs K)) vs a' Hn HK).
    transitivity (gs (hvs (S K)) (fun a0 => (PP K (map b (vvs K)) a' * rowk (S K) a0 (map b (vvs K)) vs)%C) a').
    { rewrite (gsum_factor bond_eq_dec (hvs (S K)) _ (fun _ => PP K (map b (vvs K)) a')) by (intros ? ? ? ?; reflexivity). ring. }
    apply gsum_ext. intros a'' E' _. cbn [PP U].
    assert (Eb' : map a'' (vvs K) = map b (vvs K)).
    { rewrite <- Eb. apply map_ext_in. intros v Hv. apply E'. intros Q. exact (proj1 (D2 v Q) Hv). }
    rewrite Eb'. f_equal. apply PP_same. intros v Hv. symmetry. apply E'. intros Q. exact (proj2 (D2 v Q) Hv).
Qed.
(** the product over all sites *)
Definition V (k : nat) (a : bond -> nat) (i : nat) : nat := if (k =? 0) || (k =? N) then 0 else a (vv (k - 1) i).
Lemma U_length k a : length (U k a) = n.
Proof. destruct k; cbn [U]; [apply repeat_length|]. unfold vvs. rewrite !map_length, seq_length. reflexivity. Qed.
Lemma U_nth k a i : k < N -> i < n -> nth i (U k a) 0 = V k a i.
Proof.
  intros Hk Hi. unfold V. replace (k =? N) with false by (symmetry; apply Nat.eqb_neq; lia). rewrite orb_false_r. destruct k as [|k]; cbn [U Nat.eqb].
  - clear -Hi. revert i Hi. induction n as [|m IH]; intros i Hi; [lia|]. destruct i; [reflexivity|]. apply IH. lia.
  - unfold vvs. rewrite map_map. replace (S k - 1) with k by lia. apply (nth_map_seq (fun x => a (vv k x)) n i 0 Hi).
Qed.
Definition site_weight (k i : nat) (a : bond -> nat) : C := f k i (H k a i) (V k a i) (H k a (S i)) (V (S k) a i).
Lemma rowk_prod k a us vs : length us = n -> length vs = n -> rowk k a us vs = prodC (fun i => f k i (H k a i) (nth i us 0) (H k a (S i)) (nth i vs 0)) (seq 0 n).
Proof.
  intros Lu Lv. unfold rowk. rewrite (rowp_prod k a n 0 (f k) us vs 0); [|reflexivity|exact Lu|exact Lv|intros; reflexivity].
  apply prodC_ext. intros j _. rewrite Nat.sub_0_r. reflexivity.
Qed.
Lemma PP_prod K : forall vs a, K < N -> length vs = n -> PP K vs a =
  (prodC (fun k => prodC (fun i => site_weight k i a) (seq 0 n)) (seq 0 K) * prodC (fun i => f K i (H K a i) (V K a i) (H K a (S i)) (nth i vs 0%nat)) (seq 0 n))%C.
Proof.
  assert (RK : forall k vs a, k < N -> length vs = n -> rowk k a (U k a) vs = prodC (fun i => f k i (H k a i) (V k a i) (H k a (S i)) (nth i vs 0)) (seq 0 n)).
  { intros k vs a Hk Lv. rewrite rowk_prod by (apply U_length || exact Lv). apply prodC_ext. intros i Hi. apply in_seq in Hi. rewrite U_nth by lia. reflexivity. }
  induction K as [|K IH]; intros vs a HK Lv; cbn [PP].
  - rewrite RK by assumption. cbn [seq]. change (prodC (fun k => prodC (fun i => site_weight k i a) (seq 0 n)) []) with (RtoC 1). ring.
  - rewrite RK by assumption. f_equal. rewrite IH by (lia || apply U_length). rewrite seq_S, prodC_app. f_equal. cbn [Nat.add]. rewrite prodC_cons. change (prodC (fun k => prodC (fun i => site_weight k i a) (seq 0 n)) []) with (RtoC 1).
    transitivity (prodC (fun i => site_weight K i a) (seq 0 n)); [|ring]. apply prodC_ext. intros i Hi. apply in_seq in Hi. unfold site_weight. rewrite U_nth by lia. reflexivity.
Qed.
Lemma prodC_grid (g : nat -> nat -> C) r c : prodC (fun k => prodC (fun i => g k i) (seq 0 c)) (seq 0 r) = prodC (fun ki => g (fst ki) (snd ki)) (grid r c).
Proof.
  unfold grid. generalize (seq 0 r). intros l. induction l as [|k l IH]; [reflexivity|]. cbn [list_prod]. rewrite prodC_cons, prodC_app, IH, prodC_map. reflexivity.
Qed.
Theorem Wf_total a : 1 <= n -> 1 <= N -> Wf N (repeat 0 n) = gs (Bs (N - 1)) (fun a => prodC (fun ki => site_weight (fst ki) (snd ki) a) (grid N n)) a.
Proof.
  intros Hn HN. replace N with (S (N - 1)) at 1 by lia. rewrite (Wf_gsum Hn (N - 1) ltac:(lia) _ a). apply gsum_ext_all. intros b.
  rewrite PP_prod by (lia || apply repeat_length). rewrite <- (prodC_grid (fun k i => site_weight k i b)). replace (seq 0 N) with (seq 0 (N - 1) ++ [N - 1]) by (replace N with (S (N - 1)) at 3 by lia; rewrite seq_S; reflexivity).
  rewrite prodC_app. f_equal. rewrite prodC_cons. change (prodC (fun k => prodC (fun i => site_weight k i b) (seq 0 n)) []) with (RtoC 1).
  transitivity (prodC (fun i => site_weight (N - 1) i b) (seq 0 n)); [|ring]. apply prodC_ext. intros i Hi. apply in_seq in Hi. unfold site_weight. f_equal. unfold V. replace (S (N - 1) =? N) with true by (symmetry; apply Nat.eqb_eq; lia). rewrite orb_true_r.
  clear -Hi. destruct (nth_in_or_default i (repeat 0 n) 0) as [Q|Q]; [apply repeat_spec in Q; exact Q|exact Q].
Qed.
End Sum.
