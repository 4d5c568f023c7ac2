(** The boundary MPS of a network are its slices absorbed; every window contracts to the sum over all bonds. *)
From Coq Require Import List Arith Lia Bool Reals Permutation.
From Verif Require Import Base Cplx SumModel SumSpec SumProofs NetSum ContractorModel ContractorSpec SweepModel SweepSpec EnergyModel EnergySpec
  TrgTensor BmpsModel BmpsSpec BmpsAlg BmpsChain BmpsEnv BmpsSum.
Import ListNotations.
Local Open Scope nat_scope.

Lemma rev_map_seq {X} (f : nat -> X) n : rev (map f (seq 0 n)) = map (fun i => f (n - 1 - i)) (seq 0 n).
Proof.
  induction n as [|n IH]; [reflexivity|].
  transitivity (f n :: rev (map f (seq 0 n))); [rewrite seq_S, map_app, rev_app_distr; reflexivity|]. rewrite IH.
  cbn [seq map]. f_equal; [f_equal; lia|]. rewrite <- seq_shift, map_map. apply map_ext_in. intros i Hi. apply in_seq in Hi. f_equal. lia.
Qed.
Section Net.
Context (D : nat) (D1 : 1 <= D) (qr : tensor -> tensor * tensor) (svd : tensor -> tensor * list R * tensor) (m : nat).
Context (QR : exact_qr qr) (SV : svd_keeps m svd).
Context (rows cols : nat) (R1 : 1 <= rows) (C1 : 1 <= cols) (Dm : D ^ (Nat.max rows cols - 1) <= m).
Notation o := (bmps_ops D qr svd rows cols).
Context (tn : nat -> nat -> list nat -> C).
Definition site_of (q : pos) (k i : nat) : site :=
  match q with UP => (k, cols - 1 - i) | DOWN => (rows - 1 - k, i) | LEFT => (i, k) | RIGHT => (rows - 1 - i, cols - 1 - k) end.
Definition fq (q : pos) (k i : nat) : weightf := local q (tn (fst (site_of q k i)) (snd (site_of q k i))).
Definition W (q : pos) : nat -> list nat -> C := Wf D (wid rows cols q) (fq q).
Notation bm := (bmps_from o rows cols tn).
Lemma slice_sites q k : map (local q) (match q with RIGHT | UP => rev (outer_slice o rows cols tn q k) | _ => outer_slice o rows cols tn q k end) = map (fq q k) (seq 0 (wid rows cols q)).
Proof. destruct q; unfold outer_slice, wid, fq, site_of; cbn [fst snd]; rewrite ?rev_map_seq, map_map; reflexivity. Qed.
Lemma absorb_eq q k ms : absorb o q (outer_slice o rows cols tn q k) ms = multiply_svd D qr svd q ms (match q with RIGHT | UP => rev (outer_slice o rows cols tn q k) | _ => outer_slice o rows cols tn q k end).
Proof. destruct q; reflexivity. Qed.
Lemma vac_linked n : linked D 1 1 (repeat (unit_at_zero [1; 1; 1]) n) 1 1.
Proof.
  induction n as [|n IH]; cbn [repeat linked]; [reflexivity|]. exists 1. split; [reflexivity|]. split; [lia|]. split; [|exact IH].
  split; [cbn; exact D1|]. intros x u y Hu. cbn in Hu. unfold unit_at_zero, entry. destruct u; [lia|]. cbn. rewrite andb_false_r. reflexivity.
Qed.
Lemma vac_value n : forall us, length us = n -> mval (repeat (unit_at_zero [1; 1; 1]) n) us 0 = if forallb (Nat.eqb 0) us then RtoC 1 else RtoC 0.
Proof.
  induction n as [|n IH]; intros us L; [destruct us; [reflexivity|discriminate]|]. destruct us as [|u us]; [discriminate|]. injection L as L. unfold mval. cbn [repeat mvalk hd0 tl]. fold mval.
  change (dimat (unit_at_zero [1; 1; 1]) 2) with 1. rewrite sm_1. fold (mval (repeat (unit_at_zero [1; 1; 1]) n) us 0). rewrite (IH us L). unfold unit_at_zero, entry. destruct u; cbn; [|ring]. destruct (forallb _ us); ring.
Qed.
Lemma bmps_value q K : K <= Nat.max rows cols - 1 ->
  length (bm q K) = wid rows cols q /\ linked D (if K =? 0 then 1 else D) (D ^ K) (bm q K) 1 1 /\
  forall us, length us = wid rows cols q -> Forall (fun u => u < D) us -> mval (bm q K) us 0 = W q K us.
Proof.
  induction K as [|K IH]; intros HK.
  - cbn [bmps_from vac_mps bmps_ops Nat.eqb]. split; [apply repeat_length|]. split; [apply vac_linked|]. intros us L _. apply vac_value. exact L.
  - destruct (IH ltac:(lia)) as (L & Lk & Vl). cbn [bmps_from]. rewrite absorb_eq. set (ts := match q with RIGHT | UP => rev (outer_slice o rows cols tn q K) | _ => outer_slice o rows cols tn q K end).
    assert (Lt : length (bm q K) = length ts).
    { rewrite L. unfold ts. destruct q; cbn [outer_slice]; rewrite ?rev_length, ?map_length, ?seq_length; reflexivity. }
    assert (P1 : 1 <= D ^ K) by (pose proof (Nat.pow_nonzero D K); lia).
    assert (Pm : D * D ^ K <= m). { apply Nat.le_trans with (D ^ (Nat.max rows cols - 1)); [|exact Dm]. rewrite <- Nat.pow_succ_r'. apply Nat.pow_le_mono_r; lia. }
    destruct (multiply_spec D D1 qr svd m QR SV q _ (D ^ K) (bm q K) ts P1 Pm Lt Lk) as (A & B & E).
    split; [exact (eq_trans A L)|]. split; [exact B|]. intros vs Lv Fv. refine (eq_trans (E vs (eq_trans Lv (eq_sym L)) Fv) _). unfold W. cbn [Wf]. rewrite L. apply nsum_ext. intros us Lu Fu.
    rewrite repeat_length in Lu. rewrite Vl; [|exact Lu|].
    + fold (W q K us). unfold ts. rewrite slice_sites. reflexivity.
    + clear -Fu. remember (repeat D (wid rows cols q)) as ds. assert (Q : forall d, In d ds -> d = D) by (intros d Hd; subst; apply repeat_spec in Hd; exact Hd). clear Heqds.
      induction Fu as [|x y l l' Hxy F IHF]; constructor; [rewrite <- (Q y) by (left; reflexivity); exact Hxy|]. apply IHF. intros d Hd. apply Q. right. exact Hd.
Qed.
(** as families indexed by position *)
Lemma linked_dims P c ms : forall x z, linked D P c ms x z -> exists b, b 0 = x /\ b (length ms) = z /\ forall i, i < length ms -> shape (nth i ms (unit_at_zero [])) = [b i; P; b (S i)] /\ padded D (nth i ms (unit_at_zero [])).
Proof.
  induction ms as [|A ms IH]; intros x z Lk; cbn [linked] in Lk.
  - exists (fun _ => x). cbn. repeat split; try lia; assumption.
  - destruct Lk as (y & SA & _ & PA & Lk). destruct (IH y z Lk) as (b & B0 & Bn & B). exists (fun i => match i with O => x | S j => b j end). cbn [length]. split; [reflexivity|]. split; [exact Bn|].
    intros [|i] Hi; cbn [nth]; [rewrite B0; split; assumption|]. apply B. lia.
Qed.
Definition M (q : pos) (K : nat) (i : nat) : tensor := nth i (bm q K) (unit_at_zero []).
Lemma M_like q K : K <= Nat.max rows cols - 1 -> exists b P, mps_like D (wid rows cols q) b P (M q K).
Proof.
  intros HK. destruct (bmps_value q K HK) as (L & Lk & _). destruct (linked_dims _ _ _ _ _ Lk) as (b & B0 & Bn & B). exists b, (if K =? 0 then 1 else D).
  unfold mps_like. rewrite <- L. split; [exact B0|]. split; [exact Bn|exact B].
Qed.
Lemma M_list q K n : K <= Nat.max rows cols - 1 -> n = wid rows cols q -> map (M q K) (seq 0 n) = bm q K.
Proof.
  intros HK ->. destruct (bmps_value q K HK) as (L & _ & _). rewrite <- L. clear. unfold M. generalize (bm q K). intros l. induction l as [|x l IH]; [reflexivity|].
  cbn [length seq map nth]. f_equal. rewrite <- seq_shift, map_map. exact IH.
Qed.
Lemma in_range l ds : Forall2 lt l ds -> (forall d, In d ds -> d = D) -> Forall (fun u => u < D) l.
Proof.
  induction 1 as [|x y l l' Hxy F IHF]; intros Q; constructor; [rewrite <- (Q y) by (left; reflexivity); exact Hxy|]. apply IHF. intros d Hd. apply Q. right. exact Hd.
Qed.
(** two sets of slices facing each other *)
Definition X (q : pos) (a b : nat) : C := nsum (repeat D (wid rows cols q)) (fun vs => (W q a vs * W (opposite q) b (rev vs))%C).
Lemma wid_opposite q : wid rows cols (opposite q) = wid rows cols q.
Proof. destruct q; reflexivity. Qed.
Lemma site_turned q a b i : a + S b = nsl rows cols q -> i < wid rows cols q -> site_of (opposite q) b (wid rows cols q - 1 - i) = site_of q a i.
Proof. destruct q; unfold nsl, wid, site_of, opposite; intros; f_equal; lia. Qed.
Lemma slice_turned q a b : a + S b = nsl rows cols q ->
  rev (map (flip) (map (fq q a) (seq 0 (wid rows cols q)))) = map (fq (opposite q) b) (seq 0 (wid rows cols q)).
Proof.
  intros E. rewrite map_map, rev_map_seq. apply map_ext_in. intros i Hi. apply in_seq in Hi. unfold fq. rewrite <- (site_turned q a b) by (exact E || lia).
  replace (wid rows cols q - 1 - (wid rows cols q - 1 - i)) with i by lia.
  unfold flip. generalize (tn (fst (site_of (opposite q) b i)) (snd (site_of (opposite q) b i))). intros t. destruct q; reflexivity.
Qed.
Lemma X_shift q a b : a + S b = nsl rows cols q -> X q (S a) b = X q a (S b).
Proof.
  intros E. unfold X, W. rewrite wid_opposite. set (n := wid rows cols q) in *. cbn [Wf].
  transitivity (nsum (repeat D n) (fun vs => nsum (repeat D n) (fun us => (Wf D n (fq q) a us * (rowv D (map (fq q a) (seq 0 n)) us vs 0 * Wf D n (fq (opposite q)) b (rev vs)))%C))).
  { apply nsum_ext. intros vs _ _. rewrite <- nsum_scal_r. apply nsum_ext. intros us _ _. ring. }
  rewrite nsum_swap. apply nsum_ext. intros us Lu _. rewrite nsum_scal. f_equal. rewrite nsum_rev. apply nsum_ext. intros vs Lv _. rewrite repeat_length in Lu, Lv. rewrite rev_involutive.
  rewrite (rowv_rev D D1) by (rewrite ?map_length, ?rev_length, ?seq_length; assumption). pose proof (slice_turned q a b E) as ST. fold n in ST. rewrite ST, rev_involutive. ring.
Qed.
Lemma X_last q : X q (nsl rows cols q) 0 = W q (nsl rows cols q) (repeat 0 (wid rows cols q)).
Proof.
  unfold X. rewrite <- (nsum_zero D D1 (wid rows cols q) (W q (nsl rows cols q))). apply nsum_ext. intros vs _ _. unfold W at 2. cbn [Wf]. rewrite forallb_rev. ring.
Qed.
Lemma X_all q b : forall a, a + b = nsl rows cols q -> X q a b = W q (nsl rows cols q) (repeat 0 (wid rows cols q)).
Proof.
  induction b as [|b IH]; intros a E; [rewrite Nat.add_0_r in E; subst a; apply X_last|]. rewrite <- X_shift by exact E. apply IH. lia.
Qed.
(** *** windows of one layer *)
Lemma cells_first n M1 M2 p ts k : k <= n -> map (fun c => fst (fst c)) (cells n M1 M2 p ts k) = map M1 (seq (n - k) k).
Proof. induction k as [|k IH]; intros Hk; [reflexivity|]. cbn [cells map fst]. rewrite IH by lia. replace (n - k) with (S (n - S k)) by lia. cbn [seq map]. f_equal. f_equal. lia. Qed.
Lemma cells_mid n M1 M2 p ts k : k <= n -> map (fun c => snd (fst c)) (cells n M1 M2 p ts k) = map (fun i => local (pre_of p) (ts (n - 1 - i))) (seq (n - k) k).
Proof. induction k as [|k IH]; intros Hk; [reflexivity|]. cbn [cells map fst snd]. rewrite IH by lia. replace (n - k) with (S (n - S k)) by lia. cbn [seq map]. f_equal. f_equal. f_equal. lia. Qed.
Lemma cells_last n M1 M2 p ts k : map snd (cells n M1 M2 p ts k) = rev (map M2 (seq 0 k)).
Proof. induction k as [|k IH]; [reflexivity|]. rewrite seq_S, map_app, rev_app_distr. cbn [cells map snd rev app Nat.add]. f_equal. exact IH. Qed.
Lemma cells_length n M1 M2 p ts k : length (cells n M1 M2 p ts k) = k.
Proof. induction k as [|k IH]; [reflexivity|]. cbn. rewrite IH. reflexivity. Qed.
Lemma wid_pre p : wid rows cols (pre_of p) = wid rows cols (next_of p).
Proof. destruct p; reflexivity. Qed.
Lemma nsl_le q : nsl rows cols q <= Nat.max rows cols.
Proof. destruct q; cbn; lia. Qed.
Theorem chain3_value p ts a b : a + S b = nsl rows cols (pre_of p) ->
  (forall i, i < wid rows cols (pre_of p) -> ts (wid rows cols (pre_of p) - 1 - i) = tn (fst (site_of (pre_of p) a i)) (snd (site_of (pre_of p) a i))) ->
  chain3 D (cells (wid rows cols (pre_of p)) (M (pre_of p) a) (M (next_of p) b) p ts (wid rows cols (pre_of p))) 0 0 0
  = W (pre_of p) (nsl rows cols (pre_of p)) (repeat 0 (wid rows cols (pre_of p))).
Proof.
  intros E Ht. set (n := wid rows cols (pre_of p)) in *. rewrite chain3_split, cells_length, cells_first, cells_mid, cells_last by lia. rewrite Nat.sub_diag.
  pose proof (nsl_le (pre_of p)) as NL. rewrite (M_list (pre_of p) a n) by (lia || reflexivity). rewrite (M_list (next_of p) b n) by (lia || apply wid_pre).
  replace (map (fun i => local (pre_of p) (ts (n - 1 - i))) (seq 0 n)) with (map (fq (pre_of p) a) (seq 0 n)) by (apply map_ext_in; intros i Hi; apply in_seq in Hi; unfold fq; rewrite Ht by (fold n; lia); reflexivity).
  pose proof (X_all (pre_of p) b (S a) ltac:(lia)) as XA. fold n in XA. rewrite <- XA. unfold X. fold n. rewrite nsum_swap. apply nsum_ext. intros vs Lv Fv. unfold W at 1. cbn [Wf]. fold n. rewrite <- nsum_scal_r. apply nsum_ext. intros us Lu Fu.
  rewrite repeat_length in Lu, Lv. destruct (bmps_value (pre_of p) a ltac:(lia)) as (L1 & K1 & V1). destruct (bmps_value (next_of p) b ltac:(lia)) as (L2 & K2 & V2).
  assert (RD : forall d, In d (repeat D n) -> d = D) by (intros d Hd; apply repeat_spec in Hd; exact Hd).
  rewrite V1 by (exact Lu || exact (in_range _ _ Fu RD)). fold (W (pre_of p) a us). rewrite <- (rev_involutive vs) at 2.
  rewrite (mval_rev D D1 _ _ _ (rev vs) K2) by (rewrite rev_length, L2, <- wid_pre; exact Lv).
  rewrite V2 by (rewrite ?rev_length, <- ?wid_pre; exact Lv || apply Forall_rev; exact (in_range _ _ Fv RD)).
  replace (opposite (pre_of p)) with (next_of p) by (destruct p; reflexivity). reflexivity.
Qed.
Definition tsq (p : pos) (s : nat) (i : nat) : list nat -> C := let x := env_site (wid rows cols (pre_of p)) p s i in tn (fst x) (snd x).
Lemma env_from_eq p s k : env_from o rows cols tn p s k = env D (wid rows cols (pre_of p)) p (M (pre_of p) (depth rows cols (pre_of p) s)) (M (next_of p) (depth rows cols (next_of p) s)) (tsq p s) k.
Proof. induction k as [|k IH]; [reflexivity|]. cbn [env_from env]. rewrite IH. reflexivity. Qed.
Lemma env_ext n p m1 m2 ts ts' k : (forall i, i < k -> ts i = ts' i) -> env D n p m1 m2 ts k = env D n p m1 m2 ts' k.
Proof. induction k as [|k IH]; intros H; [reflexivity|]. cbn [env]. rewrite IH by (intros; apply H; lia). rewrite H by lia. reflexivity. Qed.
Lemma far_from_eq p s k : k <= wid rows cols (pre_of p) ->
  env_from o rows cols tn (opposite p) s k = far_env D (wid rows cols (pre_of p)) (M (pre_of p) (depth rows cols (pre_of p) s)) (M (next_of p) (depth rows cols (next_of p) s)) p (tsq p s) k.
Proof.
  intros Hk. rewrite env_from_eq. unfold far_env.
  replace (pre_of (opposite p)) with (next_of p) by (destruct p; reflexivity). replace (next_of (opposite p)) with (pre_of p) by (destruct p; reflexivity). rewrite <- wid_pre.
  apply env_ext. intros i Hi. unfold tsq. destruct p; unfold env_site, wid, opposite, pre_of; cbn [fst snd]; try reflexivity; cbn [wid pre_of] in *; repeat f_equal; lia.
Qed.
Lemma depths d s : (match d with HORIZONTAL => s < rows | VERTICAL => s < cols end) ->
  depth rows cols (pre_of (near d)) s + S (depth rows cols (next_of (near d)) s) = nsl rows cols (pre_of (near d)).
Proof. destruct d; cbn; lia. Qed.
Lemma map_seq_shift {Y} (g : nat -> Y) j w : map g (seq j w) = map (fun i => g (j + i)) (seq 0 w).
Proof. revert j. induction w as [|w IH]; intros j; [reflexivity|]. cbn [seq map]. rewrite Nat.add_0_r. f_equal. rewrite IH, <- seq_shift, map_map. apply map_ext. intros i. f_equal. lia. Qed.
Definition total (d : orient) : C := let q := pre_of (near d) in W q (nsl rows cols q) (repeat 0 (wid rows cols q)).
Lemma window1_value d x w : 1 <= w -> window_in rows cols d x w -> trace_at o rows cols tn d x w = total d.
Proof.
  intros Hw Hin. unfold trace_at, window1_spec.
  assert (HS : match d with HORIZONTAL => across d x < rows | VERTICAL => across d x < cols end) by (destruct d; apply Hin).
  assert (HE : depth rows cols (pre_of (near d)) (across d x) + S (depth rows cols (next_of (near d)) (across d x)) = nsl rows cols (pre_of (near d))) by (apply depths; exact HS).
  set (s := across d x) in *. set (j := along d x) in *. set (n := wid rows cols (pre_of (near d))).
  assert (Hj : j + w <= n) by (unfold j, n; destruct d; cbn in Hin |- *; lia).
  pose proof (nsl_le (pre_of (near d))) as NL.
  destruct (M_like (pre_of (near d)) (depth rows cols (pre_of (near d)) s) ltac:(lia)) as (b1 & P1 & L1). destruct (M_like (next_of (near d)) (depth rows cols (next_of (near d)) s) ltac:(lia)) as (b2 & P2 & L2).
  rewrite <- wid_pre in L2. fold n in L1, L2.
  replace (wid rows cols (side1 d)) with n by (unfold n; destruct d; reflexivity). change (far d) with (opposite (near d)).
  rewrite env_from_eq, far_from_eq by (fold n; lia). fold n.
  pose proof (trace1_value D D1 n ltac:(unfold n; destruct d; cbn; lia) b1 b2 P1 P2 _ _ L1 L2 d (tsq (near d) s) j w Hw Hj) as T.
  unfold total. rewrite <- (chain3_value (near d) (tsq (near d) s) _ _ HE); [fold n; rewrite <- T|].
  - cbn [tr1 bmps_ops]. f_equal.
    + apply map_ext_in. intros i Hi. unfold facing, pair_at, M, n. destruct d; reflexivity.
    + unfold chain. rewrite map_map, (map_seq_shift _ j). apply map_ext_in. intros i Hi. apply in_seq in Hi. unfold tsq, j, s, site_shift. destruct d; reflexivity.
  - intros i Hi. unfold tsq, s. destruct d; cbn in Hi, HS, Hin |- *; repeat f_equal; lia.
Qed.
(** *** windows of two layers *)
Lemma cells2_lists n M1 M2 p t1 t2 k : k <= n ->
  map (fun c => fst (fst (fst c))) (cells2 n M1 M2 p t1 t2 k) = map M1 (seq (n - k) k) /\
  map (fun c => snd (fst (fst c))) (cells2 n M1 M2 p t1 t2 k) = map (fun i => local (pre_of p) (t1 (n - 1 - i))) (seq (n - k) k) /\
  map (fun c => snd (fst c)) (cells2 n M1 M2 p t1 t2 k) = map (fun i => local (pre_of p) (t2 (n - 1 - i))) (seq (n - k) k) /\
  map snd (cells2 n M1 M2 p t1 t2 k) = rev (map M2 (seq 0 k)) /\ length (cells2 n M1 M2 p t1 t2 k) = k.
Proof.
  induction k as [|k IH]; intros Hk; [repeat split|]. destruct (IH ltac:(lia)) as (A & B & E & F & L). rewrite (seq_S k 0), map_app, rev_app_distr.
  replace (n - k) with (S (n - S k)) in A, B, E by lia. cbn [cells2 map fst snd seq length rev app Nat.add]. rewrite A, B, E, F, L. replace (n - 1 - k) with (n - S k) by lia. replace (n - 1 - (n - S k)) with k by lia. repeat split.
Qed.
Theorem chain4_value p t1 t2 a b : a + S (S b) = nsl rows cols (pre_of p) ->
  (forall i, i < wid rows cols (pre_of p) -> t1 (wid rows cols (pre_of p) - 1 - i) = tn (fst (site_of (pre_of p) a i)) (snd (site_of (pre_of p) a i))) ->
  (forall i, i < wid rows cols (pre_of p) -> t2 (wid rows cols (pre_of p) - 1 - i) = tn (fst (site_of (pre_of p) (S a) i)) (snd (site_of (pre_of p) (S a) i))) ->
  chain4 D (cells2 (wid rows cols (pre_of p)) (M (pre_of p) a) (M (next_of p) b) p t1 t2 (wid rows cols (pre_of p))) 0 0 0 0
  = W (pre_of p) (nsl rows cols (pre_of p)) (repeat 0 (wid rows cols (pre_of p))).
Proof.
  intros E Ht1 Ht2. set (n := wid rows cols (pre_of p)) in *. rewrite chain4_split.
  destruct (cells2_lists n (M (pre_of p) a) (M (next_of p) b) p t1 t2 n ltac:(lia)) as (A & B1 & B2 & F & L). rewrite A, B1, B2, F, L, Nat.sub_diag. clear A B1 B2 F L.
  pose proof (nsl_le (pre_of p)) as NL. rewrite (M_list (pre_of p) a n) by (lia || reflexivity). rewrite (M_list (next_of p) b n) by (lia || apply wid_pre).
  replace (map (fun i => local (pre_of p) (t1 (n - 1 - i))) (seq 0 n)) with (map (fq (pre_of p) a) (seq 0 n)) by (apply map_ext_in; intros i Hi; apply in_seq in Hi; unfold fq; rewrite Ht1 by (fold n; lia); reflexivity).
  replace (map (fun i => local (pre_of p) (t2 (n - 1 - i))) (seq 0 n)) with (map (fq (pre_of p) (S a)) (seq 0 n)) by (apply map_ext_in; intros i Hi; apply in_seq in Hi; unfold fq; rewrite Ht2 by (fold n; lia); reflexivity).
  pose proof (X_all (pre_of p) b (S (S a)) ltac:(lia)) as XA. fold n in XA. rewrite <- XA. unfold X. fold n.
  destruct (bmps_value (pre_of p) a ltac:(lia)) as (L1 & K1 & V1). destruct (bmps_value (next_of p) b ltac:(lia)) as (L2 & K2 & V2).
  assert (RD : forall d, In d (repeat D n) -> d = D) by (intros d Hd; apply repeat_spec in Hd; exact Hd).
  transitivity (nsum (repeat D n) (fun vs => nsum (repeat D n) (fun ws => nsum (repeat D n) (fun us => (W (pre_of p) a us * rowv D (map (fq (pre_of p) a) (seq 0 n)) us ws 0 * rowv D (map (fq (pre_of p) (S a)) (seq 0 n)) ws vs 0 * W (opposite (pre_of p)) b (rev vs))%C)))).
  - rewrite nsum_swap. transitivity (nsum (repeat D n) (fun ws => nsum (repeat D n) (fun vs => nsum (repeat D n) (fun us => (mval (bm (pre_of p) a) us 0 * rowv D (map (fq (pre_of p) a) (seq 0 n)) us ws 0 * rowv D (map (fq (pre_of p) (S a)) (seq 0 n)) ws vs 0 * mvalr delta0 (rev (bm (next_of p) b)) vs 0)%C)))).
    { apply nsum_ext. intros ws _ _. apply nsum_swap. }
    rewrite nsum_swap. apply nsum_ext. intros vs Lv Fv. apply nsum_ext. intros ws _ _. apply nsum_ext. intros us Lu Fu. rewrite repeat_length in Lu, Lv.
    rewrite V1 by (exact Lu || exact (in_range _ _ Fu RD)). rewrite <- (rev_involutive vs) at 2.
    rewrite (mval_rev D D1 _ _ _ (rev vs) K2) by (rewrite rev_length, L2, <- wid_pre; exact Lv).
    rewrite V2 by (rewrite ?rev_length, <- ?wid_pre; exact Lv || apply Forall_rev; exact (in_range _ _ Fv RD)).
    replace (opposite (pre_of p)) with (next_of p) by (destruct p; reflexivity). reflexivity.
  - apply nsum_ext. intros vs _ _. unfold W at 3. cbn [Wf]. fold n. rewrite <- nsum_scal_r. apply nsum_ext. intros ws _ _. rewrite nsum_scal_r. rewrite nsum_scal_r. reflexivity.
Qed.
Definition ts1 (p : pos) (s : nat) : nat -> list nat -> C := tsq p (fst (layers p s)).
Definition ts2 (p : pos) (s : nat) : nat -> list nat -> C := tsq p (snd (layers p s)).
Lemma env2_from_eq p s k : env2_from o rows cols tn p s k =
  env2 D (wid rows cols (pre_of p)) p (M (pre_of p) (depth rows cols (pre_of p) (fst (layers p s)))) (M (next_of p) (depth rows cols (next_of p) (snd (layers p s)))) (ts1 p s) (ts2 p s) k.
Proof. induction k as [|k IH]; [reflexivity|]. cbn [env2_from env2]. rewrite IH. reflexivity. Qed.
Lemma env2_ext n p m1 m2 t1 t2 t1' t2' k : (forall i, i < k -> t1 i = t1' i) -> (forall i, i < k -> t2 i = t2' i) -> env2 D n p m1 m2 t1 t2 k = env2 D n p m1 m2 t1' t2' k.
Proof. induction k as [|k IH]; intros H H'; [reflexivity|]. cbn [env2]. rewrite IH by (intros; (apply H || apply H'); lia). rewrite H, H' by lia. reflexivity. Qed.
Lemma far2_from_eq p s k : k <= wid rows cols (pre_of p) ->
  env2_from o rows cols tn (opposite p) s k =
  far_env2 D (wid rows cols (pre_of p)) (M (pre_of p) (depth rows cols (pre_of p) (fst (layers p s)))) (M (next_of p) (depth rows cols (next_of p) (snd (layers p s)))) p (ts1 p s) (ts2 p s) k.
Proof.
  intros Hk. rewrite env2_from_eq. unfold far_env2.
  replace (pre_of (opposite p)) with (next_of p) by (destruct p; reflexivity). replace (next_of (opposite p)) with (pre_of p) by (destruct p; reflexivity). rewrite <- wid_pre.
  replace (fst (layers (opposite p) s)) with (snd (layers p s)) by (destruct p; reflexivity). replace (snd (layers (opposite p) s)) with (fst (layers p s)) by (destruct p; reflexivity).
  apply env2_ext; intros i Hi; unfold ts1, ts2, tsq; destruct p; unfold env_site, wid, opposite, pre_of; cbn [fst snd layers]; try reflexivity; cbn [wid pre_of] in *; repeat f_equal; lia.
Qed.
Lemma window2_value d x w : 1 <= w -> window2_in rows cols d x w -> trace2_at o rows cols tn d x w = total d.
Proof.
  intros Hw Hin. unfold trace2_at, window2_spec. set (s := across d x). set (j := along d x). set (n := wid rows cols (pre_of (near d))).
  assert (HE : depth rows cols (pre_of (near d)) (fst (layers (near d) s)) + S (S (depth rows cols (next_of (near d)) (snd (layers (near d) s)))) = nsl rows cols (pre_of (near d))) by (unfold s; destruct d; cbn in Hin |- *; lia).
  assert (Hj : j + w <= n) by (unfold j, n; destruct d; cbn in Hin |- *; lia).
  pose proof (nsl_le (pre_of (near d))) as NL.
  destruct (M_like (pre_of (near d)) (depth rows cols (pre_of (near d)) (fst (layers (near d) s))) ltac:(lia)) as (b1 & P1 & L1).
  destruct (M_like (next_of (near d)) (depth rows cols (next_of (near d)) (snd (layers (near d) s))) ltac:(lia)) as (b2 & P2 & L2).
  rewrite <- wid_pre in L2. fold n in L1, L2.
  replace (wid rows cols (side1 d)) with n by (unfold n; destruct d; reflexivity). change (far d) with (opposite (near d)).
  rewrite env2_from_eq, far2_from_eq by (fold n; lia). fold n.
  pose proof (trace2_value D D1 n ltac:(unfold n; destruct d; cbn; lia) b1 b2 P1 P2 _ _ L1 L2 d (ts1 (near d) s) (ts2 (near d) s) j w Hw Hj) as T.
  unfold total. rewrite <- (chain4_value (near d) (ts1 (near d) s) (ts2 (near d) s) _ _ HE); [fold n; rewrite <- T| |].
  - cbn [tr2 bmps_ops]. f_equal.
    + apply map_ext_in. intros i Hi. unfold facing, pair_at, M, n. destruct d; reflexivity.
    + unfold layer_pairs. rewrite (map_seq_shift _ j). apply map_ext_in. intros i Hi. apply in_seq in Hi. unfold sites_at, ts1, ts2, tsq, j, s, site_shift, second_layer. destruct d; reflexivity.
  - intros i Hi. unfold ts1, tsq, s. destruct d; cbn in Hi, Hin |- *; apply (f_equal2 tn); lia.
  - intros i Hi. unfold ts2, tsq, s. destruct d; cbn in Hi, Hin |- *; repeat f_equal; lia.
Qed.
(** *** the sum over all bonds *)
Lemma nodup_prod {A B} (l : list A) (l' : list B) : NoDup l -> NoDup l' -> NoDup (list_prod l l').
Proof.
  intros ND ND'. induction ND as [|x l Nx ND IH]; cbn [list_prod]; [constructor|]. apply NoDup_append; [apply NoDup_map_on; [intros; congruence|exact ND']|exact IH|].
  intros [a b] H Q. apply in_map_iff in H. destruct H as (y & E & _). injection E as <- <-. apply in_prod_iff in Q. tauto.
Qed.
Lemma in_bonds b : In b (bonds rows cols false) <-> match b with Hor r c => r < rows /\ c + 1 < cols | Ver r c => r + 1 < rows /\ c < cols end.
Proof.
  unfold bonds, grid. rewrite in_app_iff, !in_map_iff. split.
  - intros [([r c] & <- & Hx)|([r c] & <- & Hx)]; apply in_prod_iff in Hx; rewrite !in_seq in Hx; cbn [fst snd]; lia.
  - destruct b as [r c|r c]; intros Hb; [left|right]; exists (r, c); (split; [reflexivity|]); apply in_prod_iff; rewrite !in_seq; lia.
Qed.
Lemma bonds_nodup : NoDup (bonds rows cols false).
Proof.
  unfold bonds, grid. apply NoDup_append.
  - apply NoDup_map_on; [|apply nodup_prod; apply seq_NoDup]. intros [r c] [r' c'] _ _ E. cbn in E. congruence.
  - apply NoDup_map_on; [|apply nodup_prod; apply seq_NoDup]. intros [r c] [r' c'] _ _ E. cbn in E. congruence.
  - intros b H Q. apply in_map_iff in H, Q. destruct H as (x & <- & _). destruct Q as (y & E & _). discriminate.
Qed.
Definition hvq (d : orient) (k i : nat) : bond := match d with HORIZONTAL => Hor k (cols - 1 - i) | VERTICAL => Ver (rows - 1 - i) (cols - 1 - k) end.
Definition vvq (d : orient) (k i : nat) : bond := match d with HORIZONTAL => Ver k (cols - 1 - i) | VERTICAL => Hor (rows - 1 - i) (cols - 2 - k) end.
Theorem total_open d : total d = open_sum D rows cols tn.
Proof.
  unfold total, W. set (q := pre_of (near d)). set (n := wid rows cols q). set (N := nsl rows cols q).
  assert (hi : forall k i k' i', k < N -> 1 <= i < n -> k' < N -> 1 <= i' < n -> hvq d k i = hvq d k' i' -> k = k' /\ i = i').
  { unfold N, n, q. destruct d; cbn; intros k i k' i' A B A' B' E; injection E as ? ?; lia. }
  assert (vi : forall k i k' i', S k < N -> i < n -> S k' < N -> i' < n -> vvq d k i = vvq d k' i' -> k = k' /\ i = i').
  { unfold N, n, q. destruct d; cbn; intros k i k' i' A B A' B' E; injection E as ? ?; lia. }
  assert (vh : forall k i k' i', vvq d k i <> hvq d k' i') by (destruct d; discriminate).
  assert (Hn : 1 <= n) by (unfold n, q; destruct d; cbn; lia). assert (HN : 1 <= N) by (unfold N, q; destruct d; cbn; lia).
  rewrite (Wf_total D D1 n (fq q) N (hvq d) (vvq d) hi vi vh (fun _ => 0) Hn HN). unfold open_sum. refine (eq_trans _ (eq_sym (sum_over_gsum _ _ _ _))).
  rewrite (gsum_perm bond_eq_dec (Bs n (hvq d) (vvq d) (N - 1)) (bonds rows cols false)).
  - apply gsum_ext_all. intros a.
    set (T := fun rc : nat * nat => tn (fst rc) (snd rc) (map (leg_value rows cols false a (fst rc) (snd rc)) [0; 1; 2; 3])).
    rewrite (prodC_perm T (grid rows cols) (map (fun ki => site_of q (fst ki) (snd ki)) (grid N n))).
    + rewrite prodC_map. apply prodC_ext. intros [k i] Hx. apply in_prod_iff in Hx. rewrite !in_seq in Hx. cbn [fst snd]. unfold site_weight, fq, T, local. f_equal.
      unfold leg_value, H, V, N, n, q in *. destruct d; cbn -[Nat.sub Nat.eqb Nat.ltb] in Hx |- *.
      * repeat f_equal.
        -- destruct (0 <? cols - 1 - i) eqn:E1; [apply Nat.ltb_lt in E1|apply Nat.ltb_ge in E1].
           ++ replace (S i =? cols) with false by (symmetry; apply Nat.eqb_neq; lia). cbn. f_equal. f_equal. lia.
           ++ replace (S i =? cols) with true by (symmetry; apply Nat.eqb_eq; lia). rewrite orb_true_r. reflexivity.
        -- rewrite orb_false_r. destruct (k + 1 <? rows) eqn:E1; [apply Nat.ltb_lt in E1|apply Nat.ltb_ge in E1].
           ++ replace (S k =? rows) with false by (symmetry; apply Nat.eqb_neq; lia). cbn. f_equal. f_equal. lia.
           ++ replace (S k =? rows) with true by (symmetry; apply Nat.eqb_eq; lia). rewrite orb_true_r. reflexivity.
        -- rewrite orb_false_r. replace (i =? cols) with false by (symmetry; apply Nat.eqb_neq; lia). rewrite orb_false_r. destruct (cols - 1 - i + 1 <? cols) eqn:E1; [apply Nat.ltb_lt in E1|apply Nat.ltb_ge in E1].
           ++ replace (i =? 0) with false by (symmetry; apply Nat.eqb_neq; lia). reflexivity.
           ++ replace (i =? 0) with true by (symmetry; apply Nat.eqb_eq; lia). reflexivity.
        -- replace (k =? rows) with false by (symmetry; apply Nat.eqb_neq; lia). rewrite orb_false_r. destruct (0 <? k) eqn:E1; [apply Nat.ltb_lt in E1|apply Nat.ltb_ge in E1].
           ++ replace (k =? 0) with false by (symmetry; apply Nat.eqb_neq; lia). reflexivity.
           ++ replace (k =? 0) with true by (symmetry; apply Nat.eqb_eq; lia). reflexivity.
      * repeat f_equal.
        -- destruct (0 <? cols - 1 - k) eqn:E1; [apply Nat.ltb_lt in E1|apply Nat.ltb_ge in E1].
           ++ replace (S k =? cols) with false by (symmetry; apply Nat.eqb_neq; lia). cbn. f_equal. f_equal. lia.
           ++ replace (S k =? cols) with true by (symmetry; apply Nat.eqb_eq; lia). rewrite orb_true_r. reflexivity.
        -- rewrite orb_false_r. replace (i =? rows) with false by (symmetry; apply Nat.eqb_neq; lia). rewrite orb_false_r. destruct (rows - 1 - i + 1 <? rows) eqn:E1; [apply Nat.ltb_lt in E1|apply Nat.ltb_ge in E1].
           ++ replace (i =? 0) with false by (symmetry; apply Nat.eqb_neq; lia). reflexivity.
           ++ replace (i =? 0) with true by (symmetry; apply Nat.eqb_eq; lia). reflexivity.
        -- rewrite orb_false_r. replace (k =? cols) with false by (symmetry; apply Nat.eqb_neq; lia). rewrite orb_false_r. destruct (cols - 1 - k + 1 <? cols) eqn:E1; [apply Nat.ltb_lt in E1|apply Nat.ltb_ge in E1].
           ++ replace (k =? 0) with false by (symmetry; apply Nat.eqb_neq; lia). f_equal. f_equal. lia.
           ++ replace (k =? 0) with true by (symmetry; apply Nat.eqb_eq; lia). reflexivity.
        -- destruct (0 <? rows - 1 - i) eqn:E1; [apply Nat.ltb_lt in E1|apply Nat.ltb_ge in E1].
           ++ replace (S i =? rows) with false by (symmetry; apply Nat.eqb_neq; lia). cbn. f_equal. f_equal. lia.
           ++ replace (S i =? rows) with true by (symmetry; apply Nat.eqb_eq; lia). rewrite orb_true_r. reflexivity.
    + apply NoDup_Permutation.
      * apply nodup_prod; apply seq_NoDup.
      * apply NoDup_map_on; [|apply nodup_prod; apply seq_NoDup]. intros [k i] [k' i'] Hx Hy E. apply in_prod_iff in Hx, Hy. rewrite !in_seq in Hx, Hy. unfold N, n, q in *. destruct d; cbn in Hx, Hy, E; injection E as ? ?; f_equal; lia.
      * intros [r c]. rewrite in_map_iff. unfold grid. rewrite in_prod_iff, !in_seq. split.
        -- intros Hrc. exists (match d with HORIZONTAL => (r, cols - 1 - c) | VERTICAL => (cols - 1 - c, rows - 1 - r) end). unfold N, n, q.
           destruct d; cbn; (split; [f_equal; lia|]); apply in_prod_iff; rewrite !in_seq; lia.
        -- intros ([k i] & E & Hx). apply in_prod_iff in Hx. rewrite !in_seq in Hx. unfold N, n, q in *. destruct d; cbn in E, Hx; injection E as ? ?; lia.
  - apply NoDup_Permutation; [exact (Bs_nodup D D1 n (fq q) N (hvq d) (vvq d) hi vi vh (N - 1) ltac:(lia))|exact bonds_nodup|].
    intros b. rewrite (in_Bs D D1 n (fq q) N (hvq d) (vvq d) hi vi vh), in_bonds. unfold N, n, q. destruct d; cbn; split.
    + intros [(k & i & A & B & ->)|(k & i & A & B & ->)]; lia.
    + destruct b as [r c|r c]; intros Hb; [right; exists r, (cols - 1 - c)|left; exists r, (cols - 1 - c)]; repeat split; try lia; f_equal; lia.
    + intros [(k & i & A & B & ->)|(k & i & A & B & ->)]; lia.
    + destruct b as [r c|r c]; intros Hb; [left; exists (cols - 2 - c), (rows - 1 - r)|right; exists (cols - 1 - c), (rows - 1 - r)]; repeat split; try lia; f_equal; lia.
  - exact (Bs_nodup D D1 n (fq q) N (hvq d) (vvq d) hi vi vh (N - 1) ltac:(lia)).
Qed.
End Net.
