From Coq Require Import List Arith Lia Bool Permutation.
From Verif Require Import Base ContractorModel SweepModel UpdaterModel.
Import ListNotations.
Local Open Scope nat_scope.

(** ** Labels *)
Lemma relabel_invol m i : relabel m (relabel m i) = i.
Proof.
  unfold relabel. destruct (i =? m) eqn:E1.
  - apply Nat.eqb_eq in E1. subst. destruct (0 =? m) eqn:E2; [apply Nat.eqb_eq in E2; auto|]. reflexivity.
  - destruct (i =? 0) eqn:E2.
    + apply Nat.eqb_eq in E2. subst. rewrite Nat.eqb_refl. reflexivity.
    + rewrite E1, E2. reflexivity.
Qed.
Lemma relabel_lt m i n : m < n -> i < n -> relabel m i < n.
Proof. unfold relabel. intros. destruct (i =? m); [lia|]. destruct (i =? 0); lia. Qed.
Lemma relabel_inj m i j : relabel m i = relabel m j -> i = j.
Proof. intros H. rewrite <- (relabel_invol m i), <- (relabel_invol m j), H. reflexivity. Qed.
Lemma relabel_perm m n : m < n -> Permutation (map (relabel m) (seq 0 n)) (seq 0 n).
Proof.
  intros Hm. apply NoDup_Permutation_bis.
  - apply FinFun.Injective_map_NoDup; [intros x y; apply relabel_inj | apply seq_NoDup].
  - rewrite map_length, seq_length; lia.
  - intros x Hx. apply in_map_iff in Hx. destruct Hx as (y & <- & Hy). apply in_seq in Hy.
    apply in_seq. split; [lia|]. apply relabel_lt; lia.
Qed.

Lemma max_from_lt ws : forall best i bw, best < i -> max_from best i bw ws < i + length ws.
Proof.
  induction ws as [|w t IH]; simpl; intros; [lia|].
  destruct (bw <? w).
  - specialize (IH i (S i) w). lia.
  - specialize (IH best (S i) bw). lia.
Qed.
Lemma max_index_lt ws : ws <> [] -> max_index ws < length ws.
Proof.
  destruct ws as [|w t]; [congruence|]. simpl. intros _.
  pose proof (max_from_lt t 0 1 w). lia.
Qed.
Lemma max_from_spec ws : forall best i bw pre, length pre = i -> nth_error pre best = Some bw ->
  (forall x, In x pre -> x <= bw) ->
  forall x, In x (pre ++ ws) -> x <= nth (max_from best i bw ws) (pre ++ ws) 0.
Proof.
  induction ws as [|w t IH]; simpl; intros best i bw pre Hl Hb Hx x Hin.
  - rewrite app_nil_r in *. rewrite (nth_error_nth _ _ _ Hb). auto.
  - replace (pre ++ w :: t) with ((pre ++ [w]) ++ t) in * by (rewrite <- app_assoc; reflexivity).
    destruct (bw <? w) eqn:E.
    + apply Nat.ltb_lt in E. apply IH; auto.
      * rewrite app_length. simpl. lia.
      * rewrite nth_error_app2 by lia. rewrite <- Hl, Nat.sub_diag. reflexivity.
      * intros y Hy. apply in_app_or in Hy. destruct Hy as [Hy|[<-|[]]]; [|lia].
        specialize (Hx _ Hy). lia.
    + apply Nat.ltb_ge in E. apply IH; auto.
      * rewrite app_length. simpl. lia.
      * rewrite nth_error_app1; auto. apply nth_error_Some. congruence.
      * intros y Hy. apply in_app_or in Hy. destruct Hy as [Hy|[<-|[]]]; auto.
Qed.
Lemma max_index_max ws x : In x ws -> x <= nth (max_index ws) ws 0.
Proof.
  destruct ws as [|w t]; [intros []|]. intros H.
  apply (max_from_spec t 0 1 w [w]); auto. simpl. intros y [<-|[]]. auto.
Qed.

Lemma swap_weights_length m ws : length (swap_weights m ws) = length ws.
Proof. unfold swap_weights. rewrite map_length, seq_length. reflexivity. Qed.
Lemma nth_map_seq {A} (f : nat -> A) n i d : i < n -> nth i (map f (seq 0 n)) d = f i.
Proof.
  intros H. rewrite (nth_indep _ d (f 0)) by (rewrite map_length, seq_length; lia).
  rewrite map_nth, seq_nth by lia. reflexivity.
Qed.
Lemma swap_weights_nth m ws i : i < length ws -> nth i (swap_weights m ws) 0 = nth (relabel m i) ws 0.
Proof. intros. unfold swap_weights. rewrite nth_map_seq; auto. Qed.
Lemma list_as_map {A} (l : list A) d : l = map (fun i => nth i l d) (seq 0 (length l)).
Proof.
  apply (nth_ext _ _ d d); [rewrite map_length, seq_length; reflexivity|].
  intros n Hn. rewrite nth_map_seq; auto.
Qed.
Lemma list_sum_perm l l' : Permutation l l' -> list_sum l = list_sum l'.
Proof. induction 1; simpl; lia. Qed.
Lemma swap_weights_perm m ws : m < length ws -> Permutation (swap_weights m ws) ws.
Proof.
  intros Hm. unfold swap_weights. rewrite <- (map_map (relabel m) (fun i => nth i ws 0)).
  etransitivity; [apply Permutation_map, relabel_perm, Hm|]. rewrite <- list_as_map. reflexivity.
Qed.

(** ** Partial sums and intervals *)
Lemma psum_le ws i : psum ws i <= list_sum ws.
Proof.
  unfold psum. rewrite <- (firstn_skipn i ws) at 2. rewrite list_sum_app. lia.
Qed.
Lemma psum_S ws i : i < length ws -> psum ws (S i) = psum ws i + nth i ws 0.
Proof.
  unfold psum. revert i. induction ws as [|w t IH]; intros i Hi; simpl in *; [lia|].
  destruct i; simpl; [lia|]. specialize (IH i). simpl in IH. rewrite IH by lia. lia.
Qed.
Lemma psum_all ws : psum ws (length ws) = list_sum ws.
Proof. unfold psum. rewrite firstn_all. reflexivity. Qed.

Lemma bucket_spec ws x : x < list_sum ws ->
  bucket ws x < length ws /\ psum ws (bucket ws x) <= x < psum ws (bucket ws x) + nth (bucket ws x) ws 0.
Proof.
  revert x. induction ws as [|w t IH]; simpl; intros x Hx; [lia|].
  destruct (x <? w) eqn:E.
  - apply Nat.ltb_lt in E. simpl. unfold psum. simpl. lia.
  - apply Nat.ltb_ge in E. destruct (IH (x - w)) as (H1 & H2); [lia|].
    unfold psum in *. simpl. lia.
Qed.
Lemma bucket_fibre ws :
  map (bucket ws) (seq 0 (list_sum ws)) = flat_map (fun j => repeat j (nth j ws 0)) (seq 0 (length ws)).
Proof.
  induction ws as [|w t IH]; [reflexivity|].
  simpl. rewrite seq_app, map_app. f_equal.
  - rewrite (map_ext_in _ (fun _ => 0)).
    + clear. generalize 0 at 2. induction w; simpl; intros; [reflexivity|]. f_equal. apply IHw.
    + intros x Hx. apply in_seq in Hx. replace (x <? w) with true by (symmetry; apply Nat.ltb_lt; lia). reflexivity.
  - cbn [Nat.add]. rewrite <- seq_shift, flat_map_concat_map, map_map, <- flat_map_concat_map.
    replace (flat_map (fun x => repeat (S x) (nth x t 0)) (seq 0 (length t)))
      with (map S (flat_map (fun j => repeat j (nth j t 0)) (seq 0 (length t)))).
    + rewrite <- IH, map_map. replace (seq w (list_sum t)) with (map (Nat.add w) (seq 0 (list_sum t))).
      * rewrite map_map. apply map_ext. intros x.
        replace (w + x <? w) with false by (symmetry; apply Nat.ltb_ge; lia). do 2 f_equal. lia.
      * generalize (list_sum t). intros n. apply (nth_ext _ _ 0 0); rewrite map_length, !seq_length; [reflexivity|].
        intros k Hk. rewrite nth_map_seq, seq_nth by lia. lia.
    + rewrite !flat_map_concat_map, concat_map, map_map. f_equal. apply map_ext. intros a.
      generalize (nth a t 0). induction n; simpl; congruence.
Qed.
Lemma seq_blocks ws :
  seq 0 (list_sum ws) = flat_map (fun i => map (Nat.add (psum ws i)) (seq 0 (nth i ws 0))) (seq 0 (length ws)).
Proof.
  induction ws as [|w t IH]; [reflexivity|]. simpl. rewrite seq_app. unfold psum at 1. cbn [Nat.add firstn list_sum fold_right]. f_equal.
  - rewrite map_id. reflexivity.
  - rewrite <- seq_shift, flat_map_concat_map, map_map.
    replace (seq w (list_sum t)) with (map (Nat.add w) (seq 0 (list_sum t))).
    + rewrite IH, flat_map_concat_map, concat_map, map_map. f_equal. apply map_ext. intros i.
      rewrite map_map. apply map_ext. intros x. unfold psum. simpl. lia.
    + generalize (list_sum t). intros n. apply (nth_ext _ _ 0 0); rewrite map_length, !seq_length; [reflexivity|].
      intros k Hk. rewrite nth_map_seq, seq_nth by lia. lia.
Qed.

(** ** Rotation of the ring *)
Definition rot (total c p : nat) : nat := if total <=? p + c then p + c - total else p + c.
Lemma seq_shift_by a n : map (fun x => x + a) (seq 0 n) = seq a n.
Proof.
  apply (nth_ext _ _ 0 0); rewrite map_length, !seq_length; [reflexivity|].
  intros k Hk. rewrite nth_map_seq, seq_nth by lia. lia.
Qed.
Lemma rot_perm total c : c <= total -> Permutation (map (rot total c) (seq 0 total)) (seq 0 total).
Proof.
  intros Hc. replace (seq 0 total) with (seq 0 ((total - c) + c)) at 1 by (f_equal; lia).
  rewrite seq_app, map_app.
  replace (map (rot total c) (seq 0 (total - c))) with (seq c (total - c)).
  - replace (map (rot total c) (seq (0 + (total - c)) c)) with (seq 0 c).
    + etransitivity; [apply Permutation_app_comm|]. rewrite <- seq_app.
      replace (c + (total - c)) with total by lia. reflexivity.
    + simpl. rewrite <- (seq_shift_by (total - c) c), map_map. symmetry.
      rewrite <- (map_id (seq 0 c)) at 2. apply map_ext_in.
      intros x Hx. apply in_seq in Hx. unfold rot.
      replace (total <=? x + (total - c) + c) with true by (symmetry; apply Nat.leb_le; lia). lia.
  - rewrite <- seq_shift_by. apply map_ext_in. intros x Hx. apply in_seq in Hx. unfold rot.
    replace (total <=? x + c) with false by (symmetry; apply Nat.leb_gt; lia). reflexivity.
Qed.

Lemma suwa_eq weights init u : weights <> [] -> init < length weights -> u < nth init weights 0 ->
  let m := max_index weights in let ws := swap_weights m weights in
  let p := psum ws (relabel m init) + u in
  p < list_sum ws /\ nth 0 ws 0 <= list_sum ws /\
  suwa_todo weights init u = relabel m (bucket ws (rot (list_sum ws) (nth 0 ws 0) p)).
Proof.
  intros Hne Hi Hu m ws p.
  assert (Hm : m < length weights) by (apply max_index_lt; auto).
  assert (Hr : relabel m init < length weights) by (apply relabel_lt; auto).
  assert (Hw : nth (relabel m init) ws 0 = nth init weights 0).
  { unfold ws. rewrite swap_weights_nth, relabel_invol by auto. reflexivity. }
  assert (Hp : p < list_sum ws).
  { pose proof (psum_S ws (relabel m init)). unfold ws in H at 1. rewrite swap_weights_length in H.
    specialize (H Hr). pose proof (psum_le ws (S (relabel m init))). unfold p. lia. }
  assert (H0 : nth 0 ws 0 <= list_sum ws).
  { pose proof (psum_S ws 0). unfold ws in H at 1. rewrite swap_weights_length in H.
    pose proof (psum_le ws 1). lia. }
  split; [exact Hp|]. split; [exact H0|].
  unfold suwa_todo. fold m. fold ws. f_equal. f_equal. unfold rot, p in *.
  destruct (list_sum ws <=? psum ws (relabel m init) + nth 0 ws 0) eqn:E1.
  - apply Nat.leb_le in E1.
    replace (list_sum ws <=? psum ws (relabel m init) + u + nth 0 ws 0) with true by (symmetry; apply Nat.leb_le; lia).
    replace (list_sum ws <=? psum ws (relabel m init) + nth 0 ws 0 - list_sum ws + u) with false by (symmetry; apply Nat.leb_gt; lia).
    lia.
  - replace (psum ws (relabel m init) + u + nth 0 ws 0) with (psum ws (relabel m init) + nth 0 ws 0 + u) by lia.
    reflexivity.
Qed.
Lemma rot_lt total c p : p < total -> c <= total -> rot total c p < total.
Proof. unfold rot. intros. destruct (total <=? p + c) eqn:E; [apply Nat.leb_le in E | apply Nat.leb_gt in E]; lia. Qed.

(** The result is one of the states and has a positive weight. *)
Lemma suwa_range weights init u : init < length weights -> u < nth init weights 0 ->
  suwa_todo weights init u < length weights /\ 0 < nth (suwa_todo weights init u) weights 0.
Proof.
  intros Hi Hu. assert (Hne : weights <> []) by (intros ->; simpl in Hi; lia).
  destruct (suwa_eq weights init u Hne Hi Hu) as (Hp & H0 & ->).
  set (m := max_index weights) in *. set (ws := swap_weights m weights) in *.
  assert (Hm : m < length weights) by (apply max_index_lt; auto).
  destruct (bucket_spec ws _ (rot_lt _ _ _ Hp H0)) as (Hb & Hb').
  set (b := bucket _ _) in *.
  assert (Hl : length ws = length weights) by apply swap_weights_length. rewrite Hl in Hb.
  split; [apply relabel_lt; auto|].
  assert (Hn : nth b ws 0 = nth (relabel m b) weights 0) by (apply swap_weights_nth; auto). lia.
Qed.

Lemma list_sum_flat_count (f : nat -> list nat) l j :
  count_occ Nat.eq_dec (flat_map f l) j = list_sum (map (fun i => count_occ Nat.eq_dec (f i) j) l).
Proof. induction l; simpl; [reflexivity|]. rewrite count_occ_app. lia. Qed.
Lemma flat_map_perm {A B} (f : A -> list B) l l' : Permutation l l' -> Permutation (flat_map f l) (flat_map f l').
Proof. intros. apply Permutation_flat_map. assumption. Qed.
Lemma flat_map_ext_in {A B} (f g : A -> list B) l : (forall x, In x l -> f x = g x) -> flat_map f l = flat_map g l.
Proof. intros H. rewrite !flat_map_concat_map. f_equal. apply map_ext_in. exact H. Qed.
Lemma flat_map_map {A B C} (f : B -> list C) (g : A -> B) l : flat_map f (map g l) = flat_map (fun x => f (g x)) l.
Proof. rewrite !flat_map_concat_map, map_map. reflexivity. Qed.
Lemma map_flat_map {A B C} (g : B -> C) (f : A -> list B) l : map g (flat_map f l) = flat_map (fun x => map g (f x)) l.
Proof. rewrite !flat_map_concat_map, concat_map, map_map. reflexivity. Qed.

(** All outcomes, one per source state and unit of its weight. *)
Lemma suwa_outcomes weights :
  Permutation (flat_map (fun i => map (suwa_todo weights i) (seq 0 (nth i weights 0))) (seq 0 (length weights)))
              (flat_map (fun j => repeat j (nth j weights 0)) (seq 0 (length weights))).
Proof.
  destruct weights as [|w0 t] eqn:Ew; [reflexivity|]. rewrite <- Ew.
  assert (Hne : weights <> []) by (rewrite Ew; congruence). clear Ew w0 t.
  set (m := max_index weights). set (ws := swap_weights m weights).
  assert (Hm : m < length weights) by (apply max_index_lt; auto).
  assert (Hl : length ws = length weights) by apply swap_weights_length.
  assert (H0 : nth 0 ws 0 <= list_sum ws).
  { pose proof (psum_S ws 0). pose proof (psum_le ws 1). lia. }
  set (G := fun i => map (fun u => relabel m (bucket ws (rot (list_sum ws) (nth 0 ws 0) (psum ws i + u)))) (seq 0 (nth i ws 0))).
  transitivity (flat_map (fun i => G (relabel m i)) (seq 0 (length weights))).
  { erewrite flat_map_ext_in; [reflexivity|]. intros i Hi. apply in_seq in Hi. unfold G.
    assert (Hr : relabel m i < length weights) by (apply relabel_lt; lia).
    unfold ws at 5. rewrite swap_weights_nth, relabel_invol by auto.
    apply map_ext_in. intros u Hu. apply in_seq in Hu.
    destruct (suwa_eq weights i u Hne) as (_ & _ & E); [lia|lia|]. exact E. }
  rewrite <- flat_map_map. etransitivity; [apply flat_map_perm, relabel_perm, Hm|].
  transitivity (map (fun p => relabel m (bucket ws p)) (map (rot (list_sum ws) (nth 0 ws 0)) (seq 0 (list_sum ws)))).
  { rewrite (seq_blocks ws), Hl, !map_flat_map. unfold G. erewrite flat_map_ext_in; [reflexivity|].
    intros i _. cbv beta. rewrite !map_map. reflexivity. }
  etransitivity; [apply Permutation_map, rot_perm, H0|].
  rewrite <- (map_map (bucket ws) (relabel m)), bucket_fibre, map_flat_map, Hl.
  transitivity (flat_map (fun j => repeat j (nth j weights 0)) (map (relabel m) (seq 0 (length weights)))).
  - rewrite flat_map_map. erewrite flat_map_ext_in; [reflexivity|]. intros i Hi. apply in_seq in Hi.
    unfold ws. rewrite swap_weights_nth by lia. generalize (nth (relabel m i) weights 0).
    induction n; simpl; congruence.
  - apply flat_map_perm, relabel_perm, Hm.
Qed.

Definition flow (weights : list nat) (i j : nat) : nat :=
  count_occ Nat.eq_dec (map (suwa_todo weights i) (seq 0 (nth i weights 0))) j.
Lemma count_repeat j n k : count_occ Nat.eq_dec (repeat j n) k = if j =? k then n else 0.
Proof.
  induction n; simpl; [destruct (j =? k); reflexivity|].
  destruct (Nat.eq_dec j k) as [->|E]; rewrite IHn.
  - rewrite Nat.eqb_refl. reflexivity.
  - apply Nat.eqb_neq in E. rewrite E. reflexivity.
Qed.
Lemma sum_single n (f : nat -> nat) j : j < n -> list_sum (map (fun i => if i =? j then f i else 0) (seq 0 n)) = f j.
Proof.
  intros H. replace n with (j + S (n - S j)) by lia. rewrite seq_app, map_app, list_sum_app. simpl.
  rewrite Nat.eqb_refl.
  rewrite (map_ext_in _ (fun _ => 0)) by (intros x Hx; apply in_seq in Hx; destruct (x =? j) eqn:E; [apply Nat.eqb_eq in E; lia | reflexivity]).
  rewrite (map_ext_in _ (fun _ => 0) (seq (S j) _)) by (intros x Hx; apply in_seq in Hx; destruct (x =? j) eqn:E; [apply Nat.eqb_eq in E; lia | reflexivity]).
  assert (Z : forall a k, list_sum (map (fun _ : nat => 0) (seq a k)) = 0) by (intros a k; revert a; induction k; simpl; auto).
  rewrite !Z. lia.
Qed.
Lemma suwa_balance weights j : j < length weights ->
  list_sum (map (fun i => flow weights i j) (seq 0 (length weights))) = nth j weights 0.
Proof.
  intros Hj. unfold flow. rewrite <- list_sum_flat_count.
  rewrite (proj1 (Permutation_count_occ Nat.eq_dec _ _) (suwa_outcomes weights)).
  rewrite list_sum_flat_count.
  rewrite (map_ext _ (fun i => if i =? j then nth i weights 0 else 0)) by (intros; apply count_repeat).
  apply (sum_single _ (fun i => nth i weights 0)). exact Hj.
Qed.
Lemma suwa_outflow weights i : i < length weights ->
  list_sum (map (fun j => flow weights i j) (seq 0 (length weights))) = nth i weights 0.
Proof.
  intros Hi. unfold flow.
  assert (H : forall l, Forall (fun x => x < length weights) l ->
     list_sum (map (fun j => count_occ Nat.eq_dec l j) (seq 0 (length weights))) = length l).
  { induction l as [|x l IH]; intros HF.
    - simpl. assert (Z : forall a k, list_sum (map (fun _ : nat => 0) (seq a k)) = 0) by (intros a k; revert a; induction k; simpl; auto).
      apply Z.
    - inversion HF as [|? ? Hx Hl]; subst. simpl. rewrite <- (IH Hl).
      pose proof (sum_single (length weights) (fun _ => 1) x Hx) as H1.
      match goal with |- _ = S ?a => change (S a) with (1 + a) end. rewrite <- H1. clear H1.
      generalize (seq 0 (length weights)). induction l0 as [|y l0 IHy]; simpl; [reflexivity|].
      rewrite IHy. destruct (Nat.eq_dec x y) as [->|E].
      + rewrite Nat.eqb_refl. lia.
      + assert (E' : y =? x = false) by (apply Nat.eqb_neq; congruence). rewrite E'. lia. }
  rewrite H; [rewrite map_length, seq_length; reflexivity|].
  apply Forall_forall. intros x Hx. apply in_map_iff in Hx. destruct Hx as (u & <- & Hu). apply in_seq in Hu.
  apply suwa_range; lia.
Qed.

(** If no weight exceeds the sum of the others the state always changes. *)
Lemma suwa_moves weights init u : init < length weights -> u < nth init weights 0 ->
  (forall k, k < length weights -> 2 * nth k weights 0 <= list_sum weights) ->
  suwa_todo weights init u <> init.
Proof.
  intros Hi Hu Hhalf E. assert (Hne : weights <> []) by (intros ->; simpl in Hi; lia).
  destruct (suwa_eq weights init u Hne Hi Hu) as (Hp & H0 & E').
  rewrite E in E'. set (m := max_index weights) in *. set (ws := swap_weights m weights) in *.
  assert (Hm : m < length weights) by (apply max_index_lt; auto).
  set (i := relabel m init) in *.
  assert (Hir : i < length weights) by (apply relabel_lt; auto).
  assert (Hb : i = bucket ws (rot (list_sum ws) (nth 0 ws 0) (psum ws i + u))).
  { unfold i at 1. rewrite E'. rewrite relabel_invol. reflexivity. }
  destruct (bucket_spec ws _ (rot_lt _ _ _ Hp H0)) as (_ & Hb'). rewrite <- Hb in Hb'.
  assert (Hs : list_sum ws = list_sum weights) by (apply list_sum_perm, swap_weights_perm; auto).
  assert (Hwi : nth i ws 0 = nth init weights 0).
  { unfold ws. rewrite swap_weights_nth by auto. unfold i. rewrite relabel_invol. reflexivity. }
  assert (Hw0 : nth 0 ws 0 = nth m weights 0).
  { unfold ws. rewrite swap_weights_nth by lia. f_equal. unfold relabel. destruct (0 =? m) eqn:Em; [apply Nat.eqb_eq in Em; auto | reflexivity]. }
  assert (Hmax : nth init weights 0 <= nth m weights 0) by (apply max_index_max, nth_In; auto).
  specialize (Hhalf m Hm). unfold rot in Hb'.
  destruct (list_sum ws <=? psum ws i + u + nth 0 ws 0) eqn:E2; [apply Nat.leb_le in E2 | apply Nat.leb_gt in E2]; lia.
Qed.

(** ** Common factors of the weights do not matter *)
Lemma max_from_scale c ws : 0 < c -> forall best i bw,
  max_from best i (c * bw) (map (Nat.mul c) ws) = max_from best i bw ws.
Proof.
  intros Hc. induction ws as [|w t IH]; simpl; intros; [reflexivity|].
  replace (c * bw <? c * w) with (bw <? w).
  - destruct (bw <? w); apply IH.
  - destruct (bw <? w) eqn:E; symmetry; [apply Nat.ltb_lt in E; apply Nat.ltb_lt; nia | apply Nat.ltb_ge in E; apply Nat.ltb_ge; nia].
Qed.
Lemma max_index_scale c ws : 0 < c -> max_index (map (Nat.mul c) ws) = max_index ws.
Proof. intros Hc. destruct ws; simpl; [reflexivity|]. apply max_from_scale; auto. Qed.
Lemma nth_scale c ws i : nth i (map (Nat.mul c) ws) 0 = c * nth i ws 0.
Proof. rewrite <- (Nat.mul_0_r c) at 1. rewrite map_nth. reflexivity. Qed.
Lemma swap_scale c m ws : swap_weights m (map (Nat.mul c) ws) = map (Nat.mul c) (swap_weights m ws).
Proof. unfold swap_weights. rewrite map_length, map_map. apply map_ext. intros. apply nth_scale. Qed.
Lemma sum_scale c ws : list_sum (map (Nat.mul c) ws) = c * list_sum ws.
Proof. induction ws; simpl; lia. Qed.
Lemma psum_scale c ws i : psum (map (Nat.mul c) ws) i = c * psum ws i.
Proof. unfold psum. rewrite firstn_map. apply sum_scale. Qed.
Lemma bucket_scale c r ws : r < c -> forall x, bucket (map (Nat.mul c) ws) (c * x + r) = bucket ws x.
Proof.
  intros Hr. induction ws as [|w t IH]; simpl; intros x; [reflexivity|].
  destruct (x <? w) eqn:E.
  - apply Nat.ltb_lt in E. replace (c * x + r <? c * w) with true by (symmetry; apply Nat.ltb_lt; nia). reflexivity.
  - apply Nat.ltb_ge in E. replace (c * x + r <? c * w) with false by (symmetry; apply Nat.ltb_ge; nia).
    rewrite <- (IH (x - w)). do 2 f_equal. nia.
Qed.
Lemma leb_scale c r a x : r < c -> (c * a <=? c * x + r) = (a <=? x).
Proof.
  intros Hr. destruct (a <=? x) eqn:E; [apply Nat.leb_le in E; apply Nat.leb_le; nia | apply Nat.leb_gt in E; apply Nat.leb_gt; nia].
Qed.
Lemma sub_scale c r a x : a <= x -> c * x + r - c * a = c * (x - a) + r.
Proof. intros H. rewrite Nat.mul_sub_distr_l. assert (c * a <= c * x) by nia. lia. Qed.
Lemma suwa_scale c r weights init u : r < c ->
  suwa_todo (map (Nat.mul c) weights) init (c * u + r) = suwa_todo weights init u.
Proof.
  intros Hr. assert (Hc : 0 < c) by lia. unfold suwa_todo.
  rewrite max_index_scale, swap_scale, sum_scale, psum_scale, nth_scale by auto.
  set (m := max_index weights). set (ws := swap_weights m weights).
  rewrite <- Nat.mul_add_distr_l.
  replace (c * list_sum ws <=? c * (psum ws (relabel m init) + nth 0 ws 0))
    with (list_sum ws <=? psum ws (relabel m init) + nth 0 ws 0).
  2:{ rewrite <- (leb_scale c 0) by lia. rewrite Nat.add_0_r. reflexivity. }
  destruct (list_sum ws <=? psum ws (relabel m init) + nth 0 ws 0) eqn:E1.
  - rewrite <- Nat.mul_sub_distr_l, Nat.add_assoc, <- Nat.mul_add_distr_l, leb_scale by auto.
    match goal with |- context [if ?b then _ else _] => destruct b eqn:E2 end.
    + apply Nat.leb_le in E2. rewrite sub_scale, bucket_scale by auto. reflexivity.
    + rewrite bucket_scale by auto. reflexivity.
  - rewrite Nat.add_assoc, <- Nat.mul_add_distr_l, leb_scale by auto.
    match goal with |- context [if ?b then _ else _] => destruct b eqn:E2 end.
    + apply Nat.leb_le in E2. rewrite sub_scale, bucket_scale by auto. reflexivity.
    + rewrite bucket_scale by auto. reflexivity.
Qed.

Lemma count_filter (f : nat -> nat) j l :
  length (filter (fun u => f u =? j) l) = count_occ Nat.eq_dec (map f l) j.
Proof.
  induction l as [|u l IH]; simpl; [reflexivity|].
  destruct (Nat.eq_dec (f u) j) as [E|E].
  - apply Nat.eqb_eq in E. rewrite E. simpl. rewrite IH. reflexivity.
  - apply Nat.eqb_neq in E. rewrite E. exact IH.
Qed.
Lemma suwa_balance_filter weights j : j < length weights ->
  list_sum (map (fun i => length (filter (fun u => suwa_todo weights i u =? j) (seq 0 (nth i weights 0))))
                (seq 0 (length weights))) = nth j weights 0.
Proof.
  intros Hj. rewrite <- (suwa_balance weights j Hj). f_equal. apply map_ext. intros i. apply count_filter.
Qed.
