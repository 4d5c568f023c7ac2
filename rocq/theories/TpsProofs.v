(** Lemmas about the arithmetic of split-index TPS. *)
From Coq Require Import List Arith Bool Reals Lia Lra.
From Verif Require Import Base Cplx Rsum OptModel OptProofs MsgModel TpsModel TpsSpec.
Import ListNotations.
Local Open Scope nat_scope.
Arguments sumC : simpl never. Arguments rsum : simpl never. Arguments Cmul : simpl never. Arguments Cadd : simpl never.
Arguments Copp : simpl never. Arguments Cconj : simpl never.

Lemma map_res_ok {X Y} (f : X -> res Y) (g : X -> Y) l : (forall x, In x l -> f x = Ok (g x)) -> map_res f l = Ok (map g l).
Proof.
  induction l as [|x l IH]; intros H; [reflexivity|]. simpl. rewrite H by (left; reflexivity). simpl.
  rewrite IH by (intros; apply H; right; assumption). reflexivity.
Qed.
Lemma fold_res_ok {X Y} (f : Y -> X -> res Y) (g : Y -> X -> Y) l y :
  (forall y x, In x l -> f y x = Ok (g y x)) -> fold_res f l y = Ok (fold_left g l y).
Proof.
  revert y. induction l as [|x l IH]; intros y H; [reflexivity|]. simpl. rewrite H by (left; reflexivity). simpl.
  apply IH. intros; apply H; right; assumption.
Qed.
Lemma sites_nth R K r c : forall a, r < R -> c < K -> nth_error (list_prod (seq a R) (seq 0 K)) (r * K + c) = Some (a + r, c).
Proof.
  revert r. induction R as [|R IH]; intros r a Hr Hc; [lia|]. simpl.
  destruct r as [|r].
  - simpl. rewrite nth_error_app1 by (rewrite map_length, seq_length; lia).
    rewrite nth_error_map, (nth_error_nth' _ 0) by (rewrite seq_length; lia). rewrite seq_nth by lia. simpl. f_equal. f_equal. lia.
  - rewrite nth_error_app2 by (rewrite map_length, seq_length; simpl; lia).
    rewrite map_length, seq_length. replace (S r * K + c - K) with (r * K + c) by (simpl; lia).
    rewrite IH by lia. f_equal. f_equal. lia.
Qed.
Lemma sites_length R K : length (sites_of R K) = R * K.
Proof. unfold sites_of. rewrite prod_length, !seq_length. reflexivity. Qed.
Lemma sites_in R K rc : In rc (sites_of R K) <-> fst rc < R /\ snd rc < K.
Proof. destruct rc as [r c]. unfold sites_of. rewrite in_prod_iff, !in_seq. simpl. lia. Qed.

(** States given by a table. *)
Definition tab {T} (L : layout) (bc : bool) (f : nat -> nat -> nat -> T) : sitps T :=
  mkS (l_rows L) (l_cols L) bc (map (fun rc => map (fun i => f (fst rc) (snd rc) i) (seq 0 (l_dim L))) (sites_of (l_rows L) (l_cols L))).
Definition fits (L : layout) (f : nat -> nat -> nat -> ten) : Prop :=
  forall r c i, inside L r c i -> match f r c i with Some l => length l = l_len L r c i | None => True end.
Lemma site_tab {T} L bc (f : nat -> nat -> nat -> T) r c : r < l_rows L -> c < l_cols L ->
  site_of (tab L bc f) r c = Ok (map (fun i => f r c i) (seq 0 (l_dim L))).
Proof.
  intros Hr Hc. unfold site_of, tab. cbn [p_rows p_cols p_sites].
  destruct (Nat.ltb_spec r (l_rows L)); [|lia]. destruct (Nat.ltb_spec c (l_cols L)); [|lia]. cbn [andb].
  unfold idx, sites_of. rewrite nth_error_map, sites_nth by lia. reflexivity.
Qed.
Lemma idx_map_seq {T} (f : nat -> T) n i : i < n -> idx (map f (seq 0 n)) i = Ok (f i).
Proof. intros H. unfold idx. rewrite nth_error_map, (nth_error_nth' _ 0) by (rewrite seq_length; lia). rewrite seq_nth by lia. reflexivity. Qed.
Lemma comp_tab {T} L bc (f : nat -> nat -> nat -> T) r c i : inside L r c i -> comp (tab L bc f) r c i = Ok (f r c i).
Proof. intros (Hr & Hc & Hi). unfold comp. rewrite site_tab by lia. simpl bind. apply idx_map_seq, Hi. Qed.
Lemma tab_ext {T} L bc (f g : nat -> nat -> nat -> T) : (forall r c i, inside L r c i -> f r c i = g r c i) -> tab L bc f = tab L bc g.
Proof.
  intros E. unfold tab. f_equal. apply map_ext_in. intros [r c] H. apply sites_in in H. apply map_ext_in. intros i Hi.
  apply in_seq in Hi. apply E. unfold inside. simpl in *. lia.
Qed.
Lemma phys_tab {T} L bc (f : nat -> nat -> nat -> T) : 0 < l_rows L -> 0 < l_cols L -> phys_dim (tab L bc f) = Ok (l_dim L).
Proof.
  intros Hr Hc. unfold phys_dim, idx, tab. cbn [p_sites]. unfold sites_of.
  rewrite nth_error_map, (sites_nth _ _ 0 0 0 Hr Hc : nth_error _ 0 = _). simpl.
  rewrite map_length, seq_length. reflexivity.
Qed.
Lemma nth_error_ext {X} (l l' : list X) : (forall i, nth_error l i = nth_error l' i) -> l = l'.
Proof.
  revert l'. induction l as [|x l IH]; intros [|y l'] H; [reflexivity| | |].
  - specialize (H 0). discriminate.
  - specialize (H 0). discriminate.
  - pose proof (H 0) as H0. simpl in H0. injection H0 as ->. f_equal. apply IH. intros i. exact (H (S i)).
Qed.
Lemma shaped_tab L v : shaped L v -> exists f, v = tab L (p_bc v) f /\ fits L f.
Proof.
  intros (Hr & Hc & Er & Ec & Hn & Hs & Hf).
  exists (fun r c i => match comp v r c i with Ok t => t | Fail _ => None end). split.
  - destruct v as [R K bc ss]. cbn [p_rows p_cols p_bc p_sites] in *. subst R K. unfold tab. f_equal.
    apply nth_error_ext. intros j. destruct (Nat.lt_ge_cases j (l_rows L * l_cols L)) as [Hj|Hj].
    2:{ rewrite (proj2 (nth_error_None _ _)) by lia. symmetry. apply nth_error_None. rewrite map_length, sites_length. lia. }
    set (r := j / l_cols L). set (c := j mod l_cols L).
    assert (Ej : j = r * l_cols L + c) by (unfold r, c; rewrite Nat.mul_comm; apply Nat.div_mod; lia).
    assert (Hc' : c < l_cols L) by (apply Nat.mod_upper_bound; lia).
    assert (Hr' : r < l_rows L) by (apply Nat.div_lt_upper_bound; lia).
    rewrite nth_error_map. unfold sites_of. rewrite Ej, sites_nth by lia. simpl.
    destruct (nth_error ss (r * l_cols L + c)) as [s|] eqn:Es; [|apply nth_error_None in Es; lia].
    f_equal. apply nth_error_ext. intros i. pose proof (Hs s (nth_error_In _ _ Es)) as Hl.
    destruct (Nat.lt_ge_cases i (l_dim L)) as [Hi|Hi].
    2:{ rewrite (proj2 (nth_error_None _ _)) by lia. symmetry. apply nth_error_None. rewrite map_length, seq_length. lia. }
    rewrite nth_error_map, (nth_error_nth' (seq 0 _) 0) by (rewrite seq_length; lia). rewrite seq_nth by lia. simpl.
    unfold comp, site_of. cbn [p_rows p_cols p_sites].
    destruct (Nat.ltb_spec r (l_rows L)); [|lia]. destruct (Nat.ltb_spec c (l_cols L)); [|lia]. cbn [andb].
    unfold idx. rewrite Es. unfold bind.
    destruct (nth_error s i) eqn:Ei; [reflexivity|]. apply nth_error_None in Ei. lia.
  - intros r c i Hin. destruct (Hf r c i Hin) as (t & -> & Ht). exact Ht.
Qed.
Lemma tab_shaped L bc f : 0 < l_rows L -> 0 < l_cols L -> fits L f -> shaped L (tab L bc f).
Proof.
  intros Hr Hc Hf. unfold shaped. repeat split; auto.
  - unfold tab. cbn [p_sites]. rewrite map_length. apply sites_length.
  - intros s Hs. unfold tab in Hs. cbn [p_sites] in Hs. apply in_map_iff in Hs as (rc & <- & _). rewrite map_length, seq_length. reflexivity.
  - intros r c i Hin. exists (f r c i). split; [apply comp_tab, Hin|]. apply (Hf r c i Hin).
Qed.

(** *** Operations on tables *)
Section Ops.
Context (L : layout) (PR : 0 < l_rows L) (PC : 0 < l_cols L).
Lemma binary_tab h h' ba bb f g :
  (forall r c i, inside L r c i -> h (f r c i) (g r c i) = Ok (h' (f r c i) (g r c i))) ->
  apply_binary h (tab L ba f) (tab L bb g) = Ok (tab L false (fun r c i => h' (f r c i) (g r c i))).
Proof.
  intros H. unfold apply_binary. rewrite phys_tab by assumption. simpl bind.
  rewrite (map_res_ok _ (fun rc => map (fun i => h' (f (fst rc) (snd rc) i) (g (fst rc) (snd rc) i)) (seq 0 (l_dim L)))); [reflexivity|].
  intros [r c] Hrc. apply sites_in in Hrc. cbn [fst snd p_rows p_cols tab] in *. apply map_res_ok. intros i Hi. apply in_seq in Hi.
  assert (I : inside L r c i) by (unfold inside; lia). rewrite !comp_tab by exact I. simpl bind. apply H, I.
Qed.
Lemma unary_tab h bc f : apply_unary h (tab L bc f) = Ok (tab L false (fun r c i => option_map h (f r c i))).
Proof.
  unfold apply_unary. rewrite phys_tab by assumption. simpl bind.
  rewrite (map_res_ok _ (fun rc => map (fun i => option_map h (f (fst rc) (snd rc) i)) (seq 0 (l_dim L)))); [reflexivity|].
  intros [r c] Hrc. apply sites_in in Hrc. cbn [fst snd p_rows p_cols tab] in *. apply map_res_ok. intros i Hi. apply in_seq in Hi.
  rewrite comp_tab by (unfold inside; lia). reflexivity.
Qed.
Lemma inplace_tab h h' bc f :
  (forall r c i, inside L r c i -> h r c i (f r c i) = Ok (h' r c i (f r c i))) ->
  apply_inplace h (tab L bc f) = Ok (tab L bc (fun r c i => h' r c i (f r c i))).
Proof.
  intros H. unfold apply_inplace. rewrite phys_tab by assumption. simpl bind.
  rewrite (map_res_ok _ (fun rc => map (fun i => h' (fst rc) (snd rc) i (f (fst rc) (snd rc) i)) (seq 0 (l_dim L)))); [reflexivity|].
  intros [r c] Hrc. apply sites_in in Hrc. cbn [fst snd p_rows p_cols tab] in *. rewrite site_tab by lia. simpl bind.
  rewrite (map_res_ok _ (fun i => h' r c i (f r c i))).
  - simpl bind. rewrite skipn_all2 by (rewrite map_length, seq_length; lia). rewrite app_nil_r. reflexivity.
  - intros i Hi. apply in_seq in Hi. rewrite idx_map_seq by lia. simpl bind. apply H. unfold inside; lia.
Qed.
Definition plus_o (x y : ten) : ten :=
  match x, y with Some a, Some b => Some (zip_with Cadd a b) | Some a, None => Some a | None, y => y end.
Lemma plus_ten_ok n x y : match x with Some l => length l = n | None => True end -> match y with Some l => length l = n | None => True end ->
  plus_ten x y = Ok (plus_o x y).
Proof.
  intros Hx Hy. destruct x as [a|], y as [b|]; try reflexivity. simpl. unfold zip_ten. rewrite Hx, Hy, Nat.eqb_refl. reflexivity.
Qed.
Lemma add_tab ba bb f g : fits L f -> fits L g -> add (tab L ba f) (tab L bb g) = Ok (tab L false (fun r c i => plus_o (f r c i) (g r c i))).
Proof. intros Ff Fg. apply binary_tab. intros r c i I. apply (plus_ten_ok (l_len L r c i)); [apply Ff, I|apply Fg, I]. Qed.
Lemma add_to_tab ba bb f g : fits L f -> fits L g -> add_to (tab L ba f) (tab L bb g) = Ok (tab L ba (fun r c i => plus_o (f r c i) (g r c i))).
Proof.
  intros Ff Fg. unfold add_to. rewrite (inplace_tab _ (fun r c i x => plus_o x (g r c i))); [reflexivity|].
  intros r c i I. rewrite comp_tab by exact I. simpl bind. apply (plus_ten_ok (l_len L r c i)); [apply Ff, I|apply Fg, I].
Qed.
Lemma scale_tab x bc f : scale x (tab L bc f) = Ok (tab L false (fun r c i => option_map (map (fun e => e * x)%C) (f r c i))).
Proof. apply unary_tab. Qed.
Lemma scale_by_tab x bc f : scale_by x (tab L bc f) = Ok (tab L bc (fun r c i => option_map (map (fun e => e * x)%C) (f r c i))).
Proof. unfold scale_by. rewrite (inplace_tab _ (fun _ _ _ t => option_map (map (fun e => e * x)%C) t)); reflexivity. Qed.
Lemma neg_tab bc f : neg (tab L bc f) = Ok (tab L false (fun r c i => option_map (map Copp) (f r c i))).
Proof. apply unary_tab. Qed.
Lemma fits_map h f : fits L f -> fits L (fun r c i => option_map (map h) (f r c i)).
Proof. intros F r c i I. specialize (F r c i I). destruct (f r c i); simpl; [rewrite map_length|]; auto. Qed.
Lemma zip_length {X Y Z} (h : X -> Y -> Z) a b : length a = length b -> length (zip_with h a b) = length a.
Proof. revert b. induction a as [|x a IH]; intros [|y b] E; simpl in *; auto; try discriminate. Qed.
Lemma fits_plus f g : fits L f -> fits L g -> fits L (fun r c i => plus_o (f r c i) (g r c i)).
Proof.
  intros F G r c i I. specialize (F r c i I). specialize (G r c i I). unfold plus_o.
  destruct (f r c i), (g r c i); simpl; auto. rewrite zip_length; congruence.
Qed.
End Ops.

(** *** Entries *)
Definition ent (t : ten) (k : nat) : C := match t with Some l => nth k l (RtoC 0) | None => RtoC 0 end.
Lemma entry_tab L bc f r c i k : inside L r c i -> entry (tab L bc f) r c i k = ent (f r c i) k.
Proof. intros I. unfold entry. rewrite comp_tab by exact I. reflexivity. Qed.
Lemma places_in L r c i k : In (r, c, i, k) (places L) <-> inside L r c i /\ k < l_len L r c i.
Proof.
  unfold places, inside. rewrite in_flat_map. split.
  - intros (r' & Hr & H). rewrite in_flat_map in H. destruct H as (c' & Hc & H). rewrite in_flat_map in H. destruct H as (i' & Hi & H).
    rewrite in_map_iff in H. destruct H as (k' & E & Hk). injection E as -> -> -> ->. rewrite in_seq in *. lia.
  - intros ((Hr & Hc & Hi) & Hk). exists r. rewrite in_seq. split; [lia|]. rewrite in_flat_map. exists c. rewrite in_seq. split; [lia|].
    rewrite in_flat_map. exists i. rewrite in_seq. split; [lia|]. apply in_map. rewrite in_seq. lia.
Qed.
Lemma ent_plus n x y k : match x with Some l => length l = n | None => True end -> match y with Some l => length l = n | None => True end ->
  ent (plus_o x y) k = (ent x k + ent y k)%C.
Proof.
  intros Hx Hy. destruct x as [a|], y as [b|]; simpl; try ring.
  assert (E : length a = length b) by congruence. clear Hx Hy n. revert b k E. induction a as [|x a IH]; intros [|y b] k E; simpl in *; try discriminate.
  - destruct k; ring.
  - destruct k; [reflexivity|]. apply IH. congruence.
Qed.
Lemma ent_map h t k : h (RtoC 0) = RtoC 0 -> ent (option_map (map h) t) k = h (ent t k).
Proof.
  intros Z. destruct t as [l|]; simpl; [|congruence]. rewrite <- Z at 1. apply map_nth.
Qed.
Lemma ent_map_in h t k n : match t with Some l => length l = n | None => False end -> k < n -> ent (option_map (map h) t) k = h (ent t k).
Proof.
  intros E Hk. destruct t as [l|]; [|contradiction]. simpl. rewrite (nth_indep _ (RtoC 0) (h (RtoC 0))) by (rewrite map_length; lia). apply map_nth.
Qed.
(** Sums over the places. *)
Lemma sumC_places L h : sumC h (places L) =
  sumC (fun rc => sumC (fun i => sumC (fun k => h (fst rc, snd rc, i, k)) (seq 0 (l_len L (fst rc) (snd rc) i))) (seq 0 (l_dim L))) (sites_of (l_rows L) (l_cols L)).
Proof.
  unfold places, sites_of. rewrite sumC_flat_map.
  transitivity (sumC (fun r => sumC (fun rc => sumC (fun i => sumC (fun k => h (fst rc, snd rc, i, k)) (seq 0 (l_len L (fst rc) (snd rc) i))) (seq 0 (l_dim L)))
      (map (fun c => (r, c)) (seq 0 (l_cols L)))) (seq 0 (l_rows L))).
  - apply sumC_ext. intros r _. rewrite sumC_flat_map, sumC_map. apply sumC_ext. intros c _. rewrite sumC_flat_map. apply sumC_ext. intros i _.
    rewrite sumC_map. reflexivity.
  - generalize (seq 0 (l_rows L)). intros l. induction l as [|r l IH]; [reflexivity|]. cbn [list_prod]. rewrite sumC_app, sumC_cons, IH. reflexivity.
Qed.
Lemma rsum_places L h : rsum h (places L) =
  rsum (fun rc => rsum (fun i => rsum (fun k => h (fst rc, snd rc, i, k)) (seq 0 (l_len L (fst rc) (snd rc) i))) (seq 0 (l_dim L))) (sites_of (l_rows L) (l_cols L)).
Proof.
  unfold places, sites_of. rewrite rsum_flat_map, rsum_prod. apply rsum_ext. intros r _. rewrite rsum_flat_map. apply rsum_ext. intros c _.
  rewrite rsum_flat_map. apply rsum_ext. intros i _. rewrite rsum_map. reflexivity.
Qed.
Lemma fold_add_sum {X} (h : X -> C) l a : fold_left (fun acc x => acc + h x)%C l a = (a + sumC h l)%C.
Proof. revert a. induction l as [|x l IH]; intros a; cbn [fold_left]; rewrite ?sumC_cons, ?sumC_nil; [ring|]. rewrite IH. ring. Qed.
Lemma fold_radd_sum {X} (h : X -> R) l a : fold_left (fun acc x => acc + h x)%R l a = (a + rsum h l)%R.
Proof. revert a. induction l as [|x l IH]; intros a; cbn [fold_left]; rewrite ?rsum_cons, ?rsum_nil; [ring|]. rewrite IH. ring. Qed.
Lemma fold_Cadd l a : fold_left Cadd l a = (a + sumC (fun x => x) l)%C.
Proof. apply (fold_add_sum (fun x => x)). Qed.
Lemma sum_zip (h : C -> C -> C) a b : length a = length b ->
  sumC (fun x => x) (zip_with h a b) = sumC (fun k => h (nth k a (RtoC 0)) (nth k b (RtoC 0))) (seq 0 (length a)).
Proof.
  revert b. induction a as [|x a IH]; intros [|y b] E; try discriminate; [reflexivity|]. cbn [zip_with length seq]. rewrite !sumC_cons.
  rewrite IH by (simpl in E; congruence). cbn [nth]. f_equal. rewrite <- seq_shift, sumC_map. reflexivity.
Qed.
Section Inner.
Context (L : layout) (PR : 0 < l_rows L) (PC : 0 < l_cols L).
Lemma valid_fold_tab {Y} (h : Y -> nat -> nat -> nat -> list C -> res Y) h' bc f y :
  (forall r c i t y, inside L r c i -> f r c i = Some t -> h y r c i t = Ok (h' y r c i t)) ->
  valid_fold h (tab L bc f) y =
  Ok (fold_left (fun y rc => fold_left (fun y i => match f (fst rc) (snd rc) i with Some t => h' y (fst rc) (snd rc) i t | None => y end) (seq 0 (l_dim L)) y)
        (sites_of (l_rows L) (l_cols L)) y).
Proof.
  intros H. unfold valid_fold. rewrite phys_tab by assumption. simpl bind. cbn [p_rows p_cols tab]. apply fold_res_ok.
  intros y' [r c] Hrc. apply sites_in in Hrc. cbn [fst snd] in *. apply fold_res_ok. intros y'' i Hi. apply in_seq in Hi.
  assert (I : inside L r c i) by (unfold inside; lia). rewrite comp_tab by exact I. simpl bind. destruct (f r c i) eqn:E; [apply H; auto|reflexivity].
Qed.
Lemma inner_tab ba bb f g : fits L f -> fits L g ->
  inner (tab L ba f) (tab L bb g) =
  Ok (sumC (fun p => let '(r, c, i, k) := p in (Cconj (ent (f r c i) k) * ent (g r c i) k)%C) (places L)).
Proof.
  intros F G. unfold inner.
  rewrite (valid_fold_tab _ (fun acc r c i t => (acc + match g r c i with Some u => sumC (fun k => Cconj (nth k t (RtoC 0)) * nth k u (RtoC 0))%C (seq 0 (length t)) | None => RtoC 0 end)%C)).
  - f_equal. rewrite sumC_places.
    set (S := fun rc : nat * nat => sumC (fun i => sumC (fun k => (Cconj (ent (f (fst rc) (snd rc) i) k) * ent (g (fst rc) (snd rc) i) k)%C) (seq 0 (l_len L (fst rc) (snd rc) i))) (seq 0 (l_dim L))).
    transitivity (RtoC 0 + sumC S (sites_of (l_rows L) (l_cols L)))%C; [|ring].
    rewrite <- fold_add_sum.
    assert (E : forall l acc, (forall rc, In rc l -> fst rc < l_rows L /\ snd rc < l_cols L) ->
      fold_left (fun y rc => fold_left (fun y0 i => match f (fst rc) (snd rc) i with
          | Some t => (y0 + match g (fst rc) (snd rc) i with Some u => sumC (fun k => Cconj (nth k t (RtoC 0)) * nth k u (RtoC 0))%C (seq 0 (length t)) | None => RtoC 0 end)%C
          | None => y0 end) (seq 0 (l_dim L)) y) l acc = fold_left (fun acc rc => acc + S rc)%C l acc).
    { induction l as [|rc l IH]; intros acc Hl; [reflexivity|]. cbn [fold_left]. rewrite IH by (intros; apply Hl; right; assumption). f_equal.
      destruct (Hl rc (or_introl eq_refl)) as (Hr & Hc). unfold S. rewrite <- fold_add_sum.
      assert (E2 : forall l2 acc2, (forall i, In i l2 -> i < l_dim L) ->
         fold_left (fun y0 i => match f (fst rc) (snd rc) i with
          | Some t => (y0 + match g (fst rc) (snd rc) i with Some u => sumC (fun k => Cconj (nth k t (RtoC 0)) * nth k u (RtoC 0))%C (seq 0 (length t)) | None => RtoC 0 end)%C
          | None => y0 end) l2 acc2 =
         fold_left (fun acc0 x => acc0 + sumC (fun k => (Cconj (ent (f (fst rc) (snd rc) x) k) * ent (g (fst rc) (snd rc) x) k)%C) (seq 0 (l_len L (fst rc) (snd rc) x)))%C l2 acc2).
      { induction l2 as [|i l2 IH2]; intros acc2 H2; [reflexivity|]. cbn [fold_left]. rewrite IH2 by (intros; apply H2; right; assumption). f_equal.
        assert (I : inside L (fst rc) (snd rc) i) by (unfold inside; specialize (H2 i (or_introl eq_refl)); lia).
        specialize (F _ _ _ I). specialize (G _ _ _ I). destruct (f (fst rc) (snd rc) i) as [t|], (g (fst rc) (snd rc) i) as [u|]; cbn [ent].
        - rewrite F. reflexivity.
        - f_equal. symmetry. apply sumC_zero. intros; ring.
        - rewrite sumC_zero; [ring|]. intros. apply C_ext; unfold Cmul, Cconj, RtoC; simpl; ring.
        - rewrite sumC_zero; [ring|]. intros; ring. }
      apply E2. intros i Hi. apply in_seq in Hi. lia. }
    apply E. intros rc H. apply sites_in in H. exact H.
  - intros r c i t y I Ef. rewrite comp_tab by exact I. simpl bind. specialize (F _ _ _ I). specialize (G _ _ _ I). rewrite Ef in F.
    destruct (g r c i) as [u|]; [|f_equal; ring]. unfold quasi_inner. rewrite F, G, Nat.eqb_refl. simpl bind. f_equal. f_equal.
    rewrite fold_Cadd, sum_zip by congruence. rewrite F. ring.
Qed.
Lemma fold_hom {X Y Z} (phi : Y -> Z) (g : Y -> X -> Y) (g' : Z -> X -> Z) l y :
  (forall y x, In x l -> phi (g y x) = g' (phi y) x) -> phi (fold_left g l y) = fold_left g' l (phi y).
Proof.
  revert y. induction l as [|x l IH]; intros y H; [reflexivity|]. cbn [fold_left]. rewrite IH by (intros; apply H; right; assumption).
  rewrite H by (left; reflexivity). reflexivity.
Qed.
Lemma norm_tab bc f : fits L f ->
  norm_square (tab L bc f) = Ok (rsum (fun p => let '(r, c, i, k) := p in Cnorm2 (ent (f r c i) k)) (places L)).
Proof.
  intros F. unfold norm_square.
  rewrite (valid_fold_tab _ (fun acc r c i t => acc + rsum (fun k => Cnorm2 (nth k t (RtoC 0))) (seq 0 (length t)))%R).
  - f_equal. rewrite rsum_places.
    set (S := fun rc : nat * nat => rsum (fun i => rsum (fun k => Cnorm2 (ent (f (fst rc) (snd rc) i) k)) (seq 0 (l_len L (fst rc) (snd rc) i))) (seq 0 (l_dim L))).
    transitivity (0 + rsum S (sites_of (l_rows L) (l_cols L)))%R; [|ring].
    rewrite <- fold_radd_sum.
    apply (fold_hom (fun x => x)). intros acc rc H. apply sites_in in H. destruct H as (Hr & Hc). unfold S. rewrite <- fold_radd_sum.
    apply (fold_hom (fun x => x)). intros acc2 i Hi. apply in_seq in Hi.
    assert (I : inside L (fst rc) (snd rc) i) by (unfold inside; lia). specialize (F _ _ _ I).
    destruct (f (fst rc) (snd rc) i) as [t|]; cbn [ent].
    + rewrite F. reflexivity.
    + rewrite rsum_zero; [ring|]. intros. unfold Cnorm2, RtoC. simpl. ring.
  - intros r c i t y I Ef. unfold quasi_inner. rewrite Nat.eqb_refl. simpl bind. f_equal. f_equal.
    rewrite fold_Cadd, sum_zip by reflexivity. unfold Cadd, RtoC. cbn [fst snd]. rewrite Rplus_0_l.
    clear. generalize (seq 0 (length t)). intros l. induction l as [|k l IH]; [reflexivity|]. rewrite sumC_cons, rsum_cons, <- IH.
    unfold Cadd, Cmul, Cconj, Cnorm2. cbn [fst snd]. ring.
Qed.
End Inner.
