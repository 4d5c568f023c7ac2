(** Proofs about the numbering of pairs of bonds. *)
From Coq Require Import List Arith Bool Lia Permutation String Sorting.Sorted.
From Verif Require Import Base ScModel ScSpec.
Import ListNotations.
Local Open Scope nat_scope.

Section Sizes.
Context (Ly Lx : nat).
Lemma usable_in b : usable Ly Lx b = true <-> fst b < Ly - 1 /\ snd b < Lx - 1.
Proof. unfold usable. rewrite andb_true_iff, !Nat.ltb_lt. reflexivity. Qed.
Lemma in_targets b e : In e (targets Ly Lx b) <-> exists y2 x2, e = [fst b; snd b; 0; y2; x2; 0] /\ fst b < y2 < Ly /\ x2 < Lx - 1.
Proof.
  unfold targets. rewrite in_flat_map. split.
  - intros (y2 & Hy & He). apply in_map_iff in He. destruct He as (x2 & <- & Hx). apply in_seq in Hy, Hx. exists y2, x2. split; [reflexivity|]. lia.
  - intros (y2 & x2 & -> & Hy & Hx). exists y2. split; [apply in_seq; lia|]. apply in_map_iff. exists x2. split; [reflexivity|]. apply in_seq. lia.
Qed.
Lemma targets_length b : List.length (targets Ly Lx b) = (Ly - 1 - fst b) * (Lx - 1).
Proof.
  unfold targets. replace (Ly - (fst b + 1)) with (Ly - 1 - fst b) by lia. generalize (fst b + 1). induction (Ly - 1 - fst b) as [|k IH]; intros s; [reflexivity|]. cbn [seq flat_map]. rewrite app_length, map_length, seq_length, IH. lia.
Qed.
Lemma flat_nodup {A B} (f : A -> list B) l : NoDup l -> (forall a, In a l -> NoDup (f a)) -> (forall a b x, In a l -> In b l -> In x (f a) -> In x (f b) -> a = b) -> NoDup (flat_map f l).
Proof.
  induction l as [|a l IH]; intros ND NF D; [constructor|]. apply NoDup_cons_iff in ND. destruct ND as [NI ND]. cbn [flat_map].
  assert (APP : forall (u v : list B), NoDup u -> NoDup v -> (forall x, In x u -> ~ In x v) -> NoDup (u ++ v)).
  { induction u as [|x u IHu]; intros v U V X; [exact V|]. cbn [app]. apply NoDup_cons_iff in U. destruct U as [U1 U2]. apply NoDup_cons; [|apply IHu; [exact U2|exact V|intros y Hy; apply X; right; exact Hy]].
    rewrite in_app_iff. intros [Q|Q]; [exact (U1 Q)|exact (X x (or_introl eq_refl) Q)]. }
  apply APP.
  - apply NF. left. reflexivity.
  - apply IH; [exact ND|intros b Hb; apply NF; right; exact Hb|intros b c x Hb Hc; apply D; right; assumption].
  - intros x Hx Q. apply in_flat_map in Q. destruct Q as (b & Hb & Hxb). apply NI. rewrite (D a b x); [exact Hb|left; reflexivity|right; exact Hb|exact Hx|exact Hxb].
Qed.
Lemma targets_nodup b : NoDup (targets Ly Lx b).
Proof.
  unfold targets. apply flat_nodup; [apply seq_NoDup| |].
  - intros y _. apply FinFun.Injective_map_NoDup; [|apply seq_NoDup]. intros u v E. injection E as E. exact E.
  - intros y y' e _ _ H H'. apply in_map_iff in H, H'. destruct H as (x & <- & _). destruct H' as (x' & E & _). injection E as E1 E2. congruence.
Qed.
Lemma all_targets_nodup l : NoDup l -> NoDup (flat_map (targets Ly Lx) l).
Proof.
  intros ND. apply flat_nodup; [exact ND|intros; apply targets_nodup|]. intros a b e _ _ H H'. apply in_targets in H, H'. destruct H as (y & x & -> & _). destruct H' as (y' & x' & E & _). injection E as E1 E2 _ _. destruct a, b. cbn in *. congruence.
Qed.
(** sorting *)
Lemma insert_perm a l : Permutation (insert a l) (a :: l).
Proof. induction l as [|b l IH]; [reflexivity|]. cbn [insert]. destruct (before b a); [|reflexivity]. rewrite IH. apply perm_swap. Qed.
Lemma sorted_perm l : Permutation (sorted l) l.
Proof. induction l as [|a l IH]; [constructor|]. cbn [sorted fold_right]. fold (sorted l). rewrite insert_perm, IH. reflexivity. Qed.
Definition lt2 (a b : ref_bond) : Prop := before a b = true.
Lemma lt2_iff a b : lt2 a b <-> fst a < fst b \/ (fst a = fst b /\ snd a < snd b).
Proof. unfold lt2, before. rewrite orb_true_iff, andb_true_iff, !Nat.ltb_lt, Nat.eqb_eq. reflexivity. Qed.
Lemma lt2_total a b : a <> b -> lt2 a b \/ lt2 b a.
Proof. rewrite !lt2_iff. destruct a as [a a'], b as [b b']. cbn. intros N. destruct (lt_eq_lt_dec a b) as [[H|H]|H]; [lia| |lia]. subst. destruct (lt_eq_lt_dec a' b') as [[K|K]|K]; [lia|subst; congruence|lia]. Qed.
Lemma insert_comm a b l : insert a (insert b l) = insert b (insert a l).
Proof.
  assert (A : forall x y, before x y = true -> before y x = false) by (intros x y H; destruct (before y x) eqn:E; [|reflexivity]; apply lt2_iff in H, E; lia).
  assert (T : forall x y z, before x y = true -> before y z = true -> before x z = true) by (intros x y z H H'; apply lt2_iff in H, H'; apply lt2_iff; lia).
  assert (Q : forall x y, before x y = false -> before y x = false -> x = y).
  { intros x y H H'. assert (D : {x = y} + {x <> y}) by (repeat decide equality). destruct D as [D|D]; [exact D|]. destruct (lt2_total x y D) as [K|K]; unfold lt2 in K; congruence. }
  induction l as [|c l IH]; cbn [insert].
  - destruct (before b a) eqn:E1; destruct (before a b) eqn:E2; try reflexivity; [rewrite (A _ _ E1) in E2; discriminate|rewrite (Q a b E2 E1); reflexivity].
  - destruct (before c b) eqn:E1; destruct (before c a) eqn:E2; cbn [insert]; rewrite ?E1, ?E2.
    + rewrite IH. reflexivity.
    + destruct (before a b) eqn:E3; [reflexivity|]. destruct (before b a) eqn:E4; [rewrite (T _ _ _ E1 E4) in E2; discriminate|]. rewrite (Q a b E3 E4) in E2. congruence.
    + destruct (before b a) eqn:E3; [reflexivity|]. destruct (before a b) eqn:E4; [rewrite (T _ _ _ E2 E4) in E1; discriminate|]. rewrite (Q a b E4 E3) in E2. congruence.
    + destruct (before b a) eqn:E3; destruct (before a b) eqn:E4; rewrite ?E1, ?E2; try reflexivity; [rewrite (A _ _ E3) in E4; discriminate|rewrite (Q a b E4 E3); reflexivity].
Qed.
Lemma sorted_same l l' : Permutation l l' -> sorted l = sorted l'.
Proof. unfold sorted. induction 1; cbn [fold_right]; [reflexivity|congruence|apply insert_comm|congruence]. Qed.
Lemma filter_perm {A} (p : A -> bool) l l' : Permutation l l' -> Permutation (filter p l) (filter p l').
Proof. induction 1; cbn [filter]; [constructor|destruct (p x); [apply perm_skip|]; assumption|destruct (p x), (p y); try apply perm_swap; reflexivity|etransitivity; eassumption]. Qed.
Theorem any_order refs refs' : Permutation refs refs' -> index_mapping Ly Lx refs = index_mapping Ly Lx refs'.
Proof.
  intros P. unfold index_mapping. destruct ((Ly <? 2) || (Lx <? 2)); [reflexivity|]. rewrite (sorted_same _ _ (filter_perm (usable Ly Lx) _ _ P)).
  destruct refs as [|b l]; [apply Permutation_nil in P; subst; reflexivity|]. destruct refs' as [|b' l']; [apply Permutation_sym, Permutation_nil in P; discriminate|]. reflexivity.
Qed.
Lemma insert_sorted a l : StronglySorted lt2 l -> ~ In a l -> StronglySorted lt2 (insert a l).
Proof.
  induction l as [|b l IH]; intros SS N; [repeat constructor|]. cbn [insert]. apply StronglySorted_inv in SS. destruct SS as [SS F]. destruct (before b a) eqn:E.
  - constructor; [apply IH; [exact SS|intros Q; apply N; right; exact Q]|]. apply (Permutation_Forall (Permutation_sym (insert_perm a l))). constructor; [exact E|exact F].
  - assert (AB : lt2 a b) by (destruct (lt2_total a b) as [H|H]; [intros ->; apply N; left; reflexivity|exact H|unfold lt2 in H; congruence]).
    constructor; [constructor; assumption|]. constructor; [exact AB|]. eapply Forall_impl; [|exact F]. intros c Hc. cbn in Hc. apply lt2_iff in AB, Hc. apply lt2_iff. lia.
Qed.
Lemma sorted_sorted l : NoDup l -> StronglySorted lt2 (sorted l).
Proof.
  induction l as [|a l IH]; intros ND; [constructor|]. apply NoDup_cons_iff in ND. destruct ND as [NI ND]. cbn [sorted fold_right]. fold (sorted l). apply insert_sorted; [apply IH; exact ND|]. intros Q. apply NI. apply (Permutation_in _ (sorted_perm l)). exact Q.
Qed.
Lemma sorted_unique : forall l l', StronglySorted lt2 l -> StronglySorted lt2 l' -> (forall x, In x l <-> In x l') -> l = l'.
Proof.
  assert (IR : forall x, ~ lt2 x x) by (intros x H; apply lt2_iff in H; lia).
  induction l as [|a l IH]; intros [|b l'] S1 S2 E; [reflexivity|destruct (proj2 (E b) (or_introl eq_refl))|destruct (proj1 (E a) (or_introl eq_refl))|].
  apply StronglySorted_inv in S1, S2. destruct S1 as [S1 F1], S2 as [S2 F2]. rewrite Forall_forall in F1, F2.
  assert (AB : a = b).
  { destruct (proj1 (E a) (or_introl eq_refl)) as [Q|Q]; [congruence|]. destruct (proj2 (E b) (or_introl eq_refl)) as [Q'|Q']; [exact Q'|]. specialize (F1 b Q'). specialize (F2 a Q). apply lt2_iff in F1, F2. lia. }
  subst b. f_equal. apply IH; [exact S1|exact S2|]. intros x. split; intros H.
  - destruct (proj1 (E x) (or_intror H)) as [Q|Q]; [|exact Q]. subst x. destruct (IR a (F1 a H)).
  - destruct (proj2 (E x) (or_intror H)) as [Q|Q]; [|exact Q]. subst x. destruct (IR a (F2 a H)).
Qed.
Lemma grid_sorted : forall n m s, StronglySorted lt2 (list_prod (seq s n) (seq 0 m)).
Proof.
  assert (APP : forall u v, StronglySorted lt2 u -> StronglySorted lt2 v -> (forall x y, In x u -> In y v -> lt2 x y) -> StronglySorted lt2 (u ++ v)).
  { induction u as [|x u IH]; intros v U V X; [exact V|]. cbn [app]. apply StronglySorted_inv in U. destruct U as [U F]. constructor; [apply IH; [exact U|exact V|intros; apply X; [right|]; assumption]|].
    apply Forall_app. split; [exact F|]. apply Forall_forall. intros y Hy. apply X; [left; reflexivity|exact Hy]. }
  induction n as [|n IH]; intros m s; [constructor|]. cbn [seq list_prod]. apply APP; [|apply IH|].
  - generalize 0. induction m as [|m IHm]; intros k; [constructor|]. cbn [seq map]. constructor; [apply IHm|]. apply Forall_forall. intros x Hx. apply in_map_iff in Hx. destruct Hx as (j & <- & Hj). apply in_seq in Hj. apply lt2_iff. cbn. lia.
  - intros x y Hx Hy. apply in_map_iff in Hx. destruct Hx as (j & <- & _). destruct y as [y1 y2]. apply in_prod_iff in Hy. destruct Hy as [Hy _]. apply in_seq in Hy. apply lt2_iff. cbn. lia.
Qed.
Lemma filter_sorted p l : StronglySorted lt2 l -> StronglySorted lt2 (filter p l).
Proof.
  induction l as [|a l IH]; intros SS; [constructor|]. apply StronglySorted_inv in SS. destruct SS as [SS F]. cbn [filter]. destruct (p a); [|apply IH; exact SS]. constructor; [apply IH; exact SS|].
  rewrite Forall_forall in F. apply Forall_forall. intros x Hx. apply filter_In in Hx. apply F. apply Hx.
Qed.
Lemma flat_filter {A B} (f : A -> list B) (p : A -> bool) l : flat_map (fun b => if p b then f b else []) l = flat_map f (filter p l).
Proof. induction l as [|a l IH]; [reflexivity|]. cbn [flat_map filter]. destruct (p a); cbn [flat_map]; rewrite IH; reflexivity. Qed.

(** *** the theorems *)
Lemma small : (Ly <? 2) || (Lx <? 2) = true <-> Ly < 2 \/ Lx < 2.
Proof. rewrite orb_true_iff, !Nat.ltb_lt. reflexivity. Qed.
Theorem mapping_rows refs e : In e (index_mapping Ly Lx refs) <-> pair_row Ly Lx refs e.
Proof.
  unfold index_mapping, pair_row. destruct ((Ly <? 2) || (Lx <? 2)) eqn:SM.
  - apply small in SM. split; [intros []|]. intros (y1 & x1 & y2 & x2 & _ & H). lia.
  - destruct refs as [|b0 refs].
    + rewrite in_flat_map. split.
      * intros (b & Hb & He). apply in_targets in He. destruct He as (y2 & x2 & -> & H). destruct b as [y1 x1]. apply in_prod_iff in Hb. rewrite !in_seq in Hb. cbn in *. exists y1, x1, y2, x2. split; [reflexivity|]. repeat split; try lia. left. reflexivity.
      * intros (y1 & x1 & y2 & x2 & -> & H1 & H2 & H3 & H4 & _). exists (y1, x1). split; [apply in_prod_iff; rewrite !in_seq; lia|]. apply in_targets. exists y2, x2. cbn. split; [reflexivity|]. lia.
    + set (rs := b0 :: refs). rewrite in_flat_map. split.
      * intros (b & Hb & He). apply (Permutation_in _ (sorted_perm _)) in Hb. apply filter_In in Hb. destruct Hb as [Hb U]. apply usable_in in U. apply in_targets in He. destruct He as (y2 & x2 & -> & H). destruct b as [y1 x1]. cbn in *. exists y1, x1, y2, x2. split; [reflexivity|]. repeat split; try lia. right. exact Hb.
      * intros (y1 & x1 & y2 & x2 & -> & H1 & H2 & H3 & H4 & [Q|Q]); [discriminate|]. exists (y1, x1). split.
        -- apply (Permutation_in _ (Permutation_sym (sorted_perm _))). apply filter_In. split; [exact Q|]. apply usable_in. cbn. lia.
        -- apply in_targets. exists y2, x2. cbn. split; [reflexivity|]. lia.
Qed.
Theorem mapping_once refs : NoDup refs -> NoDup (index_mapping Ly Lx refs).
Proof.
  intros ND. unfold index_mapping. destruct ((Ly <? 2) || (Lx <? 2)); [constructor|]. destruct refs as [|b0 refs].
  - apply all_targets_nodup. unfold all_refs. generalize (Lx - 1). intros m. assert (SS := grid_sorted (Ly - 1) m 0). revert SS. generalize (list_prod (seq 0 (Ly - 1)) (seq 0 m)). induction l as [|a l IH]; intros SS; [constructor|]. apply StronglySorted_inv in SS. destruct SS as [SS F]. constructor; [|apply IH; exact SS]. intros Q. rewrite Forall_forall in F. specialize (F a Q). apply lt2_iff in F. lia.
  - apply all_targets_nodup. apply (Permutation_NoDup (Permutation_sym (sorted_perm _))). apply NoDup_filter. exact ND.
Qed.
Lemma fold_sum {A} (f : A -> nat) l n : fold_left (fun n a => n + f a) l n = n + list_sum (map f l).
Proof. revert n. induction l as [|a l IH]; intros n; cbn [fold_left map]; [cbn; lia|]. rewrite IH. unfold list_sum. cbn [fold_right]. lia. Qed.
Lemma flat_sum {A B} (f : A -> list B) l : List.length (flat_map f l) = list_sum (map (fun a => List.length (f a)) l).
Proof. induction l as [|a l IH]; [reflexivity|]. cbn [flat_map map]. rewrite app_length, IH. reflexivity. Qed.
Lemma sum_perm {A} (f : A -> nat) l l' : Permutation l l' -> list_sum (map f l) = list_sum (map f l').
Proof. unfold list_sum. induction 1; cbn [map fold_right] in *; lia. Qed.
Theorem mapping_number refs : List.length (index_mapping Ly Lx refs) = num_pairs Ly Lx refs.
Proof.
  unfold index_mapping, num_pairs. destruct ((Ly <? 2) || (Lx <? 2)); [reflexivity|]. destruct refs as [|b0 refs].
  - rewrite flat_sum. unfold all_refs. generalize (seq 0 (Ly - 1)). intros l.
    assert (G : forall l n, fold_left (fun n y1 => fold_left (fun n _ => n + (Ly - 1 - y1) * (Lx - 1)) (seq 0 (Lx - 1)) n) l n = n + list_sum (map (fun b => List.length (targets Ly Lx b)) (list_prod l (seq 0 (Lx - 1))))).
    { clear l. induction l as [|y l IH]; intros n; [cbn; lia|]. cbn [fold_left list_prod]. rewrite IH, fold_sum, map_app, list_sum_app, map_map.
      rewrite (map_ext (fun x => List.length (targets Ly Lx (y, x))) (fun _ => (Ly - 1 - y) * (Lx - 1))) by (intros x; apply targets_length). rewrite Nat.add_assoc. reflexivity. }
    rewrite G. lia.
  - set (rs := b0 :: refs). rewrite flat_sum, (sum_perm _ _ _ (sorted_perm _)). clearbody rs. clear.
    assert (G : forall l n, fold_left (fun n b => if usable Ly Lx b then n + (Ly - 1 - fst b) * (Lx - 1) else n) l n = n + list_sum (map (fun a => List.length (targets Ly Lx a)) (filter (usable Ly Lx) l))).
    { induction l as [|a l IH]; intros n; [cbn; lia|]. cbn [fold_left filter]. destruct (usable Ly Lx a); rewrite IH; [|reflexivity]. cbn [map list_sum fold_right]. rewrite targets_length. unfold list_sum. lia. }
    rewrite G. lia.
Qed.
Theorem full_number : 1 <= Ly -> 1 <= Lx -> 2 * num_pairs Ly Lx [] = (Lx - 1) * (Lx - 1) * (Ly * (Ly - 1)).
Proof.
  intros H1 H2. unfold num_pairs. destruct ((Ly <? 2) || (Lx <? 2)) eqn:SM.
  - apply small in SM. destruct SM as [SM|SM]; [replace Ly with 1 by lia|replace Lx with 1 by lia]; cbn; lia.
  - clear SM. assert (G : forall k n, k <= Ly - 1 -> 2 * fold_left (fun n y1 => fold_left (fun n _ => n + (Ly - 1 - y1) * (Lx - 1)) (seq 0 (Lx - 1)) n) (seq (Ly - 1 - k) k) n = 2 * n + (Lx - 1) * (Lx - 1) * (k * (k + 1))).
    { induction k as [|k IH]; intros n HK; [cbn; lia|]. cbn [seq fold_left]. replace (S (Ly - 1 - S k)) with (Ly - 1 - k) by lia. rewrite IH by lia. rewrite fold_sum. replace (Ly - 1 - (Ly - 1 - S k)) with (S k) by lia.
      assert (E : forall m s, list_sum (map (fun _ : nat => S k * (Lx - 1)) (seq s m)) = m * (S k * (Lx - 1))) by (induction m as [|m IHm]; intros s; [reflexivity|]; cbn [seq map list_sum fold_right]; unfold list_sum in IHm; rewrite IHm; lia).
      rewrite E. nia. }
    specialize (G (Ly - 1) 0 (le_n _)). rewrite Nat.sub_diag in G. rewrite G. replace (Ly - 1 + 1) with Ly by lia. lia.
Qed.
Theorem order_matches refs : NoDup refs -> measured_order Ly Lx refs = index_mapping Ly Lx refs.
Proof.
  intros ND. unfold measured_order, index_mapping. destruct ((Ly <? 2) || (Lx <? 2)) eqn:SM; [reflexivity|]. assert (B : 2 <= Ly /\ 2 <= Lx) by (destruct (le_lt_dec 2 Ly), (le_lt_dec 2 Lx); try lia; exfalso; rewrite (proj2 small) in SM by lia; discriminate).
  destruct refs as [|b0 refs].
  - cbn zeta. replace (Ly - 2 + 1) with (Ly - 1) by lia. reflexivity.
  - set (rs := b0 :: refs) in *. cbn zeta. remember (filter (usable Ly Lx) rs) as set eqn:ES.
    assert (NS : NoDup set) by (subst; apply NoDup_filter; exact ND).
    assert (US : forall b, In b set -> fst b < Ly - 1 /\ snd b < Lx - 1) by (intros b Hb; subst; apply filter_In in Hb; apply usable_in; apply Hb).
    destruct set as [|b1 set']; [reflexivity|]. set (st := b1 :: set') in *. etransitivity; [apply (flat_filter (targets Ly Lx) (fun b => existsb (fun b' => (fst b =? fst b') && (snd b =? snd b')) st))|]. f_equal. apply sorted_unique; [apply filter_sorted, grid_sorted|apply sorted_sorted; exact NS|].
    intros [y x]. rewrite filter_In, existsb_exists. unfold ref_bond in *. rewrite in_prod_iff, !in_seq. split.
    + intros (_ & [y' x'] & Hb & E). cbn in E. apply andb_true_iff in E. rewrite !Nat.eqb_eq in E. destruct E as [-> ->]. apply (Permutation_in _ (Permutation_sym (sorted_perm _))). exact Hb.
    + intros H. apply (Permutation_in _ (sorted_perm _)) in H. specialize (US _ H). cbn in US.
      assert (MX : forall (l : list (nat * nat)) n b, In b l -> fst b <= fold_left Nat.max (map fst l) n) .
      { assert (GE : forall l n, n <= fold_left Nat.max l n) by (induction l as [|a l IH]; intros n; [cbn; lia|]; cbn [fold_left]; specialize (IH (Nat.max n a)); lia).
        induction l as [|a l IH]; intros n b; [intros []|]. intros [->|Hb]; cbn [map fold_left]; [specialize (GE (map fst l) (Nat.max n (fst b))); lia|apply IH; exact Hb]. }
      specialize (MX st 0 (y, x) H). cbn [fst] in MX. split; [lia|]. exists (y, x). split; [exact H|]. cbn. rewrite !Nat.eqb_refl. reflexivity.
Qed.
Theorem lines_match refs i : i < num_pairs Ly Lx refs -> nth_error (coord_lines Ly Lx refs) i = option_map (cons i) (nth_error (index_mapping Ly Lx refs) i).
Proof.
  rewrite <- mapping_number. intros H. unfold coord_lines. set (m := index_mapping Ly Lx refs) in *. rewrite nth_error_map, (nth_error_nth' _ 0) by (rewrite seq_length; exact H). rewrite seq_nth by exact H. cbn [option_map Nat.add]. rewrite (nth_error_nth' m [] H). reflexivity.
Qed.
Theorem lines_number refs : List.length (coord_lines Ly Lx refs) = num_pairs Ly Lx refs.
Proof. unfold coord_lines. rewrite map_length, seq_length. apply mapping_number. Qed.
End Sizes.
Theorem duplicates_differ : exists Ly Lx refs, List.length (measured_order Ly Lx refs) < num_pairs Ly Lx refs /\ ~ NoDup (index_mapping Ly Lx refs).
Proof.
  exists 2, 2, [(0, 0); (0, 0)]. split; [vm_compute; lia|]. vm_compute. intros H. apply NoDup_cons_iff in H. apply (proj1 H). left. reflexivity.
Qed.
Theorem never_measured {V} enabled grow (out : res (list (string * V))) : (forall o, out = Ok o -> ~ In (fst (described 2 2 [])) (map fst o)) ->
  (enabled = true -> forall o, evaluate_observables enabled grow out <> Ok o) /\
  (forall o, evaluate_observables enabled grow out = Ok o -> enabled = false /\ out = Ok o /\ ~ In (fst (described 2 2 [])) (map fst o)).
Proof.
  intros H. unfold evaluate_observables, measure_pairs. destruct out as [o|e]; cbn [bind].
  - split.
    + intros -> o'. destruct grow; cbn [bind]; discriminate.
    + intros o' E. destruct enabled; [destruct grow; cbn [bind] in E; discriminate|]. injection E as <-. auto.
  - split; intros; discriminate.
Qed.
