(** Random configurations, occupation counts, packing. *)
From Coq Require Import String Ascii List Arith NArith Lia Bool Permutation.
From Verif Require Import Base ConfModel ConfSpec ConfProofs.
Import ListNotations.
Local Open Scope nat_scope.

Lemma crash_large_states : exists d dir label k k' es j k'',
  0 < c_cols k /\ small k /\ filled limit k /\ same_shape k k' /\ dump k dir label = Ok es /\ 0 < j /\
  load (apply_events d (firstn j es)) dir label k' = (true, k'') /\ ~ same_config k'' k.
Proof.
  exists (fun _ => None), [], 0%N, (mkCfg 1 1 (fun _ _ => Some 12%N)), (mkCfg 1 1 (fun _ _ => None)). eexists. exists 2. eexists.
  split; [simpl; lia|]. split; [split; reflexivity|]. split; [intros r c _ _; exists 12%N; split; reflexivity|]. split; [split; reflexivity|].
  split; [reflexivity|]. split; [lia|]. split; [reflexivity|]. intros [_ H]. specialize (H 0 0). simpl in H. specialize (H ltac:(lia) ltac:(lia)). discriminate.
Qed.
Lemma failed_load_overwrites : exists d dir label k k' r c, load d dir label k = (false, k') /\ c_cell k r c = Some 0%N /\ c_cell k' r c = Some 5%N.
Proof.
  exists (fun q => if text_eqb q (data_path [] 0) then Some (str "5") else None), [], 0%N, (mkCfg 1 2 (fun _ _ => Some 0%N)). eexists. exists 0, 0.
  split; [reflexivity|]. split; reflexivity.
Qed.

(** *** SetFromList *)
Lemma index_seq rows cols : flat_map (fun r => map (fun c => r * cols + c) (seq 0 cols)) (seq 0 rows) = seq 0 (rows * cols).
Proof.
  induction rows as [|r IH]; [reflexivity|]. rewrite seq_S, flat_map_app, IH. simpl. rewrite app_nil_r, Nat.add_comm, seq_app. f_equal. simpl.
  assert (G : forall n a b, map (fun c => a + c) (seq b n) = seq (a + b) n). { induction n as [|n IHn]; intros a b; simpl; [reflexivity|]. rewrite IHn. f_equal. f_equal. lia. }
  rewrite G, Nat.add_0_r. reflexivity.
Qed.
Lemma nth_seq_all (l : list nat) : map (fun i => nth i l 0) (seq 0 (List.length l)) = l.
Proof. induction l as [|a l IH]; simpl; [reflexivity|]. f_equal. rewrite <- seq_shift, map_map. exact IH. Qed.
Lemma set_from_list_ok rows cols l : List.length l = rows * cols ->
  exists k, set_from_list rows cols l = Ok k /\ concat k = l /\ List.length k = rows /\ (forall row, In row k -> List.length row = cols).
Proof.
  intros L. unfold set_from_list. rewrite (for_res_concat _ (fun r => [map (fun c => nth (r * cols + c) l 0) (seq 0 cols)])).
  - eexists; split; [reflexivity|]. cbn [app]. assert (E : flat_map (fun r => [map (fun c => nth (r * cols + c) l 0) (seq 0 cols)]) (seq 0 rows) = map (fun r => map (fun c => nth (r * cols + c) l 0) (seq 0 cols)) (seq 0 rows)).
    { induction (seq 0 rows); simpl; congruence. }
    rewrite E. clear E. split; [|split].
    + rewrite <- flat_map_concat_map. transitivity (map (fun i => nth i l 0) (flat_map (fun r => map (fun c => r * cols + c) (seq 0 cols)) (seq 0 rows))).
      * induction (seq 0 rows) as [|r t IH]; simpl; [reflexivity|]. rewrite map_app, map_map, IH. reflexivity.
      * rewrite index_seq, <- L. apply nth_seq_all.
    + rewrite map_length, seq_length. reflexivity.
    + intros row H. apply in_map_iff in H. destruct H as (r & <- & _). rewrite map_length, seq_length. reflexivity.
  - intros out r Hr. apply in_seq in Hr. rewrite (for_res_concat _ (fun c => [nth (r * cols + c) l 0])).
    + cbn [bind app]. reflexivity.
    + intros o c Hc. apply in_seq in Hc. unfold at_. rewrite (nth_error_nth' l 0) by nia. reflexivity.
Qed.
Lemma fill_length occ : List.length (fill_states occ) = fold_left (fun s so => s + snd so) occ 0.
Proof.
  unfold fill_states. assert (G : forall a, a + List.length (flat_map (fun so : nat * nat => repeat (fst so) (snd so)) occ) = fold_left (fun s so => s + snd so) occ a).
  { induction occ as [|so occ IH]; intros a; simpl; [lia|]. rewrite app_length, repeat_length, <- IH. lia. }
  apply (G 0).
Qed.
Lemma count_repeat s x n : count_occ Nat.eq_dec (repeat x n) s = if x =? s then n else 0.
Proof. induction n as [|n IH]; simpl; [destruct (x =? s); reflexivity|]. rewrite IH. destruct (Nat.eq_dec x s) as [->|N]; [rewrite Nat.eqb_refl; reflexivity|]. apply Nat.eqb_neq in N. rewrite N. reflexivity. Qed.
Lemma count_app s l m : count_occ Nat.eq_dec (l ++ m) s = count_occ Nat.eq_dec l s + count_occ Nat.eq_dec m s.
Proof. induction l as [|a l IH]; simpl; [reflexivity|]. rewrite IH. destruct (Nat.eq_dec a s); reflexivity. Qed.
Lemma fill_count_none occ s : ~ In s (map fst occ) -> count_occ Nat.eq_dec (fill_states occ) s = 0.
Proof.
  induction occ as [|so occ IH]; simpl; [reflexivity|]. intros H. rewrite count_app, count_repeat, IH by tauto. destruct (Nat.eqb_spec (fst so) s); [tauto|reflexivity].
Qed.
Lemma fill_count occ s n : NoDup (map fst occ) -> In (s, n) occ -> count_occ Nat.eq_dec (fill_states occ) s = n.
Proof.
  induction occ as [|so occ IH]; simpl; [intros _ []|]. intros N H. inversion N as [|? ? Na Nl]; subst. rewrite count_app, count_repeat. destruct H as [->|H].
  - cbn [fst snd] in *. rewrite Nat.eqb_refl, fill_count_none by exact Na. lia.
  - rewrite IH by assumption. destruct (Nat.eqb_spec (fst so) s) as [E|E]; [|reflexivity]. exfalso. apply Na. rewrite E. apply in_map_iff. exists (s, n). auto.
Qed.
Theorem random_map rows cols shuffle occ : (forall l, Permutation l (shuffle l)) -> NoDup (map fst occ) ->
  (fold_left (fun s so => s + snd so) occ 0 <> rows * cols -> random_config rows cols shuffle occ = Fail Throw) /\
  (fold_left (fun s so => s + snd so) occ 0 = rows * cols -> exists k, random_config rows cols shuffle occ = Ok k /\
     List.length k = rows /\ (forall row, In row k -> List.length row = cols) /\
     (forall s n, In (s, n) occ -> count_occ Nat.eq_dec (concat k) s = n) /\
     (forall s, ~ In s (map fst occ) -> count_occ Nat.eq_dec (concat k) s = 0)).
Proof.
  intros P N. unfold random_config. split; intros E.
  - apply Nat.eqb_neq in E. rewrite E. reflexivity.
  - rewrite E, Nat.eqb_refl. cbn [negb]. destruct (set_from_list_ok rows cols (shuffle (fill_states occ))) as (k & -> & A & B & C).
    { rewrite <- (Permutation_length (P (fill_states occ))), fill_length. exact E. }
    exists k. split; [reflexivity|]. split; [exact B|]. split; [exact C|]. rewrite A.
    assert (Q : forall s, count_occ Nat.eq_dec (shuffle (fill_states occ)) s = count_occ Nat.eq_dec (fill_states occ) s).
    { intros s. symmetry. apply (Permutation_count_occ Nat.eq_dec). apply P. }
    split; intros s; [intros n H; rewrite Q; apply fill_count; assumption|intros H; rewrite Q; apply fill_count_none; exact H].
Qed.
Lemma combine_fst (l : list nat) : forall k, map fst (combine (seq k (List.length l)) l) = seq k (List.length l).
Proof. induction l as [|a l IH]; intros k; simpl; [reflexivity|]. rewrite IH. reflexivity. Qed.
Lemma combine_nth_in (l : list nat) : forall k s, s < List.length l -> In (k + s, nth s l 0) (combine (seq k (List.length l)) l).
Proof. induction l as [|a l IH]; intros k s H; simpl in H; [lia|]. simpl. destruct s as [|s]; [left; f_equal; lia|]. right. replace (k + S s) with (S k + s) by lia. apply IH. lia. Qed.
Lemma combine_sum (l : list nat) : forall k a, fold_left (fun s (so : nat * nat) => s + snd so) (combine (seq k (List.length l)) l) a = a + list_sum l.
Proof. induction l as [|x l IH]; intros k a; simpl; [lia|]. rewrite IH. simpl. lia. Qed.
Theorem random_vector rows cols shuffle occ : (forall l, Permutation l (shuffle l)) ->
  (list_sum occ <> rows * cols -> random_occupancy rows cols shuffle occ = Fail Throw) /\
  (list_sum occ = rows * cols -> exists k, random_occupancy rows cols shuffle occ = Ok k /\
     List.length k = rows /\ (forall row, In row k -> List.length row = cols) /\
     forall s, count_occ Nat.eq_dec (concat k) s = nth s occ 0).
Proof.
  intros P. unfold random_occupancy. destruct (random_map rows cols shuffle (combine (seq 0 (List.length occ)) occ) P) as [A B]; [rewrite combine_fst; apply seq_NoDup|].
  rewrite combine_sum in A, B. split; [exact A|]. intros E. destruct (B E) as (k & K & L & R & C & D). exists k. repeat split; auto. intros s.
  destruct (Nat.lt_ge_cases s (List.length occ)) as [H|H].
  - apply C. apply (combine_nth_in occ 0 s H).
  - rewrite nth_overflow by exact H. apply D. rewrite combine_fst. rewrite in_seq. lia.
Qed.
(** *** CountOccupancy *)
Lemma bump_length l i : List.length (bump l i) = List.length l.
Proof. revert i. induction l as [|a l IH]; intros [|i]; simpl; auto. Qed.
Lemma bump_nth l i s : i < List.length l -> nth s (bump l i) 0 = nth s l 0 + (if s =? i then 1 else 0).
Proof. revert i s. induction l as [|a l IH]; intros [|i] [|s] H; simpl in *; try lia. rewrite IH by lia. reflexivity. Qed.
Lemma bumps es : forall l, (forall e, In e es -> e < List.length l) -> List.length (fold_left bump es l) = List.length l /\
  forall s, nth s (fold_left bump es l) 0 = nth s l 0 + count_occ Nat.eq_dec es s.
Proof.
  induction es as [|e es IH]; intros l H; simpl; [split; [reflexivity|intros; lia]|]. destruct (IH (bump l e)) as [A B]; [intros x Hx; rewrite bump_length; apply H; right; exact Hx|].
  split; [rewrite A; apply bump_length|]. intros s. rewrite B, bump_nth by (apply H; left; reflexivity). destruct (Nat.eq_dec e s) as [->|N]; [rewrite Nat.eqb_refl; lia|].
  assert (Q : (s =? e) = false) by (apply Nat.eqb_neq; congruence). rewrite Q. lia.
Qed.
Lemma fold_max_spec l : forall a, a <= fold_left Nat.max l a /\ (forall x, In x l -> x <= fold_left Nat.max l a) /\ (fold_left Nat.max l a = a \/ In (fold_left Nat.max l a) l).
Proof.
  induction l as [|x l IH]; intros a; simpl; [repeat split; auto; intros x []|]. destruct (IH (Nat.max a x)) as (A & B & C). split; [lia|]. split.
  - intros y [<-|Hy]; [lia|auto].
  - destruct C as [C|C]; [|auto]. destruct (Nat.max_spec a x) as [[_ Q]|[_ Q]]; rewrite Q in C |- *; auto.
Qed.
Theorem count_occupancy_spec k : (forall s, nth s (count_occupancy k) 0 = count_occ Nat.eq_dec (concat k) s) /\
  (concat k <> [] -> last (count_occupancy k) 0 <> 0).
Proof.
  unfold count_occupancy. destruct (concat k) as [|x t] eqn:E; [split; [intros [|s]; reflexivity|congruence]|]. set (es := x :: t).
  destruct (fold_max_spec es 0) as (_ & B & C). destruct (bumps es (repeat 0 (S (fold_left Nat.max es 0)))) as [L N].
  { intros e He. rewrite repeat_length. specialize (B e He). lia. }
  assert (Q : forall s, nth s (fold_left bump es (repeat 0 (S (fold_left Nat.max es 0)))) 0 = count_occ Nat.eq_dec es s).
  { intros s. rewrite N. assert (Z : nth s (repeat 0 (S (fold_left Nat.max es 0))) 0 = 0) by (generalize (S (fold_left Nat.max es 0)) as n; clear; intros n; revert s; induction n as [|n IH]; intros [|s]; simpl; auto). rewrite Z. reflexivity. }
  split; [exact Q|]. intros _. rewrite repeat_length in L.
  assert (La : forall (l : list nat) n, List.length l = S n -> last l 0 = nth n l 0).
  { clear. intros l. induction l as [|a l IH]; intros n H; [discriminate|]. simpl in H. destruct l as [|b l]; [simpl in H; injection H as <-; reflexivity|]. destruct n as [|n]; [simpl in H; lia|]. change (last (b :: l) 0 = nth n (b :: l) 0). apply IH. simpl in *. lia. }
  rewrite (La _ _ L), Q. destruct C as [C|C].
  - assert (X : In 0 es). { rewrite <- C. specialize (B x (or_introl eq_refl)). assert (x = 0) by lia. left. rewrite C. assumption. }
    rewrite C. apply (count_occ_In Nat.eq_dec) in X. lia.
  - apply (count_occ_In Nat.eq_dec) in C. lia.
Qed.

(** *** Packing *)
Lemma nth_error_firstn {X} (l : list X) : forall n i, i < n -> nth_error (firstn n l) i = nth_error l i.
Proof. induction l as [|a l IH]; intros [|n] [|i] H; simpl; try lia; try reflexivity. apply IH. lia. Qed.
Lemma nth_error_skipn {X} (l : list X) : forall n i, nth_error (skipn n l) i = nth_error l (n + i).
Proof. induction l as [|a l IH]; intros [|n] i; simpl; try reflexivity; [destruct i; reflexivity|apply IH]. Qed.

Lemma pack_loop k : (forall r c, r < c_rows k -> c < c_cols k -> exists n, c_cell k r c = Some n) ->
  forall l a, (forall p, In p l -> fst p < c_rows k /\ snd p < c_cols k) -> List.length a = c_rows k * c_cols k ->
  exists b, for_res l a (fun buf p => n <- cell_of k (fst p) (snd p);; let i := fst p * c_cols k + snd p in if i <? List.length buf then Ok (firstn i buf ++ n :: skipn (S i) buf) else Fail UB) = Ok b /\
    List.length b = c_rows k * c_cols k /\
    forall r c, r < c_rows k -> c < c_cols k -> nth_error b (r * c_cols k + c) = if existsb (fun p => (fst p =? r) && (snd p =? c)) l then c_cell k r c else nth_error a (r * c_cols k + c).
Proof.
  intros F. induction l as [|p l IH]; intros a H L; [exists a; auto|]. cbn [for_res]. destruct (H p (or_introl eq_refl)) as [Hr Hc]. destruct (F _ _ Hr Hc) as (n & En).
  unfold cell_of. rewrite En. cbn [bind]. assert (I : fst p * c_cols k + snd p < List.length a) by nia. pose proof I as I'. apply Nat.ltb_lt in I'. rewrite I'. cbn [bind].
  set (i := fst p * c_cols k + snd p) in *. set (a' := firstn i a ++ n :: skipn (S i) a).
  assert (La : List.length a' = c_rows k * c_cols k). { unfold a'. rewrite app_length, firstn_length. cbn [List.length]. rewrite skipn_length. lia. }
  destruct (IH a' (fun q Hq => H q (or_intror Hq)) La) as (b & B1 & B2 & B3). exists b. split; [exact B1|]. split; [exact B2|]. intros r c Hr' Hc'. rewrite B3 by assumption. cbn [existsb].
  destruct (existsb _ l); [rewrite orb_true_r; reflexivity|]. rewrite orb_false_r. destruct (Nat.eqb_spec (fst p) r) as [<-|N1]; cbn [andb].
  - destruct (Nat.eqb_spec (snd p) c) as [<-|N2].
    + fold i. unfold a'. rewrite nth_error_app2 by (rewrite firstn_length; lia). rewrite firstn_length. replace (i - Nat.min i (List.length a)) with 0 by lia. cbn [nth_error]. symmetry. exact En.
    + assert (Q : fst p * c_cols k + c <> i) by (unfold i; lia). revert Q. generalize (fst p * c_cols k + c) as j. intros j Q. unfold a'.
      destruct (Nat.lt_ge_cases j i) as [J|J].
      * rewrite nth_error_app1 by (rewrite firstn_length; lia). rewrite nth_error_firstn by lia. reflexivity.
      * rewrite nth_error_app2 by (rewrite firstn_length; lia). rewrite firstn_length. replace (j - Nat.min i (List.length a)) with (S (j - S i)) by lia. cbn [nth_error]. rewrite nth_error_skipn. f_equal. lia.
  - assert (Q : r * c_cols k + c <> i) by (unfold i; nia). revert Q. generalize (r * c_cols k + c) as j. intros j Q. unfold a'.
    destruct (Nat.lt_ge_cases j i) as [J|J].
    + rewrite nth_error_app1 by (rewrite firstn_length; lia). rewrite nth_error_firstn by lia. reflexivity.
    + rewrite nth_error_app2 by (rewrite firstn_length; lia). rewrite firstn_length. replace (j - Nat.min i (List.length a)) with (S (j - S i)) by lia. cbn [nth_error]. rewrite nth_error_skipn. f_equal. lia.
Qed.
Lemma unpack_loop cols buf (g : nat -> nat -> option N) : forall l f, (forall p, In p l -> exists n, nth_error buf (fst p * cols + snd p) = Some n /\ g (fst p) (snd p) = Some n) ->
  exists f', for_res l f (fun f p => n <- idx buf (fst p * cols + snd p);; Ok (set_c f (fst p) (snd p) (Some n))) = Ok f' /\
    forall r c, f' r c = if existsb (fun p => (fst p =? r) && (snd p =? c)) l then g r c else f r c.
Proof.
  induction l as [|p l IH]; intros f H; [exists f; auto|]. cbn [for_res]. destruct (H p (or_introl eq_refl)) as (n & A & B). unfold idx. rewrite A. cbn [bind].
  destruct (IH (set_c f (fst p) (snd p) (Some n)) (fun q Hq => H q (or_intror Hq))) as (f' & C & D). exists f'. split; [exact C|]. intros r c. rewrite D. cbn [existsb].
  destruct (existsb _ l); [rewrite orb_true_r; reflexivity|]. rewrite orb_false_r. unfold set_c. rewrite (Nat.eqb_sym r), (Nat.eqb_sym c).
  destruct (Nat.eqb_spec (fst p) r) as [<-|N1]; [|reflexivity]. destruct (Nat.eqb_spec (snd p) c) as [<-|N2]; [|reflexivity]. cbn [andb]. symmetry. exact B.
Qed.
Theorem transfer k k' : same_shape k k' -> (forall r c, r < c_rows k -> c < c_cols k -> exists n, c_cell k r c = Some n) ->
  exists buf k'', pack k = Ok buf /\ unpack buf k' = Ok k'' /\ same_config k'' k /\ List.length buf = c_rows k * c_cols k.
Proof.
  intros [S1 S2] F. unfold pack. assert (In_ : forall p, In p (positions (c_rows k) (c_cols k)) -> fst p < c_rows k /\ snd p < c_cols k) by (intros [r c] H; apply in_positions in H; exact H).
  destruct (pack_loop k F (positions (c_rows k) (c_cols k)) (repeat 0%N (c_rows k * c_cols k)) In_) as (b & A & B & C); [apply repeat_length|].
  assert (Ex : forall r c, r < c_rows k -> c < c_cols k -> existsb (fun p => (fst p =? r) && (snd p =? c)) (positions (c_rows k) (c_cols k)) = true).
  { intros r c Hr Hc. apply existsb_exists. exists (r, c). split; [apply in_positions; auto|]. cbn [fst snd]. rewrite !Nat.eqb_refl. reflexivity. }
  exists b. unfold unpack. rewrite <- S1, <- S2.
  destruct (unpack_loop (c_cols k) b (c_cell k) (positions (c_rows k) (c_cols k)) (c_cell k')) as (f' & D & E).
  { intros p Hp. destruct (In_ p Hp) as [Hr Hc]. destruct (F _ _ Hr Hc) as (n & En). exists n. split; [|exact En]. rewrite C, Ex by assumption. exact En. }
  rewrite D. cbn [bind]. eexists. split; [exact A|]. split; [reflexivity|]. split; [|exact B]. split; [split; reflexivity|]. cbn [c_rows c_cols c_cell]. intros r c Hr Hc. rewrite E, Ex by assumption. reflexivity.
Qed.
