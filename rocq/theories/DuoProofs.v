(** Proofs about lattice containers. *)
From Coq Require Import List Arith Lia Bool Permutation.
From Verif Require Import Base DuoModel DuoSpec.
Import ListNotations.

Lemma put_length {X} (l : list X) i x : length (put l i x) = length l.
Proof. revert i. induction l as [|a l IH]; intros [|i]; simpl; auto. Qed.
Lemma nth_put {X} (l : list X) i j x : nth_error (put l i x) j = if (j =? i) && (i <? length l) then Some x else nth_error l j.
Proof.
  revert i j. induction l as [|a l IH]; intros [|i] [|j]; simpl; try reflexivity.
  - destruct (j =? i); reflexivity.
  - rewrite IH. destruct (j =? i) eqn:E; simpl; [|reflexivity]. reflexivity.
Qed.
Lemma nth_put_eq {X} (l : list X) i x : i < length l -> nth_error (put l i x) i = Some x.
Proof. intros H. rewrite nth_put, Nat.eqb_refl. apply Nat.ltb_lt in H. rewrite H. reflexivity. Qed.
Lemma nth_put_neq {X} (l : list X) i j x : i <> j -> nth_error (put l i x) j = nth_error l j.
Proof. intros H. rewrite nth_put. assert (E : (j =? i) = false) by (apply Nat.eqb_neq; lia). rewrite E. reflexivity. Qed.
Lemma put_put {X} (l : list X) i x y : put (put l i x) i y = put l i y.
Proof. revert i. induction l as [|a l IH]; intros [|i]; simpl; [reflexivity| reflexivity| reflexivity|rewrite IH; reflexivity]. Qed.
Lemma put_same {X} (l : list X) i x : nth_error l i = Some x -> put l i x = l.
Proof. revert i. induction l as [|a l IH]; intros [|i] H; simpl in *; try discriminate; [injection H as ->; reflexivity|rewrite IH by exact H; reflexivity]. Qed.
Lemma nth_some_lt {X} (l : list X) i x : nth_error l i = Some x -> i < length l.
Proof. intros H. apply nth_error_Some. congruence. Qed.
Lemma Forall2_put {X Y} (P : X -> Y -> Prop) l m i x y : Forall2 P l m -> P x y -> Forall2 P (put l i x) (put m i y).
Proof. intros F K. revert i. induction F; intros [|i]; simpl; constructor; auto. Qed.
Lemma Forall2_nth_l {X Y} (P : X -> Y -> Prop) l m i x : Forall2 P l m -> nth_error l i = Some x -> exists y, nth_error m i = Some y /\ P x y.
Proof. intros F. revert i. induction F; intros [|i] H'; simpl in *; try discriminate; [injection H' as <-; eauto|eauto]. Qed.
Lemma Forall2_nth_r {X Y} (P : X -> Y -> Prop) l m i y : Forall2 P l m -> nth_error m i = Some y -> exists x, nth_error l i = Some x /\ P x y.
Proof. intros F. revert i. induction F; intros [|i] H'; simpl in *; try discriminate; [injection H' as <-; eauto|eauto]. Qed.
Lemma Forall2_length' {X Y} (P : X -> Y -> Prop) l m : Forall2 P l m -> length l = length m.
Proof. induction 1; simpl; congruence. Qed.
Lemma Forall2_mono {X Y} (P Q : X -> Y -> Prop) l m : (forall x y, In x l -> P x y -> Q x y) -> Forall2 P l m -> Forall2 Q l m.
Proof. intros H F. induction F; constructor; [apply H; [left; reflexivity|assumption]|]. apply IHF. intros a b Ha. apply H. right. exact Ha. Qed.
Lemma fold_concat {X Y} (f : Y -> X -> Y) (ls : list (list X)) a : fold_left (fun acc l => fold_left f l acc) ls a = fold_left f (concat ls) a.
Proof. revert a. induction ls as [|l ls IH]; intros a; simpl; [reflexivity|]. rewrite fold_left_app. apply IH. Qed.
Lemma fold_bind_fail {X Y} (f : Y -> X -> res Y) l e : fold_left (fun acc x => y <- acc;; f y x) l (Fail e) = Fail e.
Proof. induction l; simpl; [reflexivity|assumption]. Qed.
Lemma NoDup_app_iff {X} (l m : list X) : NoDup (l ++ m) <-> NoDup l /\ NoDup m /\ forall x, In x l -> ~ In x m.
Proof.
  induction l as [|a l IH]; simpl; [split; [intros H; repeat split; [constructor|assumption|intros x []]|intros (_ & H & _); exact H]|].
  split.
  - intros H. inversion H as [|b c Ha Hl E]; subst. apply IH in Hl. destruct Hl as (A & B & D). repeat split; [constructor; [|exact A]|exact B|].
    + intros Q. apply Ha. apply in_or_app. left. exact Q.
    + intros x [<-|Q]; [|apply D; exact Q]. intros W. apply Ha. apply in_or_app. right. exact W.
  - intros (A & B & D). inversion A as [|b c Ha Hl E]; subst. constructor.
    + intros Q. apply in_app_or in Q. destruct Q as [Q|Q]; [exact (Ha Q)|]. exact (D a (or_introl eq_refl) Q).
    + apply IH. repeat split; [exact Hl|exact B|]. intros x Q. apply D. right. exact Q.
Qed.

Lemma app_inj_len {X} (a b c d : list X) : length a = length b -> a ++ c = b ++ d -> a = b /\ c = d.
Proof. revert b. induction a as [|x a IH]; intros [|y b] L E; simpl in *; try discriminate; [auto|]. injection E as -> E. destruct (IH b) as [-> ->]; auto. Qed.

Section Duo.
Context {V : Type} (fresh : V).
Notation heap := (@heap V). Notation state := (state V).
Definition optl (p : option nat) : list nat := match p with Some l => [l] | None => [] end.
Definition ptrs (g : grid) : list nat := flat_map optl (concat g).
Definition optrs (o : option grid) : list nat := match o with Some g => ptrs g | None => [] end.
Definition owned (objs : list (option grid)) : list nat := flat_map optrs objs.
Definition PR (h : heap) (p : option nat) (v : option V) : Prop :=
  match p, v with None, None => True | Some l, Some x => nth_error h l = Some (Some x) | _, _ => False end.
Definition rect (g : grid) : Prop := forall row, In row g -> length row = g_cols g.
Definition GR (h : heap) (g : grid) (v : value) : Prop := Forall2 (Forall2 (PR h)) g v.
Definition OR (h : heap) (o : option grid) (v : option value) : Prop :=
  match o, v with None, None => True | Some g, Some w => GR h g w /\ rect g | _, _ => False end.
Definition Rel (s : state) (a : store_v) : Prop :=
  Forall2 (OR (st_heap s)) (st_objs s) a /\ NoDup (owned (st_objs s)) /\
  forall l v, nth_error (st_heap s) l = Some (Some v) -> In l (owned (st_objs s)).

Lemma PR_mono h h' p v : (forall l, In l (optl p) -> nth_error h' l = nth_error h l) -> PR h p v -> PR h' p v.
Proof. destruct p as [l|], v as [x|]; simpl; auto. intros H E. rewrite H; auto. Qed.
Lemma row_mono h h' row w : (forall l, In l (flat_map optl row) -> nth_error h' l = nth_error h l) -> Forall2 (PR h) row w -> Forall2 (PR h') row w.
Proof. intros H. apply Forall2_mono. intros p v Hp. apply PR_mono. intros l Hl. apply H. apply in_flat_map. exists p. auto. Qed.
Lemma GR_mono h h' g w : (forall l, In l (ptrs g) -> nth_error h' l = nth_error h l) -> GR h g w -> GR h' g w.
Proof.
  intros H. apply Forall2_mono. intros row v Hr. apply row_mono. intros l Hl. apply H. unfold ptrs. apply in_flat_map in Hl. destruct Hl as (p & A & B).
  apply in_flat_map. exists p. split; [|exact B]. apply in_concat. exists row. auto.
Qed.
Lemma OR_mono h h' o v : (forall l, In l (optrs o) -> nth_error h' l = nth_error h l) -> OR h o v -> OR h' o v.
Proof. destruct o as [g|], v as [w|]; simpl; auto. intros H [A B]. split; [|exact B]. exact (GR_mono h h' g w H A). Qed.
Lemma row_ptr_alive h row w l : Forall2 (PR h) row w -> In l (flat_map optl row) -> exists x, nth_error h l = Some (Some x).
Proof.
  induction 1 as [|p v row w Hp F IH]; simpl; [intros []|]. intros H. apply in_app_or in H. destruct H as [H|H]; [|auto].
  destruct p as [m|], v as [x|]; simpl in *; try contradiction. destruct H as [<-|[]]. eauto.
Qed.
Lemma ptrs_cons row g : ptrs (row :: g) = flat_map optl row ++ ptrs g.
Proof. unfold ptrs. simpl. apply flat_map_app. Qed.
Lemma GR_alive h g w l : GR h g w -> In l (ptrs g) -> exists x, nth_error h l = Some (Some x).
Proof.
  induction 1 as [|row v g w Hr F IH]; [intros []|]. rewrite ptrs_cons. intros H. apply in_app_or in H. destruct H as [H|H]; [|auto].
  exact (row_ptr_alive h row v l Hr H).
Qed.
Lemma OR_alive h o v l : OR h o v -> In l (optrs o) -> exists x, nth_error h l = Some (Some x).
Proof. destruct o as [g|], v as [w|]; simpl; try contradiction. intros [A _]. exact (GR_alive h g w l A). Qed.
Lemma owned_alive s a l : Rel s a -> In l (owned (st_objs s)) -> exists x, nth_error (st_heap s) l = Some (Some x).
Proof.
  intros (F & _ & _) H. apply in_flat_map in H. destruct H as (o & A & B). apply In_nth_error in A. destruct A as (i & A).
  destruct (Forall2_nth_l _ _ _ _ _ F A) as (v & _ & R). exact (OR_alive _ _ _ _ R B).
Qed.
Lemma put_split {X} (l : list X) i old x : nth_error l i = Some old -> exists l1 l2, l = l1 ++ old :: l2 /\ put l i x = l1 ++ x :: l2 /\ length l1 = i.
Proof.
  revert i. induction l as [|a l IH]; intros [|i] H; simpl in H; try discriminate.
  - injection H as ->. exists [], l. auto.
  - destruct (IH i H) as (l1 & l2 & -> & B & C). exists (a :: l1), l2. simpl. rewrite B. auto.
Qed.
Lemma owned_split l1 o l2 : owned (l1 ++ o :: l2) = owned l1 ++ optrs o ++ owned l2.
Proof. unfold owned. rewrite flat_map_app. reflexivity. Qed.
Lemma others_mono h h' objs a : (forall l, In l (owned objs) -> nth_error h' l = nth_error h l) -> Forall2 (OR h) objs a -> Forall2 (OR h') objs a.
Proof. intros H. apply Forall2_mono. intros o v Ho. apply OR_mono. intros l Hl. apply H. apply in_flat_map. eauto. Qed.
(** An operation that touches only the cells of one variable. *)
Lemma local_update s a x old new h' v :
  Rel s a -> nth_error (st_objs s) x = Some old ->
  (forall l, l < length (st_heap s) -> ~ In l (optrs old) -> nth_error h' l = nth_error (st_heap s) l) ->
  NoDup (optrs new) -> (forall l, In l (optrs new) -> In l (optrs old) \/ length (st_heap s) <= l) ->
  (forall l w, nth_error h' l = Some (Some w) -> In l (optrs new) \/ (l < length (st_heap s) /\ ~ In l (optrs old))) ->
  OR h' new v -> Rel (mkState h' (put (st_objs s) x new)) (put a x v).
Proof.
  intros R E Keep ND Src Live O. pose proof (fun l => owned_alive s a l R) as OA. destruct R as (F & N & L).
  assert (X : x < length a) by (rewrite <- (Forall2_length' _ _ _ F); exact (nth_some_lt _ _ _ E)).
  destruct (nth_error a x) as [vo|] eqn:Ea; [|apply nth_error_None in Ea; lia].
  destruct (put_split (st_objs s) x old new E) as (l1 & l2 & S1 & S2 & S3). destruct (put_split a x vo v Ea) as (m1 & m2 & T1 & T2 & T3).
  rewrite S1, T1 in F. apply Forall2_app_inv_l in F. destruct F as (n1 & n2 & F1 & F2 & Q).
  assert (J : n1 = m1 /\ n2 = vo :: m2).
  { apply app_inj_len; [|symmetry; exact Q]. rewrite <- (Forall2_length' _ _ _ F1). lia. }
  destruct J as [-> ->]. inversion F2 as [|? ? ? ? Fo F2' W1 W2]; subst.
  rewrite S1, owned_split in N, OA, L. rewrite NoDup_app_iff in N. destruct N as (N1 & N2 & N3). rewrite NoDup_app_iff in N2. destruct N2 as (N4 & N5 & N6).
  assert (K1 : forall l, In l (owned l1) -> ~ In l (optrs old) /\ l < length (st_heap s)).
  { intros l Hl. split; [intros Q2; apply (N3 l Hl); apply in_or_app; left; exact Q2|]. destruct (OA l) as (w & W); [apply in_or_app; left; exact Hl|]. exact (nth_some_lt _ _ _ W). }
  assert (K2 : forall l, In l (owned l2) -> ~ In l (optrs old) /\ l < length (st_heap s)).
  { intros l Hl. split; [intros Q2; exact (N6 l Q2 Hl)|]. destruct (OA l) as (w & W); [apply in_or_app; right; apply in_or_app; right; exact Hl|]. exact (nth_some_lt _ _ _ W). }
  split; [|split]; cbn [st_heap st_objs]; rewrite S2.
  - rewrite T2. apply Forall2_app; [|constructor; [exact O|]].
    + apply (others_mono (st_heap s)); [|exact F1]. intros l Hl. destruct (K1 l Hl). auto.
    + apply (others_mono (st_heap s)); [|exact F2']. intros l Hl. destruct (K2 l Hl). auto.
  - rewrite owned_split. apply NoDup_app_iff. split; [exact N1|]. split.
    + apply NoDup_app_iff. split; [exact ND|]. split; [exact N5|]. intros l Hl Q2. destruct (K2 l Q2) as [A B]. destruct (Src l Hl) as [C|C]; [exact (A C)|lia].
    + intros l Hl Q2. destruct (K1 l Hl) as [A B]. apply in_app_or in Q2. destruct Q2 as [Q2|Q2]; [destruct (Src l Q2) as [C|C]; [exact (A C)|lia]|].
      apply (N3 l Hl). apply in_or_app. right. exact Q2.
  - rewrite owned_split. intros l w W. destruct (Live l w W) as [A|[A B]]; [apply in_or_app; right; apply in_or_app; left; exact A|].
    rewrite Keep in W by assumption. specialize (L l w W). apply in_app_or in L. destruct L as [L|L]; [apply in_or_app; left; exact L|].
    apply in_app_or in L. destruct L as [L|L]; [contradiction|]. apply in_or_app; right; apply in_or_app; right; exact L.
Qed.
(** Handing the cells of one variable to another that holds none. *)
Lemma transfer s a x y ox g w : Rel s a -> x <> y -> nth_error (st_objs s) x = Some ox -> optrs ox = [] ->
  nth_error (st_objs s) y = Some (Some g) -> nth_error a y = Some (Some w) ->
  Rel (mkState (st_heap s) (put (put (st_objs s) x (Some g)) y (Some []))) (put (put a x (Some w)) y (Some [])).
Proof.
  intros R NE Ex Nil Ey Eay. destruct R as (F & N & L).
  assert (Og : OR (st_heap s) (Some g) (Some w)). { destruct (Forall2_nth_l _ _ _ _ _ F Ey) as (w' & A & B). rewrite Eay in A. injection A as <-. exact B. }
  assert (Oe : OR (st_heap s) (Some []) (Some [])). { simpl. split; [constructor|]. intros row []. }
  assert (P : Permutation (owned (put (put (st_objs s) x (Some g)) y (Some []))) (owned (st_objs s))).
  { destruct (put_split (st_objs s) x ox (Some g) Ex) as (l1 & l2 & A & B & _).
    assert (Ey' : nth_error (put (st_objs s) x (Some g)) y = Some (Some g)) by (rewrite nth_put_neq by exact NE; exact Ey).
    destruct (put_split _ y (Some g) (Some []) Ey') as (m1 & m2 & C & D & _). rewrite D, owned_split. simpl.
    assert (Q : Permutation (owned (put (st_objs s) x (Some g))) (ptrs g ++ owned (st_objs s))).
    { rewrite B, A, !owned_split, Nil. simpl. rewrite !app_assoc. apply Permutation_app_tail. apply Permutation_app_comm. }
    rewrite C, owned_split in Q. simpl in Q. apply (Permutation_app_inv_l (ptrs g)). rewrite <- Q. rewrite !app_assoc. apply Permutation_app_tail. apply Permutation_app_comm. }
  split; [|split]; cbn [st_heap st_objs].
  - apply Forall2_put; [|exact Oe]. apply Forall2_put; [exact F|exact Og].
  - apply (Permutation_NoDup (Permutation_sym P)). exact N.
  - intros l v W. apply (Permutation_in _ (Permutation_sym P)). exact (L l v W).
Qed.

(** *** Memory loops *)
Lemma free_list (h : heap) l : NoDup l -> (forall x, In x l -> exists v, nth_error h x = Some (Some v)) ->
  exists h', fold_left (fun acc x => h <- acc;; free h x) l (Ok h) = Ok h' /\ length h' = length h /\
    forall x, nth_error h' x = (if in_dec Nat.eq_dec x l then Some None else nth_error h x).
Proof.
  revert h. induction l as [|a l IH]; intros h N A.
  - exists h. repeat split; auto.
  - inversion N as [|? ? Na Nl]; subst. destruct (A a (or_introl eq_refl)) as (v & Ev). cbn [fold_left bind]. assert (Ef : free h a = Ok (put h a None)) by (unfold free; rewrite Ev; reflexivity). rewrite Ef.
    destruct (IH (put h a None) Nl) as (h' & B & C & D).
    + intros x Hx. rewrite nth_put_neq by (intros ->; contradiction). apply A. right. exact Hx.
    + exists h'. split; [exact B|]. split; [rewrite C; apply put_length|]. intros x. rewrite D.
      pose proof (nth_some_lt _ _ _ Ev) as La.
      destruct (in_dec Nat.eq_dec x l) as [I|I].
      * destruct (in_dec Nat.eq_dec x (a :: l)) as [_|J]; [reflexivity|]. exfalso. apply J. right. exact I.
      * destruct (in_dec Nat.eq_dec x (a :: l)) as [[J|J]|J]; [subst; apply nth_put_eq; exact La|contradiction|].
        apply nth_put_neq. intros Q. apply J. left. exact Q.
Qed.
Lemma free_ptrs_list ps : forall r : res heap, fold_left (fun acc p => h <- acc;; free_ptr h p) ps r = fold_left (fun acc x => h <- acc;; free h x) (flat_map optl ps) r.
Proof. induction ps as [|p ps IH]; intros r; simpl; [reflexivity|]. rewrite IH, fold_left_app. f_equal. destruct p; simpl; [reflexivity|]. destruct r; reflexivity. Qed.
Lemma free_grid_ok (h : heap) g w : GR h g w -> NoDup (ptrs g) -> exists h', free_grid h g = Ok h' /\ length h' = length h /\
  forall x, nth_error h' x = (if in_dec Nat.eq_dec x (ptrs g) then Some None else nth_error h x).
Proof.
  intros R N. unfold free_grid. rewrite (fold_concat (fun acc p => h0 <- acc;; free_ptr h0 p)), free_ptrs_list. apply free_list; [exact N|].
  intros x Hx. exact (GR_alive h g w x R Hx).
Qed.
Lemma traverse_ext {X Y} (f g : heap -> X -> res (heap * Y)) l : (forall h x, In x l -> f h x = g h x) -> forall h, traverse f h l = traverse g h l.
Proof.
  induction l as [|x l IH]; intros H h; simpl; [reflexivity|]. rewrite H by (left; reflexivity). destruct (g h x) as [[h1 y]|e]; simpl; [|reflexivity].
  rewrite IH; [reflexivity|]. intros h0 x0 H0. apply H. right. exact H0.
Qed.
Lemma traverse_map {X Y Z} (f : heap -> Y -> res (heap * Z)) (m : X -> Y) l : forall h, traverse f h (map m l) = traverse (fun h x => f h (m x)) h l.
Proof. induction l as [|x l IH]; intros h; simpl; [reflexivity|]. destruct (f h (m x)) as [[h1 y]|e]; simpl; [|reflexivity]. rewrite IH. reflexivity. Qed.
Lemma map_nth_seq {X} (l : list X) d : map (fun i => nth i l d) (seq 0 (length l)) = l.
Proof. induction l as [|a l IH]; simpl; [reflexivity|]. f_equal. rewrite <- seq_shift, map_map. exact IH. Qed.
Lemma traverse_seq {X Y} (f : heap -> X -> res (heap * Y)) (l : list X) : forall h,
  traverse (fun h i => x <- idx l i;; f h x) h (seq 0 (length l)) = traverse f h l.
Proof.
  intros h. destruct l as [|d l']; [reflexivity|]. set (l := d :: l').
  rewrite (traverse_ext _ (fun h i => f h (nth i l d))).
  - rewrite <- (traverse_map f (fun i => nth i l d)), map_nth_seq. reflexivity.
  - intros h0 i Hi. apply in_seq in Hi. unfold idx. rewrite (nth_error_nth' l d) by lia. reflexivity.
Qed.
Lemma copy_grid_struct (h : heap) g : rect g -> copy_grid h g = traverse (fun h row => traverse clone_ptr h row) h g.
Proof.
  intros R. unfold copy_grid, g_rows. rewrite <- (traverse_seq (fun h row => traverse clone_ptr h row) g). apply traverse_ext. intros h0 i Hi. apply in_seq in Hi.
  unfold cell, idx. destruct (nth_error g i) as [row|] eqn:E; [|apply nth_error_None in E; lia]. cbn [bind].
  rewrite <- (R row (nth_error_In _ _ E)). apply (traverse_seq clone_ptr row).
Qed.
Definition grown (h h' : heap) (ps : list nat) : Prop :=
  exists vs : list V, h' = h ++ map Some vs /\ ps = seq (length h) (length vs).
Lemma grown_app h h1 h2 p q : grown h h1 p -> grown h1 h2 q -> grown h h2 (p ++ q).
Proof.
  intros (vs & -> & ->) (ws & -> & ->). exists (vs ++ ws). rewrite map_app, app_assoc. split; [reflexivity|].
  rewrite app_length, !app_length, map_length, seq_app. reflexivity.
Qed.
Lemma grown_keep h h' p l : grown h h' p -> l < length h -> nth_error h' l = nth_error h l.
Proof. intros (vs & -> & _) H. apply nth_error_app1. exact H. Qed.
Lemma clone_ptr_ok (h : heap) p v : PR h p v -> exists h' p', clone_ptr h p = Ok (h', p') /\ grown h h' (optl p') /\ PR h' p' v.
Proof.
  destruct p as [l|], v as [x|]; simpl; try contradiction.
  - intros E. unfold deref. rewrite E. simpl. exists (h ++ [Some x]), (Some (length h)). split; [reflexivity|]. split; [exists [x]; auto|].
    unfold PR. transitivity (nth_error [Some x] (length h - length h)); [apply nth_error_app2; lia|]. rewrite Nat.sub_diag. reflexivity.
  - intros _. exists h, None. split; [reflexivity|]. split; [exists []; simpl; rewrite app_nil_r; auto|exact I].
Qed.
Lemma PR_grown h h' ps p v : grown h h' ps -> PR h p v -> PR h' p v.
Proof. intros G. destruct p as [l|], v as [x|]; simpl; auto. intros E. rewrite (grown_keep _ _ _ _ G (nth_some_lt _ _ _ E)). exact E. Qed.
Lemma clone_row_ok row w : forall h, Forall2 (PR h) row w -> exists h' row', traverse clone_ptr h row = Ok (h', row') /\ grown h h' (flat_map optl row') /\ Forall2 (PR h') row' w /\ length row' = length row.
Proof.
  intros h F. revert h F. revert w. induction row as [|p row IH]; intros w h F; inversion F as [|? v ? w' Hp F']; subst.
  - exists h, []. split; [reflexivity|]. split; [exists []; simpl; rewrite app_nil_r; auto|]. auto.
  - destruct (clone_ptr_ok h p v Hp) as (h1 & p' & A & B & C). simpl. rewrite A. simpl.
    destruct (IH w' h1) as (h2 & row' & D & E & G & L).
    { apply (Forall2_mono (PR h)); [|exact F']. intros x y _. apply (PR_grown _ _ _ _ _ B). }
    rewrite D. simpl. exists h2, (p' :: row'). split; [reflexivity|]. split; [simpl; exact (grown_app _ _ _ _ _ B E)|]. split; [|simpl; lia].
    constructor; [exact (PR_grown _ _ _ _ _ E C)|exact G].
Qed.
Lemma clone_grid_ok g w : forall h, GR h g w -> exists h' g', traverse (fun h row => traverse clone_ptr h row) h g = Ok (h', g') /\ grown h h' (ptrs g') /\ GR h' g' w /\ map (@length _) g' = map (@length _) g.
Proof.
  revert w. induction g as [|row g IH]; intros w h F; inversion F as [|? v ? w' Hp F']; subst.
  - exists h, []. split; [reflexivity|]. split; [exists []; simpl; rewrite app_nil_r; auto|]. split; [constructor|reflexivity].
  - destruct (clone_row_ok row v h Hp) as (h1 & row' & A & B & C & L1). simpl. rewrite A. simpl.
    destruct (IH w' h1) as (h2 & g' & D & E & G & L).
    { apply (Forall2_mono (Forall2 (PR h))); [|exact F']. intros x y _. apply Forall2_mono. intros x0 y0 _. apply (PR_grown _ _ _ _ _ B). }
    rewrite D. simpl. exists h2, (row' :: g'). split; [reflexivity|]. split; [rewrite ptrs_cons; exact (grown_app _ _ _ _ _ B E)|]. split; [|simpl; congruence].
    constructor; [|exact G]. apply (Forall2_mono (PR h1)); [|exact C]. intros x y _. apply (PR_grown _ _ _ _ _ E).
Qed.
Lemma rect_lengths g g' : map (@length (option nat)) g' = map (@length _) g -> rect g -> rect g'.
Proof.
  intros E R row H. assert (C : g_cols g' = g_cols g) by (destruct g, g'; simpl in *; congruence). rewrite C.
  assert (Q : In (length row) (map (@length _) g')) by (apply in_map; exact H). rewrite E in Q. apply in_map_iff in Q. destruct Q as (r0 & <- & H0). apply R. exact H0.
Qed.
Lemma copy_grid_ok (h : heap) g w : GR h g w -> rect g -> exists h' g', copy_grid h g = Ok (h', g') /\ grown h h' (ptrs g') /\ GR h' g' w /\ rect g'.
Proof.
  intros A R. rewrite copy_grid_struct by exact R. destruct (clone_grid_ok g w h A) as (h' & g' & B & C & D & E). exists h', g'. repeat split; auto. exact (rect_lengths g g' E R).
Qed.
Lemma rect_blank r c : rect (blank r c).
Proof. intros row H. unfold blank in *. pose proof (repeat_spec _ _ _ H) as ->. rewrite repeat_length. destruct r; [destruct H|]. simpl. rewrite repeat_length. reflexivity. Qed.
Lemma ptrs_blank r c : ptrs (blank r c) = [].
Proof.
  unfold ptrs, blank. assert (H : forall p, In p (concat (repeat (repeat (@None nat) c) r)) -> p = None).
  { intros p H. apply in_concat in H. destruct H as (row & A & B). rewrite (repeat_spec _ _ _ A) in B. exact (repeat_spec _ _ _ B). }
  induction (concat (repeat (repeat (@None nat) c) r)) as [|p l IH]; [reflexivity|]. simpl. rewrite (H p (or_introl eq_refl)). simpl. apply IH. intros q Hq. apply H. right. exact Hq.
Qed.
Lemma GR_blank (h : heap) r c : GR h (blank r c) (repeat (repeat None c) r).
Proof. unfold GR, blank. induction r as [|r IH]; simpl; constructor; [|exact IH]. clear IH. induction c as [|c IHc]; simpl; constructor; [exact I|exact IHc]. Qed.

(** *** Single cells *)
Lemma cell_inside (h : heap) g w r c : GR h g w -> inside w r c = true -> exists row p rv v, nth_error g r = Some row /\ nth_error row c = Some p /\ nth_error w r = Some rv /\ nth_error rv c = Some v /\ cell g r c = Ok p /\ PR h p v /\ Forall2 (PR h) row rv.
Proof.
  intros R H. unfold inside in H. destruct (nth_error w r) as [rv|] eqn:E; [|discriminate]. apply Nat.ltb_lt in H.
  destruct (nth_error rv c) as [v|] eqn:Ev; [|apply nth_error_None in Ev; lia].
  destruct (Forall2_nth_r _ _ _ _ _ R E) as (row & A & B). destruct (Forall2_nth_r _ _ _ _ _ B Ev) as (p & C & D).
  exists row, p, rv, v. unfold cell, idx. rewrite A. cbn [bind]. rewrite C. repeat split; auto.
Qed.
Lemma cell_outside (h : heap) g w r c : GR h g w -> inside w r c = false -> cell g r c = Fail UB.
Proof.
  intros R H. unfold inside in H. unfold cell, idx. destruct (nth_error g r) as [row|] eqn:E; [|reflexivity]. cbn [bind].
  destruct (Forall2_nth_l _ _ _ _ _ R E) as (rv & A & B). rewrite A in H. apply Nat.ltb_ge in H. rewrite <- (Forall2_length' _ _ _ B) in H.
  apply nth_error_None in H. rewrite H. reflexivity.
Qed.
Lemma set_cell_ok g r c row p q : nth_error g r = Some row -> nth_error row c = Some p -> set_cell g r c q = Ok (put g r (put row c q)).
Proof. intros A B. unfold set_cell, idx. rewrite A. cbn [bind]. rewrite B. reflexivity. Qed.
Lemma rect_put g r c row q : nth_error g r = Some row -> rect g -> rect (put g r (put row c q)).
Proof.
  intros E R. apply (rect_lengths g); [|exact R]. clear R. revert r E. induction g as [|r0 g IH]; intros [|r] E; simpl in *; try discriminate.
  - injection E as ->. rewrite put_length. reflexivity.
  - rewrite IH by exact E. reflexivity.
Qed.
(** The pointers after one cell is replaced. *)
Lemma ptrs_split g r c row p q : nth_error g r = Some row -> nth_error row c = Some p -> exists a b,
  ptrs g = a ++ optl p ++ b /\ ptrs (put g r (put row c q)) = a ++ optl q ++ b.
Proof.
  intros A B. destruct (put_split g r row (put row c q) A) as (g1 & g2 & E1 & E2 & _). destruct (put_split row c p q B) as (r1 & r2 & F1 & F2 & _).
  exists (ptrs g1 ++ flat_map optl r1), (flat_map optl r2 ++ ptrs g2). rewrite E2, E1. unfold ptrs. rewrite !concat_app, !flat_map_app. cbn [concat].
  rewrite !flat_map_app, F2, F1, !flat_map_app. cbn [flat_map]. rewrite <- !app_assoc. auto.
Qed.

Lemma obj_rel s a x : Rel s a ->
  match v_obj a x with
  | Ok w => exists g, nth_error (st_objs s) x = Some (Some g) /\ nth_error a x = Some (Some w) /\ obj s x = Ok g /\ GR (st_heap s) g w /\ rect g
  | Fail e => obj s x = Fail e
  end.
Proof.
  intros (F & _ & _). unfold v_obj, obj. destruct (nth_error a x) as [v|] eqn:E.
  - destruct (Forall2_nth_r _ _ _ _ _ F E) as (o & A & B). rewrite A. destruct v as [w|], o as [g|]; simpl in B; try contradiction; [|reflexivity]. exists g. tauto.
  - apply nth_error_None in E. rewrite <- (Forall2_length' _ _ _ F) in E. apply nth_error_None in E. rewrite E. reflexivity.
Qed.
Lemma vacant_rel s a x : Rel s a ->
  match v_vacant a x with
  | Ok _ => nth_error (st_objs s) x = Some None /\ nth_error a x = Some None /\ vacant s x = Ok tt
  | Fail e => vacant s x = Fail e
  end.
Proof.
  intros (F & _ & _). unfold v_vacant, vacant. destruct (nth_error a x) as [v|] eqn:E.
  - destruct (Forall2_nth_r _ _ _ _ _ F E) as (o & A & B). rewrite A. destruct v as [w|], o as [g|]; simpl in B; try contradiction; auto.
  - apply nth_error_None in E. rewrite <- (Forall2_length' _ _ _ F) in E. apply nth_error_None in E. rewrite E. reflexivity.
Qed.
Lemma ptrs_nodup s a x g : Rel s a -> nth_error (st_objs s) x = Some (Some g) -> NoDup (ptrs g).
Proof.
  intros (_ & N & _) E. destruct (put_split _ x (Some g) None E) as (l1 & l2 & A & _ & _). rewrite A, owned_split in N.
  apply NoDup_app_iff in N. destruct N as (_ & N & _). apply NoDup_app_iff in N. tauto.
Qed.
Lemma alive_owned s a x g l v : Rel s a -> nth_error (st_objs s) x = Some (Some g) -> nth_error (st_heap s) l = Some (Some v) -> In l (ptrs g) \/ (l < length (st_heap s) /\ ~ In l (ptrs g)).
Proof. intros _ _ W. destruct (in_dec Nat.eq_dec l (ptrs g)); [left; assumption|right; split; [exact (nth_some_lt _ _ _ W)|assumption]]. Qed.
Lemma grown_alive h h' ps l v : grown h h' ps -> nth_error h' l = Some (Some v) -> length h <= l -> In l ps.
Proof. intros (vs & -> & ->) W L. pose proof (nth_some_lt _ _ _ W) as Q. rewrite app_length, map_length in Q. apply in_seq. lia. Qed.
Lemma grown_nodup h h' ps : grown h h' ps -> NoDup ps /\ forall l, In l ps -> length h <= l.
Proof. intros (vs & -> & ->). split; [apply seq_NoDup|]. intros l H. apply in_seq in H. lia. Qed.

(** Dropping the element of one cell. *)
Lemma dealloc_rel s a x g w r c : Rel s a -> nth_error (st_objs s) x = Some (Some g) -> nth_error a x = Some (Some w) -> GR (st_heap s) g w -> rect g -> inside w r c = true ->
  exists h' g', dealloc_in (st_heap s, g) r c = Ok (h', g') /\ Rel (mkState h' (put (st_objs s) x (Some g'))) (put a x (Some (v_put w r c None))).
Proof.
  intros R Ex Ea G Re In_. destruct (cell_inside _ _ _ _ _ G In_) as (row & p & rv & v & A & B & C & D & Ec & P & Fr). unfold dealloc_in. rewrite Ec. cbn [bind].
  pose proof (ptrs_nodup s a x g R Ex) as N. unfold v_put. rewrite C.
  destruct p as [l|].
  - destruct v as [v|]; [|contradiction]. simpl in P. unfold free. rewrite P. cbn [bind]. rewrite (set_cell_ok g r c row (Some l) None A B). cbn [bind].
    eexists; eexists; split; [reflexivity|]. destruct (ptrs_split g r c row (Some l) None A B) as (u & t & U1 & U2). simpl in U1, U2.
    assert (Hl : In l (ptrs g)) by (rewrite U1; apply in_or_app; right; left; reflexivity).
    rewrite U1 in N. pose proof (NoDup_remove _ _ _ N) as [N1 N2].
    apply (local_update s a x (Some g)); [exact R|exact Ex| | | | |]; cbn [optrs].
    + intros m Hm Hn. apply nth_put_neq. intros ->. contradiction.
    + rewrite U2. exact N1.
    + intros m Hm. left. rewrite U1. rewrite U2 in Hm. apply in_app_or in Hm. apply in_or_app. destruct Hm; [left|right; right]; assumption.
    + intros m y W. destruct (Nat.eq_dec m l) as [->|Q]; [rewrite nth_put_eq in W by exact (nth_some_lt _ _ _ P); discriminate|].
      rewrite nth_put_neq in W by congruence. rewrite U2. destruct (alive_owned s a x g m y R Ex W) as [J|J]; [|right; exact J]. left.
      rewrite U1 in J. apply in_app_or in J. apply in_or_app. destruct J as [J|[J|J]]; [left; exact J|congruence|right; exact J].
    + simpl. split; [|exact (rect_put g r c row None A Re)].
      assert (Gp : GR (put (st_heap s) l None) (put g r (put row c None)) (put w r (put rv c None))).
      { apply (GR_mono (st_heap s)).
        - intros m Hm. apply nth_put_neq. intros <-. apply N2. rewrite U2 in Hm. exact Hm.
        - apply Forall2_put; [exact G|]. apply Forall2_put; [exact Fr|exact I]. }
      exact Gp.
  - destruct v as [v|]; [contradiction|]. eexists; eexists; split; [reflexivity|].
    rewrite (put_same rv c None D), (put_same w r rv C), (put_same a x (Some w) Ea), (put_same (st_objs s) x (Some g) Ex). destruct s; exact R.
Qed.
Lemma inside_put (w : value (V:=V)) r c r' c' q : inside (v_put w r c q) r' c' = inside w r' c'.
Proof.
  unfold inside, v_put. destruct (nth_error w r) as [row|] eqn:E; [|reflexivity]. rewrite nth_put. destruct ((r' =? r) && (r <? length w)) eqn:Q; [|reflexivity].
  apply andb_prop in Q. destruct Q as [Q _]. apply Nat.eqb_eq in Q. subst r'. rewrite E, (put_length row c q). reflexivity.
Qed.
Lemma clear_loop x l : forall s a g w, Rel s a -> nth_error (st_objs s) x = Some (Some g) -> nth_error a x = Some (Some w) -> GR (st_heap s) g w -> rect g ->
  (forall p, In p l -> inside w (fst p) (snd p) = true) ->
  exists h' g', fold_left (fun acc p => hg <- acc;; dealloc_in hg (fst p) (snd p)) l (Ok (st_heap s, g)) = Ok (h', g') /\
    Rel (mkState h' (put (st_objs s) x (Some g'))) (put a x (Some (fold_left (fun w p => v_put w (fst p) (snd p) None) l w))).
Proof.
  induction l as [|p l IH]; intros s a g w R Ex Ea G Re H.
  - exists (st_heap s), g. split; [reflexivity|]. cbn [fold_left]. rewrite (put_same _ _ _ Ex), (put_same _ _ _ Ea). destruct s; exact R.
  - destruct (dealloc_rel s a x g w (fst p) (snd p) R Ex Ea G Re (H p (or_introl eq_refl))) as (h1 & g1 & A & R1). cbn [fold_left bind]. rewrite A.
    set (s1 := mkState h1 (put (st_objs s) x (Some g1))) in *. set (a1 := put a x (Some (v_put w (fst p) (snd p) None))) in *.
    assert (Ex1 : nth_error (st_objs s1) x = Some (Some g1)) by (apply nth_put_eq; exact (nth_some_lt _ _ _ Ex)).
    assert (Ea1 : nth_error a1 x = Some (Some (v_put w (fst p) (snd p) None))) by (apply nth_put_eq; exact (nth_some_lt _ _ _ Ea)).
    pose proof (proj1 R1) as F1. destruct (Forall2_nth_l _ _ _ _ _ F1 Ex1) as (o & Q1 & Q2). rewrite Ea1 in Q1. injection Q1 as <-. destruct Q2 as [G1 Re1].
    destruct (IH s1 a1 g1 _ R1 Ex1 Ea1 G1 Re1) as (h2 & g2 & B & R2).
    { intros q Hq. rewrite inside_put. apply H. right. exact Hq. }
    exists h2, g2. split; [exact B|]. unfold s1, a1 in R2. cbn [st_objs] in R2. rewrite !put_put in R2. exact R2.
Qed.
(** Dropping every cell leaves a matrix without elements. *)
Lemma nth2_put (w : value) r c r' c' (q : option V) : inside w r c = true ->
  match nth_error (v_put w r c q) r' with Some row => nth_error row c' | None => None end =
  if (r' =? r) && (c' =? c) then Some q else match nth_error w r' with Some row => nth_error row c' | None => None end.
Proof.
  unfold inside, v_put. destruct (nth_error w r) as [row|] eqn:E; [|discriminate]. intros H. apply Nat.ltb_lt in H. rewrite nth_put.
  destruct (Nat.eqb_spec r' r) as [->|N]; cbn [andb]; [|reflexivity]. pose proof (nth_some_lt _ _ _ E) as L. apply Nat.ltb_lt in L. rewrite L, E, nth_put.
  destruct (Nat.eqb_spec c' c) as [->|N]; cbn [andb]; [|reflexivity]. apply Nat.ltb_lt in H. rewrite H. reflexivity.
Qed.
Lemma v_put_lengths (w : value) r c (q : option V) : map (@length _) (v_put w r c q) = map (@length _) w.
Proof.
  unfold v_put. destruct (nth_error w r) as [row|] eqn:E; [|reflexivity]. revert r E. induction w as [|r0 w IH]; intros [|r] E; simpl in *; try discriminate.
  - injection E as ->. rewrite put_length. reflexivity.
  - rewrite IH by exact E. reflexivity.
Qed.
Lemma value_ext (w w' : value (V:=V)) : map (@length _) w = map (@length _) w' ->
  (forall r c, inside w r c = true -> match nth_error w r with Some row => nth_error row c | None => None end = match nth_error w' r with Some row => nth_error row c | None => None end) -> w = w'.
Proof.
  revert w'. induction w as [|row w IH]; intros [|row' w'] L H; simpl in L; try discriminate; [reflexivity|]. injection L as L1 L2. f_equal.
  - clear IH L2. assert (H0 : forall c, c < length row -> nth_error row c = nth_error row' c).
    { intros c Hc. apply (H 0 c). unfold inside. simpl. apply Nat.ltb_lt. exact Hc. }
    clear H. revert row' L1 H0. induction row as [|a row IHr]; intros [|b row'] L1 H0; simpl in L1; try discriminate; [reflexivity|].
    assert (A := H0 0 ltac:(simpl; lia)). simpl in A. injection A as ->. f_equal. apply IHr; [lia|]. intros c Hc. apply (H0 (S c)). simpl. lia.
  - apply IH; [exact L2|]. intros r c Hc. apply (H (S r) c). exact Hc.
Qed.
Lemma clear_value l : forall w : value (V:=V), (forall p, In p l -> inside w (fst p) (snd p) = true) ->
  let w' := fold_left (fun w p => v_put w (fst p) (snd p) None) l w in
  map (@length _) w' = map (@length _) w /\
  forall r c, match nth_error w' r with Some row => nth_error row c | None => None end =
    if in_dec (fun p q : nat * nat => ltac:(decide equality; apply Nat.eq_dec)) (r, c) l then Some None else match nth_error w r with Some row => nth_error row c | None => None end.
Proof.
  induction l as [|p l IH]; intros w H w'; [split; reflexivity|]. subst w'. cbn [fold_left].
  destruct (IH (v_put w (fst p) (snd p) None)) as [A B].
  { intros q Hq. rewrite inside_put. apply H. right. exact Hq. }
  split; [rewrite A; apply v_put_lengths|]. intros r c. rewrite B, nth2_put by (apply H; left; reflexivity).
  destruct (in_dec _ (r, c) l) as [I1|I1]; destruct (in_dec _ (r, c) (p :: l)) as [I2|I2]; try reflexivity; try (exfalso; apply I2; right; exact I1).
  - destruct I2 as [I2|I2]; [|contradiction]. subst p. simpl. rewrite !Nat.eqb_refl. reflexivity.
  - destruct (Nat.eqb_spec r (fst p)) as [->|N]; cbn [andb]; [|reflexivity]. destruct (Nat.eqb_spec c (snd p)) as [->|N]; [|reflexivity].
    exfalso. apply I2. left. destruct p; reflexivity.
Qed.
Lemma nested_loop {X} (f : X -> nat -> nat -> X) rows cols : forall a, fold_left (fun acc i => fold_left (fun acc j => f acc i j) (seq 0 cols) acc) (seq 0 rows) a =
  fold_left (fun acc p => f acc (fst p) (snd p)) (list_prod (seq 0 rows) (seq 0 cols)) a.
Proof.
  generalize (seq 0 rows) as is, (seq 0 cols) as js. induction is as [|i is IH]; intros js a; simpl; [reflexivity|]. rewrite fold_left_app, <- IH. f_equal.
  revert a. induction js as [|j js IHj]; intros a; simpl; [reflexivity|]. apply IHj.
Qed.
Lemma clear_all (w : value (V:=V)) g h : GR h g w -> rect g -> fold_left (fun w p => v_put w (fst p) (snd p) None) (list_prod (seq 0 (g_rows g)) (seq 0 (g_cols g))) w = map (map (fun _ => None)) w
  /\ (forall p, In p (list_prod (seq 0 (g_rows g)) (seq 0 (g_cols g))) -> inside w (fst p) (snd p) = true).
Proof.
  intros G Re.
  assert (In_ : forall r c, inside w r c = true <-> In (r, c) (list_prod (seq 0 (g_rows g)) (seq 0 (g_cols g)))).
  { intros r c. rewrite in_prod_iff, !in_seq. unfold inside, g_rows. destruct (nth_error w r) as [rv|] eqn:E.
    - destruct (Forall2_nth_r _ _ _ _ _ G E) as (row & A & B). rewrite Nat.ltb_lt, <- (Forall2_length' _ _ _ B), (Re row (nth_error_In _ _ A)). pose proof (nth_some_lt _ _ _ A). lia.
    - apply nth_error_None in E. rewrite <- (Forall2_length' _ _ _ G) in E. split; [discriminate|lia]. }
  assert (H : forall p, In p (list_prod (seq 0 (g_rows g)) (seq 0 (g_cols g))) -> inside w (fst p) (snd p) = true).
  { intros [r c] Hp. apply In_. exact Hp. }
  split; [|exact H]. destruct (clear_value _ w H) as [A B].
  apply value_ext; [rewrite A, map_map; apply map_ext; intros row; rewrite map_length; reflexivity|].
  intros r c Hc. rewrite B.
  assert (Hc' : inside w r c = true).
  { unfold inside in *. destruct (nth_error _ r) as [rw|] eqn:E in Hc; [|discriminate].
    assert (Q : nth_error (map (@length _) (fold_left (fun w p => v_put w (fst p) (snd p) None) (list_prod (seq 0 (g_rows g)) (seq 0 (g_cols g))) w)) r = Some (length rw)) by (apply map_nth_error; exact E).
    rewrite A in Q. destruct (nth_error w r) as [rw'|] eqn:E'.
    - rewrite (map_nth_error (@length _) _ _ E') in Q. injection Q as ->. exact Hc.
    - apply nth_error_None in E'. pose proof (nth_some_lt _ _ _ Q) as Q'. rewrite map_length in Q'. lia. }
  destruct (in_dec _ (r, c) _) as [I1|I1]; [|exfalso; apply I1; apply In_; exact Hc'].
  unfold inside in Hc'. destruct (nth_error w r) as [rw|] eqn:E; [|discriminate]. apply Nat.ltb_lt in Hc'.
  rewrite (map_nth_error (map (fun _ => None)) _ _ E). destruct (nth_error rw c) as [v|] eqn:Ev; [|apply nth_error_None in Ev; lia].
  rewrite (map_nth_error (fun _ => None) _ _ Ev). reflexivity.
Qed.
Lemma write_rel s a x g w r c v (h0 : heap) : Rel s a -> nth_error (st_objs s) x = Some (Some g) -> GR (st_heap s) g w -> rect g -> forall row rv q,
  nth_error g r = Some row -> nth_error row c = Some None -> nth_error w r = Some rv -> q = length (st_heap s) -> Forall2 (PR (st_heap s)) row rv ->
  Rel (mkState (st_heap s ++ [Some v]) (put (st_objs s) x (Some (put g r (put row c (Some q)))))) (put a x (Some (put w r (put rv c (Some v))))).
Proof.
  intros R Ex G Re row rv q A B C -> Fr. pose proof (ptrs_nodup s a x g R Ex) as N.
  destruct (ptrs_split g r c row None (Some (length (st_heap s))) A B) as (u & t & U1 & U2). simpl in U1, U2.
  assert (Lt : forall m, In m (ptrs g) -> m < length (st_heap s)).
  { intros m Hm. destruct (GR_alive _ _ _ _ G Hm) as (y & Y). exact (nth_some_lt _ _ _ Y). }
  apply (local_update s a x (Some g)); [exact R|exact Ex| | | | |]; cbn [optrs].
  - intros m Hm _. apply nth_error_app1. exact Hm.
  - rewrite U2. apply (Permutation_NoDup (l := length (st_heap s) :: u ++ t)).
    + apply Permutation_middle.
    + constructor; [|rewrite U1 in N; exact N]. intros Q. specialize (Lt (length (st_heap s))). rewrite U1 in Lt. specialize (Lt Q). lia.
  - intros m Hm. rewrite U2 in Hm. rewrite U1. apply in_app_or in Hm. destruct Hm as [Hm|[Hm|Hm]]; [left; apply in_or_app; auto|right; lia|left; apply in_or_app; auto].
  - intros m y W. rewrite U2. destruct (Nat.lt_ge_cases m (length (st_heap s))) as [J|J].
    + rewrite nth_error_app1 in W by exact J. destruct (alive_owned s a x g m y R Ex W) as [K|K]; [left|right; exact K]. rewrite U1 in K. apply in_app_or in K. apply in_or_app. destruct K; [left|right; right]; assumption.
    + pose proof (nth_some_lt _ _ _ W) as Q. rewrite app_length in Q. simpl in Q. left. apply in_or_app. right. left. lia.
  - simpl. split; [|exact (rect_put g r c row _ A Re)].
    assert (Gm : GR (st_heap s ++ [Some v]) g w) by (apply (GR_mono (st_heap s)); [|exact G]; intros m Hm; apply nth_error_app1; auto).
    assert (Frm : Forall2 (PR (st_heap s ++ [Some v])) row rv). { destruct (Forall2_nth_l _ _ _ _ _ Gm A) as (rv' & Q1 & Q2). rewrite C in Q1. injection Q1 as <-. exact Q2. }
    apply Forall2_put; [exact Gm|]. apply Forall2_put; [exact Frm|]. unfold PR. rewrite nth_error_app2 by lia. rewrite Nat.sub_diag. reflexivity.
Qed.
Lemma put_app_last (h : heap) y v : put (h ++ [y]) (length h) v = h ++ [v].
Proof. induction h as [|a h IH]; simpl; [reflexivity|]. rewrite IH. reflexivity. Qed.

Theorem step_rel s a o : Rel s a -> no_self o ->
  match v_step fresh a o with
  | Ok a' => exists s', step fresh s o = Ok s' /\ Rel s' a'
  | Fail e => step fresh s o = Fail e
  end.
Proof.
  intros R NS. destruct o as [x rows cols|x y|x y|x y|x y|x r c v|x r c|x r c|x|x]; simpl; simpl in NS.
  - (* Construct *) pose proof (vacant_rel s a x R) as Vx. destruct (v_vacant a x) as [[]|e]; cbn [bind]; [|rewrite Vx; reflexivity].
    destruct Vx as (A & B & ->). cbn [bind]. eexists; split; [reflexivity|]. unfold set_obj.
    apply (local_update s a x None); [exact R|exact A| | | | |]; cbn [optrs]; try rewrite ptrs_blank.
    + auto.
    + constructor.
    + intros l [].
    + intros l w W. right. split; [exact (nth_some_lt _ _ _ W)|intros []].
    + simpl. split; [apply GR_blank|apply rect_blank].
  - (* Copy *) pose proof (vacant_rel s a x R) as Vx. destruct (v_vacant a x) as [[]|e]; cbn [bind]; [|rewrite Vx; reflexivity].
    destruct Vx as (A & B & ->). cbn [bind]. pose proof (obj_rel s a y R) as Oy. destruct (v_obj a y) as [w|e]; cbn [bind]; [|rewrite Oy; reflexivity].
    destruct Oy as (g & Ey & Eay & -> & G & Re). cbn [bind]. destruct (copy_grid_ok _ _ _ G Re) as (h' & g' & -> & Gr & G' & Re'). cbn [bind].
    eexists; split; [reflexivity|]. unfold set_obj. destruct (grown_nodup _ _ _ Gr) as [N1 N2].
    apply (local_update s a x None); [exact R|exact A| | | | |]; cbn [optrs].
    + intros l Hl _. exact (grown_keep _ _ _ _ Gr Hl).
    + exact N1.
    + intros l Hl. right. exact (N2 l Hl).
    + intros l v W. destruct (Nat.lt_ge_cases l (length (st_heap s))) as [J|J]; [right; split; [exact J|intros []]|left; exact (grown_alive _ _ _ _ _ Gr W J)].
    + simpl. auto.
  - (* Assign *) pose proof (obj_rel s a x R) as Ox. destruct (v_obj a x) as [wx|e]; cbn [bind]; [|rewrite Ox; reflexivity].
    destruct Ox as (gx & Ex & Eax & -> & Gx & Rx). cbn [bind]. pose proof (obj_rel s a y R) as Oy. destruct (v_obj a y) as [w|e]; cbn [bind]; [|rewrite Oy; reflexivity].
    destruct Oy as (g & Ey & Eay & -> & G & Re). cbn [bind].
    destruct (free_grid_ok _ _ _ Gx (ptrs_nodup s a x gx R Ex)) as (h1 & -> & L1 & H1). cbn [bind]. rewrite (proj2 (Nat.eqb_neq _ _) NS).
    assert (Dis : forall l, In l (ptrs g) -> ~ In l (ptrs gx)).
    { destruct R as (_ & N & _). intros l Hg Hx. clear - N Ex Ey NS Hg Hx. revert x y Ex Ey NS N. generalize (st_objs s) as objs. induction objs as [|o objs IH]; intros x y Ex Ey NS N; [destruct x; discriminate|].
      simpl in N. apply NoDup_app_iff in N. destruct N as (_ & N & D). destruct x as [|x], y as [|y]; simpl in *; try congruence.
      - injection Ex as ->. apply (D l Hx). apply in_flat_map. exists (Some g). split; [exact (nth_error_In _ _ Ey)|exact Hg].
      - injection Ey as ->. apply (D l Hg). apply in_flat_map. exists (Some gx). split; [exact (nth_error_In _ _ Ex)|exact Hx].
      - exact (IH x y Ex Ey ltac:(congruence) N). }
    assert (G1 : GR h1 g w). { apply (GR_mono (st_heap s)); [|exact G]. intros l Hl. rewrite H1. destruct (in_dec Nat.eq_dec l (ptrs gx)) as [J|J]; [exfalso; exact (Dis l Hl J)|reflexivity]. }
    destruct (copy_grid_ok _ _ _ G1 Re) as (h' & g' & -> & Gr & G' & Re'). cbn [bind]. eexists; split; [reflexivity|]. unfold set_obj.
    destruct (grown_nodup _ _ _ Gr) as [N1 N2].
    apply (local_update s a x (Some gx)); [exact R|exact Ex| | | | |]; cbn [optrs].
    + intros l Hl Hn. rewrite (grown_keep _ _ _ _ Gr) by lia. rewrite H1. destruct (in_dec Nat.eq_dec l (ptrs gx)); [contradiction|reflexivity].
    + exact N1.
    + intros l Hl. right. rewrite <- L1. exact (N2 l Hl).
    + intros l v W. destruct (Nat.lt_ge_cases l (length h1)) as [J|J]; [right|left; exact (grown_alive _ _ _ _ _ Gr W J)]. split; [lia|].
      rewrite (grown_keep _ _ _ _ Gr J), H1 in W. destruct (in_dec Nat.eq_dec l (ptrs gx)); [discriminate|assumption].
    + simpl. auto.
  - (* Move *) pose proof (vacant_rel s a x R) as Vx. destruct (v_vacant a x) as [[]|e]; cbn [bind]; [|rewrite Vx; reflexivity].
    destruct Vx as (A & B & ->). cbn [bind]. pose proof (obj_rel s a y R) as Oy. destruct (v_obj a y) as [w|e]; cbn [bind]; [|rewrite Oy; reflexivity].
    destruct Oy as (g & Ey & Eay & -> & G & Re). cbn [bind]. eexists; split; [reflexivity|]. unfold set_obj. cbn [st_heap st_objs].
    apply (transfer s a x y None g w); auto. congruence.
  - (* MoveAssign *) pose proof (obj_rel s a x R) as Ox. destruct (v_obj a x) as [wx|e]; cbn [bind]; [|rewrite Ox; reflexivity].
    destruct Ox as (gx & Ex & Eax & -> & Gx & Rx). cbn [bind]. pose proof (obj_rel s a y R) as Oy. destruct (v_obj a y) as [w|e]; cbn [bind]; [|rewrite Oy; reflexivity].
    destruct Oy as (g & Ey & Eay & -> & G & Re). cbn [bind].
    destruct (free_grid_ok _ _ _ Gx (ptrs_nodup s a x gx R Ex)) as (h1 & -> & L1 & H1). cbn [bind]. rewrite (proj2 (Nat.eqb_neq _ _) NS).
    eexists; split; [reflexivity|]. unfold set_obj. cbn [st_heap st_objs].
    assert (R1 : Rel (mkState h1 (put (st_objs s) x None)) (put a x None)).
    { apply (local_update s a x (Some gx)); [exact R|exact Ex| | | | |]; cbn [optrs].
      + intros l Hl Hn. rewrite H1. destruct (in_dec Nat.eq_dec l (ptrs gx)); [contradiction|reflexivity].
      + constructor.
      + intros l [].
      + intros l v W. right. split; [rewrite <- L1; exact (nth_some_lt _ _ _ W)|]. rewrite H1 in W. destruct (in_dec Nat.eq_dec l (ptrs gx)); [discriminate|assumption].
      + exact I. }
    pose proof (transfer _ _ x y None g w R1 NS) as T. cbn [st_heap st_objs] in T. rewrite !put_put in T. apply T.
    + apply nth_put_eq. exact (nth_some_lt _ _ _ Ex).
    + reflexivity.
    + rewrite nth_put_neq by exact NS. exact Ey.
    + rewrite nth_put_neq by exact NS. exact Eay.
  - (* Write *) pose proof (obj_rel s a x R) as Ox. destruct (v_obj a x) as [w|e]; cbn [bind]; [|rewrite Ox; reflexivity].
    destruct Ox as (g & Ex & Eax & -> & G & Re). cbn [bind]. destruct (inside w r c) eqn:In_; [|rewrite (cell_outside _ _ _ _ _ G In_); reflexivity].
    destruct (cell_inside _ _ _ _ _ G In_) as (row & p & rv & v0 & A & B & C & D & -> & P & Fr). cbn [bind]. unfold v_put. rewrite C.
    destruct p as [l|].
    + destruct v0 as [v0|]; [|contradiction]. simpl in P. unfold store. rewrite P. cbn [bind]. eexists; split; [reflexivity|]. unfold set_obj.
      destruct (ptrs_split g r c row (Some l) (Some l) A B) as (u & t & U1 & _). simpl in U1.
      pose proof (ptrs_nodup s a x g R Ex) as N.
      assert (Hl : In l (ptrs g)) by (rewrite U1; apply in_or_app; right; left; reflexivity).
      apply (local_update s a x (Some g)); [exact R|exact Ex| | | | |]; cbn [optrs].
      * intros m Hm Hn. apply nth_put_neq. intros ->. contradiction.
      * exact N.
      * auto.
      * intros m y W. destruct (Nat.eq_dec m l) as [->|Q]; [left; exact Hl|]. rewrite nth_put_neq in W by congruence. exact (alive_owned s a x g m y R Ex W).
      * simpl. split; [|exact Re].
        assert (Gs : GR (put (st_heap s) l (Some v)) (put g r (put row c (Some l))) (put w r (put rv c (Some v)))).
        { destruct (ptrs_split g r c row (Some l) None A B) as (u2 & t2 & W1 & W2). simpl in W1, W2. rewrite W1 in N. pose proof (NoDup_remove _ _ _ N) as [N1 N2].
          assert (Gn : GR (put (st_heap s) l (Some v)) (put g r (put row c None)) (put w r (put rv c None))).
          { apply (GR_mono (st_heap s)).
            - intros m Hm. apply nth_put_neq. intros <-. apply N2. rewrite W2 in Hm. exact Hm.
            - apply Forall2_put; [exact G|]. apply Forall2_put; [exact Fr|exact I]. }
          assert (E1 : nth_error (put g r (put row c None)) r = Some (put row c None)) by (apply nth_put_eq; exact (nth_some_lt _ _ _ A)).
          destruct (Forall2_nth_l _ _ _ _ _ Gn E1) as (rv' & Q1 & Q2). rewrite nth_put_eq in Q1 by exact (nth_some_lt _ _ _ C). injection Q1 as <-.
          pose proof (Forall2_put (PR (put (st_heap s) l (Some v))) _ _ c (Some l) (Some v) Q2) as Fr2. rewrite !put_put in Fr2.
          pose proof (Forall2_put _ _ _ r (put row c (Some l)) (put rv c (Some v)) Gn) as Gn2. rewrite !put_put in Gn2. apply Gn2. apply Fr2.
          unfold PR. apply nth_put_eq. exact (nth_some_lt _ _ _ P). }
        rewrite (put_same row c (Some l) B), (put_same g r row A) in Gs. exact Gs.
    + rewrite (set_cell_ok g r c row None _ A B). cbn [bind]. unfold store. rewrite nth_error_app2 by lia. rewrite Nat.sub_diag. cbn [nth_error bind].
      rewrite put_app_last. eexists; split; [reflexivity|]. unfold set_obj. exact (write_rel s a x g w r c v [] R Ex G Re row rv _ A B C eq_refl Fr).
  - (* Alloc *) pose proof (obj_rel s a x R) as Ox. destruct (v_obj a x) as [w|e]; cbn [bind]; [|rewrite Ox; reflexivity].
    destruct Ox as (g & Ex & Eax & -> & G & Re). cbn [bind]. destruct (inside w r c) eqn:In_; [|rewrite (cell_outside _ _ _ _ _ G In_); reflexivity].
    destruct (dealloc_rel s a x g w r c R Ex Eax G Re In_) as (h1 & g1 & Ed & R1).
    destruct (cell_inside _ _ _ _ _ G In_) as (row & p & rv & v0 & A & B & C & D & Ec & P & Fr). rewrite Ec. cbn [bind].
    unfold dealloc_in in Ed. rewrite Ec in Ed. cbn [bind] in Ed.
    assert (Free : free_ptr (st_heap s) p = Ok h1 /\ g1 = put g r (put row c None)).
    { destruct p as [l|]; simpl.
      - destruct (free (st_heap s) l) as [hh|]; [|discriminate]. cbn [bind] in Ed. rewrite (set_cell_ok g r c row (Some l) None A B) in Ed. injection Ed as -> ->. auto.
      - injection Ed as -> ->. split; [reflexivity|]. rewrite (put_same row c None B), (put_same g1 r row A). reflexivity. }
    destruct Free as [-> ->]. cbn [bind]. rewrite (set_cell_ok g r c row p _ A B). cbn [bind]. eexists; split; [reflexivity|]. unfold set_obj.
    unfold v_put in *. rewrite C in *.
    set (s1 := mkState h1 (put (st_objs s) x (Some (put g r (put row c None))))) in *.
    assert (Ex1 : nth_error (st_objs s1) x = Some (Some (put g r (put row c None)))) by (apply nth_put_eq; exact (nth_some_lt _ _ _ Ex)).
    pose proof (proj1 R1) as F1. destruct (Forall2_nth_l _ _ _ _ _ F1 Ex1) as (o & Q1 & Q2). rewrite nth_put_eq in Q1 by exact (nth_some_lt _ _ _ Eax). injection Q1 as <-. destruct Q2 as [G1 Re1].
    assert (A1 : nth_error (put g r (put row c None)) r = Some (put row c None)) by (apply nth_put_eq; exact (nth_some_lt _ _ _ A)).
    assert (B1 : nth_error (put row c None) c = Some None) by (apply nth_put_eq; exact (nth_some_lt _ _ _ B)).
    assert (C1 : nth_error (put w r (put rv c None)) r = Some (put rv c None)) by (apply nth_put_eq; exact (nth_some_lt _ _ _ C)).
    destruct (Forall2_nth_l _ _ _ _ _ G1 A1) as (rv' & Q1 & Q2). rewrite C1 in Q1. injection Q1 as <-.
    pose proof (write_rel s1 _ x _ _ r c fresh [] R1 Ex1 G1 Re1 _ _ _ A1 B1 C1 eq_refl Q2) as R2. unfold s1 in R2. cbn [st_objs st_heap] in R2. rewrite !put_put in R2. exact R2.
  - (* Dealloc *) pose proof (obj_rel s a x R) as Ox. destruct (v_obj a x) as [w|e]; cbn [bind]; [|rewrite Ox; reflexivity].
    destruct Ox as (g & Ex & Eax & -> & G & Re). cbn [bind]. destruct (inside w r c) eqn:In_; [|rewrite (cell_outside _ _ _ _ _ G In_); reflexivity].
    destruct (dealloc_rel s a x g w r c R Ex Eax G Re In_) as (h1 & g1 & Ed & R1). unfold dealloc_in in Ed. rewrite Ed. cbn [bind]. eexists; split; [reflexivity|exact R1].
  - (* Clear *) pose proof (obj_rel s a x R) as Ox. destruct (v_obj a x) as [w|e]; cbn [bind]; [|rewrite Ox; reflexivity].
    destruct Ox as (g & Ex & Eax & -> & G & Re). cbn [bind]. destruct (clear_all w g _ G Re) as [Cv Ci].
    rewrite (nested_loop (fun acc i j => hg <- acc;; dealloc_in hg i j)).
    destruct (clear_loop x _ s a g w R Ex Eax G Re Ci) as (h' & g' & -> & R1). cbn [bind]. eexists; split; [reflexivity|]. rewrite Cv in R1. exact R1.
  - (* Destroy *) pose proof (obj_rel s a x R) as Ox. destruct (v_obj a x) as [gw|e]; cbn [bind]; [|rewrite Ox; reflexivity].
    destruct Ox as (gx & Ex & Eax & -> & Gx & Rx). cbn [bind].
    destruct (free_grid_ok _ _ _ Gx (ptrs_nodup s a x gx R Ex)) as (h1 & -> & L1 & H1). cbn [bind].
    eexists; split; [reflexivity|]. unfold set_obj.
    apply (local_update s a x (Some gx)); [exact R|exact Ex| | | | |]; cbn [optrs].
    + intros l Hl Hn. rewrite H1. destruct (in_dec Nat.eq_dec l (ptrs gx)); [contradiction|reflexivity].
    + constructor.
    + intros l [].
    + intros l v W. right. split; [rewrite <- L1; exact (nth_some_lt _ _ _ W)|]. rewrite H1 in W. destruct (in_dec Nat.eq_dec l (ptrs gx)); [discriminate|assumption].
    + exact I.
Qed.
End Duo.
