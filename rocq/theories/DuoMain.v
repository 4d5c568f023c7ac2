(** Histories of lattice containers; iteration. *)
From Coq Require Import List Arith Lia Bool Permutation.
From Verif Require Import Base DuoModel DuoSpec DuoProofs.
Import ListNotations.

Section Main.
Context {V : Type} (fresh : V).
Lemma start_rel n : Rel (@start V n) (repeat None n).
Proof.
  split; [|split]; simpl.
  - induction n; simpl; constructor; [exact I|assumption].
  - assert (E : owned (repeat None n) = []) by (induction n; simpl; auto). rewrite E. constructor.
  - intros [|l] v H; discriminate.
Qed.
Lemma run_rel ops : forall s a, Rel s a -> Forall no_self ops ->
  match v_run fresh a ops with Ok a' => exists s', run fresh s ops = Ok s' /\ Rel s' a' | Fail e => run fresh s ops = Fail e end.
Proof.
  induction ops as [|o ops IH]; intros s a R F; [exists s; auto|]. inversion F as [|? ? Fo F']; subst. unfold v_run, run. cbn [fold_left bind].
  pose proof (step_rel fresh s a o R Fo) as S. destruct (v_step fresh a o) as [a1|e].
  - destruct S as (s1 & -> & R1). exact (IH s1 a1 R1 F').
  - rewrite S. rewrite !(fold_bind_fail (fun s o => _) ops). reflexivity.
Qed.
Lemma read_rel (s : state V) a x r c : Rel s a -> read s x r c = v_read a x r c.
Proof.
  intros R. unfold read, v_read. pose proof (obj_rel s a x R) as O. destruct (v_obj a x) as [w|e]; cbn [bind]; [|rewrite O; reflexivity].
  destruct O as (g & _ & _ & -> & G & _). cbn [bind]. unfold cell, idx. destruct (nth_error w r) as [rv|] eqn:E.
  - destruct (Forall2_nth_r _ _ _ _ _ G E) as (row & -> & B). cbn [bind]. destruct (nth_error rv c) as [v|] eqn:Ev.
    + destruct (Forall2_nth_r _ _ _ _ _ B Ev) as (p & -> & D). cbn [bind]. destruct p as [l|], v as [v|]; simpl in D; try contradiction; [unfold deref; rewrite D|]; reflexivity.
    + apply nth_error_None in Ev. rewrite <- (Forall2_length' _ _ _ B) in Ev. apply nth_error_None in Ev. rewrite Ev. reflexivity.
  - apply nth_error_None in E. rewrite <- (Forall2_length' _ _ _ G) in E. apply nth_error_None in E. rewrite E. reflexivity.
Qed.
Lemma alive_seq (h : list (option V)) : forall k, length (filter (fun c => match c with Some _ => true | None => false end) h) =
  length (filter (fun l => match nth_error h (l - k) with Some (Some _) => true | _ => false end) (seq k (length h))).
Proof.
  induction h as [|c h IH]; intros k; [reflexivity|]. simpl length. cbn [seq filter]. rewrite Nat.sub_diag. cbn [nth_error].
  assert (E : filter (fun l => match nth_error (c :: h) (l - k) with Some (Some _) => true | _ => false end) (seq (S k) (length h)) =
              filter (fun l => match nth_error h (l - S k) with Some (Some _) => true | _ => false end) (seq (S k) (length h))).
  { apply filter_ext_in. intros l Hl. apply in_seq in Hl. replace (l - k) with (S (l - S k)) by lia. reflexivity. }
  rewrite E. destruct c; simpl; rewrite (IH (S k)); reflexivity.
Qed.
Lemma owned_held h objs (a : store_v (V:=V)) : Forall2 (OR h) objs a -> length (owned objs) = held a.
Proof.
  intros F. unfold held. induction F as [|o v objs a H F IH]; [reflexivity|]. simpl. rewrite app_length, filter_app, app_length, IH. f_equal. clear - H.
  destruct o as [g|], v as [w|]; simpl in H; try contradiction; [|reflexivity]. destruct H as [G _]. simpl. unfold ptrs.
  assert (Q : Forall2 (PR h) (concat g) (concat w)). { induction G; simpl; [constructor|]. apply Forall2_app; assumption. }
  induction Q as [|p v ps vs Hp Q IH]; [reflexivity|]. simpl. rewrite app_length, IH. destruct p, v; simpl in Hp; try contradiction; reflexivity.
Qed.
Lemma alive_held (s : state V) a : Rel s a -> alive s = held a.
Proof.
  intros R. rewrite <- (owned_held _ _ _ (proj1 R)). unfold alive. rewrite (alive_seq (st_heap s) 0). apply Permutation_length. apply NoDup_Permutation.
  - apply NoDup_filter, seq_NoDup.
  - exact (proj1 (proj2 R)).
  - intros l. rewrite filter_In, in_seq, Nat.sub_0_r. split.
    + intros [_ H]. destruct (nth_error (st_heap s) l) as [[v|]|] eqn:E; try discriminate. exact (proj2 (proj2 R) l v E).
    + intros H. destruct (owned_alive s a l R H) as (v & E). pose proof (nth_some_lt _ _ _ E). rewrite E. split; [lia|reflexivity].
Qed.
(** The whole behaviour of a history. *)
Theorem value_semantics n ops : Forall no_self ops ->
  match v_run fresh (repeat None n) ops with
  | Ok a => exists s, run fresh (start n) ops = Ok s /\ (forall x r c, read s x r c = v_read a x r c) /\ alive s = held a
  | Fail e => run fresh (start n) ops = Fail e
  end.
Proof.
  intros F. pose proof (run_rel ops _ _ (start_rel n) F) as H. destruct (v_run fresh (repeat None n) ops) as [a|e]; [|exact H].
  destruct H as (s & A & R). exists s. split; [exact A|]. split; [intros; apply read_rel; exact R|exact (alive_held s a R)].
Qed.
(** Self-assignment: the elements are deleted before they are copied. *)
Theorem self_assignment n ops s a x : Forall no_self ops -> run fresh (start n) ops = Ok s -> v_run fresh (repeat None n) ops = Ok a ->
  (exists w, v_obj a x = Ok w) -> exists s', step fresh s (Assign x x) = Ok s' /\ forall r c, read s' x r c = Fail UB.
Proof.
  intros F Rn Ra (w & W). pose proof (run_rel ops _ _ (start_rel n) F) as H. rewrite Ra in H. destruct H as (s0 & Q & R). rewrite Rn in Q. injection Q as <-.
  pose proof (obj_rel s a x R) as O. rewrite W in O. destruct O as (g & Ex & Eax & Og & G & Re). simpl. rewrite Og. cbn [bind].
  destruct (free_grid_ok _ _ _ G (ptrs_nodup s a x g R Ex)) as (h1 & -> & L1 & H1). cbn [bind]. rewrite Nat.eqb_refl.
  destruct (copy_grid_ok h1 _ _ (GR_blank h1 (g_rows g) (g_cols g)) (rect_blank _ _)) as (h2 & g2 & -> & Gr & G2 & Re2). cbn [bind]. eexists; split; [reflexivity|].
  intros r c. unfold read, obj, set_obj. cbn [st_objs st_heap]. rewrite nth_put_eq by exact (nth_some_lt _ _ _ Ex). cbn [bind]. unfold cell, idx.
  destruct (nth_error g2 r) as [row|] eqn:E; [|reflexivity]. cbn [bind]. destruct (nth_error row c) as [p|] eqn:Ep; [|reflexivity]. cbn [bind].
  destruct (Forall2_nth_l _ _ _ _ _ G2 E) as (rv & A & B). destruct (Forall2_nth_l _ _ _ _ _ B Ep) as (v & C & D).
  pose proof (repeat_spec _ _ _ (nth_error_In _ _ A)) as ->. pose proof (repeat_spec _ _ _ (nth_error_In _ _ C)) as ->. destruct p; [contradiction|reflexivity].
Qed.

(** operator== *)
Context (eqv : V -> V -> bool).
Lemma fold_and {X} (f : X -> res bool) (t : X -> bool) l : (forall p, In p l -> f p = Ok (t p)) -> forall b,
  fold_left (fun acc p => b <- acc;; if negb b then Ok false else f p) l (Ok b) = Ok (b && forallb t l).
Proof.
  induction l as [|p l IH]; intros H b; simpl; [rewrite andb_true_r; reflexivity|]. destruct b; cbn [negb andb].
  - rewrite H by (left; reflexivity). rewrite IH; [reflexivity|]. intros q Hq. apply H. right. exact Hq.
  - rewrite IH; [reflexivity|]. intros q Hq. apply H. right. exact Hq.
Qed.
Definition cells_eq (a : store_v (V:=V)) (x y : nat) (p : nat * nat) : bool :=
  match v_read a x (fst p) (snd p), v_read a y (fst p) (snd p) with Ok v, Ok v' => eqv v v' | _, _ => false end.
Lemma value_lengths h g (w : value (V:=V)) : GR h g w -> map (@length _) w = map (@length _) g.
Proof. induction 1 as [|row rv g w H G IH]; simpl; [reflexivity|]. rewrite IH, (Forall2_length' _ _ _ H). reflexivity. Qed.
Lemma rect_repeat g : rect g -> map (@length _) g = repeat (g_cols g) (g_rows g).
Proof.
  intros R. unfold rect in R. revert R. generalize (g_cols g) as n. unfold g_rows. induction g as [|r g IH]; intros n R; simpl; [reflexivity|]. rewrite (R r (or_introl eq_refl)), (IH n); [reflexivity|]. intros row H. apply R. right. exact H.
Qed.
Theorem equal_rel (s : state V) a x y w w' : Rel s a -> v_obj a x = Ok w -> v_obj a y = Ok w' ->
  exists b, equal eqv s x y = Ok b /\
    (b = true <-> map (@length _) w = map (@length _) w' /\
      forall r c, inside w r c = true -> exists v v', v_read a x r c = Ok v /\ v_read a y r c = Ok v' /\ eqv v v' = true).
Proof.
  intros R Wx Wy. pose proof (obj_rel s a x R) as Ox. rewrite Wx in Ox. destruct Ox as (g & _ & _ & Ox & G & Re).
  pose proof (obj_rel s a y R) as Oy. rewrite Wy in Oy. destruct Oy as (g' & _ & _ & Oy & G' & Re'). unfold equal. rewrite Ox, Oy. cbn [bind].
  pose proof (value_lengths _ _ _ G) as L. pose proof (value_lengths _ _ _ G') as L'. rewrite (rect_repeat g Re) in L. rewrite (rect_repeat g' Re') in L'.
  assert (In_ : forall r c, inside w r c = true <-> In (r, c) (list_prod (seq 0 (g_rows g)) (seq 0 (g_cols g)))).
  { intros r c. rewrite in_prod_iff, !in_seq. unfold inside. destruct (nth_error w r) as [rv|] eqn:E.
    - destruct (Forall2_nth_r _ _ _ _ _ G E) as (row & A & B). rewrite Nat.ltb_lt, <- (Forall2_length' _ _ _ B), (Re row (nth_error_In _ _ A)). pose proof (nth_some_lt _ _ _ A). unfold g_rows. lia.
    - apply nth_error_None in E. rewrite <- (Forall2_length' _ _ _ G) in E. unfold g_rows. split; [discriminate|lia]. }
  destruct (negb ((g_rows g =? g_rows g') && (g_cols g =? g_cols g'))) eqn:Sh.
  - exists false. split; [reflexivity|]. split; [discriminate|]. intros [Q _]. exfalso. rewrite L, L' in Q.
    assert (Q1 : g_rows g = g_rows g') by (apply (f_equal (@length _)) in Q; rewrite !repeat_length in Q; exact Q).
    assert (Q2 : g_cols g = g_cols g').
    { destruct g as [|r0 g0], g' as [|r1 g1]; [reflexivity|discriminate Q1|discriminate Q1|]. unfold g_rows in Q. simpl in Q. injection Q as Q _. exact Q. }
    rewrite Q1, Q2, !Nat.eqb_refl in Sh. discriminate.
  - apply negb_false_iff, andb_prop in Sh. destruct Sh as [S1 S2]. apply Nat.eqb_eq in S1, S2.
    rewrite (nested_loop (fun acc i j => b <- acc;; if negb b then Ok false else p <- cell g i j;; q <- cell g' i j;;
         match p, q with Some l, Some m => v <- deref (st_heap s) l;; w <- deref (st_heap s) m;; Ok (eqv v w) | _, _ => Ok false end)).
    rewrite (fold_and _ (cells_eq a x y)).
    + eexists; split; [reflexivity|]. cbn [andb]. rewrite forallb_forall. split.
      * intros H. split; [rewrite L, L', S1, S2; reflexivity|]. intros r c Hi. apply In_ in Hi. specialize (H _ Hi). unfold cells_eq in H. cbn [fst snd] in H.
        destruct (v_read a x r c) as [v|]; [|discriminate]. destruct (v_read a y r c) as [v'|]; [|discriminate]. eauto.
      * intros [_ H] [r c] Hi. apply In_ in Hi. destruct (H r c Hi) as (v & v' & A & B & C). unfold cells_eq. cbn [fst snd]. rewrite A, B. exact C.
    + intros [r c] Hi. cbn [fst snd]. pose proof Hi as Hi'. apply In_ in Hi. destruct (cell_inside _ _ _ _ _ G Hi) as (row & p & rv & v & A & B & C & D & Ec & P & _).
      assert (Hj : inside w' r c = true).
      { apply in_prod_iff in Hi'. rewrite !in_seq in Hi'. unfold inside. destruct (nth_error w' r) as [rv'|] eqn:E'.
        - destruct (Forall2_nth_r _ _ _ _ _ G' E') as (row' & A' & B'). rewrite <- (Forall2_length' _ _ _ B'), (Re' row' (nth_error_In _ _ A')). apply Nat.ltb_lt. lia.
        - apply nth_error_None in E'. rewrite <- (Forall2_length' _ _ _ G') in E'. unfold g_rows in *. lia. }
      destruct (cell_inside _ _ _ _ _ G' Hj) as (row' & p' & rv' & v' & A' & B' & C' & D' & Ec' & P' & _). rewrite Ec, Ec'. cbn [bind].
      unfold cells_eq, v_read. cbn [fst snd]. rewrite Wx, Wy. cbn [bind]. rewrite C, C', D, D'.
      destruct p as [l|], v as [v|]; simpl in P; try contradiction; [|reflexivity].
      destruct p' as [l'|], v' as [v'|]; simpl in P'; try contradiction; [|reflexivity]. unfold deref. rewrite P, P'. reflexivity.
Qed.
Theorem equal_history n ops s a x y w w' : Forall no_self ops -> run fresh (start n) ops = Ok s -> v_run fresh (repeat None n) ops = Ok a ->
  v_obj a x = Ok w -> v_obj a y = Ok w' ->
  exists b, equal eqv s x y = Ok b /\
    (b = true <-> map (@length _) w = map (@length _) w' /\
      forall r c, inside w r c = true -> exists v v', v_read a x r c = Ok v /\ v_read a y r c = Ok v' /\ eqv v v' = true).
Proof.
  intros F Rn Ra. pose proof (run_rel ops _ _ (start_rel n) F) as H. rewrite Ra in H. destruct H as (s0 & Q & R). rewrite Rn in Q. injection Q as <-. apply equal_rel. exact R.
Qed.
End Main.

(** *** Iterators *)
Lemma increment_in rows cols r c : r < rows -> c < cols -> increment rows cols (r, c) =
  if S c <? cols then (r, S c) else if S r <? rows then (S r, 0) else (rows, cols).
Proof.
  intros Hr Hc. unfold increment. destruct cols as [|m]; [lia|]. destruct rows as [|k]; [lia|].
  change (S c <? S m) with (c <? m). change (S r <? S k) with (r <? k). reflexivity.
Qed.
Lemma iterate_from rows cols : forall d r c seen fuel, 0 < cols -> r < rows -> c < cols -> d = (rows - r) * cols - c -> d < fuel ->
  iterate fuel rows cols (r, c) seen = Some (Ok (rev seen ++ map (fun k => (r, k)) (seq c (cols - c)) ++ list_prod (seq (S r) (rows - S r)) (seq 0 cols))).
Proof.
  induction d as [d IH] using lt_wf_ind. intros r c seen fuel Hc Hr Hcc Ed Hf. destruct fuel as [|f]; [lia|]. cbn [iterate fst snd].
  assert (E1 : (r =? rows) = false) by (apply Nat.eqb_neq; lia). rewrite E1. cbn [andb].
  assert (E2 : (r <? rows) = true) by (apply Nat.ltb_lt; lia). assert (E3 : (c <? cols) = true) by (apply Nat.ltb_lt; lia). rewrite E2, E3. cbn [andb].
  rewrite increment_in by assumption. destruct (Nat.ltb_spec (S c) cols) as [J|J].
  - rewrite (IH ((rows - r) * cols - S c)); [| nia | lia | lia | lia | lia | nia]. do 2 f_equal. cbn [rev]. rewrite <- app_assoc. f_equal.
    replace (cols - c) with (S (cols - S c)) by lia. reflexivity.
  - assert (C : c = cols - 1) by lia. destruct (Nat.ltb_spec (S r) rows) as [K|K].
    + rewrite (IH ((rows - S r) * cols - 0)); [| nia | lia | lia | lia | lia | nia]. do 2 f_equal. cbn [rev]. rewrite <- app_assoc. f_equal.
      replace (cols - c) with 1 by lia. cbn [seq map app]. f_equal. rewrite Nat.sub_0_r. replace (rows - S r) with (S (rows - S (S r))) by lia. reflexivity.
    + destruct f as [|f]; [nia|]. cbn [iterate fst snd]. rewrite !Nat.eqb_refl. cbn [andb]. do 2 f_equal. cbn [rev]. f_equal.
      replace (cols - c) with 1 by lia. replace (rows - S r) with 0 by lia. reflexivity.
Qed.
Theorem iterate_row_major rows cols fuel : 0 < rows -> 0 < cols -> rows * cols < fuel ->
  iterate fuel rows cols (0, 0) [] = Some (Ok (list_prod (seq 0 rows) (seq 0 cols))).
Proof.
  intros Hr Hc Hf. rewrite (iterate_from rows cols (rows * cols)); try lia. do 2 f_equal. simpl rev. rewrite Nat.sub_0_r.
  replace rows with (S (rows - 1)) at 2 by lia. reflexivity.
Qed.
Lemma iterate_empty fuel : iterate (S fuel) 0 0 (0, 0) [] = Some (Ok []).
Proof. reflexivity. Qed.
Lemma iterate_no_columns rows fuel : 0 < rows -> iterate (S fuel) rows 0 (0, 0) [] = Some (Fail UB).
Proof. intros H. simpl. destruct rows; [lia|]. reflexivity. Qed.
