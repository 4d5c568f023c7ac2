(** The measurement of the triangular J1-J2 solver: lengths of the right boundary tensors along the
    program, and the call that fails. *)
From Coq Require Import List Arith Lia Bool.
From Verif Require Import Base ContractorModel SweepModel HistoryProofs EnergyModel TriModel ObsModel.
Import ListNotations.
Local Open Scope nat_scope.

Lemma bind_ok {A B} (r : res A) (k : A -> res B) b : bind r k = Ok b -> exists a, r = Ok a /\ k a = Ok b.
Proof. destruct r as [a|f]; simpl; intros H; [eauto|discriminate]. Qed.
Ltac inv_bind :=
  repeat match goal with
  | H : bind _ _ = Ok _ |- _ => let a := fresh "a" in let E := fresh "E" in apply bind_ok in H; destruct H as (a & E & H)
  | H : Ok _ = Ok _ |- _ => injection H; clear H; intros; subst
  | H : Fail _ = Ok _ |- _ => discriminate H
  | H : (if ?b then _ else _) = Ok _ |- _ => destruct b eqn:?
  | H : (match ?p with LEFT => _ | DOWN => _ | RIGHT => _ | UP => _ end) = Ok _ |- _ => destruct p
  | H : (let (_, _) := ?p in _) = Ok _ |- _ => destruct p eqn:?
  end.

Section Len.
Context (o : ops).
Notation right c := (length (bt c RIGHT)).
(** Same lattice, same number of right boundary tensors. *)
Definition same (c c' : con o) : Prop := rows_ c' = rows_ c /\ cols_ c' = cols_ c /\ right c' = right c.
Lemma same_refl c : same c c. Proof. repeat split. Qed.
Lemma same_trans a b c : same a b -> same b c -> same a c.
Proof. unfold same. intros (A & B & D) (E & F & G). repeat split; congruence. Qed.
Lemma iter_same n (f : con o -> res (con o)) c c' : (forall x y, f x = Ok y -> same x y) -> iter_res n f c = Ok c' -> same c c'.
Proof.
  intros H. revert c. induction n as [|n IH]; intros c E; simpl in E; inv_bind; [apply same_refl|].
  eapply same_trans; [eapply H; eauto|]. apply IH. exact H0 || auto.
Qed.

Lemma grow_bmps_same n p c c' : grow_bmps_step o n p c = Ok c' -> same c c'.
Proof. unfold grow_bmps_step. intros H. inv_bind; repeat split. Qed.
Lemma grow_full_same n p c c' : grow_full_bmps o n p c = Ok c' -> same c c'.
Proof.
  unfold grow_full_bmps. intros H.
  destruct p; inv_bind; try apply same_refl; eapply iter_same; eauto; intros; eapply grow_bmps_same; eauto.
Qed.
Lemma generate_same n p c c' : generate_bmps_approach o n p c = Ok c' -> same c c'.
Proof.
  unfold generate_bmps_approach. intros H. apply grow_full_same in H. eapply same_trans; [|exact H].
  unfold delete_inner. destruct (bm c p); repeat split.
Qed.
Lemma shift_b_same n p c c' : shift_bmps_window o n p c = Ok c' -> same c c'.
Proof. unfold shift_bmps_window. intros H. inv_bind; apply grow_bmps_same in H; eapply same_trans; [|exact H]; repeat split. Qed.
Lemma init2_same n p s c c' : init_bten2 o n p s c = Ok c' -> same c c'.
Proof. unfold init_bten2. intros H. destruct (layers p s). inv_bind; repeat split. Qed.
Lemma env2_same n p b1 b2 s i c c' : env2_grow_with o n p b1 b2 s i c = Ok c' -> same c c'.
Proof. unfold env2_grow_with. intros H. destruct (layers p s). inv_bind; repeat split. Qed.
Lemma grow2_same n p s r i c c' : grow_full_bten2 o n p s r i c = Ok c' ->
  same c c' /\ r <= wid (rows_ c) (cols_ c) (pre_of p).
Proof.
  unfold grow_full_bten2. intros H. apply bind_ok in H. destruct H as (c0 & E & H).
  assert (S0 : same c c0) by (destruct i; [eapply init2_same; eauto|injection E as <-; apply same_refl]).
  clear E. destruct (layers p s). apply bind_ok in H. destruct H as (b1 & _ & H). apply bind_ok in H. destruct H as (b2 & _ & H).
  apply bind_ok in H. destruct H as (stop & ES & H). unfold usub in ES.
  destruct (Nat.ltb_spec (wid (rows_ c) (cols_ c) (pre_of p)) r) as [|L]; [discriminate|]. split; [|exact L].
  eapply same_trans; [exact S0|]. destruct (length (bt2 c0 p) =? 0); [injection H as <-; apply same_refl|].
  eapply iter_same; [|exact H]. intros x y Hxy. eapply env2_same; exact Hxy.
Qed.
Lemma shift2_same n p s c c' : shift_bten2_window o n p s c = Ok c' -> same c c'.
Proof.
  unfold shift_bten2_window, grow_bten2_step. intros H. apply bind_ok in H. destruct H as (l & _ & H).
  destruct (layers (opposite p) s). apply bind_ok in H. destruct H as (x1 & _ & H). apply bind_ok in H. destruct H as (x2 & _ & H).
  apply bind_ok in H. destruct H as (x3 & _ & H). eapply same_trans; [|eapply env2_same; eauto]. repeat split.
Qed.

Lemma init_len n p s c c' : init_bten o n p s c = Ok c' ->
  rows_ c' = rows_ c /\ cols_ c' = cols_ c /\ (p = RIGHT -> right c' = 1) /\ (p <> RIGHT -> right c' = right c).
Proof. unfold init_bten. intros H. inv_bind; destruct p; cbn; repeat split; intros; congruence || reflexivity. Qed.
Lemma env_len n p b1 b2 s i c c' : env_grow_with o n p b1 b2 s i c = Ok c' ->
  rows_ c' = rows_ c /\ cols_ c' = cols_ c /\ right c' = right c + match p with RIGHT => 1 | _ => 0 end.
Proof.
  unfold env_grow_with. intros H. inv_bind; destruct p; cbn; rewrite ?app_length; cbn; repeat split; lia.
Qed.
Lemma iter_len p k b1 b2 s n c c' :
  iter_res k (fun x => env_grow_with o n p b1 b2 s (length (bt x p) - 1) x) c = Ok c' ->
  rows_ c' = rows_ c /\ cols_ c' = cols_ c /\ right c' = right c + match p with RIGHT => k | _ => 0 end.
Proof.
  revert c. induction k as [|k IH]; intros c E; simpl in E; inv_bind; [destruct p; repeat split; lia|].
  apply env_len in E0. apply IH in E. destruct E0 as (A & B & D), E as (E & F & G).
  rewrite E, F, G, A, B, D. destruct p; repeat split; lia.
Qed.
Lemma grow_len n p s r i c c' : grow_full_bten o n p s r i c = Ok c' -> cols_ c >= 1 ->
  rows_ c' = rows_ c /\ cols_ c' = cols_ c /\
  right c' = match p with
             | RIGHT => let k := if i then 1 else right c in if k =? 0 then 0 else k + (cols_ c - r - (k - 1))
             | _ => right c end /\
  (p = DOWN -> r <= rows_ c).
Proof.
  unfold grow_full_bten. intros H Hc. apply bind_ok in H. destruct H as (c0 & E & H).
  apply bind_ok in H. destruct H as (stop & ES & H). unfold usub in ES.
  destruct (Nat.ltb_spec (wid (rows_ c) (cols_ c) (pre_of p)) r) as [|L]; [discriminate|]. injection ES as <-.
  assert (S0 : rows_ c0 = rows_ c /\ cols_ c0 = cols_ c /\
     right c0 = match p with RIGHT => if i then 1 else right c | _ => right c end).
  { destruct i.
    - apply init_len in E. destruct E as (A & B & D & F). repeat split; auto.
      destruct p; try (apply F; congruence). apply D. reflexivity.
    - injection E as <-. repeat split. destruct p; reflexivity. }
  destruct S0 as (A & B & D). apply bind_ok in H. destruct H as (b1 & _ & H). apply bind_ok in H. destruct H as (b2 & _ & H).
  assert (P : p = DOWN -> r <= rows_ c) by (intros ->; exact L).
  destruct (length (bt c0 p) =? 0) eqn:K.
  - injection H as <-. repeat split; auto. rewrite D. destruct p; auto. cbn [Nat.eqb].
    rewrite D in K. cbv zeta. rewrite K. apply Nat.eqb_eq in K. exact K.
  - apply iter_len in H. destruct H as (F & G & I). repeat split; auto; try congruence. rewrite I, D.
    destruct p; try lia. cbv zeta. rewrite D in K. rewrite K, D. cbn [pre_of wid]. lia.
Qed.
Lemma shift_len n c c' : shift_bten_window o n RIGHT c = Ok c' ->
  rows_ c' = rows_ c /\ cols_ c' = cols_ c /\ right c' = right c - 1 /\ 1 <= right c.
Proof.
  unfold shift_bten_window, grow_bten_step. intros H. apply bind_ok in H. destruct H as (l & EL & H).
  assert (LL : 1 <= right c /\ length l = right c - 1).
  { unfold pop_back in EL. destruct (bt c RIGHT) as [|e t] eqn:EB; [discriminate|]. injection EL as <-.
    split; [simpl; lia|]. assert (N : e :: t <> []) by discriminate.
    pose proof (app_removelast_last e N) as AR. apply (f_equal (@length _)) in AR. rewrite app_length in AR. cbn [length removelast] in *.
    lia. }
  inv_bind. apply env_len in H. destruct H as (A & B & D). cbn in *. rewrite A, B, D. cbn. repeat split; lia.
Qed.
Lemma shift_len_other n p c c' : p = DOWN -> shift_bten_window o n p c = Ok c' -> same c c'.
Proof.
  intros ->. unfold shift_bten_window, grow_bten_step. intros H. inv_bind.
  apply env_len in H. destruct H as (A & B & D). cbn in *. repeat split; lia.
Qed.
End Len.

(** *** Along a program *)
(** Steps of the measurement, and what each does to the number of right boundary tensors. *)
Definition tracked (x : mstep) : bool :=
  match x with
  | Do (Generate _ | ShiftB _ | GrowE _ _ _ _ | ShiftE (RIGHT | DOWN) | InitE (LEFT | UP) _ | TruncE (LEFT) _
        | InitE2 _ _ | GrowE2 _ _ _ _ | ShiftE2 _ _ | Query _ | Visit _) => true
  | Put _ _ false | GrowStep LEFT | Corr _ _ => true
  | _ => false
  end.
Definition step_len (cols : nat) (n : nat) (x : mstep) : nat :=
  match x with
  | Do (GrowE RIGHT _ r i) => let k := if i then 1 else n in if k =? 0 then 0 else k + (cols - r - (k - 1))
  | Do (ShiftE RIGHT) => n - 1
  | _ => n
  end.
(** Steps that can only succeed on a lattice with enough rows. *)
Definition needs (rows : nat) (x : mstep) : bool :=
  match x with
  | Do (GrowE DOWN _ r _) | Do (GrowE2 DOWN _ r _) => r <=? rows
  | _ => true
  end.

Section Run.
Context (o : ops) (Rng : Type) (tps : sitps o) (ker : kernel o Rng).
Notation right c := (length (bt c RIGHT)).

Lemma mexec_len x (w w' : wst o Rng) lg : tracked x = true -> 1 <= cols_ (ctr w) -> mexec o tps ker x w = Ok (w', lg) ->
  rows_ (ctr w') = rows_ (ctr w) /\ cols_ (ctr w') = cols_ (ctr w) /\
  right (ctr w') = step_len (cols_ (ctr w)) (right (ctr w)) x /\ needs (rows_ (ctr w)) x = true.
Proof.
  intros T HC E. destruct x as [x|s fl er|p|s1 s2].
  - cbn [mexec] in E. apply bind_ok in E. destruct E as ([w1 lg1] & E & E'). injection E' as <- <-.
    assert (S : forall r, exec o tps ker x w = bind r (fun c' => Ok (set_con o w c', [])) ->
              exists c', r = Ok c' /\ w1 = set_con o w c').
    { intros r Er. rewrite Er in E. apply bind_ok in E. destruct E as (c' & -> & E). injection E as <- <-. eauto. }
    destruct x; try discriminate; cbn [step_len needs].
    + destruct (S _ eq_refl) as (c' & Ec & ->). apply generate_same in Ec. destruct Ec as (A & B & D). cbn. auto.
    + destruct (S _ eq_refl) as (c' & Ec & ->). apply shift_b_same in Ec. destruct Ec as (A & B & D). cbn. auto.
    + destruct (S _ eq_refl) as (c' & Ec & ->). apply init_len in Ec. destruct Ec as (A & B & _ & D). cbn.
      destruct p; try discriminate; repeat split; auto; apply D; discriminate.
    + destruct (S _ eq_refl) as (c' & Ec & ->). apply grow_len in Ec; [|lia]. destruct Ec as (A & B & D & F). cbn.
      repeat split; auto; destruct p; auto. apply Nat.leb_le. auto.
    + destruct (S _ eq_refl) as (c' & Ec & ->). cbn. destruct p; try discriminate.
      * apply shift_len_other in Ec; [|reflexivity]. destruct Ec as (A & B & D). auto.
      * apply shift_len in Ec. destruct Ec as (A & B & D & _). auto.
    + injection E as <- <-. destruct p; try discriminate. cbn. auto.
    + destruct (S _ eq_refl) as (c' & Ec & ->). apply init2_same in Ec. destruct Ec as (A & B & D). cbn. auto.
    + destruct (S _ eq_refl) as (c' & Ec & ->). apply grow2_same in Ec. destruct Ec as ((A & B & D) & F). cbn.
      repeat split; auto. destruct p; auto. apply Nat.leb_le. exact F.
    + destruct (S _ eq_refl) as (c' & Ec & ->). apply shift2_same in Ec. destruct Ec as (A & B & D). cbn. auto.
    + cbn [exec] in E. apply bind_ok in E. destruct E as (r & _ & E). injection E as <- <-. auto.
    + cbn [exec] in E. apply bind_ok in E. destruct E as (r & _ & E). injection E as <- <-. auto.
  - destruct er; [discriminate|]. cbn [mexec] in E. destruct (in_lattice _ _ _); [|discriminate].
    apply bind_ok in E. destruct E as (n & _ & E). injection E as <- <-. cbn. auto.
  - destruct p; try discriminate. cbn [mexec] in E. apply bind_ok in E. destruct E as (c' & E & E'). injection E' as <- <-.
    unfold grow_bten_step in E. apply bind_ok in E. destruct E as (x1 & _ & E). apply bind_ok in E. destruct E as (x2 & _ & E).
    apply bind_ok in E. destruct E as (x3 & _ & E). apply bind_ok in E. destruct E as (x4 & _ & E).
    apply env_len in E. destruct E as (A & B & D). cbn. repeat split; auto. rewrite D. lia.
  - cbn [mexec] in E. destruct (in_lattice _ _ _); [|discriminate]. destruct (_ =? _); [injection E as <- <-; auto|].
    apply bind_ok in E. destruct E as (n & _ & E). apply bind_ok in E. destruct E as (a & _ & E). injection E as <- <-. auto.
Qed.

Lemma mrun_len l (w w' : wst o Rng) lg : forallb tracked l = true -> 1 <= cols_ (ctr w) -> mrun o tps ker l w = Ok (w', lg) ->
  rows_ (ctr w') = rows_ (ctr w) /\ cols_ (ctr w') = cols_ (ctr w) /\
  right (ctr w') = fold_left (step_len (cols_ (ctr w))) l (right (ctr w)).
Proof.
  revert w lg. induction l as [|x l IH]; intros w lg T HC E; cbn [mrun] in E.
  - injection E as <- <-. auto.
  - cbn [forallb] in T. apply andb_true_iff in T. destruct T as [T1 T2].
    apply bind_ok in E. destruct E as ([w1 g1] & E1 & E). apply bind_ok in E. destruct E as ([w2 g2] & E2 & E).
    injection E as <- <-. apply mexec_len in E1; auto. destruct E1 as (A & B & D & _). cbn [fst] in E2.
    apply IH in E2; auto; [|lia]. cbn [fst fold_left]. rewrite <- D, <- B. intuition congruence.
Qed.
Lemma mrun_app_fail l1 l2 (w : wst o Rng) : (forall w1 lg, mrun o tps ker l1 w = Ok (w1, lg) -> exists f, mrun o tps ker l2 w1 = Fail f) ->
  exists f, mrun o tps ker (l1 ++ l2) w = Fail f.
Proof.
  revert w. induction l1 as [|x l1 IH]; intros w H; cbn [app].
  - apply (H w ([], [])). reflexivity.
  - cbn [mrun]. destruct (mexec o tps ker x w) as [[w1 g1]|f] eqn:E; cbn [bind]; [|eauto].
    destruct (IH w1) as [f Ef].
    + intros w2 lg E2. apply (H w2 (fst g1 ++ fst lg, snd g1 ++ snd lg)). cbn [mrun]. rewrite E. cbn [bind fst snd]. rewrite E2. reflexivity.
    + cbn [fst]. rewrite Ef. cbn [bind]. eauto.
Qed.
(** The program fails at the step [x]. *)
Lemma fails_at pre x post (w : wst o Rng) : forallb tracked pre = true -> 1 <= cols_ (ctr w) ->
  (forall w1, rows_ (ctr w1) = rows_ (ctr w) -> cols_ (ctr w1) = cols_ (ctr w) ->
     right (ctr w1) = fold_left (step_len (cols_ (ctr w))) pre (right (ctr w)) -> exists f, mexec o tps ker x w1 = Fail f) ->
  exists f, mrun o tps ker (pre ++ x :: post) w = Fail f.
Proof.
  intros T HC H. apply mrun_app_fail. intros w1 lg E. apply mrun_len in E; auto. destruct E as (A & B & D).
  destruct (H w1 A B D) as [f Ef]. exists f. cbn [mrun]. rewrite Ef. reflexivity.
Qed.
Lemma query_fails row (w : wst o Rng) : cols_ (ctr w) < 2 \/ right (ctr w) + 1 < cols_ (ctr w) \/ right (ctr w) = 0 ->
  exists f, mexec o tps ker (Do (Query (Q1 HORIZONTAL (row, 0) 2))) w = Fail f.
Proof.
  intros H. destruct (mexec o tps ker (Do (Query (Q1 HORIZONTAL (row, 0) 2))) w) as [r|f] eqn:E; [|eauto]. exfalso.
  cbn [mexec exec do_query] in E. apply bind_ok in E. destruct E as (r1 & E & _). apply bind_ok in E. destruct E as (r2 & E & _).
  apply bind_ok in E. destruct E as (r3 & E & _). unfold window1 in E.
  apply bind_ok in E. destruct E as (b1 & _ & E). apply bind_ok in E. destruct E as (b2 & _ & E).
  apply bind_ok in E. destruct E as (b3 & _ & E). apply bind_ok in E. destruct E as (b4 & _ & E).
  apply bind_ok in E. destruct E as (b5 & E & _). cbn [along snd Nat.add Nat.sub] in E.
  change (far HORIZONTAL) with RIGHT in E. unfold env_at_slice in E.
  destruct (Nat.ltb_spec 1 (cols_ (ctr w))); [|discriminate]. unfold at_ in E.
  destruct (nth_error (bt (ctr w) RIGHT) (cols_ (ctr w) - 1 - 1)) eqn:N; [|discriminate].
  assert (cols_ (ctr w) - 1 - 1 < right (ctr w)) by (apply nth_error_Some; congruence). lia.
Qed.
Lemma needs_fails x (w : wst o Rng) : tracked x = true -> 1 <= cols_ (ctr w) -> needs (rows_ (ctr w)) x = false ->
  exists f, mexec o tps ker x w = Fail f.
Proof.
  intros T HC N. destruct (mexec o tps ker x w) as [[w' lg]|f] eqn:E; [|eauto]. apply mexec_len in E; auto.
  destruct E as (_ & _ & _ & E). congruence.
Qed.
End Run.

(** *** The program *)
Lemma tracked_app l1 l2 : forallb tracked (l1 ++ l2) = forallb tracked l1 && forallb tracked l2.
Proof. apply forallb_app. Qed.
Lemma tracked_for a b f : (forall i, forallb tracked (f i) = true) -> forallb tracked (for_ a b f) = true.
Proof. intros H. unfold for_. induction (seq a (b - a)) as [|i l IH]; [reflexivity|]. simpl. rewrite tracked_app, H, IH. reflexivity. Qed.
Lemma tracked_when b l : forallb tracked l = true -> forallb tracked (when b l) = true.
Proof. destruct b; auto. Qed.
Lemma map_for {X Y} (g : X -> Y) a b f : map g (for_ a b f) = for_ a b (fun i => map g (f i)).
Proof. unfold for_. induction (seq a (b - a)) as [|i l IH]; [reflexivity|]. simpl. rewrite map_app, IH. reflexivity. Qed.
Lemma map_when {X Y} (g : X -> Y) b l : map g (when b l) = when b (map g l).
Proof. destruct b; reflexivity. Qed.
Ltac trk := repeat (first [ reflexivity | rewrite map_app | rewrite map_for | rewrite map_when | rewrite tracked_app; apply andb_true_iff; split
  | apply tracked_for; intros | apply tracked_when | progress cbn [map forallb tracked andb] ]).

Lemma for_split {X} n m (f : nat -> list X) : m < n -> for_ 0 n f = for_ 0 m f ++ f m ++ for_ (S m) n f.
Proof.
  intros H. unfold for_. rewrite !Nat.sub_0_r. replace n with (m + (1 + (n - S m))) at 1 by lia.
  rewrite seq_app, flat_map_app. cbn [seq Nat.add flat_map]. reflexivity.
Qed.
Lemma fold_shifts cols n row k : fold_left (step_len cols)
  (for_ 0 k (fun col => [Do (Visit (VBond HORIZONTAL (row, col))); Do (ShiftE RIGHT)])) n = n - k.
Proof.
  unfold for_. rewrite Nat.sub_0_r. generalize 0 as a. revert n. induction k as [|k IH]; intros n a; [simpl; lia|].
  cbn [seq flat_map app fold_left step_len]. rewrite IH. lia.
Qed.

Section Tri.
Context (o : ops) (Rng : Type) (tps : sitps o) (ker : kernel o Rng) (rows cols : nat) (w : wst o Rng).
Hypothesis Hrows : rows_ (ctr w) = rows.
Hypothesis Hcols : cols_ (ctr w) = cols.
Hypothesis Hr : 1 <= rows.
Hypothesis Hc : 1 <= cols.

(** The part of row [row] before its first bond is traced again. *)
Definition row_head (row : nat) : list mstep :=
  map Do ([InitE LEFT row; GrowE RIGHT row 1 true; Query (Q1 HORIZONTAL (row, 0) 2)] ++
      for_ 0 (cols - 1) (fun col => [Visit (VBond HORIZONTAL (row, col)); ShiftE RIGHT])) ++
    when (row =? rows / 2)
      ([Put (row, cols / 4) true false; Do (TruncE LEFT (cols / 4 + 1)); GrowStep LEFT;
        Do (GrowE RIGHT row (cols / 4 + 2) false)] ++
       for_ 1 (cols / 2 + 1) (fun i => [Corr (row, cols / 4) (row, cols / 4 + i); Do (ShiftE RIGHT)]) ++
       [Put (row, cols / 4) false false]).
Definition row_tail (row : nat) : list mstep :=
  map Do (when (row <? rows - 1)
      ([InitE2 LEFT row; GrowE2 RIGHT row 2 true; Query (Q1 HORIZONTAL (row, 0) 2)] ++
       for_ 0 (cols - 1) (fun col =>
         [Visit (VDiag LEFTDOWN_TO_RIGHTUP (row, col))] ++ when (col + 2 <? cols) [ShiftE2 RIGHT row]) ++
       for_ 0 (cols - 1) (fun col => [Visit (VDiag LEFTUP_TO_RIGHTDOWN (row, col))]) ++
       [ShiftB DOWN])).
Lemma steps_eq : exists vert, tri_measure_steps rows cols =
  [Do (Generate UP)] ++ for_ 0 rows (fun row => row_head row ++ row_tail row) ++ vert.
Proof.
  eexists. unfold tri_measure_steps, row_head, row_tail. f_equal. f_equal.
  unfold for_. apply flat_map_ext. intros row. rewrite <- app_assoc. reflexivity.
Qed.
Lemma tracked_head row : forallb tracked (row_head row) = true.
Proof. unfold row_head. trk. Qed.
Lemma tracked_tail row : forallb tracked (row_tail row) = true.
Proof. unfold row_tail. trk. Qed.

(** Row [row] with another row below it: the second trace fails if the number of right boundary
    tensors is not the one that the first bond needs. *)
Lemma row_fails row : row + 1 < rows ->
  (forall n, let k := fold_left (step_len cols) (row_head row) n in k + 1 < cols \/ k = 0) ->
  exists f, mrun o tps ker (tri_measure_steps rows cols) w = Fail f.
Proof.
  intros Hrow HL. destruct steps_eq as [vert ->]. rewrite (for_split rows row) by lia.
  assert (ET : exists tl, row_tail row = [Do (InitE2 LEFT row); Do (GrowE2 RIGHT row 2 true)] ++ Do (Query (Q1 HORIZONTAL (row, 0) 2)) :: tl).
  { unfold row_tail. destruct (Nat.ltb_spec row (rows - 1)); [|lia]. cbn [when map app]. eauto. }
  destruct ET as [tl ET].
  assert (EA : exists post, [Do (Generate UP)] ++ (for_ 0 row (fun row => row_head row ++ row_tail row) ++
       (row_head row ++ row_tail row) ++ for_ (S row) rows (fun row => row_head row ++ row_tail row)) ++ vert =
       ([Do (Generate UP)] ++ for_ 0 row (fun row => row_head row ++ row_tail row) ++ row_head row ++
        [Do (InitE2 LEFT row); Do (GrowE2 RIGHT row 2 true)]) ++ Do (Query (Q1 HORIZONTAL (row, 0) 2)) :: post).
  { rewrite ET. eexists. rewrite <- !app_assoc. cbn [app]. reflexivity. }
  destruct EA as [post ->].
  apply fails_at.
  - rewrite !tracked_app, tracked_head. cbn [forallb tracked andb]. rewrite andb_true_r.
    apply tracked_for. intros i. rewrite tracked_app, tracked_head, tracked_tail. reflexivity.
  - lia.
  - intros w1 R C L. apply query_fails. rewrite C, Hcols. right. rewrite L, Hcols.
    rewrite !fold_left_app. cbn [fold_left step_len]. apply HL.
Qed.

Lemma head_len row n : row <> rows / 2 -> fold_left (step_len cols) (row_head row) n = 1.
Proof.
  intros Hm. unfold row_head. destruct (Nat.eqb_spec row (rows / 2)); [contradiction|]. cbn [when]. rewrite app_nil_r.
  rewrite map_app, fold_left_app, map_for. cbn [map].
  rewrite fold_shifts. cbn [fold_left step_len Nat.eqb]. lia.
Qed.
Lemma head_len_middle n : cols = 2 -> fold_left (step_len cols) (row_head (rows / 2)) n = 0.
Proof. intros E. unfold row_head. rewrite Nat.eqb_refl, E. reflexivity. Qed.

Lemma for_one {X} (f : nat -> list X) : for_ 0 1 f = f 0.
Proof. unfold for_. cbn. apply app_nil_r. Qed.
Lemma tri_measure_fails : exists f, mrun o tps ker (tri_measure_steps rows cols) w = Fail f.
Proof.
  destruct (le_lt_dec cols 1) as [C1|C2].
  { (* one column *)
    destruct steps_eq as [vert ->]. rewrite (for_split rows 0) by lia. unfold row_head at 2. cbn [map app for_ Nat.sub seq flat_map].
    match goal with |- exists f, mrun _ _ _ (?a :: ?b :: ?c :: ?x :: ?r) _ = _ =>
      change (a :: b :: c :: x :: r) with ([a; b; c] ++ x :: r) end.
    apply fails_at; [reflexivity|lia|]. intros w1 R C L. apply query_fails. lia. }
  destruct (le_lt_dec rows 1) as [R1|R2].
  { (* one row *)
    unfold tri_measure_steps. rewrite map_app, map_for. 
    destruct cols as [|c] eqn:EC; [lia|]. rewrite <- EC in *. rewrite (for_split cols 0) by lia. cbn [map app for_ Nat.sub seq flat_map].
    rewrite app_comm_cons. 
    match goal with |- exists f, mrun _ _ _ (?l ++ ?a :: ?b :: ?x :: ?r) _ = _ =>
      replace (l ++ a :: b :: x :: r) with ((l ++ [a; b]) ++ x :: r) by (rewrite <- app_assoc; reflexivity) end.
    apply fails_at.
    - trk.
    - lia.
    - intros w1 R C L. apply needs_fails; [reflexivity|lia|]. cbn [needs]. apply Nat.leb_gt. lia. }
  destruct (le_lt_dec 3 cols) as [C3|C3].
  { apply (row_fails 0); [lia|]. intros n. cbv zeta. rewrite head_len; [lia|].
    pose proof (Nat.div_le_mono 2 rows 2). intros E. rewrite <- E in H. cbn in H. lia. }
  assert (E2 : cols = 2) by lia.
  destruct (le_lt_dec 3 rows) as [R3|R3].
  { apply (row_fails (rows / 2)).
    - pose proof (Nat.div_mod_eq rows 2). pose proof (Nat.mod_upper_bound rows 2). lia.
    - intros n. cbv zeta. rewrite head_len_middle by exact E2. right. reflexivity. }
  (* two by two *)
  assert (E3 : rows = 2) by lia.
  unfold tri_measure_steps. rewrite E2, E3.
  match goal with |- exists f, mrun _ _ _ ?l _ = _ => set (prog := l) end.
  assert (EP : exists n, nth_error prog n = Some (Do (GrowE2 DOWN 0 3 true)) /\ forallb tracked prog = true).
  { exists 30. split; reflexivity. }
  destruct EP as (n & EN & ET). apply nth_error_split in EN. destruct EN as (l1 & l2 & EP & _). rewrite EP.
  rewrite EP, tracked_app in ET. apply andb_true_iff in ET. apply fails_at; [tauto|lia|].
  intros w1 R C L. apply needs_fails; [reflexivity|lia|]. cbn [needs]. apply Nat.leb_gt. lia.
Qed.
End Tri.

(** *** The energy evaluation on lattices with fewer than three rows *)
Lemma mrun_do o Rng tps ker l (w : wst o Rng) :
  mrun o tps ker (map Do l) w = (r <- run o tps ker l w ;; Ok (fst r, (snd r, []))).
Proof.
  revert w. induction l as [|x l IH]; intros w; [reflexivity|]. cbn [map mrun mexec run].
  destruct (exec o tps ker x w) as [[w1 g1]|f]; [|reflexivity]. cbn [bind fst snd]. rewrite IH.
  destruct (run o tps ker l w1) as [[w2 g2]|f]; reflexivity.
Qed.
Lemma tri_energy_two_rows o Rng tps ker holes rows cols (w : wst o Rng) :
  rows_ (ctr w) = rows -> cols_ (ctr w) = cols -> 2 <= cols -> rows <= 2 ->
  exists f, run o tps ker (tri_energy_and_holes holes rows cols) w = Fail f.
Proof.
  intros HR HCo HC Hr.
  assert (E : exists f, mrun o tps ker (map Do (tri_energy_and_holes holes rows cols)) w = Fail f).
  { unfold tri_energy_and_holes, tri_vertical. rewrite (for_split cols 0) by lia.
    destruct (Nat.ltb_spec 0 (cols - 1)); [|lia]. cbn [when].
    match goal with |- context [?h ++ [Generate LEFT] ++ ?e ++ (?a ++ ?b ++ ?c ++ ?d) ++ ?t] =>
      replace (h ++ [Generate LEFT] ++ e ++ (a ++ b ++ c ++ d) ++ t) with
       ((h ++ [Generate LEFT] ++ e ++ a ++ b ++ [InitE2 UP 0]) ++ GrowE2 DOWN 0 3 true :: (d ++ t)) end.
    2: { rewrite <- !app_assoc. cbn [app]. reflexivity. }
    rewrite map_app. cbn [map]. apply fails_at.
    - unfold tri_horizontal. trk.
    - lia.
    - intros w1 R C _. apply needs_fails; [reflexivity|lia|]. cbn [needs]. apply Nat.leb_gt. lia. }
  destruct E as [f E]. rewrite mrun_do in E. destruct (run o tps ker (tri_energy_and_holes holes rows cols) w) as [r|f']; [discriminate|eauto].
Qed.
