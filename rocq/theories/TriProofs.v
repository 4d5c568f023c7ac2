(** Traversal and local energy of the triangular J1-J2 model. *)
From Coq Require Import List Arith Lia Bool Reals Permutation Lra ZArith.
From Verif Require Import Base ContractorModel ContractorSpec ContractorProofs SweepModel SweepSpec SweepProofs
  HistoryProofs SweepMain UpdaterSpec UpdaterChain BlockChain Cplx EnergyModel EnergySpec EnergyProofs EnergySum EnergyMain
  EnergyModels TriModel TriSpec.
Import ListNotations.
Local Open Scope nat_scope.

(** *** The program runs with valid windows *)
Section Run.
Context (o : ops) (Rng : Type) (rows cols : nat) (tps : sitps o) (ker : kernel o Rng).
Hypothesis Hr : 3 <= rows.
Hypothesis Hc : 2 <= cols.
Let Hr1 : 1 <= rows. Proof. lia. Qed.
Let Hc1 : 1 <= cols. Proof. lia. Qed.
Local Notation J := (fun _ : wst o Rng => True).
Local Notation triple := (triple o Rng rows cols tps ker J).
Local Notation Jx := (fun _ _ _ _ _ _ => I).
Local Notation Ju := (fun _ _ _ _ _ _ _ _ _ _ _ _ _ _ _ => I).
Local Notation Js := (fun _ _ _ _ _ _ _ _ _ _ _ _ => conj I I).
Local Notation sH := (sH o Rng rows cols).
Local Notation sE2 := (sE2 o Rng rows cols).

Definition row_far (s : nat) : list cmd :=
  when (s <? rows - 1)
      ([InitE2 LEFT s; GrowE2 RIGHT s 2 true] ++
       for_ 0 (cols - 1) (fun col =>
         [Visit (VDiag LEFTDOWN_TO_RIGHTUP (s, col)); Visit (VDiag LEFTUP_TO_RIGHTDOWN (s, col))] ++
         when (col <? cols - 2) [Visit (VFar HORIZONTAL LEFTDOWN_TO_RIGHTUP (s, col))] ++
         [ShiftE2 RIGHT s])).
Definition col_far (s : nat) : list cmd :=
  when (s <? cols - 1)
      ([InitE2 UP s; GrowE2 DOWN s 3 true] ++
       for_ 0 (rows - 2) (fun row =>
         [Visit (VFar VERTICAL LEFTDOWN_TO_RIGHTUP (row, s))] ++
         when (row + 3 <? rows) [ShiftE2 DOWN s])).

Lemma t_row_far s : triple (sH HORIZONTAL s) (row_far s) (sH HORIZONTAL s).
Proof.
  unfold row_far. apply triple_when; [|auto]. intros E. apply Nat.ltb_lt in E. cbn [app].
  eapply triple_cons; [apply (t_init_e2 o Rng rows cols tps ker Hr1 Hc1 J Jx Ju Js HORIZONTAL); simpl; lia|].
  eapply triple_cons; [apply (t_grow_e2 o Rng rows cols tps ker Hr1 Hc1 J Jx Ju Js HORIZONTAL); simpl; lia|].
  simpl (ContractorModel.wid _ _ _).
  eapply triple_weaken with (P' := sE2 HORIZONTAL s (S 0) (cols - 1 - 0))
    (Q' := sE2 HORIZONTAL s (S (cols - 1)) (cols - 1 - (cols - 1))).
  2:{ intros w. replace (cols - 1 - 0) with (S (cols - 2)) by lia. auto. }
  2:{ intros w HE. apply HE. }
  apply (triple_for o Rng rows cols tps ker Hr1 Hc1 J (fun i => sE2 HORIZONTAL s (S i) (cols - 1 - i))); [lia|].
  intros i Hi.
  eapply triple_cons; [apply t_visit, (t_query2 o Rng rows cols tps ker Hr1 Hc1 J Ju Js HORIZONTAL); simpl; lia|].
  eapply triple_cons; [apply t_visit, (t_query2 o Rng rows cols tps ker Hr1 Hc1 J Ju Js HORIZONTAL); simpl; lia|].
  cbn [app]. eapply triple_app.
  - apply triple_when; [|intros _ w HE; exact HE]. intros E2. apply Nat.ltb_lt in E2.
    apply t_visit, (t_query2 o Rng rows cols tps ker Hr1 Hc1 J Ju Js HORIZONTAL); simpl; lia.
  - replace (cols - 1 - i) with (S (cols - 1 - (i + 1))) by lia. rewrite Nat.add_1_r.
    apply (t_shift_e2 o Rng rows cols tps ker Hr1 Hc1 J Jx Ju Js HORIZONTAL); simpl; lia.
Qed.

Lemma t_col_far s : triple (sH VERTICAL s) (col_far s) (sH VERTICAL s).
Proof.
  unfold col_far. apply triple_when; [|auto]. intros E. apply Nat.ltb_lt in E. cbn [app].
  eapply triple_cons; [apply (t_init_e2 o Rng rows cols tps ker Hr1 Hc1 J Jx Ju Js VERTICAL); simpl; lia|].
  eapply triple_cons; [apply (t_grow_e2 o Rng rows cols tps ker Hr1 Hc1 J Jx Ju Js VERTICAL); simpl; lia|].
  simpl (ContractorModel.wid _ _ _).
  eapply triple_weaken with (P' := sE2 VERTICAL s (S (min 0 (rows - 3))) (S (rows - 3 - min 0 (rows - 3))))
    (Q' := sE2 VERTICAL s (S (min (rows - 2) (rows - 3))) (S (rows - 3 - min (rows - 2) (rows - 3)))).
  2:{ intros w. rewrite Nat.min_l, Nat.sub_0_r by lia. auto. }
  2:{ intros w HE. apply HE. }
  apply (triple_for o Rng rows cols tps ker Hr1 Hc1 J (fun i => sE2 VERTICAL s (S (min i (rows - 3))) (S (rows - 3 - min i (rows - 3))))); [lia|].
  intros i Hi. rewrite (Nat.min_l i) by lia.
  eapply triple_cons; [apply t_visit, (t_query2 o Rng rows cols tps ker Hr1 Hc1 J Ju Js VERTICAL); simpl; lia|].
  apply triple_when.
  - intros E2. apply Nat.ltb_lt in E2. replace (min (i + 1) (rows - 3)) with (S i) by lia.
    replace (rows - 3 - i) with (S (rows - 3 - S i)) by lia.
    apply (t_shift_e2 o Rng rows cols tps ker Hr1 Hc1 J Jx Ju Js VERTICAL); simpl; lia.
  - intros E2 w. apply Nat.ltb_ge in E2. replace (min (i + 1) (rows - 3)) with i by lia. auto.
Qed.

Lemma tri_horizontal_part holes : tri_horizontal holes rows cols =
  part rows cols HORIZONTAL (fun s => row_read cols holes s ++ row_far s).
Proof.
  unfold tri_horizontal, part. cbn [side1 side2 opposite]. simpl (ContractorModel.nsl _ _ _). f_equal.
  apply for_ext. intros s. unfold row_read, row_far. cbn [app].
  rewrite <- ?app_assoc. cbn [app]. do 3 f_equal. rewrite <- ?app_assoc. f_equal.
  destruct (s <? rows - 1); cbn [when app]; [|reflexivity]. reflexivity.
Qed.
Lemma tri_vertical_part : tri_vertical rows cols = part rows cols VERTICAL (fun s => col_read rows s ++ col_far s).
Proof.
  unfold tri_vertical, part. cbn [side1 side2 opposite]. simpl (ContractorModel.nsl _ _ _). f_equal.
  apply for_ext. intros s. unfold col_read, col_far. cbn [app].
  rewrite <- ?app_assoc. cbn [app]. do 3 f_equal. rewrite <- ?app_assoc. f_equal.
  destruct (s <? cols - 1); cbn [when app]; [|reflexivity]. reflexivity.
Qed.
Lemma t_tri holes : triple (sG o Rng rows cols) (tri_energy_and_holes holes rows cols) (sG o Rng rows cols).
Proof.
  unfold tri_energy_and_holes. rewrite tri_horizontal_part, tri_vertical_part.
  eapply triple_app; apply t_slices; auto; intros s Hs; eapply triple_app.
  - apply (t_row_read o Rng rows cols tps ker Hr1 Hc1 J Jx Ju Js); auto.
  - apply t_row_far.
  - apply (t_col_read o Rng rows cols tps ker Hr1 Hc1 J Jx Ju Js); lia.
  - apply t_col_far.
Qed.
End Run.

Lemma tri_run_ok o Rng rows cols tps ker holes : 3 <= rows -> 2 <= cols ->
  run_ok o Rng rows cols tps ker (tri_energy_and_holes holes rows cols).
Proof. intros Hr Hc. apply triple_run_ok. apply t_tri; auto. Qed.

(** *** The visits *)
Definition tri_calls (holes : bool) (rows cols : nat) : list visit :=
  for_ 0 rows (fun row =>
    for_ 0 cols (fun col => when holes [VHole (row, col)] ++ when (col <? cols - 1) [VBond HORIZONTAL (row, col)]) ++
    when (row <? rows - 1) (for_ 0 (cols - 1) (fun col =>
      VDiag LEFTDOWN_TO_RIGHTUP (row, col) :: VDiag LEFTUP_TO_RIGHTDOWN (row, col) ::
      when (col <? cols - 2) [VFar HORIZONTAL LEFTDOWN_TO_RIGHTUP (row, col)]))) ++
  for_ 0 cols (fun col =>
    for_ 0 (rows - 1) (fun row => [VBond VERTICAL (row, col)]) ++
    when (col <? cols - 1) (for_ 0 (rows - 2) (fun row => [VFar VERTICAL LEFTDOWN_TO_RIGHTUP (row, col)]))).
Definition tri_visit (holes : bool) (rows cols : nat) (v : visit) : Prop :=
  match v with
  | VBond d s => window_in rows cols d s 2
  | VDiag _ s => fst s + 1 < rows /\ snd s + 1 < cols
  | VFar HORIZONTAL LEFTDOWN_TO_RIGHTUP s => fst s + 1 < rows /\ snd s + 2 < cols
  | VFar VERTICAL LEFTDOWN_TO_RIGHTUP s => fst s + 2 < rows /\ snd s + 1 < cols
  | VHole s => holes = true /\ fst s < rows /\ snd s < cols
  | VFar _ _ _ | VSite _ => False
  end.

Lemma visits_tri holes rows cols : visits (tri_energy_and_holes holes rows cols) = tri_calls holes rows cols.
Proof.
  unfold tri_energy_and_holes, tri_horizontal, tri_vertical, tri_calls. prog.
  f_equal; apply for_ext_in; intros i Hi; prog; f_equal.
  - apply for_ext_in; intros j Hj; prog. reflexivity.
  - f_equal. apply for_ext_in; intros j Hj; prog. reflexivity.
  - apply for_ext_in; intros j Hj; prog. reflexivity.
  - f_equal. apply for_ext_in; intros j Hj; prog. reflexivity.
Qed.

Lemma tri_calls_in holes rows cols v : In v (tri_calls holes rows cols) <-> tri_visit holes rows cols v.
Proof.
  unfold tri_calls. rewrite in_app_iff, !in_for. split.
  - intros [(i & Hi & H)|(i & Hi & H)]; apply in_app_or in H; destruct H as [H|H].
    + apply in_for in H. destruct H as (j & Hj & H). apply in_app_or in H.
      destruct H as [H|H]; apply in_when in H; destruct H as [Hb [<-|[]]]; simpl; [tauto|]. apply Nat.ltb_lt in Hb. lia.
    + apply in_when in H. destruct H as [Hb H]. apply Nat.ltb_lt in Hb. apply in_for in H.
      destruct H as (j & Hj & [<-|[<-|H]]); simpl; try lia. apply in_when in H. destruct H as [H2 [<-|[]]].
      apply Nat.ltb_lt in H2. simpl. lia.
    + apply in_for in H. destruct H as (j & Hj & [<-|[]]). simpl. lia.
    + apply in_when in H. destruct H as [Hb H]. apply Nat.ltb_lt in Hb. apply in_for in H.
      destruct H as (j & Hj & [<-|[]]). simpl. lia.
  - destruct v as [d [r c]|g [r c]|d g [r c]|[r c]|x]; simpl; intros H.
    + destruct d; unfold window_in in H; simpl in H.
      * left. exists r. split; [lia|]. apply in_or_app. left. apply in_for. exists c. split; [lia|].
        apply in_or_app. right. apply in_when. split; [apply Nat.ltb_lt; lia|left; reflexivity].
      * right. exists c. split; [lia|]. apply in_or_app. left. apply in_for. exists r. split; [lia|left; reflexivity].
    + left. exists r. split; [lia|]. apply in_or_app. right. apply in_when. split; [apply Nat.ltb_lt; lia|].
      apply in_for. exists c. split; [lia|]. destruct g; simpl; auto.
    + destruct d, g; try contradiction; simpl in H.
      * left. exists r. split; [lia|]. apply in_or_app. right. apply in_when. split; [apply Nat.ltb_lt; lia|].
        apply in_for. exists c. split; [lia|]. right. right. apply in_when. split; [apply Nat.ltb_lt; lia|left; reflexivity].
      * right. exists c. split; [lia|]. apply in_or_app. right. apply in_when. split; [apply Nat.ltb_lt; lia|].
        apply in_for. exists r. split; [lia|left; reflexivity].
    + left. exists r. split; [lia|]. apply in_or_app. left. apply in_for. exists c. split; [lia|].
      apply in_or_app. left. apply in_when. split; [tauto|left; reflexivity].
    + contradiction.
Qed.

Lemma tri_calls_nodup holes rows cols : NoDup (tri_calls holes rows cols).
Proof.
  unfold tri_calls. apply NoDup_app_intro.
  - apply nodup_for.
    + intros i _. apply NoDup_app_intro.
      * apply nodup_for.
        -- intros j _. apply NoDup_app_intro; try (apply nodup_when; constructor; [intros []|constructor]).
           intros x H1 H2. apply in_when in H1, H2. destruct H1 as [_ [<-|[]]], H2 as [_ [E|[]]]. discriminate.
        -- intros a b x H1 H2.
           assert (C : forall j, In x (when holes [VHole (i, j)] ++ when (j <? cols - 1) [VBond HORIZONTAL (i, j)]) -> j = col_of x).
           { intros j H. apply in_app_or in H. destruct H as [H|H]; apply in_when in H;
             destruct H as [_ [<-|[]]]; reflexivity. }
           rewrite (C a H1), (C b H2). reflexivity.
      * apply nodup_when, nodup_for.
        -- intros j _. constructor.
           { intros [E|E]; [discriminate|]. apply in_when in E. destruct E as [_ [E|[]]]. discriminate. }
           constructor.
           { intros E. apply in_when in E. destruct E as [_ [E|[]]]. discriminate. }
           apply nodup_when. constructor; [intros []|constructor].
        -- intros a b x H1 H2.
           assert (C : forall j, In x (VDiag LEFTDOWN_TO_RIGHTUP (i, j) :: VDiag LEFTUP_TO_RIGHTDOWN (i, j) ::
              when (j <? cols - 2) [VFar HORIZONTAL LEFTDOWN_TO_RIGHTUP (i, j)]) -> j = col_of x).
           { intros j [<-|[<-|H]]; try reflexivity. apply in_when in H. destruct H as [_ [<-|[]]]. reflexivity. }
           rewrite (C a H1), (C b H2). reflexivity.
      * intros x H1 H2. apply in_for in H1. destruct H1 as (j & _ & H1). apply in_when in H2.
        destruct H2 as [_ H2]. apply in_for in H2. destruct H2 as (k & _ & H2).
        apply in_app_or in H1. destruct H1 as [H1|H1]; apply in_when in H1; destruct H1 as [_ [<-|[]]];
        destruct H2 as [E|[E|E]]; try discriminate; apply in_when in E; destruct E as [_ [E|[]]]; discriminate.
    + intros a b x H1 H2.
      assert (C : forall j, In x (for_ 0 cols (fun col => when holes [VHole (j, col)] ++
                            when (col <? cols - 1) [VBond HORIZONTAL (j, col)]) ++
         when (j <? rows - 1) (for_ 0 (cols - 1) (fun col =>
         VDiag LEFTDOWN_TO_RIGHTUP (j, col) :: VDiag LEFTUP_TO_RIGHTDOWN (j, col) ::
         when (col <? cols - 2) [VFar HORIZONTAL LEFTDOWN_TO_RIGHTUP (j, col)]))) -> j = row_of x).
      { intros j H. apply in_app_or in H. destruct H as [H|H].
        - apply in_for in H. destruct H as (k & _ & H). apply in_app_or in H.
          destruct H as [H|H]; apply in_when in H; destruct H as [_ [<-|[]]]; reflexivity.
        - apply in_when in H. destruct H as [_ H]. apply in_for in H.
          destruct H as (k & _ & [<-|[<-|H]]); try reflexivity.
          apply in_when in H. destruct H as [_ [<-|[]]]. reflexivity. }
      rewrite (C a H1), (C b H2). reflexivity.
  - apply nodup_for.
    + intros i _. apply NoDup_app_intro.
      * apply nodup_for; [intros; constructor; [intros []|constructor]|].
        intros a b x [<-|[]] [E|[]]. inversion E; auto.
      * apply nodup_when, nodup_for; [intros; constructor; [intros []|constructor]|].
        intros a b x [<-|[]] [E|[]]. inversion E; auto.
      * intros x H1 H2. apply in_for in H1. destruct H1 as (j & _ & [<-|[]]). apply in_when in H2.
        destruct H2 as [_ H2]. apply in_for in H2. destruct H2 as (k & _ & [E|[]]). discriminate.
    + intros i j x H1 H2.
      assert (C : forall j, In x (for_ 0 (rows - 1) (fun row => [VBond VERTICAL (row, j)]) ++
        when (j <? cols - 1) (for_ 0 (rows - 2) (fun row => [VFar VERTICAL LEFTDOWN_TO_RIGHTUP (row, j)]))) -> j = col_of x).
      { intros k H. apply in_app_or in H. destruct H as [H|H].
        - apply in_for in H. destruct H as (a & _ & [<-|[]]). reflexivity.
        - apply in_when in H. destruct H as [_ H]. apply in_for in H. destruct H as (a & _ & [<-|[]]). reflexivity. }
      rewrite (C i H1), (C j H2). reflexivity.
  - intros x H1 H2.
    assert (A : match x with VBond HORIZONTAL _ | VDiag _ _ | VFar HORIZONTAL _ _ | VHole _ => True | _ => False end).
    { apply in_for in H1. destruct H1 as (i & _ & H1). apply in_app_or in H1. destruct H1 as [H1|H1].
      - apply in_for in H1. destruct H1 as (j & _ & H1). apply in_app_or in H1.
        destruct H1 as [H1|H1]; apply in_when in H1; destruct H1 as [_ [<-|[]]]; exact I.
      - apply in_when in H1. destruct H1 as [_ H1]. apply in_for in H1.
        destruct H1 as (j & _ & [<-|[<-|H1]]); try exact I. apply in_when in H1. destruct H1 as [_ [<-|[]]]; exact I. }
    apply in_for in H2. destruct H2 as (i & _ & H2). apply in_app_or in H2. destruct H2 as [H2|H2].
    + apply in_for in H2. destruct H2 as (j & _ & [<-|[]]). exact A.
    + apply in_when in H2. destruct H2 as [_ H2]. apply in_for in H2. destruct H2 as (j & _ & [<-|[]]). exact A.
Qed.

Lemma tri_calls_visit_in holes rows cols v : In v (tri_calls holes rows cols) -> visit_in rows cols v.
Proof.
  intros H. apply tri_calls_in in H. unfold visit_in.
  destruct v as [d s|g s|[] [] s|s|s]; simpl in *; try contradiction; try lia. exact H.
Qed.

(** Nearest and next-nearest pairs. *)
Definition is_j1 (v : visit) : bool :=
  match v with VBond _ _ | VDiag LEFTDOWN_TO_RIGHTUP _ => true | _ => false end.
Definition is_j2 (v : visit) : bool :=
  match v with VDiag LEFTUP_TO_RIGHTDOWN _ | VFar _ _ _ => true | _ => false end.

Lemma square_cases (x : Z) : (x * x <= 4 -> x = -2 \/ x = -1 \/ x = 0 \/ x = 1 \/ x = 2)%Z.
Proof. intros H. assert (-2 <= x <= 2)%Z by nia. lia. Qed.
Lemma small_sides (x y : Z) : (x * x + x * y + y * y <= 3 -> x * x <= 4 /\ y * y <= 4)%Z.
Proof.
  intros H. pose proof (Z.square_nonneg (x + 2 * y)) as A. pose proof (Z.square_nonneg (2 * x + y)) as B.
  assert (E : (4 * (x * x + x * y + y * y) = (x + 2 * y) * (x + 2 * y) + 3 * (x * x))%Z) by ring.
  assert (F : (4 * (x * x + x * y + y * y) = (2 * x + y) * (2 * x + y) + 3 * (y * y))%Z) by ring.
  split; lia.
Qed.

Lemma near_pairs_iff a b : at_distance2 1 a b = true <->
  (fst b = fst a /\ snd b = snd a + 1) \/ (fst b = fst a + 1 /\ snd b = snd a) \/ (fst a = fst b + 1 /\ snd b = snd a + 1).
Proof.
  destruct a as [r c], b as [r' c']. unfold at_distance2, before, distance2. simpl.
  rewrite andb_true_iff, orb_true_iff, andb_true_iff, !Nat.ltb_lt, Nat.eqb_eq, Z.eqb_eq. split.
  - intros [B D].
    remember (Z.of_nat c' - Z.of_nat c)%Z as x. remember (Z.of_nat r' - Z.of_nat r)%Z as y.
    destruct (small_sides x y) as [X Y]; [lia|].
    destruct (square_cases x X) as [E|[E|[E|[E|E]]]], (square_cases y Y) as [F|[F|[F|[F|F]]]];
      rewrite E, F in D; try discriminate D; lia.
  - intros [[-> ->]|[[-> ->]|[-> ->]]].
    + split; [lia|]. replace (Z.of_nat (c + 1) - Z.of_nat c)%Z with 1%Z by lia. replace (Z.of_nat r - Z.of_nat r)%Z with 0%Z by lia. reflexivity.
    + split; [lia|]. replace (Z.of_nat (r + 1) - Z.of_nat r)%Z with 1%Z by lia. replace (Z.of_nat c - Z.of_nat c)%Z with 0%Z by lia. reflexivity.
    + split; [lia|]. replace (Z.of_nat (c + 1) - Z.of_nat c)%Z with 1%Z by lia.
      replace (Z.of_nat r' - Z.of_nat (r' + 1))%Z with (-1)%Z by lia. reflexivity.
Qed.
Lemma far_pairs_iff a b : at_distance2 3 a b = true <->
  (fst b = fst a + 1 /\ snd b = snd a + 1) \/ (fst a = fst b + 1 /\ snd b = snd a + 2) \/ (fst a = fst b + 2 /\ snd b = snd a + 1).
Proof.
  destruct a as [r c], b as [r' c']. unfold at_distance2, before, distance2. simpl.
  rewrite andb_true_iff, orb_true_iff, andb_true_iff, !Nat.ltb_lt, Nat.eqb_eq, Z.eqb_eq. split.
  - intros [B D].
    remember (Z.of_nat c' - Z.of_nat c)%Z as x. remember (Z.of_nat r' - Z.of_nat r)%Z as y.
    destruct (small_sides x y) as [X Y]; [lia|].
    destruct (square_cases x X) as [E|[E|[E|[E|E]]]], (square_cases y Y) as [F|[F|[F|[F|F]]]];
      rewrite E, F in D; try discriminate D; lia.
  - intros [[-> ->]|[[-> ->]|[-> ->]]].
    + split; [lia|]. replace (Z.of_nat (c + 1) - Z.of_nat c)%Z with 1%Z by lia. replace (Z.of_nat (r + 1) - Z.of_nat r)%Z with 1%Z by lia. reflexivity.
    + split; [lia|]. replace (Z.of_nat (c + 2) - Z.of_nat c)%Z with 2%Z by lia. replace (Z.of_nat r' - Z.of_nat (r' + 1))%Z with (-1)%Z by lia. reflexivity.
    + split; [lia|]. replace (Z.of_nat (c + 1) - Z.of_nat c)%Z with 1%Z by lia.
      replace (Z.of_nat r' - Z.of_nat (r' + 2))%Z with (-2)%Z by lia. reflexivity.
Qed.

Lemma j1_pairs_gen rows cols L : NoDup L ->
  (forall v, is_j1 v = true -> In v L <-> tri_visit false rows cols v) ->
  Permutation (map ends (filter is_j1 L)) (pairs rows cols (at_distance2 1)).
Proof.
  intros ND HL. apply NoDup_Permutation.
  - apply nodup_map_in; [apply NoDup_filter, ND|].
    intros a b Ha Hb E. apply filter_In in Ha, Hb. destruct Ha as [_ Ha], Hb as [_ Hb].
    destruct a as [[] [r c]|[] [r c]| | |], b as [[] [r' c']|[] [r' c']| | |]; try discriminate;
    unfold ends in E; simpl in E; inversion E; try lia; repeat f_equal; lia.
  - apply pairs_nodup.
  - intros [a b]. rewrite in_map_iff, pairs_in, near_pairs_iff. split.
    + intros (v & E & Hv). apply filter_In in Hv. destruct Hv as [Hv Hb]. apply HL in Hv; [|exact Hb].
      destruct v as [[] [r c]|[] [r c]| | |]; try discriminate; unfold ends in E; simpl in *; inversion E; subst; simpl; lia.
    + destruct a as [r c], b as [r' c']; simpl. intros (A & B & N). destruct N as [[-> ->]|[[-> ->]|[-> ->]]].
      * exists (VBond HORIZONTAL (r, c)). split; [unfold ends; simpl; repeat f_equal; lia|].
        apply filter_In. split; [apply HL; [reflexivity|simpl; lia]|reflexivity].
      * exists (VBond VERTICAL (r, c)). split; [unfold ends; simpl; repeat f_equal; lia|].
        apply filter_In. split; [apply HL; [reflexivity|simpl; lia]|reflexivity].
      * exists (VDiag LEFTDOWN_TO_RIGHTUP (r', c)). split; [unfold ends; simpl; repeat f_equal; lia|].
        apply filter_In. split; [apply HL; [reflexivity|simpl; lia]|reflexivity].
Qed.
Lemma j1_pairs holes rows cols :
  Permutation (map ends (filter is_j1 (tri_calls holes rows cols))) (pairs rows cols (at_distance2 1)).
Proof.
  apply j1_pairs_gen; [apply tri_calls_nodup|]. intros v Hv. rewrite tri_calls_in.
  destruct v as [| | | |]; try discriminate; reflexivity.
Qed.
Lemma j1_pairs_nn holes rows cols :
  Permutation (map ends (filter is_j1 (calls holes true rows cols))) (pairs rows cols (at_distance2 1)).
Proof.
  apply j1_pairs_gen; [apply calls_nodup|]. intros v Hv. rewrite calls_in.
  destruct v as [| | | |]; try discriminate; simpl; tauto.
Qed.
Lemma j2_pairs holes rows cols :
  Permutation (map ends (filter is_j2 (tri_calls holes rows cols))) (pairs rows cols (at_distance2 3)).
Proof.
  apply NoDup_Permutation.
  - apply nodup_map_in; [apply NoDup_filter, tri_calls_nodup|].
    intros a b Ha Hb E. apply filter_In in Ha, Hb. destruct Ha as [Ia Ha], Hb as [Ib Hb]. apply tri_calls_in in Ia, Ib.
    destruct a as [|[] [r c]|[] [] [r c]| |], b as [|[] [r' c']|[] [] [r' c']| |]; try discriminate; try contradiction;
    unfold ends in E; simpl in E; inversion E; try lia; repeat f_equal; lia.
  - apply pairs_nodup.
  - intros [a b]. rewrite in_map_iff, pairs_in, far_pairs_iff. split.
    + intros (v & E & Hv). apply filter_In in Hv. destruct Hv as [Hv Hb]. apply tri_calls_in in Hv.
      destruct v as [|[] [r c]|[] [] [r c]| |]; try discriminate; try contradiction;
      unfold ends in E; simpl in *; inversion E; subst; simpl; lia.
    + destruct a as [r c], b as [r' c']; simpl. intros (A & B & N). destruct N as [[-> ->]|[[-> ->]|[-> ->]]].
      * exists (VDiag LEFTUP_TO_RIGHTDOWN (r, c)). split; [unfold ends; simpl; repeat f_equal; lia|].
        apply filter_In. split; [apply tri_calls_in; simpl; lia|reflexivity].
      * exists (VFar HORIZONTAL LEFTDOWN_TO_RIGHTUP (r', c)). split; [unfold ends; simpl; repeat f_equal; lia|].
        apply filter_In. split; [apply tri_calls_in; simpl; lia|reflexivity].
      * exists (VFar VERTICAL LEFTDOWN_TO_RIGHTUP (r', c)). split; [unfold ends; simpl; repeat f_equal; lia|].
        apply filter_In. split; [apply tri_calls_in; simpl; lia|reflexivity].
Qed.

(** *** The program, its traces and its terms *)
Lemma pure_tri holes rows cols : forallb pure_cmd (tri_energy_and_holes holes rows cols) = true.
Proof. unfold tri_energy_and_holes, tri_horizontal, tri_vertical. rewrite pure_app. apply andb_true_iff; split; pure. Qed.
Lemma queries_tri holes rows cols q : In q (queries (tri_energy_and_holes holes rows cols)) -> first_bond rows cols q.
Proof.
  unfold tri_energy_and_holes, tri_horizontal, tri_vertical. intros H. rewrite !queries_app, !in_app_iff in H.
  destruct H as [[[]|H]|[[]|H]]; apply queries_for in H; destruct H as (i & Hi & H);
  rewrite !queries_app, !in_app_iff in H; destruct H as [H|[H|H]].
  - cbn in H. destruct H as [<-|[]]. left. exists i. split; [lia|reflexivity].
  - apply queries_for in H. destruct H as (j & _ & H). rewrite queries_app, in_app_iff, !queries_when in H.
    destruct H as [[_ []]|[_ []]].
  - apply queries_when in H. destruct H as [_ H]. rewrite !queries_app, !in_app_iff in H. destruct H as [[]|[H|[]]].
    apply queries_for in H. destruct H as (j & _ & H). rewrite !queries_app, !in_app_iff, !queries_when in H.
    destruct H as [[]|[[_ []]|[]]].
  - cbn in H. destruct H as [<-|[]]. right. exists i. split; [lia|reflexivity].
  - apply queries_for in H. destruct H as (j & _ & H). rewrite queries_app, in_app_iff, !queries_when in H.
    destruct H as [[]|[_ []]].
  - apply queries_when in H. destruct H as [_ H]. rewrite !queries_app, !in_app_iff in H. destruct H as [[]|[H|[]]].
    apply queries_for in H. destruct H as (j & _ & H). rewrite !queries_app, !in_app_iff, !queries_when in H.
    destruct H as [[]|[_ []]].
Qed.
Lemma tri_traced_first holes rows cols : 1 <= rows -> traced_first (tri_energy_and_holes holes rows cols).
Proof.
  intros H. unfold tri_energy_and_holes. apply traced_first_app. unfold tri_horizontal, for_. rewrite Nat.sub_0_r.
  destruct rows as [|rows]; [lia|]. cbn [seq flat_map app].
  eexists [Generate UP; InitE LEFT 0; GrowE RIGHT 0 1 true], _, _. split; [cbn [app]; reflexivity|split; reflexivity].
Qed.

Definition tri_h (j2 : R) (v : visit) : operator := if is_j1 v then xxz_bond 1 1 else xxz_bond j2 j2.
Lemma tri_term j2 v : is_j1 v || is_j2 v = true -> term 2 (tri_j1j2_model j2) v (tri_h j2 v) true.
Proof.
  intros Hv cs inv T Hcs HT Hi. unfold tri_h.
  destruct v as [d s|[] s|d [] s|s|s]; try discriminate; cbn [m_visit tri_j1j2_model is_j1] in *;
  apply xxz_term_ok; auto.
Qed.
Definition tri_nn_h (v : visit) : operator := if is_j1 v then xxz_bond 1 1 else fun _ _ => RtoC 0.
Lemma tri_nn_term v : is_bond v || is_diag v = true -> term 2 tri_nn_model v (tri_nn_h v) true.
Proof.
  intros Hv cs inv T Hcs HT Hi. unfold tri_nn_h.
  destruct v as [d s|[] s|d g s|s|s]; try discriminate; cbn [m_visit tri_nn_model is_j1] in *;
  try (apply xxz_term_ok; auto; fail).
  rewrite sumC_zero by (intros x _; ring). f_equal. unfold Cdiv. rewrite Cconj_mul, Cconj_R. ring.
Qed.
Lemma xxz_scal j cs ns : xxz_bond j j cs ns = op_scal j (xxz_bond 1 1) cs ns.
Proof. unfold xxz_bond, op_add, op_scal. apply C_ext; simpl; ring. Qed.
Lemma places_ends_far cols v : is_j1 v || is_j2 v = true -> places cols v = [index cols (fst (ends v)); index cols (snd (ends v))].
Proof. destruct v as [d s|[] s|[] [] s|s|s]; intros H; try discriminate; reflexivity. Qed.
Lemma split_tri f holes rows cols :
  sumC f (filter (fun v => negb (is_hole v)) (tri_calls holes rows cols)) =
  (sumC f (filter is_j1 (tri_calls holes rows cols)) + sumC f (filter is_j2 (tri_calls holes rows cols)))%C.
Proof.
  rewrite <- !sumC_filter, <- sumC_add. apply sumC_ext. intros v Hv. apply tri_calls_in in Hv.
  destruct v as [d s|[] s|[] [] s|s|s]; simpl in *; try contradiction; ring.
Qed.

Section Energy.
Context (o : ops) (val : Amp o -> C) (Rng : Type) (rows cols : nat) (tps : sitps o) (ker : kernel o Rng) (psi : net o -> Amp o).
Context (w : wst o Rng).
Notation Psi := (wave o val cols psi tps).
Notation S0 := (flat rows cols (cfg w)).
Hypothesis Hc : 2 <= cols.
Hypothesis H1 : contraction_consistent o rows cols psi.
Hypothesis H2 : contraction_consistent2 o rows cols psi.
Hypothesis Hw : ready o rows cols w.
Hypothesis HP : projected o rows cols tps (cfg w) (tn w).
Hypothesis HS : all_states rows cols (fun x => x < 2) (cfg w).
Hypothesis HZ : Psi S0 <> RtoC 0.

Lemma tri_energy_local j2 holes : 3 <= rows ->
  exists w' r, tri_j1j2 val j2 holes tps ker rows cols w = Ok (w', r) /\
    e_total r = local_energy 2 (rows * cols) (H_triangular rows cols j2) Psi S0 /\
    e_holes r = flat_map (hole_at o rows cols (tn w)) (tri_calls holes rows cols) /\
    Forall (fun z => z = Psi S0) (e_psis r) /\
    ready o rows cols w' /\ cfg w' = cfg w /\ tn w' = tn w /\ amp w' = amp w /\ rng w' = rng w.
Proof.
  intros Hr. assert (Hr2 : 2 <= rows) by lia.
  destruct (energy_of_sum o val Rng rows cols tps ker (tri_j1j2_model j2) false 2 (tri_energy_and_holes holes rows cols)
     (tri_h j2) true (RtoC 0) w) as (w' & E & R); auto.
  - apply pure_tri.
  - apply tri_run_ok; auto.
  - intros _. apply tri_traced_first. lia.
  - intros v Hv. rewrite visits_tri in Hv. eapply tri_calls_visit_in; eauto.
  - intros v Hv Hh. rewrite visits_tri in Hv. apply tri_calls_in in Hv. apply tri_term.
    destruct v as [d s|[] s|[] [] s|s|s]; simpl in Hv; try contradiction; try discriminate; reflexivity.
  - intros q Hq. rewrite (first_bond_psi o val Rng rows cols tps psi); auto. eapply queries_tri; eauto.
  - intros v Hv Hh. rewrite visits_tri in Hv. rewrite (visit_psi o val Rng rows cols tps psi); auto. eapply tri_calls_visit_in; eauto.
  - intros _ q v Hq Hv Hh. rewrite visits_tri in Hv.
    rewrite (first_bond_psi o val Rng rows cols tps psi); auto; [|eapply queries_tri; eauto].
    apply visit_psi; auto. eapply tri_calls_visit_in; eauto.
  - exists w'. eexists. split; [exact E|]. cbn [e_total e_holes e_psis]. rewrite visits_tri. split.
    + unfold H_triangular. rewrite local_energy_add, local_energy_scal, !local_energy_sum, split_tri.
      assert (Z : forall z, (z + RtoC 0)%C = z) by (intros z; ring). rewrite Z. f_equal.
      * rewrite <- (sumC_perm _ _ _ (j1_pairs holes rows cols)), sumC_map. apply sumC_ext.
        intros v Hv. apply filter_In in Hv. destruct Hv as [Hv Hb].
        rewrite (visit_energy_local o val rows cols tps psi) by (eauto using tri_calls_visit_in; lia).
        unfold tri_h. rewrite Hb. rewrite places_ends_far by (rewrite Hb; reflexivity). reflexivity.
      * rewrite <- (sumC_perm _ _ _ (j2_pairs holes rows cols)), sumC_map, <- sumC_scal. apply sumC_ext.
        intros v Hv. apply filter_In in Hv. destruct Hv as [Hv Hb].
        rewrite (visit_energy_local o val rows cols tps psi) by (eauto using tri_calls_visit_in; lia).
        assert (Hj : is_j1 v = false) by (destruct v as [| [] | | |]; try discriminate; reflexivity).
        unfold tri_h. rewrite Hj. rewrite places_ends_far by (rewrite Hb, orb_true_r; reflexivity).
        rewrite <- local_energy_scal. apply local_energy_ext. intros S' _. unfold on_sites, op_scal.
        destruct (agree_off _ _ _); [apply xxz_scal|ring].
    + split; [reflexivity|]. split; [|exact R]. apply Forall_forall. intros z Hz. apply in_map_iff in Hz.
      destruct Hz as (q & <- & Hq). apply first_bond_psi; auto. eapply queries_tri; eauto.
Qed.

Lemma tri_nn_local holes : 2 <= rows ->
  exists w' r, tri_nn val holes tps ker rows cols w = Ok (w', r) /\
    e_total r = local_energy 2 (rows * cols) (H_triangular rows cols 0) Psi S0 /\
    e_holes r = flat_map (hole_at o rows cols (tn w)) (calls holes true rows cols) /\
    Forall (fun z => z = Psi S0) (e_psis r) /\
    ready o rows cols w' /\ cfg w' = cfg w /\ tn w' = tn w /\ amp w' = amp w /\ rng w' = rng w.
Proof.
  intros Hr.
  destruct (energy_of_sum o val Rng rows cols tps ker tri_nn_model true 2 (cal_energy_and_holes holes true rows cols)
     tri_nn_h true (RtoC 0) w) as (w' & E & R); auto.
  - apply pure_energy.
  - apply energy_ok; auto.
  - intros _. apply energy_traced_first. lia.
  - intros v Hv. rewrite visits_energy in Hv. eapply calls_visit_in; eauto.
  - intros v Hv Hh. rewrite visits_energy in Hv. apply calls_in in Hv. apply tri_nn_term.
    destruct v as [d s|[] s|d g s|s|s]; simpl in Hv; try contradiction; try discriminate; reflexivity.
  - intros q Hq. rewrite (first_bond_psi o val Rng rows cols tps psi); auto. eapply queries_energy; eauto.
  - intros v Hv Hh. rewrite visits_energy in Hv. rewrite (visit_psi o val Rng rows cols tps psi); auto. eapply calls_visit_in; eauto.
  - intros _ q v Hq Hv Hh. rewrite visits_energy in Hv.
    rewrite (first_bond_psi o val Rng rows cols tps psi); auto; [|eapply queries_energy; eauto].
    apply visit_psi; auto. eapply calls_visit_in; eauto.
  - exists w'. eexists. split; [exact E|]. cbn [e_total e_holes e_psis]. rewrite visits_energy. split.
    + unfold H_triangular. rewrite local_energy_add, local_energy_scal, !local_energy_sum.
      assert (Z : forall y z, (z + RtoC 0)%C = (z + RtoC 0 * y)%C) by (intros y z; ring).
      rewrite <- Z. f_equal.
      rewrite <- (sumC_perm _ _ _ (j1_pairs_nn holes rows cols)), sumC_map.
      rewrite <- !sumC_filter. apply sumC_ext.
      intros v Hv. pose proof Hv as Hv'. apply calls_in in Hv'.
      destruct (is_j1 v) eqn:Hb.
      * assert (is_hole v = false) as -> by (destruct v; try discriminate; reflexivity). cbn [negb].
        rewrite (visit_energy_local o val rows cols tps psi) by (eauto using calls_visit_in; lia).
        unfold tri_nn_h. rewrite Hb. rewrite places_ends_far by (rewrite Hb; reflexivity). reflexivity.
      * destruct (is_hole v) eqn:Hh; cbn [negb]; [reflexivity|].
        rewrite (visit_energy_local o val rows cols tps psi) by (eauto using calls_visit_in; lia).
        unfold tri_nn_h. rewrite Hb. apply local_energy_zero. intros S'. unfold on_sites.
        destruct (agree_off _ _ _); reflexivity.
    + split; [reflexivity|]. split; [|exact R]. apply Forall_forall. intros z Hz. apply in_map_iff in Hz.
      destruct Hz as (q & <- & Hq). apply first_bond_psi; auto. eapply queries_energy; eauto.
Qed.
End Energy.
