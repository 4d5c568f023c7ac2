(** The DOWN stack that TraverseAllBonds leaves behind. *)
From Coq Require Import List Arith Lia Bool.
From Verif Require Import Base ContractorModel ContractorSpec SweepModel SweepSpec SweepProofs SweepMain HistoryProofs EnergyProofs EnergyMain TriFail.
Import ListNotations.

Section Stack.
Context (o : ops) {Rng : Type} (tps : sitps o) (ker : kernel o Rng).
(** commands that leave the UP and DOWN stacks alone *)
Definition sideways (x : cmd) : Prop :=
  match x with
  | Generate LEFT | Generate RIGHT | ShiftB LEFT | ShiftB RIGHT => True
  | InitE _ _ | GrowE _ _ _ _ | ShiftE _ | InitE2 _ _ | GrowE2 _ _ _ _ | ShiftE2 _ _ | Query _ | Visit _ => True
  | _ => False
  end.
Notation same c c' := (bm c' DOWN = bm c DOWN /\ bm c' UP = bm c UP).
Lemma iter_same f : (forall c c', f c = Ok c' -> same c c') -> forall n (c c' : con o), iter_res n f c = Ok c' -> same c c'.
Proof.
  intros Hf. induction n as [|n IH]; intros c c' E; cbn [iter_res] in E.
  - injection E as <-. auto.
  - apply bind_ok in E. destruct E as (c1 & E1 & E). destruct (Hf _ _ E1) as [A B]. destruct (IH _ _ E) as [A' B']. split; congruence.
Qed.
Ltac peel E := repeat (let a := fresh "a" in let X := fresh "X" in apply bind_ok in E; destruct E as (a & X & E)).
Lemma grow_same n p c c' : p = LEFT \/ p = RIGHT -> grow_bmps_step o n p c = Ok c' -> same c c'.
Proof. intros Hp E. unfold grow_bmps_step in E. peel E. injection E as <-. destruct Hp; subst p; split; reflexivity. Qed.
Lemma grow_full_same n p c c' : p = LEFT \/ p = RIGHT -> grow_full_bmps o n p c = Ok c' -> same c c'.
Proof.
  intros Hp E. unfold grow_full_bmps in E. destruct Hp; subst p; apply bind_ok in E; destruct E as (k & _ & E).
  - destruct (length (bm c LEFT) =? 0); [injection E as <-; auto|]. apply (iter_same _ (fun a b => grow_same n LEFT a b (or_introl eq_refl)) _ _ _ E).
  - apply (iter_same _ (fun a b => grow_same n RIGHT a b (or_intror eq_refl)) _ _ _ E).
Qed.
Lemma delete_same p (c : con o) : p = LEFT \/ p = RIGHT -> same c (delete_inner o c p).
Proof. intros Hp. unfold delete_inner. destruct Hp; subst p; destruct (bm c _); split; reflexivity. Qed.
Lemma env_same n p bp bn s i c c' : env_grow_with o n p bp bn s i c = Ok c' -> same c c'.
Proof.
  intros E. unfold env_grow_with in E. cbv zeta in E. destruct (i <? _); [|discriminate]. peel E. injection E as <-. split; reflexivity.
Qed.
Lemma env2_same n p bp bn s i c c' : env2_grow_with o n p bp bn s i c = Ok c' -> same c c'.
Proof.
  intros E. unfold env2_grow_with in E. cbv zeta in E. destruct (layers p s) as [s1 s2]. destruct (i <? _); [|discriminate].
  peel E. injection E as <-. split; reflexivity.
Qed.
Lemma init_same n p s c c' : init_bten o n p s c = Ok c' -> same c c'.
Proof. intros E. unfold init_bten in E. cbv zeta in E. peel E. injection E as <-. split; reflexivity. Qed.
Lemma init2_same n p s c c' : init_bten2 o n p s c = Ok c' -> same c c'.
Proof. intros E. unfold init_bten2 in E. cbv zeta in E. destruct (layers p s) as [s1 s2]. peel E. injection E as <-. split; reflexivity. Qed.
Lemma full_same n p s r i c c' : grow_full_bten o n p s r i c = Ok c' -> same c c'.
Proof.
  intros E. unfold grow_full_bten in E. apply bind_ok in E. destruct E as (c0 & E0 & E). cbv zeta in E. peel E.
  assert (S0 : same c c0) by (destruct i; [apply (init_same _ _ _ _ _ E0)|injection E0 as <-; auto]).
  destruct (_ =? 0); [injection E as <-; exact S0|].
  pose proof (iter_same _ (fun a b X => env_same _ _ _ _ _ _ a b X) _ _ _ E) as S1. cbv beta in S1. destruct S0, S1. split; congruence.
Qed.
Lemma full2_same n p s r i c c' : grow_full_bten2 o n p s r i c = Ok c' -> same c c'.
Proof.
  intros E. unfold grow_full_bten2 in E. apply bind_ok in E. destruct E as (c0 & E0 & E). cbv zeta in E. destruct (layers p s) as [s1 s2]. peel E.
  assert (S0 : same c c0) by (destruct i; [apply (init2_same _ _ _ _ _ E0)|injection E0 as <-; auto]).
  destruct (_ =? 0); [injection E as <-; exact S0|].
  pose proof (iter_same _ (fun a b X => env2_same _ _ _ _ _ _ a b X) _ _ _ E) as S1. cbv beta in S1. destruct S0, S1. split; congruence.
Qed.
Lemma exec_same x w w' lg : sideways x -> exec o tps ker x w = Ok (w', lg) -> same (ctr w) (ctr w').
Proof.
  intros Hx E. destruct x as [ |p|p|r|k|p|p|p s|p s rem ini|p|p n|p s|p s rem ini|p s|q|v|d s k|s n|d s k|d s k]; try (destruct Hx; fail); cbn [exec] in E; cbv zeta in E.
  - apply bind_ok in E. destruct E as (c & E & F). injection F as <- _. cbn [set_con ctr]. unfold generate_bmps_approach in E.
    destruct p; try (destruct Hx; fail).
    + destruct (grow_full_same _ _ _ _ (or_intror eq_refl) E), (delete_same LEFT (ctr w) (or_introl eq_refl)). split; congruence.
    + destruct (grow_full_same _ _ _ _ (or_introl eq_refl) E), (delete_same RIGHT (ctr w) (or_intror eq_refl)). split; congruence.
  - apply bind_ok in E. destruct E as (c & E & F). injection F as <- _. cbn [set_con ctr]. unfold shift_bmps_window in E.
    apply bind_ok in E. destruct E as (l & _ & E).
    destruct p; try (destruct Hx; fail).
    + destruct (grow_same _ _ _ _ (or_intror eq_refl) E). split; assumption.
    + destruct (grow_same _ _ _ _ (or_introl eq_refl) E). split; assumption.
  - apply bind_ok in E. destruct E as (c & E & F). injection F as <- _. apply (init_same _ _ _ _ _ E).
  - apply bind_ok in E. destruct E as (c & E & F). injection F as <- _. apply (full_same _ _ _ _ _ _ _ E).
  - apply bind_ok in E. destruct E as (c & E & F). injection F as <- _. cbn [set_con ctr]. unfold shift_bten_window, grow_bten_step in E.
    peel E. destruct (env_same _ _ _ _ _ _ _ _ E). split; assumption.
  - apply bind_ok in E. destruct E as (c & E & F). injection F as <- _. apply (init2_same _ _ _ _ _ E).
  - apply bind_ok in E. destruct E as (c & E & F). injection F as <- _. apply (full2_same _ _ _ _ _ _ _ E).
  - apply bind_ok in E. destruct E as (c & E & F). injection F as <- _. cbn [set_con ctr]. unfold shift_bten2_window, grow_bten2_step in E.
    apply bind_ok in E. destruct E as (l & _ & E). destruct (layers (opposite p) s) as [s1 s2]. peel E. destruct (env2_same _ _ _ _ _ _ _ _ E). split; assumption.
  - apply bind_ok in E. destruct E as (c & E & F). injection F as <- _. auto.
  - apply bind_ok in E. destruct E as (c & E & F). injection F as <- _. auto.
Qed.
Lemma run_same : forall l w w' lg, (forall x, In x l -> sideways x) -> run o tps ker l w = Ok (w', lg) -> same (ctr w) (ctr w').
Proof.
  induction l as [|x l IH]; intros w w' lg Hl E; cbn [run] in E; [injection E as <- _; auto|].
  apply bind_ok in E. destruct E as ([w1 l1] & E1 & E). apply bind_ok in E. destruct E as ([w2 l2] & E2 & E). injection E as <- _. cbn [fst] in *.
  destruct (exec_same x w w1 l1) as [A B]; [apply Hl; left; reflexivity|exact E1|].
  destruct (IH _ _ _ (fun y Hy => Hl y (or_intror Hy)) E2) as [A' B']. split; congruence.
Qed.
Lemma vertical_sideways rows cols x : In x (traverse_vertical rows cols) -> sideways x.
Proof.
  unfold traverse_vertical. rewrite in_app_iff. intros [[<-|[]]|H]; [exact I|]. apply in_for in H. destruct H as (k & _ & H).
  rewrite !in_app_iff in H. destruct H as [H|[H|H]].
  - repeat (destruct H as [<-|H]; [exact I|]). destruct H.
  - apply in_for in H. destruct H as (r & _ & H). apply in_app_or in H. destruct H as [[<-|[]]|H]; [exact I|].
    apply in_when in H. destruct H as [_ [<-|[]]]. exact I.
  - apply in_when in H. destruct H as [_ [<-|[]]]. exact I.
Qed.

Lemma pure_traverse nnn rows cols : forallb pure_cmd (traverse_all nnn rows cols) = true.
Proof. unfold traverse_all, traverse_horizontal. rewrite pure_app, pure_vertical, andb_true_r. pure. Qed.
Lemma traverse_down rows cols nnn (w : wst o Rng) : 2 <= rows -> 2 <= cols -> ready o rows cols w ->
  exists w' lg, run o tps ker (traverse_all nnn rows cols) w = Ok (w', lg) /\ ready o rows cols w' /\ tn w' = tn w /\
    bm (ctr w') DOWN = [vac_mps o DOWN] /\ length (bm (ctr w') UP) = rows.
Proof.
  intros Hr Hc Hw. pose proof Hw as Hw0. apply ready_sG in Hw0.
  assert (T : triple o Rng rows cols tps ker (fun _ => True) (sG o Rng rows cols) (traverse_horizontal nnn rows cols) (sH o Rng rows cols HORIZONTAL (rows - 1))).
  { rewrite traverse_horizontal_part by lia.
    apply (t_slices_end o Rng rows cols tps ker); try lia; auto. intros s Hs.
    eapply triple_app; [apply t_row_read; auto; lia|apply t_row_nnn; auto; lia]. }
  destruct (T w Hw0 I) as (w1 & l1 & E1 & H1 & _ & _).
  destruct (t_traverse_vertical o Rng rows cols tps ker ltac:(lia) ltac:(lia) (fun _ => True) ltac:(auto) ltac:(auto) ltac:(auto) Hr Hc w1 ltac:(apply H1) I) as (w2 & l2 & E2 & H2 & _ & _).
  assert (E : run o tps ker (traverse_all nnn rows cols) w = Ok (w2, l1 ++ l2)).
  { unfold traverse_all. rewrite (run_app _ _ _ _ _ _ _ _ _ E1), E2. reflexivity. }
  exists w2, (l1 ++ l2). split; [exact E|]. split; [apply ready_sG; exact H2|].
  destruct (run_same _ _ _ _ (vertical_sideways rows cols) E2) as [A B].
  assert (P : tn w2 = tn w) by (apply (run_pure _ _ _ _ _ _ _ _ (pure_traverse nnn rows cols) E)).
  split; [exact P|]. destruct H1 as (G1 & _ & LU & LD). cbn [side1 side2 opposite ContractorModel.nsl] in LU, LD.
  rewrite A, B. split; [|lia]. destruct G1 as (_ & _ & F). destruct (F DOWN) as [FD _].
  rewrite FD, LD. replace (rows - (rows - 1)) with 1 by lia. reflexivity.
Qed.
End Stack.
