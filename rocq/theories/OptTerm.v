(** Runs of the optimiser, continued: checkpoints, callbacks, termination, learning rates. *)
From Coq Require Import List Arith Bool Reals Lra Lia.
From Verif Require Import Base OptModel OptSpec OptProofs OptMain OptRuns OptLoop.
Import ListNotations.
Local Open Scope R_scope.

(** The new minima of a sequence of evaluations, in order. *)
Fixpoint minima {W} (m : R) (acc : list (W * R * R * R)) : list (W * R) :=
  match acc with
  | [] => []
  | x :: r => if rlt (ev_energy x) m then (ev_state x, ev_energy x) :: minima (ev_energy x) r else minima m r
  end.
(** What the iteration callback is told about these evaluations, numbered from [i]. *)
Fixpoint announced {W} (i : nat) (acc : list (W * R * R * R)) : list (nat * R * R * R) :=
  match acc with [] => [] | x :: r => (i, ev_energy x, ev_error x, ev_gnorm x) :: announced (S i) r end.
Lemma announced_snoc {W} acc (x : W * R * R * R) : forall i, announced i (acc ++ [x]) = announced i acc ++ [((i + length acc)%nat, ev_energy x, ev_error x, ev_gnorm x)].
Proof. induction acc as [|y acc IH]; intros i; simpl; [rewrite Nat.add_0_r; reflexivity|]. rewrite IH. replace (S i + length acc)%nat with (i + S (length acc))%nat by lia. reflexivity. Qed.
Lemma minima_snoc {W} acc (x : W * R * R * R) : forall m, minima m (acc ++ [x]) = minima m acc ++ if rlt (ev_energy x) (fold_left (fun m x => if rlt (ev_energy x) m then ev_energy x else m) acc m) then [(ev_state x, ev_energy x)] else [].
Proof. induction acc as [|y acc IH]; intros m; cbn [minima app fold_left]; [reflexivity|]. destruct (rlt (ev_energy y) m); rewrite IH; reflexivity. Qed.
Lemma lowest_fold {W} (w0 : W) acc : snd (lowest w0 acc) = fold_left (fun m x => if rlt (ev_energy x) m then ev_energy x else m) acc dbl_max.
Proof. induction acc as [|x acc IH] using rev_ind; [reflexivity|]. rewrite lowest_snoc, fold_left_app, <- IH. cbn [fold_left]. destruct (rlt _ _); reflexivity. Qed.

Section Loop.
Context {W G A P Sc : Type}.
Variable p : params.
Variable alg : algorithm (W:=W) (G:=G) (A:=A) (P:=P).
Variable eval : nat -> W -> R * G * R.
Variable trial : nat -> W -> R * R.
Variable gnorm : G -> R.
Variable scheduled : bool.
Variable rate : Sc -> nat -> R -> R * Sc.
Variable user_stop : nat -> R -> R -> bool.
Notation st := (st (W:=W) (A:=A) (Sc:=Sc)).
Notation pass := (pass p alg eval trial gnorm rate user_stop).
Notation run := (run p alg eval trial gnorm rate user_stop).
Notation optimize := (optimize p alg eval trial gnorm scheduled rate user_stop).
Notation obs := (obs (W:=W)).
Variable fresh : A.
Variable sc : Sc.
Variable w0 : W.
Notation begin := (start p alg (new_members fresh sc) w0).
Notation Inv1 := (Inv1 p w0).
Notation run_induct := (run_induct p alg eval trial gnorm rate user_stop).

(** *** Callbacks *)
Lemma calls_spikes {X} (f : obs -> list X) ws : (forall v, f (Spike v) = []) -> flat_map f (map Spike ws) = [].
Proof. intros H. induction ws as [|v ws IH]; simpl; [reflexivity|]. rewrite H. exact IH. Qed.
Lemma calls_pass {X} (f : obs -> list X) a w e err gn ws l : (forall v, f (Spike v) = []) -> f (Eval w e err gn) = [] ->
  flat_map f (a ++ Eval w e err gn :: map Spike ws ++ l) = flat_map f a ++ flat_map f l.
Proof. intros H H'. rewrite flat_map_app. f_equal. cbn [flat_map]. rewrite H', flat_map_app, calls_spikes by exact H. reflexivity. Qed.
Definition InvC (s : st) : Prop := let acc := accepted (s_obs s) in Inv1 s /\
  lowest_calls (s_obs s) = minima dbl_max acc /\ iter_calls (s_obs s) = announced 0 (if s_conv s then removelast acc else acc) /\ (s_conv s = true -> s_done s = true).
Lemma InvC_pass s s' : InvC s -> s_done s = false -> (s_iter s < p_max_iter p)%nat -> pass s = Ok s' -> InvC s'.
Proof.
  intros (I1 & Il & Ii & Ic) D Lm Ep. split; [eapply Inv1_pass; eassumption|]. assert (Cf : s_conv s = false) by (destruct (s_conv s); [specialize (Ic eq_refl); congruence|reflexivity]). rewrite Cf in Ii.
  destruct (pass_facts _ _ _ _ _ _ _ _ _ Ep) as (e & err & gn & ws & Fw & _ & [(sig & act & ev & Dg & Da & Va & Vs & Ac & Ro & Ob & Lg & It & Ra & Do & Co & Lo & LoE & Bm & Cs)|(next & eff & tl & Ac & Ro & Ob & Lg & Ra & Bm & Lo & LoE & St & Fl)]).
  - unfold lowest_calls, iter_calls in *. rewrite Ac, Ob, Co, Cf, Do, D, !calls_pass by reflexivity. cbn [flat_map]. rewrite !app_nil_r. split; [exact Il|]. split; [exact Ii|discriminate].
  - unfold lowest_calls, iter_calls in *. rewrite Ac, Ob, !calls_pass by reflexivity. rewrite Il, Ii, minima_snoc, <- (lowest_fold w0). destruct I1 as (_ & I2 & _ & I4 & _). rewrite D in I2. destruct I2 as [I2 _]. rewrite <- I4. cbn [snd].
    set (acc := accepted (s_obs s)) in *. change (ev_energy (s_cur s, e, err, gn)) with e. change (ev_state (s_cur s, e, err, gn)) with (s_cur s).
    assert (Ll : flat_map (fun o : obs => match o with Lowest w e0 => [(w, e0)] | _ => [] end) (low_of e s) = if rlt e (s_lowE s) then [(s_cur s, e)] else []) by (unfold low_of; destruct (rlt e (s_lowE s)); reflexivity).
    assert (Lj : flat_map (fun o : obs => match o with Iter i0 e0 err0 gn0 => [(i0, e0, err0, gn0)] | _ => [] end) (low_of e s) = []) by (unfold low_of; destruct (rlt e (s_lowE s)); reflexivity).
    destruct (stop_of p e gn s).
    + destruct Fl as (F1 & F2 & _ & _ & ->). rewrite F2, Ll, Lj, removelast_last, app_nil_r. auto.
    + destruct Fl as (_ & _ & F3 & Fl). rewrite F3, Cf, announced_snoc. change (ev_energy (s_cur s, e, err, gn)) with e. change (ev_error (s_cur s, e, err, gn)) with err. change (ev_gnorm (s_cur s, e, err, gn)) with gn. rewrite Nat.add_0_l, <- I2.
      destruct (user_stop _ _ _); [destruct Fl as (_ & _ & ->)|destruct Fl as (_ & _ & _ & ->)]; rewrite !flat_map_app, Ll, Lj; [|destruct (due p (s_iter s))]; cbn [flat_map app]; rewrite ?app_nil_r; (split; [reflexivity|split; [reflexivity|discriminate]]).
Qed.
Theorem callbacks fuel s : optimize fuel (new_members fresh sc) w0 = Ok (Finished s) -> let acc := accepted (s_obs s) in
  lowest_calls (s_obs s) = minima dbl_max acc /\ iter_calls (s_obs s) = announced 0 (if s_conv s then removelast acc else acc).
Proof.
  intros Eo. apply optimize_run in Eo. assert (B : InvC begin) by (split; [apply Inv1_begin|]; cbn; repeat split; discriminate).
  destruct (run_induct InvC InvC_pass fuel begin _ B Eo) as [(_ & H1 & H2 & _) _]. split; assumption.
Qed.

(** *** C63: checkpoints *)
Definition InvK (s : st) : Prop := Inv1 s /\
  map fst (checkpoints (s_obs s)) = filter (due p) (seq 0 (s_iter s)) /\
  (forall t1 i w o t2, s_obs s = t1 ++ Ckpt i w :: o :: t2 -> exists e err gn, o = Eval w e err gn) /\
  (forall t1 i w, s_obs s = t1 ++ [Ckpt i w] -> s_cur s = w) /\
  (forall t1 i w t2, s_obs s = t1 ++ Ckpt i w :: t2 -> length (accepted t1) = S i).
Lemma InvK_begin : InvK begin.
Proof. split; [apply Inv1_begin|]. split; [reflexivity|]. split; [|split]; intros t1; intros; cbn in H; destruct t1; discriminate. Qed.
Lemma split_quiet (a b t1 t2 : list obs) x : (forall y, In y b -> match y with Ckpt _ _ => False | _ => True end) -> match x with Ckpt _ _ => True | _ => False end ->
  a ++ b = t1 ++ x :: t2 -> exists t2', a = t1 ++ x :: t2' /\ t2 = t2' ++ b.
Proof.
  intros N Hx. revert t1. induction a as [|o a IH]; intros t1 Q.
  - exfalso. simpl in Q. assert (In x b) by (rewrite Q; apply in_or_app; right; left; reflexivity). specialize (N x H). destruct x; contradiction.
  - destruct t1 as [|z t1]; simpl in Q; injection Q as Q1 Q2.
    + exists a. subst. auto.
    + subst z. destruct (IH t1 Q2) as (t2' & -> & ->). exists t2'. auto.
Qed.
Lemma low_no_ck e (s : st) y : In y (low_of e s) -> match y with Ckpt _ _ => False | _ => True end.
Proof. unfold low_of. destruct (rlt e (s_lowE s)); [intros [<-|[]]; exact I|intros []]. Qed.
Lemma spikes_no_ck ws (y : obs) : In y (map Spike ws) -> match y with Ckpt _ _ => False | _ => True end.
Proof. intros H. apply in_map_iff in H. destruct H as (v & <- & _). exact I. Qed.
Lemma InvK_pass s s' : InvK s -> s_done s = false -> (s_iter s < p_max_iter p)%nat -> pass s = Ok s' -> InvK s'.
Proof.
  intros (I1 & Ka & Kb & Kc & Kd) D Lm Ep. split; [eapply Inv1_pass; eassumption|].
  assert (It : s_iter s = length (accepted (s_obs s))) by (destruct I1 as (_ & I2 & _); rewrite D in I2; apply I2).
  (* nothing added but observations other than checkpoints *)
  assert (Plain : forall e err gn l, (forall y, In y l -> match y with Ckpt _ _ => False | _ => True end) -> s_obs s' = s_obs s ++ Eval (s_cur s) e err gn :: l -> s_iter s' = s_iter s \/ (s_iter s' = S (s_iter s) /\ due p (s_iter s) = false) ->
    map fst (checkpoints (s_obs s')) = filter (due p) (seq 0 (s_iter s')) /\
    (forall t1 i w o t2, s_obs s' = t1 ++ Ckpt i w :: o :: t2 -> exists e err gn, o = Eval w e err gn) /\
    (forall t1 i w, s_obs s' = t1 ++ [Ckpt i w] -> s_cur s' = w) /\
    (forall t1 i w t2, s_obs s' = t1 ++ Ckpt i w :: t2 -> length (accepted t1) = S i)).
  { intros e err gn l N Ob Hi. assert (N' : forall y, In y (Eval (s_cur s) e err gn :: l) -> match y with Ckpt _ _ => False | _ => True end) by (intros y [<-|H]; [exact I|exact (N y H)]).
    split; [|split; [|split]].
    - unfold checkpoints in *. rewrite Ob, flat_map_app, map_app, Ka. assert (Z : flat_map (fun o : obs => match o with Ckpt i w => [(i, w)] | _ => [] end) (Eval (s_cur s) e err gn :: l) = []).
      { clear Ob. induction (Eval (s_cur s) e err gn :: l) as [|y r IH]; [reflexivity|]. cbn [flat_map]. pose proof (N' y (or_introl eq_refl)) as Hy. destruct y; try contradiction; apply IH; intros z Hz; apply N'; right; exact Hz. }
      rewrite Z. cbn [map]. rewrite app_nil_r. destruct Hi as [->|[-> Hd]]; [reflexivity|]. rewrite seq_S, filter_app. cbn [filter plus]. rewrite Hd, app_nil_r. reflexivity.
    - intros t1 i w o t2 Q. rewrite Ob in Q. apply split_quiet in Q; [|exact N'|exact I]. destruct Q as (t2' & Q1 & Q2). destruct t2' as [|o' t2']; simpl in Q2.
      + injection Q2 as -> _. exists e, err, gn. rewrite (Kc _ _ _ Q1). reflexivity.
      + injection Q2 as -> _. exact (Kb _ _ _ _ _ Q1).
    - intros t1 i w Q. rewrite Ob in Q. apply split_quiet in Q; [|exact N'|exact I]. destruct Q as (t2' & _ & Q2). destruct t2'; discriminate.
    - intros t1 i w t2 Q. rewrite Ob in Q. apply split_quiet in Q; [|exact N'|exact I]. destruct Q as (t2' & Q1 & _). exact (Kd _ _ _ _ Q1). }
  destruct (pass_facts _ _ _ _ _ _ _ _ _ Ep) as (e & err & gn & ws & Fw & _ & [(sig & act & ev & Dg & Da & Va & Vs & Ac & Ro & Ob & Lg & Iu & Ra & Do & Co & Lo & LoE & Bm & Cs)|(next & eff & tl & Ac & Ro & Ob & Lg & Ra & Bm & Lo & LoE & St & Fl)]).
  - refine (Plain _ _ _ _ _ Ob (or_introl Iu)). intros y H; apply in_app_or in H; destruct H as [H|[<-|[]]]; [exact (spikes_no_ck _ _ H)|exact I].
  - destruct (stop_of p e gn s).
    { destruct Fl as (_ & _ & Iu & _ & ->). refine (Plain _ _ _ _ _ Ob (or_introl Iu)). intros y H; apply in_app_or in H; destruct H as [H|H]; [exact (spikes_no_ck _ _ H)|exact (low_no_ck _ _ _ H)]. }
    destruct Fl as (_ & Cu & _ & Fl). assert (Nl : forall y, In y (map Spike ws ++ low_of e s ++ [Iter (s_iter s) e err gn]) -> match y with Ckpt _ _ => False | _ => True end).
    { intros y H. apply in_app_or in H. destruct H as [H|H]; [exact (spikes_no_ck _ _ H)|]. apply in_app_or in H. destruct H as [H|[<-|[]]]; [exact (low_no_ck _ _ _ H)|exact I]. }
    destruct (user_stop _ _ _).
    { destruct Fl as (_ & Iu & ->). apply (Plain _ _ _ _ Nl Ob). left. exact Iu. }
    destruct Fl as (_ & Iu & _ & ->). destruct (due p (s_iter s)) eqn:Du.
    2:{ cbn [app] in Ob. apply (Plain _ _ _ _ Nl Ob). right. auto. }
    set (L := s_obs s ++ Eval (s_cur s) e err gn :: map Spike ws ++ low_of e s ++ [Iter (s_iter s) e err gn]).
    assert (Ob' : s_obs s' = L ++ [Ckpt (s_iter s) next]). { rewrite Ob. unfold L. rewrite <- app_assoc. cbn [app]. rewrite <- !app_assoc. reflexivity. }
    assert (N' : forall y, In y (Eval (s_cur s) e err gn :: map Spike ws ++ low_of e s ++ [Iter (s_iter s) e err gn]) -> match y with Ckpt _ _ => False | _ => True end) by (intros y [<-|H]; [exact I|exact (Nl y H)]).
    assert (LA : length (accepted L) = S (s_iter s)).
    { unfold L. assert (Ha : accepted L = accepted (s_obs s) ++ [(s_cur s, e, err, gn)]). { unfold L. apply hist_accept; [exact Fw|]. apply Forall_app. split; [unfold low_of; destruct (rlt e (s_lowE s)); repeat constructor|repeat constructor]. }
      fold L. rewrite Ha, app_length, It. simpl. lia. }
    assert (Lend : forall t1 i w t2, L = t1 ++ Ckpt i w :: t2 -> exists t2', s_obs s = t1 ++ Ckpt i w :: t2' /\ t2 = t2' ++ Eval (s_cur s) e err gn :: map Spike ws ++ low_of e s ++ [Iter (s_iter s) e err gn]) by (intros t1 i w t2 Q; apply split_quiet in Q; [exact Q|exact N'|exact I]).
    clearbody L. split; [|split; [|split]].
    + rewrite Iu, seq_S, filter_app. cbn [filter plus]. rewrite Du, <- Ka. unfold checkpoints. rewrite Ob, calls_pass by reflexivity. rewrite map_app. f_equal. rewrite !flat_map_app, !map_app. assert (Z : flat_map (fun o : obs => match o with Ckpt i w => [(i, w)] | _ => [] end) (low_of e s) = []) by (unfold low_of; destruct (rlt e (s_lowE s)); reflexivity). rewrite Z. reflexivity.
    + intros t1 i w o t2 Q. rewrite Ob' in Q. destruct (@exists_last _ (o :: t2)) as (t2' & z & Qz); [discriminate|].
      rewrite Qz in Q. change (t1 ++ Ckpt i w :: t2' ++ [z]) with (t1 ++ (Ckpt i w :: t2') ++ [z]) in Q. rewrite app_assoc in Q. apply app_inj_tail in Q. destruct Q as [Q Qe]. destruct (Lend _ _ _ _ Q) as (t3 & Q1 & Q2).
      destruct t3 as [|o' t3]; rewrite Q2 in Qz; simpl in Qz; injection Qz as -> _; [exists e, err, gn; rewrite (Kc _ _ _ Q1); reflexivity|exact (Kb _ _ _ _ _ Q1)].
    + intros t1 i w Q. rewrite Ob' in Q. apply app_inj_tail in Q. destruct Q as [_ Q]. injection Q as _ <-. exact Cu.
    + intros t1 i w t2 Q. rewrite Ob' in Q. destruct t2 as [|o t2].
      * apply app_inj_tail in Q. destruct Q as [<- Q]. injection Q as <- _. exact LA.
      * destruct (@exists_last _ (o :: t2)) as (t2' & z & Qz); [discriminate|]. rewrite Qz in Q. change (t1 ++ Ckpt i w :: t2' ++ [z]) with (t1 ++ (Ckpt i w :: t2') ++ [z]) in Q. rewrite app_assoc in Q. apply app_inj_tail in Q. destruct Q as [Q Qe]. destruct (Lend _ _ _ _ Q) as (t3 & Q1 & _). exact (Kd _ _ _ _ Q1).
Qed.
Theorem checkpointing fuel s : optimize fuel (new_members fresh sc) w0 = Ok (Finished s) ->
  map fst (checkpoints (s_obs s)) = filter (due p) (seq 0 (if s_done s then s_total s - 1 else s_total s)) /\
  (forall t1 i w t2, s_obs s = t1 ++ Ckpt i w :: t2 -> length (accepted t1) = S i /\ match t2 with [] => s_cur s = w | o :: _ => exists e err gn, o = Eval w e err gn end).
Proof.
  intros Eo. apply optimize_run in Eo. destruct (run_induct InvK InvK_pass fuel begin _ InvK_begin Eo) as [(I1 & Ka & Kb & Kc & Kd) _].
  split.
  - rewrite Ka. f_equal. f_equal. destruct I1 as (I1 & I2 & _). destruct I1 as (_ & _ & _ & _ & I5 & _). rewrite I5. destruct (s_done s); lia.
  - intros t1 i w t2 Q. split; [exact (Kd _ _ _ _ Q)|]. destruct t2 as [|o t2]; [exact (Kc _ _ _ Q)|exact (Kb _ _ _ _ _ Q)].
Qed.

(** *** C33: termination *)
Definition tries : nat := S (p_retries p).
Definition quota : nat := if p_rollback p then (2 * tries)%nat else tries.
Definition allowance (s : st) : nat := ((if p_rollback p && has_prev s then tries else 0) + (tries - s_att s))%nat.
Definition potential (s : st) : nat := ((p_max_iter p - s_iter s - 1) * quota + allowance s)%nat.
Lemma count_S4_app a b : count_S4 (a ++ b) = (count_S4 a + count_S4 b)%nat.
Proof. unfold count_S4. rewrite filter_app, app_length. reflexivity. Qed.
Lemma count_S4_none ws : Forall (fun v => v_signal v <> S4) ws -> count_S4 ws = 0%nat.
Proof. induction 1 as [|v ws V _ IH]; [reflexivity|]. unfold count_S4 in *. cbn [filter]. destruct (v_signal v); try contradiction; exact IH. Qed.
Lemma pass_potential s s' : (s_att s <= p_retries p)%nat -> s_done s = false -> (s_iter s < p_max_iter p)%nat -> pass s = Ok s' ->
  s_done s' = true \/ (p_max_iter p <= s_iter s')%nat \/
  ((s_att s' <= p_retries p)%nat /\ (count_S4 (s_log s) <= count_S4 (s_log s'))%nat /\
   (S (potential s') <= potential s + tries * (count_S4 (s_log s') - count_S4 (s_log s)))%nat).
Proof.
  intros Ha D Lm Ep. destruct (pass_facts _ _ _ _ _ _ _ _ _ Ep) as (e & err & gn & ws & Fw & F4 & [(sig & act & ev & Dg & Da & Va & Vs & Ac & Ro & Ob & Lg & Iu & Ra & Do & Co & Lo & LoE & Bm & Cs)|(next & eff & tl & Ac & Ro & Ob & Lg & Ra & Bm & Lo & LoE & St & Fl)]).
  - right. right. rewrite Lg, !count_S4_app, (count_S4_none ws F4). unfold potential, allowance. rewrite Iu. fold tries in *. unfold tries in *.
    destruct Dg as (_ & [(S1 & _ & -> & Lr)|[(S1 & _ & -> & Lr & Rb & Pv)|(S1 & -> & Rb)]]).
    + destruct Cs as [(_ & C1 & _ & C2)|(C & _)]; [|discriminate]. unfold has_prev. rewrite C1, C2. split; [lia|]. split; [lia|]. replace (count_S4 [ev]) with 0%nat by (symmetry; apply count_S4_none; constructor; [congruence|constructor]). lia.
    + destruct Cs as [(C & _)|(_ & C1 & _ & C2)]; [discriminate|]. unfold has_prev. rewrite C1, C2, Rb. cbn [andb]. destruct (s_prev s); [|congruence]. replace (count_S4 [ev]) with 0%nat by (symmetry; apply count_S4_none; constructor; [congruence|constructor]). lia.
    + destruct Cs as [(C & _)|(_ & C1 & _ & C2)]; [discriminate|]. unfold has_prev. rewrite C1, C2, Rb. cbn [andb]. replace (count_S4 [ev]) with 1%nat by (unfold count_S4; cbn [filter]; rewrite Vs, S1; reflexivity). destruct (s_prev s); lia.
  - destruct (stop_of p e gn s); [left; apply Fl|]. destruct Fl as (_ & _ & _ & Fl). destruct (user_stop _ _ _); [left; apply Fl|]. destruct Fl as (_ & Iu & At & _). rewrite Iu.
    destruct (Nat.le_gt_cases (p_max_iter p) (S (s_iter s))) as [Q|Q]; [right; left; exact Q|]. right. right. rewrite At, Lg, count_S4_app, (count_S4_none ws F4). split; [lia|]. split; [lia|].
    rewrite Nat.add_0_r, Nat.sub_diag, Nat.mul_0_r, Nat.add_0_r. unfold potential, allowance. rewrite Iu, At. replace (p_max_iter p - s_iter s - 1)%nat with (S (p_max_iter p - S (s_iter s) - 1)) by lia. cbn [Nat.mul]. unfold quota, tries.
    destruct (p_rollback p); cbn [andb]; [destruct (has_prev s'), (has_prev s)|]; lia.
Qed.
Lemma run_bound fuel : forall s s', (s_att s <= p_retries p)%nat -> run fuel s = Ok (Running s') ->
  (count_S4 (s_log s) <= count_S4 (s_log s') /\ fuel + 1 <= potential s + tries * (count_S4 (s_log s') - count_S4 (s_log s)))%nat.
Proof.
  induction fuel as [|f IH]; intros s s' Ha Er; cbn [OptModel.run] in Er; destruct (s_done s) eqn:D; cbn [orb] in Er; try discriminate; destruct (Nat.leb_spec (p_max_iter p) (s_iter s)) as [L|L]; try discriminate.
  - injection Er as <-. split; [lia|]. rewrite Nat.sub_diag, Nat.mul_0_r. unfold potential, allowance, tries. generalize ((p_max_iter p - s_iter s - 1) * quota)%nat. intros n. lia.
  - destruct (pass s) as [s1|] eqn:Ep; [|discriminate]. cbn [bind] in Er. destruct (pass_potential s s1 Ha D L Ep) as [Q|[Q|(A1 & A2 & A3)]].
    + destruct f; cbn [OptModel.run] in Er; rewrite Q in Er; discriminate.
    + destruct f; cbn [OptModel.run] in Er; (destruct (s_done s1); cbn [orb] in Er; [discriminate|]); (destruct (Nat.leb_spec (p_max_iter p) (s_iter s1)); [discriminate|lia]).
    + destruct (IH s1 s' A1 Er) as [B1 B2]. split; [lia|]. nia.
Qed.
Theorem termination fuel s : optimize fuel (new_members fresh sc) w0 = Ok (Running s) ->
  (fuel < (if p_rollback p then 2 * p_max_iter p + count_S4 (s_log s) else p_max_iter p) * (p_retries p + 1))%nat.
Proof.
  intros Eo. apply optimize_run in Eo.
  assert (Cs : p_rollback p = false -> count_S4 (s_log s) = 0%nat).
  { intros Rb. assert (K : forall u u' : st, count_S4 (s_log u) = 0%nat -> s_done u = false -> (s_iter u < p_max_iter p)%nat -> pass u = Ok u' -> count_S4 (s_log u') = 0%nat).
    { intros u u' Hu D Lm Ep. destruct (pass_facts _ _ _ _ _ _ _ _ _ Ep) as (e & err & gn & ws & Fw & F4 & [(sig & act & ev & Dg & Da & Va & Vs & Ac & Ro & Ob & Lg & _)|(next & eff & tl & Ac & Ro & Ob & Lg & _)]); rewrite Lg, !count_S4_app, (count_S4_none ws F4), Hu; [|reflexivity].
      apply count_S4_none. constructor; [|constructor]. rewrite Vs. destruct Dg as (_ & [(S1 & _)|[(S1 & _)|(S1 & _ & Q)]]); [exact S1|exact S1|congruence]. }
    exact (run_induct (fun u => count_S4 (s_log u) = 0%nat) K fuel begin _ eq_refl Eo). }
  assert (Hm : (s_iter begin < p_max_iter p)%nat). { destruct (Nat.le_gt_cases (p_max_iter p) 0) as [Q|Q]; [|exact Q]. destruct fuel; cbn [OptModel.run] in Eo; cbn [s_done s_iter start orb] in Eo; (destruct (Nat.leb_spec (p_max_iter p) 0); [discriminate|lia]). }
  destruct (run_bound fuel begin s ltac:(cbn; lia) Eo) as [_ B]. unfold potential, allowance, quota, tries in B. cbn in Hm. cbn [s_iter s_att s_log s_prev has_prev start new_members k_log k_prev] in B. change (count_S4 []) with 0%nat in B. rewrite andb_false_r in B.
  destruct (p_rollback p); [|rewrite (Cs eq_refl) in B]; nia.
Qed.

(** *** C36: learning rates under the selectors *)
Definition InvR (s : st) : Prop := Inv1 s /\
  (forall j, (S j < length (s_rates s))%nat -> exists k, nth (S j) (s_rates s) 0 = nth j (s_rates s) 0 * (1 / 2) ^ k /\ (k <> 0%nat -> p_per_on p = true /\ (S j mod p_per_every p = 0)%nat)) /\
  (s_rates s <> [] -> s_done s = false -> exists k, s_base s = last (s_rates s) 0 * (1 / 2) ^ k /\ (k <> 0%nat -> p_per_on p = true /\ (s_iter s mod p_per_every p = 0)%nat)) /\
  (s_rates s = [] -> s_base s = p_rate p) /\
  (s_rates s <> [] -> if p_init_on p then exists cs, map c_eta cs = candidates_initial p (p_rate p) /\ select_initial cs = Ok (nth 0 (s_rates s) 0) else nth 0 (s_rates s) 0 = p_rate p).
Lemma try_all_etas (f : R -> W) etas : forall k, map c_eta (try_all trial k f etas) = etas.
Proof. induction etas as [|x l IH]; intros k; simpl; [reflexivity|]. destruct (trial k (f x)). simpl. rewrite IH. reflexivity. Qed.
Lemma base_halves (s t : st) : base_moves p trial s t -> (0 < s_iter s)%nat ->
  exists k, s_base t = s_base s * (1 / 2) ^ k /\ (k <> 0%nat -> p_per_on p = true /\ (s_iter s mod p_per_every p = 0)%nat).
Proof.
  intros [[B _]|[(_ & Z & _)|(P1 & _ & P3 & Pos & k & f & eta & Se & B)]] Hi; [exists 0%nat; rewrite B; split; [simpl; lra|congruence]|lia|].
  assert (He : eta = s_base s \/ eta = s_base s * (1 / 2)).
  { cbn [try_all] in Se. destruct (trial k (f (s_base s))) as [e0 r0]. destruct (trial (S k) (f (s_base s * (1 / 2)))) as [e1 r1]. cbn in Se. destruct (rlt (INR (s_iter s)) _); injection Se as <-; [destruct (rlt e1 e0)|destruct (rlt _ _)]; auto. }
  destruct He as [->| ->].
  - exists 0%nat. rewrite B, Rmin_left by lra. split; [simpl; lra|congruence].
  - exists 1%nat. rewrite B, Rmin_right by lra. split; [simpl; lra|auto].
Qed.
Lemma InvR_pass s s' : any_selector p = true -> (forall k a d w g lr a' next eff ng iters more, a_step alg k a d w g lr = Ok (a', (next, eff), (ng, iters), more) -> eff = lr) ->
  InvR s -> s_done s = false -> (s_iter s < p_max_iter p)%nat -> pass s = Ok s' -> InvR s'.
Proof.
  intros Sel Hef (I1 & Ra & Rb & Rc & Rd) D Lm Ep. split; [eapply Inv1_pass; eassumption|].
  assert (It : s_iter s = length (s_rates s)) by (destruct I1 as (I1 & I2 & _); rewrite D in I2; destruct I1 as (_ & _ & _ & I1 & _); lia).
  destruct (pass_facts _ _ _ _ _ _ _ _ _ Ep) as (e & err & gn & ws & Fw & F4 & [(sig & act & ev & Dg & Da & Va & Vs & Ac & Ro & Ob & Lg & Iu & Rr & Do & Co & Lo & LoE & Bm & Cs)|(next & eff & tl & Ac & Ro & Ob & Lg & Rr & Bm & Lo & LoE & (g & k0 & a & d & a' & ng & iters & more & lr & Est & Elr) & Fl)]).
  - assert (Hi : (0 < s_iter s)%nat) by apply Dg. rewrite Rr, Iu, Do, D. split; [exact Ra|]. split; [|split; [|exact Rd]].
    + intros Hn _. destruct (Rb Hn D) as (k & B1 & B2). destruct (base_halves s s' Bm Hi) as (k' & C1 & C2). exists (k + k')%nat. rewrite C1, B1, pow_add. split; [ring|]. intros Hk. destruct (Nat.eq_dec k 0) as [->|Hk0]; [apply C2; lia|exact (B2 Hk0)].
    + intros Q. rewrite Q in It. cbn in It. lia.
  - rewrite (Hef _ _ _ _ _ _ _ _ _ _ _ _ Est), (Elr Sel) in Rr. clear Est Elr. rewrite Rr.
    assert (Hd : s_done s' = false -> s_iter s' = S (s_iter s)). { intros Hd. destruct (stop_of p e gn s); [destruct Fl as (F1 & _); congruence|]. destruct Fl as (_ & _ & _ & Fl). destruct (user_stop _ _ _); [destruct Fl as (F1 & _); congruence|apply Fl]. }
    split; [|split; [|split]].
    + intros j Hj. rewrite app_length in Hj. cbn [length] in Hj. destruct (Nat.eq_dec (S j) (length (s_rates s))) as [Q|Q].
      * assert (Hn : s_rates s <> []) by (intros Z; rewrite Z in Q; discriminate). rewrite app_nth2 by lia. rewrite app_nth1 by lia. replace (S j - length (s_rates s))%nat with 0%nat by lia. cbn [nth].
        destruct (Rb Hn D) as (k & B1 & B2). destruct (base_halves s s' Bm ltac:(lia)) as (k' & C1 & C2). exists (k + k')%nat. rewrite C1, B1, pow_add. replace j with (length (s_rates s) - 1)%nat by lia. rewrite (nth_last _ 0 Hn). split; [ring|]. replace (S (length (s_rates s) - 1)) with (s_iter s) by lia. intros Hk. destruct (Nat.eq_dec k 0) as [->|Hk0]; [apply C2; lia|exact (B2 Hk0)].
      * rewrite !app_nth1 by lia. apply Ra. lia.
    + intros _ Hd'. rewrite last_last. exists 0%nat. split; [simpl; lra|congruence].
    + intros Q. destruct (s_rates s); discriminate.
    + intros _. destruct (s_rates s) as [|r0 rs] eqn:Er.
      * cbn [app nth]. cbn in It. unfold base_moves in Bm. rewrite (Rc eq_refl) in Bm. destruct Bm as [[B1 B2]|[(B1 & B2 & k & f & B3)|(_ & B2 & _)]].
        -- destruct (p_init_on p); [exfalso; apply (B2 eq_refl); exact It|exact B1].
        -- rewrite B1. eexists. split; [|exact B3]. apply try_all_etas.
        -- lia.
      * cbn [app nth] in *. apply Rd. discriminate.
Qed.
Theorem selected_rates fuel s : any_selector p = true -> (forall k a d w g lr a' next eff ng iters more, a_step alg k a d w g lr = Ok (a', (next, eff), (ng, iters), more) -> eff = lr) ->
  optimize fuel (new_members fresh sc) w0 = Ok (Finished s) ->
  (forall j, (S j < length (s_rates s))%nat -> exists k, nth (S j) (s_rates s) 0 = nth j (s_rates s) 0 * (1 / 2) ^ k /\ (k <> 0%nat -> p_per_on p = true /\ (S j mod p_per_every p = 0)%nat)) /\
  (s_rates s <> [] -> if p_init_on p then exists cs, map c_eta cs = candidates_initial p (p_rate p) /\ select_initial cs = Ok (nth 0 (s_rates s) 0) else nth 0 (s_rates s) 0 = p_rate p).
Proof.
  intros Sel Hef Eo. apply optimize_run in Eo.
  assert (B : InvR begin). { split; [apply Inv1_begin|]. cbn. split; [intros j Hj; lia|]. split; [congruence|]. split; [reflexivity|congruence]. }
  destruct (run_induct InvR (fun u u' => InvR_pass u u' Sel Hef) fuel begin _ B Eo) as [(_ & Ra & _ & _ & Rd) _]. split; assumption.
Qed.
End Loop.
