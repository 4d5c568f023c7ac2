(** From the log of a contraction program to the sum of the contributions of its visits. *)
From Coq Require Import List Arith Lia Bool Reals Permutation.
From Verif Require Import Base ContractorModel ContractorSpec ContractorProofs SweepModel SweepSpec SweepProofs
  HistoryProofs SweepMain UpdaterSpec UpdaterChain BlockChain Cplx EnergyModel EnergySpec.
Import ListNotations.
Local Open Scope nat_scope.

(** Commands that leave configuration, network, amplitude and random engine alone. *)
Definition pure_cmd (x : cmd) : bool :=
  match x with Update _ _ _ | SetSite _ _ | SetAmp _ _ _ | SetAmpC _ _ _ => false | _ => true end.

Section Prog.
Context (o : ops) (val : Amp o -> C) (Rng : Type) (rows cols : nat) (tps : sitps o) (ker : kernel o Rng).
Context (M : model) (checked : bool).

Lemma exec_pure x (w w' : wst o Rng) lg : pure_cmd x = true -> exec o tps ker x w = Ok (w', lg) ->
  cfg w' = cfg w /\ tn w' = tn w /\ amp w' = amp w /\ rng w' = rng w /\
  match x with
  | Query q => exists r, lg = [Read (tn w) q r]
  | Visit v => exists r, lg = [Read (tn w) (query_of v) r; Visited v]
  | _ => lg = []
  end.
Proof.
  intros P E. destruct x; try discriminate; cbn [exec] in E;
  repeat (match type of E with (bind ?x _) = _ => destruct x eqn:?; cbn [bind] in E; [|discriminate] end);
  inversion E; subst; simpl; repeat split; eauto.
Qed.
Lemma run_pure l : forall (w w' : wst o Rng) lg, forallb pure_cmd l = true -> run o tps ker l w = Ok (w', lg) ->
  cfg w' = cfg w /\ tn w' = tn w /\ amp w' = amp w /\ rng w' = rng w.
Proof.
  induction l as [|x l IH]; intros w w' lg P E; cbn [run] in E; [inversion E; auto|].
  simpl in P. apply andb_true_iff in P. destruct P as [P1 P2].
  destruct (exec o tps ker x w) as [[w1 g1]|] eqn:E1; cbn [bind fst snd] in E; [|discriminate].
  destruct (run o tps ker l w1) as [[w2 g2]|] eqn:E2; cbn [bind fst snd] in E; [|discriminate].
  inversion E; subst. destruct (exec_pure _ _ _ _ P1 E1) as (A1 & A2 & A3 & A4 & _).
  destruct (IH _ _ _ P2 E2) as (B1 & B2 & B3 & B4). repeat split; congruence.
Qed.

(** The evaluation as a function of the program and the network alone. *)
Fixpoint eval_prog (c : nat -> nat -> nat) (n : net o) (l : list cmd) (a : acc o) : res (acc o) :=
  match l with
  | [] => Ok a
  | Query q :: l' =>
      match trace_win o n q (answer o rows cols n q) with
      | None => Fail UB
      | Some p => a' <- on_trace o checked (val p) a ;; eval_prog c n l' a'
      end
  | Visit v :: l' =>
      a' <- on_visit o val M tps rows cols c n v (answer o rows cols n (query_of v)) a ;; eval_prog c n l' a'
  | _ :: l' => eval_prog c n l' a
  end.

Definition no_visit_head (lg : list (event o)) : Prop := match lg with Visited _ :: _ => False | _ => True end.
Lemma run_head l : forall (w w' : wst o Rng) lg, forallb pure_cmd l = true -> run o tps ker l w = Ok (w', lg) ->
  no_visit_head lg.
Proof.
  induction l as [|x l IH]; intros w w' lg P E; cbn [run] in E; [inversion E; exact I|].
  simpl in P. apply andb_true_iff in P. destruct P as [P1 P2].
  destruct (exec o tps ker x w) as [[w1 g1]|] eqn:E1; cbn [bind fst snd] in E; [|discriminate].
  destruct (run o tps ker l w1) as [[w2 g2]|] eqn:E2; cbn [bind fst snd] in E; [|discriminate].
  inversion E; subst. destruct (exec_pure _ _ _ _ P1 E1) as (_ & _ & _ & _ & B).
  destruct x; try discriminate; try (subst g1; apply (IH _ _ _ P2 E2)); destruct B as [r ->]; exact I.
Qed.

Lemma evaluate_prog l : forall (w w' : wst o Rng) lg a, forallb pure_cmd l = true ->
  run o tps ker l w = Ok (w', lg) -> log_fresh o rows cols lg ->
  evaluate o val M checked tps rows cols (cfg w) lg a = eval_prog (cfg w) (tn w) l a.
Proof.
  induction l as [|x l IH]; intros w w' lg a P E F; cbn [run] in E; [inversion E; reflexivity|].
  simpl in P. apply andb_true_iff in P. destruct P as [P1 P2].
  destruct (exec o tps ker x w) as [[w1 g1]|] eqn:E1; cbn [bind fst snd] in E; [|discriminate].
  destruct (run o tps ker l w1) as [[w2 g2]|] eqn:E2; cbn [bind fst snd] in E; [|discriminate].
  inversion E; subst. destruct (exec_pure _ _ _ _ P1 E1) as (A1 & A2 & _ & _ & B).
  assert (F2 : log_fresh o rows cols g2) by (intros n q r Hi; apply F; apply in_or_app; right; exact Hi).
  pose proof (run_head l _ _ _ P2 E2) as HN.
  assert (IH' : forall a, evaluate o val M checked tps rows cols (cfg w) g2 a = eval_prog (cfg w) (tn w) l a).
  { intros a0. rewrite <- A1, <- A2. eapply IH; eauto. }
  destruct x; try discriminate; try (subst g1; cbn [eval_prog app]; apply IH').
  - destruct B as [r ->]. assert (R : r = answer o rows cols (tn w) q) by (apply F; left; reflexivity). subst r.
    cbn [app eval_prog].
    assert (U : evaluate o val M checked tps rows cols (cfg w) (Read (tn w) q (answer o rows cols (tn w) q) :: g2) a =
      match trace_win o (tn w) q (answer o rows cols (tn w) q) with
      | None => Fail UB
      | Some p => a' <- on_trace o checked (val p) a ;; evaluate o val M checked tps rows cols (cfg w) g2 a'
      end) by (destruct g2 as [|[| |] g2]; [reflexivity|reflexivity|reflexivity|contradiction]).
    rewrite U. destruct (trace_win _ _ _ _); [|reflexivity]. destruct (on_trace _ _ _ _); [|reflexivity].
    cbn [bind]. apply IH'.
  - destruct B as [r ->]. assert (R : r = answer o rows cols (tn w) (query_of v)) by (apply F; left; reflexivity). subst r.
    cbn [app eval_prog evaluate]. destruct (on_visit _ _ _ _ _ _ _ _ _ _); [|reflexivity]. cbn [bind]. apply IH'.
Qed.

(** Summation over the program. *)
Definition is_hole (v : visit) : bool := match v with VHole _ => true | _ => false end.
Definition hole_at (n : net o) (v : visit) : list (site * Hole o) :=
  match v with
  | VHole s => match window1_spec o rows cols n HORIZONTAL s 1 with
               | ([(m1, m2)], e1, e2) => [(s, hole_of o HORIZONTAL m1 m2 e1 e2)]
               | _ => []
               end
  | _ => []
  end.
Definition queries (l : list cmd) : list query := flat_map (fun x => match x with Query q => [q] | _ => [] end) l.
Definition trace_query (n : net o) (q : query) : C :=
  val (match q with Q1 d s k => trace_at o rows cols n d s k | Q2 d s k => trace2_at o rows cols n d s k end).

Lemma trace_win_answer n q : exists p, trace_win o n q (answer o rows cols n q) = Some p /\ val p = trace_query n q.
Proof.
  destruct q as [d s k|d s k]; cbn [answer trace_win]; unfold trace_query.
  - unfold trace_at. destruct (window1_spec o rows cols n d s k) as [[ms e1] e2]. eexists; split; reflexivity.
  - unfold trace2_at. destruct (window2_spec o rows cols n d s k) as [[ms e1] e2]. eexists; split; reflexivity.
Qed.

Lemma eval_prog_sum (c : nat -> nat -> nat) (n : net o) (ok : option C -> Prop) (e : visit -> C) l :
  (forall q, In q (queries l) -> trace_query n q <> RtoC 0 /\ ok (Some (Cinv (trace_query n q)))) ->
  (forall v, In v (visits l) -> is_hole v = true -> forallb (in_lattice rows cols) (sites_of v) = true) ->
  (forall v a, In v (visits l) -> is_hole v = false -> ok (a_inv a) ->
     on_visit o val M tps rows cols c n v (answer o rows cols n (query_of v)) a =
     Ok (mkAcc (a_inv a) (a_energies a ++ [e v]) (a_psis a) (a_holes a))) ->
  forall a, ok (a_inv a) ->
  exists i, ok i /\ eval_prog c n l a =
    Ok (mkAcc i (a_energies a ++ map e (filter (fun v => negb (is_hole v)) (visits l)))
              (a_psis a ++ map (trace_query n) (queries l))
              (a_holes a ++ flat_map (hole_at n) (visits l))).
Proof.
  induction l as [|x l IH]; intros HQ HH HV a Ha.
  - exists (a_inv a). split; [exact Ha|]. cbn. rewrite !app_nil_r. destruct a; reflexivity.
  - assert (IH' : forall a, ok (a_inv a) -> exists i, ok i /\ eval_prog c n l a =
      Ok (mkAcc i (a_energies a ++ map e (filter (fun v => negb (is_hole v)) (visits l)))
              (a_psis a ++ map (trace_query n) (queries l))
              (a_holes a ++ flat_map (hole_at n) (visits l)))).
    { apply IH.
      - intros q Hq. apply HQ. unfold queries. simpl. apply in_or_app. right. exact Hq.
      - intros v Hv. apply HH. unfold visits. simpl. apply in_or_app. right. exact Hv.
      - intros v a0 Hv. apply HV. unfold visits. simpl. apply in_or_app. right. exact Hv. }
    clear IH. destruct x; try exact (IH' a Ha).
    + cbn [eval_prog]. destruct (trace_win_answer n q) as (p & -> & Hp).
      destruct (HQ q) as [Z K]; [left; reflexivity|]. unfold on_trace, is_zero. rewrite Hp.
      destruct (Ceq_dec (trace_query n q) (RtoC 0)); [contradiction|]. cbn [bind].
      destruct (IH' (mkAcc (Some (Cinv (trace_query n q))) (a_energies a) (a_psis a ++ [trace_query n q]) (a_holes a)) K)
        as (i & Hi & ->).
      exists i. split; [exact Hi|]. cbn [a_energies a_psis a_holes]. rewrite <- app_assoc. reflexivity.
    + cbn [eval_prog]. destruct (is_hole v) eqn:Ev.
      * assert (In v (visits (Visit v :: l))) as Hin by (left; reflexivity).
        pose proof (HH v Hin Ev) as HL. destruct v as [| | |s|]; try discriminate.
        assert (EW : exists m1 m2 e1 e2, window1_spec o rows cols n HORIZONTAL s 1 = ([(m1, m2)], e1, e2)).
        { unfold window1_spec. cbn [seq map]. repeat eexists. }
        destruct EW as (m1 & m2 & e1 & e2 & EW).
        unfold on_visit. rewrite HL. cbn [query_of answer]. rewrite EW. cbn [bind].
        destruct (IH' (mkAcc (a_inv a) (a_energies a) (a_psis a) (a_holes a ++ [(s, hole_of o HORIZONTAL m1 m2 e1 e2)])) Ha)
          as (i & Hi & ->).
        exists i. split; [exact Hi|]. cbn [a_energies a_psis a_holes].
        unfold visits at 4. cbn [flat_map hole_at]. fold (visits l). cbn [app flat_map hole_at]. rewrite EW.
        rewrite <- app_assoc. reflexivity.
      * rewrite (HV v a) by (auto; left; reflexivity). cbn [bind].
        destruct (IH' (mkAcc (a_inv a) (a_energies a ++ [e v]) (a_psis a) (a_holes a)) Ha) as (i & Hi & ->).
        exists i. split; [exact Hi|]. cbn [a_energies a_psis a_holes].
        unfold visits at 3 4. cbn [flat_map]. fold (visits l). cbn [app filter flat_map map]. rewrite Ev. cbn [negb map].
        rewrite <- app_assoc. destruct v; try discriminate; reflexivity.
Qed.
Lemma eval_prog_silent c n l1 : visits l1 = [] -> queries l1 = [] -> forall l2 a,
  eval_prog c n (l1 ++ l2) a = eval_prog c n l2 a.
Proof.
  induction l1 as [|x l1 IH]; intros HV HQ l2 a; [reflexivity|].
  destruct x; try discriminate; cbn [app eval_prog]; apply IH; auto.
Qed.
End Prog.

(** *** Windows do not see the tensors they contain *)
Section Ext.
Context (o : ops) (rows cols : nat).

Definition sees2 (d : orient) (x : site) (k : nat) (r c : nat) : Prop :=
  (across d x <= across d (r, c) <= across d x + 1) /\ along d x <= along d (r, c) < along d x + k.

Lemma env2_ext tn tn' p s k :
  s + 1 < nsl rows cols (pre_of p) -> k <= wid rows cols (pre_of p) ->
  (forall r c, r < rows -> c < cols ->
      (match p with LEFT | RIGHT => r <> s /\ r <> s + 1 | UP | DOWN => c <> s /\ c <> s + 1 end) \/
      (exists i, i < k /\ (env_site (wid rows cols (pre_of p)) p s i = (r, c) \/
                           env_site (wid rows cols (pre_of p)) p (s + 1) i = (r, c))) -> tn r c = tn' r c) ->
  env2_from o rows cols tn p s k = env2_from o rows cols tn' p s k.
Proof.
  intros Hs Hk He.
  assert (L : fst (layers p s) = s /\ snd (layers p s) = s + 1 \/ fst (layers p s) = s + 1 /\ snd (layers p s) = s)
    by (destruct p; simpl; auto).
  assert (B1 : boundary o rows cols tn (pre_of p) (fst (layers p s)) = boundary o rows cols tn' (pre_of p) (fst (layers p s))).
  { unfold boundary. apply bmps_from_ext.
    - intros r c j Hr Hc Hj Hp. apply He; auto. left. destruct p; simpl in *; lia.
    - destruct p; simpl in *; lia. }
  assert (B2 : boundary o rows cols tn (next_of p) (snd (layers p s)) = boundary o rows cols tn' (next_of p) (snd (layers p s))).
  { unfold boundary. apply bmps_from_ext.
    - intros r c j Hr Hc Hj Hp. apply He; auto. left. destruct p; simpl in *; lia.
    - destruct p; simpl in *; lia. }
  induction k as [|k IH]; cbn [env2_from].
  - now rewrite B1, B2.
  - rewrite IH; [|lia|].
    + rewrite B1, B2.
      assert (T : forall q, q = s \/ q = s + 1 ->
         tn (fst (env_site (wid rows cols (pre_of p)) p q k)) (snd (env_site (wid rows cols (pre_of p)) p q k)) =
         tn' (fst (env_site (wid rows cols (pre_of p)) p q k)) (snd (env_site (wid rows cols (pre_of p)) p q k))).
      { intros q Hq. destruct (env_site_in rows cols p q k) as [A B]; [lia|destruct Hq; subst; lia|].
        apply He; auto. right. exists k. split; [lia|].
        destruct Hq; subst q; [left|right]; destruct (env_site _ p _ k); reflexivity. }
      rewrite !T; [reflexivity|destruct L as [[A B]|[A B]]; rewrite ?A, ?B; auto..].
    + intros r c Hr Hc Hp. apply He; auto. destruct Hp as [Hp|(i & Hi & E)]; [auto|].
      right. exists i. split; [lia|exact E].
Qed.

Lemma window2_ext tn tn' d x k : 1 <= k -> window2_in rows cols d x k ->
  (forall r c, r < rows -> c < cols -> ~ sees2 d x k r c -> tn r c = tn' r c) ->
  window2_spec o rows cols tn d x k = window2_spec o rows cols tn' d x k.
Proof.
  intros Hk Hin He. unfold window2_spec.
  assert (FE : forall p s, p = side1 d /\ s = across d x \/ p = side2 d /\ s = across d x + 1 ->
    boundary o rows cols tn p s = boundary o rows cols tn' p s).
  { intros p s Hp. unfold boundary. apply bmps_from_ext.
    - intros r c j Hr Hc Hj Hpp. apply He; auto. unfold sees2.
      destruct d, Hp as [[-> ->]|[-> ->]]; simpl in *; lia.
    - destruct d, Hp as [[-> ->]|[-> ->]]; simpl in *; lia. }
  f_equal; [f_equal|].
  - apply map_ext. intros i. unfold facing. rewrite !FE by auto. reflexivity.
  - apply env2_ext.
    + destruct d; simpl in *; lia.
    + destruct d; simpl in *; lia.
    + intros r c Hr Hc Hp. apply He; auto. unfold sees2. intros Hi.
      destruct Hp as [Hp|(i & Hi2 & [E|E])]; destruct d, x; simpl in *; try inversion E; subst; lia.
  - apply env2_ext.
    + destruct d; simpl in *; lia.
    + destruct d; simpl in *; lia.
    + intros r c Hr Hc Hp. apply He; auto. unfold sees2. intros Hi.
      destruct Hp as [Hp|(i & Hi2 & [E|E])]; destruct d, x; simpl in *; try inversion E; subst; lia.
Qed.
End Ext.
