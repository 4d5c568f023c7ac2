(** The distributed solver: no deadlock, termination, and the same answer as the serial one. *)
From Coq Require Import List Arith Bool Reals Lia Lra FunctionalExtensionality.
From Verif Require Import Base Cplx CgModel.
Import ListNotations.
Local Open Scope nat_scope.

Lemma set_node_length i x l : i < length l -> length (set_node i x l) = length l.
Proof. intros H. unfold set_node. rewrite app_length, firstn_length. cbn [length]. rewrite skipn_length. lia. Qed.
Lemma set_node_nth i x l j : i < length l -> nth_error (set_node i x l) j = if j =? i then Some x else nth_error l j.
Proof.
  intros H. unfold set_node. destruct (Nat.eqb_spec j i) as [->|Hn].
  - rewrite nth_error_app2 by (rewrite firstn_length; lia). rewrite firstn_length, Nat.min_l, Nat.sub_diag by lia. reflexivity.
  - destruct (Nat.lt_ge_cases j i) as [Hl|Hl].
    + rewrite nth_error_app1 by (rewrite firstn_length; lia). rewrite <- (firstn_skipn i l) at 2. rewrite nth_error_app1 by (rewrite firstn_length; lia). reflexivity.
    + rewrite nth_error_app2 by (rewrite firstn_length; lia). rewrite firstn_length, Nat.min_l by lia. replace (j - i) with (S (j - S i)) by lia. cbn [nth_error].
      rewrite <- (firstn_skipn (S i) l) at 2. rewrite nth_error_app2 by (rewrite firstn_length; lia). rewrite firstn_length, Nat.min_l by lia. reflexivity.
Qed.
Lemma nth_lt {X} (l : list X) i x : nth_error l i = Some x -> i < length l.
Proof. intros H. apply nth_error_Some. congruence. Qed.

Section N.
Variables (n : nat) (mean : vec -> C) (own : vec -> C -> vec) (muls : nat -> vec -> C -> vec).
(** The sum of all the ranks' products. *)
Definition total (v : vec) : vec := fun c => (own v (mean v) c + sumC (fun j => muls j v (mean v) c) (seq 0 n))%C.

(** A node in the round of the product of [v], [d] of whose three messages have been broadcast; the
    flag: the master has its result. *)
Definition idle (s : slave) : Prop := s = SNext \/ s = SSending.
Definition waiting (i : instr) (s : slave) : Prop := match i with IStart => s = SStart | IMult => idle s | IFinish => False end.
Definition msgs (i : instr) (v : vec) : list msg := [MInstr i; MVec v; MScalar (mean v)].
Inductive node_in (i : instr) (v : vec) (j : nat) : nat -> bool -> node -> Prop :=
| ni_wait d s : waiting i s -> d <= 3 -> node_in i v j d false (mkNode s (firstn d (msgs i v)) [])
| ni_vec d : 1 <= d <= 3 -> node_in i v j d false (mkNode SVec (skipn 1 (firstn d (msgs i v))) [])
| ni_scal d : 2 <= d <= 3 -> node_in i v j d false (mkNode (SScalar v) (skipn 2 (firstn d (msgs i v))) [])
| ni_send : node_in i v j 3 false (mkNode (SSend (muls j v (mean v))) [] [])
| ni_sent s : idle s -> node_in i v j 3 false (mkNode s [] [muls j v (mean v)])
| ni_done s : idle s -> node_in i v j 3 true (mkNode s [] []).
Definition nodes_in i v d (tk : nat -> bool) (l : list node) : Prop := length l = n /\ forall j x, nth_error l j = Some x -> node_in i v j d (tk j) x.
Definition untaken (tk : nat -> bool) : list nat := filter (fun j => negb (tk j)) (seq 0 n).
Notation rest k := (fun w => master n mean own IMult (k w)).
Notation unit_cost := (10 * n + 2).
(** Where the master is, with the cost of what it still has to do in this round. *)
Inductive master_in (i : instr) (v : vec) (k : vec -> prog) : nat -> (nat -> bool) -> act -> bool -> nat -> Prop :=
| mi_0 : master_in i v k 0 (fun _ => false) (ABcast (MInstr i) (multiply n mean own v (rest k))) false (3 * unit_cost)
| mi_0b : master_in i v k 1 (fun _ => false) (ABcast (MInstr i) (multiply n mean own v (rest k))) true (2 * unit_cost + 1)
| mi_1 : master_in i v k 1 (fun _ => false) (multiply n mean own v (rest k)) false (2 * unit_cost)
| mi_1b : master_in i v k 2 (fun _ => false) (multiply n mean own v (rest k)) true (unit_cost + 1)
| mi_2 : master_in i v k 2 (fun _ => false) (ABcast (MScalar (mean v)) (recv_all n [] (rest k) (own v (mean v)))) false unit_cost
| mi_2b : master_in i v k 3 (fun _ => false) (ABcast (MScalar (mean v)) (recv_all n [] (rest k) (own v (mean v)))) true 1
| mi_3 tk m got : length (untaken tk) = S m ->
    (forall c, (fold_left vadd got (own v (mean v)) c + sumC (fun j => muls j v (mean v) c) (untaken tk))%C = total v c) ->
    master_in i v k 3 tk (recv_all (S m) got (rest k) (own v (mean v))) false 0.
Definition weight (x : node) : nat := 10 * length (n_down x) + length (n_up x) + match n_state x with SSend _ => 3 | SSending => 1 | _ => 0 end.
Definition weights (l : list node) : nat := list_sum (map weight l).
(** At the end. *)
Inductive end_in (r : cg_result) : nat -> act -> bool -> nat -> Prop :=
| ei_0 : end_in r 0 (ABcast (MInstr IFinish) (ADone r)) false unit_cost
| ei_0b : end_in r 1 (ABcast (MInstr IFinish) (ADone r)) true 1
| ei_1 : end_in r 1 (ADone r) false 0.
Inductive node_end : nat -> node -> Prop :=
| ne_wait d s : idle s -> d <= 1 -> node_end d (mkNode s (firstn d [MInstr IFinish]) [])
| ne_done : node_end 1 (mkNode SEnd [] []).
Definition inv (i : instr) (q : prog) (w : nat) (c : net) : Prop :=
  match q with
  | Mul v k => exists d tk wm, master_in i v k d tk (t_master c) (t_busy c) wm /\ nodes_in i v d tk (t_nodes c) /\ w = wm + weights (t_nodes c)
  | Ret r => i = IMult /\ exists d wm, end_in r d (t_master c) (t_busy c) wm /\ length (t_nodes c) = n /\ (forall j x, nth_error (t_nodes c) j = Some x -> node_end d x) /\ w = wm + weights (t_nodes c)
  end.

Lemma weights_set i x y l : nth_error l i = Some x -> weights (set_node i y l) + weight x = weights l + weight y.
Proof.
  intros H. unfold weights, set_node. rewrite <- (firstn_skipn i l) at 3. pose proof (nth_lt _ _ _ H).
  assert (E : skipn i l = x :: skipn (S i) l). { clear -H. revert i H. induction l as [|a l IH]; intros [|i] H; cbn in *; try discriminate; [injection H as ->; reflexivity|]. now apply IH. }
  rewrite E, !map_app, !list_sum_app. cbn [map list_sum fold_right]. unfold list_sum. lia.
Qed.
Lemma weights_bcast m l : weights (map (fun x => mkNode (n_state x) (n_down x ++ [m]) (n_up x)) l) = weights l + 10 * length l.
Proof.
  unfold weights. induction l as [|x l IH]; cbn [map length]; [reflexivity|]. unfold list_sum in *. cbn [fold_right]. rewrite IH.
  assert (E : weight (mkNode (n_state x) (n_down x ++ [m]) (n_up x)) = weight x + 10) by (unfold weight; cbn [n_state n_down n_up]; rewrite app_length; cbn [length]; lia). rewrite E. lia.
Qed.
Lemma untaken_all tk : (forall j, j < n -> tk j = false) -> untaken tk = seq 0 n.
Proof.
  intros H. unfold untaken. assert (K : forall l, (forall j, In j l -> tk j = false) -> filter (fun j => negb (tk j)) l = l).
  { induction l as [|j l IH]; intros Hl; [reflexivity|]. cbn. rewrite Hl by (left; reflexivity). cbn. f_equal. apply IH. intros; apply Hl; right; assumption. }
  apply K. intros j Hj. apply in_seq in Hj. apply H. lia.
Qed.
(** When the last result is in, the next round begins. *)
Lemma round_over i v k l tk got : untaken tk = [] -> nodes_in i v 3 tk l ->
  (forall c, (fold_left vadd got (own v (mean v)) c + sumC (fun j => muls j v (mean v) c) (untaken tk))%C = total v c) ->
  exists w, inv IMult (k (total v)) w (mkNet (recv_all 0 got (rest k) (own v (mean v))) false l).
Proof.
  intros Hu (Hl & Hn) Hs. cbn [recv_all]. replace (fold_left vadd got (own v (mean v))) with (total v).
  2:{ apply functional_extensionality. intros c. rewrite <- Hs, Hu, sumC_nil. ring. }
  assert (I : forall j x, nth_error l j = Some x -> exists s, idle s /\ x = mkNode s [] []).
  { intros j x Hx. pose proof (nth_lt _ _ _ Hx) as Hj. specialize (Hn j x Hx). assert (T : tk j = true).
    { destruct (tk j) eqn:E; [reflexivity|]. assert (In j (untaken tk)); [|rewrite Hu in *; contradiction]. unfold untaken. apply filter_In. split; [apply in_seq; lia|]. now rewrite E. }
    rewrite T in Hn. inversion Hn; subst. eauto. }
  destruct (k (total v)) as [v' k'|r] eqn:Ek; cbn [master].
  - eexists. do 3 eexists. split; [apply mi_0|]. split; [|reflexivity]. split; [exact Hl|]. intros j x Hx. destruct (I j x Hx) as (s & Hs' & ->). apply (ni_wait IMult v' j 0 s); [exact Hs'|lia].
  - eexists. cbn [inv]. split; [reflexivity|]. do 2 eexists. split; [apply ei_0|]. split; [exact Hl|]. split; [|reflexivity]. intros j x Hx. destruct (I j x Hx) as (s & Hs' & ->). apply (ne_wait 0 s); [exact Hs'|lia].
Qed.
(** The receive of one result. *)
Lemma untaken_drop tk j m : j < n -> tk j = false -> length (untaken tk) = S m ->
  let tk' := fun x => if x =? j then true else tk x in length (untaken tk') = m /\ forall f, sumC f (untaken tk) = (f j + sumC f (untaken tk'))%C.
Proof.
  intros Hj Ht Hm tk'. assert (K : forall l, NoDup l -> In j l -> length (filter (fun x => negb (tk x)) l) = S (length (filter (fun x => negb (tk' x)) l)) /\
    forall f, sumC f (filter (fun x => negb (tk x)) l) = (f j + sumC f (filter (fun x => negb (tk' x)) l))%C).
  { induction l as [|a l IH]; intros Nd Hin; [destruct Hin|]. inversion Nd; subst. cbn [filter]. assert (Ta : tk' a = if a =? j then true else tk a) by reflexivity. rewrite !Ta. clear Ta. destruct (Nat.eqb_spec a j) as [->|Hn].
    - rewrite Ht. cbn [negb]. assert (E : filter (fun x => negb (tk' x)) l = filter (fun x => negb (tk x)) l).
      { apply filter_ext_in. intros x Hx. unfold tk'. destruct (Nat.eqb_spec x j) as [->|]; [contradiction|reflexivity]. }
      rewrite E. split; [reflexivity|]. intros f. now rewrite sumC_cons.
    - destruct Hin as [->|Hin]; [congruence|]. destruct (IH H2 Hin) as (L & F). destruct (tk a); cbn [negb]; [split; assumption|]. cbn [length]. split; [lia|]. intros f. rewrite !sumC_cons, F. ring. }
  destruct (K (seq 0 n) (seq_NoDup _ _) ltac:(apply in_seq; lia)) as (L & F). fold (untaken tk) (untaken tk') in *. split; [lia|exact F].
Qed.

Lemma firstn_up i v d m : d < 3 -> nth_error (msgs i v) d = Some m -> firstn (S d) (msgs i v) = firstn d (msgs i v) ++ [m].
Proof. intros H E. destruct d as [|[|[|d]]]; cbn in *; try lia; injection E as <-; reflexivity. Qed.
Lemma nodes_bcast i v d m l : d < 3 -> nth_error (msgs i v) d = Some m -> nodes_in i v d (fun _ => false) l ->
  nodes_in i v (S d) (fun _ => false) (map (fun x => mkNode (n_state x) (n_down x ++ [m]) (n_up x)) l).
Proof.
  intros Hd Hm (Hl & Hn). split; [now rewrite map_length|]. intros j x Hx. rewrite nth_error_map in Hx. destruct (nth_error l j) as [y|] eqn:E; [|discriminate]. injection Hx as <-.
  specialize (Hn j y E). pose proof (firstn_up i v d m Hd Hm) as F. inversion Hn; subst; try lia; cbn [n_state n_down n_up].
  - rewrite <- F. apply ni_wait; [assumption|lia].
  - replace (skipn 1 (firstn d (msgs i v)) ++ [m]) with (skipn 1 (firstn (S d) (msgs i v))); [apply ni_vec; lia|]. rewrite F. destruct d; [lia|]. reflexivity.
  - replace (skipn 2 (firstn d (msgs i v)) ++ [m]) with (skipn 2 (firstn (S d) (msgs i v))); [apply ni_scal; lia|]. rewrite F. destruct d as [|[|d]]; [lia|lia|]. reflexivity.
Qed.
(** One step of a slave keeps its place in the round. *)
Lemma node_recv i v j d tk x m down s' : node_in i v j d tk x -> n_down x = m :: down -> slave_recv (muls j) (n_state x) m = Some s' ->
  node_in i v j d tk (mkNode s' down (n_up x)).
Proof.
  intros H E R. inversion H; subst; cbn [n_state n_down n_up] in *; try discriminate.
  - destruct d as [|d]; [discriminate|]. cbn in E. injection E as <- <-.
    assert (s' = SVec). { unfold waiting, idle in *. destruct i; [subst s|destruct H0; subst s|contradiction]; cbn in R; congruence. } subst s'. apply (ni_vec i v j (S d)). lia.
  - destruct d as [|[|d]]; cbn in E; try discriminate. injection E as <- <-. cbn in R. injection R as <-. apply (ni_scal i v j (S (S d))). lia.
  - destruct d as [|[|[|d]]]; cbn in E; try discriminate. injection E as <- <-. cbn in R. injection R as <-. destruct d; [|lia]. apply ni_send.
Qed.
Lemma nodes_set i v d tk tk' l j x y : nodes_in i v d tk l -> nth_error l j = Some x -> node_in i v j d (tk' j) y -> (forall a, a <> j -> tk' a = tk a) -> nodes_in i v d tk' (set_node j y l).
Proof.
  intros (Hl & Hn) E Hy Ht. pose proof (nth_lt _ _ _ E). split; [now rewrite set_node_length|]. intros a z Hz. rewrite set_node_nth in Hz by assumption. destruct (Nat.eqb_spec a j) as [->|Ha]; [injection Hz as <-; exact Hy|].
  rewrite Ht by exact Ha. exact (Hn a z Hz).
Qed.
Lemma weight_recv x m down s' mul : n_down x = m :: down -> slave_recv mul (n_state x) m = Some s' -> weight (mkNode s' down (n_up x)) < weight x.
Proof.
  intros E R. unfold weight. cbn [n_state n_down n_up]. rewrite E. cbn [length]. destruct (n_state x), m as [[]|?|?]; cbn in R; try discriminate; injection R as <-; lia.
Qed.

Lemma step_mul i v k w c c' s : inv i (Mul v k) w c -> step muls s c c' ->
  (exists w', w' < w /\ inv i (Mul v k) w' c') \/ exists w', inv IMult (k (total v)) w' c'.
Proof.
  intros (d & tk & wm & M & N & W) St. assert (Hl : length (t_nodes c) = n) by apply N.
  inversion St; subst; cbn [t_master t_busy t_nodes] in *.
  - (* the master broadcasts *)
    left. inversion M; subst.
    + exists (2 * unit_cost + 1 + weights (map (fun x => mkNode (n_state x) (n_down x ++ [MInstr i]) (n_up x)) l)). split; [rewrite weights_bcast, Hl; lia|].
      do 3 eexists. split; [apply mi_0b|]. split; [apply nodes_bcast; [lia|reflexivity|exact N]|reflexivity].
    + exists (unit_cost + 1 + weights (map (fun x => mkNode (n_state x) (n_down x ++ [MVec v]) (n_up x)) l)). split; [rewrite weights_bcast, Hl; lia|].
      do 3 eexists. split; [apply mi_1b|]. split; [apply nodes_bcast; [lia|reflexivity|exact N]|reflexivity].
    + exists (1 + weights (map (fun x => mkNode (n_state x) (n_down x ++ [MScalar (mean v)]) (n_up x)) l)). split; [rewrite weights_bcast, Hl; lia|].
      do 3 eexists. split; [apply mi_2b|]. split; [apply nodes_bcast; [lia|reflexivity|exact N]|reflexivity].
  - (* the broadcast returns *)
    inversion M; subst.
    + left. exists (2 * unit_cost + weights l). split; [lia|]. do 3 eexists. split; [apply mi_1|]. split; [exact N|reflexivity].
    + left. exists (unit_cost + weights l). split; [lia|]. do 3 eexists. split; [apply mi_2|]. split; [exact N|reflexivity].
    + assert (U : untaken (fun _ => false) = seq 0 n) by (apply untaken_all; reflexivity).
      assert (T : forall c, (fold_left vadd [] (own v (mean v)) c + sumC (fun j => muls j v (mean v) c) (untaken (fun _ => false)))%C = total v c) by (intros; rewrite U; reflexivity).
      destruct (length (untaken (fun _ => false))) as [|m] eqn:Lu.
      * right. assert (n = 0) by (rewrite U, seq_length in Lu; exact Lu). replace (recv_all n) with (recv_all 0) by (f_equal; lia). eapply round_over; [|exact N|exact T]. destruct (untaken _); [reflexivity|discriminate].
      * left. exists (0 + weights l). split; [lia|]. exists 3, (fun _ => false), 0. split; [|split; [exact N|reflexivity]]. replace (recv_all n) with (recv_all (S m)) by (f_equal; rewrite U, seq_length in Lu; lia). apply mi_3; assumption.
  - (* the master receives *)
    rename H0 into Up. inversion M as [| | | | | |? ? ? Lu Su]; subst. cbn [recv_all] in *. pose proof (nth_lt _ _ _ H) as Hj. rewrite Hl in Hj.
    pose proof (proj2 N i0 x H) as Nx. inversion Nx; subst; cbn [n_up] in *; try discriminate. injection Up as <- <-.
    assert (Tj : tk i0 = false) by congruence. destruct (untaken_drop tk i0 m Hj Tj Lu) as (L' & F'). set (tk' := fun x => if x =? i0 then true else tk x) in *.
    assert (N' : nodes_in i v 3 tk' (set_node i0 (mkNode s [] []) l)).
    { eapply nodes_set; [exact N|exact H| |]; [unfold tk'; rewrite Nat.eqb_refl; apply ni_done; assumption|]. intros a Ha. unfold tk'. destruct (Nat.eqb_spec a i0); [contradiction|reflexivity]. }
    assert (T' : forall c, (fold_left vadd (got ++ [muls i0 v (mean v)]) (own v (mean v)) c + sumC (fun j => muls j v (mean v) c) (untaken tk'))%C = total v c).
    { intros c. rewrite <- Su, F', fold_left_app. cbn [fold_left]. unfold vadd at 1. ring. }
    cbn [n_state n_down]. destruct m as [|m].
    + right. eapply round_over; [|exact N'|exact T']. destruct (untaken tk'); [reflexivity|discriminate].
    + left. exists (0 + weights (set_node i0 (mkNode s [] []) l)). split.
      { pose proof (weights_set i0 _ (mkNode s [] []) l H) as Ws. unfold weight in Ws at 1 2. cbn [n_state n_down n_up length] in Ws. lia. }
      exists 3, tk', 0. split; [apply mi_3; assumption|]. split; [exact N'|reflexivity].
  - (* a slave receives a broadcast *)
    left. exists (wm + weights (set_node i0 (mkNode s' down (n_up x)) l)). split.
    { pose proof (weights_set i0 _ (mkNode s' down (n_up x)) l H) as Ws. pose proof (weight_recv _ _ _ _ _ H0 H1). lia. }
    exists d, tk, wm. split; [exact M|]. split; [|reflexivity]. eapply nodes_set; [exact N|exact H| |auto]. eapply node_recv; [exact (proj2 N i0 x H)|exact H0|exact H1].
  - (* a slave sends *)
    left. pose proof (proj2 N i0 x H) as Nx. inversion Nx; subst; cbn [n_state n_down n_up app] in *; try discriminate; try (unfold waiting, idle in *; destruct i; intuition congruence).
    injection H0 as <-. exists (wm + weights (set_node i0 (mkNode SSending [] [muls i0 v (mean v)]) l)). split.
    { pose proof (weights_set i0 _ (mkNode SSending [] [muls i0 v (mean v)]) l H) as Ws. unfold weight in Ws at 1 2. cbn [n_state n_down n_up length] in Ws. lia. }
    exists 3, tk, wm. split; [exact M|]. split; [|reflexivity]. eapply nodes_set; [exact N|exact H| |auto]. rewrite <- H3. apply ni_sent. right. reflexivity.
  - (* a send returns *)
    left. exists (wm + weights (set_node i0 (mkNode SNext (n_down x) (n_up x)) l)). split.
    { pose proof (weights_set i0 _ (mkNode SNext (n_down x) (n_up x)) l H) as Ws. unfold weight in Ws at 1 2. cbn [n_state n_down n_up] in Ws. rewrite H0 in Ws. lia. }
    exists d, tk, wm. split; [exact M|]. split; [|reflexivity]. eapply nodes_set; [exact N|exact H| |auto].
    pose proof (proj2 N i0 x H) as Nx. inversion Nx; subst; cbn [n_state n_down n_up] in *; try discriminate; subst.
    + apply ni_wait; [|assumption]. unfold waiting, idle in *. destruct i; [discriminate|left; reflexivity|contradiction].
    + apply ni_sent. left. reflexivity.
    + apply ni_done. left. reflexivity.
Qed.
Lemma step_ret i r w c c' s : inv i (Ret r) w c -> step muls s c c' -> exists w', w' < w /\ inv i (Ret r) w' c'.
Proof.
  intros (Hi & d & wm & M & Hl & N & W) St.
  assert (Set_ : forall j x y l, (forall a z, nth_error l a = Some z -> node_end d z) -> nth_error l j = Some x -> node_end d y -> forall a z, nth_error (set_node j y l) a = Some z -> node_end d z).
  { intros j x y l Hn E Hy a z Hz. rewrite set_node_nth in Hz by exact (nth_lt _ _ _ E). destruct (a =? j); [injection Hz as <-; exact Hy|eauto]. }
  inversion St; subst; cbn [t_master t_busy t_nodes] in *.
  - inversion M; subst. exists (1 + weights (map (fun x => mkNode (n_state x) (n_down x ++ [MInstr IFinish]) (n_up x)) l)). split; [rewrite weights_bcast; lia|].
    split; [reflexivity|]. exists 1, 1. split; [apply ei_0b|]. split; [cbn [t_nodes]; rewrite map_length; assumption|]. split; [|reflexivity]. intros j x Hx. cbn [t_nodes] in Hx. rewrite nth_error_map in Hx. destruct (nth_error l j) as [y|] eqn:E; [|discriminate]. injection Hx as <-.
    specialize (N j y E). inversion N; subst. cbn [n_state n_down n_up firstn app]. apply (ne_wait 1 s); [assumption|lia].
  - inversion M; subst. exists (0 + weights l). split; [lia|]. split; [reflexivity|]. exists 1, 0. split; [apply ei_1|]. auto.
  - inversion M.
  - exists (wm + weights (set_node i0 (mkNode s' down (n_up x)) l)). split.
    { pose proof (weights_set i0 _ (mkNode s' down (n_up x)) l H) as Ws. pose proof (weight_recv _ _ _ _ _ H0 H1). lia. }
    split; [reflexivity|]. exists d, wm. split; [exact M|]. split; [cbn [t_nodes]; rewrite set_node_length; [assumption|exact (nth_lt _ _ _ H)]|]. split; [|reflexivity]. cbn [t_nodes]. eapply Set_; [exact N|exact H|].
    specialize (N i0 x H). inversion N; subst; cbn [n_state n_down n_up] in *; [|discriminate]. destruct d as [|[|d]]; cbn in H0; try discriminate; [|lia]. injection H0 as <- <-.
    destruct H2 as [->| ->]; cbn in H1; [injection H1 as <-; apply ne_done|discriminate].
  - specialize (N i0 x H). inversion N; subst; cbn [n_state] in *; [|discriminate]. destruct H1 as [->| ->]; discriminate.
  - exists (wm + weights (set_node i0 (mkNode SNext (n_down x) (n_up x)) l)). split.
    { pose proof (weights_set i0 _ (mkNode SNext (n_down x) (n_up x)) l H) as Ws. unfold weight in Ws at 1 2. cbn [n_state n_down n_up] in Ws. rewrite H0 in Ws. lia. }
    split; [reflexivity|]. exists d, wm. split; [exact M|]. split; [cbn [t_nodes]; rewrite set_node_length; [assumption|exact (nth_lt _ _ _ H)]|]. split; [|reflexivity]. cbn [t_nodes]. eapply Set_; [exact N|exact H|].
    specialize (N i0 x H). inversion N; subst; cbn [n_state n_down n_up] in *; [|discriminate]. apply ne_wait; [left; reflexivity|assumption].
Qed.

(** *** Consequences *)
Lemma inv_start v k : inv IStart (Mul v k) (3 * unit_cost + weights (repeat (mkNode SStart [] []) n)) (net_start (master n mean own IStart (Mul v k)) n).
Proof.
  exists 0, (fun _ => false), (3 * unit_cost). split; [apply mi_0|]. split; [|reflexivity]. cbn [t_nodes net_start]. split; [apply repeat_length|].
  intros j x Hx. apply nth_error_In in Hx. apply repeat_spec in Hx. subst x. apply (ni_wait IStart v j 0 SStart); [reflexivity|lia].
Qed.
(** What the solver would still do with exact products. *)
Lemma reach_inv v k c : steps muls (net_start (master n mean own IStart (Mul v k)) n) c ->
  exists i q w, inv i q w c /\ run_prog total q = run_prog total (Mul v k).
Proof.
  intros H. remember (net_start _ n) as c0 eqn:E0. induction H as [|c c' c'' s H IH St]; subst.
  - exists IStart, (Mul v k). eexists. split; [apply inv_start|reflexivity].
  - destruct (IH eq_refl) as (i & [v' k'|r] & w & I & Rq).
    + destruct (step_mul _ _ _ _ _ _ _ I St) as [(w' & _ & I')|(w' & I')]; do 3 eexists; (split; [exact I'|]); [exact Rq|]. rewrite <- Rq. reflexivity.
    + destruct (step_ret _ _ _ _ _ _ I St) as (w' & _ & I'). do 3 eexists. split; [exact I'|exact Rq].
Qed.
Lemma acc_inv q : forall i w c, inv i q w c -> Acc (fun b a => exists s, step muls s a b) c.
Proof.
  induction q as [v k IH|r]; intros i w; induction w as [w IHw] using lt_wf_ind; intros c I; constructor; intros c' (s & St).
  - destruct (step_mul _ _ _ _ _ _ _ I St) as [(w' & Hw & I')|(w' & I')]; [exact (IHw w' Hw c' I')|exact (IH _ _ _ _ I')].
  - destruct (step_ret _ _ _ _ _ _ I St) as (w' & Hw & I'). exact (IHw w' Hw c' I').
Qed.
Lemma node_moves i v j d tk x a bz l : node_in i v j d tk x -> nth_error l j = Some x -> (n_down x <> [] \/ (d = 3 /\ tk = false /\ n_up x = [])) -> exists c', step muls true (mkNet a bz l) c'.
Proof.
  intros H E Hc. inversion H; subst; cbn [n_down n_up] in *.
  - destruct d as [|d]; [exfalso; cbn in Hc; intuition (congruence || lia)|]. cbn [firstn msgs] in E. unfold waiting, idle in H0. destruct i.
    + subst s. eexists. eapply st_slave; [exact E|reflexivity|reflexivity].
    + destruct H0 as [->| ->]; eexists; [eapply st_slave; [exact E|reflexivity|reflexivity]|eapply st_sent; [exact E|reflexivity|reflexivity]].
    + contradiction.
  - destruct d as [|[|d]]; [lia|exfalso; cbn in Hc; intuition (congruence || lia)|]. eexists. eapply st_slave; [exact E|reflexivity|reflexivity].
  - destruct d as [|[|[|d]]]; [lia|lia|exfalso; cbn in Hc; intuition (congruence || lia)|]. eexists. eapply st_slave; [exact E|reflexivity|reflexivity].
  - eexists. eapply st_send; [exact E|reflexivity].
  - exfalso. intuition congruence.
  - exfalso. intuition congruence.
Qed.
Lemma all_down_dec (l : list node) : {forall x, In x l -> n_down x = []} + {exists j x, nth_error l j = Some x /\ n_down x <> []}.
Proof.
  induction l as [|y l IH]; [left; intros x []|]. destruct (n_down y) eqn:E; [|right; exists 0, y; split; [reflexivity|congruence]].
  destruct IH as [IH|IH]; [left; intros x [<-|Hx]; auto|right; destruct IH as (j & x & H1 & H2); exists (S j), x; auto].
Qed.
Lemma progress i q w c : inv i q w c -> finished c \/ exists c', step muls true c c'.
Proof.
  destruct c as [a bz l]. destruct q as [v k|r]; cbn [inv t_master t_busy t_nodes].
  - intros (d & tk & wm & M & (Hl & N) & _). right.
    assert (B : forall m k', (d <= 3) -> exists c', step muls true (mkNet (ABcast m k') true l) c').
    { intros m k' _. destruct (all_down_dec l) as [Hd|(j & x & E & Hd)]; [eexists; apply st_bcast_done; auto|]. eapply node_moves; [exact (N j x E)|exact E|left; exact Hd]. }
    inversion M; subst; try (eexists; apply st_bcast; fail); try (apply B; lia).
    (* waiting for a result *)
    destruct (untaken tk) as [|j u] eqn:U; [discriminate|]. assert (Hj : In j (untaken tk)) by (rewrite U; left; reflexivity). unfold untaken in Hj. apply filter_In in Hj as [Hj Ht]. apply in_seq in Hj.
    destruct (nth_error l j) as [x|] eqn:E; [|apply nth_error_None in E; lia]. pose proof (N j x E) as Nx. assert (T : tk j = false) by (destruct (tk j); [discriminate|reflexivity]). rewrite T in Nx.
    destruct (n_up x) as [|z up] eqn:Up; [eapply node_moves; [exact Nx|exact E|right; auto]|]. eexists. cbn [recv_all]. eapply st_recv; [exact E|exact Up].
  - intros (_ & d & wm & M & Hl & N & _).
    assert (B : forall j x bz' a', nth_error l j = Some x -> n_down x <> [] -> exists c', step muls true (mkNet a' bz' l) c').
    { intros j x bz' a' E Hd. specialize (N j x E). inversion N; subst; cbn in Hd; [|congruence]. destruct d as [|[|d]]; [cbn in Hd; congruence| |lia]. destruct H as [->| ->]; eexists; [eapply st_slave; [exact E|reflexivity|reflexivity]|eapply st_sent; [exact E|reflexivity|reflexivity]]. }
    inversion M; subst; [right; eexists; apply st_bcast| |].
    + right. destruct (all_down_dec l) as [Hd|(j & x & E & Hd)]; [eexists; apply st_bcast_done; auto|eapply B; eauto].
    + destruct (all_down_dec l) as [Hd|(j & x & E & Hd)]; [|right; eapply B; eauto]. left. split; [eexists; reflexivity|]. cbn [t_nodes]. intros x Hx. destruct (In_nth_error _ _ Hx) as (j & E). specialize (N j x E). specialize (Hd x Hx). inversion N; subst; [cbn in Hd; discriminate|reflexivity].
Qed.
Lemma inv_kind i q w c : inv i q w c -> forall x, In x (t_nodes c) -> n_state x <> SBad.
Proof.
  intros I x Hx E. destruct (In_nth_error _ _ Hx) as (j & Ej). destruct q as [v k|r]; cbn [inv] in I.
  - destruct I as (d & tk & wm & _ & (_ & N) & _). specialize (N j x Ej). inversion N; subst; cbn in E; try discriminate; unfold waiting, idle in *; try destruct i; intuition congruence.
  - destruct I as (_ & d & wm & _ & _ & N & _). specialize (N j x Ej). inversion N; subst; cbn in E; try discriminate. unfold idle in *. intuition congruence.
Qed.
Lemma inv_finished i q w c r : inv i q w c -> t_master c = ADone r -> t_busy c = false /\ run_prog total q = r.
Proof.
  destruct q as [v k|r']; cbn [inv].
  - intros (d & tk & wm & M & _) E. exfalso. rewrite E in M. inversion M.
  - intros (_ & d & wm & M & _) E. rewrite E in M. inversion M; subst. split; reflexivity.
Qed.
End N.

Lemma net_correct n mean own muls dim p b x0 : let init := net_start (master n mean own IStart (cg dim p b x0)) n in
  Acc (fun b a => exists s, step muls s a b) init /\
  forall c, steps muls init c ->
    (finished c \/ exists c', step muls true c c') /\ (forall x, In x (t_nodes c) -> n_state x <> SBad) /\
    (forall r, t_master c = ADone r -> r = cg_serial dim p (total n mean own muls) b x0).
Proof.
  cbv zeta. split; [eapply acc_inv; apply inv_start|]. intros c H. destruct (reach_inv _ _ _ _ _ _ _ H) as (i & q & w & I & Rq). split; [exact (progress _ _ _ _ _ _ _ _ I)|].
  split; [exact (inv_kind _ _ _ _ _ _ _ _ I)|]. intros r Er. destruct (inv_finished _ _ _ _ _ _ _ _ _ I Er) as (_ & E). unfold cg_serial. rewrite <- E, Rq. reflexivity.
Qed.
