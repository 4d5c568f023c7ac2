From Coq Require Import List Arith Bool Lia.
From Verif Require Import Base ReplicaModel ReplicaSpec.
Import ListNotations.

Section Proofs.
Variables Cfg V : Type.
Variable sweep : nat -> nat -> Cfg -> Cfg.
Variable overlap : Cfg -> Cfg -> V.
Variables P N : nat.
Variable c : nat -> Cfg.
Notation net := (net Cfg V).
Notation rstep := (rstep Cfg V sweep overlap P N).
Notation rrun := (rrun Cfg V sweep overlap P N c).
Notation after := (after Cfg sweep (c 0)).
Notation before := (before P).
Notation expected := (expected Cfg V sweep overlap P (c 0)).
Notation round s r := (c_round Cfg V (n_proc Cfg V s r)).
Notation sent s r := (c_sent Cfg V (n_proc Cfg V s r)).
Definition count (s : net) (r : nat) : nat := round s r + if sent s r then 1 else 0.
Lemma source_before r : r < P -> source_of P r = before r.
Proof.
  intros H. unfold source_of. destruct r as [|r]; cbn [before].
  - apply Nat.mod_small. lia.
  - symmetry. apply (Nat.mod_unique _ P 1); lia.
Qed.
Lemma dest_range r : 0 < P -> dest_of P r < P.
Proof. intros H. apply Nat.mod_upper_bound. lia. Qed.
Lemma before_dest r : r < P -> before (dest_of P r) = r.
Proof.
  intros H. unfold dest_of. destruct (Nat.eq_dec (r + 1) P) as [E|E].
  - rewrite E, Nat.mod_same by lia. cbn [ReplicaSpec.before]. lia.
  - rewrite Nat.mod_small by lia. rewrite Nat.add_comm. reflexivity.
Qed.
Lemma before_range r : r < P -> before r < P.
Proof. destruct r; cbn [ReplicaSpec.before]; lia. Qed.
Lemma upd_same {X} (f : nat -> X) r x : upd f r x r = x.
Proof. unfold upd. rewrite Nat.eqb_refl. reflexivity. Qed.
Lemma upd_other {X} (f : nat -> X) r x i : i <> r -> upd f r x i = f i.
Proof. intros H. unfold upd. destruct (Nat.eqb_spec i r); [contradiction|reflexivity]. Qed.

(** *** Invariant *)
Definition fine (s : net) (r : nat) : Prop :=
  c_cfg Cfg V (n_proc Cfg V s r) = after r (count s r) /\ c_overlaps Cfg V (n_proc Cfg V s r) = expected r (round s r) /\
  count s r <= N /\ round s r <= count s (before r) /\
  n_chan Cfg V s (before r) r = map (fun j => (r, after (before r) (S j))) (seq (round s r) (count s (before r) - round s r)).
Definition good (s : net) : Prop := (forall r, r < P -> fine s r) /\ (n_crash Cfg V s = true -> N < 10 /\ 0 < N) /\ (n_crash Cfg V s = false -> 10 <= N \/ round s 0 = 0).
Lemma good_start : good (replica_start Cfg V c).
Proof.
  split; [|split]; [|discriminate|right; reflexivity]. intros r H. unfold fine, count. cbn. split; [|repeat split; lia]. unfold synchronize. destruct (Nat.eqb_spec r 0); subst; reflexivity.
Qed.
Lemma expected_next r n : expected r (S n) = expected r n ++ [overlap (after r (S n)) (after (before r) (S n))].
Proof. unfold ReplicaSpec.expected. rewrite seq_S, map_app. reflexivity. Qed.
Lemma good_step s s' : good s -> rstep s s' -> good s'.
Proof.
  intros (G & K & K') S. destruct S as [s r U R p W L x|s r x q U R p W Q].
  - subst p x. set (y := sweep _ _ _). assert (Y : y = after r (S (round s r))).
    { destruct (G r R) as (A & _). unfold y. rewrite A. unfold count. rewrite W, Nat.add_0_r. reflexivity. }
    split; [|split; [discriminate|]].
    + intros r' R'. destruct (G r' R') as (A & B & D & E & F). unfold fine, count. cbn [n_proc n_chan].
      assert (C : forall i, (c_round Cfg V (upd (n_proc Cfg V s) r (mkProc Cfg V y (round s r) true (c_overlaps Cfg V (n_proc Cfg V s r))) i) = round s i)).
      { intros i. destruct (Nat.eq_dec i r) as [->|Ne]; [rewrite upd_same|rewrite upd_other by exact Ne]; reflexivity. }
      assert (C' : forall i, (if c_sent Cfg V (upd (n_proc Cfg V s) r (mkProc Cfg V y (round s r) true (c_overlaps Cfg V (n_proc Cfg V s r))) i) then 1 else 0) = if i =? r then 1 else if sent s i then 1 else 0).
      { intros i. unfold upd. destruct (Nat.eqb_spec i r); reflexivity. }
      rewrite !C, !C'. split; [|split; [|split; [|split]]].
      * destruct (Nat.eq_dec r' r) as [->|Ne]; [rewrite upd_same, Nat.eqb_refl, Nat.add_1_r; exact Y|rewrite upd_other by exact Ne]. apply Nat.eqb_neq in Ne. rewrite Ne. exact A.
      * destruct (Nat.eq_dec r' r) as [->|Ne]; [rewrite upd_same; exact B|rewrite upd_other by exact Ne; exact B].
      * unfold count in D. destruct (Nat.eqb_spec r' r) as [->|Ne]; lia.
      * unfold count in E. destruct (Nat.eqb_spec (before r') r) as [Eb|Ne]; [rewrite Eb in E; rewrite W in E; rewrite Eb; lia|exact E].
      * destruct (Nat.eqb_spec (before r') r) as [Eb|Ne].
        -- assert (Dr : dest_of P r = r').
           { assert (Bd := before_dest r R). rewrite <- Eb in Bd at 2. assert (dest_of P r < P) by (apply dest_range; lia). revert Bd. destruct (dest_of P r), r'; cbn [ReplicaSpec.before]; intros; try lia. }
           rewrite Eb, upd_same, Dr, upd_same. rewrite Eb in F. rewrite F. unfold count in E |- *. rewrite Eb, W in E. rewrite W.
           replace (round s r + 1 - round s r') with (S (round s r + 0 - round s r')) by lia. rewrite seq_S, map_app. cbn [map]. f_equal. f_equal. f_equal. rewrite Y. f_equal. lia.
        -- rewrite upd_other by exact Ne. unfold count in F. exact F.
    + intros _. destruct (K' U) as [T|T]; [left; exact T|right]. cbn [n_proc]. unfold upd. destruct (0 =? r) eqn:Z; [|exact T]. apply Nat.eqb_eq in Z. subst r. exact T.
  - subst p. assert (Sb := source_before r R). destruct (G r R) as (A0 & B0 & D0 & E0 & F0). rewrite Sb in *. rewrite F0 in Q.
    destruct (count s (before r) - round s r) as [|m] eqn:M; [discriminate|]. cbn [seq map] in Q. injection Q as Qx Qq.
    assert (C0 : count s r = S (round s r)) by (unfold count; rewrite W; lia).
    split; [|split].
    + intros r' R'. destruct (G r' R') as (A & B & D & E & F). unfold fine, count. cbn [n_proc n_chan].
      set (pr := mkProc _ _ _ _ _ _).
      assert (C : forall i, c_round Cfg V (upd (n_proc Cfg V s) r pr i) = if i =? r then S (round s r) else round s i).
      { intros i. unfold upd. destruct (Nat.eqb_spec i r); reflexivity. }
      assert (C' : forall i, c_round Cfg V (upd (n_proc Cfg V s) r pr i) + (if c_sent Cfg V (upd (n_proc Cfg V s) r pr i) then 1 else 0) = count s i).
      { intros i. unfold upd. destruct (Nat.eqb_spec i r) as [->|Ne]; [rewrite C0; cbn; lia|reflexivity]. }
      rewrite !C'. rewrite !C. split; [|split; [|split; [|split]]].
      * destruct (Nat.eq_dec r' r) as [->|Ne]; [rewrite upd_same; exact A0|rewrite upd_other by exact Ne; exact A].
      * destruct (Nat.eqb_spec r' r) as [->|Ne]; [rewrite upd_same|rewrite upd_other by exact Ne; exact B]. cbn [c_overlaps pr]. rewrite expected_next, <- B0. f_equal. f_equal. rewrite A0, C0, <- Qx. reflexivity.
      * exact D.
      * destruct (Nat.eqb_spec r' r) as [->|Ne]; [lia|exact E].
      * destruct (Nat.eqb_spec r' r) as [->|Ne].
        -- rewrite upd_same, upd_same. rewrite <- Qq. f_equal. f_equal. lia.
        -- destruct (Nat.eq_dec (before r') (before r)) as [Eb|Nb]; [|rewrite upd_other by exact Nb; exact F]. rewrite <- Eb, upd_same, upd_other by exact Ne. exact F.
    + cbn [n_crash]. intros H. apply andb_prop in H. destruct H as [_ H]. apply Nat.eqb_eq in H. assert (H10 := Nat.div_mod N 10 ltac:(lia)). assert (H11 := Nat.mod_upper_bound N 10 ltac:(lia)). rewrite H in H10. rewrite C0 in D0. lia.
    + cbn [n_crash n_proc]. intros H. destruct (Nat.eqb_spec r 0) as [->|Nr].
      * left. cbn [andb] in H. apply Nat.eqb_neq in H. destruct (le_lt_dec 10 N) as [T|T]; [exact T|]. exfalso. apply H. apply Nat.div_small. exact T.
      * destruct (K' U) as [T|T]; [left; exact T|right]. rewrite upd_other by lia. exact T.
Qed.
Lemma run_good k s : rrun k s -> good s.
Proof. induction 1 as [|k s s' H IH S]; [exact good_start|exact (good_step s s' IH S)]. Qed.

(** *** Steps *)
Fixpoint total (s : net) (n : nat) : nat := match n with O => 0 | S n => total s n + (count s n + round s n) end.
Lemma total_step s s' : rstep s s' -> total s' P = S (total s P).
Proof.
  intros S. assert (H : exists r, r < P /\ count s' r + round s' r = Datatypes.S (count s r + round s r) /\ forall i, i <> r -> count s' i = count s i /\ round s' i = round s i).
  { destruct S as [s r U R p W L x|s r x q U R p W Q]; exists r; (split; [exact R|]); unfold count; cbn [n_proc]; (split; [rewrite !upd_same; subst p; cbn [c_round c_sent]; rewrite W; lia|]); intros i Ne; rewrite !upd_other by exact Ne; split; reflexivity. }
  destruct H as (r & R & A & B). revert R. generalize P as n. intros n. induction n as [|n IH]; intros R; [lia|]. cbn [total]. destruct (Nat.eq_dec r n) as [->|Ne].
  - assert (T : total s' n = total s n). { clear -B. assert (G : forall m, m <= n -> total s' m = total s m). { induction m as [|m IH]; intros L; [reflexivity|]. cbn [total]. rewrite IH by lia. destruct (B m ltac:(lia)) as [-> ->]. reflexivity. } apply G. lia. }
    rewrite T. lia.
  - rewrite IH by lia. destruct (B n ltac:(lia)) as [-> ->]. lia.
Qed.
Lemma run_total k s : rrun k s -> total s P = k.
Proof.
  induction 1 as [|k s s' H IH S]; [|rewrite (total_step s s' S), IH; reflexivity]. generalize P as m. intros m. induction m as [|m IH]; [reflexivity|]. cbn [total]. rewrite IH. reflexivity.
Qed.
Lemma run_bound k s : rrun k s -> k <= 2 * N * P.
Proof.
  intros H. rewrite <- (run_total k s H). destruct (run_good k s H) as (G & _). assert (B : forall n, n <= P -> total s n <= 2 * N * n).
  { induction n as [|n IH]; intros L; [cbn; lia|]. cbn [total]. destruct (G n ltac:(lia)) as (_ & _ & D & _). unfold count in *. specialize (IH ltac:(lia)). nia. }
  apply B. lia.
Qed.
Lemma search n (p : nat -> bool) : (exists r, r < n /\ p r = true) \/ forall r, r < n -> p r = false.
Proof.
  induction n as [|n [IH|IH]]; [right; intros; lia|left; destruct IH as (r & R & E); exists r; split; [lia|exact E]|].
  destruct (p n) eqn:E; [left; exists n; split; [lia|exact E]|right]. intros r R. destruct (Nat.eq_dec r n) as [->|Ne]; [exact E|apply IH; lia].
Qed.
Lemma least (f p : nat -> nat) n : (exists r, r < n /\ p r = 1) -> exists r, r < n /\ p r = 1 /\ forall i, i < n -> p i = 1 -> f r <= f i.
Proof.
  intros (r0 & R0 & E0). remember (f r0) as m eqn:M. revert r0 R0 E0 M. induction m as [m IH] using lt_wf_ind. intros r0 R0 E0 M.
  destruct (search n (fun i => (p i =? 1) && (f i <? f r0))) as [(i & I & H)|H].
  - apply andb_prop in H. destruct H as [H1 H2]. apply Nat.eqb_eq in H1. apply Nat.ltb_lt in H2. exact (IH (f i) ltac:(lia) i I H1 eq_refl).
  - exists r0. split; [exact R0|]. split; [exact E0|]. intros i I Pi. specialize (H i I). cbv beta in H. rewrite Pi in H. cbn [Nat.eqb andb] in H. apply Nat.ltb_ge in H. exact H.
Qed.
Lemma progress s : good s -> n_crash Cfg V s = false -> (exists s', rstep s s') \/ forall r, r < P -> round s r = N /\ sent s r = false.
Proof.
  intros (G & _) U. destruct (search P (fun r => negb (sent s r) && (round s r <? N))) as [(r & R & H)|H].
  - left. apply andb_prop in H. destruct H as [H1 H2]. apply negb_true_iff in H1. apply Nat.ltb_lt in H2. eexists. exact (step_send Cfg V sweep overlap P N s r U R H1 H2).
  - destruct (search P (fun r => sent s r)) as [X|X].
    + left. destruct (least (fun r => round s r) (fun r => if sent s r then 1 else 0) P) as (r & R & W & M).
      { destruct X as (r & R & W). exists r. split; [exact R|]. cbv beta in W. rewrite W. reflexivity. }
      assert (Wr : sent s r = true) by (destruct (sent s r); [reflexivity|discriminate]). destruct (G r R) as (_ & _ & D & E & F). assert (Bq := before_range r R).
      assert (L : round s r < count s (before r)).
      { unfold count at 1. destruct (sent s (before r)) eqn:Wq.
        - specialize (M (before r) Bq). cbv beta in M. rewrite Wq in M. specialize (M eq_refl). lia.
        - specialize (H (before r) Bq). cbv beta in H. rewrite Wq in H. cbn [negb andb] in H. apply Nat.ltb_ge in H. unfold count in D. rewrite Wr in D. lia. }
      destruct (count s (before r) - round s r) as [|m] eqn:Q; [lia|]. cbn [seq map] in F. rewrite <- (source_before r R) in F at 1.
      eexists. exact (step_receive Cfg V sweep overlap P N s r _ _ U R Wr F).
    + right. intros r R. specialize (X r R). cbv beta in X. split; [|exact X]. specialize (H r R). cbv beta in H. rewrite X in H. cbn [negb andb] in H. apply Nat.ltb_ge in H. destruct (G r R) as (_ & _ & D & _). unfold count in D. lia.
Qed.
Lemma recorded k s r : rrun k s -> r < P -> c_overlaps Cfg V (n_proc Cfg V s r) = expected r (round s r) /\ round s r <= N.
Proof. intros H R. destruct (run_good k s H) as (G & _). destruct (G r R) as (_ & B & D & _). split; [exact B|]. unfold count in D. lia. Qed.
Lemma finished k s : 10 <= N -> rrun k s -> n_crash Cfg V s = false /\
  ((exists s', rstep s s') \/ forall r, r < P -> c_overlaps Cfg V (n_proc Cfg V s r) = expected r N /\ c_cfg Cfg V (n_proc Cfg V s r) = after r N).
Proof.
  intros T H. assert (G := run_good k s H). assert (U : n_crash Cfg V s = false). { destruct (n_crash Cfg V s) eqn:Z; [|reflexivity]. destruct G as (_ & K & _). destruct (K Z). lia. }
  split; [exact U|]. destruct (progress s G U) as [S|D]; [left; exact S|right]. intros r R. destruct (D r R) as [D1 D2]. destruct G as (G & _). destruct (G r R) as (A & B & _). unfold count in A. rewrite D1, D2, Nat.add_0_r in A. rewrite D1 in B. split; assumption.
Qed.
Lemma few k s : 0 < N < 10 -> 0 < P -> rrun k s -> (exists s', rstep s s') \/ n_crash Cfg V s = true.
Proof.
  intros T Pp H. assert (G := run_good k s H). destruct (n_crash Cfg V s) eqn:U; [right; reflexivity|]. left. destruct (progress s G U) as [S|D]; [exact S|]. exfalso.
  destruct G as (_ & _ & K). destruct (K U) as [Q|Q]; [lia|]. destruct (D 0 Pp). lia.
Qed.
Lemma maximal k s : rrun k s -> exists k' s', rrun k' s' /\ ~ exists s'', rstep s' s''.
Proof.
  intros H. remember (2 * N * P - k) as m eqn:M. revert k s H M. induction m as [m IH] using lt_wf_ind. intros k s H M. assert (B := run_bound k s H).
  destruct (n_crash Cfg V s) eqn:U.
  - exists k, s. split; [exact H|]. intros (s' & S). destruct S; congruence.
  - destruct (progress s (run_good k s H) U) as [(s' & S)|D].
    + assert (H' := run_step Cfg V sweep overlap P N c k s s' H S). assert (B' := run_bound _ _ H'). exact (IH (2 * N * P - Datatypes.S k) ltac:(lia) (Datatypes.S k) s' H' eq_refl).
    + exists k, s. split; [exact H|]. intros (s' & S). destruct S as [s r U' R p W L x|s r x q U' R p W Q]; destruct (D r R) as [D1 D2]; subst p; [lia|congruence].
Qed.
Lemma completes : 10 <= N -> exists k s, rrun k s /\ forall r, r < P -> c_overlaps Cfg V (n_proc Cfg V s r) = expected r N.
Proof.
  intros T. destruct (maximal 0 _ (run_start Cfg V sweep overlap P N c)) as (k & s & H & X). exists k, s. split; [exact H|]. destruct (finished k s T H) as (_ & [S|D]); [contradiction|]. intros r R. exact (proj1 (D r R)).
Qed.
Lemma crashes : 0 < N < 10 -> 0 < P -> exists k s, rrun k s /\ n_crash Cfg V s = true.
Proof.
  intros T Pp. destruct (maximal 0 _ (run_start Cfg V sweep overlap P N c)) as (k & s & H & X). exists k, s. split; [exact H|]. destruct (few k s T Pp H) as [S|D]; [contradiction|exact D].
Qed.
Lemma alone k s : P = 1 -> rrun k s -> c_overlaps Cfg V (n_proc Cfg V s 0) = map (fun j => overlap (after 0 (S j)) (after 0 (S j))) (seq 0 (round s 0)).
Proof. intros Q H. destruct (recorded k s 0 H ltac:(lia)) as [E _]. rewrite E. unfold ReplicaSpec.expected, ReplicaSpec.before. rewrite Q. reflexivity. Qed.
End Proofs.
