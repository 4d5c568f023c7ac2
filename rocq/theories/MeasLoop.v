(** The sampling loop of the measurement: agreement between ranks, no deadlock, termination. *)
From Coq Require Import List Arith Lia Bool Wellfounded.
From Verif Require Import Base MinsrModel RingProofs MeasModel.
Import ListNotations.
Local Open Scope nat_scope.

Section L.
Variables P S : nat.
(** proof notion (invariant), not part of the code *)
Definition n_of (c : msys) r := length (m_sent (c r)).
(** proof notion (invariant), not part of the code *)
Definition false_round (c : msys) i := forall q, q < P -> nth_error (m_sent (c q)) i = Some false.
(** proof notion (invariant), not part of the code *)
Definition true_round (c : msys) i := (forall q, q < P -> i < n_of c q) /\ exists q, q < P /\ nth_error (m_sent (c q)) i = Some true.
(** proof notion (invariant), not part of the code *)
Definition ended (c : msys) r :=
  (n_of c r = S /\ m_samples (c r) = S /\ forall i, i < S -> false_round c i) \/
  (0 < n_of c r /\ m_samples (c r) = n_of c r - 1 /\ (forall i, i < n_of c r - 1 -> false_round c i) /\ true_round c (n_of c r - 1)).
(** proof notion (invariant), not part of the code *)
Definition rank_ok (c : msys) r :=
  n_of c r <= S /\
  match m_phase (c r) with
  | PCheck => m_samples (c r) = n_of c r /\ forall i, i < n_of c r -> false_round c i
  | PWait => 0 < n_of c r /\ m_samples (c r) = n_of c r - 1 /\ forall i, i < n_of c r - 1 -> false_round c i
  | PWork => 0 < n_of c r /\ m_samples (c r) = n_of c r - 1 /\ forall i, i < n_of c r -> false_round c i
  | PGather | PEnd => ended c r
  end.
(** proof notion (invariant), not part of the code *)
Definition minv (c : msys) :=
  (forall r, r < P -> rank_ok c r) /\
  (forall r, r < P -> In true (m_sent (c r)) -> m_flag (c r) = true) /\
  (forall r, r < P -> m_phase (c r) = PEnd -> forall q, q < P -> m_phase (c q) = PGather \/ m_phase (c q) = PEnd).

(** [c'] extends [c]: contributions only grow; (proof notion (invariant), not part of the code) *)
Definition grows (c c' : msys) := forall q, q < P -> exists l, m_sent (c' q) = m_sent (c q) ++ l.
Lemma nth_error_grow (c c' : msys) q i b : grows c c' -> q < P -> nth_error (m_sent (c q)) i = Some b -> nth_error (m_sent (c' q)) i = Some b.
Proof. intros G Hq E. destruct (G q Hq) as (l & ->). rewrite nth_error_app1; [exact E|]. apply nth_error_Some. congruence. Qed.
Lemma false_grow c c' i : grows c c' -> false_round c i -> false_round c' i.
Proof. intros G F q Hq. apply (nth_error_grow c); auto. Qed.
Lemma true_grow c c' i : grows c c' -> true_round c i -> true_round c' i.
Proof.
  intros G (A & q & Hq & E). split.
  - intros p Hp. unfold n_of. destruct (G p Hp) as (l & ->). rewrite app_length. specialize (A p Hp). unfold n_of in A. lia.
  - exists q. split; [assumption|]. now apply (nth_error_grow c).
Qed.
Lemma other_ok c c' r : grows c c' -> c' r = c r -> rank_ok c r -> rank_ok c' r.
Proof.
  intros G E (A & B). unfold rank_ok, ended, n_of in *. rewrite E. split; [assumption|]. pose proof (false_grow c c') as FG. pose proof (true_grow c c') as TG.
  destruct (m_phase (c r)).
  - destruct B as (B1 & B2). split; [assumption|]. intros i Hi. apply FG; auto.
  - destruct B as (B1 & B2 & B3). repeat split; try assumption. intros i Hi. apply FG; auto.
  - destruct B as (B1 & B2 & B3). repeat split; try assumption. intros i Hi. apply FG; auto.
  - destruct B as [(B1 & B2 & B3)|(B1 & B2 & B3 & B4)]; [left|right]; repeat split; try assumption; try (intros i Hi; apply FG; auto); apply TG; auto.
  - destruct B as [(B1 & B2 & B3)|(B1 & B2 & B3 & B4)]; [left|right]; repeat split; try assumption; try (intros i Hi; apply FG; auto); apply TG; auto.
Qed.
Lemma grows_upd c r x l : m_sent x = m_sent (c r) ++ l -> grows c (upd c r x).
Proof. intros E q Hq. unfold upd. destruct (Nat.eqb_spec q r) as [->|N]; [now exists l|exists []; now rewrite app_nil_r]. Qed.
Lemma same_round c r x i : m_sent x = m_sent (c r) -> false_round c i -> false_round (upd c r x) i.
Proof. intros E. apply false_grow. apply (grows_upd c r x []). now rewrite app_nil_r. Qed.

Lemma step_inv c c' : minv c -> mstep P S c c' -> minv c'.
Proof.
  intros (I1 & I2 & I3) St.
  assert (K : forall r x l, r < P -> m_sent x = m_sent (c r) ++ l -> (In true (m_sent x) -> m_flag x = true) ->
    rank_ok (upd c r x) r ->
    (m_phase (c r) = PGather \/ m_phase (c r) = PEnd -> m_phase x = PGather \/ m_phase x = PEnd) ->
    (m_phase x = PEnd -> (m_phase (c r) = PEnd) \/ (forall q, q < P -> m_phase (c q) = PGather \/ m_phase (c q) = PEnd)) -> minv (upd c r x)).
  { intros r x l Hr E Hf Ok1 Hk He. unfold minv. repeat match goal with |- _ /\ _ => split end.
    - intros q Hq. destruct (Nat.eq_dec q r) as [->|N]; [assumption|]. apply (other_ok c); [now apply grows_upd with l|now rewrite upd_other|auto].
    - intros q Hq. unfold upd. destruct (Nat.eqb_spec q r) as [->|N]; [assumption|auto].
    - assert (All : (forall q, q < P -> m_phase (c q) = PGather \/ m_phase (c q) = PEnd) -> forall q, q < P -> m_phase (upd c r x q) = PGather \/ m_phase (upd c r x q) = PEnd).
      { intros A q Hq. unfold upd. destruct (Nat.eqb_spec q r) as [->|N]; auto. }
      intros p Hp Ep. apply All. unfold upd in Ep. destruct (Nat.eqb_spec p r) as [->|N].
      + destruct (He Ep) as [E1|A]; [exact (I3 r Hr E1)|exact A].
      + exact (I3 p Hp Ep). }
  destruct St as [c r Hr Ef|c r Hr Ep En|c r Hr Ep En|c r r' Hr Ep Ha Hr' Et|c r Hr Ep Ha Hall|c r Hr Ep|c r Hr Ep Hall].
  - apply (K r _ []); cbn [m_sent m_flag m_phase]; try assumption; try tauto; [now rewrite app_nil_r|].
    pose proof (I1 r Hr) as O. assert (G : grows c (upd c r (mkRank true (m_sent (c r)) (m_phase (c r)) (m_samples (c r))))) by (apply (grows_upd c r _ []); cbn; now rewrite app_nil_r).
    set (c2 := upd c r _) in *. assert (E2 : m_sent (c2 r) = m_sent (c r) /\ m_phase (c2 r) = m_phase (c r) /\ m_samples (c2 r) = m_samples (c r)) by (unfold c2; rewrite upd_same; auto).
    destruct E2 as (E1 & E2 & E3). destruct O as (A & B). unfold rank_ok, ended, n_of in *. rewrite E1, E2, E3. split; [assumption|].
    pose proof (fun i => false_grow c c2 i G) as FG. pose proof (fun i => true_grow c c2 i G) as TG. destruct (m_phase (c r)).
    + destruct B as (B1 & B2). split; [assumption|]. auto.
    + destruct B as (B1 & B2 & B3). repeat split; auto.
    + destruct B as (B1 & B2 & B3). repeat split; auto.
    + destruct B as [(B1 & B2 & B3)|(B1 & B2 & B3 & B4)]; [left|right]; repeat match goal with |- _ /\ _ => split end; auto.
    + destruct B as [(B1 & B2 & B3)|(B1 & B2 & B3 & B4)]; [left|right]; repeat match goal with |- _ /\ _ => split end; auto.
  - pose proof (I1 r Hr) as (A & B). rewrite Ep in B. destruct B as (B1 & B2).
    apply (K r _ [m_flag (c r)]); cbn [m_sent m_flag m_phase]; try assumption; try (intros; discriminate); try reflexivity.
    + intros Hin. apply in_app_or in Hin. destruct Hin as [H|[H|[]]]; [now apply I2|assumption].
    + unfold rank_ok, n_of. rewrite upd_same. cbn [m_sent m_phase m_samples]. rewrite app_length. cbn [length]. unfold n_of in *. repeat split; try lia.
      intros i Hi. apply (false_grow c); [apply grows_upd with [m_flag (c r)]; reflexivity|]. apply B2. lia.
    + intros [H|H]; congruence.
  - pose proof (I1 r Hr) as (A & B). rewrite Ep in B. destruct B as (B1 & B2). apply (K r _ []); cbn [m_sent m_flag m_phase]; try assumption; try (intros; discriminate); [now rewrite app_nil_r|auto| |].
    + unfold rank_ok, ended, n_of in *. rewrite upd_same. cbn [m_sent m_phase m_samples]. split; [assumption|]. left. repeat split; try lia.
      intros i Hi. apply same_round; [reflexivity|]. apply B2. lia.
    + tauto.
  - pose proof (I1 r Hr) as (A & B). rewrite Ep in B. destruct B as (B1 & B2 & B3). apply (K r _ []); cbn [m_sent m_flag m_phase]; try assumption; try (intros; discriminate); [now rewrite app_nil_r|auto| |].
    + unfold rank_ok, ended, n_of in *. rewrite upd_same. cbn [m_sent m_phase m_samples]. split; [assumption|]. right. repeat match goal with |- _ /\ _ => split end; try lia.
      * intros i Hi. apply same_round; [reflexivity|]. auto.
      * apply (true_grow c); [apply (grows_upd c r _ []); cbn; now rewrite app_nil_r|]. split; [|now exists r']. intros q Hq. unfold n_of. specialize (Ha q Hq). lia.
    + tauto.
  - pose proof (I1 r Hr) as (A & B). rewrite Ep in B. destruct B as (B1 & B2 & B3). apply (K r _ []); cbn [m_sent m_flag m_phase]; try assumption; try (intros; discriminate); [now rewrite app_nil_r|auto| |].
    + unfold rank_ok, n_of in *. rewrite upd_same. cbn [m_sent m_phase m_samples]. repeat split; try lia.
      intros i Hi. apply same_round; [reflexivity|]. destruct (Nat.eq_dec i (length (m_sent (c r)) - 1)) as [->|N]; [exact Hall|apply B3; lia].
    + intros [H|H]; congruence.
  - pose proof (I1 r Hr) as (A & B). rewrite Ep in B. destruct B as (B1 & B2 & B3). apply (K r _ []); cbn [m_sent m_flag m_phase]; try assumption; try (intros; discriminate); [now rewrite app_nil_r|auto| |].
    + unfold rank_ok, n_of in *. rewrite upd_same. cbn [m_sent m_phase m_samples]. repeat split; try lia.
      intros i Hi. apply same_round; [reflexivity|]. auto.
    + intros [H|H]; congruence.
  - pose proof (I1 r Hr) as (A & B). rewrite Ep in B. apply (K r _ []); cbn [m_sent m_flag m_phase]; try assumption; try (intros; discriminate); [now rewrite app_nil_r|auto| | |].
    + unfold rank_ok, ended in *. unfold n_of in *. rewrite upd_same. cbn [m_sent m_phase m_samples]. split; [assumption|].
      assert (G : grows c (upd c r (mkRank (m_flag (c r)) (m_sent (c r)) PEnd (m_samples (c r))))) by (apply (grows_upd c r _ []); cbn; now rewrite app_nil_r).
      destruct B as [(B1 & B2 & B3)|(B1 & B2 & B3 & B4)]; [left|right]; repeat match goal with |- _ /\ _ => split end; try assumption; try (intros i Hi; apply (false_grow c); auto). now apply (true_grow c).
    + auto.
    + auto.
Qed.
Lemma start_inv flags : minv (measure_start flags).
Proof.
  split; [|split].
  - intros r Hr. unfold rank_ok, n_of. cbn. split; [lia|]. split; [reflexivity|]. intros i Hi. lia.
  - intros r Hr [].
  - intros r Hr. cbn. discriminate.
Qed.
Lemma steps_inv c c' : msteps P S c c' -> minv c -> minv c'.
Proof. induction 1; [auto|]. intros I. eapply step_inv; [apply IHmsteps; exact I|eassumption]. Qed.

Lemma ended_agree c r q : minv c -> r < P -> q < P -> ended c r -> ended c q -> n_of c r = n_of c q /\ m_samples (c r) = m_samples (c q).
Proof.
  intros (I1 & _) Hr Hq Er Eq.
  assert (NF : forall i, false_round c i -> true_round c i -> False).
  { intros i F (_ & p & Hp & E). rewrite (F p Hp) in E. discriminate. }
  destruct (I1 r Hr) as (Lr & _). destruct (I1 q Hq) as (Lq & _).
  destruct Er as [(A1 & A2 & A3)|(A1 & A2 & A3 & A4)]; destruct Eq as [(B1 & B2 & B3)|(B1 & B2 & B3 & B4)].
  - lia.
  - exfalso. apply (NF (n_of c q - 1)); [apply A3; lia|assumption].
  - exfalso. apply (NF (n_of c r - 1)); [apply B3; lia|assumption].
  - destruct (lt_eq_lt_dec (n_of c r) (n_of c q)) as [[L|E]|L]; [|lia|].
    + exfalso. apply (NF (n_of c r - 1)); [apply B3; lia|assumption].
    + exfalso. apply (NF (n_of c q - 1)); [apply A3; lia|assumption].
Qed.
Lemma after_ended c r : minv c -> r < P -> m_phase (c r) = PGather \/ m_phase (c r) = PEnd -> ended c r.
Proof. intros (I1 & _) Hr E. destruct (I1 r Hr) as (_ & B). destruct E as [E|E]; rewrite E in B; exact B. Qed.

Lemma dec_bounded (Q : nat -> Prop) : (forall r, Q r \/ ~ Q r) -> forall n, (exists r, r < n /\ Q r) \/ (forall r, r < n -> ~ Q r).
Proof.
  intros D n. induction n as [|n [(r & Hr & H)|H]]; [right; lia| |].
  - left. exists r. split; [lia|assumption].
  - destruct (D n) as [Hn|Hn]; [left; exists n; split; [lia|assumption]|right]. intros r Hr. destruct (Nat.eq_dec r n) as [->|N]; [assumption|apply H; lia].
Qed.
Lemma minimal (f : nat -> nat) (Q : nat -> Prop) : (forall r, Q r \/ ~ Q r) -> (exists r, r < P /\ Q r) -> exists r, r < P /\ Q r /\ forall q, q < P -> Q q -> f r <= f q.
Proof.
  intros D (r & Hr & H). remember (f r) as k eqn:E. revert r Hr H E. induction k as [k IH] using (well_founded_induction lt_wf). intros r Hr H ->.
  destruct (dec_bounded (fun q => Q q /\ f q < f r)) with (n := P) as [(q & Hq & Hh & L)|N].
  - intros q. destruct (D q); destruct (lt_dec (f q) (f r)); tauto.
  - apply (IH (f q) L q Hq Hh eq_refl).
  - exists r. split; [assumption|]. split; [assumption|]. intros q Hq Hh. destruct (le_lt_dec (f r) (f q)) as [|L]; [assumption|]. exfalso. apply (N q Hq). auto.
Qed.
Lemma phase_dec (c : msys) ph r : m_phase (c r) = ph \/ m_phase (c r) <> ph.
Proof. destruct (m_phase (c r)), ph; (left; reflexivity) || (right; discriminate). Qed.

Lemma can_step c : minv c -> (exists r, r < P /\ m_phase (c r) <> PEnd) ->
  exists c', mstep P S c c' /\ forall q, q < P -> m_flag (c' q) = m_flag (c q).
Proof.
  intros I (r0 & Hr0 & N0). pose proof I as (I1 & I2 & I3).
  assert (FL : forall r x, m_flag x = m_flag (c r) -> forall q, q < P -> m_flag (upd c r x q) = m_flag (c q)).
  { intros r x E q _. unfold upd. destruct (Nat.eqb_spec q r) as [->|]; auto. }
  destruct (dec_bounded _ (phase_dec c PCheck) P) as [(r & Hr & E)|NC].
  { destruct (le_lt_dec S (length (m_sent (c r)))) as [L|L].
    - eexists. split; [now apply (ms_full P S c r)|]. now apply FL.
    - eexists. split; [now apply (ms_enter P S c r)|]. now apply FL. }
  destruct (dec_bounded _ (phase_dec c PWork) P) as [(r & Hr & E)|NW].
  { eexists. split; [now apply (ms_sample P S c r)|]. now apply FL. }
  destruct (dec_bounded _ (phase_dec c PWait) P) as [Hw|NWt].
  - destruct (minimal (n_of c) _ (phase_dec c PWait) Hw) as (r & Hr & E & Min).
    pose proof (I1 r Hr) as (A & B). rewrite E in B. destruct B as (B1 & B2 & B3).
    assert (All : forall q, q < P -> length (m_sent (c r)) <= length (m_sent (c q))).
    { intros q Hq. change (n_of c r <= n_of c q). destruct (m_phase (c q)) eqn:Eq.
      - exfalso. now apply (NC q Hq).
      - now apply Min.
      - exfalso. now apply (NW q Hq).
      - destruct (after_ended c q I Hq (or_introl Eq)) as [(C1 & _)|(C1 & C2 & C3 & (_ & p & Hp & C4))]; [lia|].
        destruct (le_lt_dec (n_of c r) (n_of c q)) as [|L]; [assumption|]. exfalso. rewrite (B3 (n_of c q - 1)) in C4 by (assumption || lia). discriminate.
      - destruct (after_ended c q I Hq (or_intror Eq)) as [(C1 & _)|(C1 & C2 & C3 & (_ & p & Hp & C4))]; [lia|].
        destruct (le_lt_dec (n_of c r) (n_of c q)) as [|L]; [assumption|]. exfalso. rewrite (B3 (n_of c q - 1)) in C4 by (assumption || lia). discriminate. }
    destruct (dec_bounded (fun q => nth_error (m_sent (c q)) (length (m_sent (c r)) - 1) = Some true)) with (n := P) as [(q & Hq & Eq)|NT].
    { intros q. destruct (nth_error _ _) as [[|]|]; (left; reflexivity) || (right; discriminate). }
    + eexists. split; [now apply (ms_stop P S c r q)|]. now apply FL.
    + eexists. split; [apply (ms_go P S c r); try assumption|now apply FL].
      intros q Hq. specialize (NT q Hq). specialize (All q Hq). unfold n_of in B1. destruct (nth_error (m_sent (c q)) (length (m_sent (c r)) - 1)) as [[|]|] eqn:En; [tauto|reflexivity|].
      apply nth_error_None in En. lia.
  - assert (G : forall q, q < P -> m_phase (c q) = PGather \/ m_phase (c q) = PEnd).
    { intros q Hq. destruct (m_phase (c q)) eqn:Eq; try tauto; exfalso; [now apply (NC q Hq)|now apply (NWt q Hq)|now apply (NW q Hq)]. }
    destruct (G r0 Hr0) as [E|E]; [|congruence].
    eexists. split; [now apply (ms_gather P S c r0)|]. now apply FL.
Qed.

(** proof notion (invariant), not part of the code *)
Definition mcost (c : msys) r :=
  4 * (S - n_of c r) + (match m_phase (c r) with PEnd => 0 | PGather => 1 | PCheck => 2 | PWork => 3 | PWait => 4 end) + (if m_flag (c r) then 0 else 1).
Lemma step_acc_cost c c' : mstep P S c c' -> fold_right (fun r n => mcost c' r + n) 0 (seq 0 P) < fold_right (fun r n => mcost c r + n) 0 (seq 0 P).
Proof.
  intros St. assert (K : forall r x, r < P -> mcost (upd c r x) r < mcost c r -> fold_right (fun q n => mcost (upd c r x) q + n) 0 (seq 0 P) < fold_right (fun q n => mcost c q + n) 0 (seq 0 P)).
  { intros r x Hr L. apply (cost_upd P (mcost c) (mcost (upd c r x)) r Hr); [|assumption]. intros j Hj N. unfold mcost, n_of. now rewrite upd_other. }
  destruct St as [c r Hr Ef|c r Hr Ep En|c r Hr Ep En|c r r' Hr Ep Ha Hr' Et|c r Hr Ep Ha Hall|c r Hr Ep|c r Hr Ep Hall]; apply K; try assumption; unfold mcost, n_of; rewrite upd_same; cbn [m_flag m_sent m_phase m_samples]; try rewrite Ef; try rewrite Ep; try rewrite app_length; cbn [length]; try lia.
Qed.
Lemma meas_acc c : Acc (fun b a => mstep P S a b) c.
Proof.
  remember (fold_right (fun r n => mcost c r + n) 0 (seq 0 P)) as k eqn:E. revert c E. induction k as [k IH] using (well_founded_induction lt_wf). intros c ->. constructor. intros c' St.
  eapply IH; [|reflexivity]. now apply step_acc_cost.
Qed.
(** a rank that stopped short of [S] samples did so because some rank had been signalled *)
Lemma short_signalled c r : minv c -> r < P -> ended c r -> m_samples (c r) < S -> exists q, q < P /\ m_flag (c q) = true.
Proof.
  intros (_ & I2 & _) Hr [(A1 & A2 & A3)|(A1 & A2 & A3 & (_ & q & Hq & E))] L; [lia|]. exists q. split; [assumption|]. apply I2; [assumption|]. eapply nth_error_In. exact E.
Qed.
(** once rank [r] is signalled, everything it contributes says so *)
Lemma signalled_says c c' r : msteps P S c c' -> m_flag (c r) = true ->
  m_flag (c' r) = true /\ forall i, n_of c r <= i -> nth_error (m_sent (c' r)) i <> Some false.
Proof.
  intros St F. induction St as [c|c c' c'' St IH Step].
  - split; [assumption|]. intros i Hi. unfold n_of in Hi. rewrite (proj2 (nth_error_None _ _)) by assumption. discriminate.
  - destruct (IH F) as (F' & N). 
    destruct Step as [c1 q Hq Ef|c1 q Hq Ep En|c1 q Hq Ep En|c1 q r' Hq Ep Ha Hr' Et|c1 q Hq Ep Ha Hall|c1 q Hq Ep|c1 q Hq Ep Hall];
    (destruct (Nat.eq_dec r q) as [<-|Ne]; [rewrite !upd_same; cbn [m_flag m_sent]|now rewrite !upd_other by auto]); try (split; auto; fail).
    split; [assumption|]. intros i Hi. destruct (le_lt_dec (length (m_sent (c1 r))) i) as [L|L].
    + rewrite nth_error_app2 by assumption. rewrite F'. destruct (i - length (m_sent (c1 r))) as [|[|?]]; cbn; discriminate.
    + rewrite nth_error_app1 by assumption. auto.
Qed.
Lemma prompt c c' r q : minv c -> msteps P S c c' -> r < P -> q < P -> m_flag (c r) = true -> m_samples (c' q) <= n_of c r.
Proof.
  intros I St Hr Hq F. destruct (signalled_says c c' r St F) as (_ & N). pose proof (steps_inv c c' St I) as (I1 & _). destruct (I1 q Hq) as (_ & B).
  assert (K : (forall i, i < m_samples (c' q) -> false_round c' i) -> m_samples (c' q) <= n_of c r).
  { intros A. destruct (le_lt_dec (m_samples (c' q)) (n_of c r)) as [|L]; [assumption|]. exfalso. apply (N (n_of c r) (le_n _)). now apply A. }
  apply K. clear K. unfold ended in B. destruct (m_phase (c' q)).
  - destruct B as (B1 & B2). intros i Hi. apply B2. lia.
  - destruct B as (B1 & B2 & B3). intros i Hi. apply B3. lia.
  - destruct B as (B1 & B2 & B3). intros i Hi. apply B3. lia.
  - destruct B as [(B1 & B2 & B3)|(B1 & B2 & B3 & B4)]; intros i Hi; apply B3; lia.
  - destruct B as [(B1 & B2 & B3)|(B1 & B2 & B3 & B4)]; intros i Hi; apply B3; lia.
Qed.
End L.

