(** Charges after Initial. *)
From Coq Require Import List Arith Lia Bool ZArith.
From Verif Require Import Base InitModel InitSpec.
Import ListNotations.
Local Open Scope nat_scope.

Lemma loop_inv {S} (I : nat -> S -> Prop) a n f s : I a s -> (forall k s, a <= k < a + n -> I k s -> I (Datatypes.S k) (f s k)) -> I (a + n) (loop a n f s).
Proof.
  unfold loop. revert a s. induction n as [|n IH]; intros a s H0 H; cbn [seq fold_left]; [rewrite Nat.add_0_r; exact H0|].
  replace (a + Datatypes.S n) with (Datatypes.S a + n) by lia. apply IH; [apply H; [lia|exact H0]|]. intros k t Hk. apply H. lia.
Qed.
Lemma set_same {X} (m : nat -> nat -> X) r c x : set m r c x r c = x.
Proof. unfold set. rewrite !Nat.eqb_refl. reflexivity. Qed.
Lemma set_other {X} (m : nat -> nat -> X) r c x r' c' : r' <> r \/ c' <> c -> set m r c x r' c' = m r' c'.
Proof. intros H. unfold set. destruct (Nat.eqb_spec r' r), (Nat.eqb_spec c' c); try reflexivity. lia. Qed.

Section G.
Context {G : charges}.
Implicit Types a b : G.
Lemma qzero_l a : qadd q0 a = a.
Proof. rewrite qadd_comm. apply qadd_zero. Qed.
Lemma qneg_l a : qadd (qneg a) a = q0.
Proof. rewrite qadd_comm. apply qadd_neg. Qed.
Lemma qcancel (a b c : G) : qadd a b = qadd a c -> b = c.
Proof. intros H. apply (f_equal (qadd (qneg a))) in H. rewrite !qadd_assoc, qneg_l, !qzero_l in H. exact H. Qed.
Lemma qneg_add a b : qneg (qadd a b) = qadd (qneg a) (qneg b).
Proof.
  apply (qcancel (qadd a b)). rewrite qadd_neg. rewrite (qadd_comm _ a b), <- qadd_assoc, (qadd_assoc _ a (qneg a)), qadd_neg, qzero_l, qadd_neg. reflexivity.
Qed.
Lemma qneg_neg a : qneg (qneg a) = a.
Proof. apply (qcancel (qneg a)). rewrite qadd_neg, qneg_l. reflexivity. Qed.
Lemma qneg_zero : @qneg G q0 = q0.
Proof. apply (qcancel (@q0 G)). rewrite qadd_neg, qadd_zero. reflexivity. Qed.
Lemma qsub_zero a : qsub a q0 = a.
Proof. unfold qsub. rewrite qneg_zero. apply qadd_zero. Qed.
(** a leg that takes what is left *)
Lemma balance (w n e l : G) : qadd (qadd (qadd (qadd (qsub (qadd w n) e) (qneg l)) e) l) (qneg (qadd w n)) = q0.
Proof.
  unfold qsub. generalize (qadd w n) as x. intros x. rewrite <- (qadd_assoc _ (qadd x (qneg e)) (qneg l) e), (qadd_comm _ (qneg l) e), !qadd_assoc.
  rewrite <- (qadd_assoc _ x (qneg e) e), qneg_l, qadd_zero. rewrite <- (qadd_assoc _ x (qneg l) l), qneg_l, qadd_zero. apply qadd_neg.
Qed.
Lemma qswap (a b c : G) : qadd (qadd a b) c = qadd (qadd a c) b.
Proof. rewrite <- !qadd_assoc, (qadd_comm _ b c). reflexivity. Qed.
Lemma qsum_neg (f : nat -> G) n : qneg (qsum f n) = qsum (fun i => qneg (f i)) n.
Proof. induction n as [|n IH]; cbn [qsum]; [apply qneg_zero|]. rewrite qneg_add, IH. reflexivity. Qed.

Variables (rows cols : nat) (per : bool) (phy : nat -> nat -> nat -> G) (out : nat -> nat -> bool) (act : nat -> nat -> nat).
Hypothesis Hr : 1 <= rows. Hypothesis Hc : 1 <= cols.
Let lea := leaving phy out act.
Let col_sum c n := qsum (fun r => lea r c) n.
Let row_sum n := qsum (fun c => col_sum c rows) n.
Lemma phys_leaving q r c : with_phys phy out act q r c = qadd q (qneg (lea r c)).
Proof. unfold with_phys, lea, leaving. destruct (out r c); [reflexivity|]. rewrite qneg_neg. reflexivity. Qed.

Let sur := @surround G rows cols per.
Lemma surround_ok p : let s := sur p in
  (forall c, c < cols -> lv s 0 c = q0) /\ (per = false -> forall c, c < cols -> lv s rows c = q0) /\
  (forall r, r < rows -> lh s r 0 = q0) /\ (per = false -> forall r, r < rows -> lh s r cols = q0) /\
  (forall r c, r < rows - 1 -> c < cols -> lh s r c = q0).
Proof.
  cbn zeta. unfold sur, surround.
  set (p1 := loop 0 cols _ p). assert (H1 : forall c, c < cols -> lv p1 0 c = q0).
  { apply (loop_inv (fun k s => forall c, c < k -> lv s 0 c = q0) 0 cols); [lia|]. intros k s _ I c Hk. cbn [set_lv lv]. destruct (Nat.eq_dec c k) as [->|N]; [apply set_same|]. rewrite set_other by lia. apply I. lia. }
  clearbody p1. set (p2 := if per then p1 else _). assert (H2 : (forall c, c < cols -> lv p2 0 c = q0) /\ (per = false -> forall c, c < cols -> lv p2 rows c = q0)).
  { unfold p2. destruct per; [split; [exact H1|discriminate]|]. apply (loop_inv (fun k s => (forall c, c < cols -> lv s 0 c = q0) /\ (false = false -> forall c, c < k -> lv s rows c = q0)) 0 cols); [split; [exact H1|lia]|].
    intros k s _ [I1 I2]. cbn [set_lv lv]. split; [intros c Hk; rewrite set_other by lia; apply I1, Hk|]. intros _ c Hk. destruct (Nat.eq_dec c k) as [->|N]; [apply set_same|]. rewrite set_other by lia. apply I2; [reflexivity|lia]. }
  clearbody p2. clear p1 H1. set (p3 := loop 0 rows (fun p r => set_lh p r 0 q0) p2).
  assert (H3 : lv p3 = lv p2 /\ forall r, r < rows -> lh p3 r 0 = q0).
  { apply (loop_inv (fun k s => lv s = lv p2 /\ forall r, r < k -> lh s r 0 = q0) 0 rows); [split; [reflexivity|lia]|]. intros k s _ [I1 I2]. split; [exact I1|]. cbn [set_lh lh]. intros r Hk. destruct (Nat.eq_dec r k) as [->|N]; [apply set_same|]. rewrite set_other by lia. apply I2. lia. }
  clearbody p3. set (p4 := if per then p3 else _).
  assert (H4 : lv p4 = lv p2 /\ (forall r, r < rows -> lh p4 r 0 = q0) /\ (per = false -> forall r, r < rows -> lh p4 r cols = q0)).
  { unfold p4. destruct per; [split; [apply H3|split; [apply H3|discriminate]]|].
    apply (loop_inv (fun k s => lv s = lv p2 /\ (forall r, r < rows -> lh s r 0 = q0) /\ (false = false -> forall r, r < k -> lh s r cols = q0)) 0 rows); [split; [apply H3|split; [apply H3|lia]]|].
    intros k s _ (I1 & I2 & I3). split; [exact I1|]. cbn [set_lh lh]. split; [intros r Hk; rewrite set_other by lia; apply I2, Hk|]. intros _ r Hk. destruct (Nat.eq_dec r k) as [->|N]; [apply set_same|]. rewrite set_other by lia. apply I3; [reflexivity|lia]. }
  clearbody p4. clear p3 H3. set (J := fun k (s : peps G) => lv s = lv p2 /\ (forall r, r < rows -> lh s r 0 = q0) /\ (per = false -> forall r, r < rows -> lh s r cols = q0) /\ forall r c, r < k -> c < cols -> lh s r c = q0).
  assert (H5 : J (0 + (rows - 1)) (loop 0 (rows - 1) (fun p r => loop 0 cols (fun p c => set_lh p r c q0) p) p4)).
  { apply loop_inv; [split; [apply H4|split; [apply H4|split; [apply H4|lia]]]|]. intros k s Hk IJ.
    assert (Q : J k (loop 0 cols (fun p c => set_lh p k c q0) s) /\ forall c, c < cols -> lh (loop 0 cols (fun p c => set_lh p k c q0) s) k c = q0).
    { apply (loop_inv (fun m s => J k s /\ forall c, c < m -> lh s k c = q0) 0 cols); [split; [exact IJ|lia]|]. intros m t Hm ((I1 & I2 & I3 & I4) & I5). unfold J. cbn [set_lh lh lv]. split; [split; [exact I1|]|].
      - split; [|split].
        + intros r Hx. unfold set. destruct ((r =? k) && (0 =? m)); [reflexivity|apply I2, Hx].
        + intros Hp r Hx. rewrite set_other by lia. apply I3; assumption.
        + intros r c Hx Hy. rewrite set_other by lia. apply I4; assumption.
      - intros c Hx. destruct (Nat.eq_dec c m) as [->|N]; [apply set_same|]. rewrite set_other by lia. apply I5. lia. }
    destruct Q as [(I1 & I2 & I3 & I4) I5]. split; [exact I1|]. split; [exact I2|]. split; [exact I3|]. intros r c Hx Hy. destruct (Nat.eq_dec r k) as [->|N]; [apply I5, Hy|apply I4; lia]. }
  destruct H5 as (I1 & I2 & I3 & I4). rewrite I1. cbn [plus] in I4. split; [apply H2|]. split; [apply H2|]. split; [exact I2|]. split; [exact I3|]. intros r c Hx Hy. apply I4; lia.
Qed.

(** the lambdas above row [k] and the rows before it are set *)
Definition row_ready (k : nat) (s : peps G) : Prop :=
  (forall r c, r <= k -> c < cols -> lv s r c = qneg (col_sum c r)) /\
  (per = false -> forall c, c < cols -> lv s rows c = q0) /\
  (forall r, r < rows -> lh s r 0 = q0) /\ (per = false -> forall r, r < rows -> lh s r cols = q0) /\
  (forall r c, r < rows - 1 -> c < cols -> lh s r c = q0) /\
  (forall r c, r < k -> c < cols -> ga s r c = mkG q0 (qneg (col_sum c (r + 1))) q0 (qneg (col_sum c r)) (act r c)).
Lemma comb_row k s : k < rows - 1 -> row_ready k s -> let t := loop 0 cols (comb_site phy out act k) s in
  row_ready k t /\ forall c, c < cols -> ga t k c = mkG q0 (qneg (col_sum c (k + 1))) q0 (qneg (col_sum c k)) (act k c).
Proof.
  intros Hk R. cbn zeta. apply (loop_inv (fun m t => row_ready k t /\ forall c, c < m -> ga t k c = mkG q0 (qneg (col_sum c (k + 1))) q0 (qneg (col_sum c k)) (act k c)) 0 cols); [split; [exact R|lia]|].
  intros m t Hm ((R1 & R2 & R3 & R4 & R5 & R6) & D). unfold comb_site. cbn zeta. split.
  - repeat split; try assumption. cbn [set_ga ga]. intros r c Hx Hy. rewrite set_other by lia. apply R6; assumption.
  - intros c Hx. cbn [set_ga ga]. destruct (Nat.eq_dec c m) as [->|N]; [|rewrite set_other by lia; apply D; lia].
    rewrite set_same, R5, R1 by lia. f_equal. rewrite phys_leaving, qsub_zero, qzero_l. replace (k + 1) with (Datatypes.S k) by lia. unfold col_sum. cbn [qsum]. rewrite qneg_add. reflexivity.
Qed.
Lemma join_row k s : 1 <= k < rows -> row_ready (k - 1) s -> (forall c, c < cols -> ga s (k - 1) c = mkG q0 (qneg (col_sum c (k - 1 + 1))) q0 (qneg (col_sum c (k - 1))) (act (k - 1) c)) ->
  row_ready k (join_rows cols k s).
Proof.
  intros Hk (R1 & R2 & R3 & R4 & R5 & R6) D. unfold join_rows.
  assert (Q : (forall r c, r <= k - 1 -> c < cols -> lv (loop 0 cols (fun p c => set_lv p k c (south (ga p (k - 1) c))) s) r c = qneg (col_sum c r)) /\
    (per = false -> forall c, c < cols -> lv (loop 0 cols (fun p c => set_lv p k c (south (ga p (k - 1) c))) s) rows c = q0) /\
    lh (loop 0 cols (fun p c => set_lv p k c (south (ga p (k - 1) c))) s) = lh s /\ ga (loop 0 cols (fun p c => set_lv p k c (south (ga p (k - 1) c))) s) = ga s /\
    forall c, c < cols -> lv (loop 0 cols (fun p c => set_lv p k c (south (ga p (k - 1) c))) s) k c = qneg (col_sum c k)).
  { apply (loop_inv (fun m t => (forall r c, r <= k - 1 -> c < cols -> lv t r c = qneg (col_sum c r)) /\ (per = false -> forall c, c < cols -> lv t rows c = q0) /\ lh t = lh s /\ ga t = ga s /\ forall c, c < m -> lv t k c = qneg (col_sum c k)) 0 cols).
    - repeat split; try assumption. lia.
    - intros m t Hm (I1 & I2 & I3 & I4 & I5). cbn [set_lv lv lh ga]. split; [intros r c Hx Hy; rewrite set_other by lia; apply I1; assumption|]. split; [intros Hp c Hy; rewrite set_other by lia; apply I2; assumption|].
      split; [exact I3|]. split; [exact I4|]. intros c Hx. destruct (Nat.eq_dec c m) as [->|N]; [|rewrite set_other by lia; apply I5; lia]. rewrite set_same, I4, D by lia. cbn [south]. f_equal. f_equal. lia. }
  destruct Q as (I1 & I2 & I3 & I4 & I5). unfold row_ready. rewrite I3, I4. split; [|split; [exact I2|split; [exact R3|split; [exact R4|split; [exact R5|]]]]].
  - intros r c Hx Hy. destruct (Nat.eq_dec r k) as [->|N]; [apply I5, Hy|apply I1; lia].
  - intros r c Hx Hy. destruct (Nat.eq_dec r (k - 1)) as [->|N]; [apply D, Hy|apply R6; lia].
Qed.
Lemma row_zero p : row_ready 0 (sur p).
Proof.
  destruct (surround_ok p) as (A & B & C & D & E). split; [|split; [exact B|split; [exact C|split; [exact D|split; [exact E|lia]]]]].
  intros r c Hx Hy. assert (r = 0) by lia. subst r. rewrite A by exact Hy. unfold col_sum. cbn [qsum]. symmetry. apply qneg_zero.
Qed.
(** before the last row *)
Definition before (p : peps G) : peps G :=
  let p := sur p in
  let p := loop 0 cols (comb_site phy out act 0) p in
  let p := loop 1 (rows - 1 - 1) (fun p r => loop 0 cols (comb_site phy out act r) (join_rows cols r p)) p in
  if 1 <? rows then join_rows cols (rows - 1) p else p.
Lemma before_ready p : row_ready (rows - 1) (before p).
Proof.
  unfold before. cbn zeta. pose proof (row_zero p) as R0. destruct (Nat.ltb_spec 1 rows) as [H1|H1].
  - destruct (comb_row 0 (sur p) ltac:(lia) R0) as [R1 D1]. cbn zeta in *. set (p1 := loop 0 cols (comb_site phy out act 0) (sur p)) in *. clearbody p1.
    set (p2 := loop 1 (rows - 1 - 1) _ p1).
    assert (Q : row_ready (1 + (rows - 1 - 1) - 1) p2 /\ forall c, c < cols -> ga p2 (1 + (rows - 1 - 1) - 1) c = mkG q0 (qneg (col_sum c (1 + (rows - 1 - 1) - 1 + 1))) q0 (qneg (col_sum c (1 + (rows - 1 - 1) - 1))) (act (1 + (rows - 1 - 1) - 1) c)).
    { apply (loop_inv (fun m t => row_ready (m - 1) t /\ forall c, c < cols -> ga t (m - 1) c = mkG q0 (qneg (col_sum c (m - 1 + 1))) q0 (qneg (col_sum c (m - 1))) (act (m - 1) c)) 1 (rows - 1 - 1)); [split; assumption|].
      intros m t Hm [Rm Dm]. replace (Datatypes.S m - 1) with m by lia. apply comb_row; [lia|]. apply join_row; [lia|exact Rm|exact Dm]. }
    replace (1 + (rows - 1 - 1) - 1) with (rows - 1 - 1) in Q by lia. apply join_row; [lia|apply Q|apply Q].
  - (* a single row: the first construction only writes sites that are rebuilt *)
    replace (rows - 1 - 1) with 0 by lia. change (loop 1 0 ?f ?x) with x. replace (rows - 1) with 0 by lia. destruct R0 as (A & B & C & D & E & F).
    assert (Q : lv (loop 0 cols (comb_site phy out act 0) (sur p)) = lv (sur p) /\ lh (loop 0 cols (comb_site phy out act 0) (sur p)) = lh (sur p)).
    { apply (loop_inv (fun _ t => lv t = lv (sur p) /\ lh t = lh (sur p)) 0 cols); [split; reflexivity|]. intros k s _ I. exact I. }
    destruct Q as [Q1 Q2]. unfold row_ready. rewrite Q1, Q2. repeat split; try assumption. lia.
Qed.
Lemma initial_before p : initial rows cols per phy out act p = loop 0 cols (last_site rows cols per phy out act) (before p).
Proof. reflexivity. Qed.

(** what the last row leaves *)
Definition last_ok (q : peps G) (m : nat) (s : peps G) : Prop :=
  lv s = lv q /\ (forall r c, r < rows - 1 -> lh s r c = lh q r c /\ ga s r c = ga q r c) /\
  (forall c, c <= m -> c < cols \/ per = false -> lh s (rows - 1) c = qneg (row_sum c)) /\
  forall c, c < m -> ga s (rows - 1) c = mkG (qneg (row_sum c)) q0 (if per && (c =? cols - 1) then q0 else qneg (row_sum (c + 1))) (qneg (col_sum c (rows - 1))) (act (rows - 1) c).
Lemma last_row p : last_ok (before p) cols (initial rows cols per phy out act p).
Proof.
  rewrite initial_before. pose proof (before_ready p) as (R1 & R2 & R3 & R4 & R5 & R6). set (q := before p) in *. clearbody q.
  apply (loop_inv (last_ok q) 0 cols).
  - split; [reflexivity|]. split; [intros; split; reflexivity|]. split; [|lia]. intros c Hx _. assert (c = 0) by lia. subst c. rewrite R3 by lia. unfold row_sum. cbn [qsum]. symmetry. apply qneg_zero.
  - intros m s Hm (I1 & I2 & I3 & I4). unfold last_site. cbn zeta.
    assert (E1 : (if per then lv s ((rows - 1 + 1) mod rows) m else lv s (rows - 1 + 1) m) = q0).
    { rewrite I1. replace (rows - 1 + 1) with rows by lia. destruct per; [|apply R2; [reflexivity|lia]]. rewrite Nat.mod_same by lia. rewrite R1 by lia. unfold col_sum. cbn [qsum]. apply qneg_zero. }
    rewrite E1. rewrite phys_leaving, qsub_zero. rewrite (I3 m) by lia. rewrite I1, (R1 (rows - 1) m) by lia.
    assert (E2 : qadd (qadd (qneg (row_sum m)) (qneg (col_sum m (rows - 1)))) (qneg (lea (rows - 1) m)) = qneg (row_sum (m + 1))).
    { replace (m + 1) with (Datatypes.S m) by lia. unfold row_sum. cbn [qsum]. rewrite qneg_add, <- qadd_assoc. f_equal. rewrite <- qneg_add. f_equal. unfold col_sum.
      replace rows with (Datatypes.S (rows - 1)) at 3 by lia. reflexivity. }
    rewrite E2. set (i2 := if per && (m =? cols - 1) then q0 else qneg (row_sum (m + 1))).
    set (g := mkG _ _ i2 _ _).
    assert (GA : forall s', lv s' = lv s -> ga s' = set (ga s) (rows - 1) m g -> (forall r c, r < rows - 1 -> lh s' r c = lh s r c) ->
      (forall c, c <= m -> lh s' (rows - 1) c = lh s (rows - 1) c) -> (m + 1 < cols \/ per = false -> lh s' (rows - 1) (m + 1) = qneg (row_sum (m + 1))) -> last_ok q (Datatypes.S m) s').
    { intros s' L Gs H1 H2 H3. split; [congruence|]. split; [intros r c Hx; rewrite Gs, set_other by lia; rewrite H1 by exact Hx; apply I2, Hx|]. split.
      - intros c Hx Hy. destruct (Nat.eq_dec c (m + 1)) as [->|N]; [apply H3, Hy|]. rewrite H2 by lia. apply I3; [lia|exact Hy].
      - intros c Hx. rewrite Gs. destruct (Nat.eq_dec c m) as [->|N]; [rewrite set_same; reflexivity|]. rewrite set_other by lia. apply I4. lia. }
    destruct (Nat.ltb_spec m (cols - 1)) as [Hl|Hl].
    + apply GA; try reflexivity; cbn [set_lh set_ga lh lv].
      * intros r c Hx. rewrite set_other by lia. reflexivity.
      * intros c Hx. rewrite set_other by lia. reflexivity.
      * intros _. rewrite set_same. unfold i2. destruct (Nat.eqb_spec m (cols - 1)); [lia|]. rewrite andb_false_r. reflexivity.
    + destruct per eqn:EP; apply GA; try reflexivity; cbn [set_lh set_ga lh lv].
      * intros [Hx|Hx]; [lia|discriminate].
      * intros r c Hx. rewrite set_other by lia. reflexivity.
      * intros c Hx. rewrite set_other by lia. reflexivity.
      * intros _. rewrite set_same. reflexivity.
Qed.

(** *** The properties *)
Let fin p := initial rows cols per phy out act p.
Let div p r c := divergence phy out act (fin p) r c.
Lemma fin_comb p r c : r < rows - 1 -> c < cols -> ga (fin p) r c = mkG q0 (qneg (col_sum c (r + 1))) q0 (qneg (col_sum c r)) (act r c).
Proof. intros Hx Hy. destruct (last_row p) as (_ & A & _). unfold fin. rewrite (proj2 (A r c Hx)). apply before_ready; assumption. Qed.
Lemma fin_last p c : c < cols -> ga (fin p) (rows - 1) c = mkG (qneg (row_sum c)) q0 (if per && (c =? cols - 1) then q0 else qneg (row_sum (c + 1))) (qneg (col_sum c (rows - 1))) (act (rows - 1) c).
Proof. intros Hx. destruct (last_row p) as (_ & _ & _ & A). apply A, Hx. Qed.
Lemma div_zero p r c : r < rows -> c < cols -> (per = false \/ ~ (r = rows - 1 /\ c = cols - 1)) -> div p r c = q0.
Proof.
  intros Hx Hy E. unfold div, divergence. destruct (Nat.eq_dec r (rows - 1)) as [->|N].
  - rewrite fin_last by exact Hy. cbn [west south east north]. replace (per && (c =? cols - 1)) with false by (destruct per, (Nat.eqb_spec c (cols - 1)); try reflexivity; destruct E as [E|E]; [discriminate|exfalso; apply E; auto]).
    fold lea. replace (c + 1) with (Datatypes.S c) by lia. unfold row_sum. cbn [qsum]. fold row_sum. rewrite qzero_l, <- qneg_add.
    replace (qadd (qneg (qadd (qsum (fun c => col_sum c rows) c) (col_sum c rows))) (lea (rows - 1) c)) with (qneg (qadd (qsum (fun c => col_sum c rows) c) (col_sum c (rows - 1)))).
    + rewrite qneg_neg. apply qneg_l.
    + assert (E3 : col_sum c rows = qadd (col_sum c (rows - 1)) (lea (rows - 1) c)) by (unfold col_sum; replace rows with (Datatypes.S (rows - 1)) at 1 by lia; reflexivity).
      rewrite E3, !qneg_add, <- !qadd_assoc, qneg_l, qadd_zero. reflexivity.
  - rewrite fin_comb by lia. cbn [west south east north]. fold lea. replace (r + 1) with (Datatypes.S r) by lia. unfold col_sum. cbn [qsum]. rewrite qadd_zero, qzero_l, qneg_neg, qneg_add, <- (qadd_assoc _ (qneg _)), qneg_l, qadd_zero. apply qneg_l.
Qed.
Lemma div_last p : per = true -> div p (rows - 1) (cols - 1) = total phy out act rows cols.
Proof.
  intros E. unfold div, divergence. rewrite fin_last by lia. cbn [west south east north]. rewrite E, Nat.eqb_refl. cbn [andb]. fold lea. rewrite !qzero_l, <- qneg_add, qneg_neg.
  assert (E2 : total phy out act rows cols = qadd (row_sum (cols - 1)) (col_sum (cols - 1) rows)).
  { change (total phy out act rows cols) with (row_sum cols). unfold row_sum. replace cols with (Datatypes.S (cols - 1)) at 1 by lia. reflexivity. }
  assert (E3 : col_sum (cols - 1) rows = qadd (col_sum (cols - 1) (rows - 1)) (lea (rows - 1) (cols - 1))) by (unfold col_sum; replace rows with (Datatypes.S (rows - 1)) at 1 by lia; reflexivity).
  rewrite E2, E3, (qadd_comm _ (lea _ _)), qadd_assoc. reflexivity.
Qed.
Lemma out_leg p : per = false -> east (ga (fin p) (rows - 1) (cols - 1)) = qneg (total phy out act rows cols) /\ lh (fin p) (rows - 1) cols = qneg (total phy out act rows cols).
Proof.
  intros E. split.
  - rewrite fin_last by lia. cbn [east]. rewrite E. cbn [andb]. replace (cols - 1 + 1) with cols by lia. reflexivity.
  - destruct (last_row p) as (_ & _ & A & _). apply A; auto.
Qed.
Lemma matching p r c : r < rows -> c < cols ->
  lv (fin p) r c = north (ga (fin p) r c) /\ lh (fin p) r c = west (ga (fin p) r c) /\
  (r + 1 < rows \/ per = false -> lv (fin p) (r + 1) c = south (ga (fin p) r c)) /\
  (c + 1 < cols \/ per = false -> lh (fin p) r (c + 1) = east (ga (fin p) r c)) /\
  (per = true -> r + 1 = rows -> lv (fin p) 0 c = south (ga (fin p) r c)) /\
  (per = true -> c + 1 = cols -> lh (fin p) r 0 = east (ga (fin p) r c)).
Proof.
  intros Hx Hy. destruct (last_row p) as (L1 & L2 & L3 & _). fold (fin p) in L1, L2, L3. pose proof (before_ready p) as (R1 & R2 & R3 & R4 & R5 & R6). rewrite L1.
  destruct (Nat.eq_dec r (rows - 1)) as [->|N].
  - rewrite fin_last by exact Hy. cbn [west south east north]. split; [apply R1; lia|]. split; [apply L3; lia|].
    split; [intros [A|A]; [lia|]; replace (rows - 1 + 1) with rows by lia; apply R2; assumption|]. split; [|split].
    + intros A. rewrite L3; [|lia|exact A]. replace (per && (c =? cols - 1)) with false; [reflexivity|]. symmetry. apply andb_false_iff. destruct A; [right; apply Nat.eqb_neq; lia|left; assumption].
    + intros _ _. rewrite R1 by lia. unfold col_sum. cbn [qsum]. apply qneg_zero.
    + intros A B. rewrite L3 by lia. rewrite A. replace (c =? cols - 1) with true by (symmetry; apply Nat.eqb_eq; lia). unfold row_sum. cbn [qsum]. apply qneg_zero.
  - rewrite fin_comb by lia. cbn [west south east north]. split; [apply R1; lia|]. split; [rewrite (proj1 (L2 r c ltac:(lia))); apply R5; lia|].
    split; [intros _; apply R1; lia|]. split; [|split; [lia|]].
    + intros A. rewrite (proj1 (L2 r (c + 1) ltac:(lia))). destruct (Nat.eq_dec (c + 1) cols) as [E|E]; [|apply R5; lia]. rewrite E. apply R4; [destruct A; [lia|assumption]|exact Hx].
    + intros _ _. rewrite (proj1 (L2 r 0 ltac:(lia))). apply R3, Hx.
Qed.
Lemma product p r c : r < rows -> c < cols -> coor (ga (fin p) r c) = act r c.
Proof. intros Hx Hy. destruct (Nat.eq_dec r (rows - 1)) as [->|N]; [rewrite fin_last by exact Hy|rewrite fin_comb by lia]; reflexivity. Qed.
Lemma edges p : per = false -> (forall c, c < cols -> lv (fin p) 0 c = q0 /\ lv (fin p) rows c = q0) /\ (forall r, r < rows -> lh (fin p) r 0 = q0) /\ (forall r, r < rows - 1 -> lh (fin p) r cols = q0).
Proof.
  intros E. destruct (last_row p) as (L1 & L2 & L3 & _). fold (fin p) in L1, L2, L3. pose proof (before_ready p) as (R1 & R2 & R3 & R4 & R5 & R6). rewrite L1. split; [|split].
  - intros c Hx. split; [rewrite R1 by lia; unfold col_sum; cbn [qsum]; apply qneg_zero|apply R2; assumption].
  - intros r Hx. destruct (Nat.eq_dec r (rows - 1)) as [->|N]; [rewrite L3 by lia; unfold row_sum; cbn [qsum]; apply qneg_zero|]. rewrite (proj1 (L2 r 0 ltac:(lia))). apply R3, Hx.
  - intros r Hx. rewrite (proj1 (L2 r cols Hx)). apply R4; [exact E|lia].
Qed.
End G.

(** *** A case *)
Definition ints : charges := mkQ Z 0%Z Z.add Z.opp Z.add_comm Z.add_assoc Z.add_0_r Z.add_opp_diag_r.
Lemma charged_edge : exists (G : charges) (rows cols : nat) (phy : nat -> nat -> nat -> G) (out : nat -> nat -> bool) (act : nat -> nat -> nat) (p : peps G),
  1 <= rows /\ 1 <= cols /\ lh (initial rows cols false phy out act p) (rows - 1) cols <> q0.
Proof.
  exists ints, 2, 2, (fun _ _ k => Z.of_nat k), (fun _ _ => true), (fun _ _ => 1), (@mkPeps ints (fun _ _ => 0%Z) (fun _ _ => 0%Z) (fun _ _ => @mkG ints 0%Z 0%Z 0%Z 0%Z 0)).
  split; [lia|]. split; [lia|]. vm_compute. discriminate.
Qed.
