(** Rings of deterministic ranks: a schedule that numbers the messages in an order every rank respects
    proves that no run blocks. *)
From Coq Require Import List Arith Bool Lia Sorting.Sorted.
From Verif Require Import Base MinsrModel.
Import ListNotations.
Local Open Scope nat_scope.

Section G.
Context {X : Type}.
(** An event: whether it is a send, its number, the message. *)
Record ev := mkEv { e_send : bool; e_time : nat; e_msg : X }.
Notation msgs := (list (nat * X)).
Definition pick (d : bool) (l : list ev) : list (nat * X) := map (fun e => (e_time e, e_msg e)) (filter (fun e => Bool.eqb (e_send e) d) l).
Definition sends := pick true.
Definition recvs := pick false.
Inductive follows : act X -> list ev -> list (list X) -> Prop :=
| f_send t x k l log : follows k l log -> follows (ASend x k) (mkEv true t x :: l) log
| f_recv t x k l log : follows (k x) l log -> follows (ARecv k) (mkEv false t x :: l) log
| f_done log : follows (ADone log) [] log.
Lemma pick_app d l l' : pick d (l ++ l') = pick d l ++ pick d l'.
Proof. unfold pick. now rewrite filter_app, map_app. Qed.
Lemma pick_in d l t x : In (t, x) (pick d l) -> In (mkEv d t x) l.
Proof. unfold pick. intros H. apply in_map_iff in H. destruct H as ([s t' x'] & E & H). cbn in E. injection E as -> ->. apply filter_In in H. destruct H as (H & B). cbn in B. apply Bool.eqb_prop in B. now subst. Qed.

Variable P : nat.
Variable script : nat -> list ev.
Variable result : nat -> list (list X).
Definition earlier (a b : ev) := e_time a < e_time b.
Hypothesis sorted : forall r, r < P -> StronglySorted earlier (script r).
Hypothesis streams : forall r, r < P -> recvs (script r) = sends (script (prev_rank P r)).

Definition flying (b : bool) (l : list ev) : list (nat * X) := if b then match l with e :: _ => [(e_time e, e_msg e)] | [] => [] end else [].
Record inv (c : ring X) (done todo : nat -> list ev) : Prop := mkInv {
  i_script : forall r, r < P -> script r = done r ++ todo r;
  i_follows : forall r, r < P -> follows (r_act c r) (todo r) (result r);
  i_busy : forall r, r < P -> r_busy c r = true -> exists t x l, todo r = mkEv true t x :: l;
  i_chan : forall r, r < P -> exists ts, r_chan c (prev_rank P r) = map snd ts /\
    sends (done (prev_rank P r)) ++ flying (r_busy c (prev_rank P r)) (todo (prev_rank P r)) = recvs (done r) ++ ts
}.
Lemma prev_lt r : r < P -> prev_rank P r < P.
Proof. intros H. unfold prev_rank. apply Nat.mod_upper_bound. lia. Qed.
Lemma prev_zero : 0 < P -> prev_rank P 0 = P - 1.
Proof. intros H. unfold prev_rank. apply Nat.mod_small. lia. Qed.
Lemma prev_succ r : S r < P -> prev_rank P (S r) = r.
Proof. intros H. unfold prev_rank. replace (S r + P - 1) with (r + 1 * P) by lia. rewrite Nat.mod_add, Nat.mod_small by lia. reflexivity. Qed.
Lemma prev_inj r r' : r < P -> r' < P -> prev_rank P r = prev_rank P r' -> r = r'.
Proof. intros H H' E. destruct r as [|r], r' as [|r']; rewrite ?prev_zero, ?prev_succ in E by lia; lia. Qed.
Lemma next_prev r : r < P -> next_rank P r < P /\ prev_rank P (next_rank P r) = r.
Proof.
  intros H. unfold next_rank, prev_rank. split; [apply Nat.mod_upper_bound; lia|]. destruct (Nat.eq_dec (r + 1) P) as [E|E].
  - rewrite E, Nat.mod_same by lia. rewrite Nat.mod_small by lia. lia.
  - rewrite (Nat.mod_small (r + 1)) by lia. replace (r + 1 + P - 1) with (r + 1 * P) by lia. rewrite Nat.mod_add, Nat.mod_small by lia. reflexivity.
Qed.
Lemma upd_same {Y} (f : nat -> Y) i y : upd f i y i = y.
Proof. unfold upd. now rewrite Nat.eqb_refl. Qed.
Lemma upd_other {Y} (f : nat -> Y) i j y : j <> i -> upd f i y j = f j.
Proof. intros H. unfold upd. apply Nat.eqb_neq in H. now rewrite H. Qed.

(** What is left for rank r to receive is what is in transit and what its predecessor still sends. *)
Lemma left_over c done todo r : inv c done todo -> r < P -> forall ts, r_chan c (prev_rank P r) = map snd ts ->
  sends (done (prev_rank P r)) ++ flying (r_busy c (prev_rank P r)) (todo (prev_rank P r)) = recvs (done r) ++ ts ->
  exists rest, recvs (todo r) = ts ++ rest /\ sends (todo (prev_rank P r)) = flying (r_busy c (prev_rank P r)) (todo (prev_rank P r)) ++ rest.
Proof.
  intros I Hr ts Ec Es. pose proof (prev_lt r Hr) as Hp. pose proof (streams r Hr) as St. rewrite (i_script _ _ _ I r Hr), (i_script _ _ _ I _ Hp) in St. unfold recvs, sends in *. rewrite !pick_app in St.
  assert (exists rest, pick true (todo (prev_rank P r)) = flying (r_busy c (prev_rank P r)) (todo (prev_rank P r)) ++ rest) as (rest & E).
  { destruct (r_busy c (prev_rank P r)) eqn:B; [|exists (pick true (todo (prev_rank P r))); reflexivity]. destruct (i_busy _ _ _ I _ Hp B) as (t & x & l & ->). eexists. reflexivity. }
  exists rest. split; [|exact E]. rewrite E, app_assoc, Es, <- app_assoc in St. now apply app_inv_head in St.
Qed.

Definition cost (c : ring X) (todo : nat -> list ev) : nat := fold_right (fun r n => 2 * length (todo r) - (if r_busy c r then 1 else 0) + n) 0 (seq 0 P).
Lemma cost_upd (f g : nat -> nat) r : r < P -> (forall j, j < P -> j <> r -> g j = f j) -> g r < f r ->
  fold_right (fun r n => g r + n) 0 (seq 0 P) < fold_right (fun r n => f r + n) 0 (seq 0 P).
Proof.
  intros Hr Hg Hlt. assert (K : forall n, n <= P -> (fold_right (fun r n => g r + n) 0 (seq 0 n) < fold_right (fun r n => f r + n) 0 (seq 0 n) /\ r < n) \/
    (fold_right (fun r n => g r + n) 0 (seq 0 n) = fold_right (fun r n => f r + n) 0 (seq 0 n) /\ n <= r)).
  { induction n as [|n IH]; intros Hn; [right; split; [reflexivity|lia]|].
    assert (F : forall h : nat -> nat, fold_right (fun r n => h r + n) 0 (seq 0 (S n)) = fold_right (fun r n => h r + n) 0 (seq 0 n) + h n).
    { intros h. rewrite seq_S, fold_right_app. cbn [fold_right]. generalize (seq 0 n). intros l. rewrite Nat.add_0_r, Nat.add_0_l. induction l as [|a l IHl]; cbn; [lia|]. rewrite IHl. lia. }
    rewrite !F. destruct (IH ltac:(lia)) as [(A & B)|(A & B)].
    - left. rewrite (Hg n) by lia. lia.
    - destruct (Nat.eq_dec n r) as [->|N]; [left; lia|]. right. rewrite (Hg n) by lia. lia. }
  destruct (K P (le_n P)) as [(A & _)|(_ & B)]; [exact A|lia].
Qed.
Lemma step_inv sure c c' done todo : inv c done todo -> rstep P sure c c' -> exists done' todo', inv c' done' todo' /\ cost c' todo' < cost c todo.
Proof.
  intros I S. destruct S as [a bz ch r x k Hr Ea Eb|a bz ch r x k sure Hr Ea Eb _|a bz ch r k x t Hr Ea Ec].
  - pose proof (i_follows _ _ _ I r Hr) as F. cbn [r_act] in F. rewrite Ea in F. inversion F as [t x' k' l lg F' E1 E2 E3| |]; subst. exists done, todo. split.
    + split; cbn [r_act r_busy r_chan].
      * apply I.
      * apply I.
      * intros j Hj B. unfold upd in B. destruct (Nat.eqb_spec j r) as [->|N]; [exists t, x, l; congruence|]. now apply (i_busy _ _ _ I j Hj).
      * intros j Hj. destruct (i_chan _ _ _ I j Hj) as (ts & E & Es). cbn [r_chan r_busy] in E, Es. destruct (Nat.eq_dec (prev_rank P j) r) as [Ej|Nj].
        -- rewrite Ej in *. rewrite !upd_same. rewrite Eb in Es. cbn [flying] in Es. exists (ts ++ [(t, x)]). split; [rewrite E, map_app; reflexivity|]. rewrite <- E2. cbn [flying e_time e_msg]. rewrite app_nil_r in Es. rewrite Es, app_assoc. reflexivity.
        -- rewrite !upd_other by assumption. exists ts. split; assumption.
    + unfold cost. cbn [r_busy]. apply (cost_upd _ _ r Hr).
      * intros j Hj N. now rewrite upd_other.
      * rewrite upd_same, Eb, <- E2. cbn [length]. lia.
  - pose proof (i_follows _ _ _ I r Hr) as F. cbn [r_act] in F. rewrite Ea in F. inversion F as [t x' k' l lg F' E1 E2 E3| |]; subst. exists (upd done r (done r ++ [mkEv true t x])), (upd todo r l). split.
    + split; cbn [r_act r_busy r_chan].
      * intros j Hj. unfold upd. destruct (Nat.eqb_spec j r) as [->|N]; [|now apply (i_script _ _ _ I)]. rewrite <- app_assoc. cbn [app]. rewrite E2. now apply (i_script _ _ _ I).
      * intros j Hj. unfold upd. destruct (Nat.eqb_spec j r) as [->|N]; [assumption|now apply (i_follows _ _ _ I)].
      * intros j Hj B. unfold upd in *. destruct (Nat.eqb_spec j r) as [->|N]; [discriminate|]. now apply (i_busy _ _ _ I j Hj).
      * intros j Hj. destruct (i_chan _ _ _ I j Hj) as (ts & E & Es). cbn [r_chan r_busy] in E, Es. exists ts. split; [exact E|].
        assert (R : recvs (upd done r (done r ++ [mkEv true t x]) j) = recvs (done j)).
        { unfold upd. destruct (Nat.eqb_spec j r) as [->|N]; [|reflexivity]. unfold recvs. rewrite pick_app. cbn. apply app_nil_r. }
        rewrite R. destruct (Nat.eq_dec (prev_rank P j) r) as [Ej|Nj].
        -- rewrite Ej in *. rewrite !upd_same. rewrite Eb, <- E2 in Es. cbn [flying e_time e_msg] in Es. cbn [flying]. rewrite app_nil_r. unfold sends in *. rewrite pick_app. exact Es.
        -- rewrite !upd_other by assumption. exact Es.
    + unfold cost. cbn [r_busy]. apply (cost_upd _ _ r Hr).
      * intros j Hj N. now rewrite !upd_other.
      * rewrite !upd_same, Eb, <- E2. cbn [length]. lia.
  - pose proof (i_follows _ _ _ I r Hr) as F. cbn [r_act] in F. rewrite Ea in F. inversion F as [|t0 x0 k' l lg F' E1 E2 E3|]; subst.
    destruct (i_chan _ _ _ I r Hr) as (ts & E & Es). cbn [r_chan r_busy] in E, Es. rewrite Ec in E. destruct ts as [|[t1 x1] ts]; [discriminate|]. cbn in E. injection E as -> Et.
    destruct (left_over _ _ _ r I Hr ((t1, x1) :: ts)) as (rest & L1 & _); [cbn; congruence|exact Es|].
    rewrite <- E2 in L1. unfold recvs in L1. cbn in L1. injection L1 as -> -> L1. fold (recvs l) in L1.
    assert (Nb : bz r = false). { destruct (bz r) eqn:B; [|reflexivity]. destruct (i_busy _ _ _ I r Hr B) as (u & v & w & E). rewrite E in E2. discriminate. }
    exists (upd done r (done r ++ [mkEv false t1 x1])), (upd todo r l). split.
    + split; cbn [r_act r_busy r_chan].
      * intros j Hj. unfold upd. destruct (Nat.eqb_spec j r) as [->|N]; [|now apply (i_script _ _ _ I)]. rewrite <- app_assoc. cbn [app]. rewrite E2. now apply (i_script _ _ _ I).
      * intros j Hj. unfold upd. destruct (Nat.eqb_spec j r) as [->|N]; [assumption|now apply (i_follows _ _ _ I)].
      * intros j Hj B. unfold upd. destruct (Nat.eqb_spec j r) as [->|N]; [congruence|]. now apply (i_busy _ _ _ I j Hj).
      * intros j Hj. destruct (i_chan _ _ _ I j Hj) as (ts' & E' & Es'). cbn [r_chan r_busy] in E', Es'.
        assert (Sn : sends (upd done r (done r ++ [mkEv false t1 x1]) (prev_rank P j)) = sends (done (prev_rank P j))).
        { unfold upd. destruct (Nat.eqb_spec (prev_rank P j) r) as [->|N]; [|reflexivity]. unfold sends. rewrite pick_app. cbn. apply app_nil_r. }
        assert (Fl : flying (bz (prev_rank P j)) (upd todo r l (prev_rank P j)) = flying (bz (prev_rank P j)) (todo (prev_rank P j))).
        { unfold upd. destruct (Nat.eqb_spec (prev_rank P j) r) as [->|N]; [|reflexivity]. now rewrite Nb. }
        rewrite Sn, Fl. destruct (Nat.eq_dec j r) as [->|Nj].
        -- rewrite !upd_same. exists ts. split; [exact Et|]. unfold recvs in *. rewrite pick_app, Es, <- app_assoc. reflexivity.
        -- rewrite (upd_other done) by assumption. rewrite upd_other; [exists ts'; split; assumption|]. intros E. apply Nj. now apply prev_inj.
    + unfold cost. cbn [r_busy]. apply (cost_upd _ _ r Hr).
      * intros j Hj N. now rewrite !upd_other.
      * rewrite !upd_same, Nb, <- E2. cbn [length]. lia.
Qed.
Lemma inv_acc c done todo : inv c done todo -> Acc (fun b a => exists s, rstep P s a b) c.
Proof.
  remember (cost c todo) as n eqn:E. revert c done todo E. induction n as [n IH] using (well_founded_induction lt_wf). intros c done todo -> I. constructor. intros c' (s & S).
  destruct (step_inv _ _ _ _ _ I S) as (d' & t' & I' & L). exact (IH _ L _ _ _ eq_refl I').
Qed.
(** The rank whose next event has the smallest number. *)
Lemma least (todo : nat -> list ev) n : (forall r, r < n -> todo r = []) \/
  exists r e l, r < n /\ todo r = e :: l /\ forall r' e' l', r' < n -> todo r' = e' :: l' -> e_time e <= e_time e'.
Proof.
  induction n as [|n [IH|(r & e & l & Hr & E & M)]]; [left; lia| |].
  - destruct (todo n) as [|e l] eqn:E; [left; intros r Hr; destruct (Nat.eq_dec r n) as [->|]; [exact E|apply IH; lia]|]. right. exists n, e, l. repeat split; [lia|exact E|].
    intros r' e' l' Hr' E'. destruct (Nat.eq_dec r' n) as [->|]; [rewrite E in E'; injection E' as -> ->; lia|]. rewrite IH in E' by lia. discriminate.
  - right. destruct (todo n) as [|e1 l1] eqn:E1.
    + exists r, e, l. repeat split; [lia|exact E|]. intros r' e' l' Hr' E'. destruct (Nat.eq_dec r' n) as [->|]; [congruence|]. apply (M r' e' l'); [lia|exact E'].
    + destruct (le_lt_dec (e_time e) (e_time e1)) as [L|L].
      * exists r, e, l. repeat split; [lia|exact E|]. intros r' e' l' Hr' E'. destruct (Nat.eq_dec r' n) as [->|]; [congruence|]. apply (M r' e' l'); [lia|exact E'].
      * exists n, e1, l1. repeat split; [lia|exact E1|]. intros r' e' l' Hr' E'. destruct (Nat.eq_dec r' n) as [->|]; [rewrite E1 in E'; injection E' as -> ->; lia|]. specialize (M r' e' l' ltac:(lia) E'). lia.
Qed.
Lemma sorted_app (l l' : list ev) : StronglySorted earlier (l ++ l') -> StronglySorted earlier l' /\ forall a b, In a l -> In b l' -> e_time a < e_time b.
Proof.
  induction l as [|a l IH]; intros S; [split; [exact S|intros a b []]|]. cbn in S. apply StronglySorted_inv in S. destruct S as (S & F). destruct (IH S) as (S' & H). split; [exact S'|].
  intros x y [<-|Hx] Hy; [rewrite Forall_forall in F; apply F, in_or_app; now right|now apply H].
Qed.
Lemma head_le (l : list ev) e l' x : StronglySorted earlier (e :: l') -> l = e :: l' -> In x l -> x = e \/ e_time e < e_time x.
Proof. intros S -> [->|H]; [now left|]. right. apply StronglySorted_inv in S. destruct S as (_ & F). rewrite Forall_forall in F. now apply F. Qed.
Lemma inv_progress c done todo : inv c done todo -> (ring_finished P c /\ forall r, r < P -> r_act c r = ADone (result r)) \/ exists c', rstep P true c c'.
Proof.
  intros I. destruct (least todo P) as [Z|(r & e & l & Hr & E & M)].
  - left. assert (D : forall r, r < P -> r_act c r = ADone (result r)).
    { intros r Hr. pose proof (i_follows _ _ _ I r Hr) as F. rewrite (Z r Hr) in F. inversion F; subst. reflexivity. }
    split; [|exact D]. intros r Hr. split; [exists (result r); now apply D|]. destruct (next_prev r Hr) as (Hn & Ep). destruct (i_chan _ _ _ I _ Hn) as (ts & Ec & Es).
    destruct (left_over _ _ _ _ I Hn ts Ec Es) as (rest & L1 & _). rewrite (Z _ Hn) in L1. cbn in L1. destruct ts; [|discriminate]. rewrite Ep in Ec. exact Ec.
  - right. destruct c as [a bz ch]. pose proof (i_follows _ _ _ I r Hr) as F. cbn [r_act] in F. rewrite E in F.
    assert (So : forall j, j < P -> StronglySorted earlier (todo j)). { intros j Hj. specialize (sorted j Hj). rewrite (i_script _ _ _ I j Hj) in sorted. now apply sorted_app in sorted. }
    assert (Le : forall j b t x, j < P -> In (mkEv b t x) (todo j) -> t <= e_time e -> exists l', todo j = mkEv b t x :: l' /\ t = e_time e).
    { intros j b t x Hj Hin Ht. destruct (todo j) as [|e' l'] eqn:Ej; [destruct Hin|]. pose proof (M j e' l' Hj Ej). pose proof (So j Hj) as Sj. rewrite Ej in Sj. destruct (head_le _ _ _ _ Sj eq_refl Hin) as [<-|H']; cbn in *; [exists l'; split; [reflexivity|cbn in *; lia]|lia]. }
    inversion F as [t x k l0 lg F' E1 E2 E3|t x k l0 lg F' E1 E2 E3|]; subst.
    + (* a send *) destruct (bz r) eqn:B; [|eexists; now apply (rs_send P a bz ch r x k)]. destruct (ch r) as [|y ys] eqn:Ech; [eexists; now apply (rs_sent P a bz ch r x k true)|].
      destruct (next_prev r Hr) as (Hn & Ep). destruct (i_chan _ _ _ I _ Hn) as (ts & Ec & Es). destruct (left_over _ _ _ _ I Hn ts Ec Es) as (rest & L1 & _). cbn [r_chan r_busy] in *. rewrite Ep in *. rewrite Ech in Ec. destruct ts as [|[t1 x1] ts]; [discriminate|].
      assert (Hin : In (mkEv false t1 x1) (todo (next_rank P r))). { apply pick_in. fold (recvs (todo (next_rank P r))). rewrite L1. now left. }
      assert (Ht : t1 <= t).
      { rewrite B, E in Es. cbn [flying e_time e_msg] in Es. assert (H : In (t1, x1) (sends (done r) ++ [(t, x)])) by (rewrite Es; apply in_or_app; right; now left). apply in_app_or in H.
        destruct H as [H|[H|[]]]; [|injection H as -> ->; lia]. apply pick_in in H. specialize (sorted r Hr). rewrite (i_script _ _ _ I r Hr), E in sorted. destruct (sorted_app _ _ sorted) as (_ & K). specialize (K _ (mkEv true t x) H (or_introl eq_refl)). cbn in K. lia. }
      destruct (Le _ _ _ _ Hn Hin Ht) as (l' & El & _). pose proof (i_follows _ _ _ I _ Hn) as Fn. rewrite El in Fn. cbn [r_act] in Fn. inversion Fn as [|? ? k' ? ? ? Ek|]; subst.
      eexists. apply (rs_recv P a bz ch (next_rank P r) k' y ys Hn); [congruence|now rewrite Ep].
    + (* a receive *) destruct (i_chan _ _ _ I _ Hr) as (ts & Ec & Es). destruct (left_over _ _ _ _ I Hr ts Ec Es) as (rest & L1 & L2). cbn [r_chan r_busy] in *. destruct ts as [|[t1 x1] ts].
      * pose proof (prev_lt r Hr) as Hp. destruct (bz (prev_rank P r)) eqn:B.
        -- destruct (i_busy _ _ _ I _ Hp B) as (t2 & x2 & l2 & E2). pose proof (i_follows _ _ _ I _ Hp) as Fp. rewrite E2 in Fp. cbn [r_act] in Fp. inversion Fp as [? ? k' ? ? ? Ek| |]; subst.
           eexists. apply (rs_sent P a bz ch (prev_rank P r) x2 k' true Hp); [congruence|exact B|intros _; exact Ec].
        -- cbn [flying] in L2. rewrite E in L1. cbn in L1. fold (recvs l) in L1. cbn [app] in L2. rewrite <- L1 in L2.
           assert (Hin : In (mkEv true t x) (todo (prev_rank P r))). { apply pick_in. fold (sends (todo (prev_rank P r))). rewrite L2. now left. }
           destruct (Le _ _ _ _ Hp Hin (le_n t)) as (l' & El & _). pose proof (i_follows _ _ _ I _ Hp) as Fp. rewrite El in Fp. cbn [r_act] in Fp. inversion Fp as [? ? k' ? ? ? Ek| |]; subst.
           eexists. apply (rs_send P a bz ch (prev_rank P r) x k' Hp); congruence.
      * eexists. apply (rs_recv P a bz ch r k x1 (map snd ts) Hr); [congruence|exact Ec].
Qed.
Theorem ring_runs c0 : (forall r, r < P -> follows (r_act c0 r) (script r) (result r)) -> (forall r, r_busy c0 r = false) -> (forall r, r_chan c0 r = []) ->
  Acc (fun b a => exists s, rstep P s a b) c0 /\
  forall c, rsteps P c0 c -> (ring_finished P c \/ exists c', rstep P true c c') /\
    (forall r log, r < P -> r_act c r = ADone log -> log = result r).
Proof.
  intros F B C. assert (I0 : inv c0 (fun _ => []) script).
  { split; [reflexivity|exact F|intros r _ E; rewrite B in E; discriminate|]. intros r _. exists []. rewrite C, B. split; reflexivity. }
  split; [exact (inv_acc _ _ _ I0)|]. intros c S. assert (exists d t, inv c d t) as (d & t & I).
  { induction S as [|c0 c1 c2 s S IH S1]; [eauto|]. destruct (IH F B C I0) as (d & t & I). destruct (step_inv _ _ _ _ _ I S1) as (d' & t' & I' & _). eauto. }
  split; [destruct (inv_progress _ _ _ I) as [(H & _)|H]; [now left|now right]|]. intros r log Hr E. pose proof (i_follows _ _ _ I r Hr) as Fo. rewrite E in Fo. inversion Fo; subst. reflexivity.
Qed.
End G.
