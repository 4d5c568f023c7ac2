(** The MinSR ring: in round k rank r receives the batch of rank r - k. *)
From Coq Require Import List Arith ZArith Bool Lia Sorting.Sorted Permutation.
From Verif Require Import Base MinsrModel RingProofs.
Import ListNotations.
Local Open Scope nat_scope.

(** The rank [k] places before rank [r]. *)
Definition before (P r k : nat) : nat := (r + P - k) mod P.
Lemma before_lt P r k : 0 < P -> before P r k < P.
Proof. intros H. apply Nat.mod_upper_bound. lia. Qed.
Lemma before_cases P r k : r < P -> k < P -> before P r k = if k <=? r then r - k else r + P - k.
Proof.
  intros Hr Hk. unfold before. destruct (Nat.leb_spec k r); [|apply Nat.mod_small; lia]. replace (r + P - k) with (r - k + 1 * P) by lia. rewrite Nat.mod_add, Nat.mod_small by lia. reflexivity.
Qed.
Lemma before_zero P r : r < P -> before P r 0 = r.
Proof. intros H. rewrite before_cases by lia. cbn. lia. Qed.
Lemma before_prev P r k : r < P -> S k < P -> before P (prev_rank P r) k = before P r (S k).
Proof.
  intros Hr Hk. pose proof (prev_lt P r Hr). rewrite !before_cases by lia. destruct r as [|r]; [rewrite prev_zero by lia|rewrite prev_succ by lia].
  - destruct (Nat.leb_spec k (P - 1)), (Nat.leb_spec (S k) 0); lia.
  - destruct (Nat.leb_spec k r), (Nat.leb_spec (S k) (S r)); lia.
Qed.
Lemma before_onto P r q : r < P -> q < P -> exists k, k < P /\ before P r k = q.
Proof.
  intros Hr Hq. destruct (le_lt_dec q r) as [L|L].
  - exists (r - q). split; [lia|]. rewrite before_cases by lia. destruct (Nat.leb_spec (r - q) r); lia.
  - exists (r + P - q). split; [lia|]. rewrite before_cases by lia. destruct (Nat.leb_spec (r + P - q) r); lia.
Qed.
Lemma before_inj P r k k' : r < P -> k < P -> k' < P -> before P r k = before P r k' -> k = k'.
Proof. intros Hr Hk Hk'. rewrite !before_cases by lia. destruct (Nat.leb_spec k r), (Nat.leb_spec k' r); lia. Qed.
Lemma before_perm P r : r < P -> Permutation (map (before P r) (seq 0 P)) (seq 0 P).
Proof.
  intros Hr. apply NoDup_Permutation_bis.
  - assert (K : forall n a, a + n <= P -> NoDup (map (before P r) (seq a n))).
    { induction n as [|n IH]; intros a H; [constructor|]. cbn [seq map]. constructor; [|apply IH; lia]. intros Hin. apply in_map_iff in Hin. destruct Hin as (k & E & Hk). apply in_seq in Hk. apply before_inj in E; lia. }
    apply K. lia.
  - rewrite map_length, !seq_length. lia.
  - intros x Hx. apply in_map_iff in Hx. destruct Hx as (k & <- & _). apply in_seq. pose proof (before_lt P r k ltac:(lia)). lia.
Qed.
Lemma source_before P r k : r < P -> 0 < k < P -> source_rank P r k = before P r k.
Proof.
  intros Hr Hk. unfold source_rank. rewrite before_cases by lia. destruct (Nat.leb_spec k r) as [L|L].
  - rewrite (Z.rem_small (Z.of_nat r - Z.of_nat k)) by lia. rewrite Z.rem_mod_nonneg by lia. replace (Z.of_nat r - Z.of_nat k + Z.of_nat P)%Z with (Z.of_nat r - Z.of_nat k + 1 * Z.of_nat P)%Z by lia. rewrite Z.mod_add, Z.mod_small by lia. lia.
  - replace (Z.of_nat r - Z.of_nat k)%Z with (- (Z.of_nat k - Z.of_nat r))%Z by lia. rewrite Z.rem_opp_l', (Z.rem_small (Z.of_nat k - Z.of_nat r)) by lia. rewrite Z.rem_small by lia. lia.
Qed.

Section M.
Context {X : Type}.
Variables (P s : nat) (own : nat -> list X).
Hypothesis Hs : forall r, r < P -> length (own r) = s.
Definition batch (r k : nat) : list X := own (before P r k).
Fixpoint evs (d : bool) (t : nat) (l : list X) : list ev := match l with [] => [] | x :: l' => mkEv d t x :: evs d (S t) l' end.
Definition round_script (r k : nat) : list ev :=
  let R := evs false ((k * P + r) * s) (batch r k) in
  let S := evs true ((k * P + next_rank P r) * s) (batch r (k - 1)) in
  if r =? P - 1 then S ++ R else R ++ S.
Definition ring_script (r : nat) : list ev := flat_map (round_script r) (seq 1 (P - 1)).
Lemma evs_times d l : forall t e, In e (evs d t l) -> t <= e_time e < t + length l.
Proof. induction l as [|x l IH]; intros t e H; [destruct H|]. destruct H as [<-|H]; [cbn; lia|]. apply IH in H. cbn [length]. lia. Qed.
Lemma evs_sorted d l : forall t, StronglySorted earlier (evs d t l).
Proof. induction l as [|x l IH]; intros t; [constructor|]. cbn [evs]. constructor; [apply IH|]. apply Forall_forall. intros e H. apply evs_times in H. unfold earlier. cbn. lia. Qed.
Lemma sorted_join (l l' : list (@ev X)) : StronglySorted earlier l -> StronglySorted earlier l' -> (forall a b, In a l -> In b l' -> e_time a < e_time b) -> StronglySorted earlier (l ++ l').
Proof.
  intros S S' H. induction l as [|a l IH]; [exact S'|]. apply StronglySorted_inv in S. destruct S as (S & F). cbn [app]. constructor; [apply IH; [exact S|intros; apply H; [now right|assumption]]|].
  apply Forall_app. split; [exact F|]. apply Forall_forall. intros b Hb. apply H; [now left|exact Hb].
Qed.
Lemma batch_length r k : 0 < P -> length (batch r k) = s.
Proof. intros H. apply Hs, before_lt, H. Qed.
Lemma next_cases r : r < P -> next_rank P r = if r =? P - 1 then 0 else S r.
Proof.
  intros H. unfold next_rank. destruct (Nat.eqb_spec r (P - 1)) as [->|N].
  - replace (P - 1 + 1) with (1 * P) by lia. apply Nat.mod_mul. lia.
  - rewrite Nat.mod_small by lia. lia.
Qed.
Lemma round_times r k e : r < P -> In e (round_script r k) -> k * P * s <= e_time e < S k * P * s.
Proof.
  intros Hr H. assert (H' : In e (evs false ((k * P + r) * s) (batch r k)) \/ In e (evs true ((k * P + next_rank P r) * s) (batch r (k - 1)))).
  { unfold round_script in H. destruct (r =? P - 1); apply in_app_or in H; tauto. }
  assert (Hn : next_rank P r < P) by (rewrite next_cases by assumption; destruct (Nat.eqb_spec r (P - 1)); lia).
  destruct H' as [H'|H']; apply evs_times in H'; rewrite batch_length in H' by lia; nia.
Qed.
Lemma round_sorted r k : 1 < P -> r < P -> StronglySorted earlier (round_script r k).
Proof.
  intros H1 Hr. unfold round_script. rewrite next_cases by assumption. destruct (Nat.eqb_spec r (P - 1)) as [E|N]; (apply sorted_join; [apply evs_sorted|apply evs_sorted|]);
    intros a b Ha Hb; apply evs_times in Ha; apply evs_times in Hb; rewrite batch_length in Ha, Hb by lia; nia.
Qed.
Lemma script_sorted r : r < P -> StronglySorted earlier (ring_script r).
Proof.
  intros Hr. unfold ring_script. destruct (Nat.eq_dec P 1) as [E|N]; [rewrite E; constructor|].
  generalize (P - 1) at 1. intros n. generalize 1 at 1. induction n as [|n IH]; intros a; [constructor|]. cbn [seq flat_map]. apply sorted_join; [apply round_sorted; lia|apply IH|].
  intros x y Hx Hy. apply round_times in Hx; [|assumption]. apply in_flat_map in Hy. destruct Hy as (k & Hk & Hy). apply round_times in Hy; [|assumption]. apply in_seq in Hk. nia.
Qed.
Fixpoint timed (t : nat) (l : list X) : list (nat * X) := match l with [] => [] | x :: l' => (t, x) :: timed (S t) l' end.
Lemma pick_evs d d' l : forall t, pick d (evs d' t l) = if Bool.eqb d' d then timed t l else [].
Proof. induction l as [|x l IH]; intros t; [destruct (Bool.eqb d' d); reflexivity|]. cbn [evs timed]. unfold pick. cbn [filter e_send]. specialize (IH (S t)). unfold pick in IH. destruct (Bool.eqb d' d); [cbn [map e_time e_msg]; now rewrite IH|exact IH]. Qed.
Lemma pick_flat d (f : nat -> list ev) l : @pick X d (flat_map f l) = flat_map (fun k => pick d (f k)) l.
Proof. induction l as [|a l IH]; [reflexivity|]. cbn [flat_map]. now rewrite pick_app, IH. Qed.
Lemma script_streams r : r < P -> recvs (ring_script r) = sends (ring_script (prev_rank P r)).
Proof.
  intros Hr. unfold recvs, sends, ring_script. rewrite !pick_flat.
  assert (K : forall l, (forall k, In k l -> 0 < k < P) -> flat_map (fun k => pick false (round_script r k)) l = flat_map (fun k => pick true (round_script (prev_rank P r) k)) l).
  { induction l as [|k l IH]; intros H; [reflexivity|]. cbn [flat_map]. rewrite IH by (intros; apply H; now right). f_equal. specialize (H k (or_introl eq_refl)).
    unfold round_script. assert (Nx : next_rank P (prev_rank P r) = r).
    { pose proof (prev_lt P r Hr). rewrite next_cases by assumption. destruct r as [|r]; [rewrite prev_zero by lia; now rewrite Nat.eqb_refl|]. rewrite prev_succ by lia. destruct (Nat.eqb_spec r (P - 1)); lia. }
    rewrite Nx. unfold batch. replace (before P (prev_rank P r) (k - 1)) with (before P r k) by (rewrite before_prev by lia; f_equal; lia).
    destruct (r =? P - 1), (prev_rank P r =? P - 1); rewrite !pick_app, !pick_evs; cbn [Bool.eqb app]; rewrite ?app_nil_r; reflexivity. }
  apply K. intros k Hk. apply in_seq in Hk. lia.
Qed.
Lemma follows_send l : forall t k rest log, follows k rest log -> follows (send_batch l k) (evs true t l ++ rest) log.
Proof. induction l as [|x l IH]; intros t k rest log H; [exact H|]. cbn [send_batch evs app]. constructor. now apply IH. Qed.
Lemma follows_recv l : forall t buf k rest log, follows (k (buf ++ l)) rest log -> follows (recv_batch (length l) buf k) (evs false t l ++ rest) log.
Proof.
  induction l as [|x l IH]; intros t buf k rest log H; [rewrite app_nil_r in H; exact H|]. cbn [recv_batch evs app length]. constructor. apply IH. now rewrite <- app_assoc.
Qed.
Lemma follows_recv' l n t k rest log : length l = n -> follows (k l) rest log -> follows (recv_batch n [] k) (evs false t l ++ rest) log.
Proof. intros <- H. now apply follows_recv. Qed.
Lemma follows_rounds r n : r < P -> forall k log, follows (ring_rounds s (r =? P - 1) n (batch r k) log) (flat_map (round_script r) (seq (S k) n)) (log ++ map (batch r) (seq (S k) n)).
Proof.
  intros Hr. induction n as [|n IH]; intros k log; [cbn; rewrite app_nil_r; constructor|]. cbn [ring_rounds seq flat_map map]. unfold round_script at 1. replace (S k - 1) with k by lia.
  specialize (IH (S k) (log ++ [batch r (S k)])). rewrite <- app_assoc in IH. cbn [app] in IH.
  destruct (r =? P - 1).
  - rewrite <- app_assoc. apply follows_send. apply follows_recv'; [apply batch_length; lia|]. exact IH.
  - rewrite <- app_assoc. apply follows_recv'; [apply batch_length; lia|]. apply follows_send. exact IH.
Qed.
Theorem ring_correct : let init := ring_start P s own in
  Acc (fun b a => exists sure, rstep P sure a b) init /\
  forall c, rsteps P init c -> (ring_finished P c \/ exists c', rstep P true c c') /\
    (forall r log, r < P -> r_act c r = ADone log -> log = map (fun k => own (before P r k)) (seq 1 (P - 1))).
Proof.
  apply (ring_runs P ring_script (fun r => map (batch r) (seq 1 (P - 1)))); [exact script_sorted|exact script_streams| |reflexivity|reflexivity].
  intros r Hr. cbn [ring_start r_act]. unfold ring_program, ring_script. destruct (Nat.ltb_spec 1 P) as [L|L].
  - pose proof (follows_rounds r (P - 1) Hr 0 []) as F. unfold batch at 1 in F. rewrite before_zero in F by assumption. exact F.
  - replace (P - 1) with 0 by lia. constructor.
Qed.
End M.
