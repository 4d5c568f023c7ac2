(** Operators on two sites of a lattice of fermions equal, up to the sign that brings the two
    sites to the front, the same operators on the two sites alone. *)
From Coq Require Import List Arith Lia Bool Reals ZArith.
From Verif Require Import Base SweepModel UpdaterSpec UpdaterChain BlockChain Cplx EnergyModel EnergySpec EnergySum.
Import ListNotations.
Local Open Scope nat_scope.

Definition sgn (k : nat) : Z := if Nat.even k then 1%Z else (-1)%Z.
Lemma sgn_add a b : sgn (a + b) = (sgn a * sgn b)%Z.
Proof. unfold sgn. rewrite Nat.even_add. destruct (Nat.even a), (Nat.even b); reflexivity. Qed.
Lemma sgn_sq a : (sgn a * sgn a)%Z = 1%Z.
Proof. unfold sgn. destruct (Nat.even a); reflexivity. Qed.

(** Number of occupied modes satisfying [P]. *)
Definition one (n : fock) (P : nat -> bool) (i : nat) : nat := if P i && nth i n false then 1 else 0.
Definition cnt (P : nat -> bool) (n : fock) : nat := list_sum (map (one n P) (seq 0 (length n))).
Lemma list_sum_ext {X} (f g : X -> nat) l : (forall x, In x l -> f x = g x) -> list_sum (map f l) = list_sum (map g l).
Proof. intros H. f_equal. apply map_ext_in. exact H. Qed.
Lemma list_sum_plus {X} (f g : X -> nat) l : list_sum (map (fun x => f x + g x) l) = list_sum (map f l) + list_sum (map g l).
Proof. induction l as [|a l IH]; [reflexivity|]. simpl. rewrite IH. lia. Qed.
Lemma list_sum_zero {X} (f : X -> nat) l : (forall x, In x l -> f x = 0) -> list_sum (map f l) = 0.
Proof. induction l as [|a l IH]; intros H; [reflexivity|]. simpl. rewrite (H a) by (left; reflexivity). apply IH. intros x Hx. apply H. right. exact Hx. Qed.

Lemma set_mode_length m b n : m < length n -> length (set_mode m b n) = length n.
Proof. intros H. unfold set_mode. rewrite app_length, firstn_length. cbn [length]. rewrite skipn_length. lia. Qed.
Lemma nth_firstn_in {X} (d : X) i : forall m n, i < m -> nth i (firstn m n) d = nth i n d.
Proof.
  induction i as [|i IH]; intros m n H; destruct m as [|m]; try lia; destruct n as [|x n]; try reflexivity.
  simpl. apply IH. lia.
Qed.
Lemma nth_skipn_add {X} (d : X) m : forall n i, nth i (skipn m n) d = nth (m + i) n d.
Proof. induction m as [|m IH]; intros n i; [reflexivity|]. destruct n as [|x n]; [destruct i; reflexivity|]. simpl. apply IH. Qed.
Lemma set_mode_nth m b n i : m < length n -> nth i (set_mode m b n) false = if i =? m then b else nth i n false.
Proof.
  intros H. unfold set_mode. destruct (Nat.eqb_spec i m) as [->|N].
  - rewrite app_nth2 by (rewrite firstn_length; lia). rewrite firstn_length, Nat.min_l by lia. rewrite Nat.sub_diag. reflexivity.
  - destruct (Nat.lt_ge_cases i m).
    + rewrite app_nth1 by (rewrite firstn_length; lia). apply nth_firstn_in. lia.
    + rewrite app_nth2 by (rewrite firstn_length; lia). rewrite firstn_length, Nat.min_l by lia.
      destruct (i - m) as [|j] eqn:E; [lia|]. cbn [nth]. rewrite nth_skipn_add. f_equal. lia.
Qed.
Lemma cnt_cons P x n : cnt P (x :: n) = (if P 0 && x then 1 else 0) + cnt (fun i => P (S i)) n.
Proof. unfold cnt. cbn [length seq map list_sum]. simpl. rewrite <- seq_shift, map_map. reflexivity. Qed.
Lemma before_cnt n : forall m, length (filter (fun b => b) (firstn m n)) = cnt (fun i => i <? m) n.
Proof.
  induction n as [|x n IH]; intros m.
  - destruct m; reflexivity.
  - rewrite cnt_cons. destruct m as [|m].
    + cbn [firstn filter length]. simpl. unfold cnt. rewrite list_sum_zero; [reflexivity|]. intros i _. reflexivity.
    + cbn [firstn filter]. specialize (IH m). destruct x; cbn [length]; rewrite IH; reflexivity.
Qed.
Lemma passing_cnt m n : passing m n = sgn (cnt (fun i => i <? m) n).
Proof. unfold passing, sgn. rewrite before_cnt. reflexivity. Qed.

(** Sums over modes, block by block. *)
Lemma block_sum (f : nat -> nat) k N :
  list_sum (map f (seq 0 (k * N))) = list_sum (map (fun s => list_sum (map (fun j => f (k * s + j)) (seq 0 k))) (seq 0 N)).
Proof.
  induction N as [|N IH]; [rewrite Nat.mul_0_r; reflexivity|].
  rewrite Nat.mul_succ_r, seq_app, map_app, list_sum_app, IH. rewrite (seq_S N), map_app, list_sum_app. f_equal.
  cbn [map list_sum plus]. simpl. rewrite Nat.add_0_r. f_equal.
  assert (G : forall a l, map f (map (fun j => a + j) l) = map (fun j => f (a + j)) l) by (intros; rewrite map_map; reflexivity).
  rewrite <- G. f_equal. generalize (k * N). intros a. clear. revert a.
  induction k as [|k IH]; intros a; [reflexivity|]. simpl. rewrite Nat.add_0_r. f_equal. rewrite (IH (S a)), <- seq_shift, map_map.
  apply map_ext. intros j. lia.
Qed.
Lemma sum_single (X : nat -> nat) a N : a < N -> list_sum (map (fun s => if s =? a then X s else 0) (seq 0 N)) = X a.
Proof.
  intros H. assert (E : N = a + S (N - 1 - a)) by lia. rewrite E, seq_app, map_app, list_sum_app. cbn [seq map list_sum plus].
  rewrite list_sum_zero.
  - simpl. rewrite Nat.eqb_refl. rewrite list_sum_zero; [lia|]. intros s Hs. apply in_seq in Hs. destruct (Nat.eqb_spec s a); lia.
  - intros s Hs. apply in_seq in Hs. destruct (Nat.eqb_spec s a); lia.
Qed.

Section Two.
Context (k N a b : nat).
Hypothesis Hk : 0 < k.
Hypothesis Ha : a < N.
Hypothesis Hb : b < N.
Hypothesis Hab : a <> b.

(** Mode [l] of the pair, in the lattice. *)
Definition lab (l : nat) : nat := if l <? k then k * a + l else k * b + (l - k).
Definition loc (n : fock) : fock := map (fun l => nth (lab l) n false) (seq 0 (2 * k)).
Definition inject (n m : fock) : fock :=
  map (fun i => if i / k =? a then nth (i mod k) m false else if i / k =? b then nth (k + i mod k) m false else nth i n false)
      (seq 0 (length n)).

Lemma div_block s j : j < k -> (k * s + j) / k = s.
Proof. clear Ha Hb Hab. intros H. symmetry. apply (Nat.div_unique _ k s j); lia. Qed.
Lemma mod_block s j : j < k -> (k * s + j) mod k = j.
Proof. clear Ha Hb Hab. intros H. symmetry. apply (Nat.mod_unique _ k s j); lia. Qed.
Lemma block_of i : i = k * (i / k) + i mod k.
Proof. clear Ha Hb Hab. apply Nat.div_mod. lia. Qed.
Lemma lab_lt l : l < 2 * k -> lab l < k * N.
Proof. intros H. unfold lab. destruct (Nat.ltb_spec l k); nia. Qed.
Lemma lab_first j : j < k -> lab j = k * a + j.
Proof. clear Ha Hb Hab Hk. intros H. unfold lab. destruct (Nat.ltb_spec j k); [reflexivity|lia]. Qed.
Lemma lab_second j : lab (k + j) = k * b + j.
Proof. clear Ha Hb Hab Hk. unfold lab. destruct (Nat.ltb_spec (k + j) k); [lia|]. f_equal. lia. Qed.
Lemma loc_length n : length (loc n) = 2 * k.
Proof. unfold loc. now rewrite map_length, seq_length. Qed.
Lemma nth_loc n l : l < 2 * k -> nth l (loc n) false = nth (lab l) n false.
Proof.
  intros H. unfold loc. rewrite (nth_indep _ false (nth (lab 0) n false)) by (now rewrite map_length, seq_length).
  rewrite (map_nth (fun l => nth (lab l) n false)), seq_nth by exact H. reflexivity.
Qed.
Lemma inject_length n m : length (inject n m) = length n.
Proof. unfold inject. now rewrite map_length, seq_length. Qed.
Lemma nth_inject n m i : i < length n ->
  nth i (inject n m) false = if i / k =? a then nth (i mod k) m false else if i / k =? b then nth (k + i mod k) m false else nth i n false.
Proof.
  intros H. unfold inject. set (f := fun i => _).
  rewrite (nth_indep _ false (f 0)) by (now rewrite map_length, seq_length).
  rewrite (map_nth f), seq_nth by exact H. reflexivity.
Qed.
Lemma fock_ext (n m : fock) : length n = length m -> (forall i, i < length n -> nth i n false = nth i m false) -> n = m.
Proof. intros A B. apply (nth_ext n m false false A B). Qed.

Lemma inject_loc n : length n = k * N -> inject n (loc n) = n.
Proof.
  intros L. apply fock_ext; [apply inject_length|]. intros i Hi. rewrite inject_length in Hi. rewrite nth_inject by exact Hi.
  pose proof (block_of i) as E. pose proof (Nat.mod_upper_bound i k) as B.
  destruct (Nat.eqb_spec (i / k) a) as [A|_]; [rewrite nth_loc, lab_first by lia; f_equal; lia|].
  destruct (Nat.eqb_spec (i / k) b) as [A|_]; [rewrite nth_loc, lab_second by lia; f_equal; lia|reflexivity].
Qed.
Lemma loc_inject n m : length n = k * N -> length m = 2 * k -> loc (inject n m) = m.
Proof.
  intros L M. apply fock_ext; [rewrite loc_length; lia|]. intros l Hl. rewrite loc_length in Hl. rewrite nth_loc by exact Hl.
  pose proof (lab_lt l Hl). rewrite nth_inject by lia.
  destruct (Nat.lt_ge_cases l k).
  - rewrite lab_first, div_block, mod_block, Nat.eqb_refl by lia. reflexivity.
  - assert (E : l = k + (l - k)) by lia. rewrite E, lab_second, div_block, mod_block by lia.
    destruct (Nat.eqb_spec b a); [lia|]. rewrite Nat.eqb_refl. reflexivity.
Qed.
Lemma inject_inject n m m' : inject (inject n m) m' = inject n m'.
Proof.
  apply fock_ext; [now rewrite !inject_length|]. intros i Hi. rewrite !inject_length in Hi.
  rewrite !nth_inject by (rewrite ?inject_length; exact Hi).
  destruct (i / k =? a); [reflexivity|]. destruct (i / k =? b); reflexivity.
Qed.
Lemma set_mode_inject n l v : length n = k * N -> l < 2 * k ->
  set_mode (lab l) v n = inject n (set_mode l v (loc n)).
Proof.
  intros L Hl. pose proof (lab_lt l Hl) as HL. apply fock_ext; [rewrite set_mode_length, inject_length; lia|].
  intros i Hi. rewrite set_mode_length in Hi by lia. rewrite set_mode_nth by lia. rewrite nth_inject by exact Hi.
  pose proof (block_of i) as E. pose proof (Nat.mod_upper_bound i k) as B.
  rewrite !set_mode_nth by (rewrite loc_length; lia).
  destruct (Nat.eqb_spec (i / k) a) as [A|A].
  - rewrite nth_loc, (lab_first (i mod k)) by lia. rewrite <- A, <- E.
    destruct (Nat.eqb_spec (i mod k) l) as [<-|D]; [rewrite lab_first, <- A, <- E by lia; now rewrite Nat.eqb_refl|].
    destruct (Nat.eqb_spec i (lab l)) as [F|_]; [|reflexivity]. exfalso. apply D.
    destruct (Nat.lt_ge_cases l k) as [C|C].
    + rewrite lab_first in F by exact C. rewrite F. apply mod_block. exact C.
    + assert (X : l = k + (l - k)) by lia. rewrite X, lab_second in F. rewrite F, div_block in A by lia. lia.
  - destruct (Nat.eqb_spec (i / k) b) as [A'|A'].
    + rewrite nth_loc, lab_second by lia. rewrite <- A', <- E.
      destruct (Nat.eqb_spec (k + i mod k) l) as [<-|D]; [rewrite lab_second, <- A', <- E by lia; now rewrite Nat.eqb_refl|].
      destruct (Nat.eqb_spec i (lab l)) as [F|_]; [|reflexivity]. exfalso.
      destruct (Nat.lt_ge_cases l k) as [C|C].
      * rewrite lab_first in F by exact C. rewrite F, div_block in A by lia. lia.
      * assert (X : l = k + (l - k)) by lia. rewrite X, lab_second in F. apply D. rewrite F, mod_block by lia. lia.
    + destruct (Nat.eqb_spec i (lab l)) as [F|_]; [|reflexivity]. exfalso.
      destruct (Nat.lt_ge_cases l k) as [C|C].
      * rewrite lab_first in F by exact C. rewrite F, div_block in A by lia. lia.
      * assert (X : l = k + (l - k)) by lia. rewrite X, lab_second in F. rewrite F, div_block in A' by lia. lia.
Qed.

(** *** Counting *)
Definition blk (n : fock) (s : nat) (Q : nat -> bool) : nat := list_sum (map (fun j => if Q j && nth (k * s + j) n false then 1 else 0) (seq 0 k)).
Definition fer (n : fock) (s : nat) : nat := blk n s (fun _ => true).
Lemma cnt_blocks P n : length n = k * N -> cnt P n = list_sum (map (fun s => blk n s (fun j => P (k * s + j))) (seq 0 N)).
Proof. intros L. unfold cnt. rewrite L, block_sum. reflexivity. Qed.
Lemma blk_none n s Q : (forall j, j < k -> Q j = false) -> blk n s Q = 0.
Proof. intros H. apply list_sum_zero. intros j Hj. apply in_seq in Hj. rewrite H by lia. reflexivity. Qed.
Lemma blk_ext n s Q Q' : (forall j, j < k -> Q j = Q' j) -> blk n s Q = blk n s Q'.
Proof. intros H. apply list_sum_ext. intros j Hj. apply in_seq in Hj. rewrite H by lia. reflexivity. Qed.
Lemma cnt_before n s l : length n = k * N -> s < N -> l < k ->
  cnt (fun i => i <? k * s + l) n = list_sum (map (fer n) (seq 0 s)) + blk n s (fun j => j <? l).
Proof.
  intros L Hs Hl. rewrite cnt_blocks by exact L. assert (E : N = s + S (N - 1 - s)) by lia.
  rewrite E at 1. rewrite seq_app, map_app, list_sum_app. cbn [seq map plus]. f_equal.
  - apply list_sum_ext. intros t Ht. apply in_seq in Ht. apply blk_ext. intros j Hj. apply Nat.ltb_lt. nia.
  - assert (Z : list_sum (map (fun s0 => blk n s0 (fun j => k * s0 + j <? k * s + l)) (seq (S s) (N - 1 - s))) = 0).
    { apply list_sum_zero. intros t Ht. apply in_seq in Ht. apply blk_none. intros j Hj. apply Nat.ltb_ge. nia. }
    simpl. simpl in Z. rewrite Z, Nat.add_0_r. apply blk_ext. intros j Hj.
    destruct (Nat.ltb_spec j l); [apply Nat.ltb_lt|apply Nat.ltb_ge]; lia.
Qed.
Lemma cnt_loc Q n : cnt Q (loc n) = blk n a Q + blk n b (fun j => Q (k + j)).
Proof.
  unfold cnt. rewrite loc_length. replace (2 * k) with (k + k) by lia. rewrite seq_app, map_app, list_sum_app. f_equal.
  - apply list_sum_ext. intros j Hj. apply in_seq in Hj. unfold one. rewrite nth_loc, lab_first by lia. reflexivity.
  - unfold blk. assert (E : seq (0 + k) k = map (fun j => k + j) (seq 0 k)).
    { clear. assert (G : forall m c, seq c m = map (fun j => c + j) (seq 0 m)).
      { induction m as [|m IH]; intros c; [reflexivity|]. simpl. rewrite Nat.add_0_r. f_equal.
        rewrite (IH (S c)), <- seq_shift, map_map. apply map_ext. intros; lia. } apply G. }
    rewrite E, map_map. apply list_sum_ext. intros j Hj. apply in_seq in Hj. unfold one. rewrite nth_loc, lab_second by lia. reflexivity.
Qed.

Definition exch (n : fock) : nat :=
  fer n a * list_sum (map (fer n) (seq 0 a)) + fer n b * list_sum (map (fun s => if s =? a then 0 else fer n s) (seq 0 b)).
Definition sig (n : fock) : Z := sgn (exch n).

(** Changing the mode number [j] of site [t]. *)
Lemma fer_other n n' t : (forall s j, s <> t -> j < k -> nth (k * s + j) n' false = nth (k * s + j) n false) ->
  forall s, s <> t -> fer n' s = fer n s.
Proof.
  intros H s Hs. unfold fer, blk. apply list_sum_ext. intros j Hj. apply in_seq in Hj. rewrite H by lia. reflexivity.
Qed.
Lemma fer_flip n t j v : k * t + j < length n -> j < k ->
  fer (set_mode (k * t + j) v n) t + (if nth (k * t + j) n false then 1 else 0) = fer n t + (if v then 1 else 0).
Proof.
  intros HL Hj. unfold fer, blk. cbn [andb].
  assert (E : k = j + S (k - 1 - j)) by lia. rewrite E, !seq_app, !map_app, !list_sum_app. cbn [seq map plus].
  rewrite <- E. simpl list_sum. rewrite set_mode_nth, Nat.eqb_refl by exact HL.
  assert (A : list_sum (map (fun j0 => if nth (k * t + j0) (set_mode (k * t + j) v n) false then 1 else 0) (seq 0 j)) =
              list_sum (map (fun j0 => if nth (k * t + j0) n false then 1 else 0) (seq 0 j))).
  { apply list_sum_ext. intros i Hi. apply in_seq in Hi. rewrite set_mode_nth by exact HL. destruct (Nat.eqb_spec (k * t + i) (k * t + j)); [lia|reflexivity]. }
  assert (B : list_sum (map (fun j0 => if nth (k * t + j0) (set_mode (k * t + j) v n) false then 1 else 0) (seq (S j) (k - 1 - j))) =
              list_sum (map (fun j0 => if nth (k * t + j0) n false then 1 else 0) (seq (S j) (k - 1 - j)))).
  { apply list_sum_ext. intros i Hi. apply in_seq in Hi. rewrite set_mode_nth by exact HL. destruct (Nat.eqb_spec (k * t + i) (k * t + j)); [lia|reflexivity]. }
  simpl in A, B. simpl. rewrite A, B. destruct v, (nth (k * t + j) n false); lia.
Qed.
Lemma sum_without n t c : list_sum (map (fer n) (seq 0 c)) =
  list_sum (map (fun s => if s =? t then 0 else fer n s) (seq 0 c)) + (if t <? c then fer n t else 0).
Proof.
  destruct (Nat.ltb_spec t c) as [H|H].
  - rewrite <- (sum_single (fer n) t c H). rewrite <- list_sum_plus. apply list_sum_ext. intros s _. destruct (s =? t); lia.
  - rewrite Nat.add_0_r. apply list_sum_ext. intros s Hs. apply in_seq in Hs. destruct (Nat.eqb_spec s t); lia.
Qed.

Lemma sgn_step e e' d : e = e' + d \/ e' = e + d -> sgn e' = (sgn e * sgn d)%Z.
Proof.
  intros [-> | ->]; rewrite sgn_add; [|reflexivity]. rewrite <- Z.mul_assoc, sgn_sq. ring.
Qed.
Lemma flip_sign n l v : length n = k * N -> l < 2 * k -> nth (lab l) n false = negb v ->
  passing (lab l) n = (passing l (loc n) * sig n * sig (set_mode (lab l) v n))%Z.
Proof.
  intros L Hl Hv. pose proof (lab_lt l Hl) as HL. rewrite !passing_cnt, cnt_loc. unfold sig.
  assert (K : (sgn (exch n) * sgn (exch n))%Z = 1%Z) by apply sgn_sq.
  destruct (Nat.lt_ge_cases l k) as [C|C].
  - (* a mode of the first site *)
    rewrite lab_first in * by exact C. rewrite cnt_before by assumption. set (n' := set_mode (k * a + l) v n).
    rewrite (blk_none n b) by (intros j Hj; apply Nat.ltb_ge; lia). rewrite Nat.add_0_r.
    assert (O : forall s, s <> a -> fer n' s = fer n s).
    { apply fer_other. intros s j Hs Hj. unfold n'. rewrite set_mode_nth by lia. destruct (Nat.eqb_spec (k * s + j) (k * a + l)); [|reflexivity].
      exfalso. apply Hs. rewrite <- (div_block s j Hj), <- (div_block a l C). congruence. }
    pose proof (fer_flip n a l v ltac:(lia) C) as F. fold n' in F. rewrite Hv in F.
    assert (P1 : list_sum (map (fer n') (seq 0 a)) = list_sum (map (fer n) (seq 0 a))).
    { apply list_sum_ext. intros s Hs. apply in_seq in Hs. apply O. lia. }
    assert (P2 : list_sum (map (fun s => if s =? a then 0 else fer n' s) (seq 0 b)) = list_sum (map (fun s => if s =? a then 0 else fer n s) (seq 0 b))).
    { apply list_sum_ext. intros s _. destruct (Nat.eqb_spec s a); [reflexivity|]. apply O. assumption. }
    assert (X : sgn (exch n') = (sgn (exch n) * sgn (list_sum (map (fer n) (seq 0 a))))%Z).
    { apply sgn_step. unfold exch. rewrite P1, P2, (O b) by auto. destruct v; simpl in F; [right|left]; nia. }
    rewrite X, sgn_add. set (x := sgn (blk n a (fun j => j <? l))). set (y := sgn (list_sum _)).
    transitivity ((sgn (exch n) * sgn (exch n)) * (y * x))%Z; [rewrite K|]; ring.
  - (* a mode of the second site *)
    assert (E : l = k + (l - k)) by lia. remember (l - k) as j eqn:Ej. assert (Hj : j < k) by lia. subst l.
    rewrite lab_second in *. rewrite cnt_before by assumption. set (n' := set_mode (k * b + j) v n).
    rewrite (blk_ext n a _ (fun _ => true)) by (intros i Hi; apply Nat.ltb_lt; lia). fold (fer n a).
    rewrite (blk_ext n b (fun i => k + i <? k + j) (fun i => i <? j))
      by (intros i Hi; destruct (Nat.ltb_spec i j); [apply Nat.ltb_lt|apply Nat.ltb_ge]; lia).
    assert (O : forall s, s <> b -> fer n' s = fer n s).
    { apply fer_other. intros s i Hs Hi. unfold n'. rewrite set_mode_nth by lia. destruct (Nat.eqb_spec (k * s + i) (k * b + j)); [|reflexivity].
      exfalso. apply Hs. rewrite <- (div_block s i Hi), <- (div_block b j Hj). congruence. }
    pose proof (fer_flip n b j v ltac:(lia) Hj) as F. fold n' in F. rewrite Hv in F.
    pose proof (sum_without n b a) as A1. pose proof (sum_without n' b a) as A2.
    assert (P1 : list_sum (map (fun s => if s =? b then 0 else fer n' s) (seq 0 a)) = list_sum (map (fun s => if s =? b then 0 else fer n s) (seq 0 a))).
    { apply list_sum_ext. intros s _. destruct (Nat.eqb_spec s b); [reflexivity|]. apply O. assumption. }
    assert (P2 : list_sum (map (fun s => if s =? a then 0 else fer n' s) (seq 0 b)) = list_sum (map (fun s => if s =? a then 0 else fer n s) (seq 0 b))).
    { apply list_sum_ext. intros s Hs. apply in_seq in Hs. destruct (Nat.eqb_spec s a); [reflexivity|]. apply O. lia. }
    rewrite (sum_without n a b).
    set (pb := list_sum (map (fun s => if s =? a then 0 else fer n s) (seq 0 b))) in *.
    set (x := sgn (blk n b (fun j0 => j0 <? j))).
    destruct (Nat.ltb_spec a b) as [O1|O1].
    + assert (X : sgn (exch n') = (sgn (exch n) * sgn pb)%Z).
      { apply sgn_step. unfold exch. rewrite A1, A2, P1, P2, (O a) by auto. fold pb.
        destruct (Nat.ltb_spec b a); [lia|]. destruct v; simpl in F; [right|left]; nia. }
      rewrite X, !sgn_add. fold x. transitivity ((sgn (exch n) * sgn (exch n)) * (sgn pb * sgn (fer n a) * x))%Z; [rewrite K|]; ring.
    + assert (X : sgn (exch n') = (sgn (exch n) * sgn (fer n a + pb))%Z).
      { apply sgn_step. unfold exch. rewrite A1, A2, P1, P2, (O a) by auto. fold pb.
        destruct (Nat.ltb_spec b a); [|lia]. destruct v; simpl in F; [right|left]; nia. }
      rewrite X, !sgn_add. fold x. change (sgn 0) with 1%Z. pose proof (sgn_sq (fer n a)) as K'.
      transitivity ((sgn (exch n) * sgn (exch n)) * (sgn (fer n a) * sgn (fer n a)) * (sgn pb * x))%Z; [rewrite K, K'|]; ring.
Qed.

(** *** Expressions in creation and annihilation operators *)
Inductive fexp := FC (l : nat) | FA (l : nat) | FMul (x y : fexp) | FAdd (x y : fexp) | FScal (z : Z) (x : fexp).
Fixpoint sem (f : nat -> nat) (e : fexp) : fop :=
  match e with
  | FC l => create (f l)
  | FA l => annihilate (f l)
  | FMul x y => fmul (sem f x) (sem f y)
  | FAdd x y => fadd (sem f x) (sem f y)
  | FScal z x => fscal z (sem f x)
  end.
Fixpoint labels_in (m : nat) (e : fexp) : bool :=
  match e with
  | FC l | FA l => l <? m
  | FMul x y | FAdd x y => labels_in m x && labels_in m y
  | FScal _ x => labels_in m x
  end.
Definition lifted (n : fock) (y : Z * fock) : Z * fock := ((fst y * sig n * sig (inject n (snd y)))%Z, inject n (snd y)).
Lemma sig_sq n : (sig n * sig n)%Z = 1%Z. Proof. apply sgn_sq. Qed.

Lemma sem_length e : forall m, labels_in (2 * k) e = true -> length m = 2 * k ->
  forall y, In y (sem (fun l => l) e m) -> length (snd y) = 2 * k.
Proof.
  induction e as [l|l|x IHx y IHy|x IHx y IHy|z x IHx]; intros m Hl Hm r Hr; cbn [sem labels_in] in *.
  - apply Nat.ltb_lt in Hl. unfold create in Hr. destruct (nth l m true); [destruct Hr|]. destruct Hr as [<-|[]].
    cbn [snd]. rewrite set_mode_length; lia.
  - apply Nat.ltb_lt in Hl. unfold annihilate in Hr. destruct (nth l m false); [|destruct Hr]. destruct Hr as [<-|[]].
    cbn [snd]. rewrite set_mode_length; lia.
  - apply andb_true_iff in Hl. destruct Hl as [H1 H2]. unfold fmul in Hr. apply in_flat_map in Hr. destruct Hr as (p & Hp & Hr).
    apply in_map_iff in Hr. destruct Hr as (q & <- & Hq). cbn [snd]. apply (IHx (snd p)); auto. apply (IHy m); auto.
  - apply andb_true_iff in Hl. destruct Hl as [H1 H2]. apply in_app_or in Hr. destruct Hr as [Hr|Hr]; [apply (IHx m)|apply (IHy m)]; auto.
  - unfold fscal in Hr. apply in_map_iff in Hr. destruct Hr as (q & <- & Hq). cbn [snd]. apply (IHx m); auto.
Qed.
Lemma flat_map_map {X Y Z} (f : X -> Y) (g : Y -> list Z) l : flat_map g (map f l) = flat_map (fun x => g (f x)) l.
Proof. induction l; simpl; congruence. Qed.
Lemma map_flat_map {X Y Z} (f : Y -> Z) (g : X -> list Y) l : map f (flat_map g l) = flat_map (fun x => map f (g x)) l.
Proof. induction l; simpl; [reflexivity|]. rewrite map_app. congruence. Qed.
Lemma flat_map_ext_in' {X Y} (f g : X -> list Y) l : (forall x, In x l -> f x = g x) -> flat_map f l = flat_map g l.
Proof. induction l as [|y l IH]; intros H; [reflexivity|]. simpl. rewrite (H y) by (left; reflexivity). f_equal. apply IH. intros x Hx. apply H. right. exact Hx. Qed.

Lemma sem_lift e : forall n, labels_in (2 * k) e = true -> length n = k * N ->
  sem lab e n = map (lifted n) (sem (fun l => l) e (loc n)).
Proof.
  induction e as [l|l|x IHx y IHy|x IHx y IHy|z x IHx]; intros n Hl L; cbn [sem labels_in] in *.
  - apply Nat.ltb_lt in Hl. pose proof (lab_lt l Hl) as HL. unfold create.
    rewrite (nth_indep n true false), (nth_indep (loc n) true false), nth_loc by (rewrite ?loc_length; lia).
    destruct (nth (lab l) n false) eqn:E; [reflexivity|]. cbn [map]. unfold lifted. cbn [fst snd].
    rewrite <- set_mode_inject by assumption. rewrite (flip_sign n l true) by assumption. reflexivity.
  - apply Nat.ltb_lt in Hl. pose proof (lab_lt l Hl) as HL. unfold annihilate.
    rewrite nth_loc by lia. destruct (nth (lab l) n false) eqn:E; [|reflexivity]. cbn [map]. unfold lifted. cbn [fst snd].
    rewrite <- set_mode_inject by assumption. rewrite (flip_sign n l false) by assumption. reflexivity.
  - apply andb_true_iff in Hl. destruct Hl as [H1 H2]. unfold fmul. rewrite IHy by assumption.
    rewrite flat_map_map, map_flat_map. apply flat_map_ext_in'. intros p Hp.
    assert (Hm : length (snd p) = 2 * k) by (apply (sem_length y (loc n)); auto using loc_length).
    cbn [snd fst lifted]. rewrite IHx by (auto; rewrite inject_length; exact L).
    rewrite loc_inject by assumption. rewrite !map_map. apply map_ext_in. intros q Hq.
    unfold lifted. cbn [fst snd]. rewrite inject_inject. f_equal.
    set (s1 := sig (inject n (snd p))). transitivity (fst p * fst q * (s1 * s1) * sig n * sig (inject n (snd q)))%Z; [ring|].
    unfold s1. rewrite sig_sq. ring.
  - apply andb_true_iff in Hl. destruct Hl as [H1 H2]. unfold fadd. rewrite IHx, IHy, map_app by assumption. reflexivity.
  - unfold fscal. rewrite IHx by assumption. rewrite !map_map. apply map_ext. intros q. unfold lifted. cbn [fst snd]. f_equal. ring.
Qed.

(** *** Matrix elements *)
Lemma fock_eqb_eq : forall n m, fock_eqb n m = true <-> n = m.
Proof.
  induction n as [|x n IH]; intros [|y m]; simpl; split; intros H; try discriminate; try reflexivity.
  - apply andb_true_iff in H. destruct H as [H1 H2]. apply eqb_prop in H1. apply IH in H2. congruence.
  - inversion H; subst. rewrite eqb_reflx. apply IH. reflexivity.
Qed.
(** Same occupations outside the two sites. *)
Definition off_equal (n n' : fock) : Prop := inject n' (loc n) = n.
Lemma coeff_off e n n' : labels_in (2 * k) e = true -> length n = k * N -> length n' = k * N ->
  ~ off_equal n n' -> coeff (sem lab e) n n' = 0%Z.
Proof.
  intros Hl L L' Hn. unfold coeff. rewrite sem_lift by assumption.
  pose proof (sem_length e (loc n') Hl (loc_length n')) as HL.
  induction (sem (fun l => l) e (loc n')) as [|p ps IH]; [reflexivity|]. cbn [map fold_right].
  rewrite IH by (intros y Hy; apply HL; right; exact Hy). cbn [lifted snd fst].
  destruct (fock_eqb (inject n' (snd p)) n) eqn:E; [|reflexivity]. exfalso. apply Hn. apply fock_eqb_eq in E.
  unfold off_equal. rewrite <- E at 1. rewrite loc_inject by (auto; apply HL; left; reflexivity). exact E.
Qed.
Lemma coeff_on e n n' : labels_in (2 * k) e = true -> length n = k * N -> length n' = k * N ->
  off_equal n n' -> coeff (sem lab e) n n' = (sig n * sig n' * coeff (sem (fun l => l) e) (loc n) (loc n'))%Z.
Proof.
  intros Hl L L' Hn. unfold coeff. rewrite sem_lift by assumption.
  pose proof (sem_length e (loc n') Hl (loc_length n')) as HL.
  induction (sem (fun l => l) e (loc n')) as [|p ps IH]; [cbn; ring|]. cbn [map fold_right].
  rewrite IH by (intros y Hy; apply HL; right; exact Hy). cbn [lifted snd fst].
  destruct (fock_eqb (snd p) (loc n)) eqn:E.
  - apply fock_eqb_eq in E. rewrite E. rewrite Hn. assert (X : fock_eqb n n = true) by (apply fock_eqb_eq; reflexivity). rewrite X. ring.
  - destruct (fock_eqb (inject n' (snd p)) n) eqn:F; [|ring]. exfalso. apply fock_eqb_eq in F.
    assert (X : snd p = loc n) by (rewrite <- F; rewrite loc_inject by (auto; apply HL; left; reflexivity); reflexivity).
    apply fock_eqb_eq in X. congruence.
Qed.
End Two.
