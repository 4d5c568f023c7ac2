(** The container is a table. *)
From Coq Require Import List Arith NArith Bool Lia.
From Verif Require Import Base ObsMatModel ObsMatSpec.
Import ListNotations.
Local Open Scope N_scope.

Section P.
Context {T : Type}.
Variable plus : T -> T -> T.
Notation om := (om T).
Notation table := (@table T).

Lemma wrap_small n : n < 2 ^ 64 -> wrap n = n.
Proof. intros H. unfold wrap. apply N.mod_small. exact H. Qed.
Lemma flat_bound r c rows cols : r < rows -> c < cols -> r * cols + c < rows * cols.
Proof. intros. nia. Qed.
Lemma flat_inj r c r' c' cols : c < cols -> c' < cols -> r * cols + c = r' * cols + c' -> r = r' /\ c = c'.
Proof.
  intros H H' E. assert (R : r = r').
  { apply (f_equal (fun n => n / cols)) in E. rewrite !N.div_add_l, !N.div_small, !N.add_0_r in E by lia. exact E. }
  subst. split; [reflexivity|lia].
Qed.
Lemma below_length n : length (below n) = N.to_nat n.
Proof. unfold below. rewrite map_length, seq_length. reflexivity. Qed.
Lemma below_nth n i : i < n -> nth_error (below n) (N.to_nat i) = Some i.
Proof.
  intros H. unfold below. rewrite nth_error_map. rewrite (nth_error_nth' _ O) by (rewrite seq_length; lia). rewrite seq_nth by lia. cbn [option_map]. f_equal. rewrite Nat.add_0_l. apply N2Nat.id.
Qed.
Lemma concat_nth {A B} (l : list A) (g : A -> list B) n : (forall x, length (g x) = n) -> forall i x j, nth_error l i = Some x -> (j < n)%nat -> nth_error (concat (map g l)) (i * n + j) = nth_error (g x) j.
Proof.
  intros G. induction l as [|y l IH]; intros [|i] x j E J; cbn [nth_error] in E; try discriminate; cbn [map concat].
  - injection E as ->. rewrite nth_error_app1 by (rewrite G; lia). reflexivity.
  - rewrite nth_error_app2 by (rewrite G; nia). rewrite G. replace (S i * n + j - n)%nat with (i * n + j)%nat by nia. apply IH; assumption.
Qed.
Lemma concat_len {A B} (l : list A) (g : A -> list B) n : (forall x, length (g x) = n) -> length (concat (map g l)) = (length l * n)%nat.
Proof. intros G. induction l as [|y l IH]; cbn [map concat length]; [reflexivity|]. rewrite app_length, G, IH. lia. Qed.
Lemma row_major_length rows cols (f : N -> N -> T) : length (row_major rows cols f) = N.to_nat (rows * cols).
Proof. unfold row_major. rewrite (concat_len _ _ (N.to_nat cols)) by (intros; rewrite map_length, below_length; reflexivity). rewrite below_length. lia. Qed.
Lemma row_major_nth rows cols (f : N -> N -> T) r c : r < rows -> c < cols -> nth_error (row_major rows cols f) (N.to_nat (r * cols + c)) = Some (f r c).
Proof.
  intros R C. unfold row_major. replace (N.to_nat (r * cols + c)) with (N.to_nat r * N.to_nat cols + N.to_nat c)%nat by lia.
  rewrite (concat_nth _ _ (N.to_nat cols) ltac:(intros; rewrite map_length, below_length; reflexivity) _ r _ (below_nth _ _ R)) by lia. rewrite nth_error_map, (below_nth _ _ C). reflexivity.
Qed.
Definition agrees (m : om) (t : table) : Prop :=
  match t with
  | Table rows cols f => o_rows T m = rows /\ o_cols T m = cols /\ rows * cols < 2 ^ 64 /\ o_data T m = row_major rows cols f
  | Gone rows cols => o_rows T m = rows /\ o_cols T m = cols /\ o_data T m = []
  end.
Lemma row_major_ext rows cols (l : list T) f : length l = N.to_nat (rows * cols) -> (forall r c, r < rows -> c < cols -> nth_error l (N.to_nat (r * cols + c)) = Some (f r c)) -> l = row_major rows cols f.
Proof.
  intros L H. assert (E : forall i, nth_error l i = nth_error (row_major rows cols f) i).
  { intros i. destruct (le_lt_dec (N.to_nat (rows * cols)) i) as [G|G].
    - rewrite (proj2 (nth_error_None l i)), (proj2 (nth_error_None _ i)); [reflexivity|rewrite row_major_length; exact G|lia].
    - set (k := N.of_nat i). assert (K : k < rows * cols) by (unfold k; lia). assert (C0 : cols <> 0) by nia.
      pose proof (N.div_mod k cols C0) as D. pose proof (N.mod_lt k cols C0) as M. assert (Q : k / cols < rows) by (apply N.div_lt_upper_bound; lia).
      replace i with (N.to_nat (k / cols * cols + k mod cols)) by (rewrite N.mul_comm, <- D; unfold k; lia).
      rewrite H, row_major_nth by assumption. reflexivity. }
  clear H L. revert E. generalize (row_major rows cols f). induction l as [|x l IH]; intros [|y l2] E.
  - reflexivity.
  - specialize (E O). discriminate.
  - specialize (E O). discriminate.
  - pose proof (E O) as E0. injection E0 as ->. f_equal. apply IH. intros i. exact (E (S i)).
Qed.
Lemma nth_repeat' (v : T) n i : (i < n)%nat -> nth_error (repeat v n) i = Some v.
Proof. revert i. induction n as [|n IH]; intros [|i] H; cbn; try lia; [reflexivity|]. apply IH. lia. Qed.
Lemma resize_agrees rows cols v m : rows * cols < 2 ^ 64 -> agrees (om_resize T rows cols v m) (Table rows cols (fun _ _ => v)).
Proof.
  intros H. cbn [agrees om_resize o_rows o_cols o_data]. rewrite wrap_small by exact H. repeat split; [exact H|]. apply row_major_ext; [apply repeat_length|].
  intros r c R C. apply nth_repeat'. pose proof (flat_bound r c rows cols R C). lia.
Qed.
Lemma put_length (l : list T) i v : length (put T l i v) = length l.
Proof. revert i. induction l as [|x l IH]; intros [|i]; cbn; auto. Qed.
Lemma put_nth (l : list T) i v : (i < length l)%nat -> nth_error (put T l i v) i = Some v.
Proof. revert i. induction l as [|x l IH]; intros [|i] H; cbn in *; try lia; [reflexivity|]. apply IH. lia. Qed.
Lemma put_other (l : list T) i j v : i <> j -> nth_error (put T l i v) j = nth_error l j.
Proof. revert i j. induction l as [|x l IH]; intros [|i] [|j] H; cbn; try congruence; try reflexivity. apply IH. congruence. Qed.
Lemma index_agrees m t r c : agrees m t -> om_get T m r c = match inside t r c with Some v => Ok v | None => Fail Throw end.
Proof.
  destruct t as [rows cols f|rows cols]; cbn [agrees inside]; unfold om_get, om_index.
  - intros (-> & -> & B & ->). destruct (N.ltb_spec r rows) as [R|R], (N.ltb_spec c cols) as [C|C]; cbn [andb];
      (destruct (N.leb_spec rows r); try lia; destruct (N.leb_spec cols c); try lia; cbn [orb bind]; try reflexivity).
    pose proof (flat_bound r c rows cols R C). rewrite (wrap_small (r * cols)), wrap_small by lia. rewrite row_major_nth by assumption. reflexivity.
  - intros (_ & _ & ->). destruct (_ || _); cbn [bind]; [reflexivity|]. destruct (N.to_nat _); reflexivity.
Qed.
Lemma set_agrees m t r c v : agrees m t -> match inside t r c with
  | Some _ => exists m', om_set T m r c v = Ok m' /\ agrees m' (updated t r c v)
  | None => om_set T m r c v = Fail Throw end.
Proof.
  intros A. pose proof (index_agrees m t r c A) as G. unfold om_get in G. unfold om_set. destruct (om_index T m r c) as [i|e] eqn:I; cbn [bind] in *.
  2:{ destruct (inside t r c); [discriminate|]. injection G as ->. reflexivity. }
  destruct (inside t r c) as [x|] eqn:S.
  2:{ destruct (nth_error _ _); [discriminate|reflexivity]. }
  destruct (nth_error (o_data T m) (N.to_nat i)) as [y|] eqn:Y; [|discriminate]. eexists. split; [reflexivity|].
  destruct t as [rows cols f|rows cols]; [|discriminate]. cbn [inside] in S. destruct (N.ltb_spec r rows) as [R|R]; [|discriminate]. destruct (N.ltb_spec c cols) as [C|C]; [|discriminate].
  destruct A as (A1 & A2 & B & D). unfold om_index in I. rewrite A1, A2 in I. destruct (N.leb_spec rows r); [lia|]. destruct (N.leb_spec cols c); [lia|]. cbn [orb] in I. pose proof (flat_bound r c rows cols R C). rewrite (wrap_small (r * cols)), wrap_small in I by lia. injection I as <-.
  cbn [agrees updated o_rows o_cols o_data]. split; [exact A1|]. split; [exact A2|]. split; [exact B|]. apply row_major_ext; [rewrite put_length, D; apply row_major_length|].
  intros r' c' R' C'. destruct (N.eqb_spec r' r) as [->|NR].
  - destruct (N.eqb_spec c' c) as [->|NC]; cbn [andb].
    + apply put_nth. rewrite D, row_major_length. lia.
    + rewrite put_other by lia. rewrite D. apply row_major_nth; assumption.
  - cbn [andb]. rewrite put_other. { rewrite D. apply row_major_nth; assumption. } intros E. apply NR. apply N2Nat.inj in E. destruct (flat_inj _ _ _ _ _ C C' E). auto.
Qed.
Lemma call_agrees m t o : agrees m t -> fits o -> agrees (fst (om_call T plus m o)) (fst (table_call plus t o)) /\ snd (om_call T plus m o) = snd (table_call plus t o).
Proof.
  intros A F. destruct o as [rows cols v|r c|r c v|r c d| | |]; cbn [om_call table_call].
  - cbn [fst snd]. split; [apply resize_agrees; exact F|reflexivity].
  - cbn [fst snd]. split; [exact A|]. rewrite (index_agrees m t r c A). destruct (inside t r c); reflexivity.
  - pose proof (set_agrees m t r c v A) as S. destruct (inside t r c); [destruct S as (m' & -> & S)|rewrite S]; cbn [fst snd]; auto.
  - unfold om_add. rewrite (index_agrees m t r c A). destruct (inside t r c) as [x|] eqn:I; cbn [bind]; [|cbn [fst snd]; auto].
    pose proof (set_agrees m t r c (plus x d) A) as S. rewrite I in S. destruct S as (m' & -> & S). cbn [fst snd]; auto.
  - cbn [fst snd]. split; [exact A|]. destruct t as [rows cols f|rows cols]; cbn [agrees] in A.
    + destruct A as (_ & _ & _ & ->). rewrite row_major_length, N2Nat.id. reflexivity.
    + destruct A as (_ & _ & ->). reflexivity.
  - cbn [fst snd om_flatten]. split; [exact A|]. unfold om_flatten. destruct t as [rows cols f|rows cols]; cbn [agrees contents] in *; [destruct A as (_ & _ & _ & ->)|destruct A as (_ & _ & ->)]; reflexivity.
  - cbn [om_extract fst snd]. destruct t as [rows cols f|rows cols]; cbn [agrees contents gone] in *; [destruct A as (A1 & A2 & _ & ->)|destruct A as (A1 & A2 & ->)]; cbn [o_rows o_cols o_data]; auto.
Qed.
Lemma calls_agree l : forall m t, agrees m t -> Forall fits l -> agrees (fst (om_calls T plus m l)) (fst (table_calls plus t l)) /\ snd (om_calls T plus m l) = snd (table_calls plus t l).
Proof.
  induction l as [|o l IH]; intros m t A F; cbn [om_calls table_calls]; [split; [exact A|reflexivity]|].
  inversion F as [|? ? F1 F2]; subst. destruct (call_agrees m t o A F1) as [A1 R]. destruct (om_call T plus m o) as [m1 y1], (table_call plus t o) as [t1 y2]. cbn [fst snd] in A1, R. subst y2.
  destruct (IH m1 t1 A1 F2) as [A2 R2]. destruct (om_calls T plus m1 l), (table_calls plus t1 l). cbn [fst snd] in *. subst. auto.
Qed.
Lemma refines rows cols v l : rows * cols < 2 ^ 64 -> Forall fits l -> snd (om_calls T plus (om_new T rows cols v) l) = snd (table_calls plus (Table rows cols (fun _ _ => v)) l).
Proof. intros H F. apply calls_agree; [exact (resize_agrees rows cols v (mkOm T 0 0 []) H)|exact F]. Qed.
Lemma taken l : forall m, Forall keeps l -> Forall empty_reply (snd (om_calls T plus (fst (om_extract T m)) l)).
Proof.
  induction l as [|o l IH]; intros m F; cbn [om_calls]; [constructor|]. inversion F as [|? ? F1 F2]; subst.
  assert (Q : om_call T plus (fst (om_extract T m)) o = (fst (om_extract T m), snd (om_call T plus (fst (om_extract T m)) o)) /\ empty_reply (snd (om_call T plus (fst (om_extract T m)) o))).
  { assert (G : forall r c, om_get T (fst (om_extract T m)) r c = Fail Throw). { intros r c. unfold om_get, om_index. cbn [om_extract fst o_rows o_cols o_data]. destruct (_ || _); cbn [bind]; [reflexivity|]. destruct (N.to_nat _); reflexivity. }
    assert (S : forall r c v, om_set T (fst (om_extract T m)) r c v = Fail Throw). { intros r c v. unfold om_set, om_index. cbn [om_extract fst o_rows o_cols o_data]. destruct (_ || _); cbn [bind]; [reflexivity|]. destruct (N.to_nat _); reflexivity. }
    destruct o as [rows cols v|r c|r c v|r c d| | |]; cbn [keeps] in F1; [contradiction| | | | | |]; cbn [om_call].
    - rewrite G. split; [reflexivity|exact Logic.I].
    - rewrite S. split; [reflexivity|exact Logic.I].
    - unfold om_add. rewrite G. split; [reflexivity|exact Logic.I].
    - split; reflexivity.
    - split; reflexivity.
    - split; reflexivity. }
  destruct Q as [Q1 Q2]. rewrite Q1. specialize (IH m F2). destruct (om_calls T plus (fst (om_extract T m)) l). cbn [snd] in *. constructor; assumption.
Qed.
End P.
(** Two sites of a matrix whose number of elements wraps share an element. *)
Lemma shared : let m := om_new N (2 ^ 32) (2 ^ 32 + 1) 0 in exists m', om_set N m 0 0 7 = Ok m' /\ om_get N m (2 ^ 32 - 1) 1 = Ok 0 /\ om_get N m' (2 ^ 32 - 1) 1 = Ok 7.
Proof.
  cbv zeta. unfold om_new. change (wrap (2 ^ 32 * (2 ^ 32 + 1))) with 4294967296. assert (P : exists n, N.to_nat 4294967296 = S n) by (exists (N.to_nat 4294967295); rewrite <- N2Nat.inj_succ; reflexivity). destruct P as [n ->].
  unfold om_set, om_get, om_index. cbn [o_rows o_cols o_data].
  change ((2 ^ 32 <=? 0) || (2 ^ 32 + 1 <=? 0)) with false. cbn [bind]. change (N.to_nat (wrap (wrap (0 * (2 ^ 32 + 1)) + 0))) with O. cbn [repeat nth_error].
  eexists. split; [reflexivity|]. cbn [o_rows o_cols o_data]. change ((2 ^ 32 <=? 2 ^ 32 - 1) || (2 ^ 32 + 1 <=? 1)) with false. cbn [bind]. change (N.to_nat (wrap (wrap ((2 ^ 32 - 1) * (2 ^ 32 + 1)) + 1))) with O. split; reflexivity.
Qed.
