(** The holes of a layer are averages of the contributions of the parents. *)
From Coq Require Import List Arith Lia Bool.
From Verif Require Import Base TrgModel TrgSpec TrgProofs.
Import ListNotations.
Local Open Scope nat_scope.

Section Loop.
Context (o : trg_ops) (sub : arr bool) (p : Prm o) (ty : nat -> nat -> stype).
Notation Ten := (Ten o).
Notation scale := (scale o).
Notation made s X := (fun i => make_split o p (ty s i) (X i)).
(** what parent q gives to its child of role k *)
Definition contribution (s : nat) (coarse : scale) (X : nat -> Ten) (H : arr Ten) (q k : nat) : Ten :=
  let c := child (aval (c2f coarse) q) in
  let e := made s X (c k) in
  let h := if Nat.even s then plaq_hole o k (aval H q) (sd_Q (made s X (c 0))) (sd_Q (made s X (c 1))) (sd_P (made s X (c 2))) (sd_P (made s X (c 3)))
           else diam_hole o k (aval H q) (sd_P (made s X (c 0))) (sd_P (made s X (c 1))) (sd_Q (made s X (c 2))) (sd_Q (made s X (c 3))) in
  if (if Nat.even s then k <? 2 else 2 <=? k) then adjoint_Q o (ty s (c k)) (sd_iso e) h else adjoint_P o (ty s (c k)) (sd_iso e) h.
(** sums of contributions to a node *)
Inductive gathered (s : nat) (coarse : scale) (X : nat -> Ten) (H : arr Ten) (i : nat) : nat -> Ten -> Prop :=
| gathered_one q k : q < alen (tens coarse) -> k < 4 -> child (aval (c2f coarse) q) k = i -> gathered s coarse X H i 1 (contribution s coarse X H q k)
| gathered_more n y q k : gathered s coarse X H i n y -> q < alen (tens coarse) -> k < 4 -> child (aval (c2f coarse) q) k = i ->
    gathered s coarse X H i (S n) (ten_add o y (contribution s coarse X H q k)).
Definition averaged s coarse X H i (h : Ten) : Prop := exists n y, gathered s coarse X H i n y /\ h = (if n =? 1 then y else ten_div o n y).
Lemma sd_type_made st x : sd_type (make_split o p st x) = st.
Proof. unfold make_split. destruct (split_node o p st x) as [[? ?] ?]. reflexivity. Qed.
Definition acc_ok s coarse X H (touched : nat -> Prop) (n : nat) (acc : arr (option Ten * nat)) : Prop := alen acc = n /\
  forall i, i < n -> (touched i -> fst (aval acc i) <> None) /\ match aval acc i with (None, c) => c = 0 | (Some y, c) => gathered s coarse X H i c y end.
Lemma contribute_ok s fine coarse X H q k acc (touched : nat -> Prop) : layer_ok o sub ty s fine coarse -> has_splits o p ty s fine X -> alen H = alen (tens coarse) ->
  q < alen (tens coarse) -> k < 4 -> acc_ok s coarse X H touched (alen (tens fine)) acc ->
  exists acc', contribute o s k (child (aval (c2f coarse) q) k) (aval H q) fine (aval (c2f coarse) q) acc = Ok acc' /\
    acc_ok s coarse X H (fun i => touched i \/ i = child (aval (c2f coarse) q) k) (alen (tens fine)) acc'.
Proof.
  intros L [S1 S2] LH Hq Hk [A1 A2]. pose proof (lo_child _ _ _ _ _ _ L q) as K. unfold contribute.
  assert (C : forall j, j < 4 -> child (aval (c2f coarse) q) j < alen (tens fine)) by (intros j Hj; apply (K j Hq Hj)).
  remember (aval (c2f coarse) q) as ch eqn:Ech. set (id := child ch k) in *. assert (Hid : id < alen (tens fine)) by (apply C; exact Hk).
  assert (PI : forall j, j < 4 -> pieces_of o (splits fine) (child ch j) = Ok (sd_P (made s X (child ch j)), sd_Q (made s X (child ch j)))).
  { intros j Hj. unfold pieces_of. rewrite aget_ok by (rewrite S1; apply C; exact Hj). rewrite S2 by (apply C; exact Hj). reflexivity. }
  pose proof (PI 0 ltac:(lia)) as P0. pose proof (PI 1 ltac:(lia)) as P1. pose proof (PI 2 ltac:(lia)) as P2. pose proof (PI 3 ltac:(lia)) as P3.
  assert (EC : contribution s coarse X H q k = contribution s coarse X H q k) by reflexivity. unfold contribution in EC at 1. rewrite <- Ech in EC. fold id in EC.
  destruct ch as [[[k0 k1] k2] k3] eqn:Q. cbn [child] in P0, P1, P2, P3, EC. rewrite P0, P1, P2, P3. cbn [bind fst snd]. rewrite aget_ok by (rewrite S1; exact Hid). cbn [bind]. rewrite S2 by exact Hid. cbn [need bind].
  rewrite sd_type_made. rewrite EC. rewrite aget_ok by (rewrite A1; exact Hid). cbn [bind]. rewrite aset_ok by (rewrite A1; exact Hid). eexists. split; [reflexivity|]. split; [exact A1|]. cbn [aval alen].
  intros i Hi. destruct (A2 i Hi) as [B1 B2]. destruct (Nat.eqb_spec i id) as [->|NE].
  - split; [intros _; destruct (fst (aval acc id)); discriminate|]. destruct (aval acc id) as [[y|] c]; cbn [fst snd].
    + apply gathered_more; [exact B2|exact Hq|exact Hk|rewrite <- Ech; reflexivity].
    + subst c. apply gathered_one; [exact Hq|exact Hk|rewrite <- Ech; reflexivity].
  - split; [intros [Z|Z]; [apply B1; exact Z|contradiction]|exact B2].
Qed.
Lemma acc_weaken s coarse X H (t t' : nat -> Prop) n acc : (forall i, t' i -> t i) -> acc_ok s coarse X H t n acc -> acc_ok s coarse X H t' n acc.
Proof. intros W [A B]. split; [exact A|]. intros i Hi. destruct (B i Hi) as [B1 B2]. split; [intros Z; apply B1, W, Z|exact B2]. Qed.
Lemma holes_down_ok s fine coarse X H : layer_ok o sub ty s fine coarse -> has_splits o p ty s fine X -> alen H = alen (tens coarse) -> 0 < alen (tens fine) ->
  exists H', holes_down o s fine coarse H = Ok H' /\ alen H' = alen (tens fine) /\ forall i, i < alen (tens fine) -> averaged s coarse X H i (aval H' i).
Proof.
  intros L HS LH Pos. unfold holes_down. set (n := alen (tens fine)) in *.
  destruct (foreach_inv (fun done acc => acc_ok s coarse X H (fun i => exists q k, In q done /\ k < 4 /\ child (aval (c2f coarse) q) k = i) n acc)
    (fun acc pid => k <- aget (c2f coarse) pid;; h <- aget H pid;; let '(((k0, k1), k2), k3) := k in
           a <- contribute o s 0 k0 h fine k acc;; b <- contribute o s 1 k1 h fine k a;; c <- contribute o s 2 k2 h fine k b;; contribute o s 3 k3 h fine k c)
    (seq 0 (alen (tens coarse))) (anew n (None, 0))) as (acc & -> & [A1 A2]).
  - split; [reflexivity|]. intros i Hi. cbn. split; [intros (q & k & [] & _)|reflexivity].
  - intros done q rest acc E A. assert (Hq : q < alen (tens coarse)) by (apply in_range; rewrite E; apply in_or_app; right; left; reflexivity).
    rewrite aget_ok by (rewrite (lo_c2f _ _ _ _ _ _ L); exact Hq). cbn [bind]. rewrite aget_ok by (rewrite LH; exact Hq). cbn [bind].
    destruct (contribute_ok s fine coarse X H q 0 acc _ L HS LH Hq ltac:(lia) A) as (a0 & E0 & G0).
    destruct (contribute_ok s fine coarse X H q 1 a0 _ L HS LH Hq ltac:(lia) G0) as (a1 & E1 & G1).
    destruct (contribute_ok s fine coarse X H q 2 a1 _ L HS LH Hq ltac:(lia) G1) as (a2 & E2 & G2).
    destruct (contribute_ok s fine coarse X H q 3 a2 _ L HS LH Hq ltac:(lia) G2) as (a3 & E3 & G3).
    exists a3. split.
    + destruct (aval (c2f coarse) q) as [[[k0 k1] k2] k3]. cbn [child] in E0, E1, E2, E3. rewrite E0. cbn [bind]. rewrite E1. cbn [bind]. rewrite E2. cbn [bind]. exact E3.
    + revert G3. apply acc_weaken. intros i (q' & k & Hq' & Hk & C). apply in_app_or in Hq'. destruct Hq' as [Hq'|[->|[]]].
      * do 4 left. exists q', k. tauto.
      * destruct k as [|[|[|[|]]]]; [left; left; left; right|left; left; right|left; right|right|lia]; symmetry; exact C.
  - cbn [bind].
    destruct (foreach_inv (fun done xs => length xs = length done /\ forall j x, nth_error xs j = Some x -> averaged s coarse X H (nth j done 0) x)
      (fun xs id => x <- aget acc id;; match x with (Some y, 1) => Ok (xs ++ [y]) | (Some y, S (S k)) => Ok (xs ++ [ten_div o (S (S k)) y]) | _ => Fail Throw end) (seq 0 n) []) as (xs & -> & [B1 B2]).
    + split; [reflexivity|]. intros [|j] x Q; discriminate.
    + intros done i rest xs E [B1 B2]. assert (Hi : i < n) by (apply in_range; rewrite E; apply in_or_app; right; left; reflexivity). rewrite aget_ok by (rewrite A1; exact Hi). cbn [bind].
      destruct (A2 i Hi) as [C1 C2]. destruct (lo_parent _ _ _ _ _ _ L i Hi) as (p1 & p2 & role & _ & R1 & _ & R2 & _). destruct (first_role_child _ _ _ R2) as [R3 R4].
      assert (NN : fst (aval acc i) <> None) by (apply C1; exists p1, role; split; [apply in_range; exact R1|split; assumption]).
      destruct (aval acc i) as [[y|] c]; [|contradiction NN; reflexivity]. cbn [fst] in *. clear NN C1.
      assert (AV : forall x, averaged s coarse X H i x -> length (xs ++ [x]) = length (done ++ [i]) /\ forall j z, nth_error (xs ++ [x]) j = Some z -> averaged s coarse X H (nth j (done ++ [i]) 0) z).
      { intros x AX. split; [rewrite !app_length, B1; reflexivity|]. intros j z Q. destruct (Nat.lt_ge_cases j (length xs)) as [Lt|Ge].
        - rewrite nth_error_app1 in Q by exact Lt. rewrite app_nth1 by lia. apply B2. exact Q.
        - rewrite nth_error_app2 in Q by exact Ge. rewrite app_nth2 by lia. rewrite <- B1. destruct (j - length xs) as [|e]; [cbn in Q |- *; injection Q as <-; exact AX|destruct e; discriminate]. }
      destruct c as [|[|c]]; [inversion C2; subst; match goal with G : gathered _ _ _ _ _ 0 _ |- _ => inversion G end| |].
      * eexists. split; [reflexivity|]. apply AV. exists 1, y. split; [exact C2|reflexivity].
      * eexists. split; [reflexivity|]. apply AV. exists (S (S c)), y. split; [exact C2|reflexivity].
    + cbn [bind]. rewrite seq_length in B1. destruct xs as [|x0 xs]; [cbn in B1; lia|]. eexists. split; [reflexivity|]. split; [reflexivity|]. cbn [alen aval]. intros i Hi.
      assert (Q : nth_error (x0 :: xs) i = Some (nth i (x0 :: xs) x0)) by (apply nth_error_nth'; lia). specialize (B2 i _ Q). rewrite seq_nth in B2 by exact Hi. exact B2.
Qed.
End Loop.
