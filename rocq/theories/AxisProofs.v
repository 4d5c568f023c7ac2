From Coq Require Import List Arith Lia.
From Verif Require Import Base AxisModel AxisSpec.
Import ListNotations.

Section Proofs.
Variable T : Type.
Variables zero one : T.
Lemma copy_first n (c a b v : list T) : length a = n -> length v = n -> length c = n -> copy_to T n v (a ++ c ++ b) = Ok (a ++ v ++ b).
Proof.
  intros A V C. unfold copy_to. rewrite !app_length, A, V, C. destruct (Nat.leb_spec (n + n) (n + (n + length b))) as [_|H]; [|lia]. f_equal.
  rewrite firstn_app, A, Nat.sub_diag, firstn_all2 by lia. cbn [firstn]. rewrite app_nil_r. f_equal. f_equal.
  rewrite skipn_app, A. rewrite (skipn_all2 a) by lia. cbn [app]. replace (n + n - n) with n by lia. rewrite skipn_app, C, Nat.sub_diag, skipn_all2 by lia. reflexivity.
Qed.
Lemma copied n a b comps : length a = n -> forall c, length c = n -> Forall (fun v => length v = n) comps ->
  copy_all T n comps (a ++ c ++ b) = Ok (a ++ last comps c ++ b).
Proof.
  intros A. induction comps as [|v comps IH]; intros c C F; [reflexivity|]. inversion F as [|? ? V F']; subst. cbn [copy_all]. rewrite V, Nat.leb_refl, firstn_all2 by lia.
  rewrite (copy_first (length a) c a b v eq_refl V C). cbn [bind]. rewrite (IH v V F'). destruct comps as [|w comps]; [reflexivity|]. f_equal. f_equal. f_equal.
  change (last (v :: w :: comps) c) with (last (w :: comps) c). clear. revert w. induction comps as [|x comps IH]; intros w; [reflexivity|]. exact (IH x).
Qed.
Lemma slice_first n (a b : list T) : length a = n -> slice n 0 (a ++ b) = a.
Proof. intros <-. unfold slice. cbn [Nat.mul skipn]. rewrite firstn_app, Nat.sub_diag, firstn_all. cbn [firstn]. apply app_nil_r. Qed.
Lemma slice_next n i (a b : list T) : length a = n -> slice n (S i) (a ++ b) = slice n i b.
Proof. intros <-. unfold slice. f_equal. rewrite skipn_app. rewrite skipn_all2 by (cbn [Nat.mul]; lia). cbn [app]. f_equal. cbn [Nat.mul]. lia. Qed.
Lemma slice_zeros n i m : i < m -> slice n i (repeat zero (m * n)) = repeat zero n.
Proof.
  revert i. induction m as [|m IH]; intros i L; [lia|]. cbn [Nat.mul]. rewrite repeat_app. destruct i as [|i].
  - apply slice_first, repeat_length.
  - rewrite slice_next by apply repeat_length. apply IH. lia.
Qed.
Lemma grown n comps : 0 < n -> 2 <= length comps -> Forall (fun v => length v = n) comps ->
  exists d, grow T zero one comps = Ok d /\ length d = length comps * n /\ slice n 0 d = one :: repeat zero (n - 1) /\ slice n 1 d = last comps [] /\
    forall i, 2 <= i < length comps -> slice n i d = repeat zero n.
Proof.
  intros N L F. destruct comps as [|c0 [|c1 comps]]; try (cbn in L; lia). unfold grow. assert (C0 : length c0 = n) by (inversion F; assumption). rewrite C0.
  set (m := length comps). replace (length (c0 :: c1 :: comps)) with (S (S m)) by reflexivity.
  assert (R : repeat zero (S (S m) * n) = zero :: repeat zero (n - 1) ++ repeat zero n ++ repeat zero (m * n)).
  { rewrite app_comm_cons. change (zero :: repeat zero (n - 1)) with (repeat zero (S (n - 1))). rewrite <- !repeat_app. f_equal. cbn [Nat.mul]. lia. }
  rewrite R. rewrite app_comm_cons.
  assert (A : length (one :: repeat zero (n - 1)) = n) by (cbn [length]; rewrite repeat_length; lia).
  rewrite (copied n _ _ (c0 :: c1 :: comps) A (repeat zero n) (repeat_length _ _) F).
  assert (E : forall d d' : list T, last (c0 :: c1 :: comps) d = last (c0 :: c1 :: comps) d').
  { intros d d'. clear. revert c0 c1. induction comps as [|x comps IH]; intros c0 c1; [reflexivity|]. exact (IH c1 x). }
  rewrite (E (repeat zero n) []). assert (V : length (last (c0 :: c1 :: comps) []) = n).
  { assert (I : In (last (c0 :: c1 :: comps) []) (c0 :: c1 :: comps)).
    { clear. revert c0 c1. induction comps as [|x comps IH]; intros c0 c1; [right; left; reflexivity|]. right. exact (IH c1 x). }
    rewrite Forall_forall in F. exact (F _ I). }
  eexists. split; [reflexivity|]. split; [|split; [|split]].
  - rewrite !app_length, A, V, repeat_length. cbn [Nat.mul]. lia.
  - apply slice_first, A.
  - rewrite slice_next by exact A. apply slice_first, V.
  - intros i [I J]. destruct i as [|[|i]]; try lia. rewrite slice_next by exact A. rewrite slice_next by exact V. apply slice_zeros. unfold m in *. lia.
Qed.
Lemma grown_one c : c <> [] -> grow T zero one [c] = Fail UB.
Proof.
  intros H. destruct c as [|x c]; [contradiction|]. unfold grow. cbn [length Nat.mul Nat.add repeat]. cbn [copy_all]. rewrite Nat.leb_refl, firstn_all2 by (cbn [length]; lia).
  unfold copy_to. cbn [length]. rewrite repeat_length. destruct (Nat.leb_spec (S (length c) + S (length c)) (S (length c + 0))); [lia|]. reflexivity.
Qed.
End Proofs.
