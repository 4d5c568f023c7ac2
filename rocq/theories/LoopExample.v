(** A case that meets the hypotheses: a loop gate applied with decompositions that lose nothing. *)
From Coq Require Import List Arith Bool Reals Lia Lra.
From Verif Require Import Base Cplx Rsum SumModel SumSpec SumProofs TrgTensor ContractorModel BmpsModel BmpsMain OptModel CgModel ProjModel ProjSpec ProjGrid ProjExample LoopModel LoopSpec LoopDone.
Import ListNotations.
Local Open Scope nat_scope.

(** singular values one and the identity on the left *)
Definition left_svd (n : nat) (T : tensor) : tensor * list R * tensor :=
  let sh := firstn n (shape T) in
  (Tn (sh ++ [size sh]) (fun ix => if nth n ix 0 =? join sh (firstn n ix) then RtoC 1 else RtoC 0), repeat 1%R (size sh),
   Tn (size sh :: skipn n (shape T)) (fun ix => entry T (cut sh (nth 0 ix 0) ++ tl ix))).
(** no more than rows or columns *)
Definition small_svd (n : nat) (T : tensor) : tensor * list R * tensor :=
  if size (skipn n (shape T)) <=? size (firstn n (shape T)) then plain_svd n T else left_svd n T.
Definition small_qr (n : nat) (T : tensor) : tensor * tensor := let '(u, _, vt) := plain_svd n T in (u, vt).
Definition small_evd (T : tensor) : tensor * list R := (eye (dimat T 0), repeat 1%R (dimat T 0)).
Definition small_vec (left : bool) (U : tensor) (s : list R) : tensor := eye (length s).
Lemma ones_nth x n : x < n -> nth x (repeat 1%R n) 0%R = 1%R.
Proof. intros H. rewrite (nth_indep _ 0%R 1%R) by (rewrite repeat_length; exact H). apply nth_repeat. Qed.
Lemma left_svd_ok n T : n <= length (shape T) -> let '(u, s, vt) := left_svd n T in
    shape u = firstn n (shape T) ++ [length s] /\ shape vt = length s :: skipn n (shape T) /\
    forall ix jx, inside (firstn n (shape T)) ix -> inside (skipn n (shape T)) jx ->
      entry T (ix ++ jx) = sumC (fun x => (entry u (ix ++ [x]) * RtoC (nth x s 0%R) * entry vt (x :: jx))%C) (seq 0 (length s)).
Proof.
  intros L. unfold left_svd. rewrite repeat_length. split; [reflexivity|]. split; [reflexivity|]. intros ix jx Hi Hj. cbn [entry].
  pose proof (inside_length _ _ Hi) as LI. rewrite firstn_length_le in LI by exact L. set (sh := firstn n (shape T)) in *.
  assert (E : entry T (ix ++ jx) = (fun x => entry T (cut sh x ++ jx)) (join sh ix)) by (cbn beta; rewrite (cut_join _ _ Hi); reflexivity). rewrite E.
  rewrite <- (sumC_pick (fun x => entry T (cut sh x ++ jx)) (size sh) (join sh ix) (join_lt _ _ Hi)). apply sumC_ext. intros x Hx. apply in_seq in Hx. cbn [nth tl].
  rewrite ones_nth by lia. rewrite firstn_app, app_nth2 by lia. replace (n - length ix) with 0 by lia. cbn [nth firstn]. rewrite app_nil_r, firstn_all2 by lia. destruct (x =? _); ring.
Qed.
Lemma small_svd_any : svd_any small_svd.
Proof.
  intros n T L. unfold small_svd. destruct (Nat.leb_spec (size (skipn n (shape T))) (size (firstn n (shape T)))) as [H|H].
  - pose proof (plain_svd_exact (size (skipn n (shape T))) n T L ltac:(right; lia)) as Q. assert (E : length (snd (fst (plain_svd n T))) = size (skipn n (shape T))) by apply repeat_length.
    destruct (plain_svd n T) as [[u s] vt]. cbn [fst snd] in E. destruct Q as (Q1 & Q2 & Q3). split; [exact Q1|]. split; [exact Q2|]. rewrite E at 1 2. split; [exact H|]. split; [lia|exact Q3].
  - pose proof (left_svd_ok n T L) as Q. assert (E : length (snd (fst (left_svd n T))) = size (firstn n (shape T))) by apply repeat_length.
    destruct (left_svd n T) as [[u s] vt]. cbn [fst snd] in E. destruct Q as (Q1 & Q2 & Q3). split; [exact Q1|]. split; [exact Q2|]. rewrite E at 1 2. split; [lia|]. split; [lia|exact Q3].
Qed.
Lemma small_svd_up_to m : svd_up_to m small_svd.
Proof. intros n T L _. pose proof (small_svd_any n T L) as Q. destruct (small_svd n T) as [[u s] vt]. destruct Q as (Q1 & Q2 & _ & _ & Q3). split; [exact Q1|]. split; [exact Q2|exact Q3]. Qed.
Lemma small_qr_any : qr_any small_qr.
Proof.
  intros n T L. unfold small_qr. pose proof (plain_svd_exact (size (skipn n (shape T))) n T L ltac:(right; lia)) as Q. assert (E : snd (fst (plain_svd n T)) = repeat 1%R (size (skipn n (shape T)))) by reflexivity.
  destruct (plain_svd n T) as [[u s] vt]. cbn [fst snd] in E. destruct Q as (Q1 & Q2 & Q3). exists (length s). split; [exact Q1|]. split; [exact Q2|]. intros ix jx Hi Hj. rewrite (Q3 ix jx Hi Hj). apply sumC_ext. intros x Hx. apply in_seq in Hx.
  rewrite E in Hx |- *. rewrite repeat_length in Hx. rewrite ones_nth by lia. ring.
Qed.
Lemma small_evd_unitary : evd_unitary small_evd.
Proof.
  intros T n S. unfold small_evd, dimat. rewrite S. cbn [nth]. split; [reflexivity|]. split; [apply repeat_length|]. intros i j Hi Hj. cbn [eye entry nth].
  transitivity (sumC (fun k => ((fun k => if i =? k then RtoC 1 else RtoC 0) k * (if k =? j then RtoC 1 else RtoC 0))%C) (seq 0 n)).
  - apply sumC_ext. intros k _. cbn beta. f_equal. rewrite (Nat.eqb_sym j k). destruct (k =? j); apply injective_projections; cbn; ring.
  - rewrite (sumC_pick (fun k => if i =? k then RtoC 1 else RtoC 0) n j Hj). reflexivity.
Qed.
Lemma small_vec_shape : eig_shape small_vec.
Proof. intros b U s. reflexivity. Qed.
(** |abcd> becomes |abcd> + |not a, not b, not c, not d> *)
Definition flips (i : nat) : tensor := Tn [2; 2; 2; 2] (fun ix => if (nth 0 ix 0 =? nth 3 ix 0) && ((nth 1 ix 0 + nth 0 ix 0) mod 2 =? nth 2 ix 0) then RtoC 1 else RtoC 0).
Definition small_para : loop_params := mkLoop (1/2) (1/2) (1/1000000) (1/1000000000) (1/100000000) 10 (mkCg 10 (1/100000000) (1/100000000) 10 (1/2)).
Lemma small_roots left U s : length s <= 4 -> Forall (fun y => (l_inv_tol small_para <= y)%R) (roots (unit_length (fix_sign (snd (small_evd (small_vec left U s)))))).
Proof.
  intros H. change (snd (small_evd (small_vec left U s))) with (repeat 1%R (length s)). generalize dependent (length s). intros n Hn.
  assert (S : forall k, fold_right Rplus 0%R (repeat 1%R k) = INR k) by (induction k as [|k IH]; [reflexivity|]; cbn [repeat fold_right]; rewrite IH, S_INR; ring).
  assert (Q : forall k, fold_right (fun x a => x * x + a)%R 0%R (repeat 1%R k) = INR k) by (induction k as [|k IH]; [reflexivity|]; cbn [repeat fold_right]; rewrite IH, S_INR; ring).
  unfold fix_sign, rlt. rewrite S. pose proof (pos_INR n). destruct (Rlt_dec (INR n) 0) as [X|_]; [lra|]. unfold unit_length, norm_of. rewrite Q. apply Forall_forall. intros y Hy. unfold roots in Hy. rewrite map_map in Hy. apply in_map_iff in Hy.
  destruct Hy as (x & <- & Hx). pose proof (repeat_spec _ _ _ Hx) as ->. destruct n as [|n]; [destruct Hx|]. rewrite Rmult_1_r.
  assert (P : (0 < sqrt (INR (Datatypes.S n)))%R) by (apply sqrt_lt_R0; apply lt_0_INR; lia).
  assert (B : (sqrt (INR (Datatypes.S n)) <= 2)%R).
  { replace 2%R with (sqrt (2 * 2)) by (apply sqrt_square; lra). apply sqrt_le_1_alt. replace (2 * 2)%R with (INR 4) by (cbn; lra). apply le_INR. lia. }
  assert (I : (1 / 2 <= / sqrt (INR (Datatypes.S n)))%R) by (unfold Rdiv; rewrite Rmult_1_l; apply Rinv_le_contravar; assumption).
  unfold rle. destruct (Rle_dec 0 (/ sqrt (INR (Datatypes.S n)))) as [_|X]; [|exfalso; apply X; left; apply Rinv_0_lt_compat; exact P].
  cbn [l_inv_tol small_para]. replace (1 / 2)%R with (sqrt (1 / 2 * (1 / 2))) by (apply sqrt_square; lra). apply sqrt_le_1_alt. lra.
Qed.
Lemma two_loop : loop_valid two 0 0.
Proof.
  split; [|vm_compute; repeat constructor; cbn; intuition congruence]. cbn [map side]. intros b Hb. apply bonds_in. cbn in Hb. destruct Hb as [<-|[<-|[<-|[<-|[]]]]]; cbn; lia.
Qed.
Lemma two_fits : loop_fits two 0 0 flips.
Proof. exists (fun _ => 2). intros i Hi. destruct i as [|[|[|[|i]]]]; reflexivity. Qed.
Lemma two_room : loop_room 4 two 0 0 flips.
Proof. intros i Hi. destruct i as [|[|[|[|i]]]]; cbn; lia. Qed.
(** before the gate the state was not in it *)
Definition up : basis := fun _ _ => 1.
Lemma two_old : proper two up /\ wave two up = RtoC 0 /\ gate4 flips (corner 2 2 0 0) (wave two) up = RtoC 1.
Proof.
  split; [intros r c Hr Hc; cbn in Hr, Hc; destruct r as [|[|r]]; [| |lia]; (destruct c as [|[|c]]; [| |lia]); vm_compute; repeat constructor|]. split; vm_compute; apply injective_projections; cbn [fst snd]; ring.
Qed.
Lemma two_conditioned : conditioned small_qr small_svd small_evd small_vec small_para flips two 0 0.
Proof.
  apply (conditioned_any small_qr small_svd small_evd small_vec small_para 4 two flips 0 0 small_qr_any small_svd_any); [apply sound_fitted; exact two_sound|exact two_loop|exact two_fits|exact two_room|].
  intros left U s H. apply small_roots. exact H.
Qed.
Lemma two_runs : exists out, loop_project small_qr small_svd small_svd small_evd small_vec small_para flips two 0 0 = Ok out /\ lr_norm out <> 0%R /\ Forall (fun y => (l_inv_tol small_para <= y)%R) (lr_roots out).
Proof.
  apply (loop_done small_qr small_svd small_svd small_evd small_vec small_para 4 small_qr_any small_svd_any (small_svd_up_to 4) small_evd_unitary small_vec_shape two flips 0 0).
  - apply sound_fitted. exact two_sound.
  - exact two_loop.
  - exact two_fits.
  - cbn [l_inv_tol small_para]; lra.
  - cbn [l_correct small_para]; lra.
  - cbn [l_warn small_para]; lra.
  - exact two_room.
  - exact two_conditioned.
  - exists up. destruct two_old as (H1 & _ & H2). split; [exact H1|]. cbn [p_rows p_cols two]. rewrite H2. apply one_nonzero. reflexivity.
Qed.
