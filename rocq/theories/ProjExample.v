(** A case that meets the hypotheses: decompositions that lose nothing, and gates applied with them. *)
From Coq Require Import List Arith Bool Reals Lia Lra.
From Verif Require Import Base Cplx Rsum SumModel SumSpec SumProofs TrgTensor ContractorModel BmpsModel BmpsMain ProjModel ProjSpec.
Import ListNotations.
Local Open Scope nat_scope.

(** legs 3 and 4 put together *)
Definition plain_qr (T : tensor) : tensor * tensor :=
  (Tn [dimat T 0; dimat T 1; dimat T 2; dimat T 3 * dimat T 4] (fun ix => let z := nth 3 ix 0 in entry T [nth 0 ix 0; nth 1 ix 0; nth 2 ix 0; z / dimat T 4; z mod dimat T 4]),
   Tn [dimat T 3 * dimat T 4; dimat T 3; dimat T 4] (fun ix => if nth 0 ix 0 =? nth 1 ix 0 * dimat T 4 + nth 2 ix 0 then RtoC 1 else RtoC 0)).
(** a list of values as one number, and back *)
Fixpoint join (sh ix : list nat) : nat := match sh, ix with _ :: sh', i :: ix' => i * size sh' + join sh' ix' | _, _ => 0 end.
Fixpoint cut (sh : list nat) (x : nat) : list nat := match sh with [] => [] | _ :: sh' => (x / size sh') :: cut sh' (x mod size sh') end.
(** singular values one and the identity on the right *)
Definition plain_svd (n : nat) (T : tensor) : tensor * list R * tensor :=
  let sh := skipn n (shape T) in
  (Tn (firstn n (shape T) ++ [size sh]) (fun ix => entry T (firstn n ix ++ cut sh (nth n ix 0))), repeat 1%R (size sh),
   Tn (size sh :: sh) (fun ix => if nth 0 ix 0 =? join sh (tl ix) then RtoC 1 else RtoC 0)).
Lemma plain_qr_exact : qr_exact plain_qr.
Proof.
  intros T L. unfold plain_qr. exists (dimat T 3 * dimat T 4). split; [reflexivity|]. split; [reflexivity|]. split; [lia|]. intros a b c x y Ha Hb Hc Hx Hy. cbn [entry nth].
  rewrite (sumC_pick (fun z => entry T [a; b; c; z / dimat T 4; z mod dimat T 4])) by nia.
  rewrite Nat.div_add_l by lia. rewrite Nat.div_small, Nat.add_0_r by lia. rewrite Nat.add_comm, Nat.mod_add, Nat.mod_small by lia. reflexivity.
Qed.
Lemma join_lt sh ix : inside sh ix -> join sh ix < size sh.
Proof. intros H. induction H as [|i d ix sh Hi H IH]; [cbn; lia|]. cbn [join size fold_right] in *. fold (size sh) in *. nia. Qed.
Lemma cut_join sh ix : inside sh ix -> cut sh (join sh ix) = ix.
Proof.
  intros H. induction H as [|i d ix sh Hi H IH]; [reflexivity|]. cbn [join cut]. pose proof (join_lt _ _ H). rewrite Nat.div_add_l by lia. rewrite Nat.div_small by lia. rewrite Nat.add_0_r. f_equal. rewrite Nat.add_comm, Nat.mod_add by lia. rewrite Nat.mod_small by lia. exact IH.
Qed.
Lemma inside_length sh ix : inside sh ix -> length ix = length sh.
Proof. intros H. induction H; cbn; congruence. Qed.
Lemma plain_svd_exact m : svd_up_to m plain_svd.
Proof.
  intros n T L _. unfold plain_svd. rewrite repeat_length. split; [reflexivity|]. split; [reflexivity|]. intros ix jx Hi Hj. cbn [entry].
  pose proof (inside_length _ _ Hi) as LI. rewrite firstn_length_le in LI by exact L. set (sh := skipn n (shape T)) in *.
  assert (E : entry T (ix ++ jx) = (fun x => entry T (ix ++ cut sh x)) (join sh jx)) by (cbn beta; rewrite (cut_join _ _ Hj); reflexivity). rewrite E.
  rewrite <- (sumC_pick (fun x => entry T (ix ++ cut sh x)) (size sh) (join sh jx) (join_lt _ _ Hj)). apply sumC_ext. intros x Hx. apply in_seq in Hx. cbn [nth tl].
  assert (E1 : nth x (repeat 1%R (size sh)) 0%R = 1%R) by (rewrite (nth_indep _ 0%R 1%R) by (rewrite repeat_length; lia); apply nth_repeat).
  rewrite E1. rewrite firstn_app, app_nth2 by lia. replace (n - length ix) with 0 by lia. cbn [nth firstn]. rewrite app_nil_r, firstn_all2 by lia. destruct (x =? _); ring.
Qed.

(** a norm is not zero if an element is not *)
Definition re_nonneg (z : C) : Prop := (0 <= fst z)%R.
Lemma sum_nonneg {A} (f : A -> C) l : (forall x, In x l -> re_nonneg (f x)) -> re_nonneg (sumC f l) /\ forall x, In x l -> (fst (f x) <= fst (sumC f l))%R.
Proof.
  induction l as [|a l IH]; intros H; [split; [unfold re_nonneg; cbn; lra|intros x []]|]. destruct IH as [I1 I2]; [intros x Hx; apply H; right; exact Hx|]. rewrite sumC_cons.
  pose proof (H a (or_introl eq_refl)) as Ha. unfold re_nonneg in *. change (fst (f a + sumC f l)%C) with (fst (f a) + fst (sumC f l))%R. split; [lra|]. intros x [->|Hx]; [lra|]. specialize (I2 x Hx). lra.
Qed.
Lemma nsum_nonneg sh : forall f, (forall ix, re_nonneg (f ix)) -> re_nonneg (nsum sh f) /\ forall ix, inside sh ix -> (fst (f ix) <= fst (nsum sh f))%R.
Proof.
  induction sh as [|d sh IH]; intros f H; cbn [nsum]; [split; [apply H|]; intros ix Hx; inversion Hx; subst; lra|].
  assert (A : forall i, re_nonneg (nsum sh (fun vs => f (i :: vs)))) by (intros i; apply (IH (fun vs => f (i :: vs))); intros ix; apply H).
  destruct (sum_nonneg (fun i => nsum sh (fun vs => f (i :: vs))) (seq 0 d)) as [S1 S2]; [intros i _; apply A|]. split; [exact S1|]. intros ix Hx. inversion Hx as [|i d' ix' sh' Hi Hx' E1 E2]; subst.
  eapply Rle_trans; [|apply (S2 i); apply in_seq; lia]. apply (IH (fun vs => f (i :: vs))); [intros; apply H|exact Hx'].
Qed.
Lemma tnorm_nonzero T ix : inside (shape T) ix -> entry T ix <> RtoC 0 -> tnorm T <> 0%R.
Proof.
  intros I NZ Q. unfold tnorm in Q. assert (N : forall v, re_nonneg (RtoC (Cnorm2 (entry T v)))).
  { intros v. unfold re_nonneg, Cnorm2. cbn [fst RtoC]. nra. }
  destruct (nsum_nonneg (shape T) _ N) as [A B]. specialize (B ix I). apply sqrt_eq_0 in Q; [|exact A]. rewrite Q in B. apply NZ. destruct (entry T ix) as [x y]. unfold Cnorm2 in B. cbn [fst snd RtoC] in B.
  assert (x = 0%R /\ y = 0%R) as [-> ->] by (split; nra). reflexivity.
Qed.

(** Two rows and two columns; the upper bond has the weights 1 and 3/4, the others the weight 1. The upper sites are in the state
    |00> + 3/4 |11>, the lower ones in the state |00>. *)
Definition two : peps :=
  Peps 2 2 false
    (fun r c => match r, c with
      | 0, 0 => Tn [1; 1; 2; 1; 2] (fun ix => if nth 2 ix 0 =? nth 4 ix 0 then RtoC 1 else RtoC 0)
      | 0, _ => Tn [2; 1; 1; 1; 2] (fun ix => if nth 0 ix 0 =? nth 4 ix 0 then RtoC 1 else RtoC 0)
      | _, _ => Tn [1; 1; 1; 1; 2] (fun ix => if nth 4 ix 0 =? 0 then RtoC 1 else RtoC 0)
      end)
    (fun r c => [1%R]) (fun r c => match r, c with 0, 1 => [1%R; (3/4)%R] | _, _ => [1%R] end).
(** |ij> becomes |i, i + j> *)
Definition cnot : tensor := Tn [2; 2; 2; 2] (fun ix => if (nth 0 ix 0 =? nth 2 ix 0) && ((nth 0 ix 0 + nth 1 ix 0) mod 2 =? nth 3 ix 0) then RtoC 1 else RtoC 0).
(** |ijk> becomes |i, i + j, i + k> *)
Definition cnot3 : tensor :=
  Tn [2; 2; 2; 2; 2; 2] (fun ix => if (nth 0 ix 0 =? nth 3 ix 0) && ((nth 0 ix 0 + nth 1 ix 0) mod 2 =? nth 4 ix 0) && ((nth 0 ix 0 + nth 2 ix 0) mod 2 =? nth 5 ix 0) then RtoC 1 else RtoC 0).
Lemma two_sound : sound (1/2) two.
Proof.
  split; [lra|]. split.
  - intros r c Hr Hc. cbn in Hr, Hc. assert (K1 : kept (1/2) [1%R]) by (intros x [<-|[]]; right; rewrite Rabs_pos_eq; lra).
    assert (K2 : kept (1/2) [1%R; (3/4)%R]) by (intros x [<-|[<-|[]]]; right; rewrite Rabs_pos_eq; lra).
    destruct r as [|[|r]]; [| |lia]; (destruct c as [|[|c]]; [| |lia]); (split; [reflexivity|]); repeat split; assumption.
  - intros _ r c Hr Hc. cbn in Hr, Hc. destruct r as [|[|r]]; [| |lia]; (destruct c as [|[|c]]; [| |lia]); repeat split; intros; try reflexivity; cbn in *; lia.
Qed.
Lemma ones tol n : (tol < 1)%R -> kept tol (repeat 1%R n).
Proof. intros H x Hx. apply repeat_spec in Hx. subst. right. rewrite Rabs_R1. exact H. Qed.
(** a gate on each row *)
Definition calls2 : list (call * tensor * option tensor) := [(Row 0 0, cnot, None); (Row 1 0, cnot, Some cnot)].
Lemma one_nonzero z : z = RtoC 1 -> z <> RtoC 0.
Proof. intros -> Q. apply (f_equal fst) in Q. cbn in Q. lra. Qed.
Ltac go := vm_compute; apply injective_projections; cbn [fst snd]; ring.
Lemma calls2_lossless : lossless plain_qr plain_svd (1/2) 8 two calls2.
Proof.
  assert (V : forall r, r < 2 -> forall Q, p_rows Q = 2 -> p_cols Q = 2 -> p_per Q = false -> valid Q (Row r 0)).
  { intros r Hr Q E1 E2 E3. split; rewrite E1, E2, ?E3; cbn [bonds_of sites_of].
    - intros b [<-|[]]. apply bonds_in. cbn. lia.
    - cbn. repeat constructor; cbn; intuition congruence. }
  cbn [lossless calls2]. split; [apply V; try reflexivity; lia|]. split; [reflexivity|]. split; [cbn; lia|]. split.
  { cbn beta iota zeta delta [project project_h plain_qr plain_svd r_norm]. apply (tnorm_nonzero _ [0; 0; 0; 0]); [vm_compute; repeat constructor|]. apply one_nonzero. go. }
  split; [intros b [<-|[]]; change (kept (1/2) (repeat 1%R 8)); apply ones; lra|].
  split; [apply V; try reflexivity; lia|]. split; [reflexivity|]. split; [cbn; lia|]. split.
  { cbn beta iota zeta delta [project project_h plain_qr plain_svd r_norm r_peps]. apply (tnorm_nonzero _ [0; 0; 0; 0]); [vm_compute; repeat constructor|]. apply one_nonzero. go. }
  split; [|exact I]. intros b [<-|[]]. change (kept (1/2) (repeat 1%R 4)). apply ones. lra.
Qed.
(** one gate on three sites *)
Definition calls3 : list (call * tensor * option tensor) := [(UpperRight 0 1, cnot3, None)].
Ltac all_ones := match goal with |- kept _ ?s => let n := eval vm_compute in (length s) in change s with (repeat 1%R n); apply ones; lra end.
Lemma calls3_lossless : lossless plain_qr plain_svd (1/2) 8 two calls3.
Proof.
  cbn [lossless calls3]. split.
  { split; cbn [bonds_of sites_of]; [intros b [<-|[<-|[]]]; apply bonds_in; cbn; lia|]. cbn. repeat constructor; cbn; intuition congruence. }
  split; [reflexivity|]. split; [cbn; lia|]. split.
  { cbn beta iota zeta delta [project project_ur plain_qr plain_svd r_norm]. rewrite Rmult_1_l. apply (tnorm_nonzero _ [0; 0; 0; 0; 0; 0; 0]); [vm_compute; repeat constructor|]. apply one_nonzero. go. }
  split; [|exact I]. intros b [<-|[<-|[]]]; all_ones.
Qed.
(** the upper right site changes when the upper left one is 1 *)
Lemma calls3_acts : acts 2 2 calls3 (wave two) (fun r c => if c =? 0 then if r =? 0 then 1 else 0 else if r =? 0 then 0 else 1) = RtoC (3/4).
Proof.
  vm_compute. apply injective_projections; cbn [fst snd]; field.
Qed.
Lemma two_changed : let s := fun r c => if c =? 0 then if r =? 0 then 1 else 0 else if r =? 0 then 0 else 1 in
  proper two s /\ wave two s = RtoC 0 /\ acts 2 2 calls3 (wave two) s = RtoC (3/4).
Proof.
  cbn zeta. split; [|split; [|exact calls3_acts]].
  - intros r c Hr Hc. cbn in Hr, Hc. destruct r as [|[|r]]; [| |lia]; (destruct c as [|[|c]]; [| |lia]); cbn; lia.
  - vm_compute. apply injective_projections; cbn [fst snd]; field.
Qed.
Lemma two_weights : forall b, In b (bonds 2 2 false) -> Forall (fun x => (0 <= x)%R) (lam_of two b).
Proof. intros b Hb. cbn in Hb. repeat destruct Hb as [<-|Hb]; [..|destruct Hb]; cbn; repeat constructor; lra. Qed.
