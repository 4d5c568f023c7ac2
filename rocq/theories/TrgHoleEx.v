(** A 4x4 torus whose holes are not the derivatives of its amplitude. *)
From Coq Require Import List Arith Lia Bool Reals Lra Permutation.
From Verif Require Import Base Cplx Rsum SumModel SumSpec SumProofs NetSum TrgModel TrgSpec TrgTensor TrgProofs TrgTopo TrgMain TrgExactSpec TrgSums TrgFinal TrgExact TrgHoleSpec TrgHoleAlg TrgHoleLoop TrgHoleMain TrgHoleTop.
Import ListNotations.
Local Open Scope nat_scope.

Lemma sumC_real {A} (f : A -> R) l : sumC (fun x => RtoC (f x)) l = RtoC (rsum f l).
Proof. induction l as [|a l IH]; [reflexivity|]. rewrite sumC_cons, rsum_cons, RtoC_add, IH. reflexivity. Qed.
(** *** A split whose decomposition gives the tensor back loses nothing *)
Lemma split_exact_at svd p st T u s vt : length (shape T) = 4 -> svd p (matrix_of st T) = (u, s, vt) -> svd_legs (matrix_of st T) u s vt -> Forall (fun x => (0 <= x)%R) s ->
  (let M := matrix_of st T in forall i j k l, i < dimat M 0 -> j < dimat M 1 -> k < dimat M 2 -> l < dimat M 3 ->
      entry M [i; j; k; l] = sumC (fun x => (entry u [i; j; x] * RtoC (nth x s 0%R) * entry vt [x; k; l])%C) (seq 0 (length s))) ->
  recombines st T (sd_P (make_split (tensor_ops svd) p st T)) (sd_Q (make_split (tensor_ops svd) p st T)).
Proof.
  intros H ES [U V] NN E. destruct T as [sh e]. cbn [shape] in H. destruct sh as [|d0 [|d1 [|d2 [|d3 [|]]]]]; try discriminate H.
  unfold make_split. cbn [split_node tensor_ops]. unfold split_tensor. destruct st; cbn [matrix_of] in *.
  - rewrite ES. cbn [dimat shape transpose map nth] in U, V. cbv zeta in E. unfold dimat in E. cbn [dimat shape transpose map nth] in E.
    exists (length s). cbn [sd_P sd_Q]. rewrite <- (map_length sqrt s) in U, V. destruct (left_scaled u (map sqrt s) _ _ U) as [L1 L2]. destruct (right_scaled vt (map sqrt s) _ _ V) as [R1 R2]. rewrite map_length in L1, L2, R1, R2.
    split; [split; [exact L1|exact R1]|]. cbn [dimat shape nth]. intros l d r t Hl Hd Hr Ht.
    transitivity (entry (transpose [0; 3; 1; 2] (Tn [d0; d1; d2; d3] e)) [l; t; d; r]); [reflexivity|]. rewrite E by assumption. apply sumC_ext. intros x Hx. apply in_seq in Hx. rewrite L2, R2 by lia. rewrite <- (root_square s x NN) by lia. ring.
  - rewrite ES. cbn [dimat shape map nth] in U, V, E.
    exists (length s). cbn [sd_P sd_Q]. rewrite <- (map_length sqrt s) in U, V. destruct (left_scaled u (map sqrt s) _ _ U) as [L1 L2]. destruct (right_scaled vt (map sqrt s) _ _ V) as [R1 R2]. rewrite map_length in L1, L2, R1, R2.
    split; [split; [exact L1|exact R1]|]. cbn [dimat shape nth]. intros l d r t Hl Hd Hr Ht.
    rewrite E by assumption. apply sumC_ext. intros x Hx. apply in_seq in Hx. rewrite L2, R2 by lia. rewrite <- (root_square s x NN) by lia. ring.
Qed.
(** *** The decomposition of matrices a(i,j) b(k,l) with positive a and b *)
Definition row2 (T : tensor) i j : R := rsum (fun k => rsum (fun l => Cnorm2 (entry T [i; j; k; l])) (seq 0 (dimat T 3))) (seq 0 (dimat T 2)).
Definition col2 (T : tensor) k l : R := rsum (fun i => rsum (fun j => Cnorm2 (entry T [i; j; k; l])) (seq 0 (dimat T 1))) (seq 0 (dimat T 0)).
Definition all2 (T : tensor) : R := rsum (fun i => rsum (fun j => row2 T i j) (seq 0 (dimat T 1))) (seq 0 (dimat T 0)).
Definition rank_one_svd (_ : trunc) (T : tensor) : tensor * list R * tensor :=
  (Tn [dimat T 0; dimat T 1; 1] (fun ix => RtoC (sqrt (row2 T (nth 0 ix 0) (nth 1 ix 0) / all2 T))), [sqrt (all2 T)],
   Tn [1; dimat T 2; dimat T 3] (fun ix => RtoC (sqrt (col2 T (nth 1 ix 0) (nth 2 ix 0) / all2 T)))).
Definition squares (f : nat -> nat -> R) (m n : nat) : R := rsum (fun i => rsum (fun j => f i j * f i j)%R (seq 0 n)) (seq 0 m).
Lemma squares_pos f m n : 1 <= m -> 1 <= n -> (forall i j, 0 < f i j)%R -> (0 < squares f m n)%R.
Proof.
  intros Hm Hn P. unfold squares. destruct m as [|m]; [lia|]. destruct n as [|n]; [lia|]. cbn [seq]. rewrite rsum_cons. rewrite (rsum_cons (fun j => f 0%nat j * f 0%nat j)%R).
  assert (0 < f 0%nat 0%nat * f 0%nat 0%nat)%R by (apply Rmult_lt_0_compat; apply P). assert (0 <= rsum (fun j => f 0%nat j * f 0%nat j)%R (seq 1 n))%R by (apply rsum_nonneg; intros j _; apply Rlt_le, Rmult_lt_0_compat; apply P).
  assert (0 <= rsum (fun i => rsum (fun j => f i j * f i j)%R (0%nat :: seq 1 n)) (seq 1 m))%R by (apply rsum_nonneg; intros i _; apply rsum_nonneg; intros j _; apply Rlt_le, Rmult_lt_0_compat; apply P). lra.
Qed.
Section RankOne.
Context (T : tensor) (a b : nat -> nat -> R) (d0 d1 d2 d3 : nat).
Context (ST : shape T = [d0; d1; d2; d3]) (P0 : 1 <= d0) (P1 : 1 <= d1) (P2 : 1 <= d2) (P3 : 1 <= d3) (Pa : forall i j, (0 < a i j)%R) (Pb : forall i j, (0 < b i j)%R).
Context (ET : forall i j k l, i < d0 -> j < d1 -> k < d2 -> l < d3 -> entry T [i; j; k; l] = RtoC (a i j * b k l)).
Let A := squares a d0 d1.
Let B := squares b d2 d3.
Let PA : (0 < A)%R := squares_pos a d0 d1 P0 P1 Pa.
Let PB : (0 < B)%R := squares_pos b d2 d3 P2 P3 Pb.
Lemma dims_T : dimat T 0 = d0 /\ dimat T 1 = d1 /\ dimat T 2 = d2 /\ dimat T 3 = d3.
Proof. unfold dimat. rewrite ST. repeat split. Qed.
Lemma row2_val i j : i < d0 -> j < d1 -> row2 T i j = (a i j * a i j * B)%R.
Proof.
  intros Hi Hj. destruct dims_T as (_ & _ & E2 & E3). unfold row2, B, squares. rewrite E2, E3, <- rsum_scal. apply rsum_ext. intros k Hk. rewrite <- rsum_scal. apply rsum_ext. intros l Hl. apply in_seq in Hk, Hl.
  rewrite ET by lia. unfold Cnorm2, RtoC. cbn [fst snd]. ring.
Qed.
Lemma col2_val k l : k < d2 -> l < d3 -> col2 T k l = (A * (b k l * b k l))%R.
Proof.
  intros Hk Hl. destruct dims_T as (E0 & E1 & _ & _). unfold col2, A, squares. rewrite E0, E1, Rmult_comm, <- rsum_scal. apply rsum_ext. intros i Hi. rewrite <- rsum_scal. apply rsum_ext. intros j Hj. apply in_seq in Hi, Hj.
  rewrite ET by lia. unfold Cnorm2, RtoC. cbn [fst snd]. ring.
Qed.
Lemma all2_val : all2 T = (A * B)%R.
Proof.
  destruct dims_T as (E0 & E1 & _ & _). unfold all2, A, squares. rewrite E0, E1, Rmult_comm, <- rsum_scal. apply rsum_ext. intros i Hi. rewrite <- rsum_scal. apply rsum_ext. intros j Hj. apply in_seq in Hi, Hj.
  rewrite row2_val by lia. ring.
Qed.
Lemma sA : (0 < sqrt A)%R. Proof. apply sqrt_lt_R0, PA. Qed.
Lemma sB : (0 < sqrt B)%R. Proof. apply sqrt_lt_R0, PB. Qed.
Lemma u_val i j : i < d0 -> j < d1 -> sqrt (row2 T i j / all2 T) = (a i j / sqrt A)%R.
Proof.
  intros Hi Hj. rewrite row2_val, all2_val by assumption. pose proof sA as SA. pose proof (sqrt_sqrt A (Rlt_le _ _ PA)) as Q. replace (a i j * a i j * B / (A * B))%R with ((a i j / sqrt A) * (a i j / sqrt A))%R.
  - apply sqrt_square. apply Rlt_le, Rdiv_lt_0_compat; [apply Pa|exact SA].
  - rewrite <- Q at 3. field. split; [pose proof PB; lra|lra].
Qed.
Lemma v_val k l : k < d2 -> l < d3 -> sqrt (col2 T k l / all2 T) = (b k l / sqrt B)%R.
Proof.
  intros Hk Hl. rewrite col2_val, all2_val by assumption. pose proof sB as SB. pose proof (sqrt_sqrt B (Rlt_le _ _ PB)) as Q. replace (A * (b k l * b k l) / (A * B))%R with ((b k l / sqrt B) * (b k l / sqrt B))%R.
  - apply sqrt_square. apply Rlt_le, Rdiv_lt_0_compat; [apply Pb|exact SB].
  - rewrite <- Q at 3. field. split; [lra|pose proof PA; lra].
Qed.
Lemma s_val : sqrt (all2 T) = (sqrt A * sqrt B)%R.
Proof. rewrite all2_val. apply sqrt_mult; apply Rlt_le; [exact PA|exact PB]. Qed.
Lemma sum_real2 (f : nat -> nat -> C) (g : nat -> nat -> R) m n : (forall i j, i < m -> j < n -> f i j = RtoC (g i j)) -> sumC (fun i => sumC (fun j => f i j) (seq 0 n)) (seq 0 m) = RtoC (rsum (fun i => rsum (fun j => g i j) (seq 0 n)) (seq 0 m)).
Proof.
  intros E. rewrite <- sumC_real. apply sumC_ext. intros i Hi. rewrite <- sumC_real. apply sumC_ext. intros j Hj. apply in_seq in Hi, Hj. apply E; lia.
Qed.
Lemma scal2 c (f : nat -> nat -> R) m n : rsum (fun i => rsum (fun j => (c * f i j)%R) (seq 0 n)) (seq 0 m) = (c * rsum (fun i => rsum (fun j => f i j) (seq 0 n)) (seq 0 m))%R.
Proof. rewrite <- rsum_scal. apply rsum_ext. intros i _. apply rsum_scal. Qed.
Lemma rank_one_legs p : let '(u, s, vt) := rank_one_svd p T in svd_legs T u s vt.
Proof. split; reflexivity. Qed.
Lemma rank_one_exact p : let '(u, s, vt) := rank_one_svd p T in Forall (fun x => (0 <= x)%R) s /\ forall i j k l, i < dimat T 0 -> j < dimat T 1 -> k < dimat T 2 -> l < dimat T 3 ->
      entry T [i; j; k; l] = sumC (fun x => (entry u [i; j; x] * RtoC (nth x s 0%R) * entry vt [x; k; l])%C) (seq 0 (length s)).
Proof.
  destruct dims_T as (E0 & E1 & E2 & E3). cbn [rank_one_svd]. split; [constructor; [apply sqrt_pos|constructor]|]. rewrite E0, E1, E2, E3. intros i j k l Hi Hj Hk Hl. cbn [length seq entry nth].
  rewrite sumC_cons, sumC_nil. rewrite ET, u_val, v_val, s_val by assumption. rewrite <- !RtoC_mul. transitivity (RtoC (a i j * b k l)%R + RtoC 0)%C; [ring|]. f_equal. f_equal. field. split; [pose proof sB; lra|pose proof sA; lra].
Qed.
Lemma rank_one_orthonormal p : let '(u, s, vt) := rank_one_svd p T in orthonormal T u s vt.
Proof.
  destruct dims_T as (E0 & E1 & E2 & E3). cbn [rank_one_svd]. pose proof sA as SA. pose proof sB as SB. pose proof (sqrt_sqrt A (Rlt_le _ _ PA)) as QA. pose proof (sqrt_sqrt B (Rlt_le _ _ PB)) as QB. split; intros x y Hx Hy; cbn [length] in Hx, Hy; assert (x = 0) as -> by lia; assert (y = 0) as -> by lia; rewrite ?E0, ?E1, ?E2, ?E3; cbn [entry nth Nat.eqb].
  - rewrite (sum_real2 _ (fun i j => / A * (a i j * a i j))%R).
    + rewrite scal2. fold (squares a d0 d1). fold A. rewrite Rinv_l by (pose proof PA; lra). reflexivity.
    + intros i j Hi Hj. rewrite Cconj_R, <- RtoC_mul, u_val by assumption. f_equal. rewrite <- QA at 3. field. lra.
  - rewrite (sum_real2 _ (fun k l => / B * (b k l * b k l))%R).
    + rewrite scal2. fold (squares b d2 d3). fold B. rewrite Rinv_l by (pose proof PB; lra). reflexivity.
    + intros k l Hk Hl. rewrite Cconj_R, <- RtoC_mul, v_val by assumption. f_equal. rewrite <- QB at 3. field. lra.
Qed.
Lemma rank_one_singular p : (inv_relative_eps p <= 1)%R -> (float_min <= sqrt (sqrt (all2 T)))%R -> let '(u, s, vt) := rank_one_svd p T in singular p T u s vt.
Proof.
  intros RE FM. destruct dims_T as (E0 & E1 & E2 & E3). cbn [rank_one_svd]. pose proof sA as SA. pose proof sB as SB. pose proof (sqrt_sqrt A (Rlt_le _ _ PA)) as QA. pose proof (sqrt_sqrt B (Rlt_le _ _ PB)) as QB.
  split; [split; reflexivity|]. split; [constructor; [apply sqrt_pos|constructor]|]. cbn [length]. rewrite E0, E1, E2, E3. split; [|split].
  - intros x k l Hx Hk Hl. assert (x = 0) as -> by lia. cbn [nth entry]. rewrite (sum_real2 _ (fun i j => (b k l / sqrt A) * (a i j * a i j))%R).
    + rewrite scal2. fold (squares a d0 d1). fold A. rewrite v_val, s_val, <- RtoC_mul by assumption. f_equal. rewrite <- QA at 2. field. lra.
    + intros i j Hi Hj. rewrite Cconj_R, ET, <- RtoC_mul, u_val by assumption. f_equal. field. lra.
  - intros i j x Hi Hj Hx. assert (x = 0) as -> by lia. cbn [nth entry]. rewrite (sum_real2 _ (fun k l => (a i j / sqrt B) * (b k l * b k l))%R).
    + rewrite scal2. fold (squares b d2 d3). fold B. rewrite u_val, s_val, <- RtoC_mul by assumption. f_equal. rewrite <- QB at 2. field. lra.
    + intros k l Hk Hl. rewrite Cconj_R, ET, <- RtoC_mul, v_val by assumption. f_equal. field. lra.
  - constructor; [right|constructor]. unfold inv_eps. cbn [map max_abs fold_right]. pose proof (sqrt_pos (sqrt (all2 T))). rewrite Rabs_right by lra. rewrite (Rmax_left _ 0%R) by lra. apply Rmax_lub; [|exact FM]. rewrite <- (Rmult_1_l (sqrt (sqrt (all2 T)))) at 2. apply Rmult_le_compat_r; assumption.
Qed.
End RankOne.
(** *** Tensors with real entries bounded from below *)
Definition low (sh : list nat) (m : R) (T : tensor) : Prop := shape T = sh /\ forall ix, Forall2 lt ix sh -> exists x, entry T ix = RtoC x /\ (m <= x)%R.
Lemma sum_low (f : nat -> C) m : (0 < m)%R -> forall k j, 1 <= k -> (forall i, j <= i < j + k -> exists x, f i = RtoC x /\ (m <= x)%R) -> exists x, sumC f (seq j k) = RtoC x /\ (m <= x)%R.
Proof.
  intros Hm. induction k as [|k IH]; intros j Hk H; [lia|]. cbn [seq]. destruct (H j ltac:(lia)) as (x & E & L). destruct k as [|k].
  - exists x. split; [|exact L]. cbn [seq]. rewrite sumC_cons, sumC_nil, E. unfold RtoC, Cadd. cbn [fst snd]. f_equal; ring.
  - destruct (IH (S j) ltac:(lia)) as (y & E' & L'); [intros i Hi; apply H; lia|]. exists (x + y)%R. split; [rewrite sumC_cons, E, E', <- RtoC_add; reflexivity|lra].
Qed.
Lemma mul_low a b m n : (0 <= m)%R -> (0 <= n)%R -> (exists x, a = RtoC x /\ (m <= x)%R) -> (exists x, b = RtoC x /\ (n <= x)%R) -> exists x, (a * b)%C = RtoC x /\ (m * n <= x)%R.
Proof.
  intros Hm Hn (x & -> & L) (y & -> & L'). exists (x * y)%R. split; [symmetry; apply RtoC_mul|]. apply Rmult_le_compat; assumption.
Qed.
Lemma lt3 x y z a b c : x < a -> y < b -> z < c -> Forall2 lt [x; y; z] [a; b; c].
Proof. repeat constructor; assumption. Qed.
Lemma plaquette_low Q0 Q1 P1 P0 h0 h1 v0 v1 m : (0 < m)%R -> 1 <= h0 -> 1 <= h1 -> 1 <= v0 -> 1 <= v1 ->
  low [1; v0; h0] m Q0 -> low [h0; v1; 1] m Q1 -> low [1; h1; v0] m P1 -> low [h1; v1; 1] m P0 -> low [1; 1; 1; 1] (m * m * (m * m)) (plaquette_core Q0 Q1 P1 P0).
Proof.
  intros Hm H0 H1 V0 V1 [A0 B0] [A1 B1] [A2 B2] [A3 B3]. split; [exact (plaquette_shape _ _ _ _ _ _ _ _ _ _ _ _ A0 A1 A2 A3)|]. intros ix I.
  inversion I as [|x0 ? i1 ? L0 I1]; subst. inversion I1 as [|x1 ? i2 ? L1 I2]; subst. inversion I2 as [|x2 ? i3 ? L2 I3]; subst. inversion I3 as [|x3 ? i4 ? L3 I4]; subst. inversion I4; subst.
  rewrite (plaquette_entry _ _ _ _ _ _ _ _ _ _ _ _ x0 x1 x3 x2 A0 A1 A2 A3). assert (0 < m * m)%R by (apply Rmult_lt_0_compat; assumption). assert (0 < m * m * (m * m))%R by (apply Rmult_lt_0_compat; assumption).
  apply sum_low; [assumption|assumption|intros i Hi]. apply sum_low; [assumption|assumption|intros j Hj]. apply sum_low; [assumption|assumption|intros k Hk]. apply sum_low; [assumption|assumption|intros l Hl].
  apply mul_low; [lra|lra| |]; (apply mul_low; [lra|lra| |]).
  - apply B2, lt3; lia.
  - apply B3, lt3; lia.
  - apply B1, lt3; lia.
  - apply B0, lt3; lia.
Qed.
(** *** What the splits of the example need *)
Definition rank_one (st : stype) (T : tensor) : Prop := exists a b d0 d1 d2 d3, shape (matrix_of st T) = [d0; d1; d2; d3] /\ 1 <= d0 /\ 1 <= d1 /\ 1 <= d2 /\ 1 <= d3 /\
  (forall i j, (0 < a i j)%R) /\ (forall i j, (0 < b i j)%R) /\ (float_min <= sqrt (sqrt (squares a d0 d1 * squares b d2 d3)))%R /\
  forall i j k l, i < d0 -> j < d1 -> k < d2 -> l < d3 -> entry (matrix_of st T) [i; j; k; l] = RtoC (a i j * b k l).
Lemma rank_one_split p st T : (inv_relative_eps p <= 1)%R -> length (shape T) = 4 -> rank_one st T ->
  svd_of rank_one_svd p (fun p M u s vt => singular p M u s vt /\ orthonormal M u s vt) st T /\
  recombines st T (sd_P (make_split (tensor_ops rank_one_svd) p st T)) (sd_Q (make_split (tensor_ops rank_one_svd) p st T)).
Proof.
  intros HE L (a & b & d0 & d1 & d2 & d3 & ST & P0 & P1 & P2 & P3 & Pa & Pb & FM & ET). split.
  - pose proof (rank_one_singular _ a b d0 d1 d2 d3 ST P0 P1 P2 P3 Pa Pb ET p HE) as H1. rewrite (all2_val _ a b d0 d1 d2 d3 ST P0 P1 P2 P3 ET) in H1. specialize (H1 FM).
    pose proof (rank_one_orthonormal _ a b d0 d1 d2 d3 ST P0 P1 P2 P3 Pa Pb ET p) as H2. split; [exact H1|exact H2].
  - pose proof (rank_one_exact _ a b d0 d1 d2 d3 ST P0 P1 P2 P3 Pa Pb ET p) as [H1 H2].
    eapply (split_exact_at rank_one_svd p st T); [exact L|reflexivity|split; reflexivity|exact H1|]. cbv zeta. exact H2.
Qed.
Lemma float_min_small : (float_min <= / 16)%R.
Proof. unfold float_min. apply Rinv_le_contravar; [lra|]. replace 16%R with (2 ^ 4)%R by ring. apply Rle_pow; [lra|lia]. Qed.
Lemma squares_low f m n : 1 <= m -> 1 <= n -> (forall i j, 1 <= f i j)%R -> (1 <= squares f m n)%R.
Proof.
  intros Hm Hn P. unfold squares. destruct m as [|m]; [lia|]. destruct n as [|n]; [lia|]. cbn [seq]. rewrite rsum_cons. rewrite (rsum_cons (fun j => f 0%nat j * f 0%nat j)%R).
  assert (1 * 1 <= f 0%nat 0%nat * f 0%nat 0%nat)%R by (apply Rmult_le_compat; try lra; apply P). assert (0 <= rsum (fun j => f 0%nat j * f 0%nat j)%R (seq 1 n))%R by (apply rsum_nonneg; intros j _; apply Rle_0_sqr).
  assert (0 <= rsum (fun i => rsum (fun j => f i j * f i j)%R (0%nat :: seq 1 n)) (seq 1 m))%R by (apply rsum_nonneg; intros i _; apply rsum_nonneg; intros j _; apply Rle_0_sqr). lra.
Qed.
Lemma squares_high f m n : 1 <= m <= 2 -> 1 <= n <= 2 -> (forall i j, 1 <= f i j <= 2)%R -> (squares f m n <= 16)%R.
Proof.
  intros Hm Hn P. assert (Q : forall i j, (0 <= f i j * f i j <= 4)%R). { intros i j. destruct (P i j). split; [apply Rle_0_sqr|]. replace 4%R with (2 * 2)%R by ring. apply Rmult_le_compat; lra. }
  unfold squares. assert (m = 1 \/ m = 2) as [-> | ->] by lia; assert (n = 1 \/ n = 2) as [-> | ->] by lia; cbn [seq]; repeat (rewrite ?rsum_cons, ?rsum_nil); pose proof (Q 0 0); pose proof (Q 0 1); pose proof (Q 1 0); pose proof (Q 1 1); lra.
Qed.
Lemma sqrt_ge1 x : (1 <= x)%R -> (1 <= sqrt x)%R.
Proof. intros H. rewrite <- sqrt_1. apply sqrt_le_1_alt, H. Qed.
(** the pieces of a tensor a(i,j) b(k,l) with 1 <= a, b <= 2 *)
Lemma small_rank_one st T a b d0 d1 d2 d3 : shape (matrix_of st T) = [d0; d1; d2; d3] -> 1 <= d0 <= 2 -> 1 <= d1 <= 2 -> 1 <= d2 <= 2 -> 1 <= d3 <= 2 ->
  (forall i j, (1 <= a i j <= 2)%R) -> (forall i j, (1 <= b i j <= 2)%R) ->
  (forall i j k l, i < d0 -> j < d1 -> k < d2 -> l < d3 -> entry (matrix_of st T) [i; j; k; l] = RtoC (a i j * b k l)) ->
  rank_one st T /\ forall p, let d := make_split (tensor_ops rank_one_svd) p st T in
    match st with Type0 => low [d0; d1; 1] (/ 4) (sd_P d) /\ low [1; d2; d3] (/ 4) (sd_Q d) | Type1 => low [d0; d1; 1] (/ 4) (sd_Q d) /\ low [1; d2; d3] (/ 4) (sd_P d) end.
Proof.
  intros ST P0 P1 P2 P3 Ba Bb ET. assert (Pa : forall i j, (0 < a i j)%R) by (intros i j; destruct (Ba i j); lra). assert (Pb : forall i j, (0 < b i j)%R) by (intros i j; destruct (Bb i j); lra).
  pose proof (squares_low a d0 d1 ltac:(lia) ltac:(lia) (fun i j => proj1 (Ba i j))) as A1. pose proof (squares_low b d2 d3 ltac:(lia) ltac:(lia) (fun i j => proj1 (Bb i j))) as B1.
  pose proof (squares_high a d0 d1 P0 P1 Ba) as A16. pose proof (squares_high b d2 d3 P2 P3 Bb) as B16. set (A := squares a d0 d1) in *. set (B := squares b d2 d3) in *.
  assert (AB : (1 <= A * B)%R) by (replace 1%R with (1 * 1)%R by ring; apply Rmult_le_compat; lra). pose proof (sqrt_ge1 _ (sqrt_ge1 _ AB)) as SAB.
  assert (S4 : forall x, (x <= 16)%R -> (sqrt x <= 4)%R) by (intros x Hx; replace 4%R with (sqrt (4 * 4)) by (apply sqrt_square; lra); apply sqrt_le_1_alt; lra).
  assert (F : forall x y, (1 <= x)%R -> (1 <= y <= 16)%R -> (/ 4 <= x / sqrt y * sqrt (sqrt (A * B)))%R).
  { intros x y Hx [Hy Hy']. pose proof (sqrt_ge1 y Hy). pose proof (S4 y Hy'). rewrite <- (Rmult_1_r (/ 4)). apply Rmult_le_compat; [lra|lra| |exact SAB]. rewrite <- (Rmult_1_l (/ 4)). apply Rmult_le_compat; [lra|lra|exact Hx|apply Rinv_le_contravar; lra]. }
  split.
  - exists a, b, d0, d1, d2, d3. split; [exact ST|]. do 4 (split; [lia|]). split; [exact Pa|]. split; [exact Pb|]. split; [pose proof float_min_small; fold A B; lra|exact ET].
  - intros p. pose proof (u_val _ a b d0 d1 d2 d3 ST ltac:(lia) ltac:(lia) ltac:(lia) ltac:(lia) Pa Pb ET) as UV. pose proof (v_val _ a b d0 d1 d2 d3 ST ltac:(lia) ltac:(lia) ltac:(lia) ltac:(lia) Pa Pb ET) as VV.
    pose proof (all2_val _ a b d0 d1 d2 d3 ST ltac:(lia) ltac:(lia) ltac:(lia) ltac:(lia) ET) as AV. destruct (dims_T _ d0 d1 d2 d3 ST) as (E0 & E1 & E2 & E3). fold A B in UV, VV, AV.
    assert (LL : low [d0; d1; 1] (/ 4) (contract (fst (fst (rank_one_svd p (matrix_of st T)))) [2] (diag (map sqrt (snd (fst (rank_one_svd p (matrix_of st T)))))) [0])).
    { cbn [rank_one_svd fst snd map]. set (u := Tn [dimat (matrix_of st T) 0; _; 1] _). destruct (left_scaled u [sqrt (sqrt (all2 (matrix_of st T)))] d0 d1) as [S1 S2]; [unfold u; cbn [shape length]; rewrite E0, E1; reflexivity|].
      split; [exact S1|]. intros ix I. apply in3 in I. destruct I as (x & y & z & -> & Hx & Hy & Hz). assert (z = 0) as -> by lia. rewrite S2 by (cbn [length]; lia). unfold u. cbn [entry nth]. rewrite UV, AV, <- RtoC_mul by assumption. eexists. split; [reflexivity|]. apply F; [apply Ba|lra]. }
    assert (RR : low [1; d2; d3] (/ 4) (contract (diag (map sqrt (snd (fst (rank_one_svd p (matrix_of st T)))))) [1] (snd (rank_one_svd p (matrix_of st T))) [0])).
    { cbn [rank_one_svd fst snd map]. set (u := Tn [1; dimat (matrix_of st T) 2; _] _). destruct (right_scaled u [sqrt (sqrt (all2 (matrix_of st T)))] d2 d3) as [S1 S2]; [unfold u; cbn [shape length]; rewrite E2, E3; reflexivity|].
      split; [exact S1|]. intros ix I. apply in3 in I. destruct I as (x & y & z & -> & Hx & Hy & Hz). assert (x = 0) as -> by lia. rewrite S2 by (cbn [length]; lia). unfold u. cbn [entry nth]. rewrite VV, AV, <- RtoC_mul by assumption. eexists. split; [reflexivity|]. rewrite Rmult_comm. apply F; [apply Bb|lra]. }
    destruct st; split; assumption.
Qed.
(** a tensor without bonds *)
Lemma trivial_rank_one st T : low [1; 1; 1; 1] (/ 256) T -> rank_one st T.
Proof.
  intros [ST E]. destruct (E [0; 0; 0; 0] ltac:(repeat constructor)) as (x & EX & LX). exists (fun _ _ => 1%R), (fun _ _ => x), 1, 1, 1, 1.
  split; [destruct st; destruct T as [sh e]; cbn [shape] in ST; subst sh; reflexivity|]. do 4 (split; [lia|]). split; [intros; lra|]. split; [intros; lra|]. split.
  - unfold squares. cbn [seq]. repeat (rewrite ?rsum_cons, ?rsum_nil). replace ((1 * 1 + 0 + 0) * (x * x + 0 + 0))%R with (x * x)%R by ring. rewrite sqrt_square by lra. apply Rle_trans with (/ 16)%R; [apply float_min_small|].
    replace (/ 16)%R with (sqrt (/ 16 * / 16)) by (apply sqrt_square; lra). apply sqrt_le_1_alt. lra.
  - intros i j k l Hi Hj Hk Hl. assert (i = 0) as -> by lia. assert (j = 0) as -> by lia. assert (k = 0) as -> by lia. assert (l = 0) as -> by lia. rewrite Rmult_1_l, <- EX. destruct T as [sh e]. cbn [shape] in ST. subst sh. destruct st; reflexivity.
Qed.
(** *** The example *)
Definition ex_left (r c : nat) : nat := if (r =? 0) && (c <? 2) then 2 else 1.
Definition ex_right (r c : nat) : nat := if (r =? 0) && ((c =? 0) || (c =? 3)) then 2 else 1.
Definition ex_fl (r c l : nat) : R := if (r =? 0) && (c =? 1) && (l =? 0) then 2 else 1.
Definition ex_fr (r c l : nat) : R := if (r =? 0) && (c =? 3) && (l =? 0) then 2 else 1.
Definition ex_net (r c : nat) : tensor := Tn [ex_left r c; 1; ex_right r c; 1] (fun ix => RtoC (ex_fl r c (nth 0 ix 0) * ex_fr r c (nth 2 ix 0))).
Definition ex_sign (i : nat) : R := if i =? 0 then 1 else -1.
Definition ex_probe : tensor := Tn [2; 1; 2; 1] (fun ix => RtoC (ex_sign (nth 0 ix 0) * ex_sign (nth 2 ix 0))).
Definition ex_trunc : trunc := mkTrunc 0 1 4 (/ 1000000).
Lemma ex_size : trg_size 4. Proof. exists 2. left. reflexivity. Qed.
Lemma ex_closes : closes 4 ex_net.
Proof.
  intros r c Hr Hc. split; [reflexivity|]. intros l b Hl B. destruct r as [|[|[|[|]]]]; try lia; (destruct c as [|[|[|[|]]]]; try lia); (destruct l as [|[|[|[|]]]]; try lia); injection B as <-; reflexivity.
Qed.
Lemma ex_bounds r c : 1 <= ex_left r c <= 2 /\ 1 <= ex_right r c <= 2 /\ (forall l, 1 <= ex_fl r c l <= 2)%R /\ (forall l, 1 <= ex_fr r c l <= 2)%R.
Proof.
  unfold ex_left, ex_right, ex_fl, ex_fr. split; [destruct ((r =? 0) && (c <? 2)); lia|]. split; [destruct ((r =? 0) && _); lia|]. split; intros l; [destruct ((r =? 0) && _ && _)|destruct ((r =? 0) && _ && _)]; lra.
Qed.
Lemma ex_site st r c : rank_one st (ex_net r c) /\ forall p, let d := make_split (tensor_ops rank_one_svd) p st (ex_net r c) in
    match st with Type0 => low [ex_left r c; 1; 1] (/ 4) (sd_P d) /\ low [1; 1; ex_right r c] (/ 4) (sd_Q d) | Type1 => low [ex_left r c; 1; 1] (/ 4) (sd_Q d) /\ low [1; ex_right r c; 1] (/ 4) (sd_P d) end.
Proof.
  destruct (ex_bounds r c) as (L & R' & FL & FR). destruct st.
  - apply (small_rank_one Type0 (ex_net r c) (fun i _ => ex_fl r c i) (fun _ l => ex_fr r c l) (ex_left r c) 1 1 (ex_right r c)); [reflexivity|lia|lia|lia|lia|intros; apply FL|intros; apply FR|reflexivity].
  - apply (small_rank_one Type1 (ex_net r c) (fun i _ => ex_fl r c i) (fun l _ => ex_fr r c l) (ex_left r c) 1 (ex_right r c) 1); [reflexivity|lia|lia|lia|lia|intros; apply FL|intros; apply FR|reflexivity].
Qed.
Notation o1 := (tensor_ops rank_one_svd).
Notation made1 := (make_split (tensor_ops rank_one_svd) ex_trunc).
Lemma ex_flat i : i < 16 -> flat o1 4 ex_net i = ex_net (i / 4) (i mod 4).
Proof. reflexivity. Qed.
Lemma ex_children i : i < 8 -> In (i, (i / 2 * 4 + (2 * (i mod 2) + (i / 2) mod 2), i / 2 * 4 + (2 * (i mod 2) + (i / 2) mod 2 + 1) mod 4,
  (i / 2 + 1) mod 4 * 4 + (2 * (i mod 2) + (i / 2) mod 2), (i / 2 + 1) mod 4 * 4 + (2 * (i mod 2) + (i / 2) mod 2 + 1) mod 4)) (even_links 4).
Proof. intros H. do 8 (destruct i as [|i]; [vm_compute; tauto|]). lia. Qed.
Lemma ex_node (mid : scale o1) i : i < 8 -> (forall q k, In (q, k) (even_links 4) -> aval (c2f mid) q = k) -> low [1; 1; 1; 1] (/ 256) (up o1 ex_trunc (ty 4) 0 mid (flat o1 4 ex_net) i).
Proof.
  intros Hi C. unfold up. rewrite (C _ _ (ex_children i Hi)). cbn [Nat.even child fst snd plaquette tensor_ops].
  replace (/ 256)%R with (/ 4 * / 4 * (/ 4 * / 4))%R by field.
  do 8 (destruct i as [|i]; [cbn [Nat.div Nat.divmod Nat.modulo Nat.mul Nat.add Nat.sub fst snd];
    repeat match goal with |- context [ty 4 0 ?k] => let v := eval vm_compute in (ty 4 0 k) in change (ty 4 0 k) with v end;
    repeat match goal with |- context [flat o1 4 ex_net ?k] => let r := eval vm_compute in (k / 4) in let c := eval vm_compute in (k mod 4) in change (flat o1 4 ex_net k) with (ex_net r c) end;
    match goal with |- low _ _ (plaquette_core (sd_Q (made1 Type0 (ex_net ?r0 ?c0))) (sd_Q (made1 Type1 (ex_net ?r1 ?c1))) (sd_P (made1 Type1 (ex_net ?r2 ?c2))) (sd_P (made1 Type0 (ex_net ?r3 ?c3)))) =>
      apply (plaquette_low _ _ _ _ (ex_right r0 c0) (ex_right r2 c2) 1 1); [lra|cbn;lia|cbn;lia|lia|lia
        |exact (proj2 (proj2 (ex_site Type0 r0 c0) ex_trunc))|exact (proj1 (proj2 (ex_site Type1 r1 c1) ex_trunc))|exact (proj2 (proj2 (ex_site Type1 r2 c2) ex_trunc))|exact (proj1 (proj2 (ex_site Type0 r3 c3) ex_trunc))] end|]).
  lia.
Qed.
Lemma ex_eps : (inv_relative_eps ex_trunc <= 1)%R.
Proof. cbn. lra. Qed.
Lemma ex_layers sc : built o1 4 sc -> all_svd rank_one_svd ex_trunc 4 (fun p M u s vt => singular p M u s vt /\ orthonormal M u s vt) 0 sc (flat o1 4 ex_net) /\ all_exact rank_one_svd ex_trunc 4 0 sc (flat o1 4 ex_net).
Proof.
  intros B. inversion B as [|m fine mid coarse rest M L0 L1 C1 C2 B1]; subst; [lia|]. assert (m = 2) as -> by lia. inversion B1 as [|m' ? ? ? ? M']; subst; [|lia].
  assert (S0 : forall i, i < alen (tens fine) -> svd_of rank_one_svd ex_trunc (fun p M u s vt => singular p M u s vt /\ orthonormal M u s vt) (ty 4 0 i) (flat o1 4 ex_net i) /\
    recombines (ty 4 0 i) (flat o1 4 ex_net i) (sd_P (made1 (ty 4 0 i) (flat o1 4 ex_net i))) (sd_Q (made1 (ty 4 0 i) (flat o1 4 ex_net i)))).
  { intros i Hi. apply rank_one_split; [exact ex_eps|reflexivity|]. exact (proj1 (ex_site (ty 4 0 i) (i / 4) (i mod 4))). }
  assert (S1 : forall i, i < alen (tens mid) -> let X1 := up o1 ex_trunc (ty 4) 0 mid (flat o1 4 ex_net) in svd_of rank_one_svd ex_trunc (fun p M u s vt => singular p M u s vt /\ orthonormal M u s vt) (ty 4 1 i) (X1 i) /\
    recombines (ty 4 1 i) (X1 i) (sd_P (made1 (ty 4 1 i) (X1 i))) (sd_Q (made1 (ty 4 1 i) (X1 i)))).
  { intros i Hi X1. assert (Q : low [1; 1; 1; 1] (/ 256) (X1 i)) by (apply ex_node; [lia|exact C1]). apply rank_one_split; [exact ex_eps|rewrite (proj1 Q); reflexivity|]. apply trivial_rank_one, Q. }
  split.
  - split; [intros i Hi; apply (S0 i Hi)|]. split; [intros i Hi; apply (S1 i Hi)|exact I].
  - split; [intros i Hi; apply (S0 i Hi)|]. split; [intros i Hi; apply (S1 i Hi)|exact I].
Qed.
Lemma ex_made : exists t z, fresh o1 ex_trunc (torus o1 4 ex_net) = Ok (t, z) /\ lossless rank_one_svd t /\ cached_svds rank_one_svd (fun p M u s vt => singular p M u s vt /\ orthonormal M u s vt) t.
Proof.
  destruct (shape_exists o1 ex_trunc 4 ex_size ex_net) as (sub & sc0 & HI & HT & HB & HS). destruct (fresh_keeps o1 ex_trunc 4 sub sc0 HI HT HB HS ex_net) as (t & z & E & A & sc & Et & F & CO & TS).
  pose proof (built_shape o1 4 sc0 HB sc F) as B. destruct (ex_layers sc B) as [L1 L2]. exists t, z. split; [exact E|]. rewrite Et. split.
  - unfold lossless. cbn [t_scales]. exact (exact_coherent rank_one_svd ex_trunc 4 sc 0 _ CO TS L2).
  - intros p Ep. cbn [t_prm] in Ep. injection Ep as <-. cbn [t_scales]. exact (all_cached rank_one_svd ex_trunc 4 _ sc 0 _ CO TS L1).
Qed.
Lemma ex_probe_orthogonal : orthogonal rank_one_svd ex_trunc (site_type 0 0) (ex_net 0 0) ex_probe.
Proof.
  unfold orthogonal. destruct (ex_bounds 0 0) as (L & R' & FL & FR).
  assert (ET : forall i j k l, i < 2 -> j < 1 -> k < 1 -> l < 2 -> entry (matrix_of (site_type 0 0) (ex_net 0 0)) [i; j; k; l] = RtoC ((fun i _ => ex_fl 0 0 i) i j * (fun _ l => ex_fr 0 0 l) k l)) by reflexivity.
  pose proof (u_val (matrix_of (site_type 0 0) (ex_net 0 0)) (fun i _ => ex_fl 0 0 i) (fun _ l => ex_fr 0 0 l) 2 1 1 2 eq_refl ltac:(lia) ltac:(lia) ltac:(lia) ltac:(lia) ltac:(intros; cbv beta; destruct (FL i); lra) ltac:(intros; cbv beta; destruct (FR j); lra) ET) as UV.
  pose proof (v_val (matrix_of (site_type 0 0) (ex_net 0 0)) (fun i _ => ex_fl 0 0 i) (fun _ l => ex_fr 0 0 l) 2 1 1 2 eq_refl ltac:(lia) ltac:(lia) ltac:(lia) ltac:(lia) ltac:(intros; cbv beta; destruct (FL i); lra) ltac:(intros; cbv beta; destruct (FR j); lra) ET) as VV.
  cbn [rank_one_svd]. split.
  - intros x k l Hx Hk Hl. cbn [dimat shape matrix_of site_type Nat.add Nat.even transpose map nth ex_probe] in Hx, Hk, Hl |- *. cbn [seq]. repeat (rewrite ?sumC_cons, ?sumC_nil). cbn [entry nth]. rewrite !UV by lia. cbn. unfold Cconj, Cmul, Cadd, RtoC. cbn [fst snd]. unfold ex_sign, ex_fl. cbn. f_equal; ring.
  - intros i j x Hx Hk Hl. cbn [dimat shape matrix_of site_type Nat.add Nat.even transpose map nth ex_probe] in Hx, Hk, Hl |- *. cbn [seq]. repeat (rewrite ?sumC_cons, ?sumC_nil). cbn [entry nth]. rewrite !VV by lia. cbn. unfold Cconj, Cmul, Cadd, RtoC. cbn [fst snd]. unfold ex_sign, ex_fr. cbn. f_equal; ring.
Qed.
Lemma ex_probe_sum : torus_sum 4 (put_site ex_net 0 0 ex_probe) = RtoC 1.
Proof.
  unfold torus_sum. lazy -[Cmul Cadd RtoC Rmult IZR]. repeat first [rewrite <- RtoC_mul | rewrite <- RtoC_add]. f_equal. ring.
Qed.
Lemma holes_not_derivative : exists svd p X t z H Y, closes 4 X /\ fresh (tensor_ops svd) p (torus (tensor_ops svd) 4 X) = Ok (t, z) /\ lossless svd t /\ z = torus_sum 4 X /\
  cached_svds svd (fun p M u s vt => singular p M u s vt /\ orthonormal M u s vt) t /\ punch_all_holes (tensor_ops svd) t (torus (tensor_ops svd) 4 X) = Ok H /\
  shape Y = shape (X 0 0) /\ shape (aval H 0) = shape (X 0 0) /\ pair Y (aval H 0) = RtoC 0 /\ torus_sum 4 (put_site X 0 0 Y) = RtoC 1.
Proof.
  destruct ex_made as (t & z & E & LL & CS). exists rank_one_svd, ex_trunc, ex_net, t, z.
  destruct (large_holes rank_one_svd ex_trunc 4 ex_size ex_net t z ltac:(lia) ex_closes E) as (H & EH & LH & V).
  { intros p' Ep a Ha i T d Hi Hs ET ES. specialize (CS p' Ep a Ha i T d Hi Hs ET ES). destruct (rank_one_svd p' _) as [[? ?] ?]. exact (proj1 (proj1 CS)). }
  exists H, ex_probe. split; [exact ex_closes|]. split; [exact E|]. split; [exact LL|]. split; [exact (fresh_sum rank_one_svd ex_trunc 4 ex_size ex_net t z ex_closes E LL)|]. split; [exact CS|]. split; [exact EH|]. split; [reflexivity|].
  destruct (V 0 0 ltac:(lia) ltac:(lia)) as (V1 & _ & V3). split; [exact V1|]. split; [exact (V3 ex_probe eq_refl ex_probe_orthogonal)|exact ex_probe_sum].
Qed.
(** all the decompositions of the example are singular ones *)
Lemma ex_singular : exists t z, fresh o1 ex_trunc (torus o1 4 ex_net) = Ok (t, z) /\ cached_svds rank_one_svd singular t.
Proof.
  destruct ex_made as (t & z & E & _ & CS). exists t, z. split; [exact E|]. intros p' Ep a Ha i T d Hi Hs ET ES. specialize (CS p' Ep a Ha i T d Hi Hs ET ES). destruct (rank_one_svd p' _) as [[? ?] ?]. exact (proj1 CS).
Qed.
