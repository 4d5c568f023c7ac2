(** The norms of projections are not negative, so that a sweep in which nothing is lost reports an energy. *)
From Coq Require Import List Arith Bool Reals Lia Lra.
From Verif Require Import Base Cplx SumModel SumSpec SumProofs TrgTensor ProjModel ProjSpec ProjSteps ProjNull ExpModel ExpSpec TriSweepModel TriSweepSpec TriSweepRun.
Import ListNotations.
Local Open Scope nat_scope.

Lemma tnorm_nonneg T : (0 <= tnorm T)%R.
Proof. unfold tnorm. apply sqrt_pos. Qed.
Section Pos.
Context (qr : tensor -> tensor * tensor) (svd : nat -> tensor -> tensor * list R * tensor) (tol : R) (m : nat).
Lemma norm_nonneg P o g h : (0 <= r_norm (project qr svd tol P o g h))%R.
Proof.
  destruct o; cbn [project]; unfold project_h, project_v, project_ur, project_ul, project_lr, project_ll;
  repeat (match goal with |- context [match ?x with (_, _) => _ end] => destruct x end); cbn [r_norm]; rewrite ?Rmult_1_l; apply tnorm_nonneg.
Qed.
Lemma norms_nonneg : forall l P, (0 <= snd (project_all qr svd tol P l))%R.
Proof.
  induction l as [|[[o g] h] l IH]; intros P; cbn [project_all]; [cbn; lra|]. pose proof (IH (r_peps (project qr svd tol P o g h))) as H. destruct (project_all _ _ _ _ l) as [Q n]. cbn [snd] in *. apply Rmult_le_pos; [apply norm_nonneg|exact H].
Qed.
Lemma norms_pos l P : lossless qr svd tol m P l -> (0 < snd (project_all qr svd tol P l))%R.
Proof. intros L. pose proof (norms_nonneg l P). pose proof (norm_total qr svd tol m l P L). lra. Qed.
Lemma energy_there tau n : (0 < n)%R -> tau <> 0%R -> exists E, energy_of tau n = Some E /\ n = exp (- tau * E).
Proof. intros H T. destruct (energy_of tau n) as [E|] eqn:Q; [exists E; split; [reflexivity|symmetry; apply (energy_gives _ _ _ Q T)]|]. unfold energy_of in Q. destruct (Rlt_dec 0 n); [discriminate|contradiction]. Qed.
End Pos.
Section Sweeps.
Context (eps : R) (qr : tensor -> tensor * tensor) (svd : nat -> tensor -> tensor * list R * tensor) (tol : R) (m : nat) (QR : qr_exact qr) (SV : svd_up_to m svd).
Theorem nnn_energy e P : sound tol P -> 2 <= p_rows P -> 2 <= p_cols P -> nnn_fit e P -> plain_onsite e P -> x_tau e <> 0%R -> lossless qr svd tol m P (nnn_calls e (p_rows P) (p_cols P) (p_per P) eps) ->
  let '(Q, n, en) := nnn_sweep eps qr svd tol e P in
  exists orders E, orders_for (triangle_order (p_rows P) (p_cols P) (p_per P)) orders /\ en = Some E /\ n = exp (- x_tau e * E) /\
  forall s, proper P s -> (RtoC (exp (- x_tau e * E)) * wave Q s)%C = series_product (x_tau e) (triangle_operator e P) (triangle_order (p_rows P) (p_cols P) (p_per P)) orders (wave P) s.
Proof.
  intros SO HR HK NF PO T LL. pose proof (nnn_trotter eps qr svd tol m QR SV e P SO HR HK NF PO LL) as A. pose proof (norms_pos qr svd tol m _ P LL) as NP. unfold nnn_sweep in *. destruct (project_all qr svd tol P _) as [Q n]. cbn [snd] in NP.
  destruct A as (orders & O & A & _). destruct (energy_there (x_tau e) n NP T) as (E & E1 & E2). exists orders, E. split; [exact O|]. split; [exact E1|]. split; [exact E2|]. rewrite <- E2. exact A.
Qed.
Theorem tri_energy e P : sound tol P -> 1 <= p_rows P -> 1 <= p_cols P -> tri_fit e P -> y_tau e <> 0%R -> lossless_tri eps qr svd tol m e P ->
  let l := first_pieces (p_rows P) (p_cols P) ++ second_pieces (p_rows P) (p_cols P) in
  let '(Q, na, nb, e0) := tri_sweep eps qr svd tol e P in
  exists orders E, orders_for l orders /\ e0 = Some E /\
  forall s, proper P s -> (RtoC (exp (- (2 * y_tau e) * E)) * wave Q s)%C = series_product (y_tau e) (piece_operator e P) l orders (wave P) s.
Proof.
  intros SO HR HK TF T LL l. pose proof (tri_trotter eps qr svd tol m QR SV e P SO HR HK TF LL) as A. cbv zeta in A. fold l in A. unfold lossless_tri in LL. pose proof LL as L1. apply lossless_app in L1. destruct L1 as [L1 L2].
  pose proof (norms_pos qr svd tol m _ P L1) as N1. pose proof (norms_pos qr svd tol m _ _ L2) as N2. unfold tri_sweep in *. destruct (project_all qr svd tol P _) as [P1 na]. cbn [fst snd] in *. destruct (project_all qr svd tol P1 _) as [Q nb]. cbn [snd] in *.
  destruct A as (orders & O & A & B). destruct (energy_there (y_tau e) na N1 T) as (Ea & E1 & _). destruct (energy_there (y_tau e) nb N2 T) as (Eb & E2 & _). rewrite E1, E2 in *.
  exists orders, ((Ea + Eb) / 2)%R. split; [exact O|]. split; [reflexivity|]. rewrite <- (B _ eq_refl T). exact A.
Qed.
End Sweeps.
