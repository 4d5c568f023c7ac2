(** The norm of a projection is zero only if the gate takes the state to zero. *)
From Coq Require Import List Arith Lia Bool Reals Lra Permutation.
From Verif Require Import Base Cplx SumModel SumSpec SumProofs NetSum PbcProofs TrgTensor BmpsAlg ProjModel ProjSpec ProjNullSpec ProjAlg ProjTwo ProjPatch ProjGrid ProjWave ProjThree ProjTri ProjCorner ProjNull2 ProjNull3 ProjGone ProjNullTri ProjSteps.
Import ListNotations.
Local Open Scope nat_scope.

Section Pair.
Context (qr : tensor -> tensor * tensor) (svd : nat -> tensor -> tensor * list R * tensor) (tol : R).
Context (QR : qr_exact qr).
Context (P : peps) (gate : tensor) (ham : option tensor) (F : fitted tol P).
Context (r c : nat).
Section Hor.
Let c' := (c + 1) mod p_cols P. Let b := Hor r c.
Context (Hb : In b (bs P)) (NL : c <> c') (Sg : shape gate = [phys P r c; phys P r c'; phys P r c; phys P r c']).
Lemma gone_h : r_norm (project_h qr svd tol P gate ham r c) = 0%R -> forall x, x r c < phys P r c -> x r c' < phys P r c' -> gate2 gate (r, c) (r, c') (wave P) x = RtoC 0.
Proof.
  destruct F as (T & SH & KE & OP). pose proof (proj1 (bonds_in _ _ _ _) Hb) as HB. cbn in HB. destruct HB as [Hr Hc0].
  destruct (next_row _ _ _ Hc0) as (Hc & Hc' & _). fold c' in Hc'.
  pose proof (end_left P r c Hb) as L0. pose proof (end_right P r c Hb) as L1. fold c' in L1.
  pose proof (wrap_h P r c Hb) as WR. fold c' in WR.
  pose proof (SH r c Hr Hc) as S0. pose proof (SH r c' Hr Hc') as S1.
  pose proof (wt_bond P r c 2 b Hr Hc ltac:(lia) L0) as W0. pose proof (wt_bond P r c' 0 b Hr Hc' ltac:(lia) L1) as W1.
  rewrite W0 in S0. rewrite W1 in S1.
  pose proof (null_h qr svd tol QR P gate ham r c (length (wt P r c 0)) (length (wt P r c 1)) (length (wt P r c 3)) (phys P r c) (length (wt P r c' 1)) (length (wt P r c' 2)) (length (wt P r c' 3)) (phys P r c') (length (lam_of P b))) as L.
  cbv zeta in L. rewrite WR in L. cbn [wt] in L, W0, W1, S0, S1. unfold west in W1. rewrite W1 in L.
  specialize (L S0 S1 eq_refl eq_refl eq_refl eq_refl eq_refl eq_refl eq_refl Sg).
  intros Z0 x X0 X1. specialize (L Z0). unfold gate2. rewrite !(dimat_shape gate _ _ Sg). cbn [nth fst snd].
  apply (pair_gone tol P F r c r c' 2 0 b (phys P r c) (phys P r c') (fun p q => entry gate [p; q; x r c; x r c'])); try assumption; try (split; assumption).
  - intros Q. injection Q. intros. apply NL. congruence.
  - intros r2 c2 l Hr2 Hc2 Hl E. apply leg_ends in E; try assumption. cbn in E. destruct E as [(-> & -> & ->)|(-> & -> & ->)]; auto.
  - intros f0 f1 H0 H1. refine (L (f0 0) (f0 1) (f0 3) (f1 1) (f1 2) (f1 3) (x r c) (x r c') _ _ _ _ _ _ X0 X1 _ _ _ _ _ _); (apply H0 + apply H1); clear; lia.
Qed.
End Hor.
Section Ver.
Let r' := (r + 1) mod p_rows P. Let b := Ver r c.
Context (Hb : In b (bs P)) (NL : r <> r') (Sg : shape gate = [phys P r c; phys P r' c; phys P r c; phys P r' c]).
Lemma gone_v : r_norm (project_v qr svd tol P gate ham r c) = 0%R -> forall x, x r c < phys P r c -> x r' c < phys P r' c -> gate2 gate (r, c) (r', c) (wave P) x = RtoC 0.
Proof.
  destruct F as (T & SH & KE & OP). pose proof (proj1 (bonds_in _ _ _ _) Hb) as HB. cbn in HB. destruct HB as [Hr0 Hc].
  destruct (next_row _ _ _ Hr0) as (Hr & Hr' & _). fold r' in Hr'.
  pose proof (end_up P r c Hb) as L0. pose proof (end_down P r c Hb) as L1. fold r' in L1.
  pose proof (wrap_v' P r c Hb) as WR. fold r' in WR.
  pose proof (SH r c Hr Hc) as S0. pose proof (SH r' c Hr' Hc) as S1.
  pose proof (wt_bond P r c 1 b Hr Hc ltac:(lia) L0) as W0. pose proof (wt_bond P r' c 3 b Hr' Hc ltac:(lia) L1) as W1.
  rewrite W0 in S0. rewrite W1 in S1.
  pose proof (null_v qr svd tol QR P gate ham r c (length (wt P r c 0)) (length (wt P r c 2)) (length (wt P r c 3)) (phys P r c) (length (wt P r' c 0)) (length (wt P r' c 1)) (length (wt P r' c 2)) (phys P r' c) (length (lam_of P b))) as L.
  cbv zeta in L. rewrite WR in L. cbn [wt] in L, W0, W1, S0, S1. unfold north in W1. rewrite W1 in L.
  specialize (L S0 S1 eq_refl eq_refl eq_refl eq_refl eq_refl eq_refl eq_refl Sg).
  intros Z0 x X0 X1. specialize (L Z0). unfold gate2. rewrite !(dimat_shape gate _ _ Sg). cbn [nth fst snd].
  apply (pair_gone tol P F r c r' c 1 3 b (phys P r c) (phys P r' c) (fun p q => entry gate [p; q; x r c; x r' c])); try assumption; try (split; assumption).
  - intros Q. injection Q. intros. apply NL. congruence.
  - intros r2 c2 l Hr2 Hc2 Hl E. apply leg_ends in E; try assumption. cbn in E. destruct E as [(-> & -> & ->)|(-> & -> & ->)]; auto.
  - intros f0 f1 H0 H1. refine (L (f0 0) (f0 2) (f0 3) (f1 0) (f1 1) (f1 2) (x r c) (x r' c) _ _ _ _ _ _ X0 X1 _ _ _ _ _ _); (apply H0 + apply H1); clear; lia.
Qed.
End Ver.
End Pair.

Section Null.
Context (qr : tensor -> tensor * tensor) (svd : nat -> tensor -> tensor * list R * tensor) (tol : R) (QR : qr_exact qr).
Theorem null_step P o gate ham : sound tol P -> valid P o -> gate_fits P o gate -> r_norm (project qr svd tol P o gate ham) = 0%R ->
  forall x, proper P x -> act (p_rows P) (p_cols P) o gate (wave P) x = RtoC 0.
Proof.
  intros S [VB VS] SG Z0 x X. apply sound_fitted in S. rename S into F.
  destruct o as [r c|r c|r c|r c|r c|r c]; cbn [bonds_of sites_of project] in *; unfold gate_fits in SG; unfold act; cbn [sites_of map app fst snd] in *; unfold next, prev in *.
  - assert (Hb : In (Hor r c) (bs P)) by (apply VB; left; reflexivity). pose proof (proj1 (bonds_in _ _ _ _) Hb) as HB. cbn in HB. destruct HB as [Hr Hc0]. destruct (next_row _ _ _ Hc0) as (Hc & Hc' & _).
    pose proof (nodup2 _ _ _ VS) as NL. apply (gone_h qr svd tol QR P gate ham F r c Hb ltac:(congruence) SG Z0); apply X; assumption.
  - assert (Hb : In (Ver r c) (bs P)) by (apply VB; left; reflexivity). pose proof (proj1 (bonds_in _ _ _ _) Hb) as HB. cbn in HB. destruct HB as [Hr0 Hc]. destruct (next_row _ _ _ Hr0) as (Hr & Hr' & _).
    pose proof (nodup2 _ _ _ VS) as NL. apply (gone_v qr svd tol QR P gate ham F r c Hb ltac:(congruence) SG Z0); apply X; assumption.
  - assert (Hx : In (Hor r ((c + p_cols P - 1) mod p_cols P)) (bs P)) by (apply VB; left; reflexivity). assert (Hy : In (Ver r c) (bs P)) by (apply VB; right; left; reflexivity).
    pose proof (proj1 (bonds_in _ _ _ _) Hy) as HB. cbn in HB. destruct HB as [Hr0 Hc]. destruct (next_row _ _ _ Hr0) as (Hr & Hr' & _).
    pose proof (nodup2 _ _ _ VS) as N1. apply NoDup_cons_iff, proj2 in VS. pose proof (nodup2 _ _ _ VS) as N2.
    assert (Hlc : (c + p_cols P - 1) mod p_cols P < p_cols P) by (apply Nat.mod_upper_bound; lia).
    apply (gone_ur qr svd tol QR P gate ham F r c Hr Hc Hx Hy ltac:(congruence) ltac:(congruence) SG Z0); apply X; assumption.
  - assert (Hy : In (Hor r c) (bs P)) by (apply VB; left; reflexivity). assert (Hx : In (Ver r c) (bs P)) by (apply VB; right; left; reflexivity).
    pose proof (proj1 (bonds_in _ _ _ _) Hx) as HB. cbn in HB. destruct HB as [Hr0 Hc]. destruct (next_row _ _ _ Hr0) as (Hr & Hr' & _).
    pose proof (nodup2 _ _ _ VS) as N1. apply NoDup_cons_iff, proj2 in VS. pose proof (nodup2 _ _ _ VS) as N2.
    assert (Hrc : (c + 1) mod p_cols P < p_cols P) by (apply Nat.mod_upper_bound; lia).
    apply (gone_ul qr svd tol QR P gate ham F r c Hr Hc Hx Hy ltac:(congruence) ltac:(congruence) SG Z0); apply X; assumption.
  - assert (Hx : In (Ver r c) (bs P)) by (apply VB; left; reflexivity). assert (Hy : In (Hor ((r + 1) mod p_rows P) ((c + p_cols P - 1) mod p_cols P)) (bs P)) by (apply VB; right; left; reflexivity).
    pose proof (proj1 (bonds_in _ _ _ _) Hx) as HB. cbn in HB. destruct HB as [Hr0 Hc]. destruct (next_row _ _ _ Hr0) as (Hr & Hr' & _).
    pose proof (nodup2 _ _ _ VS) as N1. apply NoDup_cons_iff, proj2 in VS. pose proof (nodup2 _ _ _ VS) as N2.
    assert (Hlc : (c + p_cols P - 1) mod p_cols P < p_cols P) by (apply Nat.mod_upper_bound; lia).
    apply (gone_lr qr svd tol QR P gate ham F r c Hr Hc Hx Hy ltac:(congruence) ltac:(congruence) SG Z0); apply X; assumption.
  - assert (Hy : In (Ver r c) (bs P)) by (apply VB; left; reflexivity). assert (Hx : In (Hor ((r + 1) mod p_rows P) c) (bs P)) by (apply VB; right; left; reflexivity).
    pose proof (proj1 (bonds_in _ _ _ _) Hy) as HB. cbn in HB. destruct HB as [Hr0 Hc]. destruct (next_row _ _ _ Hr0) as (Hr & Hr' & _).
    pose proof (nodup2 _ _ _ VS) as N1. apply NoDup_cons_iff, proj2 in VS. pose proof (nodup2 _ _ _ VS) as N2.
    assert (Hrc : (c + 1) mod p_cols P < p_cols P) by (apply Nat.mod_upper_bound; lia).
    apply (gone_ll qr svd tol QR P gate ham F r c Hr Hc Hx Hy ltac:(congruence) ltac:(congruence) SG Z0); apply X; assumption.
Qed.

Context (m : nat) (SV : svd_up_to m svd).
Lemma fit_all P : forall l, calls_fit P l -> all_fit P l.
Proof. induction l as [|[[o g] h] l IH]; intros H; [exact I|]. split; [exact (proj2 (H o g h (or_introl eq_refl)))|]. apply IH. intros o' g' h' Q. exact (H o' g' h' (or_intror Q)). Qed.
(** norms that are not needed *)
Theorem nonzero_lossless : forall l P, sound tol P -> calls_fit P l -> uncut qr svd tol m P l -> (exists s, proper P s /\ acts (p_rows P) (p_cols P) l (wave P) s <> RtoC 0) -> lossless qr svd tol m P l.
Proof.
  induction l as [|[[o g] h] l IH]; intros P S CF U (s & Hs & NZ); [exact I|]. cbn [lossless uncut acts] in *. destruct U as (RM & KS & U). destruct (CF o g h (or_introl eq_refl)) as [V SG].
  assert (CF' : calls_fit P l) by (intros o' g' h' Q; exact (CF o' g' h' (or_intror Q))). pose proof (fit_all P l CF') as AF.
  assert (N : r_norm (project qr svd tol P o g h) <> 0%R).
  { intros Z0. apply NZ. transitivity (acts (p_rows P) (p_cols P) l (fun s => (RtoC 0 * wave P s)%C) s).
    - apply (acts_agree P l); [exact AF| |exact Hs]. intros t Ht. rewrite (null_step P o g h S V SG Z0 t Ht). ring.
    - rewrite (acts_scal P _ l) by assumption. ring. }
  split; [exact V|]. split; [exact SG|]. split; [exact RM|]. split; [exact N|]. split; [exact KS|].
  apply sound_fitted in S. destruct (step_ok qr svd tol m QR SV P o g h S V SG RM N KS) as [[F1 S1] WV]. pose proof S1 as (A1 & A2 & A3 & A4).
  apply IH.
  - apply sound_fitted. exact F1.
  - intros o' g' h' Q. destruct (CF' o' g' h' Q) as [V' G']. split; [destruct V' as [B1 B2]; split; rewrite ?A1, ?A2, ?A3; assumption|]. apply (fit_same P _ o' g' S1 V'). exact G'.
  - exact U.
  - exists s. split; [exact (proper_same _ _ _ S1 Hs)|]. rewrite A1, A2. intros Q. apply NZ.
    transitivity (acts (p_rows P) (p_cols P) l (fun s => (RtoC (r_norm (project qr svd tol P o g h)) * wave (r_peps (project qr svd tol P o g h)) s)%C) s).
    + apply (acts_agree P l); [exact AF| |exact Hs]. intros t Ht. symmetry. exact (WV t Ht).
    + rewrite (acts_scal P _ l) by assumption. rewrite Q. ring.
Qed.
Lemma norm_total : forall l P, lossless qr svd tol m P l -> snd (project_all qr svd tol P l) <> 0%R.
Proof.
  induction l as [|[[o g] h] l IH]; intros P L; [cbn; lra|]. cbn [lossless project_all] in *. destruct L as (_ & _ & _ & N & _ & L). specialize (IH _ L).
  destruct (project_all qr svd tol (r_peps (project qr svd tol P o g h)) l) as [Q n]. cbn [snd] in *. apply Rmult_integral_contrapositive_currified; assumption.
Qed.
Theorem nonzero_run l P : sound tol P -> calls_fit P l -> uncut qr svd tol m P l -> (exists s, proper P s /\ acts (p_rows P) (p_cols P) l (wave P) s <> RtoC 0) ->
  let '(Q, n) := project_all qr svd tol P l in n <> 0%R /\ sound tol Q /\ forall s, proper P s -> wave Q s = (RtoC (/ n) * acts (p_rows P) (p_cols P) l (wave P) s)%C.
Proof.
  intros S CF U NZ. pose proof (nonzero_lossless l P S CF U NZ) as L. pose proof (norm_total l P L) as N. pose proof (all_calls qr svd tol m QR SV l P S L) as H.
  destruct (project_all qr svd tol P l) as [Q n]. cbn [snd] in N. destruct H as (H1 & _ & H3). split; [exact N|]. split; [exact H1|]. intros s Hs. rewrite <- (H3 s Hs).
  transitivity ((RtoC (/ n) * RtoC n) * wave Q s)%C; [|ring]. rewrite <- RtoC_mul, Rinv_l by exact N. ring.
Qed.
End Null.
