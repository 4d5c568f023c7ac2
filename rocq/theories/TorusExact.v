(** Exact decompositions: the amplitudes and energies of the (evolved) periodic state. *)
From Coq Require Import List Arith Bool Reals Lia Lra FunctionalExtensionality.
From Verif Require Import Base Cplx ContractorModel SweepModel SweepSpec UpdaterModel UpdaterSpec EnergyModel EnergySpec PbcModel PbcSpec PbcProofs SumModel SumSpec SumProofs NetSum TrgModel TrgSpec TrgTensor TrgExactSpec TrgExact.
From Verif Require UpdaterChain.
From Verif Require Import ProjModel ProjSpec ProjAlg ProjPatch ProjGrid ProjTps ProjSteps ProjNullSpec ProjNull PipeModel PipeSpec PipeProofs PipeMain TorusModel TorusSpec TorusProofs TorusMain TorusEnergy.
Import ListNotations.
Local Open Scope nat_scope.

Section Exact.
Context (svd : trunc -> tensor -> tensor * list R * tensor) (Rng : Type) (n : nat) (p : trunc) (tps : nat -> nat -> nat -> tensor) (Hn : trg_size n).
Context (HX : exact_svd svd p) (dim : nat) (HC : forall c, all_states n n (fun x => x < dim) c -> closes n (fun r k => tps r k (c r k))).
Lemma exact_contract c : all_states n n (fun x => x < dim) c -> trg_contract svd p n (fun r k => tps r k (c r k)) = torus_sum n (fun r k => tps r k (c r k)).
Proof. intros B. destruct (fresh_exact svd p n Hn HX _ (HC c B)) as (t & F & _). exact (contract_value svd n p _ _ _ F). Qed.
Lemma exact_amplitude w : reachable (tensor_ops svd) Rng n p tps dim w -> k_amp w = torus_sum n (fun r k => tps r k (k_cfg w r k)).
Proof.
  intros H. destruct (reachable_in_step (tensor_ops svd) Rng n p tps Hn dim w H) as [[_ (t & z & F & _ & Z & _)] B].
  destruct (fresh_exact svd p n Hn HX _ (HC _ B)) as (t' & F' & _). unfold net_of in F. rewrite Z. pose proof (eq_trans (eq_sym F) F') as E. injection E as _ E. exact E.
Qed.
End Exact.
Lemma conf_list n S r c : conf n S r c = nth (r * n + c) S 0.
Proof. reflexivity. Qed.
Lemma list_states n S dim : In S (all_configs dim (n * n)) -> all_states n n (fun x => x < dim) (conf n S).
Proof. intros I r c Hr Hc. apply UpdaterChain.all_configs_in in I. destruct I as [L F]. rewrite Forall_forall in F. apply F. unfold conf. apply nth_In. rewrite L. nia. Qed.

(** *** The sampled tensors of a periodic PEPS *)
Section Split.
Context (tol : R) (P : peps) (SO : sound tol P) (PER : p_per P = true) (SQ : p_rows P = p_cols P).
Let n := p_rows P.
Lemma split_shape r c i : r < n -> c < n -> shape (to_split_index P r c i) = [length (west P r c); length (south P r c); length (east P r c); length (north P r c)].
Proof. intros Hr Hc. apply (from_tps_shape _ _ _ _ _ _ _ (tshape tol P SO r c Hr ltac:(unfold n in *; lia))). Qed.
Lemma split_dim r c i l : r < n -> c < n -> l < 4 -> dimat (to_split_index P r c i) l = length (wt P r c l).
Proof. intros Hr Hc Hl. unfold dimat. rewrite split_shape by assumption. destruct l as [|[|[|[|]]]]; [reflexivity..|lia]. Qed.
Lemma split_bond s b : In b (bonds n n true) -> torus_dim (fun r c => to_split_index P r c (s r c)) b = length (lam_of P b).
Proof.
  intros Hb. pose proof (proj1 (bonds_in _ _ _ _) Hb) as HB. assert (Hb' : In b (bs P)) by (unfold bs; rewrite PER, <- SQ; exact Hb).
  destruct b as [r c|r c]; cbn in HB; unfold torus_dim.
  - rewrite split_dim by lia. f_equal. apply (wt_bond P r c 2 (Hor r c)); [unfold n in *; lia|unfold n in *; lia|lia|apply end_left; exact Hb'].
  - rewrite split_dim by lia. f_equal. apply (wt_bond P r c 1 (Ver r c)); [unfold n in *; lia|unfold n in *; lia|lia|apply end_up; exact Hb'].
Qed.
Lemma split_closes s : closes n (fun r c => to_split_index P r c (s r c)).
Proof.
  intros r c Hr Hc. split; [rewrite split_shape by assumption; reflexivity|]. intros l b Hl Q. rewrite split_dim by assumption.
  rewrite split_bond by (apply (leg_in _ _ _ r c l); assumption). f_equal. apply wt_bond; [unfold n in *; lia|unfold n in *; lia|exact Hl|]. rewrite PER, <- SQ. exact Q.
Qed.
Lemma split_torus s : proper P s -> torus_sum n (fun r c => to_split_index P r c (s r c)) = amplitude (to_tps P) s.
Proof.
  intros PR. unfold torus_sum, amplitude. cbn [to_tps l_rows l_cols l_per]. rewrite PER, <- SQ, !sum_over_gsum. fold n.
  transitivity (gsum bond_eq_dec (bonds n n true) (bond_dim (to_tps P)) (fun a => prodC (fun rc => entry (to_split_index P (fst rc) (snd rc) (s (fst rc) (snd rc))) (map (leg_value n n true a (fst rc) (snd rc)) [0; 1; 2; 3])) (grid n n)) (fun _ => 0)).
  - apply gsum_dims. intros b Hb. rewrite split_bond by exact Hb. pose proof (proj1 (bonds_in _ _ _ _) Hb) as HB. assert (Hb' : In b (bs P)) by (unfold bs; rewrite PER, <- SQ; exact Hb).
    destruct b as [r c|r c]; cbn in HB; cbn [bond_dim to_tps l_ten dim dims]; unfold dim; cbn [dims]; rewrite (tshape tol P SO) by (unfold n in *; lia); cbn [firstn nth]; symmetry.
    + change (east P r c) with (wt P r c 2). rewrite (wt_bond P r c 2 (Hor r c)); [reflexivity|unfold n in *; lia|unfold n in *; lia|lia|apply end_left; exact Hb'].
    + change (south P r c) with (wt P r c 1). rewrite (wt_bond P r c 1 (Ver r c)); [reflexivity|unfold n in *; lia|unfold n in *; lia|lia|apply end_up; exact Hb'].
  - apply gsum_ext. intros a _ _. unfold weight. cbn [to_tps l_rows l_cols l_per l_ten ent]. rewrite PER, <- SQ. fold n. apply prodC_ext. intros [r c] Hrc. apply grid_in in Hrc. destruct Hrc as [Hr Hc]. cbn [fst snd map app].
    apply (from_tps_entry _ _ _ _ _ _ _ _ _ _ _ (tshape tol P SO r c Hr ltac:(unfold n in *; lia))). apply PR; unfold n in *; lia.
Qed.
Lemma split_torus_wave s : nonnegative P -> proper P s -> torus_sum n (fun r c => to_split_index P r c (s r c)) = wave P s.
Proof. intros W PR. rewrite (split_torus s PR). apply (to_tps_wave tol P s SO). exact W. Qed.
End Split.

Section Evolved.
Context (qr : tensor -> tensor * tensor) (psvd : nat -> tensor -> tensor * list R * tensor) (tol : R) (calls : list (call * tensor * option tensor)) (P : peps).
Context (GE : good_torus_evolution qr psvd tol calls P).
Let Q := fst (project_all qr psvd tol P calls).
Let norm := snd (project_all qr psvd tol P calls).
Let n := p_rows P.
Let evolved := ProjSpec.acts (p_rows P) (p_cols P) calls (wave P).
Lemma evolved_sum : norm <> 0%R /\ (forall s, closes n (fun r c => to_split_index Q r c (s r c))) /\
  forall s, proper P s -> torus_sum n (fun r c => to_split_index Q r c (s r c)) = (RtoC (/ norm) * evolved s)%C.
Proof.
  destruct GE as (QR & NN & SO & PER & SQ & W & CF & (m & SV & UC) & NZ).
  pose proof (nonzero_lossless qr psvd tol QR m SV calls P SO CF UC NZ) as L. pose proof (all_calls qr psvd tol m QR SV calls P SO L) as AC.
  pose proof (nonzero_run qr psvd tol QR m SV calls P SO CF UC NZ) as NR. pose proof (run_nonnegative qr psvd tol NN calls P W) as WQ.
  unfold norm, Q. destruct (project_all qr psvd tol P calls) as [Q' n']. cbn [fst snd] in *. destruct NR as (N & SQ' & WV).
  assert (A1 : p_rows Q' = p_rows P) by apply AC. assert (A2 : p_cols Q' = p_cols P) by apply AC. assert (A3 : p_per Q' = p_per P) by apply AC.
  assert (A4 : forall s, proper P s <-> proper Q' s) by apply AC. split; [exact N|]. split.
  - intros s. unfold n. rewrite <- A1. apply (split_closes tol); [exact SQ'|congruence|congruence].
  - intros s PR. unfold evolved. rewrite <- (WV s PR). unfold n. rewrite <- A1. apply (split_torus_wave tol); [exact SQ'|congruence|congruence|exact WQ|apply A4; exact PR].
Qed.
Context (svd : trunc -> tensor -> tensor * list R * tensor) (Rng : Type) (p : trunc) (HX : exact_svd svd p) (Hn : trg_size (p_rows P)).
Let tps := fun r c i => to_split_index Q r c i.
Lemma evolved_amplitude dim w : reachable (tensor_ops svd) Rng (p_rows P) p (to_split_index Q) dim w -> norm <> 0%R /\ (proper P (k_cfg w) -> k_amp w = (RtoC (/ norm) * evolved (k_cfg w))%C).
Proof.
  intros H. destruct evolved_sum as (N & CL & E). split; [exact N|]. intros PR. rewrite <- (E _ PR). apply (exact_amplitude svd Rng n p (to_split_index Q) Hn HX dim (fun c _ => CL c) w H).
Qed.
Lemma evolved_energies w : spins P -> 2 <= p_rows P -> reachable (tensor_ops svd) Rng (p_rows P) p (to_split_index Q) 2 w -> evolved (k_cfg w) <> RtoC 0 ->
  let wt := if p_rows P =? 2 then 2%R else 1%R in
  (forall jz jxy jz2 jxy2 pin, trg_xxz_energy svd (p_rows P) p (to_split_index Q) jz jxy jz2 jxy2 pin w =
     Ok (w, local_energy 2 (p_rows P * p_rows P) (H_xxz_torus (p_rows P) (p_rows P) wt wt jz jxy jz2 jxy2 pin) (row_by_row (p_rows P) evolved) (UpdaterSpec.flat (p_rows P) (p_rows P) (k_cfg w)))) /\
  (forall jz jxy, trg_heisenberg_energy svd (p_rows P) p (to_split_index Q) jz jxy w =
     Ok (w, local_energy 2 (p_rows P * p_rows P) (H_xxz_torus (p_rows P) (p_rows P) wt wt jz jxy 0 0 0) (row_by_row (p_rows P) evolved) (UpdaterSpec.flat (p_rows P) (p_rows P) (k_cfg w)))) /\
  (p_rows P = 2 \/ p_rows P = 3 -> forall h, trg_tfim_energy svd (p_rows P) p (to_split_index Q) h w =
     Ok (w, local_energy 2 (p_rows P * p_rows P) (H_tfim_torus (p_rows P) (p_rows P) wt wt h) (row_by_row (p_rows P) evolved) (UpdaterSpec.flat (p_rows P) (p_rows P) (k_cfg w)))).
Proof.
  intros SP H2 H NZ wt. destruct evolved_sum as (N & CL & E). destruct (evolved_amplitude 2 w H) as [_ EA].
  destruct (reachable_in_step (tensor_ops svd) Rng _ p (to_split_index Q) Hn 2 w H) as [_ B].
  assert (PQ : p_cols P = p_rows P) by (destruct GE as (_ & _ & _ & _ & X & _); congruence).
  assert (PR : forall c, all_states (p_rows P) (p_rows P) (fun x => x < 2) c -> proper P c) by (intros c Bc r k Hr Hk; rewrite (SP r k Hr Hk); apply Bc; lia).
  assert (IN : RtoC (/ norm) <> RtoC 0) by (intros X; apply (f_equal fst) in X; cbn in X; exact (Rinv_neq_0_compat norm N X)).
  assert (AZ : k_amp w <> RtoC 0) by (rewrite (EA (PR _ B)); apply scale_nonzero; assumption).
  assert (LE : forall A, local_energy 2 (p_rows P * p_rows P) A (torus_wave (trg_contract svd p (p_rows P)) (to_split_index Q) (p_rows P)) (UpdaterSpec.flat (p_rows P) (p_rows P) (k_cfg w)) =
    local_energy 2 (p_rows P * p_rows P) A (row_by_row (p_rows P) evolved) (UpdaterSpec.flat (p_rows P) (p_rows P) (k_cfg w))).
  { intros A.
    assert (WV : forall S, In S (all_configs 2 (p_rows P * p_rows P)) -> torus_wave (trg_contract svd p (p_rows P)) (to_split_index Q) (p_rows P) S = (RtoC (/ norm) * row_by_row (p_rows P) evolved S)%C).
    { intros S IS. unfold torus_wave. rewrite (exact_contract svd (p_rows P) p (to_split_index Q) Hn HX 2 (fun c _ => CL c)) by (apply list_states; exact IS). exact (E (conf (p_rows P) S) (PR _ (list_states _ _ _ IS))). }
    pose proof (states_in _ _ 2 _ B) as IS.
    apply (local_energy_scale 2 (p_rows P * p_rows P) A (RtoC (/ norm))); [exact IN|exact IS| |exact WV].
    intros X. apply AZ. rewrite <- (wave_here svd Rng _ p (to_split_index Q) Hn w H). refine (eq_trans (WV _ IS) _). refine (eq_trans (f_equal (fun z => (RtoC (/ norm) * z)%C) X) _). apply injective_projections; cbn; ring. }
  destruct (energies_local svd Rng _ p (to_split_index Q) Hn w H H2 AZ) as [XX HE]. cbv zeta in XX, HE. split; [|split].
  - intros. rewrite XX, LE. reflexivity.
  - intros. rewrite HE, LE. reflexivity.
  - intros H23 h. rewrite (tfim_local svd Rng _ p (to_split_index Q) Hn w H (fun c _ => CL c) h H23); [rewrite LE; reflexivity| |exact AZ].
    intros r c Hr Hc. destruct (project_all qr psvd tol P calls) as [Q' n'] eqn:EP. reflexivity.
Qed.
End Evolved.
