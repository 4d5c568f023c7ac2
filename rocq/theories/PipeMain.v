(** From projections to amplitudes and energies. *)
From Coq Require Import List Arith Bool Reals Lia Lra.
From Verif Require Import Base Cplx ContractorModel ContractorSpec SweepModel SweepSpec UpdaterSpec UpdaterProofs EnergyModel EnergySpec ExactModel ExactSpec ExactProofs SumModel SumSpec SumProofs NetSum TrgTensor BmpsModel BmpsSpec BmpsMain.
From Verif Require UpdaterChain EnergyClaims ObsAverage SweepMain.
From Verif Require Import ProjModel ProjSpec ProjAlg ProjPatch ProjGrid ProjWave ProjTps ProjSteps ProjNullSpec ProjNull PipeModel PipeSpec PipeProofs.
Import ListNotations.
Local Open Scope nat_scope.

Section Weights.
Context (qr : tensor -> tensor * tensor) (svd : nat -> tensor -> tensor * list R * tensor) (tol : R) (NN : svd_nonnegative svd).
Definition nnl (s : list R) := Forall (fun x => (0 <= x)%R) s.
Definition grows (P Q : peps) := p_rows Q = p_rows P /\ p_cols Q = p_cols P /\ p_per Q = p_per P /\ (forall r c, nnl (lam_h P r c) -> nnl (lam_h Q r c)) /\ (forall r c, nnl (lam_v P r c) -> nnl (lam_v Q r c)).
Lemma grows_refl P : grows P P.
Proof. repeat split; auto. Qed.
Lemma grows_gamma P Q r c T : grows P Q -> grows P (put_gamma Q r c T).
Proof. intros H. exact H. Qed.
Lemma grows_h P Q r c s : grows P Q -> nnl s -> grows P (put_h Q r c s).
Proof. intros (A & B & D & E & G) N. repeat split; try assumption. intros r' c' H. cbn [put_h lam_h]. unfold put. destruct (_ && _); [exact N|apply E; exact H]. Qed.
Lemma grows_v P Q r c s : grows P Q -> nnl s -> grows P (put_v Q r c s).
Proof. intros (A & B & D & E & G) N. repeat split; try assumption. intros r' c' H. cbn [put_v lam_v]. unfold put. destruct (_ && _); [exact N|apply G; exact H]. Qed.
Ltac walk := repeat match goal with |- context [let '(_, _) := qr ?t in _] => destruct (qr t) end;
  repeat match goal with |- context [svd ?n ?t] => let H := fresh in pose proof (NN n t) as H; destruct (svd n t) as [[? ?] ?]; cbn [fst snd] in H end;
  cbn [r_peps]; repeat first [apply grows_gamma | apply grows_h; [|assumption] | apply grows_v; [|assumption] | apply grows_refl].
Lemma step_grows P o g h : grows P (r_peps (project qr svd tol P o g h)).
Proof.
  destruct o; cbn [project].
  - unfold project_h. walk.
  - unfold project_v. walk.
  - unfold project_ur. walk.
  - unfold project_ul. walk.
  - unfold project_lr. walk.
  - unfold project_ll. walk.
Qed.
Lemma run_grows : forall l P, grows P (fst (project_all qr svd tol P l)).
Proof.
  induction l as [|[[o g] h] l IH]; intros P; [apply grows_refl|]. cbn [project_all]. specialize (IH (r_peps (project qr svd tol P o g h))). pose proof (step_grows P o g h) as (A & B & D & E & G).
  destruct (project_all qr svd tol (r_peps (project qr svd tol P o g h)) l) as [Q n]. cbn [fst] in *. destruct IH as (A' & B' & D' & E' & G'). repeat split; try congruence; auto.
Qed.
Lemma run_nonnegative l P : nonnegative P -> nonnegative (fst (project_all qr svd tol P l)).
Proof.
  intros W b Hb. destruct (run_grows l P) as (A & B & D & E & G). rewrite A, B, D in Hb. specialize (W b Hb). destruct b as [r c|r c]; cbn [lam_of] in *; rewrite ?A, ?B; [apply E|apply G]; exact W.
Qed.
End Weights.

Lemma Cinv_scale k z : k <> RtoC 0 -> z <> RtoC 0 -> Cinv (k * z)%C = (Cinv k * Cinv z)%C.
Proof. intros K Z. apply Cinv_unique. transitivity ((k * Cinv k) * (z * Cinv z))%C; [ring|]. rewrite !Cinv_r by assumption. ring. Qed.
Lemma scale_nonzero k z : k <> RtoC 0 -> z <> RtoC 0 -> (k * z)%C <> RtoC 0.
Proof. intros K Z E. apply Z. transitivity ((Cinv k * k) * z)%C; [rewrite Cinv_l by exact K; ring|]. transitivity (Cinv k * (k * z))%C; [ring|]. rewrite E. ring. Qed.
Lemma local_energy_scale dim n H k Psi Psi' S : k <> RtoC 0 -> In S (all_configs dim n) -> Psi' S <> RtoC 0 -> (forall S', In S' (all_configs dim n) -> Psi S' = (k * Psi' S')%C) ->
  local_energy dim n H Psi S = local_energy dim n H Psi' S.
Proof.
  intros K I NZ E. unfold local_energy. f_equal. rewrite (E S I). rewrite (sumC_ext _ (fun S' => (k * (H S S' * Psi' S'))%C)) by (intros S' I'; rewrite (E S' I'); ring). rewrite sumC_scal. unfold Cdiv. rewrite Cinv_scale by assumption.
  transitivity ((k * Cinv k) * (sumC (fun S' => (H S S' * Psi' S')%C) (all_configs dim n) * Cinv (Psi' S)))%C; [ring|]. rewrite Cinv_r by exact K. ring.
Qed.

Lemma rayleigh_scale {X} (configs : list X) H k a b : k <> RtoC 0 -> configs <> [] -> (forall c, In c configs -> b c <> RtoC 0) -> (forall c, In c configs -> a c = (k * b c)%C) -> rayleigh configs H a = rayleigh configs H b.
Proof.
  intros Kz NE NZ E. unfold rayleigh.
  assert (E1 : braket configs a (apply_op configs H a) = ((Cconj k * k) * braket configs b (apply_op configs H b))%C).
  { unfold braket, apply_op. rewrite <- sumC_scal. apply sumC_ext. intros c Hc. rewrite (E c Hc), (sumC_ext _ (fun c' => (k * (H c c' * b c'))%C)) by (intros c' Hc'; rewrite (E c' Hc'); ring). rewrite sumC_scal, Cconj_mul. ring. }
  assert (E2 : braket configs a a = ((Cconj k * k) * braket configs b b)%C).
  { unfold braket. rewrite <- sumC_scal. apply sumC_ext. intros c Hc. rewrite (E c Hc), Cconj_mul. ring. }
  assert (Kc : (Cconj k * k)%C <> RtoC 0).
  { apply scale_nonzero; [|exact Kz]. intros Q. apply Kz. rewrite <- (Cconj_invol k), Q. apply injective_projections; cbn; ring. }
  assert (BB : braket configs b b <> RtoC 0).
  { rewrite braket_self. pose proof (weight_positive configs b NE NZ) as HW. intros Q. apply (f_equal fst) in Q. cbn in Q. lra. }
  rewrite E1, E2, Cinv_scale by assumption.
  transitivity (((Cconj k * k) * Cinv (Cconj k * k)) * (braket configs b (apply_op configs H b) * Cinv (braket configs b b)))%C; [ring|]. rewrite Cinv_r by exact Kc. ring.
Qed.
Lemma states_in rows cols dim c : all_states rows cols (fun x => x < dim) c -> In (flat rows cols c) (all_configs dim (rows * cols)).
Proof.
  intros H. apply UpdaterChain.all_configs_in. rewrite UpdaterChain.flat_length. split; [reflexivity|]. unfold flat. apply Forall_forall.
  intros x Hx. apply in_map_iff in Hx. destruct Hx as ([r k] & <- & Hy). unfold all_sites in Hy. apply in_prod_iff in Hy.
  destruct Hy as [A B]. apply in_seq in A, B. apply H; simpl; lia.
Qed.
Section Pipe.
Context (qr : tensor -> tensor * tensor) (svd : nat -> tensor -> tensor * list R * tensor) (tol : R) (QR : qr_exact qr) (m : nat) (SV : svd_up_to m svd) (NN : svd_nonnegative svd).
Context (calls : list (call * tensor * option tensor)) (P : peps) (SO : sound tol P) (PER : p_per P = false) (W : nonnegative P) (CF : calls_fit P calls) (UC : uncut qr svd tol m P calls).
Let R := p_rows P.
Let K := p_cols P.
Let evolved := ProjSpec.acts R K calls (wave P).
Context (NZ : exists s, proper P s /\ evolved s <> RtoC 0).
Let Q := fst (project_all qr svd tol P calls).
Let n := snd (project_all qr svd tol P calls).

Lemma run_same : p_rows Q = p_rows P /\ p_cols Q = p_cols P /\ p_per Q = p_per P /\ forall s, proper P s <-> proper Q s.
Proof.
  pose proof (nonzero_lossless qr svd tol QR m SV calls P SO CF UC NZ) as L. pose proof (all_calls qr svd tol m QR SV calls P SO L) as H. unfold Q. destruct (project_all qr svd tol P calls) as [Q' n']. cbn [fst]. apply H.
Qed.
Lemma run_facts : n <> 0%R /\ sound tol Q /\ (forall s, proper P s -> wave Q s = (RtoC (/ n) * evolved s)%C).
Proof. pose proof (nonzero_run qr svd tol QR m SV calls P SO CF UC NZ) as H. unfold Q, n. destruct (project_all qr svd tol P calls) as [Q' n']. exact H. Qed.
Lemma inv_n : RtoC (/ n) <> RtoC 0.
Proof. destruct run_facts as (N & _). intros E. apply (f_equal fst) in E. cbn in E. apply (Rinv_neq_0_compat n N E). Qed.

Context (D : nat) (D1 : 1 <= D) (BD : bonds_at_most D Q).
Lemma sampled_wave s : proper P s -> open_sum D R K (fun r c => sampled Q r c (s r c)) = (RtoC (/ n) * evolved s)%C.
Proof.
  intros PR. destruct run_same as (A1 & A2 & A3 & A4). destruct run_facts as (N & SQ & WQ). rewrite <- (WQ s PR).
  assert (PQ : proper Q s) by (apply A4; exact PR).
  unfold R, K. rewrite <- A1, <- A2. apply (split_wave tol Q SQ); [congruence|exact BD|apply run_nonnegative; assumption|exact PQ].
Qed.
Context (SP : spins P).
Lemma proper_conf S : In S (all_configs 2 (R * K)) -> proper P (fun r c => nth (r * K + c) S 0).
Proof.
  intros I r c Hr Hc. rewrite (SP r c Hr Hc). apply UpdaterChain.all_configs_in in I. destruct I as [L F]. rewrite Forall_forall in F. apply F. apply nth_In. rewrite L. fold R in Hr. fold K in Hc. nia.
Qed.
Lemma sampled_list S : In S (all_configs 2 (R * K)) -> peps_wave D R K (sampled Q) S = (RtoC (/ n) * row_by_row K evolved S)%C.
Proof. intros I. unfold peps_wave, row_by_row. apply (sampled_wave (fun r c => nth (r * K + c) S 0)). apply proper_conf. exact I. Qed.

Context (bqr : tensor -> tensor * tensor) (bsvd : tensor -> tensor * list Rdefinitions.R * tensor) (mb : nat) (BQ : exact_qr bqr) (BS : svd_keeps mb bsvd) (BM : D ^ (Nat.max R K - 1) <= mb).
Let o := bmps_ops D bqr bsvd R K.
Context (Rng : Type) (ker : kernel o Rng) (HK : honest ker).
Lemma cfg_nonzero c : all_states R K (fun x => x < 2) c -> evolved c <> RtoC 0 -> peps_wave D R K (sampled Q) (flat R K c) <> RtoC 0 /\ row_by_row K evolved (flat R K c) <> RtoC 0 /\ peps_wave D R K (sampled Q) (flat R K c) = (RtoC (/ n) * evolved c)%C.
Proof.
  intros A N. pose proof (states_in R K 2 c A) as I. pose proof (sampled_list (flat R K c) I) as E.
  assert (E2 : peps_wave D R K (sampled Q) (flat R K c) = (RtoC (/ n) * evolved c)%C).
  { rewrite <- sampled_wave by (intros r k Hr Hk; rewrite (SP r k Hr Hk); apply A; assumption). apply (open_sum_ext D D1 mb R K BM). intros r k Hr Hk. f_equal. exact (conf_of_flat R K c r k Hr Hk). }
  assert (N2 : (RtoC (/ n) * evolved c)%C <> RtoC 0) by (apply scale_nonzero; [exact inv_n|exact N]).
  split; [rewrite E2; exact N2|]. split; [|exact E2]. intros Z. apply N2. rewrite <- E2, E, Z. ring.
Qed.
Theorem pipe_amplitude c a0 g l : 1 <= R -> 2 <= K -> Forall (fits R K) l ->
  exists w lg, (r <- construct (o := o) (sampled Q) ker R K c a0 g ;; SweepModel.acts (o := o) R K (sampled Q) ker l (fst r)) = Ok (w, lg) /\
    (proper P (cfg w) -> amp w = (RtoC (/ n) * evolved (cfg w))%C).
Proof.
  intros Hr Hc F. destruct (bmps_life D D1 bqr bsvd mb BQ BS R K BM Rng (sampled Q) ker HK c a0 g l Hr Hc F) as (w & lg & E & _ & _ & A). exists w, lg. split; [exact E|]. intros PR. refine (eq_trans A _).
  rewrite <- sampled_wave by exact PR. apply (open_sum_ext D D1 mb R K BM). intros r k Hr' Hk. f_equal. exact (conf_of_flat R K (cfg w) r k Hr' Hk).
Qed.
Theorem pipe_xxz c a0 g l jz jxy jz2 jxy2 p holes : 2 <= R -> 2 <= K -> Forall (fits R K) l ->
  exists w lg, (r <- construct (o := o) (sampled Q) ker R K c a0 g ;; SweepModel.acts (o := o) R K (sampled Q) ker l (fst r)) = Ok (w, lg) /\
    (all_states R K (fun x => x < 2) (cfg w) -> evolved (cfg w) <> RtoC 0 ->
     exists w' r, j1j2_xxz_obc (o := o) (fun z => z) jz jxy jz2 jxy2 p holes (sampled Q) ker R K w = Ok (w', r) /\
       e_total r = local_energy 2 (R * K) (H_xxz R K jz jxy jz2 jxy2 p) (row_by_row K evolved) (flat R K (cfg w)) /\
       Forall (fun z => z = (RtoC (/ n) * evolved (cfg w))%C) (e_psis r)).
Proof.
  intros Hr Hc F. destruct (bmps_energy D D1 bqr bsvd mb BQ BS R K BM Rng (sampled Q) ker HK c a0 g l jz jxy jz2 jxy2 p holes Hr Hc F) as (w & lg & E & H). exists w, lg. split; [exact E|]. intros A N.
  destruct (cfg_nonzero (cfg w) A N) as (N1 & N2 & E2). destruct (H A N1) as (w' & r & E' & T & PS). exists w', r. split; [exact E'|]. rewrite E2 in PS. split; [|exact PS]. refine (eq_trans T _).
  apply (local_energy_scale _ _ _ (RtoC (/ n))); [exact inv_n|apply states_in; exact A|exact N2|exact sampled_list].
Qed.
Theorem pipe_tfim c a0 g l h holes : 2 <= R -> 2 <= K -> Forall (fits R K) l ->
  exists w lg, (r <- construct (o := o) (sampled Q) ker R K c a0 g ;; SweepModel.acts (o := o) R K (sampled Q) ker l (fst r)) = Ok (w, lg) /\
    (all_states R K (fun x => x < 2) (cfg w) -> evolved (cfg w) <> RtoC 0 ->
     exists w' r, tfim_obc (o := o) (fun z => z) h holes (sampled Q) ker R K w = Ok (w', r) /\
       e_total r = local_energy 2 (R * K) (H_tfim R K h) (row_by_row K evolved) (flat R K (cfg w)) /\
       Forall (fun z => z = (RtoC (/ n) * evolved (cfg w))%C) (e_psis r)).
Proof.
  intros Hr Hc F. destruct (bmps_tfim D D1 bqr bsvd mb BQ BS R K BM Rng (sampled Q) ker HK c a0 g l h holes Hr Hc F) as (w & lg & E & H). exists w, lg. split; [exact E|]. intros A N.
  destruct (cfg_nonzero (cfg w) A N) as (N1 & N2 & E2). destruct (H A N1) as (w' & r & E' & T & PS). exists w', r. split; [exact E'|]. rewrite E2 in PS. split; [|exact PS]. refine (eq_trans T _).
  apply (local_energy_scale _ _ _ (RtoC (/ n))); [exact inv_n|apply states_in; exact A|exact N2|exact sampled_list].
Qed.
Theorem pipe_exact_sum {Idx} jz jxy jz2 jxy2 p holes a0 gs configs dflt size (incr : list nat -> Idx -> C) measured eloc : 2 <= R -> 2 <= K -> 0 < size ->
  let H := H_xxz R K jz jxy jz2 jxy2 p in
  sector 2 (R * K) H configs -> (forall S, In S configs -> row_by_row K evolved S <> RtoC 0) ->
  (forall S, In S configs -> exists w lg w' r, construct (o := o) (sampled Q) ker R K (conf K S) a0 (gs S) = Ok (w, lg) /\ measured S = amp w /\
     j1j2_xxz_obc (o := o) (fun z => z) jz jxy jz2 jxy2 p holes (sampled Q) ker R K w = Ok (w', r) /\ eloc S = e_total r) ->
  exists g, exact_sum measured eloc incr configs dflt size = Ok (rayleigh configs H (row_by_row K evolved), g) /\ snd (rayleigh configs H (row_by_row K evolved)) = 0%R.
Proof.
  intros Hr Hc Hs H SE NZS ME. pose proof SE as (NE & ND & IN & CL).
  assert (HH : hermitian configs H).
  { intros S S' I I'. apply (ObsAverage.H_xxz_hermitian R K jz jxy jz2 jxy2 p ltac:(lia) ltac:(lia)); apply IN; assumption. }
  assert (V : forall S, In S configs -> measured S = (RtoC (/ n) * row_by_row K evolved S)%C /\ eloc S = local_energy 2 (R * K) H (row_by_row K evolved) S).
  { intros S I. destruct (ME S I) as (w & lg & w' & r & E & AM & J & EL). pose proof (IN S I) as I2. pose proof (proper_conf S I2) as PC.
    destruct (SweepMain.construct_ok o Rng R K (sampled Q) ker (conf K S) a0 (gs S) ltac:(lia) Hc) as (w0 & lg0 & E0 & _ & CC & _). rewrite E in E0. injection E0 as <- <-.
    destruct (pipe_amplitude (conf K S) a0 (gs S) [] ltac:(lia) Hc (Forall_nil _)) as (w1 & lg1 & E1 & A1). rewrite E in E1. cbn [Base.bind bind fst SweepModel.acts] in E1. injection E1 as <- <-.
    assert (PW : proper P (cfg w)) by (rewrite CC; exact PC).
    destruct (pipe_xxz (conf K S) a0 (gs S) [] jz jxy jz2 jxy2 p holes Hr Hc (Forall_nil _)) as (w2 & lg2 & E2 & A2). rewrite E in E2. cbn [Base.bind bind fst SweepModel.acts] in E2. injection E2 as <- <-.
    assert (FL : flat R K (cfg w) = S) by (rewrite CC; apply EnergyClaims.flat_conf; apply UpdaterChain.all_configs_in in I2; apply I2).
    destruct A2 as (w3 & r3 & J3 & T3 & _).
    - intros a b Ha Hb. rewrite <- (SP a b Ha Hb). apply PW; assumption.
    - rewrite CC. exact (NZS S I).
    - rewrite J in J3. injection J3 as <- <-. split; [rewrite AM, (A1 PW), CC; reflexivity|]. rewrite EL. rewrite FL in T3. exact T3. }
  assert (NZM : forall S, In S configs -> measured S <> RtoC 0) by (intros S I; rewrite (proj1 (V S I)); apply scale_nonzero; [exact inv_n|apply NZS; exact I]).
  assert (RS : rayleigh configs H measured = rayleigh configs H (row_by_row K evolved)) by (apply (rayleigh_scale _ _ (RtoC (/ n))); [exact inv_n|exact NE|exact NZS|intros S I; apply V; exact I]).
  destruct (exact_sum_value measured eloc incr configs dflt size Hs) as [_ X].
  destruct X as (g & G & _); [pose proof (weight_positive configs measured NE NZM); lra|]. exists g.
  pose proof (rayleigh_real configs H (row_by_row K evolved) HH) as RR. split; [|exact RR]. rewrite G. f_equal. f_equal.
  transitivity (Cconj (rayleigh configs H measured)).
  - apply average_rayleigh. intros S I. split; [apply NZM; exact I|]. rewrite (proj2 (V S I)). rewrite <- (local_energy_sector 2 (R * K) H configs measured S SE I).
    rewrite !(local_energy_sector 2 (R * K) H configs _ S SE I). f_equal. unfold apply_op. rewrite (proj1 (V S I)), Cinv_scale by (apply inv_n || apply NZS; exact I).
    rewrite (sumC_ext (fun c' => (H S c' * measured c')%C) (fun c' => (RtoC (/ n) * (H S c' * row_by_row K evolved c'))%C)) by (intros c' Hc'; rewrite (proj1 (V c' Hc')); ring). rewrite sumC_scal.
    transitivity ((RtoC (/ n) * Cinv (RtoC (/ n))) * (sumC (fun c' => (H S c' * row_by_row K evolved c')%C) configs * Cinv (row_by_row K evolved S)))%C; [rewrite Cinv_r by exact inv_n; ring|ring].
  - rewrite RS. apply injective_projections; cbn [Cconj fst snd]; [reflexivity|]. rewrite RR. ring.
Qed.
End Pipe.
(** *** wrapped up *)
Theorem amplitude_wrapped :
  forall qr svd tol calls P, good_evolution qr svd tol calls P ->
  let Q := fst (project_all qr svd tol P calls) in let n := snd (project_all qr svd tol P calls) in
  let rows := p_rows P in let cols := p_cols P in let evolved := ProjSpec.acts rows cols calls (wave P) in
  forall D bqr bsvd, good_contraction D bqr bsvd rows cols -> bonds_at_most D Q ->
  let o := bmps_ops D bqr bsvd rows cols in
  forall (Rng : Type) (ker : kernel o Rng), honest ker ->
  forall c a0 g l, 1 <= rows -> 2 <= cols -> Forall (fits rows cols) l ->
  exists w lg, (r <- construct (o := o) (sampled Q) ker rows cols c a0 g ;; SweepModel.acts (o := o) rows cols (sampled Q) ker l (fst r)) = Ok (w, lg) /\
    n <> 0%R /\ (proper P (cfg w) -> amp w = (RtoC (/ n) * evolved (cfg w))%C).
Proof.
  intros qr svd tol calls P (A1 & A2 & A3 & A4 & A5 & A6 & (m & A7 & A8) & A9) Q n rows cols evolved D bqr bsvd (B1 & B2 & mb & B3 & B4) BD o Rng ker HK. intros. destruct (pipe_amplitude qr svd tol A1 m A7 A2 calls P A3 A4 A5 A6 A8 A9 D B1 BD bqr bsvd mb B2 B3 B4 Rng ker HK c a0 g l H H0 H1) as (w & lg & E & X). exists w, lg. split; [exact E|]. split; [|exact X]. exact (proj1 (run_facts qr svd tol A1 m A7 calls P A3 A6 A8 A9)).
Qed.
Theorem xxz_wrapped :
  forall qr svd tol calls P, good_evolution qr svd tol calls P ->
  let Q := fst (project_all qr svd tol P calls) in let n := snd (project_all qr svd tol P calls) in
  let rows := p_rows P in let cols := p_cols P in let evolved := ProjSpec.acts rows cols calls (wave P) in
  forall D bqr bsvd, good_contraction D bqr bsvd rows cols -> bonds_at_most D Q ->
  let o := bmps_ops D bqr bsvd rows cols in
  forall (Rng : Type) (ker : kernel o Rng), honest ker ->
  spins P -> forall c a0 g l jz jxy jz2 jxy2 p holes, 2 <= rows -> 2 <= cols -> Forall (fits rows cols) l ->
  exists w lg, (r <- construct (o := o) (sampled Q) ker rows cols c a0 g ;; SweepModel.acts (o := o) rows cols (sampled Q) ker l (fst r)) = Ok (w, lg) /\
    (all_states rows cols (fun x => x < 2) (cfg w) -> evolved (cfg w) <> RtoC 0 ->
     exists w' r, j1j2_xxz_obc (o := o) (fun z => z) jz jxy jz2 jxy2 p holes (sampled Q) ker rows cols w = Ok (w', r) /\
       e_total r = local_energy 2 (rows * cols) (H_xxz rows cols jz jxy jz2 jxy2 p) (row_by_row cols evolved) (flat rows cols (cfg w)) /\
       Forall (fun z => z = (RtoC (/ n) * evolved (cfg w))%C) (e_psis r)).
Proof.
  intros qr svd tol calls P (A1 & A2 & A3 & A4 & A5 & A6 & (m & A7 & A8) & A9) Q n rows cols evolved D bqr bsvd (B1 & B2 & mb & B3 & B4) BD o Rng ker HK. intros SP. exact (pipe_xxz qr svd tol A1 m A7 A2 calls P A3 A4 A5 A6 A8 A9 D B1 BD SP bqr bsvd mb B2 B3 B4 Rng ker HK).
Qed.
Theorem tfim_wrapped :
  forall qr svd tol calls P, good_evolution qr svd tol calls P ->
  let Q := fst (project_all qr svd tol P calls) in let n := snd (project_all qr svd tol P calls) in
  let rows := p_rows P in let cols := p_cols P in let evolved := ProjSpec.acts rows cols calls (wave P) in
  forall D bqr bsvd, good_contraction D bqr bsvd rows cols -> bonds_at_most D Q ->
  let o := bmps_ops D bqr bsvd rows cols in
  forall (Rng : Type) (ker : kernel o Rng), honest ker ->
  spins P -> forall c a0 g l h holes, 2 <= rows -> 2 <= cols -> Forall (fits rows cols) l ->
  exists w lg, (r <- construct (o := o) (sampled Q) ker rows cols c a0 g ;; SweepModel.acts (o := o) rows cols (sampled Q) ker l (fst r)) = Ok (w, lg) /\
    (all_states rows cols (fun x => x < 2) (cfg w) -> evolved (cfg w) <> RtoC 0 ->
     exists w' r, tfim_obc (o := o) (fun z => z) h holes (sampled Q) ker rows cols w = Ok (w', r) /\
       e_total r = local_energy 2 (rows * cols) (H_tfim rows cols h) (row_by_row cols evolved) (flat rows cols (cfg w)) /\
       Forall (fun z => z = (RtoC (/ n) * evolved (cfg w))%C) (e_psis r)).
Proof.
  intros qr svd tol calls P (A1 & A2 & A3 & A4 & A5 & A6 & (m & A7 & A8) & A9) Q n rows cols evolved D bqr bsvd (B1 & B2 & mb & B3 & B4) BD o Rng ker HK. intros SP. exact (pipe_tfim qr svd tol A1 m A7 A2 calls P A3 A4 A5 A6 A8 A9 D B1 BD SP bqr bsvd mb B2 B3 B4 Rng ker HK).
Qed.
Theorem exact_sum_wrapped :
  forall qr svd tol calls P, good_evolution qr svd tol calls P ->
  let Q := fst (project_all qr svd tol P calls) in let n := snd (project_all qr svd tol P calls) in
  let rows := p_rows P in let cols := p_cols P in let evolved := ProjSpec.acts rows cols calls (wave P) in
  forall D bqr bsvd, good_contraction D bqr bsvd rows cols -> bonds_at_most D Q ->
  let o := bmps_ops D bqr bsvd rows cols in
  forall (Rng : Type) (ker : kernel o Rng), honest ker ->
  spins P -> forall (Idx : Type) jz jxy jz2 jxy2 p holes a0 gs configs dflt size (incr : list nat -> Idx -> C) measured eloc, 2 <= rows -> 2 <= cols -> 0 < size ->
  let H := H_xxz rows cols jz jxy jz2 jxy2 p in
  sector 2 (rows * cols) H configs -> (forall S, In S configs -> row_by_row cols evolved S <> RtoC 0) ->
  (forall S, In S configs -> exists w lg w' r,
     construct (o := o) (sampled Q) ker rows cols (conf cols S) a0 (gs S) = Ok (w, lg) /\ measured S = amp w /\
     j1j2_xxz_obc (o := o) (fun z => z) jz jxy jz2 jxy2 p holes (sampled Q) ker rows cols w = Ok (w', r) /\ eloc S = e_total r) ->
  exists g, exact_sum measured eloc incr configs dflt size = Ok (rayleigh configs H (row_by_row cols evolved), g) /\
    snd (rayleigh configs H (row_by_row cols evolved)) = 0%R.
Proof.
  intros qr svd tol calls P (A1 & A2 & A3 & A4 & A5 & A6 & (m & A7 & A8) & A9) Q n rows cols evolved D bqr bsvd (B1 & B2 & mb & B3 & B4) BD o Rng ker HK. intros SP Idx. exact (@pipe_exact_sum qr svd tol A1 m A7 A2 calls P A3 A4 A5 A6 A8 A9 D B1 BD SP bqr bsvd mb B2 B3 B4 Rng ker HK Idx).
Qed.
