(** The boundary MPS contraction of an open lattice. *)
From Coq Require Import List Arith Lia Bool Reals Permutation Lra.
From Verif Require Import Base Cplx ContractorModel ContractorSpec SweepModel SweepSpec UpdaterSpec EnergyModel EnergySpec SumModel SumSpec TrgTensor
  BmpsModel BmpsSpec BmpsMain.
Import ListNotations.
Local Open Scope nat_scope.

(** Common hypotheses, in words. [exact_qr], [svd_keeps m]: the decompositions of the tensor library multiply back to what they
    decompose, the SVD at least for matrices with at most m rows. [D ^ (max rows cols - 1) <= m]: the bond dimension of the
    boundary MPS, which a row multiplies by D, is never more than what is kept. *)

(** *** C75 *)
(** Whatever window of one row (column) the network is closed in, after growing boundary MPSs and environments from the
    four sides up to it, the result is the contraction of the network: the sum over all values of all bonds. *)
Theorem c75_trace_is_contraction :
  forall D, 1 <= D -> forall qr svd m, exact_qr qr -> svd_keeps m svd ->
  forall rows cols, D ^ (Nat.max rows cols - 1) <= m ->
  contraction_consistent (bmps_ops D qr svd rows cols) rows cols (open_sum D rows cols).
Proof. exact bmps_consistent. Qed.
Print Assumptions c75_trace_is_contraction.

(** Likewise for windows of two rows (columns). *)
Theorem c75_two_layer_trace_is_contraction :
  forall D, 1 <= D -> forall qr svd m, exact_qr qr -> svd_keeps m svd ->
  forall rows cols, D ^ (Nat.max rows cols - 1) <= m ->
  contraction_consistent2 (bmps_ops D qr svd rows cols) rows cols (open_sum D rows cols).
Proof. exact bmps_consistent2. Qed.
Print Assumptions c75_two_layer_trace_is_contraction.

(** A hole, multiplied with a tensor on its four legs, is the trace with that tensor in the place left out. *)
Theorem c75_hole_closes :
  forall D, 1 <= D -> forall qr svd m, exact_qr qr -> svd_keeps m svd ->
  forall rows cols, D ^ (Nat.max rows cols - 1) <= m ->
  plugs (bmps_ops D qr svd rows cols) rows cols plug_hole.
Proof. exact bmps_plugs. Qed.
Print Assumptions c75_hole_closes.

(** A component that has been constructed and has gone through any history holds the amplitude of its configuration in the
    wave function of the PEPS. *)
Theorem c75_amplitude_of_component :
  forall D, 1 <= D -> forall qr svd m, exact_qr qr -> svd_keeps m svd ->
  forall rows cols, D ^ (Nat.max rows cols - 1) <= m ->
  forall (Rng : Type) tps (ker : kernel (bmps_ops D qr svd rows cols) Rng), honest ker ->
  forall c a0 g l, 1 <= rows -> 2 <= cols -> Forall (fits rows cols) l ->
  exists w lg, (r <- construct tps ker rows cols c a0 g ;; acts rows cols tps ker l (fst r)) = Ok (w, lg) /\
    ready (bmps_ops D qr svd rows cols) rows cols w /\ projected (bmps_ops D qr svd rows cols) rows cols tps (cfg w) (tn w) /\
    amp w = peps_wave D rows cols tps (flat rows cols (cfg w)).
Proof. exact bmps_life. Qed.
Print Assumptions c75_amplitude_of_component.

(** From then on its energy is the local energy of the Hamiltonian in that wave function. *)
Theorem c75_xxz_local_energy :
  forall D, 1 <= D -> forall qr svd m, exact_qr qr -> svd_keeps m svd ->
  forall rows cols, D ^ (Nat.max rows cols - 1) <= m ->
  forall (Rng : Type) tps (ker : kernel (bmps_ops D qr svd rows cols) Rng), honest ker ->
  forall c a0 g l jz jxy jz2 jxy2 p holes, 2 <= rows -> 2 <= cols -> Forall (fits rows cols) l ->
  exists w lg, (r <- construct tps ker rows cols c a0 g ;; acts rows cols tps ker l (fst r)) = Ok (w, lg) /\
    (all_states rows cols (fun x => x < 2) (cfg w) -> peps_wave D rows cols tps (flat rows cols (cfg w)) <> RtoC 0 ->
     exists w' r, j1j2_xxz_obc (o := bmps_ops D qr svd rows cols) (fun z => z) jz jxy jz2 jxy2 p holes tps ker rows cols w = Ok (w', r) /\
       e_total r = local_energy 2 (rows * cols) (H_xxz rows cols jz jxy jz2 jxy2 p) (peps_wave D rows cols tps) (flat rows cols (cfg w)) /\
       Forall (fun z => z = peps_wave D rows cols tps (flat rows cols (cfg w))) (e_psis r)).
Proof. exact bmps_energy. Qed.
Print Assumptions c75_xxz_local_energy.

Theorem c75_tfim_local_energy :
  forall D, 1 <= D -> forall qr svd m, exact_qr qr -> svd_keeps m svd ->
  forall rows cols, D ^ (Nat.max rows cols - 1) <= m ->
  forall (Rng : Type) tps (ker : kernel (bmps_ops D qr svd rows cols) Rng), honest ker ->
  forall c a0 g l h holes, 2 <= rows -> 2 <= cols -> Forall (fits rows cols) l ->
  exists w lg, (r <- construct tps ker rows cols c a0 g ;; acts rows cols tps ker l (fst r)) = Ok (w, lg) /\
    (all_states rows cols (fun x => x < 2) (cfg w) -> peps_wave D rows cols tps (flat rows cols (cfg w)) <> RtoC 0 ->
     exists w' r, tfim_obc (o := bmps_ops D qr svd rows cols) (fun z => z) h holes tps ker rows cols w = Ok (w', r) /\
       e_total r = local_energy 2 (rows * cols) (H_tfim rows cols h) (peps_wave D rows cols tps) (flat rows cols (cfg w)) /\
       Forall (fun z => z = peps_wave D rows cols tps (flat rows cols (cfg w))) (e_psis r)).
Proof. exact bmps_tfim. Qed.
Print Assumptions c75_tfim_local_energy.

(** And its holes, one for each site, are the derivatives of the contraction with respect to the tensors of the sites: closed
    with any tensor they give the contraction of the network with that tensor at the site. *)
Theorem c75_holes_are_derivatives :
  forall D, 1 <= D -> forall qr svd m, exact_qr qr -> svd_keeps m svd ->
  forall rows cols, D ^ (Nat.max rows cols - 1) <= m ->
  forall (Rng : Type) tps (ker : kernel (bmps_ops D qr svd rows cols) Rng), honest ker ->
  forall c a0 g l jz jxy jz2 jxy2 p, 2 <= rows -> 2 <= cols -> Forall (fits rows cols) l ->
  exists w lg, (r <- construct tps ker rows cols c a0 g ;; acts rows cols tps ker l (fst r)) = Ok (w, lg) /\
    (all_states rows cols (fun x => x < 2) (cfg w) -> peps_wave D rows cols tps (flat rows cols (cfg w)) <> RtoC 0 ->
     exists w' r, j1j2_xxz_obc (o := bmps_ops D qr svd rows cols) (fun z => z) jz jxy jz2 jxy2 p true tps ker rows cols w = Ok (w', r) /\
       Permutation (map fst (e_holes r)) (all_sites rows cols) /\
       forall s hole, In (s, hole) (e_holes r) -> forall t,
         plug_hole hole t = open_sum D rows cols (upd2 (fun a b => tps a b (cfg w a b)) s t)).
Proof. exact bmps_holes. Qed.
Print Assumptions c75_holes_are_derivatives.

(** Decompositions as required exist for every m: one factor an identity, the other the tensor. *)
Example c75_exact_decompositions_exist : exact_qr plain_qr /\ forall m, svd_keeps m plain_svd.
Proof. split; [exact plain_qr_exact|exact plain_svd_keeps]. Qed.
(** a 4 x 5 lattice with bonds of dimension 3 *)
Example c75_hypotheses_met : exists m, 3 ^ (Nat.max 4 5 - 1) <= m /\ exact_qr plain_qr /\ svd_keeps m plain_svd.
Proof. exists 81. split; [cbn; lia|]. split; [exact plain_qr_exact|apply plain_svd_keeps]. Qed.
(** An updater as required, and two histories. *)
Example c75_honest : forall o, honest (o := o) (fun olds a tr (g : unit) => (Some (rev olds, tr (rev olds)), g)).
Proof. intros o olds a tr g ns b g' E. inversion E; subst. split; [apply rev_length|reflexivity]. Qed.
Example c75_histories : Forall (fits 4 5) [Do NNSweep; Do (Energy true true); ReplaceGlobalConfig (fun r c => (r + c) mod 2); Do TNNSweep].
Proof. repeat constructor; cbn; lia. Qed.
(** Two sites side by side, one bond: the contraction is the scalar product over it. *)
Example c75_two_sites : forall tn, open_sum 2 1 2 tn = (tn 0%nat 0%nat [0; 0; 0; 0]%nat * tn 0%nat 1%nat [0; 0; 0; 0]%nat + tn 0%nat 0%nat [0; 0; 1; 0]%nat * tn 0%nat 1%nat [1; 0; 0; 0]%nat)%C.
Proof. intros tn. unfold open_sum, bonds, grid. cbn -[Cmul Cadd RtoC C]. ring. Qed.
(** A wave function that is not zero: all tensors one at their first element; and all 0/1 configurations are admitted. *)
Example c75_amplitude_not_zero : peps_wave 2 1 2 (fun _ _ _ ix => if forallb (Nat.eqb 0) ix then RtoC 1 else RtoC 0) [0; 1] <> RtoC 0.
Proof. unfold peps_wave. rewrite c75_two_sites. intros E. apply (f_equal fst) in E. cbn in E. lra. Qed.
