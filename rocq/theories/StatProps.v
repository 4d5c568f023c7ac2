(** Monte-Carlo gradient (C22), binned statistics (C23), samples per rank (C24), rescue of invalid
    configurations (C25), normalisation (C68). *)
From Coq Require Import List Arith Lia Lra Reals.
From Verif Require Import Base Cplx Rsum StatModel StatSpec StatProofs StatMain.
Import ListNotations.
Local Open Scope nat_scope.

(** C22: the returned gradient is the covariance over all samples of all ranks plus a term that comes
    from the energy being a binned mean; the mean of O*, the conjugated
    logarithmic derivative of the amplitude, is over all samples. The holes are conjugated derivatives (C66). *)
Theorem c22_gradient_is_covariance_plus_binning_error :
  forall (Site Elem : Type) n (ranks : list (list (@sample Site Elem))) r,
  evaluate n ranks = Ok r -> ranks <> [] -> Forall (fun l => length l = n) ranks ->
  forall p, let E := average s_energy (concat ranks) in
  let O_star := fun s => Cconj (log_derivative (s_conf s) (s_amp s) (fun x e => Cconj (s_hole s x e)) p) in
  g_o_mean r p = average O_star (concat ranks) /\
  g_gradient r p =
    (average (fun s => Cconj (s_energy s) * O_star s) (concat ranks) - Cconj E * average O_star (concat ranks)
     + Cconj (E - g_energy r) * average O_star (concat ranks))%C.
Proof. intros Site Elem. exact gradient_covariance_claim. Qed.
Print Assumptions c22_gradient_is_covariance_plus_binning_error.
(** It is exactly the covariance when the bin size divides the number of samples. *)
Theorem c22_gradient_exact_for_whole_bins : forall (Site Elem : Type) n b (ranks : list (list (@sample Site Elem))) r,
  evaluate n ranks = Ok r -> ranks <> [] -> Forall (fun l => length l = n) ranks ->
  1 <= b -> b * b <= n < S b * S b -> Nat.divide b n ->
  forall p, let O_star := fun s => Cconj (log_derivative (s_conf s) (s_amp s) (fun x e => Cconj (s_hole s x e)) p) in
  g_gradient r p = (average (fun s => Cconj (s_energy s) * O_star s) (concat ranks)
                              - Cconj (average s_energy (concat ranks)) * average O_star (concat ranks))%C.
Proof. intros Site Elem. exact gradient_exact_claim. Qed.
Print Assumptions c22_gradient_exact_for_whole_bins.
(** In general it is not. *)
Theorem c22_gradient_is_covariance_refuted : exists (ranks : list (list (@sample unit unit))) r p,
  evaluate 5 ranks = Ok r /\ ranks <> [] /\ Forall (fun l => length l = 5) ranks /\
  let O_star := fun s => Cconj (log_derivative (s_conf s) (s_amp s) (fun x e => Cconj (s_hole s x e)) p) in
  g_gradient r p <> (average (fun s => Cconj (s_energy s) * O_star s) (concat ranks)
                     - Cconj (average s_energy (concat ranks)) * average O_star (concat ranks))%C.
Proof. exact dropped_sample_claim. Qed.
Print Assumptions c22_gradient_is_covariance_refuted.
(** Adding a constant to every local energy shifts the energy and changes nothing else. *)
Theorem c22_constant_shift : forall (Site Elem : Type) n c (ranks : list (list (@sample Site Elem))) r,
  evaluate n ranks = Ok r -> ranks <> [] -> Forall (fun l => length l = n) ranks ->
  exists r', evaluate n (map (map (fun s => mkSample (s_energy s + c)%C (s_amp s) (s_conf s) (s_hole s))) ranks) = Ok r' /\
    g_energy r' = (g_energy r + c)%C /\ g_error r' = g_error r /\ forall p, g_gradient r' p = g_gradient r p.
Proof. intros Site Elem. exact gradient_shift. Qed.
Print Assumptions c22_constant_shift.
(** The evaluation is defined exactly when there are samples and no amplitude vanishes. *)
Theorem c22_defined : forall (Site Elem : Type) n (ranks : list (list (@sample Site Elem))),
  (exists r, evaluate n ranks = Ok r) <-> n <> 0 /\ forall l s, In l ranks -> In s l -> s_amp s <> RtoC 0.
Proof. intros Site Elem. exact evaluate_defined. Qed.
Print Assumptions c22_defined.
(** The field called gradient_norm holds the square of the norm. *)
Theorem c22_gradient_norm_is_squared : forall (Site Elem : Type) (params : list (@param Site Elem)) g,
  gradient_norm params g = ((sqrt (rsum (fun p => Cnorm2 (g p)) params)) * (sqrt (rsum (fun p => Cnorm2 (g p)) params)))%R.
Proof. intros Site Elem. exact norm_squared. Qed.
Print Assumptions c22_gradient_norm_is_squared.
Example c22_case : exists r, evaluate 1 [[@mkSample unit unit (RtoC 3) (RtoC 2) (fun _ => 1) (fun _ _ => RtoC 4)]] = Ok r.
Proof. apply evaluate_defined. split; [discriminate|]. intros l s [<-|[]] [<-|[]]. intros Q. apply (f_equal fst) in Q. simpl in Q. lra. Qed.

(** C23: with N samples on each rank and b the integer square root of N, the mean is the plain mean of
    the samples in whole bins, and the error that of the bin means; one bin in all: infinite. *)
Theorem c23_binned_mean_and_error : forall N b ranks bss,
  1 <= b -> b * b <= N < S b * S b -> ranks <> [] -> Forall (fun l => length l = N) ranks ->
  Forall2 (blocks b) ranks bss ->
  fst (binned ranks 0) = average (fun x => x) (concat (concat bss)) /\
  (length (concat bss) = 1 -> snd (binned ranks 0) = ErrInf) /\
  (length (concat bss) <> 1 -> exists e, snd (binned ranks 0) = Err e /\ (0 <= e)%R /\ (e * e = error2 (map (average (fun x => x)) (concat bss)))%R).
Proof. exact binned_value. Qed.
Print Assumptions c23_binned_mean_and_error.
Theorem c23_bins_exist : forall b (l : list C), 0 < b -> exists bs, blocks b l bs.
Proof. exact (@blocks_exist C). Qed.
Print Assumptions c23_bins_exist.
Theorem c23_fewer_than_a_bin_dropped : forall b (l : list C) bs, blocks b l bs -> exists rest, l = concat bs ++ rest /\ length rest < b.
Proof. exact (@blocks_prefix C). Qed.
Print Assumptions c23_fewer_than_a_bin_dropped.
Theorem c23_constant_shift : forall c ranks, concat ranks <> [] ->
  binned (map (map (fun x => (x + c)%C)) ranks) 0 = ((fst (binned ranks 0) + c)%C, snd (binned ranks 0)).
Proof. exact binned_shift. Qed.
Print Assumptions c23_constant_shift.
(** Only the master holds the result. *)
Theorem c23_other_ranks_hold_nothing : forall ranks r, r <> 0 -> binned ranks r = (RtoC 0, Err 0).
Proof. exact binned_other. Qed.
Print Assumptions c23_other_ranks_hold_nothing.
(** One number per rank: the two ways of computing the error agree and the square root is defined. *)
Theorem c23_single_value_per_rank : forall l, 2 <= length l ->
  exists e, gather_single l = (average (fun x => x) l, Err e) /\ (0 <= e)%R /\ (e * e = error2 l)%R.
Proof. exact single_value. Qed.
Print Assumptions c23_single_value_per_rank.
(** Lists of numbers: position by position. *)
Theorem c23_lists_per_rank : forall (data : list (list C)) size, 2 <= length data -> Forall (fun d => length d = size) data ->
  length (fst (gather_list data)) = size /\ length (snd (gather_list data)) = size /\
  forall j, j < size -> let column := map (fun d => nth j d (RtoC 0)) data in
    nth j (fst (gather_list data)) (RtoC 0) = average (fun x => x) column /\
    exists e, nth j (snd (gather_list data)) ErrNaN = Err e /\ (0 <= e)%R /\ (e * e = error2 column)%R.
Proof. exact lists_value. Qed.
Print Assumptions c23_lists_per_rank.
Example c23_case : blocks 2 [RtoC 1; RtoC 2; RtoC 3; RtoC 4; RtoC 5] [[RtoC 1; RtoC 2]; [RtoC 3; RtoC 4]] /\ 2 * 2 <= 5 < 3 * 3.
Proof.
  split; [|lia]. apply (blocks_cons 2 [RtoC 1; RtoC 2] [RtoC 3; RtoC 4; RtoC 5]); [reflexivity|].
  apply (blocks_cons 2 [RtoC 3; RtoC 4] [RtoC 5]); [reflexivity|]. constructor. simpl. lia.
Qed.

(** C24 *)
Theorem c24_samples_reached : forall total size, 0 < size ->
  total <= size * samples_per_rank total size < total + size /\
  forall s, total <= size * s -> samples_per_rank total size <= s.
Proof. exact samples_ok. Qed.
Print Assumptions c24_samples_reached.
Example c24_case : samples_per_rank 10 4 = 3. Proof. reflexivity. Qed.

(** C25: valid ranks keep everything; invalid ranks take the configuration of the lowest valid rank
    and must warm up again. *)
Theorem c25_rescue : forall (Conf : Type) (amp : nat -> Conf -> option R) lo hi enabled (ranks ranks' : list (@rank_state Conf)),
  ensure_valid amp lo hi enabled ranks = Ok ranks' ->
  length ranks' = length ranks /\
  (forall i d, i < length ranks -> local_valid lo hi (nth i ranks d) = true -> nth i ranks' d = nth i ranks d) /\
  (forall i d, i < length ranks -> local_valid lo hi (nth i ranks d) = false ->
     exists s a, s < length ranks /\ local_valid lo hi (nth s ranks d) = true /\ (forall t, t < s -> local_valid lo hi (nth t ranks d) = false) /\
       amp i (k_conf (nth s ranks d)) = Some a /\
       nth i ranks' d = mkRank (k_conf (nth s ranks d)) a true false).
Proof. intros Conf. exact rescue_result. Qed.
Print Assumptions c25_rescue.
Theorem c25_abort : forall (Conf : Type) (amp : nat -> Conf -> option R) lo hi enabled (ranks : list (@rank_state Conf)),
  ranks <> [] ->
  (forall k, In k ranks -> local_valid lo hi k = false) \/ (enabled = false /\ exists k, In k ranks /\ local_valid lo hi k = false) ->
  ensure_valid amp lo hi enabled ranks = Fail Throw.
Proof. intros Conf. exact rescue_abort. Qed.
Print Assumptions c25_abort.
(** With the same state on every rank all amplitudes are legal afterwards. *)
Theorem c25_all_valid_afterwards : forall (Conf : Type) (amp : nat -> Conf -> option R) lo hi enabled (ranks ranks' : list (@rank_state Conf)),
  (forall i j c, amp i c = amp j c) ->
  (forall i k, nth_error ranks i = Some k -> k_init k = true -> amp i (k_conf k) = Some (k_amp k)) ->
  ensure_valid amp lo hi enabled ranks = Ok ranks' -> forall k, In k ranks' -> local_valid lo hi k = true.
Proof. intros Conf. exact rescue_valid. Qed.
Print Assumptions c25_all_valid_afterwards.
(** The rescued amplitude is not checked again: a rank holding another state can keep an illegal one. *)
Theorem c25_validity_when_states_differ_refuted : exists (amp : nat -> bool -> option R) ranks ranks' k,
  ensure_valid amp 0 1 true ranks = Ok ranks' /\ In k ranks' /\ local_valid 0 1 k = false /\
  (forall i k, nth_error ranks i = Some k -> k_init k = true -> amp i (k_conf k) = Some (k_amp k)).
Proof. exact rescue_unchecked. Qed.
Print Assumptions c25_validity_when_states_differ_refuted.

(** C68: after normalisation the largest magnitude over the ranks is one, when some amplitude does
    not vanish; an amplitude of a network scaled by s on every site is s^sites times the amplitude. *)
Theorem c68_largest_amplitude_is_one : forall amps sites, 0 < sites -> (exists a, In a amps /\ a <> RtoC 0) ->
  exists s, site_scale amps sites = Ok s /\ (0 < s)%R /\
    (forall a, In a amps -> (sqrt (Cnorm2 (RtoC (s ^ sites) * a)%C) <= 1)%R) /\
    (exists a, In a amps /\ sqrt (Cnorm2 (RtoC (s ^ sites) * a)%C) = 1%R).
Proof. exact normalisation. Qed.
Print Assumptions c68_largest_amplitude_is_one.
Example c68_case : exists a, In a [RtoC 0; RtoC 3] /\ a <> RtoC 0.
Proof. exists (RtoC 3). split; [right; left; reflexivity|]. intros Q. apply (f_equal fst) in Q. simpl in Q. lra. Qed.
