(** C50, C51, C52: simple update and loop update. *)
From Coq Require Import List Arith Lia Bool Reals Lra Permutation.
From Verif Require Import Base Rsum UpdaterSpec EnergySpec LbModel SuModel SuSpec SuProofs SuTri SuRun.
Import ListNotations.
Local Open Scope nat_scope.

Ltac listed := repeat match goal with
  | |- context [pairs ?r ?c ?f] => let l := eval vm_compute in (pairs r c f) in change (pairs r c f) with l
  | |- context [all_sites ?r ?c] => let l := eval vm_compute in (all_sites r c) in change (all_sites r c) with l end.

(** C50: one sweep of the nearest-neighbour executor applies every bond term and every on-site term with
    total weight one, on open lattices at least two wide and on every torus. *)
Theorem c50_nearest_open F G rows cols : 2 <= rows -> 2 <= cols ->
  sweep_value F none G (nn_sweep rows cols false) = open_total rows cols F none G.
Proof. exact (nn_open F G rows cols). Qed.
Print Assumptions c50_nearest_open.
Theorem c50_nearest_torus F G rows cols :
  sweep_value F none G (nn_sweep rows cols true) = torus_total rows cols F none G.
Proof. exact (nn_torus F G rows cols). Qed.
Print Assumptions c50_nearest_torus.
Example c50_two_by_two : open_total 2 2 (fun _ _ => 1%R) none (fun _ _ => 10%R) = 44%R /\ length (nn_sweep 2 2 false) = 4.
Proof. split; [|reflexivity]. unfold open_total. listed. unfold rsum, none. cbn. lra. Qed.

(** C50: chains are excluded for a reason: the middle site of a chain of three gets weight 2/3. *)
Theorem c50_chain_refuted : exists G cols, 2 <= cols /\
  sweep_value none none G (nn_sweep 1 cols false) <> open_total 1 cols none none G.
Proof.
  exists (fun a _ => at_site (0, 1) a), 3. split; [lia|]. rewrite chain_onsite. unfold open_total. listed. unfold rsum, none, at_site. cbn. lra.
Qed.
Print Assumptions c50_chain_refuted.

(** C50: the next-nearest-neighbour executor applies every bond and every diagonal once (bond terms that do not
    change under reflection). *)
Theorem c50_diagonals_open F K G rows cols : symmetric F -> symmetric K -> 2 <= rows -> 2 <= cols ->
  sweep_value F K G (nnn_sweep rows cols false false) = open_total rows cols F K none.
Proof. exact (nnn_open F K G rows cols). Qed.
Print Assumptions c50_diagonals_open.
(** On the torus also the on-site term, if it is the same on every site ([onsite]: one is given). *)
Theorem c50_diagonals_torus F K G onsite rows cols : symmetric F -> symmetric K -> (forall a b, G a b = G a a) ->
  sweep_value F K G (nnn_sweep rows cols true onsite) = torus_total rows cols F K (if onsite then G else none).
Proof. exact (nnn_torus F K G onsite rows cols). Qed.
Print Assumptions c50_diagonals_torus.
(** C50: on open lattices the on-site weights are wrong even for a uniform term, and on the torus a term that
    varies from site to site is applied to the wrong site. *)
Theorem c50_onsite_open_refuted : exists G rows cols, 2 <= rows /\ 2 <= cols /\ (forall a b, G a b = G a a) /\
  sweep_value none none G (nnn_sweep rows cols false true) <> open_total rows cols none none G.
Proof.
  exists (fun a _ => at_site (1, 1) a), 3, 3. split; [lia|]. split; [lia|]. split; [reflexivity|]. rewrite nnn_onsite_open. unfold open_total. listed. unfold rsum, none, at_site. cbn. lra.
Qed.
Print Assumptions c50_onsite_open_refuted.
Theorem c50_onsite_torus_refuted : exists G rows cols, 2 <= rows /\ 2 <= cols /\
  sweep_value none none G (nnn_sweep rows cols true true) <> torus_total rows cols none none G.
Proof.
  exists (fun a o => Rmult (at_site (1, 1) a) (at_site (1, 1) o)), 3, 3. split; [lia|]. split; [lia|]. rewrite nnn_onsite_torus. unfold torus_total. listed. unfold rsum, none, at_site. cbn. lra.
Qed.
Print Assumptions c50_onsite_torus_refuted.
Example c50_symmetric : symmetric (fun a b => INR (fst a + fst b + snd a * snd b)).
Proof. intros a b. f_equal. lia. Qed.

(** C50: each half of a triangular-lattice sweep applies every bond of the triangular lattice once. *)
Theorem c50_triangular F K G rows cols : symmetric F -> symmetric K -> 1 <= rows -> 1 <= cols ->
  sweep_value F K G (triangle_first rows cols) = triangular_total rows cols F K /\
  sweep_value F K G (triangle_second rows cols) = triangular_total rows cols F K.
Proof. exact (triangle_halves F K G rows cols). Qed.
Print Assumptions c50_triangular.
Example c50_triangular_bonds : triangular_total 3 3 (fun _ _ => 1%R) (fun _ _ => 1%R) = 16%R.
Proof. unfold triangular_total. listed. unfold rsum. cbn. lra. Qed.

(** C51: a run with an advanced stop makes at most [steps] sweeps, reports convergence exactly when some sweep
    ends [patience] settled ones, and stops at the first such sweep. *)
Theorem c51_stops c steps sweep s : update_run (Some c) steps sweep = Ok s ->
  s_executed s <= steps /\
  (s_converged s = true <-> exists k, k < steps /\ converged_at c sweep k) /\
  (s_converged s = true -> 1 <= s_executed s /\ converged_at c sweep (s_executed s - 1) /\ forall k, k < s_executed s - 1 -> ~ converged_at c sweep k) /\
  (s_converged s = false -> s_executed s = steps).
Proof. exact (run_stops c steps sweep s). Qed.
Print Assumptions c51_stops.
(** Without one it makes exactly [steps] sweeps. *)
Theorem c51_plain steps sweep : exists s, update_run None steps sweep = Ok s /\ s_executed s = steps /\ s_converged s = false.
Proof. exact (run_plain steps sweep). Qed.
Print Assumptions c51_plain.
(** One metric per sweep, in order, with its energy and whether the bond dimension changed; the final energy is
    that of the last sweep. *)
Theorem c51_metrics cfg steps sweep s : update_run cfg steps sweep = Ok s ->
  s_metrics s = map (fun k => (k, o_energy (sweep k), changed sweep k)) (seq 0 (s_executed s)) /\
  s_final s = match s_executed s with O => None | S j => Some (o_energy (sweep j)) end.
Proof. exact (run_metrics cfg steps sweep s). Qed.
Print Assumptions c51_metrics.
(** A run is refused exactly for invalid settings, before any sweep. *)
Theorem c51_refused cfg steps sweep : update_run cfg steps sweep = Fail Throw <-> exists c, cfg = Some c /\ invalid c.
Proof. exact (run_valid cfg steps sweep). Qed.
Print Assumptions c51_refused.
(** A run whose second sweep repeats the first one stops there, with patience one. *)
Example c51_stationary : converged_at (mkStop 0 0 0 1 1) (fun _ => mkOut 5 [[1%R; 2%R]; [3%R]] 1 2) 1 /\
  ~ converged_at (mkStop 0 0 0 1 1) (fun _ => mkOut 5 [[1%R; 2%R]; [3%R]] 1 2) 0.
Proof.
  split; [|intros [H _]; simpl in H; lia]. split; [simpl; lia|]. intros j Hj. simpl in Hj. assert (j = 1) by lia. subst j.
  unfold settled. simpl Nat.sub. cbn [o_energy o_lambdas abs_tol rel_tol lambda_tol min_steps]. split; [lia|]. split; [simpl; lia|].
  split; [left; replace (5 - 5)%R with 0%R by lra; rewrite Rabs_R0; lra|]. split; [reflexivity|]. intros i Hi.
  assert (Q : forall a, bond_close 0 a a).
  { intros a. split; [reflexivity|]. unfold length_of. rewrite rsum_map, (rsum_zero _ (seq 0 (length a))), sqrt_0 by (intros; lra). lra. }
  apply Q.
Qed.

(** C52: the four passes of a loop-update sweep visit every plaquette exactly once, ... *)
Theorem c52_covers rows cols pbc : Permutation (concat (loop_passes rows cols pbc)) (plaquettes rows cols pbc).
Proof. exact (passes_cover rows cols pbc). Qed.
Print Assumptions c52_covers.
(** ... each projection acts on the four corners of its plaquette, ... *)
Theorem c52_corners rows cols pbc p : In p (plaquettes rows cols pbc) -> loop_sites rows cols pbc p = corners_of rows cols pbc p.
Proof. exact (loop_corners rows cols pbc p). Qed.
Print Assumptions c52_corners.
(** ... and two plaquettes of one pass that have a site in common are the same, whenever the executor could be
    constructed. *)
Theorem c52_disjoint rows cols pbc grows gcols pass p q s : loop_construct rows cols pbc grows gcols = Ok tt ->
  In pass (loop_passes rows cols pbc) -> In p pass -> In q pass -> In s (corners_of rows cols pbc p) -> In s (corners_of rows cols pbc q) -> p = q.
Proof. exact (fun H => pass_disjoint rows cols pbc pass p q s (construct_even rows cols pbc grows gcols H)). Qed.
Print Assumptions c52_disjoint.
(** The check in the constructor is needed: on a 3 x 3 torus plaquettes of one pass overlap. *)
Example c52_odd : loop_construct 3 3 true 3 3 = Fail Throw /\ In (0, 0) (loop_pass 3 3 true 0 0) /\ In (0, 2) (loop_pass 3 3 true 0 0) /\
  In (0, 0) (corners_of 3 3 true (0, 2)).
Proof. cbn. tauto. Qed.
Example c52_four : loop_construct 4 4 true 4 4 = Ok tt /\ loop_construct 3 4 false 2 3 = Ok tt /\ loop_passes 3 4 false = [[(0, 0); (0, 2)]; [(1, 0); (1, 2)]; [(0, 1)]; [(1, 1)]].
Proof. repeat split. Qed.
