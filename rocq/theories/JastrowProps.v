(** Properties of the Jastrow factor. *)
From Coq Require Import List Arith Bool Reals.
From Verif Require Import Base ContractorModel SweepModel Cplx JastrowModel JastrowSpec JastrowProofs.
Import ListNotations.
Local Open Scope nat_scope.

(** *** C19 *)
(** The packed index is a bijection from unordered pairs of distinct sites to the slots. *)
Theorem c19_packing_bijective : forall n,
  (forall i j, i < j -> j < n -> exists k, packed_upper_index n i j = Ok k /\ k < n * (n - 1) / 2) /\
  (forall i j i' j' k, i < j -> j < n -> i' < j' -> j' < n ->
     packed_upper_index n i j = Ok k -> packed_upper_index n i' j' = Ok k -> i = i' /\ j = j') /\
  (forall k, k < n * (n - 1) / 2 -> exists i j, i < j /\ j < n /\ packed_upper_index n i j = Ok k).
Proof. exact packing_bijective. Qed.
Print Assumptions c19_packing_bijective.

(** After any history of stores a parameter reads the last value stored for its pair, in either
    order of the sites, and zero if there is none; the diagonal reads zero. *)
Theorem c19_reads_last_store : forall ly lx (h : list (nat * nat * R)),
  (forall a b x, In (a, b, x) h -> a < ly * lx /\ b < ly * lx /\ a <> b) ->
  exists j, fold_left (fun acc s => j <- acc;; jastrow_set j (fst (fst s)) (snd (fst s)) (snd s)) h (Ok (jastrow_new ly lx)) = Ok j /\
    forall a b, a < ly * lx -> b < ly * lx ->
      jastrow_get j a b =
      Ok (match find (fun s => ((a =? fst (fst s)) && (b =? snd (fst s))) || ((a =? snd (fst s)) && (b =? fst (fst s)))) (rev h) with
          | Some s => snd s
          | None => 0%R
          end).
Proof. exact reads_last_store. Qed.
Print Assumptions c19_reads_last_store.

Theorem c19_fill_sets_every_pair : forall ly lx f,
  exists j, jastrow_fill (jastrow_new ly lx) f = Ok j /\
    forall a b, a < b -> b < ly * lx -> jastrow_get j a b = Ok (f a b) /\ jastrow_get j b a = Ok (f a b).
Proof. exact fill_sets. Qed.
Print Assumptions c19_fill_sets_every_pair.

(** *** C18 *)
(** For a hop between two sites the ratio used by the sampler and by the energy solver is the ratio
    of the Jastrow factors times exp(v_12): the pair term of the two sites is kept. *)
Theorem c18_ratio_off_by_pair_term : forall (j : jastrow) (v : nat -> nat -> R),
  sized j -> (forall a b, a < j_n j -> b < j_n j -> jastrow_get j a b = Ok (v a b)) ->
  forall density s1 s2, inlat j s1 -> inlat j s2 -> s1 <> s2 ->
  (density (fst s1) (snd s1) = 0 /\ density (fst s2) (snd s2) = 1) \/ (density (fst s1) (snd s1) = 1 /\ density (fst s2) (snd s2) = 0) ->
  updater_jastrow_ratio j density s1 s2 =
  Ok (jastrow_factor (j_n j) v (exchanged (linear_density j density) (lin j s1) (lin j s2)) / jastrow_factor (j_n j) v (linear_density j density)
      * exp (v (lin j s1) (lin j s2)))%R.
Proof. exact ratio_value. Qed.
Print Assumptions c18_ratio_off_by_pair_term.
Theorem c18_ratio_exact_iff_no_pair_term : forall (j : jastrow) (v : nat -> nat -> R),
  sized j -> (forall a b, a < j_n j -> b < j_n j -> jastrow_get j a b = Ok (v a b)) ->
  forall density s1 s2, inlat j s1 -> inlat j s2 -> s1 <> s2 ->
  (density (fst s1) (snd s1) = 0 /\ density (fst s2) (snd s2) = 1) \/ (density (fst s1) (snd s1) = 1 /\ density (fst s2) (snd s2) = 0) ->
  updater_jastrow_ratio j density s1 s2 =
  Ok (jastrow_factor (j_n j) v (exchanged (linear_density j density) (lin j s1) (lin j s2)) / jastrow_factor (j_n j) v (linear_density j density))%R
  <-> v (lin j s1) (lin j s2) = 0%R.
Proof. exact exact_iff. Qed.
Print Assumptions c18_ratio_exact_iff_no_pair_term.
Theorem c18_solver_uses_same_ratio : forall (j : jastrow) (v : nat -> nat -> R),
  (forall a b, a < j_n j -> b < j_n j -> jastrow_get j a b = Ok (v a b)) ->
  forall density s1 s2 k1 k2, inlat j s1 -> inlat j s2 -> s1 <> s2 -> (k1 = 2 /\ k2 < 2) \/ (k1 < 2 /\ k2 = 2) ->
  density (fst s1) (snd s1) = (if k1 =? 2 then 0 else 1) -> density (fst s2) (snd s2) = (if k2 =? 2 then 0 else 1) ->
  solver_jastrow_ratio j density s1 s2 k1 = updater_jastrow_ratio j density s1 s2.
Proof. exact solver_ratio. Qed.
Print Assumptions c18_solver_uses_same_ratio.
(** The acceptance rule built on it does not satisfy detailed balance for the dressed weight (equal
    PEPS amplitudes): a chain of three sites. *)
Theorem c18_detailed_balance_refuted : exists j v density s1 s2 r r',
  sized j /\ (forall a b, a < j_n j -> b < j_n j -> jastrow_get j a b = Ok (v a b)) /\ inlat j s1 /\ inlat j s2 /\
  updater_jastrow_ratio j density s1 s2 = Ok r /\
  updater_jastrow_ratio j (upd2 (upd2 density s1 (density (fst s2) (snd s2))) s2 (density (fst s1) (snd s1))) s1 s2 = Ok r' /\
  let before := jastrow_factor (j_n j) v (linear_density j density) in
  let after := jastrow_factor (j_n j) v (exchanged (linear_density j density) (lin j s1) (lin j s2)) in
  (before * before * Rmin 1 (r * r) <> after * after * Rmin 1 (r' * r'))%R.
Proof. exact balance_fails. Qed.
Print Assumptions c18_detailed_balance_refuted.
(** Moves keep the densities equal to the occupations of the configuration, and are defined there. *)
Theorem c18_densities_follow_configuration : forall j v psi_a psi_b u s1 s2 cfg density, sized j ->
  (forall a b, a < j_n j -> b < j_n j -> jastrow_get j a b = Ok (v a b)) -> inlat j s1 -> inlat j s2 ->
  (forall r k, density r k = if cfg r k =? 2 then 0 else 1) ->
  exists acc cfg' density', jastrow_tj_move j psi_a psi_b u s1 s2 (cfg, density) = Ok (acc, (cfg', density')) /\
    (forall r k, density' r k = if cfg' r k =? 2 then 0 else 1).
Proof. exact move_keeps. Qed.
Print Assumptions c18_densities_follow_configuration.
(** The hypotheses hold for any lattice and any symmetric couplings. *)
Example c18_hypotheses_hold : forall ly lx f, exists j, sized j /\ j_ly j = ly /\ j_lx j = lx /\
  forall a b, a < b -> b < ly * lx -> jastrow_get j a b = Ok (f a b) /\ jastrow_get j b a = Ok (f a b).
Proof. exact jastrow_exists. Qed.
