(** Exact summation: the enumeration is complete (C20), the result does not depend on the number of
    ranks (C21), energy and gradient are the Rayleigh quotient and its derivative (C67). *)
From Coq Require Import List Arith Lia Lra Reals Permutation.
From Verif Require Import Base ContractorModel SweepModel Cplx UpdaterSpec EnergySpec ExactModel ExactSpec ExactEnum ExactProofs ExactMeasure.
Import ListNotations.
Local Open Scope nat_scope.

(** C20: every arrangement of the given occupations is generated exactly once, and nothing else. *)
Theorem c20_permutations_complete : forall counts lx ly,
  fold_right Nat.add 0 counts = ly * lx ->
  exists cs fuel0, (forall fuel, fuel0 <= fuel -> all_permutation_configs fuel counts lx ly = Some (Ok cs)) /\
    NoDup (map (flat ly lx) cs) /\
    (forall v, In v (map (flat ly lx) cs) <-> length v = ly * lx /\ forall k, count_occ Nat.eq_dec v k = nth k counts 0).
Proof. exact permutation_configs. Qed.
Print Assumptions c20_permutations_complete.
Theorem c20_binary_complete : forall lx ly, lx * ly < 64 ->
  exists cs, all_binary_configs lx ly = Ok cs /\ NoDup (map (flat ly lx) cs) /\
    (forall v, In v (map (flat ly lx) cs) <-> length v = ly * lx /\ Forall (fun x => x < 2) v).
Proof. exact binary_configs. Qed.
Print Assumptions c20_binary_complete.
Theorem c20_binary_too_large_throws : forall lx ly, 64 <= lx * ly -> all_binary_configs lx ly = Fail Throw.
Proof. exact binary_too_large. Qed.
Print Assumptions c20_binary_too_large_throws.
Example c20_two_of_each : option_map (fun r => match r with Ok cs => map (flat 2 2) cs | Fail _ => [] end) (all_permutation_configs 7 [2; 2] 2 2)
  = Some [[0;0;1;1]; [0;1;0;1]; [0;1;1;0]; [1;0;0;1]; [1;0;1;0]; [1;1;0;0]].
Proof. vm_compute. reflexivity. Qed.
Example c20_binary_two : match all_binary_configs 2 1 with Ok cs => map (flat 1 2) cs | Fail _ => [] end = [[0;0]; [1;0]; [0;1]; [1;1]].
Proof. vm_compute. reflexivity. Qed.

(** C21: for every number of ranks the master returns the weighted mean of the local energy and the
    covariance-type gradient of the whole list; only a zero total weight is an error. *)
Theorem c21_energy_rank_independent : forall (Conf Idx : Type) (amp eloc : Conf -> C) (incr : Conf -> Idx -> C) configs dflt size,
  0 < size ->
  let W := total_weight amp configs in
  let E := weighted_average amp configs eloc in
  (W = 0%R -> exact_sum amp eloc incr configs dflt size = Fail UB) /\
  (W <> 0%R -> exists g, exact_sum amp eloc incr configs dflt size = Ok (E, g) /\
     forall k, g k = (sumC (fun c => (Cconj (eloc c) - Cconj E) * incr c k) configs * Cinv (RtoC W))%C).
Proof. intros Conf Idx. exact exact_sum_value. Qed.
Print Assumptions c21_energy_rank_independent.
(** The measurer, when every configuration yields the same keys with the same sizes. *)
Theorem c21_measurer_rank_independent : forall (Conf : Type) (amp : Conf -> C) (obs : Conf -> amap) configs dflt ks len,
  NoDup ks ->
  (forall c, In c configs -> Permutation ks (map fst (obs c))) ->
  (forall c k v, In c configs -> In (k, v) (obs c) -> length v = len k) ->
  forall size, 0 < size -> (0 < total_weight amp configs)%R ->
  exists r, exact_measure amp obs configs dflt size = Ok r /\
    (forall k, ~ In k ks -> find_key k r = None) /\
    (forall k, In k ks -> find_key k r =
       Some (map (fun j => weighted_average amp configs (fun c => nth j (get_key k (obs c)) (RtoC 0))) (seq 0 (len k)))).
Proof. intros Conf. exact exact_measure_ok. Qed.
Print Assumptions c21_measurer_rank_independent.
(** Without that, a key missing from the master's configurations is lost on two ranks and kept on one. *)
Theorem c21_differing_keys_rank_dependent_refuted : exists (amp : bool -> C) (obs : bool -> amap) configs,
  (forall c, NoDup (map fst (obs c))) /\
  (exists r v, exact_measure amp obs configs true 1 = Ok r /\ find_key 5 r = Some v) /\
  (exists r, exact_measure amp obs configs true 2 = Ok r /\ find_key 5 r = None).
Proof. exact differing_keys. Qed.
Print Assumptions c21_differing_keys_rank_dependent_refuted.
Example c21_stripes : map (stripe 7 3) [0; 1; 2] = [[0; 3; 6]; [1; 4]; [2; 5]].
Proof. reflexivity. Qed.
Example c21_positive_weight : total_weight (fun b : bool => RtoC (if b then 1 else 2)) [true; false] = 5%R.
Proof. unfold total_weight, Cnorm2; simpl; ring. Qed.

(** C67: on a set of configurations closed under a Hermitian H, with no vanishing amplitude, the
    evaluator fed the local energies and the derivatives returns the Rayleigh quotient, a real
    number, and twice the real part of the gradient contracted with a direction is the derivative
    of the Rayleigh quotient along it. *)
Theorem c67_energy_and_gradient : forall (Idx : Type) dim n H configs dflt (ks : list Idx)
    (psi : R -> list nat -> C) (dpsi : list nat -> Idx -> C) (delta : Idx -> C) size,
  0 < size -> sector dim n H configs -> hermitian configs H ->
  (forall S, In S configs -> psi 0%R S <> RtoC 0) ->
  (forall S, In S configs -> c_derivative (fun t => psi t S) 0 (sumC (fun k => delta k * dpsi S k)%C ks)) ->
  exists g, exact_sum (psi 0%R) (local_energy dim n H (psi 0%R)) (fun S k => (psi 0%R S * Cconj (dpsi S k))%C) configs dflt size
              = Ok (rayleigh configs H (psi 0%R), g) /\
    snd (rayleigh configs H (psi 0%R)) = 0%R /\
    derivable_pt_lim (fun t => fst (rayleigh configs H (psi t))) 0 (2 * fst (sumC (fun k => Cconj (delta k) * g k)%C ks))%R.
Proof. intros Idx. exact evaluator_rayleigh. Qed.
Print Assumptions c67_energy_and_gradient.
(** A spin flip on one site, both amplitudes moving. *)
Example c67_hypotheses_hold :
  let H : operator := fun S S' => match S, S' with [a], [b] => if Nat.eqb a b then RtoC 0 else RtoC 1 | _, _ => RtoC 0 end in
  sector 2 1 H (all_configs 2 1) /\ hermitian (all_configs 2 1) H /\
  (forall S, In S (all_configs 2 1) -> c_derivative (fun t => match S with [0] => RtoC (1 + t) | _ => RtoC 2 end) 0
     (sumC (fun k : unit => RtoC 1 * match S with [0] => RtoC 1 | _ => RtoC 0 end)%C [tt])).
Proof. exact one_spin_sector. Qed.
