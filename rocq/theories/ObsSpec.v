(** Spin-1/2 observables: ladder operators, values of S^z, packed pairs. *)
From Coq Require Import List Arith Reals.
From Verif Require Import Base ContractorModel SweepModel SweepSpec Cplx UpdaterSpec EnergySpec ExactSpec ObsModel.
Import ListNotations.

(** <a|S+|b> and <a|S-|b>; 0 is down, 1 is up *)
Definition Sp : operator := one_site (fun a b => match a, b with 1, 0 => RtoC 1 | _, _ => RtoC 0 end).
Definition Sm : operator := one_site (fun a b => match a, b with 0, 1 => RtoC 1 | _, _ => RtoC 0 end).
(** <S|A^dagger|S'> *)
Definition adjoint (A : operator) : operator := fun S S' => Cconj (A S' S).
(** A on the site [i], B on the site [j] *)
Definition two_point (cols : nat) (A : operator) (i : site) (B : operator) (j : site) : operator :=
  on_sites [index cols i; index cols j] (tensor A B).

(** Value of S^z in a state. *)
Definition sz_of (a : nat) : R := if a =? 1 then (1 / 2)%R else (- (1 / 2))%R.
(** Position of the pair i <= j < n in a packed upper triangle: monte_carlo_peps_measurer_impl.h
    documents  i * n - i * (i - 1) / 2 + (j - i). *)
Definition packed_index (n i j : nat) : nat := i * n - i * (i - 1) / 2 + (j - i).

(** The pair of sites a bond energy is filed under. *)
Definition bond_ends (v : visit) : site * site :=
  match v with
  | VBond HORIZONTAL (r, c) => ((r, c), (r, c + 1))
  | VBond VERTICAL (r, c) => ((r, c), (r + 1, c))
  | VDiag LEFTUP_TO_RIGHTDOWN (r, c) => ((r, c), (r + 1, c + 1))
  | VDiag LEFTDOWN_TO_RIGHTUP (r, c) => ((r + 1, c), (r, c + 1))
  | VFar _ _ s | VHole s | VSite s => (s, s)
  end.

(** Bond terms of the J1-J2 XXZ model and of the triangular Heisenberg model (one diagonal only). *)
Definition xxz_terms (jz jxy jz2 jxy2 : R) (v : visit) : operator :=
  match v with VBond _ _ => xxz_bond jz jxy | _ => xxz_bond jz2 jxy2 end.
Definition triangular_terms (v : visit) : operator :=
  match v with VDiag LEFTUP_TO_RIGHTDOWN _ => fun _ _ => RtoC 0 | _ => xxz_bond 1 1 end.

(** What one sample of a spin-1/2 model of Hamiltonian [H] with bond terms [h] (and diagonal bonds if
    [nnn]) should hold for the configuration [S] of the wave function [Psi]. *)
Definition faithful_sample (rows cols : nat) (nnn : bool) (H : operator) (h : visit -> operator)
    (Psi : list nat -> C) (S : list nat) (r : observables) : Prop :=
  let eloc A := local_energy 2 (rows * cols) A Psi S in
  (* the energy *)
  o_energy r = eloc H /\
  (* every bond of the lattice once, each with the local energy of its term *)
  NoDup (map fst (o_bonds r)) /\
  (forall v, In v (map fst (o_bonds r)) <-> lattice_visit rows cols false nnn v) /\
  (forall v e, In (v, e) (o_bonds r) -> e = eloc (on_sites [index cols (fst (bond_ends v)); index cols (snd (bond_ends v))] (h v))) /\
  (* every amplitude is that of the configuration, one per row and one per column *)
  o_psis r = repeat (Psi S) (rows + cols) /\
  (* S-(i) S+(j) and S+(i) S-(j) from site (rows/2, cols/4) to the cols/2 sites to its right *)
  length (o_smsp r) = cols / 2 /\ length (o_spsm r) = cols / 2 /\
  (forall k, k < cols / 2 ->
     let i := (rows / 2, cols / 4) in let j := (rows / 2, cols / 4 + k + 1) in
     snd j < cols /\
     nth_error (o_smsp r) k = Some (eloc (adjoint (two_point cols Sm i Sp j))) /\
     nth_error (o_spsm r) k = Some (eloc (adjoint (two_point cols Sp i Sm j)))) /\
  (* S^z of every site, and the products of pairs *)
  o_sz r = map sz_of S /\
  length (o_szsz r) = rows * cols * (rows * cols + 1) / 2 /\
  (forall i j, i <= j -> j < rows * cols ->
     nth_error (o_szsz r) (packed_index (rows * cols) i j) = Some (sz_of (nth i S 0%nat) * sz_of (nth j S 0%nat))%R).

(** The configurations of non-zero amplitude, those sampling can reach. *)
Definition support (dim n : nat) (Psi : list nat -> C) : list (list nat) :=
  filter (fun S => if Ceq_dec (Psi S) (RtoC 0) then false else true) (all_configs dim n).
(** Averages of the samples [r] with weight |Psi|^2 over the configurations of non-zero amplitude are
    expectation values <Psi|A|Psi> / <Psi|Psi> over all configurations. *)
Definition expectations (rows cols : nat) (H : operator) (Psi : list nat -> C) (r : list nat -> observables) : Prop :=
  let n := rows * cols in
  let average := weighted_average Psi (support 2 n Psi) in
  let expectation A := rayleigh (all_configs 2 n) A Psi in
  average (fun S => o_energy (r S)) = expectation H /\
  (forall k, k < cols / 2 ->
     let i := (rows / 2, cols / 4) in let j := (rows / 2, cols / 4 + k + 1) in
     average (fun S => nth k (o_spsm (r S)) (RtoC 0)) = expectation (two_point cols Sp i Sm j) /\
     average (fun S => nth k (o_smsp (r S)) (RtoC 0)) = expectation (two_point cols Sm i Sp j)) /\
  (forall i, i < n -> average (fun S => RtoC (nth i (o_sz (r S)) 0%R)) = expectation (on_sites [i] Sz)) /\
  (forall i j, i < j -> j < n ->
     average (fun S => RtoC (nth (packed_index n i j) (o_szsz (r S)) 0%R)) = expectation (on_sites [i; j] (tensor Sz Sz))).
