(** Specification of local energies: Hamiltonians as matrices in the configuration basis,
    written from spin and fermion operators, independent of any traversal or contraction. *)
From Coq Require Import List Arith Lia Bool Reals ZArith.
From Verif Require Import Base ContractorModel ContractorSpec SweepModel SweepSpec UpdaterSpec Cplx EnergyModel.
Import ListNotations.
Local Open Scope nat_scope.

(** *** Configurations of a rows x cols lattice are lists, row by row *)
Definition index (cols : nat) (s : site) : nat := fst s * cols + snd s.
Definition conf (cols : nat) (S : list nat) : nat -> nat -> nat := fun r c => nth (r * cols + c) S 0.
(** The network of a configuration. *)
Definition project {o} (tps : sitps o) (c : nat -> nat -> nat) : net o := fun r k => tps r k (c r k).

(** *** Bonds, each listed once: first end to the left of or above the second *)
Definition nearest (a b : site) : bool :=
  ((fst b =? fst a) && (snd b =? snd a + 1)) || ((fst b =? fst a + 1) && (snd b =? snd a)).
Definition diagonal (a b : site) : bool :=
  (snd b =? snd a + 1) && ((fst b =? fst a + 1) || (fst b + 1 =? fst a)).
Definition pairs (rows cols : nat) (rel : site -> site -> bool) : list (site * site) :=
  filter (fun ab => rel (fst ab) (snd ab)) (list_prod (all_sites rows cols) (all_sites rows cols)).

(** *** Operators as matrices [<S|A|S'>] *)
Definition operator := list nat -> list nat -> C.
(** An operator on the sites number [ps], the identity elsewhere. *)
Definition agree_off (ps : list nat) (S S' : list nat) : bool :=
  forallb (fun i => existsb (Nat.eqb i) ps || (nth i S 0 =? nth i S' 0)) (seq 0 (length S)).
Definition on_sites (ps : list nat) (A : operator) : operator :=
  fun S S' => if agree_off ps S S' then A (get ps S) (get ps S') else RtoC 0.
Definition op_add (A B : operator) : operator := fun S S' => (A S S' + B S S')%C.
Definition op_scal (x : R) (A : operator) : operator := fun S S' => (RtoC x * A S S')%C.
Definition op_sum {X} (f : X -> operator) (l : list X) : operator := fun S S' => sumC (fun x => f x S S') l.
(** Product of two one-site operators on a pair of sites. *)
Definition tensor (A B : operator) : operator :=
  fun S S' => match S, S' with [a; b], [a'; b'] => (A [a] [a'] * B [b] [b'])%C | _, _ => RtoC 0 end.

(** Local energy: complex conjugate of <S|H|Psi> / <S|Psi>. *)
Definition local_energy (dim n : nat) (H : operator) (Psi : list nat -> C) (S : list nat) : C :=
  Cconj (sumC (fun S' => H S S' * Psi S')%C (all_configs dim n) / Psi S)%C.

(** *** Spin one half: state 0 is down, state 1 is up *)
Local Open Scope R_scope.
Definition one_site (f : nat -> nat -> C) : operator :=
  fun S S' => match S, S' with [a], [a'] => f a a' | _, _ => RtoC 0 end.
Definition Sz : operator := one_site (fun a a' => match a, a' with
  | 1%nat, 1%nat => RtoC (1 / 2) | 0%nat, 0%nat => RtoC (- (1 / 2)) | _, _ => RtoC 0 end).
Definition Sx : operator := one_site (fun a a' => match a, a' with
  | 1%nat, 0%nat => RtoC (1 / 2) | 0%nat, 1%nat => RtoC (1 / 2) | _, _ => RtoC 0 end).
Definition Sy : operator := one_site (fun a a' => match a, a' with
  | 1%nat, 0%nat => (- (Ci * RtoC (1 / 2)))%C | 0%nat, 1%nat => (Ci * RtoC (1 / 2))%C | _, _ => RtoC 0 end).

(** H = sum over bonds of Jz Sz Sz + Jxy (Sx Sx + Sy Sy), same with (Jz2, Jxy2) over the
    diagonals, minus h Sz on the corner site. *)
Definition xxz_bond (jz jxy : R) : operator :=
  op_add (op_scal jz (tensor Sz Sz)) (op_scal jxy (op_add (tensor Sx Sx) (tensor Sy Sy))).
Definition H_xxz (rows cols : nat) (jz jxy jz2 jxy2 pinning00 : R) : operator :=
  op_add (op_sum (fun ab => on_sites [index cols (fst ab); index cols (snd ab)] (xxz_bond jz jxy)) (pairs rows cols nearest))
 (op_add (op_sum (fun ab => on_sites [index cols (fst ab); index cols (snd ab)] (xxz_bond jz2 jxy2)) (pairs rows cols diagonal))
         (op_scal (- pinning00) (on_sites [0%nat] Sz))).

(** H = - sum over bonds of sigma_z sigma_z - h sum over sites of sigma_x, sigma = 2 S. *)
Definition H_tfim (rows cols : nat) (h : R) : operator :=
  op_add (op_sum (fun ab => on_sites [index cols (fst ab); index cols (snd ab)]
                              (op_scal (-1) (tensor (op_scal 2 Sz) (op_scal 2 Sz)))) (pairs rows cols nearest))
         (op_sum (fun a => on_sites [index cols a] (op_scal (- h) (op_scal 2 Sx))) (all_sites rows cols)).

(** *** What the windows return *)
Section Windows.
Context (o : ops) (val : Amp o -> C) (rows cols : nat).
Definition trace2_at (n : net o) (d : orient) (x : site) (k : nat) : Amp o :=
  let '(ms, e1, e2) := window2_spec o rows cols n d x k in tr2 o d ms (layer_pairs o n d x k) e1 e2.
Definition window2_in (d : orient) (x : site) (k : nat) : Prop :=
  match d with
  | HORIZONTAL => (fst x + 1 < rows /\ snd x + k <= cols)%nat
  | VERTICAL => (snd x + 1 < cols /\ fst x + k <= rows)%nat
  end.
(** Two-layer windows contract to the same amplitude as any other. *)
Definition contraction_consistent2 (psi : net o -> Amp o) : Prop :=
  forall n d x k, (1 <= k)%nat -> window2_in d x k -> trace2_at n d x k = psi n.
(** The amplitude of the network [n] as traced in the window of a visit. *)
Definition trace_visit (v : visit) (n : net o) : C :=
  val (match query_of v with
       | Q1 d s k => trace_at o rows cols n d s k
       | Q2 d s k => trace2_at n d s k
       end).
(** A hole is a network with one site left out: [plug] closes it with a tensor. *)
Definition plugs (plug : Hole o -> Ten o -> Amp o) : Prop :=
  forall n d x t m1 m2 e1 e2, window_in rows cols d x 1 -> window1_spec o rows cols n d x 1 = ([(m1, m2)], e1, e2) ->
    plug (hole_of o d m1 m2 e1 e2) t = tr1 o d [(m1, m2)] [t] e1 e2.
(** Wave function of a configuration. *)
Definition wave (psi : net o -> Amp o) (tps : sitps o) (S : list nat) : C := val (psi (project tps (conf cols S))).
End Windows.

(** *** Fermions: operators on Fock space in a given order of the modes *)
(** A basis state: occupation of each mode. An operator sends a basis state to a formal
    integer combination of basis states. *)
Definition fock := list bool.
Definition fop := fock -> list (Z * fock).
Definition set_mode (m : nat) (b : bool) (n : fock) : fock :=
  firstn m n ++ b :: skipn (S m) n.
(** Sign of passing the modes before [m]. *)
Definition passing (m : nat) (n : fock) : Z :=
  if Nat.even (length (filter (fun b => b) (firstn m n))) then 1%Z else (-1)%Z.
Definition annihilate (m : nat) : fop :=
  fun n => if nth m n false then [(passing m n, set_mode m false n)] else [].
Definition create (m : nat) : fop :=
  fun n => if nth m n true then [] else [(passing m n, set_mode m true n)].
(** Product: [B] acts first. *)
Definition fmul (A B : fop) : fop :=
  fun n => flat_map (fun x => map (fun y => (fst x * fst y, snd y)%Z) (A (snd x))) (B n).
Definition fadd (A B : fop) : fop := fun n => A n ++ B n.
Definition fscal (k : Z) (A : fop) : fop := fun n => map (fun y => (k * fst y, snd y)%Z) (A n).
Fixpoint fock_eqb (a b : fock) : bool :=
  match a, b with
  | [], [] => true
  | x :: a', y :: b' => Bool.eqb x y && fock_eqb a' b'
  | _, _ => false
  end.
(** <n|A|n'> *)
Definition coeff (A : fop) (n n' : fock) : Z :=
  fold_right (fun y acc => (if fock_eqb (snd y) n then fst y + acc else acc)%Z) 0%Z (A n').
(** Read in the basis of local states; [occ] gives the occupations of one site. *)
Definition in_basis (occ : nat -> list bool) (A : fop) : operator :=
  fun S S' => RtoC (IZR (coeff A (flat_map occ S) (flat_map occ S'))).

(** Occupations of a site in each local state: (up, down), or one mode if spinless. *)
Definition occ_hubbard (c : nat) : list bool :=
  match c with 0%nat => [true; true] | 1%nat => [true; false] | 2%nat => [false; true] | _ => [false; false] end.
Definition occ_tj (c : nat) : list bool :=
  match c with 0%nat => [true; false] | 1%nat => [false; true] | _ => [false; false] end.
Definition occ_spinless (c : nat) : list bool := match c with 0%nat => [true] | _ => [false] end.
Definition hop (a b : nat) : fop := fadd (fmul (create a) (annihilate b)) (fmul (create b) (annihilate a)).
Definition num (a : nat) : fop := fmul (create a) (annihilate a).
(** Two sites with spin: modes [u1] up, [d1] down of the first, [u2], [d2] of the second. *)
Definition hop_spinful (u1 d1 u2 d2 : nat) : fop := fadd (hop u1 u2) (hop d1 d2).
(** 4 (S1 . S2) = 2 S1+ S2- + 2 S1- S2+ + (n1u - n1d)(n2u - n2d), and n1 n2. *)
Definition spin_plus (u d : nat) : fop := fmul (create u) (annihilate d).
Definition spin_minus (u d : nat) : fop := fmul (create d) (annihilate u).
Definition two_sz (u d : nat) : fop := fadd (num u) (fscal (-1) (num d)).
Definition density (u d : nat) : fop := fadd (num u) (num d).
Definition four_spin_dot (u1 d1 u2 d2 : nat) : fop :=
  fadd (fadd (fscal 2 (fmul (spin_plus u1 d1) (spin_minus u2 d2))) (fscal 2 (fmul (spin_minus u1 d1) (spin_plus u2 d2))))
       (fmul (two_sz u1 d1) (two_sz u2 d2)).
Definition density_product (u1 d1 u2 d2 : nat) : fop := fmul (density u1 d1) (density u2 d2).
(** sqrt 2 (Delta+ + Delta) with sqrt 2 Delta+ = c1u+ c2d+ - c1d+ c2u+. *)
Definition root2_pairing (u1 d1 u2 d2 : nat) : fop :=
  fadd (fadd (fmul (create u1) (create d2)) (fscal (-1) (fmul (create d1) (create u2))))
       (fadd (fmul (annihilate d2) (annihilate u1)) (fscal (-1) (fmul (annihilate u2) (annihilate d1)))).

(** Two-site terms of the Hamiltonians, on given modes. *)
Definition h_hubbard (t : R) (u1 d1 u2 d2 : nat) : operator := op_scal (- t) (in_basis occ_hubbard (hop_spinful u1 d1 u2 d2)).
Definition h_spinless (t V : R) (m1 m2 : nat) : operator :=
  op_add (op_scal (- t) (in_basis occ_spinless (hop m1 m2))) (op_scal V (in_basis occ_spinless (fmul (num m1) (num m2)))).
Definition h_tj (t J V : R) (u1 d1 u2 d2 : nat) : operator :=
  op_add (op_scal (- t) (in_basis occ_tj (hop_spinful u1 d1 u2 d2)))
 (op_add (op_scal (J / 4) (in_basis occ_tj (fadd (four_spin_dot u1 d1 u2 d2) (fscal (-1) (density_product u1 d1 u2 d2)))))
         (op_scal V (in_basis occ_tj (density_product u1 d1 u2 d2)))).
Definition h_pairing (delta : R) (u1 d1 u2 d2 : nat) : operator :=
  op_scal (delta / sqrt 2) (in_basis occ_tj (root2_pairing u1 d1 u2 d2)).

(** *** Hamiltonians on the whole lattice, modes ordered site by site, row by row *)
Definition up_mode (cols : nat) (a : site) : nat := (2 * index cols a)%nat.
Definition down_mode (cols : nat) (a : site) : nat := (2 * index cols a + 1)%nat.
Definition on_modes (cols : nat) (h : nat -> nat -> nat -> nat -> operator) (ab : site * site) : operator :=
  h (up_mode cols (fst ab)) (down_mode cols (fst ab)) (up_mode cols (snd ab)) (down_mode cols (snd ab)).
Definition H_hubbard (rows cols : nat) (t U mu : R) : operator :=
  op_add (op_sum (on_modes cols (h_hubbard t)) (pairs rows cols nearest))
         (op_sum (fun a => op_add
            (op_scal U (in_basis occ_hubbard (fmul (num (up_mode cols a)) (num (down_mode cols a)))))
            (op_scal (- mu) (in_basis occ_hubbard (density (up_mode cols a) (down_mode cols a))))) (all_sites rows cols)).
Definition H_spinless (rows cols : nat) (t t2 V : R) : operator :=
  op_add (op_sum (fun ab => h_spinless t V (index cols (fst ab)) (index cols (snd ab))) (pairs rows cols nearest))
         (op_sum (fun ab => h_spinless t2 0 (index cols (fst ab)) (index cols (snd ab))) (pairs rows cols diagonal)).
Definition H_tj (rows cols : nat) (t t2 J V mu : R) (pin : list (site * site * R)) : operator :=
  op_add (op_sum (on_modes cols (h_tj t J V)) (pairs rows cols nearest))
 (op_add (op_sum (on_modes cols (h_tj t2 0 0)) (pairs rows cols diagonal))
 (op_add (op_sum (fun p => on_modes cols (h_pairing (snd p)) (fst p)) pin)
         (op_sum (fun a => op_scal (- mu) (in_basis occ_tj (density (up_mode cols a) (down_mode cols a)))) (all_sites rows cols)))).

(** *** Signs of fermionic amplitudes *)
(** Fermions on site [i], and the number of exchanges of fermions when those of site [a], then
    those of site [b], are brought to the front. *)
Definition fermions (occ : nat -> list bool) (S : list nat) (i : nat) : nat := length (filter (fun b => b) (occ (nth i S 0%nat))).
Definition exchanges (occ : nat -> list bool) (S : list nat) (a b : nat) : nat :=
  (fermions occ S a * list_sum (map (fermions occ S) (seq 0 a)) +
   fermions occ S b * list_sum (map (fun i => if (i =? a)%nat then 0%nat else fermions occ S i) (seq 0 b)))%nat.
Definition front_sign (occ : nat -> list bool) (S : list nat) (a b : nat) : R :=
  if Nat.even (exchanges occ S a b) then 1 else -1.
(** What a contraction in the window of a bond must return for fermions: the amplitude with the
    fermions of the two sites in front, times a non-zero factor that ignores these two sites.
    The same for the network with the two tensors replaced. *)
Definition fermionic_window (o : ops) (val : Amp o -> C) (rows cols dim : nat) (tps : sitps o) (occ : nat -> list bool)
    (Psi : list nat -> C) (v : visit) : Prop :=
  match map (index cols) (sites_of v) with
  | [a; b] =>
      exists kappa : list nat -> C,
        (forall S S', In S (all_configs dim (rows * cols)) -> In S' (all_configs dim (rows * cols)) ->
           agree_off [a; b] S S' = true -> kappa S = kappa S') /\
        (forall S, In S (all_configs dim (rows * cols)) -> kappa S <> RtoC 0 /\
           trace_visit o val rows cols v (project tps (conf cols S)) = (kappa S * RtoC (front_sign occ S a b) * Psi S)%C)
  | _ => False
  end.
