(** The evolution gates of the simple update and its sweep over a square lattice with nearest-neighbour terms:
    algorithm/simple_update/simple_update_impl.h (TaylorExpMatrix) and square_lattice_nn_simple_update.h.

    Dense tensors; the fermionic branches are not modelled. The tolerance of the series is a parameter. *)
From Coq Require Import List Arith Bool Reals.
From Verif Require Import Base Cplx TrgTensor ProjModel.
Import ListNotations.
Local Open Scope nat_scope.

(** a number times a tensor (simple_update_impl.h:179, 211) *)
Definition times (x : C) (A : tensor) : tensor := Tn (shape A) (fun ix => (x * entry A ix)%C).
(** 181-185: the legs 0, 2, ... first, then 1, 3, ... *)
Definition legs_first (N : nat) : list nat := map (fun i => 2 * i) (seq 0 N) ++ map (fun i => 2 * i + 1) (seq 0 N).
(** 125-135 DuplicateElements *)
Fixpoint duplicate (l : list nat) : list nat := match l with [] => [] | x :: t => x :: x :: duplicate t end.
(** GenAllCoors (191) *)
Fixpoint all_coors (sh : list nat) : list (list nat) := match sh with [] => [[]] | d :: t => flat_map (fun i => map (cons i) (all_coors t)) (seq 0 d) end.
(** 188-195: ones at the places visited, zeros elsewhere *)
Definition identity (ham : tensor) : tensor :=
  let N := rank ham / 2 in
  let sh := firstn N (map (dimat ham) (legs_first N)) in
  transpose (legs_first N) (Tn (shape ham) (fun ix => if in_dec (list_eq_dec Nat.eq_dec) ix (map duplicate (all_coors sh)) then RtoC 1 else RtoC 0)).
Section Gate.
(** kEpsilon (206) *)
Context (eps : R).
(** 208-222: the terms from order n on; [last]: the term before *)
Fixpoint series (fuel n : nat) (N : nat) (hs last : tensor) : list tensor :=
  match fuel with
  | 0 => []
  | S fuel' =>
      let tmp := times (RtoC (1 / INR n)) (contract last (seq N N) hs (seq 0 N)) in
      tmp :: (if Rlt_dec (tnorm tmp) eps then [] else series fuel' (S n) N hs tmp)
  end.
(** kMaxTaylorExpansionOrder (consts.h:34) *)
Definition max_order : nat := 1000.
(** simple_update_impl.h:174-228 TaylorExpMatrix *)
Definition taylor_exp (tau : R) (ham : tensor) : tensor :=
  let N := rank ham / 2 in
  let hs := transpose (legs_first N) (times (RtoC (- tau)) ham) in
  fold_left tadd (hs :: series (max_order - 2) 2 N hs hs) (identity ham).

(** the data members of SquareLatticeNNSimpleUpdateExecutor that SetEvolveGate_ reads (square_lattice_nn_simple_update.h:146-153):
    the terms on the bonds, the same for all or one for each, and the on-site terms, if given *)
Inductive bond_terms := Uniform (h : tensor) | PerBond (hor ver : nat -> nat -> tensor).
(** square_lattice_nn_simple_update.h:146-153 *)
Record executor := Exec { e_bonds : bond_terms; e_onsite : option (nat -> nat -> tensor); e_tau : R }.
(** 117-127 ConstructBondHamiltonian *)
Definition bond_hamiltonian (base : tensor) (h1 : R) (on1 : tensor) (h2 : R) (on2 id : tensor) : tensor :=
  let term1 := times (RtoC h1) (contract on1 [] id []) in
  let term2 := times (RtoC h2) (contract id [] on2 []) in
  tadd (tadd base term1) term2.
(** 209-218: ones on the diagonal; the dimension is that of the first site *)
Definition site_id (on : nat -> nat -> tensor) : tensor := eye (dimat (on 0 0) 0).
(** a condition counted as 0 or 1 (the subtractions in 224-231) *)
Definition one_if (b : bool) : nat := if b then 1 else 0.
(** 220-239: the term of a horizontal bond *)
Definition hor_ham (e : executor) (R K : nat) (per : bool) (row col : nat) : tensor :=
  let base := match e_bonds e with Uniform h => h | PerBond hor _ => hor row col end in
  match e_onsite e with
  | None => base
  | Some on =>
      let edge := one_if (negb per && ((row =? 0) || (row =? R - 1))) in
      let n1 := 4 - edge - one_if (negb per && (col =? 0)) in
      let n2 := 4 - edge - one_if (negb per && (col =? K - 2)) in
      bond_hamiltonian base (1 / INR n1) (on row col) (1 / INR n2) (on row ((col + 1) mod K)) (site_id on)
  end.
(** 250-269: the term of a vertical bond *)
Definition ver_ham (e : executor) (R K : nat) (per : bool) (row col : nat) : tensor :=
  let base := match e_bonds e with Uniform h => h | PerBond _ ver => ver row col end in
  match e_onsite e with
  | None => base
  | Some on =>
      let edge := one_if (negb per && ((col =? 0) || (col =? K - 1))) in
      let n1 := 4 - edge - one_if (negb per && (row =? 0)) in
      let n2 := 4 - edge - one_if (negb per && (row =? R - 2)) in
      bond_hamiltonian base (1 / INR n1) (on row col) (1 / INR n2) (on ((row + 1) mod R) col) (site_id on)
  end.
(** SimpleUpdateSweep_ (284-331): the calls of a sweep, with the gates of SetEvolveGate_ (164-281) *)
Definition nn_calls (e : executor) (R K : nat) (per : bool) : list (call * tensor * option tensor) :=
  let ver_limit := if per then R else R - 1 in
  let hor_limit := if per then K else K - 1 in
  flat_map (fun col => map (fun row => (Col row col, taylor_exp (e_tau e) (ver_ham e R K per row col), Some (ver_ham e R K per row col))) (seq 0 ver_limit)) (seq 0 K) ++
  flat_map (fun col => map (fun row => (Row row col, taylor_exp (e_tau e) (hor_ham e R K per row col), Some (hor_ham e R K per row col))) (seq 0 R)) (seq 0 hor_limit).
(** one sweep: the PEPS after it and the norm (284-331) *)
Definition nn_sweep (qr : tensor -> tensor * tensor) (svd : nat -> tensor -> tensor * list Rdefinitions.R * tensor) (inv_tol : Rdefinitions.R) (e : executor) (P : peps) : peps * Rdefinitions.R :=
  project_all qr svd inv_tol P (nn_calls e (p_rows P) (p_cols P) (p_per P)).
(** several sweeps (simple_update_impl.h:300-330: the loop of Execute, whatever stops it) *)
Fixpoint nn_sweeps (qr : tensor -> tensor * tensor) (svd : nat -> tensor -> tensor * list Rdefinitions.R * tensor) (inv_tol : Rdefinitions.R) (e : executor) (n : nat) (P : peps) : peps * Rdefinitions.R :=
  match n with
  | 0 => (P, 1%R)
  | S n' => let '(Q, x) := nn_sweep qr svd inv_tol e P in let '(Q', y) := nn_sweeps qr svd inv_tol e n' Q in (Q', (x * y)%R)
  end.
End Gate.
