(** Operators on wave functions, the exponential series, and the Trotter product of a sweep. *)
From Coq Require Import List Arith Bool Reals.
From Verif Require Import Base Cplx SumModel SumSpec TrgTensor ProjModel ProjSpec ExpModel.
Import ListNotations.
Local Open Scope nat_scope.

(** the values of some sites, and a state with these replaced *)
Definition values (s : basis) (xs : list (nat * nat)) : list nat := map (fun x => s (fst x) (snd x)) xs.
Fixpoint place (s : basis) (xs : list (nat * nat)) (l : list nat) : basis :=
  match xs, l with x :: xs', v :: l' => place (at_site s x v) xs' l' | _, _ => s end.
(** the legs of a Hamiltonian term are (old, new) for one site after the other *)
Fixpoint zip (old new : list nat) : list nat := match old, new with a :: o, b :: n => a :: b :: zip o n | _, _ => [] end.
(** the values a list of sites can have *)
Fixpoint choices (ds : list nat) : list (list nat) := match ds with [] => [[]] | d :: t => flat_map (fun i => map (cons i) (choices t)) (seq 0 d) end.
(** a Hamiltonian term on the sites xs of dimensions ds acts on a wave function *)
Definition term (ham : tensor) (ds : list nat) (xs : list (nat * nat)) (psi : basis -> C) : basis -> C := fun s =>
  sumC (fun l => (entry ham (zip l (values s xs)) * psi (place s xs l))%C) (choices ds).
(** an operator applied k times; the first K + 1 terms of the series of exp(-tau h) *)
Definition times_op (k : nat) (h : (basis -> C) -> basis -> C) (psi : basis -> C) : basis -> C := Nat.iter k h psi.
Definition exp_terms (tau : R) (h : (basis -> C) -> basis -> C) (K : nat) (psi : basis -> C) : basis -> C := fun s =>
  sumC (fun k => (RtoC ((- tau) ^ k / INR (fact k)) * times_op k h psi s)%C) (seq 0 (S K)).

(** *** The series as a matrix *)
Definition matrix := list nat -> list nat -> C.
Definition product (ds : list nat) (A B : matrix) : matrix := fun i j => sumC (fun l => (A i l * B l j)%C) (choices ds).
Fixpoint power (ds : list nat) (A : matrix) (k : nat) : matrix :=
  match k with 0 => fun i j => if list_eq_dec Nat.eq_dec i j then RtoC 1 else RtoC 0 | S k' => product ds (power ds A k') A end.
(** a Hamiltonian term as a matrix *)
Definition matrix_of (ham : tensor) : matrix := fun i j => entry ham (zip i j).
Definition partial_exp (ds : list nat) (tau : R) (A : matrix) (K : nat) : matrix := fun i j =>
  sumC (fun k => (RtoC ((- tau) ^ k / INR (fact k)) * power ds A k i j)%C) (seq 0 (S K)).
(** E is exp(-tau A): the limit of the series, element by element *)
Definition is_exp (ds : list nat) (tau : R) (A E : matrix) : Prop :=
  forall i j, In i (choices ds) -> In j (choices ds) ->
    Un_cv (fun K => fst (partial_exp ds tau A K i j)) (fst (E i j)) /\ Un_cv (fun K => snd (partial_exp ds tau A K i j)) (snd (E i j)).
Definition modulus (z : C) : R := sqrt (Cnorm2 z).
(** the 2-norm of all elements *)
Definition frobenius (ds : list nat) (A : matrix) : R := sqrt (fst (sumC (fun i => sumC (fun j => RtoC (Cnorm2 (A i j))) (choices ds)) (choices ds))).

(** *** The sweep *)
(** the number of bonds of a site *)
Definition degree (R K : nat) (per : bool) (x : nat * nat) : nat :=
  length (filter (fun l => match leg_bond R K per (fst x) (snd x) l with Some _ => true | None => false end) [0; 1; 2; 3]).
(** the sites of a bond, the left or upper one first *)
Definition ends (R K : nat) (b : bond) : (nat * nat) * (nat * nat) := match b with Hor r c => ((r, c), (r, (c + 1) mod K)) | Ver r c => ((r, c), ((r + 1) mod R, c)) end.
Definition base_term (e : executor) (b : bond) : tensor :=
  match e_bonds e with Uniform h => h | PerBond hor ver => match b with Hor r c => hor r c | Ver r c => ver r c end end.
(** The operator of a bond: its term, and of the on-site terms of its two sites the share of this bond. *)
Definition bond_operator (e : executor) (P : peps) (b : bond) (psi : basis -> C) : basis -> C := fun s =>
  let '(x, y) := ends (p_rows P) (p_cols P) b in
  let d z := phys P (fst z) (snd z) in
  let share z := RtoC (1 / INR (degree (p_rows P) (p_cols P) (p_per P) z)) in
  (term (base_term e b) [d x; d y] [x; y] psi s +
   match e_onsite e with
   | None => RtoC 0
   | Some on => share x * term (on (fst x) (snd x)) [d x] [x] psi s + share y * term (on (fst y) (snd y)) [d y] [y] psi s
   end)%C.
(** the bonds of a sweep in order: column by column the vertical ones, then column by column the horizontal ones *)
Definition sweep_order (R K : nat) (per : bool) : list bond :=
  flat_map (fun c => map (fun r => Ver r c) (seq 0 (if per then R else R - 1))) (seq 0 K) ++
  flat_map (fun c => map (fun r => Hor r c) (seq 0 R)) (seq 0 (if per then K else K - 1)).
(** the exponential series of the bonds, one after the other, cut off at the orders given *)
Definition trotter (e : executor) (P : peps) (order : bond -> nat) (psi : basis -> C) : basis -> C :=
  fold_left (fun psi b => exp_terms (e_tau e) (bond_operator e P b) (order b) psi) (sweep_order (p_rows P) (p_cols P) (p_per P)) psi.
(** the terms have the dimensions of their sites; with on-site terms all sites have the same dimension *)
Definition terms_fit (e : executor) (P : peps) : Prop :=
  (forall b, In b (bonds (p_rows P) (p_cols P) (p_per P)) ->
     let '(x, y) := ends (p_rows P) (p_cols P) b in let d z := phys P (fst z) (snd z) in shape (base_term e b) = [d x; d x; d y; d y]) /\
  match e_onsite e with
  | None => True
  | Some on => exists d, forall r c, r < p_rows P -> c < p_cols P -> phys P r c = d /\ shape (on r c) = [d; d]
  end.
(** nothing is lost in several sweeps *)
Fixpoint lossless_sweeps (eps : R) (qr : tensor -> tensor * tensor) (svd : nat -> tensor -> tensor * list R * tensor) (tol : R) (m : nat) (e : executor) (n : nat) (P : peps) : Prop :=
  match n with
  | 0 => True
  | S n' => lossless qr svd tol m P (nn_calls eps e (p_rows P) (p_cols P) (p_per P)) /\ lossless_sweeps eps qr svd tol m e n' (fst (nn_sweep eps qr svd tol e P))
  end.
(** wave functions see only the values of a basis state *)
Definition same_state (s s' : basis) : Prop := forall r c, s r c = s' r c.
Definition respects (psi : basis -> C) : Prop := forall s s', same_state s s' -> psi s = psi s'.
(** *** The Hamiltonian *)
(** its terms on all bonds and on all sites *)
Definition hamiltonian (e : executor) (P : peps) (psi : basis -> C) : basis -> C := fun s =>
  let d z := phys P (fst z) (snd z) in
  (sumC (fun b => let '(x, y) := ends (p_rows P) (p_cols P) b in term (base_term e b) [d x; d y] [x; y] psi s) (bonds (p_rows P) (p_cols P) (p_per P)) +
   match e_onsite e with None => RtoC 0 | Some on => sumC (fun x => term (on (fst x) (snd x)) [d x] [x] psi s) (grid (p_rows P) (p_cols P)) end)%C.
(** the terms that a list of calls is given, each on the sites of its call *)
Definition evolved (P : peps) (l : list (call * tensor * option tensor)) (psi : basis -> C) : basis -> C := fun s =>
  sumC (fun x => match snd x with
                 | Some h => let xs := sites_of (p_rows P) (p_cols P) (fst (fst x)) in term h (map (fun z => phys P (fst z) (snd z)) xs) xs psi s
                 | None => RtoC 0
                 end) l.
