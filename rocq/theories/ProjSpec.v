(** What state a PEPS with bond weights is, what it means to apply a gate to it, and when the decompositions inside a
    projection lose nothing. *)
From Coq Require Import List Arith Bool Reals.
From Verif Require Import Base Cplx SumModel SumSpec TrgTensor ProjModel.
Import ListNotations.
Local Open Scope nat_scope.

(** the weight on a bond: it is stored with the site on its right, or below it *)
Definition lam_of (P : peps) (b : bond) : list R :=
  match b with Hor r c => lam_h P r ((c + 1) mod p_cols P) | Ver r c => lam_v P ((r + 1) mod p_rows P) c end.
(** a basis state of the lattice *)
Definition basis := nat -> nat -> nat.
(** the values on the legs of a site: those of its bonds, 0 on legs that point out of the lattice; and of its state *)
Definition index_at (P : peps) (s : basis) (a : bond -> nat) (r c : nat) : list nat :=
  map (leg_value (p_rows P) (p_cols P) (p_per P) a r c) [0; 1; 2; 3] ++ [s r c].
(** The wave function: the sum over all values of the bonds of the product of all site tensors and of all weights. *)
Definition wave (P : peps) (s : basis) : C :=
  let B := bonds (p_rows P) (p_cols P) (p_per P) in
  sum_over B (fun b => length (lam_of P b))
    (fun a => (prodC (fun rc => entry (gamma P (fst rc) (snd rc)) (index_at P s a (fst rc) (snd rc))) (grid (p_rows P) (p_cols P)) *
               prodC (fun b => RtoC (nth (a b) (lam_of P b) 0%R)) B)%C)
    (fun _ => 0).
(** the state of one site replaced *)
Definition at_site (s : basis) (x : nat * nat) (k : nat) : basis := fun r c => if (r =? fst x) && (c =? snd x) then k else s r c.
(** a gate on two or three sites: its first legs are summed with the old state, its last ones belong to the new *)
Definition gate2 (g : tensor) (x y : nat * nat) (psi : basis -> C) : basis -> C := fun s =>
  sumC (fun i => sumC (fun j =>
    (entry g [i; j; s (fst x) (snd x); s (fst y) (snd y)] * psi (at_site (at_site s x i) y j))%C) (seq 0 (dimat g 1))) (seq 0 (dimat g 0)).
Definition gate3 (g : tensor) (x y z : nat * nat) (psi : basis -> C) : basis -> C := fun s =>
  sumC (fun i => sumC (fun j => sumC (fun k =>
    (entry g [i; j; k; s (fst x) (snd x); s (fst y) (snd y); s (fst z) (snd z)] * psi (at_site (at_site (at_site s x i) y j) z k))%C)
    (seq 0 (dimat g 2))) (seq 0 (dimat g 1))) (seq 0 (dimat g 0)).

(** every weight is zero or above the tolerance of the inversions *)
Definition kept (tol : R) (s : list R) : Prop := forall x, In x s -> x = 0%R \/ (tol < Rabs x)%R.
(** the dimension of the physical leg *)
Definition phys (P : peps) (r c : nat) : nat := dimat (gamma P r c) 4.
(** Legs fit together; on the edge of an open lattice they have dimension one and weight one, as the constructor makes
    them. *)
Definition sound (tol : R) (P : peps) : Prop :=
  (0 < tol < 1)%R /\
  (forall r c, r < p_rows P -> c < p_cols P ->
     shape (gamma P r c) = [length (west P r c); length (south P r c); length (east P r c); length (north P r c); phys P r c] /\
     kept tol (west P r c) /\ kept tol (south P r c) /\ kept tol (east P r c) /\ kept tol (north P r c)) /\
  (p_per P = false -> forall r c, r < p_rows P -> c < p_cols P ->
     (c = 0 -> west P r c = [1%R]) /\ (c + 1 = p_cols P -> east P r c = [1%R]) /\
     (r = 0 -> north P r c = [1%R]) /\ (r + 1 = p_rows P -> south P r c = [1%R])).
(** the basis state uses values the sites have *)
Definition proper (P : peps) (s : basis) : Prop := forall r c, r < p_rows P -> c < p_cols P -> s r c < phys P r c.

(** QR of legs 0, 1, 2 against legs 3, 4 *)
Definition qr_exact (qr : tensor -> tensor * tensor) : Prop :=
  forall T, length (shape T) = 5 -> let '(q, r) := qr T in exists k,
    shape q = [dimat T 0; dimat T 1; dimat T 2; k] /\ shape r = [k; dimat T 3; dimat T 4] /\ k <= dimat T 3 * dimat T 4 /\
    forall a b c x y, a < dimat T 0 -> b < dimat T 1 -> c < dimat T 2 -> x < dimat T 3 -> y < dimat T 4 ->
      entry T [a; b; c; x; y] = sumC (fun z => (entry q [a; b; c; z] * entry r [z; x; y])%C) (seq 0 k).
Definition size (l : list nat) : nat := fold_right Nat.mul 1 l.
(** an index of a tensor *)
Definition inside (sh ix : list nat) : Prop := Forall2 lt ix sh.
(** SVD of the first n legs against the others that keeps up to m singular values: a tensor that has at most m rows or at most
    m columns is given back *)
Definition svd_up_to (m : nat) (svd : nat -> tensor -> tensor * list R * tensor) : Prop :=
  forall n T, n <= length (shape T) -> size (firstn n (shape T)) <= m \/ size (skipn n (shape T)) <= m ->
    let '(u, s, vt) := svd n T in
    shape u = firstn n (shape T) ++ [length s] /\ shape vt = length s :: skipn n (shape T) /\
    forall ix jx, inside (firstn n (shape T)) ix -> inside (skipn n (shape T)) jx ->
      entry T (ix ++ jx) = sumC (fun x => (entry u (ix ++ [x]) * RtoC (nth x s 0%R) * entry vt (x :: jx))%C) (seq 0 (length s)).

(** *** The calls *)
Definition next (n k : nat) : nat := (k + 1) mod n.
Definition prev (n k : nat) : nat := (k + n - 1) mod n.
(** the sites of a call, in the order of the legs of its gate, on a lattice of R rows and K columns *)
Definition sites_of (R K : nat) (o : call) : list (nat * nat) :=
  match o with
  | Row r c => [(r, c); (r, next K c)] | Col r c => [(r, c); (next R r, c)]
  | UpperRight r c => [(r, prev K c); (r, c); (next R r, c)] | UpperLeft r c => [(r, next K c); (r, c); (next R r, c)]
  | LowerRight r c => [(r, c); (next R r, c); (next R r, prev K c)] | LowerLeft r c => [(r, c); (next R r, c); (next R r, next K c)]
  end.
(** the bonds between them *)
Definition bonds_of (R K : nat) (o : call) : list bond :=
  match o with
  | Row r c => [Hor r c] | Col r c => [Ver r c]
  | UpperRight r c => [Hor r (prev K c); Ver r c] | UpperLeft r c => [Hor r c; Ver r c]
  | LowerRight r c => [Ver r c; Hor (next R r) (prev K c)] | LowerLeft r c => [Ver r c; Hor (next R r) c]
  end.
(** the sites and bonds are there, and no site twice (as on a periodic lattice of one row or column) *)
Definition valid (P : peps) (o : call) : Prop := incl (bonds_of (p_rows P) (p_cols P) o) (bonds (p_rows P) (p_cols P) (p_per P)) /\ NoDup (sites_of (p_rows P) (p_cols P) o).
(** the gate has the physical dimensions of its sites *)
Definition gate_fits (P : peps) (o : call) (g : tensor) : Prop :=
  let d := map (fun x => phys P (fst x) (snd x)) (sites_of (p_rows P) (p_cols P) o) in shape g = d ++ d.
(** the tensor of a site and a bond to it leave at most d * d * D singular values on the bond *)
Definition room (m : nat) (P : peps) (o : call) : Prop :=
  let d r c := phys P r c in let D b := length (lam_of P b) in let n := next (p_rows P) in let n' := next (p_cols P) in let p := prev (p_cols P) in
  match o with
  | Row r c => d r c * d r c * D (Hor r c) <= m | Col r c => d r c * d r c * D (Ver r c) <= m
  | UpperRight r c => d r (p c) * d r (p c) * D (Hor r (p c)) <= m /\ d (n r) c * d (n r) c * D (Ver r c) <= m
  | UpperLeft r c => d r (n' c) * d r (n' c) * D (Hor r c) <= m /\ d (n r) c * d (n r) c * D (Ver r c) <= m
  | LowerRight r c => d r c * d r c * D (Ver r c) <= m /\ d (n r) (p c) * d (n r) (p c) * D (Hor (n r) (p c)) <= m
  | LowerLeft r c => d r c * d r c * D (Ver r c) <= m /\ d (n r) (n' c) * d (n r) (n' c) * D (Hor (n r) c) <= m
  end.
(** what the gate does to a wave function *)
Definition act (R K : nat) (o : call) (g : tensor) (psi : basis -> C) : basis -> C :=
  match sites_of R K o with [x; y] => gate2 g x y psi | [x; y; z] => gate3 g x y z psi | _ => psi end.
(** one after the other *)
Fixpoint acts (R K : nat) (l : list (call * tensor * option tensor)) (psi : basis -> C) : basis -> C :=
  match l with [] => psi | (o, g, _) :: l' => acts R K l' (act R K o g psi) end.
(** nothing is lost in a sequence of calls: the gates fit, the SVD has room for all singular values, no norm is zero, and no new
    weight lies between zero and the tolerance *)
Fixpoint lossless (qr : tensor -> tensor * tensor) (svd : nat -> tensor -> tensor * list R * tensor) (tol : R) (m : nat) (P : peps) (l : list (call * tensor * option tensor)) : Prop :=
  match l with
  | [] => True
  | (o, g, h) :: l' =>
      let res := project qr svd tol P o g h in
      valid P o /\ gate_fits P o g /\ room m P o /\ r_norm res <> 0%R /\
      (forall b, In b (bonds_of (p_rows P) (p_cols P) o) -> kept tol (lam_of (r_peps res) b)) /\
      lossless qr svd tol m (r_peps res) l'
  end.
