(** The operators on triangles that a sweep is to exponentiate, and the Hamiltonians they are to add up to. *)
From Coq Require Import List Arith Bool Reals.
From Verif Require Import Base Cplx SumModel SumSpec TrgTensor ProjModel ProjSpec ExpModel ExpSpec TriSweepModel.
Import ListNotations.
Local Open Scope nat_scope.

(** *** Products of exponentials *)
(** the exponential series of some operators, one after the other, each cut off at the order given *)
Definition series_product {X} (tau : R) (H : X -> (basis -> C) -> basis -> C) (l : list X) (orders : list nat) (psi : basis -> C) : basis -> C :=
  fold_left (fun psi xk => exp_terms tau (H (fst xk)) (snd xk) psi) (combine l orders) psi.
Definition orders_for {X} (l : list X) (orders : list nat) : Prop := length orders = length l /\ forall k, In k orders -> 2 <= k <= 999.

(** *** Nearest and next-nearest neighbours *)
(** a triangle: the plaquette with upper left site (r, c), and the corner of the plaquette at which its right angle is *)
Definition triangle : Type := corner_at * nat * nat.
(** its sites, the corner in the middle *)
Definition triangle_sites (R K : nat) (t : triangle) : (nat * nat) * (nat * nat) * (nat * nat) :=
  let '(p, r, c) := t in
  let nw := (r, c) in let ne := (r, next K c) in let sw := (next R r, c) in let se := (next R r, next K c) in
  match p with
  | AtUpperRight => (nw, ne, se) | AtUpperLeft => (ne, nw, sw) | AtLowerRight => (ne, se, sw) | AtLowerLeft => (nw, sw, se)
  end.
(** the plaquettes on the two sides of a bond: above and below the row, left and right of the column *)
Definition sides (R K : nat) (per : bool) (x y : nat * nat) : nat :=
  if fst x =? fst y then one_if ((0 <? fst x) || per) + one_if ((fst x + 1 <? R) || per)
  else one_if ((0 <? snd x) || per) + one_if ((snd x + 1 <? K) || per).
(** The operator of a triangle: half of the term on its diagonal (each is in two triangles); of the terms on its two bonds the share of one of
    two triangles on each side; of the on-site terms the share of one of twelve triangles (three in each of four plaquettes). *)
Definition triangle_operator (e : nnn_executor) (P : peps) (t : triangle) (psi : basis -> C) : basis -> C := fun s =>
  let '(a, b, c) := triangle_sites (p_rows P) (p_cols P) t in
  let d z := phys P (fst z) (snd z) in
  let share x y := RtoC (1 / INR (2 * sides (p_rows P) (p_cols P) (p_per P) x y)) in
  let site x := match x_onsite e with None => RtoC 0 | Some on => RtoC (1 / 12) * term (on (fst x) (snd x)) [d x] [x] psi s end%C in
  (RtoC (1 / 2) * term (x_nnn e) [d a; d c] [a; c] psi s +
   share a b * term (x_nn e) [d a; d b] [a; b] psi s + share b c * term (x_nn e) [d b; d c] [b; c] psi s +
   (site a + site b + site c))%C.
(** the triangles of a sweep in order: kind by kind, column by column *)
Definition triangle_order (R K : nat) (per : bool) : list triangle :=
  flat_map (fun p => flat_map (fun c => map (fun r => (p, r, c)) (seq 0 (if per then R else R - 1))) (seq 0 (if per then K else K - 1)))
    [AtUpperRight; AtLowerRight; AtLowerLeft; AtUpperLeft].
(** all sites have the same dimension, and the terms have it too *)
Definition nnn_fit (e : nnn_executor) (P : peps) : Prop :=
  exists d, (forall r c, r < p_rows P -> c < p_cols P -> phys P r c = d) /\ shape (x_nn e) = [d; d; d; d] /\ shape (x_nnn e) = [d; d; d; d] /\
  match x_onsite e with None => True | Some on => forall r c, r < p_rows P -> c < p_cols P -> shape (on r c) = [d; d] end.
(** there are no on-site terms, or they are the same on all sites of a torus *)
Definition plain_onsite (e : nnn_executor) (P : peps) : Prop :=
  match x_onsite e with None => True | Some on => p_per P = true /\ forall r c, on r c = on 0 0 end.
(** a term on two sites that does not change when the sites are exchanged *)
Definition exchangeable (h : tensor) : Prop := forall i i' j j', entry h [i; i'; j; j'] = entry h [j; j'; i; i'].
(** the upper left sites of the plaquettes *)
Definition plaquettes_of (P : peps) : list (nat * nat) :=
  list_prod (seq 0 (if p_per P then p_rows P else p_rows P - 1)) (seq 0 (if p_per P then p_cols P else p_cols P - 1)).
(** The Hamiltonian: the nearest-neighbour term on every bond, the other one on both diagonals of every plaquette, and the on-site terms. *)
Definition nnn_hamiltonian (e : nnn_executor) (P : peps) (psi : basis -> C) : basis -> C := fun s =>
  let d z := phys P (fst z) (snd z) in
  let pair h x y := term h [d x; d y] [x; y] psi s in
  (sumC (fun b => let '(x, y) := ends (p_rows P) (p_cols P) b in pair (x_nn e) x y) (bonds (p_rows P) (p_cols P) (p_per P)) +
   sumC (fun q => let '(r, c) := q in let r' := next (p_rows P) r in let c' := next (p_cols P) c in
                  pair (x_nnn e) (r, c) (r', c') + pair (x_nnn e) (r, c') (r', c)) (plaquettes_of P) +
   match x_onsite e with None => RtoC 0 | Some on => sumC (fun x => term (on (fst x) (snd x)) [d x] [x] psi s) (grid (p_rows P) (p_cols P)) end)%C.

(** *** The triangular lattice *)
(** the pieces of a half of a sweep: a bond or a triangle *)
Inductive piece := Edge (b : bond) | Tri (a b c : nat * nat).
(** its sites in the order of the legs, and its operator *)
Definition piece_operator (e : tri_executor) (P : peps) (q : piece) (psi : basis -> C) : basis -> C := fun s =>
  let d z := phys P (fst z) (snd z) in
  match q with
  | Edge b => let '(x, y) := ends (p_rows P) (p_cols P) b in term (y_nn e) [d x; d y] [x; y] psi s
  | Tri a b c => term (y_tri e) [d a; d b; d c] [a; b; c] psi s
  end.
(** the first half: the left edge; then for every column the bond at the top and the triangles that point to the lower right *)
Definition first_pieces (R K : nat) : list piece :=
  map (fun r => Edge (Ver r 0)) (seq 0 (R - 1)) ++
  flat_map (fun c => Edge (Hor 0 c) :: map (fun r => Tri (r, c + 1) (r + 1, c + 1) (r + 1, c)) (seq 0 (R - 1))) (seq 0 (K - 1)).
(** the second half: for every column the triangles that point to the upper left and the bond at the bottom; then the right edge *)
Definition second_pieces (R K : nat) : list piece :=
  flat_map (fun c => map (fun r => Tri (r, c + 1) (r, c) (r + 1, c)) (seq 0 (R - 1)) ++ [Edge (Hor (R - 1) c)]) (seq 0 (K - 1)) ++
  map (fun r => Edge (Ver r (K - 1))) (seq 0 (R - 1)).
(** all sites have the same dimension, and the terms have it too *)
Definition tri_fit (e : tri_executor) (P : peps) : Prop :=
  exists d, (forall r c, r < p_rows P -> c < p_cols P -> phys P r c = d) /\ shape (y_nn e) = [d; d; d; d] /\ shape (y_tri e) = [d; d; d; d; d; d].
(** the three-site term is the sum of the two-site term on its three pairs of sites *)
Definition three_pairs (e : tri_executor) : Prop :=
  let delta i j := if i =? j then RtoC 1 else RtoC 0 in
  forall i i' j j' k k',
  entry (y_tri e) [i; i'; j; j'; k; k'] =
  (entry (y_nn e) [i; i'; j; j'] * delta k k' + delta i i' * entry (y_nn e) [j; j'; k; k'] + entry (y_nn e) [i; i'; k; k'] * delta j j')%C.
(** The Hamiltonian of the triangular lattice: the term on every bond of the square lattice and on the diagonals that rise to the right. *)
Definition triangular_hamiltonian (e : tri_executor) (P : peps) (psi : basis -> C) : basis -> C := fun s =>
  let d z := phys P (fst z) (snd z) in
  let pair x y := term (y_nn e) [d x; d y] [x; y] psi s in
  (sumC (fun b => let '(x, y) := ends (p_rows P) (p_cols P) b in pair x y) (bonds (p_rows P) (p_cols P) false) +
   sumC (fun q => let '(r, c) := q in pair ((r + 1)%nat, c) (r, (c + 1)%nat)) (list_prod (seq 0 (p_rows P - 1)) (seq 0 (p_cols P - 1))))%C.

(** *** Sweeps in which nothing is lost *)
Fixpoint lossless_nnn (eps : R) (qr : tensor -> tensor * tensor) (svd : nat -> tensor -> tensor * list R * tensor) (tol : R) (m : nat) (e : nnn_executor) (n : nat) (P : peps) : Prop :=
  match n with
  | 0 => True
  | S n' => lossless qr svd tol m P (nnn_calls e (p_rows P) (p_cols P) (p_per P) eps) /\ lossless_nnn eps qr svd tol m e n' (fst (fst (nnn_sweep eps qr svd tol e P)))
  end.
Definition lossless_tri (eps : R) (qr : tensor -> tensor * tensor) (svd : nat -> tensor -> tensor * list R * tensor) (tol : R) (m : nat) (e : tri_executor) (P : peps) : Prop :=
  lossless qr svd tol m P (first_half eps e (p_rows P) (p_cols P) ++ second_half eps e (p_rows P) (p_cols P)).
