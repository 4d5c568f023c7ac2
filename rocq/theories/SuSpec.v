(** What a sweep must sum to, when a run must stop, and what the plaquettes of a lattice are. *)
From Coq Require Import List Arith Bool Reals.
From Verif Require Import Base Rsum UpdaterSpec EnergySpec LbModel SuModel.
Import ListNotations.
Local Open Scope nat_scope.

(** The sum over the gates of a sweep, every piece replaced by its value under [F] (nearest neighbours), [K]
    (diagonals) and [G] (on site: first argument the site acted on, second the site whose term it is).
    Taking indicator functions for [F], [K], [G] gives the total weight of every single piece. *)
Definition value (F K G : site -> site -> R) (t : term) : R :=
  match t with TNN a b => F a b | TDiag a b => K a b | TOn a o => G a o end.
Definition sweep_value (F K G : site -> site -> R) (gs : list gate) : R :=
  rsum (fun g => rsum (fun tw => (snd tw * value F K G (fst tw))%R) g) gs.
Definition symmetric (F : site -> site -> R) : Prop := forall a b, F a b = F b a.

(** The Hamiltonian of the open lattice: bonds and diagonals listed once (EnergySpec), and every site. *)
Definition open_total (rows cols : nat) (F K G : site -> site -> R) : R :=
  (rsum (fun ab => F (fst ab) (snd ab)) (pairs rows cols nearest) +
   rsum (fun ab => K (fst ab) (snd ab)) (pairs rows cols diagonal) +
   rsum (fun s => G s s) (all_sites rows cols))%R.
(** On the torus every site has one bond to the right, one down, and two diagonals down. *)
Definition right_of (cols : nat) (s : site) : site := (fst s, (snd s + 1) mod cols).
Definition below (rows : nat) (s : site) : site := ((fst s + 1) mod rows, snd s).
Definition torus_total (rows cols : nat) (F K G : site -> site -> R) : R :=
  (rsum (fun s => F s (right_of cols s) + F s (below rows s)) (all_sites rows cols) +
   rsum (fun s => K s (below rows (right_of cols s)) + K (right_of cols s) (below rows s)) (all_sites rows cols) +
   rsum (fun s => G s s) (all_sites rows cols))%R.
(** The triangular lattice drawn on the square one: the diagonals that rise to the right. *)
Definition rising (a b : site) : bool := (snd b =? snd a + 1) && (fst b + 1 =? fst a).
Definition triangular_total (rows cols : nat) (F K : site -> site -> R) : R :=
  (rsum (fun ab => F (fst ab) (snd ab)) (pairs rows cols nearest) +
   rsum (fun ab => K (fst ab) (snd ab)) (pairs rows cols rising))%R.
Definition none (_ _ : site) : R := 0%R.

(** Plaquettes, and that two of them have no site in common. *)
Definition plaquettes (rows cols : nat) (pbc : bool) : list site :=
  list_prod (seq 0 (if pbc then rows else rows - 1)) (seq 0 (if pbc then cols else cols - 1)).
Definition corners_of (rows cols : nat) (pbc : bool) (p : site) : list site :=
  if pbc then [p; right_of cols p; below rows p; below rows (right_of cols p)]
  else let '(r, c) := p in [(r, c); (r, c + 1); (r + 1, c); (r + 1, c + 1)].

(** *** Stopping *)
Local Open Scope R_scope.
Definition length_of (v : list R) : R := sqrt (rsum (fun x => x * x) v).
(** one bond: the change of the singular values is small against their length *)
Definition bond_close (tol : R) (a b : list R) : Prop :=
  length a = length b /\ length_of (map (fun i => nth i b 0 - nth i a 0) (seq 0 (length a))) <= tol * Rmax (length_of a) dbl_eps.
(** sweep [k] changed the state too little to matter *)
Definition settled (c : stop_config) (sweep : nat -> outcome) (k : nat) : Prop :=
  (1 <= k)%nat /\ (min_steps c <= k + 1)%nat /\
  (let e := o_energy (sweep k) in let e' := o_energy (sweep (k - 1)%nat) in
   Rabs (e - e') <= abs_tol c \/ Rabs (e - e') <= rel_tol c * Rmax 1 (Rmax (Rabs e) (Rabs e'))) /\
  length (o_lambdas (sweep (k - 1)%nat)) = length (o_lambdas (sweep k)) /\
  forall i, (i < length (o_lambdas (sweep k)))%nat ->
    bond_close (lambda_tol c) (nth i (o_lambdas (sweep (k - 1)%nat)) []) (nth i (o_lambdas (sweep k)) []).
(** the last [patience] sweeps up to [k] were all settled *)
Definition converged_at (c : stop_config) (sweep : nat -> outcome) (k : nat) : Prop :=
  (patience c <= k)%nat /\ forall j, (k - patience c < j <= k)%nat -> settled c sweep j.
Definition invalid (c : stop_config) : Prop :=
  abs_tol c < 0 \/ rel_tol c < 0 \/ lambda_tol c < 0 \/ patience c = 0%nat \/ min_steps c = 0%nat.
(** whether the smallest or largest bond dimension differs from the sweep before *)
Definition changed (sweep : nat -> outcome) (k : nat) : bool :=
  (0 <? k)%nat && negb ((o_dmin (sweep k) =? o_dmin (sweep (k - 1)%nat))%nat && (o_dmax (sweep k) =? o_dmax (sweep (k - 1)%nat))%nat).
