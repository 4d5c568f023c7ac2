(** The product of the loop gates of a lattice, and when a sweep loses nothing. *)
From Coq Require Import List Arith Bool Reals.
From Verif Require Import Base Cplx SumModel SumSpec TrgTensor OptModel SuModel SuSpec ProjModel ProjSpec LoopModel LoopSpec LoopDone LoopSweepModel.
Import ListNotations.
Local Open Scope nat_scope.

(** the plaquettes column by column; and those with even or odd columns and rows *)
Definition by_columns (R K : nat) (per : bool) : list (nat * nat) :=
  flat_map (fun c => map (fun r => (r, c)) (seq 0 (if per then R else R - 1))) (seq 0 (if per then K else K - 1)).
Definition of_parity (col row : bool) (p : nat * nat) : bool := Bool.eqb (Nat.odd (snd p)) col && Bool.eqb (Nat.odd (fst p)) row.
(** the order of a sweep: the plaquettes in even columns first, and of these the ones in even rows first *)
Definition plaquette_order (R K : nat) (per : bool) : list (nat * nat) :=
  filter (of_parity false false) (by_columns R K per) ++ filter (of_parity false true) (by_columns R K per) ++
  filter (of_parity true false) (by_columns R K per) ++ filter (of_parity true true) (by_columns R K per).
(** the gates of these plaquettes applied to a wave function, the first of the list first *)
Definition loop_gates (R K : nat) (gates : nat -> nat -> nat -> tensor) (l : list (nat * nat)) (psi : basis -> C) : basis -> C :=
  fold_left (fun psi p => gate4 (gates (fst p) (snd p)) (corner R K (fst p) (snd p)) psi) l psi.
(** every gate has the dimensions of its sites *)
Definition gates_fit (P : peps) (gates : nat -> nat -> nat -> tensor) : Prop :=
  forall p, In p (plaquettes (p_rows P) (p_cols P) (p_per P)) -> loop_fits P (fst p) (snd p) (gates (fst p) (snd p)).
(** <gate> in the loop with its outer weights *)
Definition expectation (g : nat -> tensor) (P : peps) (p : nat * nat) : R :=
  fst (Cdiv (loop_element g P (fst p) (snd p)) (loop_square P (fst p) (snd p))).

(** the PEPS Q is, up to a positive factor, what the gates of the list make of the state of P *)
Definition reached (gates : nat -> nat -> nat -> tensor) (P Q : peps) (l : list (nat * nat)) : Prop :=
  (p_rows Q = p_rows P /\ p_cols Q = p_cols P /\ p_per Q = p_per P /\ forall r c, r < p_rows P -> c < p_cols P -> phys Q r c = phys P r c) /\
  exists k, (0 < k)%R /\ forall s, proper P s -> (RtoC k * wave Q s)%C = loop_gates (p_rows P) (p_cols P) gates l (wave P) s.

Section Lossless.
Context (qr : nat -> tensor -> tensor * tensor) (svd svdt : nat -> tensor -> tensor * list R * tensor) (evd : tensor -> tensor * list R) (eigvec : bool -> tensor -> list R -> tensor).
Context (pr : loop_params) (m : nat) (gates : nat -> nat -> nat -> tensor).
(** Nothing was lost in a projection: there was room for all singular values, no root or new weight was too small to be inverted. *)
Definition lost_nothing (x : site * peps * loop_result) : Prop :=
  let '((r, c), P, out) := x in
  loop_room m P r c (gates r c) /\ Forall (fun y => (l_inv_tol pr <= y)%R) (lr_roots out) /\
  forall i, i < 4 -> kept (l_env_tol pr) (lam_of (lr_peps out) (side (p_rows P) (p_cols P) r c i)).
(** Every projection of a sequence starts well: there is room, the matrices whose roots are inverted are well conditioned, and the
    gate does not make the state zero; and no new weight is too small to be inverted. *)
Fixpoint starts_well (P : peps) (l : list (nat * nat)) : Prop :=
  match l with
  | [] => True
  | (r, c) :: l' =>
      loop_room m P r c (gates r c) /\ conditioned qr svd evd eigvec pr (gates r c) P r c /\
      (exists s, proper P s /\ gate4 (gates r c) (corner (p_rows P) (p_cols P) r c) (wave P) s <> RtoC 0) /\
      forall out, loop_project qr svd svdt evd eigvec pr (gates r c) P r c = Ok out ->
        (forall i, i < 4 -> kept (l_env_tol pr) (lam_of (lr_peps out) (side (p_rows P) (p_cols P) r c i))) /\ starts_well (lr_peps out) l'
  end.
End Lossless.
(** nothing is lost in n sweeps *)
Fixpoint lossless_loop_sweeps qr svd svdt evd eigvec pr kind tau m gates (n : nat) (P : peps) : Prop :=
  match n with
  | 0 => True
  | S n' => forall w, loop_sweep qr svd svdt evd eigvec pr kind tau gates P = Ok w ->
      Forall (lost_nothing pr m gates) (w_seen w) /\ lossless_loop_sweeps qr svd svdt evd eigvec pr kind tau m gates n' (w_peps w)
  end.
