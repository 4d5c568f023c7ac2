(** The amplitude of a network, as the sum over all its bonds, and the pairs a structure factor needs. *)
From Coq Require Import List Arith Bool Reals ZArith.
From Verif Require Import Base Cplx WalkModel SfModel.
Import ListNotations.

(** a row between the vertical bonds [p] above it and [q] below it, from bond [a] on its left to bond [b] on its
    right; a site tensor has the legs left, down, right, up *)
Fixpoint transfer (D : nat) (row : list tensor) (p q : list nat) (a b : nat) : C :=
  match row, p, q with
  | s :: row', x :: p', y :: q' => sumC (fun m => Cmul (s [a; y; m; x]) (transfer D row' p' q' m b)) (seq 0 D)
  | _, _, _ => if a =? b then RtoC 1 else RtoC 0
  end.
(** the rows below the vertical bonds [p]; the outermost bonds are zero *)
Fixpoint below (D n : nat) (rows : list (list tensor)) (p : list nat) : C :=
  match rows with
  | [] => if forallb (Nat.eqb 0) p then RtoC 1 else RtoC 0
  | r :: rs => sumC (fun q => Cmul (transfer D r p q 0 0) (below D n rs q)) (tuples D n)
  end.
(** the amplitude of a network of [n] columns *)
Definition amplitude (D n : nat) (rows : list (list tensor)) : C := below D n rows (repeat 0 n).

(** the rows [ys] of the lattice with the tensors of the sites [a] and [b] exchanged *)
Definition rows_with (ys : list nat) (Lx : nat) (tn : nat -> nat -> tensor) (a : site) (ta : tensor) (b : site) (tb : tensor) : list (list tensor) :=
  map (fun y => map (fun x => if (y =? fst a) && (x =? snd a) then ta else
                              if (y =? fst b) && (x =? snd b) then tb else tn y x) (seq 0 Lx)) ys.

(** S+ at [a], S- at [b]: from configuration [cfg] (0 down, 1 up) the amplitude of the configuration they lead
    to, zero if they annihilate it; only the rows [ys] enter *)
Definition flipped_on (ys : list nat) (D Lx : nat) (tn : nat -> nat -> tensor) (tps : nat -> nat -> nat -> tensor) (cfg : nat -> nat -> nat) (a b : site) : C :=
  if (cfg (fst a) (snd a) =? 0) && (cfg (fst b) (snd b) =? 1)
  then amplitude D Lx (rows_with ys Lx tn a (tps (fst a) (snd a) 1) b (tps (fst b) (snd b) 0))
  else RtoC 0.
(** the whole lattice *)
Definition flipped (D Ly Lx : nat) := flipped_on (seq 0 Ly) D Lx.

(** every source above every target, in the order of the documentation *)
Definition all_entries (Ly Lx : nat) (val : site -> site -> C) : list (nat * nat * nat * nat * C) :=
  flat_map (fun y1 => flat_map (fun x1 => flat_map (fun y2 => map (fun x2 => (y1, x1, y2, x2, val (y1, x1) (y2, x2))) (seq 0 Lx))
    (seq (y1 + 1) (Ly - 1 - y1))) (seq 0 Lx)) (seq 0 (Ly - 1)).

(** Boundary MPSs.  The vector an UP boundary (stored right to left) and a DOWN boundary stand for: *)
Fixpoint up_vec (D : nat) (l : list tensor) (p : list nat) (a b : nat) : C :=
  match l, p with
  | t :: l', x :: p' => sumC (fun m => Cmul (t [m; x; a]) (up_vec D l' p' m b)) (seq 0 D)
  | _, _ => if a =? b then RtoC 1 else RtoC 0
  end.
Fixpoint down_vec (D : nat) (l : list tensor) (q : list nat) (a b : nat) : C :=
  match l, q with
  | t :: l', y :: q' => sumC (fun m => Cmul (t [a; y; m]) (down_vec D l' q' m b)) (seq 0 D)
  | _, _ => if a =? b then RtoC 1 else RtoC 0
  end.
Definition up_vector (D : nat) (up : list tensor) (p : list nat) : C := up_vec D (rev up) p 0 0.
Definition down_vector (D : nat) (down : list tensor) (q : list nat) : C := down_vec D down q 0 0.

(** the boundary [up] absorbs a row without truncation error *)
Definition exact_absorption (D n : nat) (absorb : list tensor -> list tensor -> list tensor) (up row : list tensor) : Prop :=
  length (absorb up row) = n /\
  forall q, In q (tuples D n) -> up_vector D (absorb up row) q = sumC (fun p => Cmul (up_vector D up p) (transfer D row p q 0 0)) (tuples D n).
(** ... and so do the boundaries that follow *)
Fixpoint exact_along (D n : nat) absorb (up : list tensor) (rows : list (list tensor)) : Prop :=
  match rows with
  | [] => True
  | r :: rs => exact_absorption D n absorb up r /\ exact_along D n absorb (absorb up r) rs
  end.
(** an UP boundary that has absorbed nothing *)
Definition vacuum_up (D n : nat) (up : list tensor) : Prop :=
  length up = n /\ forall p, In p (tuples D n) -> up_vector D up p = if forallb (Nat.eqb 0) p then RtoC 1 else RtoC 0.
(** a DOWN boundary that has absorbed [rows] *)
Definition bottom_of (D n : nat) (down : list tensor) (rows : list (list tensor)) : Prop :=
  length down = n /\ forall q, In q (tuples D n) -> down_vector D down q = below D n rows q.

(** the row [y] after S+ on the site [a] of the configuration, if it points down *)
Definition excited_row (Lx : nat) (tn : nat -> nat -> tensor) (tps : nat -> nat -> nat -> tensor) (cfg : nat -> nat -> nat) (a : site) (y : nat) : list tensor :=
  map (fun x => if (y =? fst a) && (x =? snd a) && (cfg (fst a) (snd a) =? 0) then tps (fst a) (snd a) 1 else tn y x) (seq 0 Lx).

(** what the measurement needs: an exact walker, the two kinds of environments, at least one column *)
Record sf_setting (D : nat) (absorb : list tensor -> list tensor -> list tensor) (Ly Lx : nat) (tn : nat -> nat -> tensor)
  (tps : nat -> nat -> nat -> tensor) (cfg : nat -> nat -> nat) (vac : list tensor) (down_stack : list (list tensor)) : Prop := {
  sf_D : 1 <= D;
  sf_rows : 1 <= Ly;
  sf_cols : 1 <= Lx;
  sf_size : (Z.of_nat Lx < 2 ^ 64)%Z;
  sf_vac : vacuum_up D Lx vac;
  sf_down : forall i opp, nth_error down_stack i = Some opp -> i < Ly -> bottom_of D Lx opp (map (get_row Lx tn) (seq (Ly - i) i));
  sf_exact : forall y1 x1, y1 < Ly - 1 -> x1 < Lx ->
    exact_along D Lx absorb vac (map (excited_row Lx tn tps cfg (y1, x1))
      (filter (fun y => (y <=? y1) || (Ly <=? y + length down_stack)) (seq 0 (Ly - 1))))
}.

