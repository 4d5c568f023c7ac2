(** The amplitude of a tensor product state: the sum over all values of the bonds of the product of the site
    tensors. *)
From Coq Require Import List Arith Bool Reals.
From Verif Require Import Base Cplx SumModel.
Import ListNotations.
Local Open Scope nat_scope.

(** [Hor r c]: from (r,c) to the site on its right; [Ver r c]: to the site below. On a torus they go around. *)
Inductive bond := Hor (r c : nat) | Ver (r c : nat).
Definition bond_eq_dec (a b : bond) : {a = b} + {a <> b}.
Proof. decide equality; apply Nat.eq_dec. Defined.
Definition grid (rows cols : nat) : list (nat * nat) := list_prod (seq 0 rows) (seq 0 cols).
Definition bonds (rows cols : nat) (per : bool) : list bond :=
  map (fun rc => Hor (fst rc) (snd rc)) (grid rows (if per then cols else cols - 1)) ++
  map (fun rc => Ver (fst rc) (snd rc)) (grid (if per then rows else rows - 1) cols).
(** the bond on a leg of a site; none on the edge of an open lattice *)
Definition leg_bond (rows cols : nat) (per : bool) (r c l : nat) : option bond :=
  match l with
  | 0 => if 0 <? c then Some (Hor r (c - 1)) else if per then Some (Hor r (cols - 1)) else None
  | 1 => if (r + 1 <? rows) || per then Some (Ver r c) else None
  | 2 => if (c + 1 <? cols) || per then Some (Hor r c) else None
  | _ => if 0 <? r then Some (Ver (r - 1) c) else if per then Some (Ver (rows - 1) c) else None
  end.
Definition assign (a : bond -> nat) (b : bond) (i : nat) : bond -> nat := fun b' => if bond_eq_dec b' b then i else a b'.
Fixpoint sum_over (bs : list bond) (d : bond -> nat) (f : (bond -> nat) -> C) (a : bond -> nat) : C :=
  match bs with
  | [] => f a
  | b :: t => sumC (fun i => sum_over t d f (assign a b i)) (seq 0 (d b))
  end.
Definition prodC {X} (f : X -> C) (l : list X) : C := fold_right (fun x acc => Cmul (f x) acc) (RtoC 1) l.
Definition bond_dim (v : lat) (b : bond) : nat := match b with Hor r c => dim (l_ten v r c) 2 | Ver r c => dim (l_ten v r c) 1 end.
Definition leg_value (rows cols : nat) (per : bool) (a : bond -> nat) (r c l : nat) : nat :=
  match leg_bond rows cols per r c l with Some b => a b | None => 0 end.
Definition weight (v : lat) (s : nat -> nat -> nat) (a : bond -> nat) : C :=
  prodC (fun rc => ent (l_ten v (fst rc) (snd rc)) (map (leg_value (l_rows v) (l_cols v) (l_per v) a (fst rc) (snd rc)) [0; 1; 2; 3]) (s (fst rc) (snd rc)))
    (grid (l_rows v) (l_cols v)).
Definition amplitude (v : lat) (s : nat -> nat -> nat) : C :=
  sum_over (bonds (l_rows v) (l_cols v) (l_per v)) (bond_dim v) (weight v s) (fun _ => 0).
(** both ends of a bond have the same dimension *)
Definition matched (v : lat) : Prop :=
  1 <= l_rows v /\ 1 <= l_cols v /\
  forall r c l b, r < l_rows v -> c < l_cols v -> l < 4 -> leg_bond (l_rows v) (l_cols v) (l_per v) r c l = Some b -> dim (l_ten v r c) l = bond_dim v b.
Definition same_lattice (a b : lat) : Prop := l_rows a = l_rows b /\ l_cols a = l_cols b /\ l_per a = l_per b.
