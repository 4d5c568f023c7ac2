(** Bond dimensions reported by a tensor network state. *)
From Coq Require Import List Arith Bool.
From Verif Require Import Base.
Import ListNotations.

(** The virtual legs of a site tensor, in the order of its indices 0, 1, 2, 3 (two_dim_tn/tps/tps.h:41-60). *)
Inductive leg := West | South | East | North.

Section BondDim.
Variables rows cols : nat.
Variable periodic : bool.
(** GetShape() of the first component of the tensor of a site *)
Variable dim : nat -> nat -> leg -> nat.

(** the sites in the order of the two loops, e.g. split_index_tps_impl.h:81-82 *)
Definition sites : list (nat * nat) := flat_map (fun r => map (fun c => (r, c)) (seq 0 cols)) (seq 0 rows).

(** split_index_tps_impl.h:79-89 SplitIndexTPS::GetMaxBondDimension; tps_impl.h:70-80 TPS::GetMaxBondDimension is the same *)
Definition get_max : nat :=
  fold_left (fun dmax s => Nat.max (Nat.max dmax (dim (fst s) (snd s) West)) (dim (fst s) (snd s) South)) sites 0.

(** split_index_tps_impl.h:111 and 130 *)
Definition has_south (r : nat) : bool := (r <? rows - 1) || periodic.
(** split_index_tps_impl.h:115 and 134 *)
Definition has_east (c : nat) : bool := (c <? cols - 1) || periodic.

(** split_index_tps_impl.h:104-122 SplitIndexTPS::GetAllInnerBondDimensions. The argument of reserve is an unsigned difference: where it is negative
    it wraps to a number no vector can hold, and reserve throws. *)
Definition all_dims : res (list nat) :=
  if rows * cols <? rows + cols then Fail Throw
  else Ok (flat_map (fun s => (if has_south (fst s) then [dim (fst s) (snd s) South] else []) ++
                              (if has_east (snd s) then [dim (fst s) (snd s) East] else [])) sites).

(** std::min_element and std::max_element, dereferenced (split_index_tps_impl.h:94 and 100-101); undefined for an empty vector *)
Definition least (l : list nat) : res nat := match l with [] => Fail UB | x :: l => Ok (fold_left Nat.min l x) end.
(** split_index_tps_impl.h:101 *)
Definition largest (l : list nat) : res nat := match l with [] => Fail UB | x :: l => Ok (fold_left Nat.max l x) end.

(** split_index_tps_impl.h:91-95 SplitIndexTPS::GetMinBondDimension *)
Definition get_min : res nat := l <- all_dims;; least l.
(** split_index_tps_impl.h:97-102 SplitIndexTPS::GetMinMaxBondDimension *)
Definition get_min_max : res (nat * nat) := l <- all_dims;; a <- least l;; b <- largest l;; Ok (a, b).

(** split_index_tps_impl.h:124-141 SplitIndexTPS::IsBondDimensionEven; the early returns are those of forallb *)
Definition is_even : bool :=
  let d := dim 0 0 South in
  forallb (fun s => negb (has_south (fst s) && negb (d =? dim (fst s) (snd s) South)) &&
                    negb (has_east (snd s) && negb (d =? dim (fst s) (snd s) East))) sites.

(** tps_impl.h:82-100 TPS::IsBondDimensionUniform *)
Definition is_uniform : bool :=
  let d := dim 0 0 South in
  forallb (fun s => negb ((negb (fst s =? 0) || periodic) && negb (d =? dim (fst s) (snd s) North)) &&
                    negb ((negb (snd s =? 0) || periodic) && negb (d =? dim (fst s) (snd s) West))) sites.
End BondDim.
