(** Reading states as vectors: what the arithmetic of split-index TPS is meant to compute. *)
From Coq Require Import List Arith Bool Reals.
From Verif Require Import Base Cplx Rsum MsgModel TpsModel.
Import ListNotations.
Local Open Scope nat_scope.

(** A lattice with [l_dim] components on every site and the number of entries of each of them. *)
Record layout := mkL { l_rows : nat; l_cols : nat; l_dim : nat; l_len : nat -> nat -> nat -> nat }.
Definition inside (L : layout) (r c i : nat) : Prop := r < l_rows L /\ c < l_cols L /\ i < l_dim L.
(** A state of that layout: every tensor is unset or has the right number of entries. *)
Definition shaped (L : layout) (v : state) : Prop :=
  0 < l_rows L /\ 0 < l_cols L /\
  p_rows v = l_rows L /\ p_cols v = l_cols L /\ length (p_sites v) = l_rows L * l_cols L /\
  (forall s, In s (p_sites v) -> length s = l_dim L) /\
  (forall r c i, inside L r c i -> exists t, comp v r c i = Ok t /\ match t with Some l => length l = l_len L r c i | None => True end).
(** Same, with no tensor unset. *)
Definition full (L : layout) (v : state) : Prop :=
  shaped L v /\ forall r c i, inside L r c i -> exists l, comp v r c i = Ok (Some l).
(** Entry [k] of component [i] of a site; unset tensors count as zero. *)
Definition entry (v : state) (r c i k : nat) : C :=
  match comp v r c i with Ok (Some l) => nth k l (RtoC 0) | _ => RtoC 0 end.
(** All entries of a layout. *)
Definition places (L : layout) : list (nat * nat * nat * nat) :=
  flat_map (fun r => flat_map (fun c => flat_map (fun i => map (fun k => (r, c, i, k)) (seq 0 (l_len L r c i)))
    (seq 0 (l_dim L))) (seq 0 (l_cols L))) (seq 0 (l_rows L)).
Definition at_place (v : state) (p : nat * nat * nat * nat) : C := let '(r, c, i, k) := p in entry v r c i k.
(** The same tensors under another boundary condition. *)
Definition with_bc {T} (bc : bool) (v : sitps T) : sitps T := mkS (p_rows v) (p_cols v) bc (p_sites v).
(** [v] has layout [L] and entries [f]. *)
Definition is_vector (L : layout) (v : state) (f : nat * nat * nat * nat -> C) : Prop :=
  shaped L v /\ forall p, In p (places L) -> at_place v p = f p.
