(** SquareLatticePEPS::Initial (two_dim_tn/peps/square_lattice_peps_basic_impl.h:98-260): charges on the legs of
    the product state. *)
From Coq Require Import List Arith Bool.
From Verif Require Import Base.
Import ListNotations.
Local Open Scope nat_scope.

(** Quantum numbers: an abelian group. (QNT, used in square_lattice_peps_basic_impl.h:100-260) *)
Record charges := mkQ {
  Q :> Type; q0 : Q; qadd : Q -> Q -> Q; qneg : Q -> Q;
  qadd_comm : forall a b, qadd a b = qadd b a; qadd_assoc : forall a b c, qadd a (qadd b c) = qadd (qadd a b) c;
  qadd_zero : forall a, qadd a q0 = a; qadd_neg : forall a, qadd a (qneg a) = q0 }.
Arguments q0 {_}. Arguments qadd {_}. Arguments qneg {_}.

Section I.
Context {G : charges}.
(** A rank-5 tensor with one-dimensional virtual legs: their charges (west and north ingoing, south and east
    outgoing) and the physical coordinate of its only element, which is 1. (square_lattice_peps_basic_impl.h:200-248) *)
Record gamma := mkG { west : G; south : G; east : G; north : G; coor : nat }.
(** The lambdas are diagonal, 1x1, with the same charge on both legs; [lv r c] is above the site (r,c), [lh r c]
    on its left. Their elements are 1. (square_lattice_peps_basic_impl.h:72-97) *)
Record peps := mkPeps { lv : nat -> nat -> G; lh : nat -> nat -> G; ga : nat -> nat -> gamma }.
(** assignment to a matrix element, square_lattice_peps_basic_impl.h:110-248 *)
Definition set {X} (m : nat -> nat -> X) (r c : nat) (x : X) : nat -> nat -> X := fun r' c' => if (r' =? r) && (c' =? c) then x else m r' c'.
(** square_lattice_peps_basic_impl.h:110-198 *)
Definition set_lv (p : peps) r c x := mkPeps (set (lv p) r c x) (lh p) (ga p).
(** square_lattice_peps_basic_impl.h:110-198 *)
Definition set_lh (p : peps) r c x := mkPeps (lv p) (set (lh p) r c x) (ga p).
(** square_lattice_peps_basic_impl.h:200-248 *)
Definition set_ga (p : peps) r c x := mkPeps (lv p) (lh p) (set (ga p) r c x).

Variables (rows cols : nat) (per : bool).
(** the local space: charge of a coordinate and direction of the physical leg *)
Variables (phy : nat -> nat -> nat -> G) (out : nat -> nat -> bool).
Variable act : nat -> nat -> nat.
(** subtraction of quantum numbers, square_lattice_peps_basic_impl.h:110-248 *)
Definition qsub (a b : G) : G := qadd a (qneg b).
(** for loops of square_lattice_peps_basic_impl.h:110-248 *)
Definition loop {S} (a n : nat) (f : S -> nat -> S) (s : S) : S := fold_left f (seq a n) s.

(** 105-137: surrounding lambdas and trivial horizontal ones; [rows - 1] does not wrap, a PEPS has a row *)
Definition surround (p : peps) : peps :=
  let p := loop 0 cols (fun p c => set_lv p 0 c q0) p in
  let p := if per then p else loop 0 cols (fun p c => set_lv p rows c q0) p in
  let p := loop 0 rows (fun p r => set_lh p r 0 q0) p in
  let p := if per then p else loop 0 rows (fun p r => set_lh p r cols q0) p in
  loop 0 (rows - 1) (fun p r => loop 0 cols (fun p c => set_lh p r c q0) p) p.
(** 149-153 and its copies: minus an outgoing, plus an ingoing physical charge *)
Definition with_phys (q : G) (r c : nat) : G := if out r c then qadd q (qneg (phy r c (act r c))) else qadd q (phy r c (act r c)).
(** 139-160: a site whose east leg is neutral *)
Definition comb_site (r : nat) (p : peps) (c : nat) : peps :=
  let i0 := lh p r c in let i3 := lv p r c in
  let i1 := with_phys (qsub (qadd i0 i3) q0) r c in
  set_ga p r c (mkG i0 i1 q0 i3 (act r c)).
(** lambda_vert below the row above, 166-170, 199-205 *)
Definition join_rows (r : nat) (p : peps) : peps := loop 0 cols (fun p c => set_lv p r c (south (ga p (r - 1) c))) p.
(** 208-246 *)
Definition last_site (p : peps) (c : nat) : peps :=
  let r := rows - 1 in
  let i0 := lh p r c in let i3 := lv p r c in
  let i1 := if per then lv p ((r + 1) mod rows) c else lv p (r + 1) c in
  let i2 := with_phys (qsub (qadd i0 i3) i1) r c in
  let i2 := if per && (c =? cols - 1) then q0 else i2 in
  let p := set_ga p r c (mkG i0 i1 i2 i3 (act r c)) in
  if c <? cols - 1 then set_lh p r (c + 1) i2 else if per then p else set_lh p r (c + 1) i2.
(** square_lattice_peps_basic_impl.h:100-260 *)
Definition initial (p : peps) : peps :=
  let p := surround p in
  let p := loop 0 cols (comb_site 0) p in
  let p := loop 1 (rows - 1 - 1) (fun p r => loop 0 cols (comb_site r) (join_rows r p)) p in
  let p := if 1 <? rows then join_rows (rows - 1) p else p in
  loop 0 cols last_site p.
End I.
Arguments gamma : clear implicits. Arguments peps : clear implicits.
