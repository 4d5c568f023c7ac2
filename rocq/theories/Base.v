(** Shared vocabulary: results with explicit failure, positions, orientations. *)
From Coq Require Import List Arith Lia Bool.
Import ListNotations.

(** Outcome of a C++ computation. [Throw] is a C++ exception; [UB] is anything the
    language leaves undefined (out-of-range [operator[]], [back()]/[pop_back()] on an
    empty vector, a loop whose [size_t] bound wrapped below zero, null dereference). *)
Inductive failure := Throw | UB.
Inductive res (A : Type) := Ok (a : A) | Fail (f : failure).
Arguments Ok {A} a.
Arguments Fail {A} f.

(** sequencing of statements *)
Definition bind {A B} (x : res A) (f : A -> res B) : res B :=
  match x with Ok a => f a | Fail e => Fail e end.
Notation "x <- e ;; k" := (bind e (fun x => k)) (at level 61, e at next level, right associativity).
Notation "e >> k" := (bind e (fun _ => k)) (at level 61, right associativity).

(** [std::vector::at]: throws when out of range. *)
Definition at_ {A} (l : list A) (i : nat) : res A :=
  match nth_error l i with Some a => Ok a | None => Fail Throw end.
(** [std::vector::operator[]]: undefined when out of range. *)
Definition idx {A} (l : list A) (i : nat) : res A :=
  match nth_error l i with Some a => Ok a | None => Fail UB end.
(** [std::vector::back()]: undefined on an empty vector. *)
Definition back {A} (l : list A) : res A :=
  match rev l with a :: _ => Ok a | [] => Fail UB end.
(** [std::vector::pop_back()]: undefined on an empty vector. *)
Definition pop_back {A} (l : list A) : res (list A) :=
  match l with [] => Fail UB | _ => Ok (removelast l) end.
(** [a - b] on [size_t] where the code uses the result as a bound or an index: a value
    below zero wraps to about 2^64, which no later use survives. *)
Definition usub (a b : nat) : res nat := if a <? b then Fail UB else Ok (a - b).

Fixpoint iter_res {A} (n : nat) (f : A -> res A) (a : A) : res A :=
  match n with O => Ok a | S m => a' <- f a ;; iter_res m f a' end.

(** basic.h:19-22 *)
Inductive orient := HORIZONTAL | VERTICAL.
(** basic.h:59-64, BMPSPOSITION (and BTenPOSITION, an alias) *)
Inductive pos := LEFT | DOWN | RIGHT | UP.
(** basic.h:90-93 *)
Inductive diag := LEFTUP_TO_RIGHTDOWN | LEFTDOWN_TO_RIGHTUP.

Definition pos_eqb (p q : pos) : bool :=
  match p, q with
  | LEFT, LEFT | DOWN, DOWN | RIGHT, RIGHT | UP, UP => true
  | _, _ => false
  end.
(** basic.h:80-88, Opposite *)
Definition opposite (p : pos) : pos :=
  match p with LEFT => RIGHT | DOWN => UP | RIGHT => LEFT | UP => DOWN end.
(** [(post + 3) % 4] and [(post + 1) % 4], bmps_contractor_grow.h:531-533 *)
Definition pre_of (p : pos) : pos :=
  match p with LEFT => UP | DOWN => LEFT | RIGHT => DOWN | UP => RIGHT end.
(** (MPOIndex and neighbours of a position, basic.h:59-88) *)
Definition next_of (p : pos) : pos :=
  match p with LEFT => DOWN | DOWN => RIGHT | RIGHT => UP | UP => LEFT end.

(** assignment to one entry of a std::map, bmps_contractor.h:917-919 *)
Definition upd {X} (f : pos -> X) (p : pos) (x : X) : pos -> X :=
  fun q => if pos_eqb p q then x else f q.

(** SiteIdx, framework/site_idx.h *)
Definition site := (nat * nat)%type.
