(** Lattice containers as plain values: every variable holds its own matrix of optional elements. *)
From Coq Require Import List Arith Bool.
From Verif Require Import Base DuoModel.
Import ListNotations.

Section Spec.
Context {V : Type} (fresh : V).
Definition value := list (list (option V)).
Definition store_v := list (option value).
Definition v_obj (s : store_v) (x : nat) : res value := match nth_error s x with Some (Some g) => Ok g | _ => Fail UB end.
Definition v_vacant (s : store_v) (x : nat) : res unit := match nth_error s x with Some None => Ok tt | _ => Fail UB end.
Definition inside (g : value) (r c : nat) : bool := match nth_error g r with Some row => c <? length row | None => false end.
Definition v_put (g : value) (r c : nat) (v : option V) : value := match nth_error g r with Some row => put g r (put row c v) | None => g end.
(** What each operation means when matrices are values. *)
Definition v_step (s : store_v) (o : op V) : res store_v :=
  match o with
  | Construct x rows cols => _ <- v_vacant s x;; Ok (put s x (Some (repeat (repeat None cols) rows)))
  | Copy x y => _ <- v_vacant s x;; g <- v_obj s y;; Ok (put s x (Some g))
  | Assign x y => _ <- v_obj s x;; g <- v_obj s y;; Ok (put s x (Some g))
  | Move x y => _ <- v_vacant s x;; g <- v_obj s y;; Ok (put (put s x (Some g)) y (Some []))
  | MoveAssign x y => _ <- v_obj s x;; g <- v_obj s y;; Ok (put (put s x (Some g)) y (Some []))
  | Write x r c v => g <- v_obj s x;; if inside g r c then Ok (put s x (Some (v_put g r c (Some v)))) else Fail UB
  | Alloc x r c => g <- v_obj s x;; if inside g r c then Ok (put s x (Some (v_put g r c (Some fresh)))) else Fail UB
  | Dealloc x r c => g <- v_obj s x;; if inside g r c then Ok (put s x (Some (v_put g r c None))) else Fail UB
  | Clear x => g <- v_obj s x;; Ok (put s x (Some (map (map (fun _ => None)) g)))
  | Destroy x => _ <- v_obj s x;; Ok (put s x None)
  end.
Definition v_run (s : store_v) (ops : list (op V)) : res store_v := fold_left (fun acc o => s <- acc;; v_step s o) ops (Ok s).
Definition v_read (s : store_v) (x r c : nat) : res V :=
  g <- v_obj s x;; match nth_error g r with Some row => match nth_error row c with Some (Some v) => Ok v | _ => Fail UB end | None => Fail UB end.
(** No operation assigns or moves a variable to itself. *)
Definition no_self (o : op V) : Prop := match o with Assign x y | MoveAssign x y => x <> y | _ => True end.
(** Cells alive in the heap, and elements held by the variables. *)
Definition alive (s : state V) : nat := length (filter (fun c => match c with Some _ => true | None => false end) (st_heap s)).
Definition held (s : store_v) : nat := length (filter (fun c => match c with Some _ => true | None => false end)
  (flat_map (fun g => match g with Some g => concat g | None => [] end) s)).
End Spec.
