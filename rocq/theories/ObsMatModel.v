(** The container of lattice observables. *)
From Coq Require Import List NArith Bool.
From Verif Require Import Base.
Import ListNotations.
Local Open Scope N_scope.

(** size_t arithmetic (used in observable_matrix.h:30, 36, 81) *)
Definition wrap (n : N) : N := n mod 2 ^ 64.

Section Mat.
Variable T : Type.
Variable plus : T -> T -> T.
(** utility/observable_matrix.h:84-86 members *)
Record om := mkOm { o_rows : N; o_cols : N; o_data : list T }.
(** observable_matrix.h:29-30 constructor; 28 default constructor: [om_new 0 0]. Allocation succeeds (simplification). *)
Definition om_new (rows cols : N) (v : T) : om := mkOm rows cols (repeat v (N.to_nat (wrap (rows * cols)))).
(** 32-36 Resize *)
Definition om_resize (rows cols : N) (v : T) (m : om) : om := mkOm rows cols (repeat v (N.to_nat (wrap (rows * cols)))).
(** 77-82 Index *)
Definition om_index (m : om) (r c : N) : res N :=
  if (o_rows m <=? r) || (o_cols m <=? c) then Fail Throw else Ok (wrap (wrap (r * o_cols m) + c)).
(** 42-56 operator(), read; std::vector::at throws *)
Definition om_get (m : om) (r c : N) : res T :=
  i <- om_index m r c;; match nth_error (o_data m) (N.to_nat i) with Some x => Ok x | None => Fail Throw end.
(** std::vector element assignment (used by observable_matrix.h:42-44, 58-61) *)
Fixpoint put (l : list T) (i : nat) (v : T) : list T :=
  match l, i with [], _ => [] | _ :: l, O => v :: l | x :: l, S i => x :: put l i v end.
(** 42-52 operator(), written through the reference *)
Definition om_set (m : om) (r c : N) (v : T) : res om :=
  i <- om_index m r c;;
  match nth_error (o_data m) (N.to_nat i) with Some _ => Ok (mkOm (o_rows m) (o_cols m) (put (o_data m) (N.to_nat i) v)) | None => Fail Throw end.
(** 58-65 Add *)
Definition om_add (m : om) (r c : N) (d : T) : res om := x <- om_get m r c;; om_set m r c (plus x d).
(** 67 Flatten *)
Definition om_flatten (m : om) : list T := o_data m.
(** 69-71 Extract: a vector moved from is empty *)
Definition om_extract (m : om) : om * list T := (mkOm (o_rows m) (o_cols m) [], o_data m).

(** calls of the interface (observable_matrix.h:26-71) *)
Inductive call := Resize (rows cols : N) (v : T) | Get (r c : N) | Set_ (r c : N) (v : T) | Add (r c : N) (d : T) | Size | Flatten | Extract.
(** what a call answers; [Bad]: std::out_of_range (observable_matrix.h:43, 79) *)
Inductive reply := Done | Bad | Value (v : T) | Vector (l : list T) | Count (n : N).
(** one call (observable_matrix.h:26-71); an exception leaves the object as it was *)
Definition om_call (m : om) (o : call) : om * reply :=
  match o with
  | Resize rows cols v => (om_resize rows cols v m, Done)
  | Get r c => (m, match om_get m r c with Ok v => Value v | Fail _ => Bad end)
  | Set_ r c v => match om_set m r c v with Ok m => (m, Done) | Fail _ => (m, Bad) end
  | Add r c d => match om_add m r c d with Ok m => (m, Done) | Fail _ => (m, Bad) end
  | Size => (m, Count (N.of_nat (length (o_data m))))
  | Flatten => (m, Vector (om_flatten m))
  | Extract => let '(m, l) := om_extract m in (m, Vector l)
  end.
(** a history (observable_matrix.h:26-71) *)
Fixpoint om_calls (m : om) (l : list call) : om * list reply :=
  match l with [] => (m, []) | o :: l => let '(m, y) := om_call m o in let '(m, ys) := om_calls m l in (m, y :: ys) end.
End Mat.
