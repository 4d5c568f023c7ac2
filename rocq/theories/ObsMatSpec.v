(** A table of values, one for each site, that can be taken away. *)
From Coq Require Import List NArith Bool.
From Verif Require Import ObsMatModel.
Import ListNotations.
Local Open Scope N_scope.

Section Spec.
Context {T : Type}.
Variable plus : T -> T -> T.
(** A table with its size; or a table that was taken away. *)
Inductive table := Table (rows cols : N) (f : N -> N -> T) | Gone (rows cols : N).
(** 0, ..., n - 1 *)
Definition below (n : N) : list N := map N.of_nat (seq 0 (N.to_nat n)).
(** row by row *)
Definition row_major (rows cols : N) (f : N -> N -> T) : list T := concat (map (fun r => map (fun c => f r c) (below cols)) (below rows)).
Definition inside (t : table) (r c : N) : option T := match t with Table rows cols f => if (r <? rows) && (c <? cols) then Some (f r c) else None | Gone _ _ => None end.
Definition updated (t : table) (r c : N) (v : T) : table :=
  match t with Table rows cols f => Table rows cols (fun i j => if (i =? r) && (j =? c) then v else f i j) | Gone rows cols => Gone rows cols end.
Definition contents (t : table) : list T := match t with Table rows cols f => row_major rows cols f | Gone _ _ => [] end.
Definition gone (t : table) : table := match t with Table rows cols _ | Gone rows cols => Gone rows cols end.
Definition table_call (t : table) (o : call T) : table * reply T :=
  match o with
  | Resize _ rows cols v => (Table rows cols (fun _ _ => v), Done T)
  | Get _ r c => (t, match inside t r c with Some v => Value T v | None => Bad T end)
  | Set_ _ r c v => match inside t r c with Some _ => (updated t r c v, Done T) | None => (t, Bad T) end
  | Add _ r c d => match inside t r c with Some x => (updated t r c (plus x d), Done T) | None => (t, Bad T) end
  | Size _ => (t, Count T (match t with Table rows cols _ => rows * cols | Gone _ _ => 0 end))
  | Flatten _ => (t, Vector T (contents t))
  | Extract _ => (gone t, Vector T (contents t))
  end.
Fixpoint table_calls (t : table) (l : list (call T)) : table * list (reply T) :=
  match l with [] => (t, []) | o :: l => let '(t, y) := table_call t o in let '(t, ys) := table_calls t l in (t, y :: ys) end.
(** the number of elements fits in a size_t *)
Definition fits (o : call T) : Prop := match o with Resize _ rows cols _ => rows * cols < 2 ^ 64 | _ => True end.
(** a call that does not give the object a new size *)
Definition keeps (o : call T) : Prop := match o with Resize _ _ _ _ => False | _ => True end.
(** the answer of an object without elements *)
Definition empty_reply (y : reply T) : Prop := match y with Bad _ => True | Vector _ l => l = [] | Count _ n => n = 0 | _ => False end.
End Spec.
