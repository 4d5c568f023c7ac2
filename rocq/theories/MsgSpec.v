(** What transfers of states mean to the caller. *)
From Coq Require Import List Arith NArith Bool.
From Verif Require Import Base MsgModel.
Import ListNotations.
Local Open Scope nat_scope.

(** rows x cols sites, at least one, all with the same number of components *)
Definition uniform {T} (v : sitps T) : Prop :=
  0 < p_rows v * p_cols v /\ length (p_sites v) = p_rows v * p_cols v /\ exists d, forall s, In s (p_sites v) -> length s = d.
Section Messages.
Context {T : Type}.
(** what [send] puts on the wire *)
Definition wire (v : sitps T) : list (msg T) := match send v with Ok l => l | Fail _ => [] end.
(** pending: states on their way from every source *)
Definition take1 (pending : nat -> list (sitps T)) (s : nat) : option (sitps T * (nat -> list (sitps T))) :=
  match pending s with [] => None | v :: t => Some (v, fun s' => if s' =? s then t else pending s') end.
Fixpoint take_all (choices : list nat) (pending : nat -> list (sitps T)) : option (list (nat * sitps T) * (nat -> list (sitps T))) :=
  match choices with
  | [] => Some ([], pending)
  | s :: cs => match take1 pending s with
               | None => None
               | Some (v, p1) => match take_all cs p1 with Some (vs, p2) => Some ((s, v) :: vs, p2) | None => None end
               end
  end.
End Messages.
(** sizes representable in 64 bits *)
Definition fits {T} (v : sitps T) : Prop := (N.of_nat (p_rows v) < 2 ^ 64)%N /\ (N.of_nat (p_cols v) < 2 ^ 64)%N /\ forall s, In s (p_sites v) -> (N.of_nat (length s) < 2 ^ 64)%N.
(** the first 32 bytes of a buffer *)
Definition header (rows cols dim bc : N) : list N := le_bytes 8 rows ++ le_bytes 8 cols ++ le_bytes 8 dim ++ le_bytes 8 bc.
(** What is assumed of the tensor library's shell packing: unpacking inverts packing whatever follows,
    and an incomplete shell is rejected. *)
Definition good_packing {Shell} (pack : Shell -> list N) (unpack : list N -> option (Shell * list N)) : Prop :=
  (forall s rest, unpack (pack s ++ rest) = Some (s, rest)) /\ (forall s p q, pack s = p ++ q -> q <> [] -> unpack p = None).
