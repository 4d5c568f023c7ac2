(** Joining the components of a site tensor along a new physical index. *)
From Coq Require Import List Arith.
From Verif Require Import Base.
Import ListNotations.

Section Axis.
Variable T : Type.
Variables zero one : T.
(** hp_numeric::VectorCopy to the data from position [at_] on (used by algorithm/vmc_update/axis_update.h:49); beyond the end: undefined *)
Definition copy_to (at_ : nat) (v data : list T) : res (list T) :=
  if at_ + length v <=? length data then Ok (firstn at_ data ++ v ++ skipn (at_ + length v) data) else Fail UB.
(** axis_update.h:48-50 the loop; a component with fewer than [stride] elements is read beyond its end *)
Fixpoint copy_all (stride : nat) (comps : list (list T)) (data : list T) : res (list T) :=
  match comps with
  | [] => Ok data
  | c :: comps =>
      if stride <=? length c then d <- copy_to stride (firstn stride c) data;; copy_all stride comps d else Fail UB
  end.
(** axis_update.h:33-52 GrowPhyIndexFromSplitIndexTensorsWithouQN_ on the raw data in row-major order; the new index comes first. Dense tensors
    with at least one element. Setting the element (0, 0, 0, 0, 0) allocates the data, filled with zeros. *)
Definition grow (comps : list (list T)) : res (list T) :=
  match comps with
  | [] => Fail UB
  | c0 :: _ =>
      match repeat zero (length comps * length c0) with
      | [] => Fail UB
      | _ :: d => copy_all (length c0) comps (one :: d)
      end
  end.
End Axis.
