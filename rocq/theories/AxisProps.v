(** C90 *)
From Coq Require Import List Arith.
From Verif Require Import Base AxisModel AxisSpec AxisProofs.
Import ListNotations.

(** C90: of two or more components of equal size only the last is kept, at the second value of the new index; the first part is one at its first
    element and zero elsewhere, all others are zero. *)
Theorem c90_joined (T : Type) (zero one : T) n comps : 0 < n -> 2 <= length comps -> Forall (fun v => length v = n) comps ->
  exists d, grow T zero one comps = Ok d /\ length d = length comps * n /\ slice n 0 d = one :: repeat zero (n - 1) /\ slice n 1 d = last comps [] /\
    forall i, 2 <= i < length comps -> slice n i d = repeat zero n.
Proof. exact (grown T zero one n comps). Qed.
Print Assumptions c90_joined.

(** C90: a single component is copied beyond the end of the data. *)
Theorem c90_single (T : Type) (zero one : T) c : c <> [] -> grow T zero one [c] = Fail UB.
Proof. exact (grown_one T zero one c). Qed.
Print Assumptions c90_single.

(** C90 is false as documented, that each value of the new index has its component. *)
Theorem c90_components_refuted : exists comps d, Forall (fun v : list nat => length v = 2) comps /\ grow nat 0 1 comps = Ok d /\ slice 2 0 d <> nth 0 comps [] /\ slice 2 1 d <> nth 1 comps [] /\ slice 2 2 d <> nth 2 comps [].
Proof. exists [[2; 3]; [4; 5]; [6; 7]], [1; 0; 6; 7; 0; 0]. split; [repeat constructor|]. split; [reflexivity|]. repeat split; discriminate. Qed.
Print Assumptions c90_components_refuted.

(** non-vacuity *)
Example c90_two : grow nat 0 1 [[2; 3]; [4; 5]] = Ok [1; 0; 4; 5].
Proof. reflexivity. Qed.
