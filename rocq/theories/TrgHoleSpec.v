(** What the holes of a TRG contractor are for: the amplitude of the network with one tensor replaced. *)
From Coq Require Import List Arith Bool Reals.
From Verif Require Import Base Cplx SumModel SumSpec TrgModel TrgSpec TrgTensor TrgExactSpec.
Import ListNotations.
Local Open Scope nat_scope.

(** all legs of a tensor against those of a hole *)
Definition pair (Y H : tensor) : C := nsum (shape Y) (fun ix => (entry Y ix * entry H ix)%C).
(** the network with one tensor replaced *)
Definition put_site (X : nat -> nat -> tensor) (r c : nat) (Y : tensor) : nat -> nat -> tensor :=
  fun i j => if (i =? r) && (j =? c) then Y else X i j.
(** the legs of a site tensor as they are decomposed: (left, up | down, right) or (left, down | right, up) *)
Definition matrix_of (st : stype) (T : tensor) : tensor := match st with Type0 => transpose [0; 3; 1; 2] T | Type1 => T end.
(** Y is orthogonal to the left vectors u, to the right vectors vt *)
Definition left_orthogonal (u Y : tensor) : Prop := forall x k l, x < dimat u 2 -> k < dimat Y 2 -> l < dimat Y 3 ->
  sumC (fun i => sumC (fun j => (Cconj (entry u [i; j; x]) * entry Y [i; j; k; l])%C) (seq 0 (dimat Y 1))) (seq 0 (dimat Y 0)) = RtoC 0.
Definition right_orthogonal (vt Y : tensor) : Prop := forall i j x, i < dimat Y 0 -> j < dimat Y 1 -> x < dimat vt 0 ->
  sumC (fun k => sumC (fun l => (entry Y [i; j; k; l] * Cconj (entry vt [x; k; l]))%C) (seq 0 (dimat Y 3))) (seq 0 (dimat Y 2)) = RtoC 0.
(** u, s and vt have the legs of a decomposition of M *)
Definition svd_legs (M u : tensor) (s : list R) (vt : tensor) : Prop :=
  shape u = [dimat M 0; dimat M 1; length s] /\ shape vt = [length s; dimat M 2; dimat M 3].
(** u, s and vt are singular triples of M, all of them or the ones a truncation kept, and no value that is kept
    falls below the threshold of the inverse without being zero *)
Definition singular (p : trunc) (M u : tensor) (s : list R) (vt : tensor) : Prop :=
  svd_legs M u s vt /\ Forall (fun x => (0 <= x)%R) s /\
  (forall x k l, x < length s -> k < dimat M 2 -> l < dimat M 3 ->
     sumC (fun i => sumC (fun j => (Cconj (entry u [i; j; x]) * entry M [i; j; k; l])%C) (seq 0 (dimat M 1))) (seq 0 (dimat M 0)) = (RtoC (nth x s 0%R) * entry vt [x; k; l])%C) /\
  (forall i j x, i < dimat M 0 -> j < dimat M 1 -> x < length s ->
     sumC (fun k => sumC (fun l => (entry M [i; j; k; l] * Cconj (entry vt [x; k; l]))%C) (seq 0 (dimat M 3))) (seq 0 (dimat M 2)) = (entry u [i; j; x] * RtoC (nth x s 0%R))%C) /\
  Forall (fun x => x = 0%R \/ (inv_eps p (map sqrt s) <= sqrt x)%R) s.
(** the left and the right vectors are orthonormal *)
Definition orthonormal (M u : tensor) (s : list R) (vt : tensor) : Prop :=
  (forall x y, x < length s -> y < length s ->
     sumC (fun i => sumC (fun j => (Cconj (entry u [i; j; x]) * entry u [i; j; y])%C) (seq 0 (dimat M 1))) (seq 0 (dimat M 0)) = RtoC (if x =? y then 1 else 0)) /\
  (forall x y, x < length s -> y < length s ->
     sumC (fun k => sumC (fun l => (entry vt [x; k; l] * Cconj (entry vt [y; k; l]))%C) (seq 0 (dimat M 3))) (seq 0 (dimat M 2)) = RtoC (if x =? y then 1 else 0)).
(** a property of the decompositions behind the cache of a contractor *)
Definition cached_svds svd (G : trunc -> tensor -> tensor -> list R -> tensor -> Prop) (t : trg (tensor_ops svd)) : Prop :=
  forall p, t_prm t = Some p -> forall a, In a (t_scales t) -> forall i T d, i < alen (tens a) -> i < alen (splits a) ->
    aval (tens a) i = Some T -> aval (splits a) i = Some d ->
    let '(u, s, vt) := svd p (matrix_of (sd_type d) T) in G p (matrix_of (sd_type d) T) u s vt.
(** how the tensor of a site is split: checkerboard *)
Definition site_type (r c : nat) : stype := if Nat.even (r + c) then Type0 else Type1.
