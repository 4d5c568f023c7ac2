(** What the contraction of an open network is, and when the decompositions inside the boundary MPS method lose nothing. *)
From Coq Require Import List Arith Bool Reals.
From Verif Require Import Base Cplx SumModel SumSpec TrgTensor BmpsModel.
Import ListNotations.
Local Open Scope nat_scope.

(** The value of an open network: the sum over all values of its bonds of the product of the site tensors. Legs are numbered
    left 0, down 1, right 2, up 3; a leg that points out of the lattice takes its only value 0. *)
Definition open_sum (D rows cols : nat) (tn : nat -> nat -> list nat -> C) : C :=
  sum_over (bonds rows cols false) (fun _ => D)
    (fun a => prodC (fun rc => tn (fst rc) (snd rc) (map (leg_value rows cols false a (fst rc) (snd rc)) [0; 1; 2; 3])) (grid rows cols))
    (fun _ => 0).
(** QR of legs 0, 1 against legs 2, 3: the factors give the tensor back, and their common leg is no larger than the legs 2, 3
    together *)
Definition exact_qr (qr : tensor -> tensor * tensor) : Prop :=
  forall T, length (shape T) = 4 -> let '(q, r) := qr T in exists k,
    shape q = [dimat T 0; dimat T 1; k] /\ shape r = [k; dimat T 2; dimat T 3] /\ k <= dimat T 2 * dimat T 3 /\
    forall i j x y, i < dimat T 0 -> j < dimat T 1 -> x < dimat T 2 -> y < dimat T 3 ->
      entry T [i; j; x; y] = sumC (fun z => (entry q [i; j; z] * entry r [z; x; y])%C) (seq 0 k).
(** SVD of leg 0 against legs 1, 2 with at most m singular values kept: matrices with at most m rows are given back, with no
    more singular values than rows *)
Definition svd_keeps (m : nat) (svd : tensor -> tensor * list R * tensor) : Prop :=
  forall T, length (shape T) = 3 -> dimat T 0 <= m -> let '(u, s, vt) := svd T in
    shape u = [dimat T 0; length s] /\ shape vt = [length s; dimat T 1; dimat T 2] /\ length s <= dimat T 0 /\
    forall i j k, i < dimat T 0 -> j < dimat T 1 -> k < dimat T 2 ->
      entry T [i; j; k] = sumC (fun x => (entry u [i; x] * RtoC (nth x s 0%R) * entry vt [x; j; k])%C) (seq 0 (length s)).
(** closing a hole (legs left, down, right, up) with a site tensor *)
Definition plug_hole (h : tensor) (t : list nat -> C) : C := nsum (shape h) (fun ix => (entry h ix * t ix)%C).
(** the wave function of a PEPS: its network, with the tensor of each site that the configuration selects, contracted *)
Definition peps_wave (D rows cols : nat) (tps : nat -> nat -> nat -> list nat -> C) (S : list nat) : C :=
  open_sum D rows cols (fun r c => tps r c (nth (r * cols + c) S 0)).
