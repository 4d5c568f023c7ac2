(** What canonical bookkeeping promises, stated without the code's helpers: what the factorisations of the
    tensor library guarantee, what a flag claims, and the state an MPS represents. *)
From Coq Require Import List Arith Lia Bool.
From Verif Require Import Base CanonModel.
Import ListNotations.

(** A tensor library.  A three-leg tensor is, for each value of the physical leg, a matrix; matrices
    multiply associatively.  [left_iso t] and [right_iso t] say that [t] is a left or right isometry. *)
Record library := {
  lib : tensors;
  matrix : Type;
  mul : matrix -> matrix -> matrix;
  one : matrix;
  slice : mps_tensor lib -> nat -> matrix;
  bond : bond_matrix lib -> matrix;
  tr : matrix -> matrix;
  left_iso : mps_tensor lib -> Prop;
  right_iso : mps_tensor lib -> Prop;
  mul_assoc : forall a b c, mul a (mul b c) = mul (mul a b) c;
  mul_one : forall a, mul a one = a;
  one_mul : forall a, mul one a = a;
  qr_factor : forall t s, slice t s = mul (slice (fst (qr lib t)) s) (bond (snd (qr lib t)));
  qr_iso : forall t, left_iso (fst (qr lib t));
  lq_factor : forall t s, slice t s = mul (bond (fst (lq lib t))) (slice (snd (lq lib t)) s);
  lq_iso : forall t, right_iso (snd (lq lib t));
  svd_factor : forall t s, slice t s = mul (bond (fst (svd lib t))) (slice (snd (svd lib t)) s);
  svd_iso : forall t, right_iso (snd (svd lib t));
  truncated_iso : forall t, right_iso (snd (svd_truncated lib t));
  absorb_left_slice : forall r t s, slice (absorb_left lib r t) s = mul (bond r) (slice t s);
  absorb_right_slice : forall t l s, slice (absorb_right lib t l) s = mul (slice t s) (bond l);
  transpose_slice : forall t s, slice (transpose lib t) s = tr (slice t s);
  tr_mul : forall a b, tr (mul a b) = mul (tr b) (tr a);
  tr_one : tr one = one;
  transpose_left : forall t, left_iso t -> right_iso (transpose lib t);
  transpose_right : forall t, right_iso t -> left_iso (transpose lib t)
}.

(** the amplitude of a configuration of the physical legs: the product of the chosen matrices *)
Fixpoint amplitude (L : library) (l : list (mps_tensor (lib L))) (c : list nat) : matrix L :=
  match l, c with
  | t :: l', s :: c' => mul L (slice L t s) (amplitude L l' c')
  | _, _ => one L
  end.

(** two lists of tensors represent the same state *)
Definition same_state (L : library) (l l' : list (mps_tensor (lib L))) : Prop :=
  length l' = length l /\ forall c, length c = length l -> amplitude L l' c = amplitude L l c.

(** no flag claims what its tensor is not *)
Definition honest (L : library) (m : mps (lib L)) : Prop :=
  length (flags m) = length (tens m)
  /\ (forall i t, nth_error (tens m) i = Some t -> nth_error (flags m) i = Some LEFT_FLAG -> left_iso L t)
  /\ (forall i t, nth_error (tens m) i = Some t -> nth_error (flags m) i = Some RIGHT_FLAG -> right_iso L t).

(** [m] is in mixed canonical form about site [c], and says so *)
Definition centred (L : library) (m : mps (lib L)) (c : nat) : Prop :=
  center m = Some c
  /\ forall i t, nth_error (tens m) i = Some t ->
       (i < c -> left_iso L t /\ nth_error (flags m) i = Some LEFT_FLAG)
       /\ (c < i -> right_iso L t /\ nth_error (flags m) i = Some RIGHT_FLAG).

(** the operations that keep the flags honest *)
Definition factorising (o : op) : Prop :=
  match o with
  | LeftCanonicalizeTen _ | RightCanonicalizeTen _ | LeftCanonicalize _ | RightCanonicalize _ | Centralize _ => True
  | _ => False
  end.
