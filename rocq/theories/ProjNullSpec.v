(** When the norms of projections are not zero. *)
From Coq Require Import List Arith Bool Reals.
From Verif Require Import Base Cplx SumModel SumSpec TrgTensor ProjModel ProjSpec.
Import ListNotations.
Local Open Scope nat_scope.

(** the calls are on sites of the lattice, and the gates have the dimensions of their sites *)
Definition calls_fit (P : peps) (l : list (call * tensor * option tensor)) : Prop := forall o g h, In (o, g, h) l -> valid P o /\ gate_fits P o g.
(** no singular value is cut off in a sequence of calls: the SVD has room for them, and none is between zero and the tolerance *)
Fixpoint uncut (qr : tensor -> tensor * tensor) (svd : nat -> tensor -> tensor * list R * tensor) (tol : R) (m : nat) (P : peps) (l : list (call * tensor * option tensor)) : Prop :=
  match l with
  | [] => True
  | (o, g, h) :: l' =>
      let res := project qr svd tol P o g h in
      room m P o /\ (forall b, In b (bonds_of (p_rows P) (p_cols P) o) -> kept tol (lam_of (r_peps res) b)) /\ uncut qr svd tol m (r_peps res) l'
  end.
