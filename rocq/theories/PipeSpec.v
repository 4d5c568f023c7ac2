(** What goes from the simple update into the sampling. *)
From Coq Require Import List Arith Bool Reals.
From Verif Require Import Base Cplx SumModel SumSpec TrgTensor BmpsSpec ProjModel ProjSpec ProjNullSpec.
Import ListNotations.
Local Open Scope nat_scope.

(** no weight is negative *)
Definition nonnegative (P : peps) : Prop := forall b, In b (bonds (p_rows P) (p_cols P) (p_per P)) -> Forall (fun x => (0 <= x)%R) (lam_of P b).
(** singular values are not negative *)
Definition svd_nonnegative (svd : nat -> tensor -> tensor * list R * tensor) : Prop := forall n T, Forall (fun x => (0 <= x)%R) (snd (fst (svd n T))).
(** no bond is larger than D *)
Definition bonds_at_most (D : nat) (P : peps) : Prop := forall b, In b (bonds (p_rows P) (p_cols P) (p_per P)) -> length (lam_of P b) <= D.
(** two states on each site *)
Definition spins (P : peps) : Prop := forall r c, r < p_rows P -> c < p_cols P -> phys P r c = 2.
(** a wave function as a function of the list of the states, row by row, of a lattice with K columns *)
Definition row_by_row (K : nat) (psi : basis -> C) : list nat -> C := fun S => psi (fun r c => nth (r * K + c) S 0).

(** An evolution by projections in which nothing goes wrong: the decompositions are exact and the singular values not negative; the PEPS
    to begin with fits together, has open edges and no negative weights; the calls fit; nothing is cut off; the gates do not take the
    state to zero. *)
Definition good_evolution (qr : tensor -> tensor * tensor) (svd : nat -> tensor -> tensor * list R * tensor) (tol : R) (calls : list (call * tensor * option tensor)) (P : peps) : Prop :=
  qr_exact qr /\ svd_nonnegative svd /\ sound tol P /\ p_per P = false /\ nonnegative P /\ calls_fit P calls /\
  (exists m, svd_up_to m svd /\ uncut qr svd tol m P calls) /\
  exists s, proper P s /\ acts (p_rows P) (p_cols P) calls (wave P) s <> RtoC 0.
(** A boundary MPS contraction that loses nothing on bonds of dimension D. *)
Definition good_contraction (D : nat) (qr : tensor -> tensor * tensor) (svd : tensor -> tensor * list R * tensor) (rows cols : nat) : Prop :=
  1 <= D /\ exact_qr qr /\ exists m, svd_keeps m svd /\ D ^ (Nat.max rows cols - 1) <= m.
