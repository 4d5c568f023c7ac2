(** The tensors of the TRG contractor, element by element: trg_contractor_impl.h:26-126, 355-466, 832-1054 and
    1093-1232. Dense tensors without quantum numbers and leg directions; real and complex elements are complex
    numbers; the singular value decomposition of the tensor library is a parameter. *)
From Coq Require Import List Arith Bool Reals.
From Verif Require Import Base Cplx TrgModel.
Import ListNotations.
Local Open Scope nat_scope.

(** a tensor: the dimensions of its legs and its elements (the tensor class of the library, as it is used in
    trg_contractor_impl.h:442-466) *)
Record tensor := Tn { shape : list nat; entry : list nat -> C }.
(** trg_contractor_impl.h:442-466 *)
Definition rank (A : tensor) : nat := length (shape A).
(** trg_contractor_impl.h:855-856 *)
Definition dimat (A : tensor) (k : nat) : nat := nth k (shape A) 0.
(** where axis k stands in a list of axes (the lists in braces, trg_contractor_impl.h:444-447) *)
Fixpoint position (k : nat) (l : list nat) : option nat :=
  match l with [] => None | x :: t => if x =? k then Some 0 else option_map S (position k t) end.
(** the axes of a tensor of rank n that are not in the list, in order (442-448) *)
Definition others (n : nat) (l : list nat) : list nat :=
  filter (fun k => match position k l with None => true | Some _ => false end) (seq 0 n).
(** the indices of n axes from k on: those of [l] take the values [vs], the others the values [rest] in order
    (442-448) *)
Fixpoint fill (k n : nat) (l vs rest : list nat) : list nat :=
  match n with
  | 0 => []
  | S n' => match position k l with
            | Some j => nth j vs 0 :: fill (S k) n' l vs rest
            | None => match rest with [] => 0 :: fill (S k) n' l vs [] | x :: t => x :: fill (S k) n' l vs t end
            end
  end.
(** sum over all values of some legs (442-448) *)
Fixpoint nsum (ds : list nat) (f : list nat -> C) : C :=
  match ds with [] => f [] | d :: t => sumC (fun i => nsum t (fun vs => f (i :: vs))) (seq 0 d) end.
(** Contract(&A, axes, &B, axes, &out): the free legs of A, then those of B (442-448) *)
Definition contract (A : tensor) (la : list nat) (B : tensor) (lb : list nat) : tensor :=
  let fa := others (rank A) la in
  let fb := others (rank B) lb in
  Tn (map (dimat A) fa ++ map (dimat B) fb)
     (fun ix => nsum (map (dimat A) la) (fun vs =>
        (entry A (fill 0 (rank A) la vs (firstn (length fa) ix)) * entry B (fill 0 (rank B) lb vs (skipn (length fa) ix)))%C)).
(** Transpose: the new axis i is the old axis p[i] (385-387) *)
Definition transpose (p : list nat) (A : tensor) : tensor :=
  Tn (map (dimat A) p) (fun ix => entry A (map (fun k => match position k p with Some j => nth j ix 0 | None => 0 end) (seq 0 (rank A)))).
(** the element of a tensor without legs (859) *)
Definition scalar (A : tensor) : C := entry A [].
(** Eye (854-855) *)
Definition eye (d : nat) : tensor := Tn [d; d] (fun ix => if nth 0 ix 0 =? nth 1 ix 0 then RtoC 1 else RtoC 0).
(** a diagonal matrix, the form of the singular values (389-397) *)
Definition diag (s : list R) : tensor :=
  Tn [length s; length s] (fun ix => if nth 0 ix 0 =? nth 1 ix 0 then RtoC (nth (nth 0 ix 0) s 0%R) else RtoC 0).
(** Dag (64-66) *)
Definition dag (A : tensor) : tensor := Tn (shape A) (fun ix => Cconj (entry A ix)).
(** operator+ (91) *)
Definition tadd (A B : tensor) : tensor := Tn (shape A) (fun ix => (entry A ix + entry B ix)%C).
(** operator* with 1.0 / count (1241) *)
Definition tdiv (k : nat) (A : tensor) : tensor := Tn (shape A) (fun ix => (RtoC (1 / INR k) * entry A ix)%C).

(** TRGTruncateParams (trg_contractor.h:60-134) *)
Record trunc := mkTrunc { trunc_err : R; D_min : nat; D_max : nat; inv_relative_eps : R }.
(** numeric_limits<double>::min() (trg_contractor.h:131-133) *)
Definition float_min : R := (/ 2 ^ 1022)%R.
(** the largest element of a vector of singular values' roots (414) *)
Definition max_abs (s : list R) : R := fold_right (fun x m => Rmax (Rabs x) m) 0%R s.
(** trg_contractor.h:131-133 ComputeEffectiveInvEps *)
Definition inv_eps (p : trunc) (s : list R) : R := Rmax (inv_relative_eps p * max_abs s) float_min.
(** ElementWiseInv(eps): elements below eps are set to zero (416-417) *)
Definition inv_elements (eps : R) (s : list R) : list R := map (fun x => if Rlt_dec (Rabs x) eps then 0%R else (/ x)%R) s.

Section Ops.
(** SVD(&T, 2, ..., &u, &s, &vt): legs 0, 1 against legs 2, 3; with the truncation of the parameters (389-393) *)
Context (svd : trunc -> tensor -> tensor * list R * tensor).

(** 355-424 SplitNode_: P, Q and (U, Vt, 1/sqrt(S)) *)
Definition split_tensor (p : trunc) (st : stype) (T_in : tensor) : tensor * tensor * (tensor * tensor * list R) :=
  let T := match st with Type0 => transpose [0; 3; 1; 2] T_in | Type1 => T_in end in
  let '(u, s, vt) := svd p T in
  let s_sqrt := map sqrt s in
  let left_piece := contract u [2] (diag s_sqrt) [0] in
  let right_piece := contract (diag s_sqrt) [1] vt [0] in
  let iso := (u, vt, inv_elements (inv_eps p s_sqrt) s_sqrt) in
  match st with Type0 => (left_piece, right_piece, iso) | Type1 => (right_piece, left_piece, iso) end.

(** 442-452 ContractPlaquetteCore_ *)
Definition plaquette_core (Q0 Q1 P1 P0 : tensor) : tensor :=
  let tmp0 := contract P1 [1] P0 [0] in
  let tmp1 := contract Q1 [0] Q0 [2] in
  transpose [3; 2; 1; 0] (contract tmp0 [1; 2] tmp1 [3; 0]).
(** 454-466 ContractDiamondCore_ *)
Definition diamond_core (Np Ep Sq Wq : tensor) : tensor :=
  let SW := contract Sq [0] Wq [2] in
  let NE := contract Np [1] Ep [0] in
  transpose [1; 0; 3; 2] (contract SW [0; 3] NE [2; 1]).
(** 832-860 ContractFinal1x1_ *)
Definition final_1x1 (T : tensor) : C :=
  let tmp := contract T [0; 2] (eye (dimat T 2)) [0; 1] in
  scalar (contract tmp [0; 1] (eye (dimat T 1)) [1; 0]).
(** 862-882 ContractFinal2x2_ *)
Definition final_2x2 (T : nat -> tensor) : C :=
  let top := contract (T 0) [0; 2] (T 1) [2; 0] in
  let bot := contract (T 2) [0; 2] (T 3) [2; 0] in
  scalar (contract top [0; 1; 2; 3] bot [1; 0; 3; 2]).
(** 896-908 and 993-1001 row_ring *)
Definition row_ring (A0 A1 A2 : tensor) : tensor :=
  contract (contract A0 [2] A1 [0]) [0; 4] A2 [2; 0].
(** 884-935 ContractFinal3x3_ *)
Definition final_3x3 (T : nat -> tensor) : C :=
  let R0 := row_ring (T 0) (T 1) (T 2) in
  let R1 := row_ring (T 3) (T 4) (T 5) in
  let R2 := row_ring (T 6) (T 7) (T 8) in
  let M01 := contract R0 [0; 2; 4] R1 [1; 3; 5] in
  scalar (contract M01 [0; 1; 2; 3; 4; 5] R2 [0; 2; 4; 1; 3; 5]).
(** 937-980 PunchAllHoleFinal2x2_ *)
Definition hole_2x2 (T : nat -> tensor) (i : nat) : tensor :=
  let ab := contract (T 0) [0; 2] (T 1) [2; 0] in
  match i with
  | 0 => transpose [1; 3; 0; 2] (contract (contract (T 1) [1; 3] (T 3) [3; 1]) [2; 3] (T 2) [2; 0])
  | 1 => transpose [1; 3; 0; 2] (contract (contract (T 0) [1; 3] (T 2) [3; 1]) [2; 3] (T 3) [2; 0])
  | 2 => transpose [3; 1; 2; 0] (contract ab [2; 3] (T 3) [3; 1])
  | _ => transpose [3; 1; 2; 0] (contract ab [0; 1] (T 2) [3; 1])
  end.
(** 982-1054 PunchAllHoleFinal3x3_ *)
Definition hole_3x3 (T : nat -> tensor) (i : nat) : tensor :=
  let rel := fun dr dc => T ((i / 3 + dr) mod 3 * 3 + (i mod 3 + dc) mod 3) in
  let R0 := contract (rel 0 1) [2] (rel 0 2) [0] in
  let R1 := row_ring (rel 1 0) (rel 1 1) (rel 1 2) in
  let R2 := row_ring (rel 2 0) (rel 2 1) (rel 2 2) in
  let R12 := contract R1 [0; 2; 4] R2 [1; 3; 5] in
  transpose [1; 2; 0; 3] (contract R0 [1; 3; 2; 5] R12 [1; 2; 4; 5]).
(** 1110-1172: the hole of the piece of child k of a plaquette *)
Definition plaquette_hole (k : nat) (H Q_TL Q_TR P_BL P_BR : tensor) : tensor :=
  let tmp0 := contract P_BL [1] P_BR [0] in
  let tmp1 := contract Q_TR [0] Q_TL [2] in
  let H_tmp2 := transpose [3; 2; 1; 0] H in
  let H_tmp0 := transpose [0; 3; 2; 1] (contract H_tmp2 [2; 3] tmp1 [1; 2]) in
  let H_tmp1 := transpose [3; 0; 1; 2] (contract H_tmp2 [0; 1] tmp0 [0; 3]) in
  match k with
  | 0 => contract H_tmp1 [0; 1] Q_TR [1; 2]
  | 1 => transpose [2; 0; 1] (contract H_tmp1 [2; 3] Q_TL [0; 1])
  | 2 => transpose [0; 2; 1] (contract H_tmp0 [2; 3] P_BR [1; 2])
  | _ => transpose [2; 0; 1] (contract H_tmp0 [0; 1] P_BL [0; 2])
  end.
(** 1174-1232: the hole of the piece of child k of a diamond *)
Definition diamond_hole (k : nat) (H Np Ep Sq Wq : tensor) : tensor :=
  let SW := contract Sq [0] Wq [2] in
  let NE := contract Np [1] Ep [0] in
  let H_out_pre := transpose [1; 0; 3; 2] H in
  let H_SW := transpose [3; 0; 1; 2] (contract H_out_pre [2; 3] NE [0; 3]) in
  let H_NE := transpose [0; 3; 2; 1] (contract H_out_pre [0; 1] SW [1; 2]) in
  match k with
  | 0 => transpose [0; 2; 1] (contract H_NE [2; 3] Ep [1; 2])
  | 1 => transpose [2; 0; 1] (contract H_NE [0; 1] Np [0; 2])
  | 2 => transpose [2; 0; 1] (contract H_SW [2; 3] Wq [0; 1])
  | _ => contract H_SW [0; 1] Sq [1; 2]
  end.
(** 26-126 LinearSplitAdjointToHole_ with a hole of P only *)
Definition adjoint_of_P (st : stype) (iso : tensor * tensor * list R) (H_P : tensor) : tensor :=
  let '(U, Vt, sinv) := iso in
  let Sinv := dag (diag sinv) in
  match st with
  | Type0 => transpose [0; 2; 3; 1] (contract (contract H_P [2] Sinv [0]) [2] (dag Vt) [0])
  | Type1 => contract (dag U) [2] (contract Sinv [1] H_P [0]) [0]
  end.
(** 26-126 LinearSplitAdjointToHole_ with a hole of Q only *)
Definition adjoint_of_Q (st : stype) (iso : tensor * tensor * list R) (H_Q : tensor) : tensor :=
  let '(U, Vt, sinv) := iso in
  let Sinv := dag (diag sinv) in
  match st with
  | Type0 => transpose [0; 2; 3; 1] (contract (dag U) [2] (contract Sinv [1] H_Q [0]) [0])
  | Type1 => contract (contract H_Q [2] Sinv [0]) [2] (dag Vt) [0]
  end.
(** the contractor with these tensors (trg_contractor_impl.h) *)
Definition tensor_ops : trg_ops :=
  mkTrgOps tensor tensor (tensor * tensor * list R) C trunc split_tensor plaquette_core diamond_core final_1x1 final_2x2 final_3x3
    hole_2x2 hole_3x3 plaquette_hole diamond_hole adjoint_of_P adjoint_of_Q tadd tdiv.
End Ops.
