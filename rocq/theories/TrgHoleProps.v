(** The holes of the TRG contractor (C74): what a hole gives against a tensor put in its place. *)
From Coq Require Import List Arith Lia Bool Reals.
From Verif Require Import Base Cplx SumModel SumSpec TrgModel TrgSpec TrgTensor TrgExactSpec TrgHoleSpec TrgHoleTop TrgHoleEx.
Import ListNotations.

(** Side 2 and 3: the hole against any tensor is the amplitude of the network with that tensor in its place. *)
Theorem c74_small_holes : forall svd p n, trg_size n -> forall X t z, n = 2 \/ n = 3 -> closes n X ->
  fresh (tensor_ops svd) p (torus (tensor_ops svd) n X) = Ok (t, z) ->
  exists H, punch_all_holes (tensor_ops svd) t (torus (tensor_ops svd) n X) = Ok H /\ alen H = n * n /\
    forall r c, r < n -> c < n -> shape (aval H (r * n + c)) = shape (X r c) /\
      forall Y, shape Y = shape (X r c) -> pair Y (aval H (r * n + c)) = torus_sum n (put_site X r c Y).
Proof. exact small_holes. Qed.
Print Assumptions c74_small_holes.

(** Every side: the hole against the tensor it was punched at is the amplitude the contractor reports, also when the
    decompositions truncate, as long as what they keep are singular triples. *)
Theorem c74_own_tensor : forall svd p n, trg_size n -> forall X t z, 2 <= n -> closes n X ->
  fresh (tensor_ops svd) p (torus (tensor_ops svd) n X) = Ok (t, z) -> cached_svds svd singular t ->
  exists H, punch_all_holes (tensor_ops svd) t (torus (tensor_ops svd) n X) = Ok H /\ alen H = n * n /\
    forall r c, r < n -> c < n -> shape (aval H (r * n + c)) = shape (X r c) /\ pair (X r c) (aval H (r * n + c)) = z.
Proof. exact holes_own. Qed.
Print Assumptions c74_own_tensor.

(** ... and so after any accepted moves, with the tensors and the amplitude of the moment. *)
Theorem c74_own_tensor_after_moves : forall svd p n, trg_size n -> forall X moves, let o := tensor_ops svd in 2 <= n -> Forall (on_lattice o n) moves ->
  let Y := fold_left (with_replacements o) moves X in closes n Y ->
  exists t0 z0 t z, fresh o p (torus o n X) = Ok (t0, z0) /\ accept_all o t0 moves = Ok t /\ trace o t (torus o n Y) = Ok (t, z) /\
    (cached_svds svd singular t -> exists H, punch_all_holes o t (torus o n Y) = Ok H /\ alen H = n * n /\ forall r c, r < n -> c < n ->
       shape (aval H (r * n + c)) = shape (Y r c) /\ pair (Y r c) (aval H (r * n + c)) = z).
Proof. exact holes_moves. Qed.
Print Assumptions c74_own_tensor_after_moves.

(** Side 4 and more: a tensor orthogonal to the singular vectors, left and right, of the decomposition of the tensor it
    replaces gives zero against the hole, whatever the rest of the network is. *)
Theorem c74_blind : forall svd p n, trg_size n -> forall X t z, 3 < n -> closes n X ->
  fresh (tensor_ops svd) p (torus (tensor_ops svd) n X) = Ok (t, z) -> cached_svds svd (fun _ => svd_legs) t ->
  exists H, punch_all_holes (tensor_ops svd) t (torus (tensor_ops svd) n X) = Ok H /\ alen H = n * n /\
    forall r c, r < n -> c < n -> forall Y, shape Y = shape (X r c) ->
      (let '(u, s, vt) := svd p (matrix_of (site_type r c) (X r c)) in
       left_orthogonal u (matrix_of (site_type r c) Y) /\ right_orthogonal vt (matrix_of (site_type r c) Y)) ->
      pair Y (aval H (r * n + c)) = RtoC 0.
Proof. exact holes_blind. Qed.
Print Assumptions c74_blind.

(** So from side 4 on the hole is not the derivative of the amplitude, even if no decomposition truncates anything:
    here the amplitude is exact, all decompositions are singular value decompositions, and replacing the tensor of a
    site gives amplitude 1 where the hole gives 0. *)
Theorem c74_hole_is_derivative_refuted : exists svd p X t z H Y, closes 4 X /\
  fresh (tensor_ops svd) p (torus (tensor_ops svd) 4 X) = Ok (t, z) /\ lossless svd t /\ z = torus_sum 4 X /\
  cached_svds svd (fun p M u s vt => singular p M u s vt /\ orthonormal M u s vt) t /\
  punch_all_holes (tensor_ops svd) t (torus (tensor_ops svd) 4 X) = Ok H /\
  shape Y = shape (X 0 0) /\ shape (aval H 0) = shape (X 0 0) /\ pair Y (aval H 0) = RtoC 0 /\ torus_sum 4 (put_site X 0 0 Y) = RtoC 1.
Proof. exact holes_not_derivative. Qed.
Print Assumptions c74_hole_is_derivative_refuted.

(** a network of side 4 whose decompositions are all singular *)
Example c74_case : trg_size 4 /\ closes 4 ex_net /\ exists t z, fresh (tensor_ops rank_one_svd) ex_trunc (torus (tensor_ops rank_one_svd) 4 ex_net) = Ok (t, z) /\ cached_svds rank_one_svd singular t.
Proof. exact (conj ex_size (conj ex_closes ex_singular)). Qed.
