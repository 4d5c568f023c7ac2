(** What the TRG contractor computes (C73): the sum over all values of the bonds of the torus of the product of the
    site tensors, as soon as no singular value decomposition loses anything. *)
From Coq Require Import List Arith Lia Bool Reals.
From Verif Require Import Base Cplx SumModel SumSpec TrgModel TrgSpec TrgTensor TrgExactSpec TrgExact.
Import ListNotations.

(** Any size, any tensors, any decomposition routine: if every split in the cache gives its tensor back, the amplitude
    is the exact one. *)
Theorem c73_amplitude : forall svd p n, trg_size n -> forall X t z, closes n X ->
  fresh (tensor_ops svd) p (torus (tensor_ops svd) n X) = Ok (t, z) -> lossless svd t -> z = torus_sum n X.
Proof. exact fresh_sum. Qed.
Print Assumptions c73_amplitude.

(** Lattices of side 1, 2 and 3 are contracted directly, so truncation cannot matter. *)
Theorem c73_small : forall svd p n, trg_size n -> forall X, n <= 3 -> closes n X ->
  exists t, fresh (tensor_ops svd) p (torus (tensor_ops svd) n X) = Ok (t, torus_sum n X).
Proof. exact fresh_small. Qed.
Print Assumptions c73_small.

(** With a decomposition that drops nothing every network is contracted exactly. *)
Theorem c73_exact_decomposition : forall svd p n, trg_size n -> exact_svd svd p -> forall X, closes n X ->
  exists t, fresh (tensor_ops svd) p (torus (tensor_ops svd) n X) = Ok (t, torus_sum n X) /\ lossless svd t.
Proof. exact fresh_exact. Qed.
Print Assumptions c73_exact_decomposition.

(** ... and so is every later amplitude: after any accepted moves, of the current network and of any replacement. *)
Theorem c73_trials : forall svd p n, trg_size n -> exact_svd svd p -> forall X moves reps, let o := tensor_ops svd in
  Forall (on_lattice o n) moves -> on_lattice o n reps ->
  let Y := fold_left (with_replacements o) moves X in closes n Y -> closes n (with_replacements o Y reps) ->
  exists t0 z0 t tr, fresh o p (torus o n X) = Ok (t0, z0) /\ accept_all o t0 moves = Ok t /\
    trace o t (torus o n Y) = Ok (t, torus_sum n Y) /\
    evaluate_replacement o t reps = Ok (torus_sum n (with_replacements o Y reps)) /\
    begin_trial o t reps = Ok tr /\ tr_amp tr = torus_sum n (with_replacements o Y reps).
Proof. exact exact_moves. Qed.
Print Assumptions c73_trials.

(** The sum over the torus is the amplitude of a periodic tensor product state on a configuration, when the network
    is the one projected on that configuration. *)
Theorem c73_state : forall v s, l_rows v = l_cols v -> l_per v = true -> torus_sum (l_rows v) (projected v s) = amplitude v s.
Proof. exact projected_sum. Qed.
Print Assumptions c73_state.
Theorem c73_state_closes : forall v s, l_rows v = l_cols v -> l_per v = true -> matched v ->
  (forall r c, r < l_rows v -> c < l_cols v -> length (dims (l_ten v r c)) = 4) -> closes (l_rows v) (projected v s).
Proof. exact projected_closes. Qed.
Print Assumptions c73_state_closes.

(** a decomposition that drops nothing, and 4x4 tensors with bonds of dimensions 2 and 3 *)
Example c73_decomposition_exists : forall p, exact_svd plain_svd p.
Proof. exact plain_exact. Qed.
Definition some_tensor (r c : nat) : tensor := Tn [2; 3; 2; 3] (fun ix => RtoC (INR (r + 2 * c + fold_right Nat.add 1 ix))).
Example c73_network : trg_size 4 /\ closes 4 some_tensor /\ (forall p, exists t, fresh (tensor_ops plain_svd) p (torus (tensor_ops plain_svd) 4 some_tensor) = Ok (t, torus_sum 4 some_tensor) /\ lossless plain_svd t).
Proof.
  assert (S : trg_size 4) by (exists 2; left; reflexivity).
  assert (H : closes 4 some_tensor).
  { intros r c _ _. split; [reflexivity|]. intros l b Hl B. destruct b as [i j|i j]; destruct l as [|[|[|[|]]]]; try lia; try reflexivity; cbn [leg_bond] in B;
      repeat match type of B with context [if ?x then _ else _] => destruct x end; discriminate. }
  split; [exact S|]. split; [exact H|]. intros p. exact (fresh_exact plain_svd p 4 S (plain_exact p) some_tensor H).
Qed.
(** one site: the sum of its elements with equal left and right, and equal upper and lower indices *)
Example c73_one_site : torus_sum 1 (fun _ _ => Tn [2; 2; 2; 2] (fun ix => RtoC (INR (fold_right (fun x y => 2 * y + x) 0 ix)))) = RtoC 30.
Proof. unfold torus_sum. apply C_ext; cbv -[INR Rplus Rmult Rminus Ropp IZR]; cbn [INR]; ring. Qed.
