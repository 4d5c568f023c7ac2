(** A sweep of the loop update (LoopUpdateSweep_). *)
From Coq Require Import List Arith Lia Bool Reals Lra Permutation.
From Verif Require Import Base Cplx Rsum SumModel SumSpec TrgTensor OptModel SuModel SuSpec ProjModel ProjSpec ProjExample LoopModel LoopSpec LoopDone LoopExample LoopSweepModel LoopSweepSpec LoopSweepProofs LoopSweepExample.
Import ListNotations.
Local Open Scope nat_scope.

(** Common hypotheses, in words: those of C80 on the decompositions; [sound] of the PEPS; the executor could be constructed with a matrix
    of gates of this shape ([loop_construct], C52); the gates have the dimensions of their sites ([gates_fit]). *)

(** *** C81 *)
(** The order of a sweep visits every plaquette exactly once. *)
Theorem c81_every_plaquette_once : forall R K per, Permutation (plaquette_order R K per) (plaquettes R K per).
Proof. exact order_covers. Qed.
Print Assumptions c81_every_plaquette_once.
(** When nothing is lost in its projections, a sweep applies the gates of all plaquettes in this order: the new state times
    exp(-tau En), with the energy En that is reported, is what they make of the old state. *)
Theorem c81_sweep_applies_gates :
  forall qr svd svdt evd eigvec m, qr_any qr -> svd_any svd -> svd_up_to m svdt -> evd_unitary evd -> eig_shape eigvec ->
  forall pr kind tau gates P gr gc, (0 < l_inv_tol pr)%R -> tau <> 0%R -> sound (l_env_tol pr) P -> loop_construct (p_rows P) (p_cols P) (p_per P) gr gc = Ok tt -> gates_fit P gates ->
  forall w, loop_sweep qr svd svdt evd eigvec pr kind tau gates P = Ok w -> Forall (lost_nothing pr m gates) (w_seen w) ->
  forall s, proper P s -> (RtoC (exp (- tau * w_en w)) * wave (w_peps w) s)%C = loop_gates (p_rows P) (p_cols P) gates (plaquette_order (p_rows P) (p_cols P) (p_per P)) (wave P) s.
Proof. exact sweep_applies. Qed.
Print Assumptions c81_sweep_applies_gates.
(** So do several sweeps, with the energies of all of them. *)
Theorem c81_sweeps_apply_gates :
  forall qr svd svdt evd eigvec m, qr_any qr -> svd_any svd -> svd_up_to m svdt -> evd_unitary evd -> eig_shape eigvec ->
  forall pr kind tau gates gr gc, (0 < l_inv_tol pr)%R -> tau <> 0%R -> forall n P, sound (l_env_tol pr) P -> loop_construct (p_rows P) (p_cols P) (p_per P) gr gc = Ok tt -> gates_fit P gates ->
  forall Q ens, loop_sweeps qr svd svdt evd eigvec pr kind tau gates n P = Ok (Q, ens) -> lossless_loop_sweeps qr svd svdt evd eigvec pr kind tau m gates n P ->
  length ens = n /\ forall s, proper P s ->
  (RtoC (exp (- tau * rsum (fun e => e) ens)) * wave Q s)%C = Nat.iter n (loop_gates (p_rows P) (p_cols P) gates (plaquette_order (p_rows P) (p_cols P) (p_per P))) (wave P) s.
Proof. exact sweeps_apply. Qed.
Print Assumptions c81_sweeps_apply_gates.
(** The energy E0 that is reported is the sum over the plaquettes of (1 - <gate>) / tau, or of -log<gate> / tau, where <gate> is the
    expectation value in the loop, with its outer weights, of the state that the gates before this one have made. It is no number if an
    expectation value whose logarithm is taken is not positive. *)
Theorem c81_energy :
  forall qr svd svdt evd eigvec m, qr_any qr -> svd_any svd -> svd_up_to m svdt -> evd_unitary evd -> eig_shape eigvec ->
  forall pr kind tau gates P gr gc, (0 < l_inv_tol pr)%R -> tau <> 0%R -> sound (l_env_tol pr) P -> loop_construct (p_rows P) (p_cols P) (p_per P) gr gc = Ok tt -> gates_fit P gates ->
  forall w, loop_sweep qr svd svdt evd eigvec pr kind tau gates P = Ok w -> Forall (lost_nothing pr m gates) (w_seen w) ->
  let order := plaquette_order (p_rows P) (p_cols P) (p_per P) in
  exists states, length states = length order /\ (forall i, i < length order -> reached gates P (nth i states P) (firstn i order)) /\
  let value x := expectation (gates (fst (fst x)) (snd (fst x))) (snd x) (fst x) in
  match kind with
  | FirstOrder => w_e0 w = Some (rsum (fun x => (1 - value x) / tau)%R (combine order states))
  | Exponential => ((forall x, In x (combine order states) -> (0 < value x)%R) -> w_e0 w = Some (rsum (fun x => - ln (value x) / tau)%R (combine order states))) /\
                   ((exists x, In x (combine order states) /\ (value x <= 0)%R) -> w_e0 w = None)
  end.
Proof. exact sweep_energy. Qed.
Print Assumptions c81_energy.
(** A sweep comes to an end without an exception when every projection starts well: in particular the product of the norms is then
    positive. *)
Theorem c81_sweep_succeeds :
  forall qr svd svdt evd eigvec m, qr_any qr -> svd_any svd -> svd_up_to m svdt -> evd_unitary evd -> eig_shape eigvec ->
  forall pr kind tau gates P gr gc, (0 < l_inv_tol pr)%R -> (0 < l_correct pr)%R -> (0 <= l_warn pr)%R -> sound (l_env_tol pr) P -> loop_construct (p_rows P) (p_cols P) (p_per P) gr gc = Ok tt -> gates_fit P gates ->
  starts_well qr svd svdt evd eigvec pr m gates P (plaquette_order (p_rows P) (p_cols P) (p_per P)) ->
  exists w, loop_sweep qr svd svdt evd eigvec pr kind tau gates P = Ok w /\ Forall (lost_nothing pr m gates) (w_seen w).
Proof. exact sweep_succeeds. Qed.
Print Assumptions c81_sweep_succeeds.

(** a sweep over two rows and two columns that flips all spins of the plaquette in a superposition *)
Example c81_case : sound (l_env_tol sweep_para) two /\ loop_construct (p_rows two) (p_cols two) (p_per two) 1 1 = Ok tt /\ gates_fit two all_flips /\
  starts_well small_qr small_svd small_svd small_evd small_vec sweep_para 4 all_flips two (plaquette_order 2 2 false).
Proof. split; [exact two_sound4|]. split; [exact two_construct|]. split; [exact two_gates|exact two_starts]. Qed.
Example c81_order : plaquette_order 3 4 false = [(0, 0); (0, 2); (1, 0); (1, 2); (0, 1); (1, 1)] /\ plaquette_order 2 2 true = [(0, 0); (1, 0); (0, 1); (1, 1)].
Proof. split; reflexivity. Qed.
Example c81_changed : proper two up /\ wave two up = RtoC 0 /\ loop_gates 2 2 all_flips (plaquette_order 2 2 false) (wave two) up = RtoC 1.
Proof. exact two_old. Qed.
