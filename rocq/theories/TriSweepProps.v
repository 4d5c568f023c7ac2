(** Sweeps with terms on triangles: nearest and next-nearest neighbours on the square lattice, and the triangular lattice. *)
From Coq Require Import List Arith Lia Bool Reals Lra.
From Verif Require Import Base Cplx SumModel SumSpec TrgTensor ProjModel ProjSpec ProjExample ProjNullExample ExpModel ExpSpec ExpMain ExpExample TriSweepModel TriSweepSpec TriSweepTotal TriSweepRun TriSweepHalves TriSweepPos TriSweepExample.
Import ListNotations.
Local Open Scope nat_scope.

(** Common hypotheses, in words: those of C76 on the decompositions and on a PEPS; all sites and the terms have one dimension
    ([nnn_fit], [tri_fit]); [eps] is the tolerance at which the exponential series are cut off. *)

(** *** C82 *)
(** A sweep with terms on nearest and next-nearest neighbours in which nothing is lost is a product of exponential series, one for each
    triangle in the order given: the new state times exp(-tau En), with the energy En that is reported, is what they make of the old state. *)
Theorem c82_sweep_is_product :
  forall eps qr svd tol m, qr_exact qr -> svd_up_to m svd ->
  forall e P, sound tol P -> 2 <= p_rows P -> 2 <= p_cols P -> nnn_fit e P -> plain_onsite e P -> x_tau e <> 0%R ->
  lossless qr svd tol m P (nnn_calls e (p_rows P) (p_cols P) (p_per P) eps) ->
  let '(Q, n, en) := nnn_sweep eps qr svd tol e P in
  exists orders E, orders_for (triangle_order (p_rows P) (p_cols P) (p_per P)) orders /\ en = Some E /\ n = exp (- x_tau e * E) /\
  forall s, proper P s -> (RtoC (exp (- x_tau e * E)) * wave Q s)%C = series_product (x_tau e) (triangle_operator e P) (triangle_order (p_rows P) (p_cols P) (p_per P)) orders (wave P) s.
Proof. exact nnn_energy. Qed.
Print Assumptions c82_sweep_is_product.
(** So are several sweeps. *)
Theorem c82_sweeps_are_products :
  forall eps qr svd tol m, qr_exact qr -> svd_up_to m svd ->
  forall e n P, sound tol P -> 2 <= p_rows P -> 2 <= p_cols P -> nnn_fit e P -> plain_onsite e P -> lossless_nnn eps qr svd tol m e n P ->
  let l := concat (repeat (triangle_order (p_rows P) (p_cols P) (p_per P)) n) in
  let '(Q, x) := nnn_sweeps eps qr svd tol e n P in
  exists orders, orders_for l orders /\ forall s, proper P s -> (RtoC x * wave Q s)%C = series_product (x_tau e) (triangle_operator e P) l orders (wave P) s.
Proof. exact nnn_trotters. Qed.
Print Assumptions c82_sweeps_are_products.
(** The operators of the triangles add up to the Hamiltonian. *)
Theorem c82_operators_add_up :
  forall e P, 2 <= p_rows P -> 2 <= p_cols P -> forall psi s, respects psi -> nnn_fit e P -> plain_onsite e P -> exchangeable (x_nn e) ->
  sumC (fun t => triangle_operator e P t psi s) (triangle_order (p_rows P) (p_cols P) (p_per P)) = nnn_hamiltonian e P psi s.
Proof. exact triangles_add_up. Qed.
Print Assumptions c82_operators_add_up.
(** A sweep on the triangular lattice in which nothing is lost is a product of exponential series, for the first half of the sweep and
    then for the second; with the energy that is reported it takes out exp(-2 tau En). *)
Theorem c82_triangular_sweep :
  forall eps qr svd tol m, qr_exact qr -> svd_up_to m svd ->
  forall e P, sound tol P -> 1 <= p_rows P -> 1 <= p_cols P -> tri_fit e P -> y_tau e <> 0%R -> lossless_tri eps qr svd tol m e P ->
  let l := first_pieces (p_rows P) (p_cols P) ++ second_pieces (p_rows P) (p_cols P) in
  let '(Q, na, nb, e0) := tri_sweep eps qr svd tol e P in
  exists orders E, orders_for l orders /\ e0 = Some E /\
  forall s, proper P s -> (RtoC (exp (- (2 * y_tau e) * E)) * wave Q s)%C = series_product (y_tau e) (piece_operator e P) l orders (wave P) s.
Proof. exact tri_energy. Qed.
Print Assumptions c82_triangular_sweep.
(** The operators of each half add up to the Hamiltonian of the triangular lattice, if the term on three sites is the sum of that on
    two sites over its pairs. *)
Theorem c82_triangular_halves_add_up :
  forall e P, 1 <= p_rows P -> 1 <= p_cols P -> forall psi s, respects psi -> proper P s -> tri_fit e P -> three_pairs e -> exchangeable (y_nn e) ->
  sumC (fun q => piece_operator e P q psi s) (first_pieces (p_rows P) (p_cols P)) = triangular_hamiltonian e P psi s /\
  sumC (fun q => piece_operator e P q psi s) (second_pieces (p_rows P) (p_cols P)) = triangular_hamiltonian e P psi s.
Proof. exact halves_total. Qed.
Print Assumptions c82_triangular_halves_add_up.
(** With on-site terms on an open lattice the terms of the calls do not add up to the Hamiltonian. *)
Theorem c82_onsite_refuted :
  exists e P psi s, sound (1/2) P /\ 2 <= p_rows P /\ 2 <= p_cols P /\ nnn_fit e P /\ exchangeable (x_nn e) /\ respects psi /\ proper P s /\
  forall eps, evolved P (nnn_calls e (p_rows P) (p_cols P) (p_per P) eps) psi s <> nnn_hamiltonian e P psi s.
Proof. exact onsite_refuted. Qed.
Print Assumptions c82_onsite_refuted.

(** a term that is 1 if two sites differ, on all pairs of four sites, in the state |0000> + 3/4 |1100>: nothing is lost with these
    decompositions *)
Example c82_decompositions : qr_exact short_qr /\ forall m, svd_up_to m short_svd.
Proof. split; [exact short_qr_exact|exact short_svd_exact]. Qed.
Example c82_case : sound (1/2) two /\ nnn_fit cross two /\ plain_onsite cross two /\ exchangeable (x_nn cross) /\ forall eps, lossless_nnn eps short_qr short_svd (1/2) 32 cross 1 two.
Proof. split; [exact two_sound|]. destruct cross_fits as (H1 & H2 & H3). split; [exact H1|]. split; [exact H2|]. split; [exact H3|exact cross_lossless]. Qed.
Example c82_changes : let s := fun r c => if r =? 0 then 1 else 0 in proper two s /\ nnn_hamiltonian cross two (wave two) s = RtoC (3/4 * 4).
Proof. exact cross_acts. Qed.
Example c82_order : triangle_order 2 3 false = [(AtUpperRight, 0, 0); (AtUpperRight, 0, 1); (AtLowerRight, 0, 0); (AtLowerRight, 0, 1); (AtLowerLeft, 0, 0); (AtLowerLeft, 0, 1); (AtUpperLeft, 0, 0); (AtUpperLeft, 0, 1)].
Proof. reflexivity. Qed.
(** without the pair on the falling diagonal *)
Example c82_triangular_case : tri_fit slanted two /\ three_pairs slanted /\ exchangeable (y_nn slanted) /\ forall eps, lossless_tri eps short_qr short_svd (1/2) 32 slanted two.
Proof. destruct slanted_fits as (H1 & H2 & H3). split; [exact H1|]. split; [exact H2|]. split; [exact H3|exact slanted_lossless]. Qed.
Example c82_triangular_changes : let s := fun r c => if r =? 0 then 1 else 0 in proper two s /\ triangular_hamiltonian slanted two (wave two) s = RtoC (3/4 * 3).
Proof. exact slanted_acts. Qed.
