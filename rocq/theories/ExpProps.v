(** Evolution gates and sweeps of the simple update with nearest-neighbour terms. *)
From Coq Require Import List Arith Lia Bool Reals Lra.
From Verif Require Import Base Cplx SumModel SumSpec TrgTensor ProjModel ProjSpec ProjExample ExpModel ExpSpec ExpOp ExpBound ExpMain ExpTotal ExpExample.
Import ListNotations.
Local Open Scope nat_scope.

(** *** C77 *)
(** The exponential of a term exists. *)
Theorem c77_exponential_exists : forall d tau A, exists E, is_exp d tau A E.
Proof. exact exp_exists. Qed.
Print Assumptions c77_exponential_exists.
(** A gate is the exponential of its term: every element is off by at most the tolerance, or the bound on the last of 1000 terms, times
    exp(x) - 1, where x is tau times the norm of the term. *)
Theorem c77_gate_is_exponential :
  forall eps tau d ham E, (0 <= eps)%R -> shape ham = zip d d -> is_exp d tau (matrix_of ham) E ->
  let x := (Rabs tau * frobenius d (matrix_of ham))%R in
  forall i j, In i (choices d) -> In j (choices d) ->
  (modulus (entry (taylor_exp eps tau ham) (i ++ j) - E i j)%C <=
   Rmax eps (frobenius d (power d (matrix_of ham) 0) * (/ INR (fact 999) * x ^ 999)) * (exp x - 1))%R.
Proof. exact gate_close. Qed.
Print Assumptions c77_gate_is_exponential.
(** A sweep applies, bond after bond, the exponential series of the terms, cut off at some order. The state times the norm that the sweep
    returns is what this product makes of the state before. *)
Theorem c77_sweep_is_trotter_product :
  forall eps qr svd tol m, qr_exact qr -> svd_up_to m svd ->
  forall e P, sound tol P -> 2 <= p_rows P -> 2 <= p_cols P -> terms_fit e P ->
  lossless qr svd tol m P (nn_calls eps e (p_rows P) (p_cols P) (p_per P)) ->
  let '(Q, n) := nn_sweep eps qr svd tol e P in
  exists order, (forall b, 2 <= order b <= 999) /\ forall s, proper P s -> (RtoC n * wave Q s)%C = trotter e P order (wave P) s.
Proof. exact sweep_trotter. Qed.
Print Assumptions c77_sweep_is_trotter_product.
(** Several sweeps do so one after the other. *)
Theorem c77_sweeps_are_trotter_products :
  forall eps qr svd tol m, qr_exact qr -> svd_up_to m svd ->
  forall e n P, sound tol P -> 2 <= p_rows P -> 2 <= p_cols P -> terms_fit e P -> lossless_sweeps eps qr svd tol m e n P ->
  let '(Q, x) := nn_sweeps eps qr svd tol e n P in
  exists orders, length orders = n /\ (forall o, In o orders -> forall b, 2 <= o b <= 999) /\
  forall s, proper P s -> (RtoC x * wave Q s)%C = fold_left (fun psi o => trotter e P o psi) orders (wave P) s.
Proof. exact sweeps_trotter. Qed.
Print Assumptions c77_sweeps_are_trotter_products.

(** an Ising term, with an on-site term, on two rows and two columns *)
Example c77_gate_shape : shape zz = zip [2; 2] [2; 2].
Proof. reflexivity. Qed.
Example c77_terms : terms_fit ising two.
Proof. exact ising_fits. Qed.
Example c77_lossless : forall eps, lossless_sweeps eps plain_qr plain_svd (1/2) 8 ising 1 two.
Proof. exact ising_lossless. Qed.

(** *** C78 *)
(** The terms that the calls of a sweep evolve with add up to the Hamiltonian: every term on a bond once, every on-site term once. *)
Theorem c78_terms_add_up_partial :
  forall eps e P, 2 <= p_rows P -> 2 <= p_cols P -> terms_fit e P ->
  forall psi, respects psi -> forall s, proper P s ->
  evolved P (nn_calls eps e (p_rows P) (p_cols P) (p_per P)) psi s = hamiltonian e P psi s.
Proof. exact terms_add_up. Qed.
Print Assumptions c78_terms_add_up_partial.
(** the operators of the product above *)
Theorem c78_operators_add_up_partial :
  forall e P psi s, 2 <= p_rows P -> 2 <= p_cols P ->
  sumC (fun b => bond_operator e P b psi s) (sweep_order (p_rows P) (p_cols P) (p_per P)) = hamiltonian e P psi s.
Proof. exact operators_add_up. Qed.
Print Assumptions c78_operators_add_up_partial.
(** Not on a chain: with one row the shares of the on-site terms are too small. *)
Theorem c78_chain_refuted :
  exists e P psi s, sound (1/2) P /\ terms_fit e P /\ respects psi /\ proper P s /\ p_rows P = 1 /\ p_cols P = 3 /\
  forall eps, evolved P (nn_calls eps e 1 3 false) psi s = RtoC (5/3) /\ hamiltonian e P psi s = RtoC 3.
Proof. exact (ex_intro _ ising (ex_intro _ chain (ex_intro _ (wave chain) (ex_intro _ (fun _ _ => 1) (conj chain_sound (conj chain_fits (conj (wave_respects chain) (conj (proj1 (chain_short 0)) (conj eq_refl (conj eq_refl (fun eps => proj2 (chain_short eps)))))))))))). Qed.
Print Assumptions c78_chain_refuted.

Example c78_case : let s := fun r c => if r =? 0 then 1 else 0 in proper two s /\ hamiltonian ising two (wave two) s = RtoC (3/4 * 4).
Proof. exact ising_acts. Qed.
