(** The projections of the simple update, and what ToTPS gives. *)
From Coq Require Import List Arith Lia Bool Reals Lra.
From Verif Require Import Base Cplx SumModel SumSpec TrgTensor ProjModel ProjSpec ProjSteps ProjTps ProjExample.
Import ListNotations.
Local Open Scope nat_scope.

(** Common hypotheses, in words. [qr_exact], [svd_up_to m]: the decompositions of the tensor library multiply back to what they
    decompose, the SVD at least for matrices with at most m rows or columns. [lossless]: the gates fit the sites, m leaves room for
    all singular values, no norm taken out is zero, and no new weight is so small that its inverse is set to zero. *)

(** *** C76 *)
(** A call applies its gate: the new state, times the norm that is returned, is the old state with the gate applied to the sites of
    the call. *)
Theorem c76_call_applies_gate :
  forall qr svd tol m, qr_exact qr -> svd_up_to m svd ->
  forall P o gate ham, sound tol P -> lossless qr svd tol m P [(o, gate, ham)] ->
  let res := project qr svd tol P o gate ham in
  forall s, proper P s -> (RtoC (r_norm res) * wave (r_peps res) s)%C = act (p_rows P) (p_cols P) o gate (wave P) s.
Proof. exact one_call. Qed.
Print Assumptions c76_call_applies_gate.

(** Any sequence of calls applies its gates one after the other; the product of the norms is what was taken out. The legs and
    weights still fit together, and the lattice and the states of the sites are the same. *)
Theorem c76_calls_apply_gates :
  forall qr svd tol m, qr_exact qr -> svd_up_to m svd ->
  forall l P, sound tol P -> lossless qr svd tol m P l ->
  let '(Q, n) := project_all qr svd tol P l in
  sound tol Q /\ (p_rows Q = p_rows P /\ p_cols Q = p_cols P /\ p_per Q = p_per P /\ forall s, proper P s <-> proper Q s) /\
  forall s, proper P s -> (RtoC n * wave Q s)%C = acts (p_rows P) (p_cols P) l (wave P) s.
Proof. exact all_calls. Qed.
Print Assumptions c76_calls_apply_gates.

(** ToTPS gives the same state: the amplitude of every configuration is that of the PEPS. *)
Theorem c76_to_tps_same_state :
  forall tol P, sound tol P -> (forall b, In b (bonds (p_rows P) (p_cols P) (p_per P)) -> Forall (fun x => (0 <= x)%R) (lam_of P b)) ->
  forall s, amplitude (to_tps P) s = wave P s.
Proof. exact tps_same. Qed.
Print Assumptions c76_to_tps_same_state.

(** there are such decompositions, and calls on two and on three sites that lose nothing; the second one changes the state *)
Example c76_decompositions : qr_exact plain_qr /\ forall m, svd_up_to m plain_svd.
Proof. split; [exact plain_qr_exact|exact plain_svd_exact]. Qed.
Example c76_state : sound (1/2) two.
Proof. exact two_sound. Qed.
Example c76_calls2 : lossless plain_qr plain_svd (1/2) 8 two calls2.
Proof. exact calls2_lossless. Qed.
Example c76_calls3 : lossless plain_qr plain_svd (1/2) 8 two calls3.
Proof. exact calls3_lossless. Qed.
Example c76_changed : let s := fun r c => if c =? 0 then if r =? 0 then 1 else 0 else if r =? 0 then 0 else 1 in
  proper two s /\ wave two s = RtoC 0 /\ acts 2 2 calls3 (wave two) s = RtoC (3/4).
Proof. exact two_changed. Qed.
Example c76_weights : forall b, In b (bonds 2 2 false) -> Forall (fun x => (0 <= x)%R) (lam_of two b).
Proof. exact two_weights. Qed.
