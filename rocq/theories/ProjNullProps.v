(** When the norm that a projection of the simple update divides by can be zero. *)
From Coq Require Import List Arith Lia Bool Reals Lra.
From Verif Require Import Base Cplx SumModel SumSpec TrgTensor ProjModel ProjSpec ProjExample ProjNullSpec ProjNull ProjNullExample.
Import ListNotations.
Local Open Scope nat_scope.

(** *** C83 *)
(** The norm that a call divides by and returns is zero only if its gate takes the state to zero; whatever the SVD does. *)
Theorem c83_norm_zero_only_if_state_gone :
  forall qr svd tol, qr_exact qr ->
  forall P o gate ham, sound tol P -> valid P o -> gate_fits P o gate -> r_norm (project qr svd tol P o gate ham) = 0%R ->
  forall x, proper P x -> act (p_rows P) (p_cols P) o gate (wave P) x = RtoC 0.
Proof. exact null_step. Qed.
Print Assumptions c83_norm_zero_only_if_state_gone.
(** So a sequence of calls that fit, in which no singular value is cut off and whose gates do not take the state to zero, divides by no
    zero: the product of the norms is not zero, the new PEPS fits together, and its state is what the gates make of the old one, divided
    by this product. *)
Theorem c83_sequence_divides_by_no_zero :
  forall qr svd tol, qr_exact qr -> forall m, svd_up_to m svd ->
  forall l P, sound tol P -> calls_fit P l -> uncut qr svd tol m P l -> (exists s, proper P s /\ acts (p_rows P) (p_cols P) l (wave P) s <> RtoC 0) ->
  let '(Q, n) := project_all qr svd tol P l in
  n <> 0%R /\ sound tol Q /\ forall s, proper P s -> wave Q s = (RtoC (/ n) * acts (p_rows P) (p_cols P) l (wave P) s)%C.
Proof. exact nonzero_run. Qed.
Print Assumptions c83_sequence_divides_by_no_zero.
(** Each of the norms on the way is not zero. *)
Theorem c83_every_norm :
  forall qr svd tol, qr_exact qr -> forall m, svd_up_to m svd ->
  forall l P, sound tol P -> calls_fit P l -> uncut qr svd tol m P l -> (exists s, proper P s /\ acts (p_rows P) (p_cols P) l (wave P) s <> RtoC 0) ->
  lossless qr svd tol m P l.
Proof. exact nonzero_lossless. Qed.
Print Assumptions c83_every_norm.

(** a gate on three sites and one on two *)
Example c83_case : calls_fit two mixed /\ uncut plain_qr plain_svd (1/2) 64 two mixed /\ exists s, proper two s /\ acts 2 2 mixed (wave two) s <> RtoC 0.
Proof. split; [exact mixed_fit|]. split; [exact mixed_uncut|exact mixed_nonzero]. Qed.
(** a gate that takes the state to zero, and the norm is zero *)
Example c83_gone : valid two (Row 1 0) /\ gate_fits two (Row 1 0) both /\ r_norm (project short_qr short_svd (1/2) two (Row 1 0) both None) = 0%R.
Proof. exact both_gone. Qed.
