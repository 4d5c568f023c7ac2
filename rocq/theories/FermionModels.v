(** The callbacks of the fermionic models are the two-site terms of their Hamiltonians. *)
From Coq Require Import List Arith Lia Bool Reals Permutation Lra ZArith.
From Verif Require Import Base ContractorModel ContractorSpec ContractorProofs SweepModel SweepSpec SweepProofs
  HistoryProofs SweepMain UpdaterSpec UpdaterChain BlockChain Cplx EnergyModel EnergySpec EnergyProofs EnergySum EnergyMain
  EnergyModels FermionSigns FermionMain.
Import ListNotations.
Local Open Scope nat_scope.

Lemma nonzero_is_zero z : z <> RtoC 0 -> is_zero z = false.
Proof. intros H. unfold is_zero. destruct (Ceq_dec z (RtoC 0)); [contradiction|reflexivity]. Qed.
Lemma RtoC_m1 : RtoC (-1) = (- RtoC 1)%C. Proof. apply C_ext; simpl; lra. Qed.
Lemma RtoC_2 : RtoC 2 = (RtoC 1 + RtoC 1)%C. Proof. apply C_ext; simpl; lra. Qed.
Lemma RtoC_m2 : RtoC (-2) = (- (RtoC 1 + RtoC 1))%C. Proof. apply C_ext; simpl; lra. Qed.
Lemma cancel_conj z : z <> RtoC 0 -> (Cconj z * Cconj (Cinv z))%C = RtoC 1.
Proof. intros H. rewrite <- Cconj_mul, Cinv_r by exact H. apply Cconj_R. Qed.
Lemma configs_4_2 : all_configs 4 2 =
  [[0;0];[1;0];[2;0];[3;0];[0;1];[1;1];[2;1];[3;1];[0;2];[1;2];[2;2];[3;2];[0;3];[1;3];[2;3];[3;3]]%nat.
Proof. reflexivity. Qed.
Lemma configs_3_2 : all_configs 3 2 = [[0;0];[1;0];[2;0];[0;1];[1;1];[2;1];[0;2];[1;2];[2;2]]%nat.
Proof. reflexivity. Qed.

Lemma coef_p0 z : z = 0%Z -> RtoC (IZR z) = RtoC 0. Proof. intros ->. reflexivity. Qed.
Lemma coef_p1 z : z = 1%Z -> RtoC (IZR z) = RtoC 1. Proof. intros ->. reflexivity. Qed.
Lemma coef_m1 z : z = (-1)%Z -> RtoC (IZR z) = (- RtoC 1)%C. Proof. intros ->. exact RtoC_m1. Qed.
Lemma coef_p2 z : z = 2%Z -> RtoC (IZR z) = (RtoC 1 + RtoC 1)%C. Proof. intros ->. exact RtoC_2. Qed.
Lemma coef_m2 z : z = (-2)%Z -> RtoC (IZR z) = (- (RtoC 1 + RtoC 1))%C. Proof. intros ->. exact RtoC_m2. Qed.
Ltac coeffs := repeat match goal with |- context [RtoC (IZR (coeff ?A ?x ?y))] =>
  let z := eval vm_compute in (coeff A x y) in
  match z with
  | 0%Z => rewrite (coef_p0 (coeff A x y)) by (vm_compute; reflexivity)
  | 1%Z => rewrite (coef_p1 (coeff A x y)) by (vm_compute; reflexivity)
  | (-1)%Z => rewrite (coef_m1 (coeff A x y)) by (vm_compute; reflexivity)
  | 2%Z => rewrite (coef_p2 (coeff A x y)) by (vm_compute; reflexivity)
  | (-2)%Z => rewrite (coef_m2 (coeff A x y)) by (vm_compute; reflexivity)
  end end.
Ltac conj := unfold Cdiv, Csub; rewrite ?Cconj_mul, ?Cconj_add, ?Cconj_opp, ?Cconj_R;
  repeat (rewrite ?Cconj_mul, ?Cconj_add, ?Cconj_opp, ?Cconj_R).

Lemma hubbard_term t U mu d s : term 4 (hubbard_model t U mu) (VBond d s) (h_hubbard t 0 1 2 3) false.
Proof.
  intros cs inv T Hcs HT _. cbn [sites_of length] in *. cbn [m_visit hubbard_model].
  apply configs2 in Hcs. destruct Hcs as (a & b & -> & Ha & Hb).
  pose proof (cancel_conj _ HT) as E. pose proof (nonzero_is_zero _ HT) as Z.
  rewrite configs_4_2, !sumC_cons, sumC_nil.
  unfold h_hubbard, op_scal, in_basis, hubbard_bond, ratio.
  destruct a as [|[|[|[|a]]]], b as [|[|[|[|b]]]]; try lia; cbn [Nat.eqb andb orb];
    rewrite ?Z; cbn [bind]; coeffs; f_equal; rewrite ?RtoC_opp; conj; ring [E].
Qed.

Lemma spinless_bond_term t t2 V d s : term 2 (spinless_model t t2 V) (VBond d s) (h_spinless t V 0 1) false.
Proof.
  intros cs inv T Hcs HT _. cbn [sites_of length] in *. cbn [m_visit spinless_model].
  apply configs2 in Hcs. destruct Hcs as (a & b & -> & Ha & Hb).
  pose proof (cancel_conj _ HT) as E. pose proof (nonzero_is_zero _ HT) as Z.
  rewrite pairs_of_two, !sumC_cons, sumC_nil.
  unfold h_spinless, op_add, op_scal, in_basis, spinless_bond, ratio.
  assert (D0 : spinless_density 0 = 1%R) by (unfold spinless_density; simpl; lra).
  assert (D1 : spinless_density 1 = 0%R) by (unfold spinless_density; simpl; lra).
  destruct a as [|[|a]], b as [|[|b]]; try lia; cbn [Nat.eqb andb orb];
    rewrite ?Z; cbn [bind]; coeffs; f_equal; rewrite ?D0, ?D1, ?RtoC_mul, ?RtoC_opp; conj; ring [E].
Qed.
Lemma spinless_diag_term t t2 V g s : term 2 (spinless_model t t2 V) (VDiag g s) (h_spinless t2 0 0 1) false.
Proof.
  intros cs inv T Hcs HT _. assert (L : length (sites_of (VDiag g s)) = 2) by (destruct g; reflexivity). rewrite L in *.
  cbn [m_visit spinless_model].
  apply configs2 in Hcs. destruct Hcs as (a & b & -> & Ha & Hb).
  pose proof (cancel_conj _ HT) as E. pose proof (nonzero_is_zero _ HT) as Z.
  rewrite pairs_of_two, !sumC_cons, sumC_nil.
  unfold h_spinless, op_add, op_scal, in_basis, spinless_nnn, ratio.
  destruct a as [|[|a]], b as [|[|b]]; try lia; cbn [Nat.eqb andb orb];
    rewrite ?Z; cbn [bind]; coeffs; f_equal; rewrite ?RtoC_opp; conj; ring [E].
Qed.

Lemma Cdiv_real x s : s <> 0%R -> (x / RtoC s)%C = (x * RtoC (/ s))%C.
Proof.
  intros H. unfold Cdiv. f_equal. apply Cinv_unique. rewrite <- RtoC_mul. f_equal. apply Rinv_r. exact H.
Qed.
Lemma quarter J : RtoC (J / 4) = (RtoC J * RtoC (1 / 4))%C.
Proof. rewrite <- RtoC_mul. f_equal. lra. Qed.
Lemma half_quarters : RtoC (1 / 2) = (RtoC (1 / 4) + RtoC (1 / 4))%C.
Proof. rewrite <- RtoC_add. f_equal. lra. Qed.
Definition tj_h (t t2 J V : R) (pin : option (orient * site * R)) (v : visit) (u1 d1 u2 d2 : nat) : operator :=
  match v with
  | VBond d s => match pinned pin d s with
                 | None => h_tj t J V u1 d1 u2 d2
                 | Some delta => op_add (h_tj t J V u1 d1 u2 d2) (h_pairing delta u1 d1 u2 d2)
                 end
  | _ => h_tj t2 0 0 u1 d1 u2 d2
  end.
Lemma tj_plain_term t J V cs T : In cs (all_configs 3 2) -> T cs <> RtoC 0 ->
  tj_plain t J V cs (T cs) T = Ok (Cconj (sumC (fun ns => h_tj t J V 0 1 2 3 cs ns * T ns)%C (all_configs 3 2) / T cs)%C).
Proof.
  intros Hcs HT. apply configs2 in Hcs. destruct Hcs as (a & b & -> & Ha & Hb).
  pose proof (cancel_conj _ HT) as E. pose proof (nonzero_is_zero _ HT) as Z.
  rewrite configs_3_2, !sumC_cons, sumC_nil.
  unfold h_tj, op_add, op_scal, in_basis, tj_plain.
  rewrite (RtoC_opp t), (RtoC_opp (1 / 2)), half_quarters, (quarter J).
  generalize (Cconj_R J) (Cconj_R t) (Cconj_R V) (Cconj_R (1 / 4)).
  generalize (RtoC J) (RtoC t) (RtoC V) (RtoC (1 / 4)). intros j t' v q Ej Et Ev Eq.
  destruct a as [|[|[|a]]], b as [|[|[|b]]]; try lia; cbn [Nat.eqb andb orb];
    rewrite ?Z; coeffs; f_equal; conj; rewrite ?Ej, ?Et, ?Ev, ?Eq; ring [E].
Qed.
Lemma singlet_term delta cs T : In cs (all_configs 3 2) -> T cs <> RtoC 0 ->
  exists p, singlet_pair cs (T cs) T = Ok p /\ (RtoC delta * (fst p + snd p))%C =
    Cconj (sumC (fun ns => h_pairing delta 0 1 2 3 cs ns * T ns)%C (all_configs 3 2) / T cs)%C.
Proof.
  intros Hcs HT. apply configs2 in Hcs. destruct Hcs as (a & b & -> & Ha & Hb).
  pose proof (cancel_conj _ HT) as E. pose proof (nonzero_is_zero _ HT) as Z.
  rewrite configs_3_2, !sumC_cons, sumC_nil.
  assert (S2 : sqrt 2 <> 0%R) by (apply Rgt_not_eq, sqrt_lt_R0; lra).
  assert (D : RtoC (delta / sqrt 2) = (RtoC delta * RtoC (/ sqrt 2))%C) by (rewrite <- RtoC_mul; reflexivity).
  unfold h_pairing, op_scal, in_basis, singlet_pair. rewrite D.
  destruct a as [|[|[|a]]], b as [|[|[|b]]]; try lia; rewrite ?Z; cbn [bind];
    (eexists; split; [reflexivity|]); cbn [fst snd]; rewrite ?Cdiv_real by exact S2; coeffs;
    conj; ring [E].
Qed.
Lemma tj_bond_term t t2 J V mu pin d s : term 3 (tj_model t t2 J V mu pin) (VBond d s) (tj_h t t2 J V pin (VBond d s) 0 1 2 3) false.
Proof.
  intros cs inv T Hcs HT _. cbn [sites_of length] in *. cbn [m_visit tj_model]. unfold tj_bond.
  rewrite tj_plain_term by assumption. cbn [bind tj_h]. destruct (pinned pin d s) as [delta|]; [|reflexivity].
  destruct (singlet_term delta cs T Hcs HT) as (p & -> & Ep). cbn [bind]. rewrite Ep. f_equal.
  rewrite <- Cconj_add. f_equal. unfold op_add.
  rewrite (sumC_ext (fun ns => (_ + _) * T ns)%C (fun ns => h_tj t J V 0 1 2 3 cs ns * T ns + h_pairing delta 0 1 2 3 cs ns * T ns)%C)
    by (intros; ring).
  rewrite sumC_add. unfold Cdiv. ring.
Qed.
Lemma tj_diag_term t t2 J V mu pin g s : term 3 (tj_model t t2 J V mu pin) (VDiag g s) (tj_h t t2 J V pin (VDiag g s) 0 1 2 3) false.
Proof.
  intros cs inv T Hcs HT _. assert (L : length (sites_of (VDiag g s)) = 2) by (destruct g; reflexivity). rewrite L in *.
  cbn [m_visit tj_model tj_h].
  apply configs2 in Hcs. destruct Hcs as (a & b & -> & Ha & Hb).
  pose proof (cancel_conj _ HT) as E. pose proof (nonzero_is_zero _ HT) as Z.
  rewrite configs_3_2, !sumC_cons, sumC_nil.
  unfold h_tj, op_add, op_scal, in_basis, tj_nnn, ratio.
  rewrite (RtoC_opp t2), (quarter 0). assert (X0 : t2 = 0%R -> RtoC t2 = RtoC 0) by congruence.
  generalize (Cconj_R t2) (Cconj_R (1 / 4)). revert X0. generalize (RtoC t2) (RtoC (1 / 4)). intros t' q X0 Et Eq.
  destruct (Req_EM_T t2 0) as [T0|T0]; [rewrite (X0 T0)|];
  destruct a as [|[|[|a]]], b as [|[|[|b]]]; try lia; cbn [Nat.eqb andb orb negb]; rewrite ?Z; cbn [bind]; coeffs; f_equal;
    conj; rewrite ?Et, ?Eq; ring [E].
Qed.
