(** A projection on two sites whose norm is zero: the gate takes the block of two tensors to zero. *)
From Coq Require Import List Arith Lia Bool Reals Lra Permutation.
From Verif Require Import Base Cplx SumModel SumSpec SumProofs NetSum NetEx ContractorModel TrgTensor TrgHoleAlg BmpsModel BmpsAlg ProjModel ProjSpec ProjAlg ProjCore ProjTwo ProjExample.
Import ListNotations.
Local Open Scope nat_scope.

Lemma C_dec (x y : C) : {x = y} + {x <> y}.
Proof. destruct x as [a b], y as [c d]. destruct (Req_EM_T a c) as [->|N]; [|right; congruence]. destruct (Req_EM_T b d) as [->|N]; [left; reflexivity|right; congruence]. Qed.
Lemma one_times (x : C) : (RtoC 1 * x = x)%C.
Proof. ring. Qed.
Section Pair.
Context (qr : tensor -> tensor * tensor) (svd : nat -> tensor -> tensor * list R * tensor) (tol : R).
Context (QR : qr_exact qr).
Context (P : peps) (gate : tensor) (ham : option tensor).

Section Hor.
Context (r c W0 S0 N0 d0 S1 E1 N1 d1 D : nat).
Let c' := (c + 1) mod h_cols P.
Context (Sh0 : shape (gamma P r c) = [W0; S0; D; N0; d0]) (Sh1 : shape (gamma P r c') = [D; S1; E1; N1; d1]).
Context (LW0 : length (west P r c) = W0) (LS0 : length (south P r c) = S0) (LE0 : length (east P r c) = D) (LN0 : length (north P r c) = N0).
Context (LW1 : length (lam_h P r c') = D) (LS1 : length (south P r c') = S1) (LE1 : length (east P r c') = E1) (LN1 : length (north P r c') = N1).
Context (Sg : shape gate = [d0; d1; d0; d1]).
Lemma null_h : r_norm (project_h qr svd tol P gate ham r c) = 0%R -> forall w0 s0 n0 s1 e1 n1 p' q', w0 < W0 -> s0 < S0 -> n0 < N0 -> s1 < S1 -> e1 < E1 -> n1 < N1 -> p' < d0 -> q' < d1 ->
    good tol (west P r c) w0 -> good tol (south P r c) s0 -> good tol (north P r c) n0 ->
    good tol (south P r c') s1 -> good tol (east P r c') e1 -> good tol (north P r c') n1 ->
    sm d0 (fun p => sm d1 (fun q => (sm D (fun x => (entry (gamma P r c) [w0; s0; x; n0; p] * el (lam_h P r c') x * entry (gamma P r c') [x; s1; e1; n1; q])%C) * entry gate [p; q; p'; q'])%C)) = RtoC 0.
Proof.
  unfold project_h. fold c'.
  pose proof (eat3_right_shape P r c _ _ _ _ _ Sh0 LW0 LS0 LN0) as T0.
  pose proof (eat3_left_shape P r c' _ _ _ _ _ Sh1 LS1 LE1 LN1) as T1.
  pose proof (QR (eat3 P r c RIGHT) ltac:(rewrite T0; reflexivity)) as Q0. pose proof (QR (eat3 P r c' LEFT) ltac:(rewrite T1; reflexivity)) as Q1.
  destruct (qr (eat3 P r c RIGHT)) as [q0 r0], (qr (eat3 P r c' LEFT)) as [q1 r1].
  destruct Q0 as (K0 & Sq0 & Sr0 & B0 & X0), Q1 as (K1 & Sq1 & Sr1 & B1 & X1).
  unfold dimat in Sq0, Sr0, B0, X0, Sq1, Sr1, B1, X1. rewrite T0 in Sq0, Sr0, B0, X0. rewrite T1 in Sq1, Sr1, B1, X1. cbn [nth] in Sq0, Sr0, B0, X0, Sq1, Sr1, B1, X1.
  set (t4 := contract (cyc (contract r0 [2] (diag (lam_h P r c')) [0]) 2 r1 2 1) [1; 3] gate [0; 1]).
  assert (St : shape t4 = [K0; K1; d0; d1]).
  { unfold t4. revert Sr0 Sr1 Sg. clear. destruct r0 as [sh0 f0], r1 as [sh1 f1], gate as [sh2 f2]; cbn [shape]; intros -> -> ->. reflexivity. }
  assert (Et : forall k0 k1 p' q', entry t4 [k0; k1; p'; q'] = sm d0 (fun p => sm d1 (fun q => (sm D (fun x => (entry r0 [k0; p; x] * el (lam_h P r c') x * entry r1 [k1; q; x])%C) * entry gate [p; q; p'; q'])%C))).
  { intros k0 k1 p' q'. transitivity (sm d0 (fun p => sm d1 (fun q => (sm D (fun x => (sm D (fun x' => (entry r0 [k0; p; x'] * dl (lam_h P r c') x' x)%C) * entry r1 [k1; q; x])%C) * entry gate [p; q; p'; q'])%C))).
    - unfold t4. rewrite <- LW1. revert Sr0 Sr1 Sg. rewrite <- LW1. clear. destruct r0 as [sh0 f0], r1 as [sh1 f1], gate as [sh2 f2]; cbn [shape entry]; intros -> -> ->. reflexivity.
    - apply sm_ext. intros p _. apply sm_ext. intros q _. f_equal. apply sm_ext. intros x Hx. rewrite sm_at by exact Hx. reflexivity. }
  destruct (svd 2 _) as [[u s] vt]. cbn [r_norm]. intros Z0.
  intros w0 s0 n0 s1 e1 n1 p' q' Hw0 Hs0 Hn0 Hs1 He1 Hn1 Hp Hq iw0 is0 in0 is1 ie1 in1.
  pose proof (two_core d0 d1 D K0 K1 0 (fun p x => entry (gamma P r c) [w0; s0; x; n0; p]) (fun p x => entry (gamma P r c') [x; s1; e1; n1; p]) (fun k => (el (inv_elements tol (north P r c)) n0 * el (inv_elements tol (west P r c)) w0 * el (inv_elements tol (south P r c)) s0 * entry q0 [n0; w0; s0; k])%C) (fun k => (el (inv_elements tol (south P r c')) s1 * el (inv_elements tol (east P r c')) e1 * el (inv_elements tol (north P r c')) n1 * entry q1 [s1; e1; n1; k])%C) (fun k p x => entry r0 [k; p; x]) (fun k p x => entry r1 [k; p; x]) (el (lam_h P r c')) (fun _ => RtoC 0) (fun p q => entry gate [p; q; p'; q']) (fun _ _ => RtoC 0) (fun _ _ => RtoC 0) (RtoC 1)) as C2.
  cbv beta in C2. match goal with |- ?x = _ => rewrite <- (one_times x) end. rewrite <- C2.
  - unfold sm. cbn [seq]. rewrite sumC_nil. reflexivity.
  - intros p x Hp' Hx. specialize (X0 n0 w0 s0 p x Hn0 Hw0 Hs0 Hp' Hx). rewrite (eat3_right P r c _ _ _ _ _ Sh0) in X0 by assumption.
    transitivity ((el (inv_elements tol (north P r c)) n0 * el (inv_elements tol (west P r c)) w0 * el (inv_elements tol (south P r c)) s0) * (entry (gamma P r c) [w0; s0; x; n0; p] * el (north P r c) n0 * el (west P r c) w0 * el (south P r c) s0))%C.
    + unfold good in *. transitivity (entry (gamma P r c) [w0; s0; x; n0; p] * (el (inv_elements tol (north P r c)) n0 * el (north P r c) n0) * (el (inv_elements tol (west P r c)) w0 * el (west P r c) w0) * (el (inv_elements tol (south P r c)) s0 * el (south P r c) s0))%C; [rewrite iw0, is0, in0; ring|ring].
    + rewrite X0. fold (sm K0 (fun z => (entry q0 [n0; w0; s0; z] * entry r0 [z; p; x])%C)). rewrite <- sm_scal. apply sm_ext. intros k Hk.
      ring.
  - intros p x Hp' Hx. specialize (X1 s1 e1 n1 p x Hs1 He1 Hn1 Hp' Hx). rewrite (eat3_left P r c' _ _ _ _ _ Sh1) in X1 by assumption.
    transitivity ((el (inv_elements tol (south P r c')) s1 * el (inv_elements tol (east P r c')) e1 * el (inv_elements tol (north P r c')) n1) * (entry (gamma P r c') [x; s1; e1; n1; p] * el (north P r c') n1 * el (east P r c') e1 * el (south P r c') s1))%C.
    + unfold good in *. transitivity (entry (gamma P r c') [x; s1; e1; n1; p] * (el (inv_elements tol (south P r c')) s1 * el (south P r c') s1) * (el (inv_elements tol (east P r c')) e1 * el (east P r c') e1) * (el (inv_elements tol (north P r c')) n1 * el (north P r c') n1))%C; [rewrite is1, ie1, in1; ring|ring].
    + rewrite X1. fold (sm K1 (fun z => (entry q1 [s1; e1; n1; z] * entry r1 [z; p; x])%C)). rewrite <- sm_scal. apply sm_ext. intros k Hk.
      ring.
  - intros k0 k1 H0 H1. rewrite <- Et. assert (ZT : entry t4 [k0; k1; p'; q'] = RtoC 0).
    { destruct (C_dec (entry t4 [k0; k1; p'; q']) (RtoC 0)) as [?|NZ]; [assumption|]. exfalso. refine (tnorm_nonzero t4 _ _ NZ Z0). rewrite St. repeat constructor; assumption. }
    rewrite ZT. unfold sm. cbn [seq]. rewrite sumC_nil. ring.
Qed.
End Hor.

Section Ver.
Context (r c W0 E0 N0 d0 W1 S1 E1 d1 D : nat).
Let r' := if p_per P then (r + 1) mod v_rows P else r + 1.
Context (Sh0 : shape (gamma P r c) = [W0; D; E0; N0; d0]) (Sh1 : shape (gamma P r' c) = [W1; S1; E1; D; d1]).
Context (LW0 : length (west P r c) = W0) (LE0 : length (east P r c) = E0) (LN0 : length (north P r c) = N0).
Context (LN1 : length (lam_v P r' c) = D) (LS1 : length (south P r' c) = S1) (LE1 : length (east P r' c) = E1) (LW1 : length (west P r' c) = W1).
Context (Sg : shape gate = [d0; d1; d0; d1]).
Lemma null_v : r_norm (project_v qr svd tol P gate ham r c) = 0%R -> forall w0 e0 n0 w1 s1 e1 p' q', w0 < W0 -> e0 < E0 -> n0 < N0 -> w1 < W1 -> s1 < S1 -> e1 < E1 -> p' < d0 -> q' < d1 ->
    good tol (west P r c) w0 -> good tol (east P r c) e0 -> good tol (north P r c) n0 ->
    good tol (west P r' c) w1 -> good tol (south P r' c) s1 -> good tol (east P r' c) e1 ->
    sm d0 (fun p => sm d1 (fun q => (sm D (fun x => (entry (gamma P r c) [w0; x; e0; n0; p] * el (lam_v P r' c) x * entry (gamma P r' c) [w1; s1; e1; x; q])%C) * entry gate [p; q; p'; q'])%C)) = RtoC 0.
Proof.
  unfold project_v. fold r'.
  pose proof (eat3_down_shape P r c _ _ _ _ _ Sh0 LW0 LE0 LN0) as T0.
  pose proof (eat3_up_shape P r' c _ _ _ _ _ Sh1 LW1 LS1 LE1) as T1.
  pose proof (QR (eat3 P r c DOWN) ltac:(rewrite T0; reflexivity)) as Q0. pose proof (QR (eat3 P r' c UP) ltac:(rewrite T1; reflexivity)) as Q1.
  destruct (qr (eat3 P r c DOWN)) as [q0 r0], (qr (eat3 P r' c UP)) as [q1 r1].
  destruct Q0 as (K0 & Sq0 & Sr0 & B0 & X0), Q1 as (K1 & Sq1 & Sr1 & B1 & X1).
  unfold dimat in Sq0, Sr0, B0, X0, Sq1, Sr1, B1, X1. rewrite T0 in Sq0, Sr0, B0, X0. rewrite T1 in Sq1, Sr1, B1, X1. cbn [nth] in Sq0, Sr0, B0, X0, Sq1, Sr1, B1, X1.
  set (t4 := contract (cyc (cyc r0 2 (diag (lam_v P r' c)) 0 1) 2 r1 2 1) [1; 3] gate [0; 1]).
  assert (St : shape t4 = [K0; K1; d0; d1]).
  { unfold t4. revert Sr0 Sr1 Sg. clear. destruct r0 as [sh0 f0], r1 as [sh1 f1], gate as [sh2 f2]; cbn [shape]; intros -> -> ->. reflexivity. }
  assert (Et : forall k0 k1 p' q', entry t4 [k0; k1; p'; q'] = sm d0 (fun p => sm d1 (fun q => (sm D (fun x => (entry r0 [k0; p; x] * el (lam_v P r' c) x * entry r1 [k1; q; x])%C) * entry gate [p; q; p'; q'])%C))).
  { intros k0 k1 p' q'. transitivity (sm d0 (fun p => sm d1 (fun q => (sm D (fun x => (sm D (fun x' => (entry r0 [k0; p; x'] * dl (lam_v P r' c) x' x)%C) * entry r1 [k1; q; x])%C) * entry gate [p; q; p'; q'])%C))).
    - unfold t4. rewrite <- LN1. revert Sr0 Sr1 Sg. rewrite <- LN1. clear. destruct r0 as [sh0 f0], r1 as [sh1 f1], gate as [sh2 f2]; cbn [shape entry]; intros -> -> ->. reflexivity.
    - apply sm_ext. intros p _. apply sm_ext. intros q _. f_equal. apply sm_ext. intros x Hx. rewrite sm_at by exact Hx. reflexivity. }
  destruct (svd 2 _) as [[u s] vt]. cbn [r_norm]. intros Z0.
  intros w0 e0 n0 w1 s1 e1 p' q' Hw0 He0 Hn0 Hw1 Hs1 He1 Hp Hq iw0 ie0 in0 iw1 is1 ie1.
  pose proof (two_core d0 d1 D K0 K1 0 (fun p x => entry (gamma P r c) [w0; x; e0; n0; p]) (fun p x => entry (gamma P r' c) [w1; s1; e1; x; p]) (fun k => (el (inv_elements tol (north P r c)) n0 * el (inv_elements tol (west P r c)) w0 * el (inv_elements tol (east P r c)) e0 * entry q0 [e0; n0; w0; k])%C) (fun k => (el (inv_elements tol (east P r' c)) e1 * el (inv_elements tol (south P r' c)) s1 * el (inv_elements tol (west P r' c)) w1 * entry q1 [e1; s1; w1; k])%C) (fun k p x => entry r0 [k; p; x]) (fun k p x => entry r1 [k; p; x]) (el (lam_v P r' c)) (fun _ => RtoC 0) (fun p q => entry gate [p; q; p'; q']) (fun _ _ => RtoC 0) (fun _ _ => RtoC 0) (RtoC 1)) as C2.
  cbv beta in C2. match goal with |- ?x = _ => rewrite <- (one_times x) end. rewrite <- C2.
  - unfold sm. cbn [seq]. rewrite sumC_nil. reflexivity.
  - intros p x Hp' Hx. specialize (X0 e0 n0 w0 p x He0 Hn0 Hw0 Hp' Hx). rewrite (eat3_down P r c _ _ _ _ _ Sh0 LW0 LE0 LN0) in X0 by assumption.
    transitivity ((el (inv_elements tol (north P r c)) n0 * el (inv_elements tol (west P r c)) w0 * el (inv_elements tol (east P r c)) e0) * (entry (gamma P r c) [w0; x; e0; n0; p] * el (west P r c) w0 * el (north P r c) n0 * el (east P r c) e0))%C.
    + unfold good in *. transitivity (entry (gamma P r c) [w0; x; e0; n0; p] * (el (inv_elements tol (north P r c)) n0 * el (north P r c) n0) * (el (inv_elements tol (west P r c)) w0 * el (west P r c) w0) * (el (inv_elements tol (east P r c)) e0 * el (east P r c) e0))%C; [rewrite iw0, ie0, in0; ring|ring].
    + rewrite X0. fold (sm K0 (fun z => (entry q0 [e0; n0; w0; z] * entry r0 [z; p; x])%C)). rewrite <- sm_scal. apply sm_ext. intros k Hk.
      ring.
  - intros p x Hp' Hx. specialize (X1 e1 s1 w1 p x He1 Hs1 Hw1 Hp' Hx). rewrite (eat3_up P r' c _ _ _ _ _ Sh1 LW1 LS1 LE1) in X1 by assumption.
    transitivity ((el (inv_elements tol (east P r' c)) e1 * el (inv_elements tol (south P r' c)) s1 * el (inv_elements tol (west P r' c)) w1) * (entry (gamma P r' c) [w1; s1; e1; x; p] * el (west P r' c) w1 * el (south P r' c) s1 * el (east P r' c) e1))%C.
    + unfold good in *. transitivity (entry (gamma P r' c) [w1; s1; e1; x; p] * (el (inv_elements tol (east P r' c)) e1 * el (east P r' c) e1) * (el (inv_elements tol (south P r' c)) s1 * el (south P r' c) s1) * (el (inv_elements tol (west P r' c)) w1 * el (west P r' c) w1))%C; [rewrite iw1, is1, ie1; ring|ring].
    + rewrite X1. fold (sm K1 (fun z => (entry q1 [e1; s1; w1; z] * entry r1 [z; p; x])%C)). rewrite <- sm_scal. apply sm_ext. intros k Hk.
      ring.
  - intros k0 k1 H0 H1. rewrite <- Et. assert (ZT : entry t4 [k0; k1; p'; q'] = RtoC 0).
    { destruct (C_dec (entry t4 [k0; k1; p'; q']) (RtoC 0)) as [?|NZ]; [assumption|]. exfalso. refine (tnorm_nonzero t4 _ _ NZ Z0). rewrite St. repeat constructor; assumption. }
    rewrite ZT. unfold sm. cbn [seq]. rewrite sumC_nil. ring.
Qed.
End Ver.
End Pair.
