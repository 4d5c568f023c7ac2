(** What NearestNeighborSiteProject does to the two tensors. *)
From Coq Require Import List Arith Lia Bool Reals Lra.
From Verif Require Import Base Cplx SumModel SumSpec SumProofs NetSum NetEx ContractorModel TrgTensor TrgHoleAlg BmpsModel BmpsAlg ProjModel ProjSpec ProjAlg ProjCore.
Import ListNotations.
Local Open Scope nat_scope.

(** the inverse of a weight is its inverse *)
Definition good (tol : R) (s : list R) (i : nat) : Prop := (el (inv_elements tol s) i * el s i = RtoC 1)%C.
(** both dimensions of an open tensor *)
Lemma inside2 a b i j : i < a -> j < b -> inside [a; b] [i; j].
Proof. intros. repeat constructor; assumption. Qed.

Section Pair.
Context (qr : tensor -> tensor * tensor) (svd : nat -> tensor -> tensor * list R * tensor) (tol : R) (m : nat).
Context (QR : qr_exact qr) (SV : svd_up_to m svd).
Context (P : peps) (gate : tensor) (ham : option tensor).

Section Hor.
Context (r c W0 S0 N0 d0 S1 E1 N1 d1 D : nat).
Let c' := (c + 1) mod h_cols P.
Context (Sh0 : shape (gamma P r c) = [W0; S0; D; N0; d0]) (Sh1 : shape (gamma P r c') = [D; S1; E1; N1; d1]).
Context (LW0 : length (west P r c) = W0) (LS0 : length (south P r c) = S0) (LE0 : length (east P r c) = D) (LN0 : length (north P r c) = N0).
Context (LW1 : length (lam_h P r c') = D) (LS1 : length (south P r c') = S1) (LE1 : length (east P r c') = E1) (LN1 : length (north P r c') = N1).
Context (Sg : shape gate = [d0; d1; d0; d1]) (Big : d0 * D * d0 <= m).
Context (NE : c <> c') (NE' : forall s, east (put_h P r c' s) r c' = east P r c').
Lemma local_h : exists s g0 g1, r_peps (project_h qr svd tol P gate ham r c) = put_gamma (put_gamma (put_h P r c' s) r c g0) r c' g1 /\
  shape g0 = [W0; S0; length s; N0; d0] /\ shape g1 = [length s; S1; E1; N1; d1] /\
  forall w0 s0 n0 s1 e1 n1 p' q', w0 < W0 -> s0 < S0 -> n0 < N0 -> s1 < S1 -> e1 < E1 -> n1 < N1 -> p' < d0 -> q' < d1 ->
    good tol (west P r c) w0 -> good tol (south P r c) s0 -> good tol (north P r c) n0 ->
    good tol (south P r c') s1 -> good tol (east P r c') e1 -> good tol (north P r c') n1 ->
    sm (length s) (fun z => (entry g0 [w0; s0; z; n0; p'] * el s z * entry g1 [z; s1; e1; n1; q'])%C) =
    (RtoC (/ r_norm (project_h qr svd tol P gate ham r c)) *
     sm d0 (fun p => sm d1 (fun q => (sm D (fun x => (entry (gamma P r c) [w0; s0; x; n0; p] * el (lam_h P r c') x * entry (gamma P r c') [x; s1; e1; n1; q])%C) * entry gate [p; q; p'; q'])%C)))%C.
Proof.
  unfold project_h. fold c'.
  pose proof (eat3_right_shape P r c _ _ _ _ _ Sh0 LW0 LS0 LN0) as T0.
  pose proof (eat3_left_shape P r c' _ _ _ _ _ Sh1 LS1 LE1 LN1) as T1.
  pose proof (QR (eat3 P r c RIGHT) ltac:(rewrite T0; reflexivity)) as Q0. pose proof (QR (eat3 P r c' LEFT) ltac:(rewrite T1; reflexivity)) as Q1.
  destruct (qr (eat3 P r c RIGHT)) as [q0 r0], (qr (eat3 P r c' LEFT)) as [q1 r1].
  destruct Q0 as (K0 & Sq0 & Sr0 & B0 & X0), Q1 as (K1 & Sq1 & Sr1 & B1 & X1).
  unfold dimat in Sq0, Sr0, B0, X0, Sq1, Sr1, B1, X1. rewrite T0 in Sq0, Sr0, B0, X0. rewrite T1 in Sq1, Sr1, B1, X1. cbn [nth] in Sq0, Sr0, B0, X0, Sq1, Sr1, B1, X1.
  set (t4 := contract (cyc (contract r0 [2] (diag (lam_h P r c')) [0]) 2 r1 2 1) [1; 3] gate [0; 1]).
  assert (St : shape t4 = [K0; K1; d0; d1]).
  { unfold t4. revert Sr0 Sr1 Sg. clear. destruct r0 as [sh0 f0], r1 as [sh1 f1], gate as [sh2 f2]; cbn [shape]; intros -> -> ->. reflexivity. }
  assert (Et : forall k0 k1 p' q', entry t4 [k0; k1; p'; q'] = sm d0 (fun p => sm d1 (fun q => (sm D (fun x => (entry r0 [k0; p; x] * el (lam_h P r c') x * entry r1 [k1; q; x])%C) * entry gate [p; q; p'; q'])%C))).
  { intros k0 k1 p' q'. transitivity (sm d0 (fun p => sm d1 (fun q => (sm D (fun x => (sm D (fun x' => (entry r0 [k0; p; x'] * dl (lam_h P r c') x' x)%C) * entry r1 [k1; q; x])%C) * entry gate [p; q; p'; q'])%C))).
    - unfold t4. rewrite <- LW1. revert Sr0 Sr1 Sg. rewrite <- LW1. clear. destruct r0 as [sh0 f0], r1 as [sh1 f1], gate as [sh2 f2]; cbn [shape entry]; intros -> -> ->. reflexivity.
    - apply sm_ext. intros p _. apply sm_ext. intros q _. f_equal. apply sm_ext. intros x Hx. rewrite sm_at by exact Hx. reflexivity. }
  assert (S2 : shape (transpose [0; 2; 1; 3] (normalised t4)) = [K0; d0; K1; d1]).
  { cbn [transpose shape map]. unfold dimat. cbn [normalised shape]. rewrite St. reflexivity. }
  assert (E2 : forall k0 k1 p' q', entry (transpose [0; 2; 1; 3] (normalised t4)) [k0; p'; k1; q'] = (RtoC (/ tnorm t4) * entry t4 [k0; k1; p'; q'])%C).
  { intros. cbn [transpose entry]. unfold rank. cbn [normalised shape entry]. rewrite St. reflexivity. }
  pose proof (SV 2 (transpose [0; 2; 1; 3] (normalised t4)) ltac:(rewrite S2; cbn; lia) ltac:(rewrite S2; left; cbn; nia)) as V.
  destruct (svd 2 (transpose [0; 2; 1; 3] (normalised t4))) as [[u s] vt]. rewrite S2 in V. cbn [firstn skipn app] in V. destruct V as (Su & Sv & EV).
  cbn [r_peps r_norm].
  set (h0 := split_out tol (put_h P r c' s) q0 r c RIGHT). set (g0 := transpose [1; 2; 4; 0; 3] (cyc h0 0 u 0 1)).
  set (P2 := put_gamma (put_h P r c' s) r c g0). set (h1 := split_out tol P2 q1 r c' LEFT). set (g1 := transpose [4; 0; 1; 2; 3] (cyc h1 0 vt 1 1)).
  assert (WE : west (put_h P r c' s) r c = west P r c).
  { unfold west, put_h. cbn [lam_h]. unfold put. rewrite (proj2 (Nat.eqb_neq c c') NE), andb_false_r. reflexivity. }
  assert (EE : east P2 r c' = east P r c') by exact (NE' s).
  pose proof (split_right_shape tol (put_h P r c' s) r c W0 S0 N0 ltac:(rewrite WE; exact LW0) LS0 LN0 q0 K0 Sq0) as Sh. fold h0 in Sh.
  pose proof (split_left_shape tol P2 r c' S1 E1 N1 LS1 ltac:(rewrite EE; exact LE1) LN1 q1 K1 Sq1) as Sk. fold h1 in Sk.
  exists s, g0, g1. split; [reflexivity|].
  assert (G0 : shape g0 = [W0; S0; length s; N0; d0] /\ forall w s0 n z p, entry g0 [w; s0; z; n; p] = sm K0 (fun k => (entry h0 [k; n; w; s0] * entry u [k; p; z])%C)).
  { unfold g0. revert Sh Su. clearbody h0. clear. generalize (length s). intros l. destruct h0 as [sh0 f0], u as [sh1 f1]; cbn [shape entry]; intros -> ->. split; reflexivity. }
  assert (G1 : shape g1 = [length s; S1; E1; N1; d1] /\ forall s1 e n z p, entry g1 [z; s1; e; n; p] = sm K1 (fun k => (entry h1 [k; s1; e; n] * entry vt [z; k; p])%C)).
  { unfold g1. revert Sk Sv. clearbody h1. clear. generalize (length s). intros l. destruct h1 as [sh0 f0], vt as [sh1 f1]; cbn [shape entry]; intros -> ->. split; reflexivity. }
  destruct G0 as [Sg0 G0], G1 as [Sg1 G1]. split; [exact Sg0|]. split; [exact Sg1|].
  intros w0 s0 n0 s1 e1 n1 p' q' Hw0 Hs0 Hn0 Hs1 He1 Hn1 Hp Hq iw0 is0 in0 is1 ie1 in1.
  rewrite <- (two_core d0 d1 D K0 K1 (length s) (fun p x => entry (gamma P r c) [w0; s0; x; n0; p]) (fun p x => entry (gamma P r c') [x; s1; e1; n1; p])
    (fun k => entry h0 [k; n0; w0; s0]) (fun k => entry h1 [k; s1; e1; n1]) (fun k p x => entry r0 [k; p; x]) (fun k p x => entry r1 [k; p; x])
    (el (lam_h P r c')) (el s) (fun p q => entry gate [p; q; p'; q']) (fun k z => entry u [k; p'; z]) (fun z k => entry vt [z; k; q'])).
  - apply sm_ext. intros z _. rewrite G0, G1. reflexivity.
  - intros p x Hp' Hx. specialize (X0 n0 w0 s0 p x Hn0 Hw0 Hs0 Hp' Hx). rewrite (eat3_right P r c _ _ _ _ _ Sh0) in X0 by assumption.
    transitivity ((el (inv_elements tol (north P r c)) n0 * el (inv_elements tol (west P r c)) w0 * el (inv_elements tol (south P r c)) s0) * (entry (gamma P r c) [w0; s0; x; n0; p] * el (north P r c) n0 * el (west P r c) w0 * el (south P r c) s0))%C.
    + unfold good in *. transitivity (entry (gamma P r c) [w0; s0; x; n0; p] * (el (inv_elements tol (north P r c)) n0 * el (north P r c) n0) * (el (inv_elements tol (west P r c)) w0 * el (west P r c) w0) * (el (inv_elements tol (south P r c)) s0 * el (south P r c) s0))%C; [rewrite iw0, is0, in0; ring|ring].
    + rewrite X0. fold (sm K0 (fun z => (entry q0 [n0; w0; s0; z] * entry r0 [z; p; x])%C)). rewrite <- sm_scal. apply sm_ext. intros k Hk.
      unfold h0. rewrite (split_right tol (put_h P r c' s) r c W0 S0 N0 q0 K0 w0 s0 n0 k Sq0 Hw0 Hs0 Hn0). rewrite WE. cbn [south north put_h p_per lam_v]. unfold south, north. cbn [put_h p_per lam_v p_rows]. ring.
  - intros p x Hp' Hx. specialize (X1 s1 e1 n1 p x Hs1 He1 Hn1 Hp' Hx). rewrite (eat3_left P r c' _ _ _ _ _ Sh1) in X1 by assumption.
    transitivity ((el (inv_elements tol (south P r c')) s1 * el (inv_elements tol (east P r c')) e1 * el (inv_elements tol (north P r c')) n1) * (entry (gamma P r c') [x; s1; e1; n1; p] * el (north P r c') n1 * el (east P r c') e1 * el (south P r c') s1))%C.
    + unfold good in *. transitivity (entry (gamma P r c') [x; s1; e1; n1; p] * (el (inv_elements tol (south P r c')) s1 * el (south P r c') s1) * (el (inv_elements tol (east P r c')) e1 * el (east P r c') e1) * (el (inv_elements tol (north P r c')) n1 * el (north P r c') n1))%C; [rewrite is1, ie1, in1; ring|ring].
    + rewrite X1. fold (sm K1 (fun z => (entry q1 [s1; e1; n1; z] * entry r1 [z; p; x])%C)). rewrite <- sm_scal. apply sm_ext. intros k Hk.
      unfold h1. rewrite (split_left tol P2 r c' S1 E1 N1 q1 K1 s1 e1 n1 k Sq1 Hs1 He1 Hn1). rewrite EE. unfold P2, south, north. cbn [put_gamma put_h p_per lam_v p_rows]. ring.
  - intros k0 k1 H0 H1. rewrite <- Et, <- E2. specialize (EV [k0; p'] [k1; q'] (inside2 _ _ _ _ H0 Hp) (inside2 _ _ _ _ H1 Hq)). exact EV.
Qed.
End Hor.

Section Ver.
Context (r c W0 E0 N0 d0 W1 S1 E1 d1 D : nat).
Let r' := if p_per P then (r + 1) mod v_rows P else r + 1.
Context (Sh0 : shape (gamma P r c) = [W0; D; E0; N0; d0]) (Sh1 : shape (gamma P r' c) = [W1; S1; E1; D; d1]).
Context (LW0 : length (west P r c) = W0) (LE0 : length (east P r c) = E0) (LN0 : length (north P r c) = N0).
Context (LN1 : length (lam_v P r' c) = D) (LS1 : length (south P r' c) = S1) (LE1 : length (east P r' c) = E1) (LW1 : length (west P r' c) = W1).
Context (Sg : shape gate = [d0; d1; d0; d1]) (Big : d0 * D * d0 <= m).
Context (NE : r <> r') (NE' : forall s, south (put_v P r' c s) r' c = south P r' c).
Lemma local_v : exists s g0 g1, r_peps (project_v qr svd tol P gate ham r c) = put_gamma (put_gamma (put_v P r' c s) r c g0) r' c g1 /\
  shape g0 = [W0; length s; E0; N0; d0] /\ shape g1 = [W1; S1; E1; length s; d1] /\
  forall w0 e0 n0 w1 s1 e1 p' q', w0 < W0 -> e0 < E0 -> n0 < N0 -> w1 < W1 -> s1 < S1 -> e1 < E1 -> p' < d0 -> q' < d1 ->
    good tol (west P r c) w0 -> good tol (east P r c) e0 -> good tol (north P r c) n0 ->
    good tol (west P r' c) w1 -> good tol (south P r' c) s1 -> good tol (east P r' c) e1 ->
    sm (length s) (fun z => (entry g0 [w0; z; e0; n0; p'] * el s z * entry g1 [w1; s1; e1; z; q'])%C) =
    (RtoC (/ r_norm (project_v qr svd tol P gate ham r c)) *
     sm d0 (fun p => sm d1 (fun q => (sm D (fun x => (entry (gamma P r c) [w0; x; e0; n0; p] * el (lam_v P r' c) x * entry (gamma P r' c) [w1; s1; e1; x; q])%C) * entry gate [p; q; p'; q'])%C)))%C.
Proof.
  unfold project_v. fold r'.
  pose proof (eat3_down_shape P r c _ _ _ _ _ Sh0 LW0 LE0 LN0) as T0.
  pose proof (eat3_up_shape P r' c _ _ _ _ _ Sh1 LW1 LS1 LE1) as T1.
  pose proof (QR (eat3 P r c DOWN) ltac:(rewrite T0; reflexivity)) as Q0. pose proof (QR (eat3 P r' c UP) ltac:(rewrite T1; reflexivity)) as Q1.
  destruct (qr (eat3 P r c DOWN)) as [q0 r0], (qr (eat3 P r' c UP)) as [q1 r1].
  destruct Q0 as (K0 & Sq0 & Sr0 & B0 & X0), Q1 as (K1 & Sq1 & Sr1 & B1 & X1).
  unfold dimat in Sq0, Sr0, B0, X0, Sq1, Sr1, B1, X1. rewrite T0 in Sq0, Sr0, B0, X0. rewrite T1 in Sq1, Sr1, B1, X1. cbn [nth] in Sq0, Sr0, B0, X0, Sq1, Sr1, B1, X1.
  set (t4 := contract (cyc (cyc r0 2 (diag (lam_v P r' c)) 0 1) 2 r1 2 1) [1; 3] gate [0; 1]).
  assert (St : shape t4 = [K0; K1; d0; d1]).
  { unfold t4. revert Sr0 Sr1 Sg. clear. destruct r0 as [sh0 f0], r1 as [sh1 f1], gate as [sh2 f2]; cbn [shape]; intros -> -> ->. reflexivity. }
  assert (Et : forall k0 k1 p' q', entry t4 [k0; k1; p'; q'] = sm d0 (fun p => sm d1 (fun q => (sm D (fun x => (entry r0 [k0; p; x] * el (lam_v P r' c) x * entry r1 [k1; q; x])%C) * entry gate [p; q; p'; q'])%C))).
  { intros k0 k1 p' q'. transitivity (sm d0 (fun p => sm d1 (fun q => (sm D (fun x => (sm D (fun x' => (entry r0 [k0; p; x'] * dl (lam_v P r' c) x' x)%C) * entry r1 [k1; q; x])%C) * entry gate [p; q; p'; q'])%C))).
    - unfold t4. rewrite <- LN1. revert Sr0 Sr1 Sg. rewrite <- LN1. clear. destruct r0 as [sh0 f0], r1 as [sh1 f1], gate as [sh2 f2]; cbn [shape entry]; intros -> -> ->. reflexivity.
    - apply sm_ext. intros p _. apply sm_ext. intros q _. f_equal. apply sm_ext. intros x Hx. rewrite sm_at by exact Hx. reflexivity. }
  assert (S2 : shape (transpose [0; 2; 1; 3] (normalised t4)) = [K0; d0; K1; d1]).
  { cbn [transpose shape map]. unfold dimat. cbn [normalised shape]. rewrite St. reflexivity. }
  assert (E2 : forall k0 k1 p' q', entry (transpose [0; 2; 1; 3] (normalised t4)) [k0; p'; k1; q'] = (RtoC (/ tnorm t4) * entry t4 [k0; k1; p'; q'])%C).
  { intros. cbn [transpose entry]. unfold rank. cbn [normalised shape entry]. rewrite St. reflexivity. }
  pose proof (SV 2 (transpose [0; 2; 1; 3] (normalised t4)) ltac:(rewrite S2; cbn; lia) ltac:(rewrite S2; left; cbn; nia)) as V.
  destruct (svd 2 (transpose [0; 2; 1; 3] (normalised t4))) as [[u s] vt]. rewrite S2 in V. cbn [firstn skipn app] in V. destruct V as (Su & Sv & EV).
  cbn [r_peps r_norm].
  set (h0 := split_out tol (put_v P r' c s) q0 r c DOWN). set (g0 := transpose [2; 4; 0; 1; 3] (cyc h0 3 u 0 1)).
  set (P2 := put_gamma (put_v P r' c s) r c g0). set (h1 := split_out tol P2 q1 r' c UP). set (g1 := transpose [2; 1; 0; 4; 3] (cyc h1 1 vt 1 1)).
  assert (NN : north (put_v P r' c s) r c = north P r c).
  { unfold north, put_v. cbn [lam_v]. unfold put. rewrite (proj2 (Nat.eqb_neq r r') NE). reflexivity. }
  assert (SS : south P2 r' c = south P r' c) by exact (NE' s).
  pose proof (split_down_shape tol (put_v P r' c s) r c W0 E0 N0 LW0 LE0 ltac:(rewrite NN; exact LN0) q0 K0 Sq0) as Sh. fold h0 in Sh.
  pose proof (split_up_shape tol P2 r' c W1 S1 E1 LW1 ltac:(rewrite SS; exact LS1) LE1 q1 K1 Sq1) as Sk. fold h1 in Sk.
  exists s, g0, g1. split; [reflexivity|].
  assert (G0 : shape g0 = [W0; length s; E0; N0; d0] /\ forall w e n z p, entry g0 [w; z; e; n; p] = sm K0 (fun k => (entry h0 [e; n; w; k] * entry u [k; p; z])%C)).
  { unfold g0. revert Sh Su. clearbody h0. clear. generalize (length s). intros l. destruct h0 as [sh0 f0], u as [sh1 f1]; cbn [shape entry]; intros -> ->. split; reflexivity. }
  assert (G1 : shape g1 = [W1; S1; E1; length s; d1] /\ forall w s1 e z p, entry g1 [w; s1; e; z; p] = sm K1 (fun k => (entry h1 [w; k; e; s1] * entry vt [z; k; p])%C)).
  { unfold g1. revert Sk Sv. clearbody h1. clear. generalize (length s). intros l. destruct h1 as [sh0 f0], vt as [sh1 f1]; cbn [shape entry]; intros -> ->. split; reflexivity. }
  destruct G0 as [Sg0 G0], G1 as [Sg1 G1]. split; [exact Sg0|]. split; [exact Sg1|].
  intros w0 e0 n0 w1 s1 e1 p' q' Hw0 He0 Hn0 Hw1 Hs1 He1 Hp Hq iw0 ie0 in0 iw1 is1 ie1.
  rewrite <- (two_core d0 d1 D K0 K1 (length s) (fun p x => entry (gamma P r c) [w0; x; e0; n0; p]) (fun p x => entry (gamma P r' c) [w1; s1; e1; x; p])
    (fun k => entry h0 [e0; n0; w0; k]) (fun k => entry h1 [w1; k; e1; s1]) (fun k p x => entry r0 [k; p; x]) (fun k p x => entry r1 [k; p; x])
    (el (lam_v P r' c)) (el s) (fun p q => entry gate [p; q; p'; q']) (fun k z => entry u [k; p'; z]) (fun z k => entry vt [z; k; q'])).
  - apply sm_ext. intros z _. rewrite G0, G1. reflexivity.
  - intros p x Hp' Hx. specialize (X0 e0 n0 w0 p x He0 Hn0 Hw0 Hp' Hx). rewrite (eat3_down P r c _ _ _ _ _ Sh0 LW0 LE0 LN0) in X0 by assumption.
    transitivity ((el (inv_elements tol (north P r c)) n0 * el (inv_elements tol (west P r c)) w0 * el (inv_elements tol (east P r c)) e0) * (entry (gamma P r c) [w0; x; e0; n0; p] * el (west P r c) w0 * el (north P r c) n0 * el (east P r c) e0))%C.
    + unfold good in *. transitivity (entry (gamma P r c) [w0; x; e0; n0; p] * (el (inv_elements tol (north P r c)) n0 * el (north P r c) n0) * (el (inv_elements tol (west P r c)) w0 * el (west P r c) w0) * (el (inv_elements tol (east P r c)) e0 * el (east P r c) e0))%C; [rewrite iw0, ie0, in0; ring|ring].
    + rewrite X0. fold (sm K0 (fun z => (entry q0 [e0; n0; w0; z] * entry r0 [z; p; x])%C)). rewrite <- sm_scal. apply sm_ext. intros k Hk.
      unfold h0. rewrite (split_down tol (put_v P r' c s) r c W0 E0 N0 LW0 LE0 ltac:(rewrite NN; exact LN0) q0 K0 w0 e0 n0 k Sq0 Hw0 He0 Hn0). rewrite NN. unfold west, east. cbn [put_v p_per lam_h p_cols]. ring.
  - intros p x Hp' Hx. specialize (X1 e1 s1 w1 p x He1 Hs1 Hw1 Hp' Hx). rewrite (eat3_up P r' c _ _ _ _ _ Sh1 LW1 LS1 LE1) in X1 by assumption.
    transitivity ((el (inv_elements tol (east P r' c)) e1 * el (inv_elements tol (south P r' c)) s1 * el (inv_elements tol (west P r' c)) w1) * (entry (gamma P r' c) [w1; s1; e1; x; p] * el (west P r' c) w1 * el (south P r' c) s1 * el (east P r' c) e1))%C.
    + unfold good in *. transitivity (entry (gamma P r' c) [w1; s1; e1; x; p] * (el (inv_elements tol (east P r' c)) e1 * el (east P r' c) e1) * (el (inv_elements tol (south P r' c)) s1 * el (south P r' c) s1) * (el (inv_elements tol (west P r' c)) w1 * el (west P r' c) w1))%C; [rewrite iw1, is1, ie1; ring|ring].
    + rewrite X1. fold (sm K1 (fun z => (entry q1 [e1; s1; w1; z] * entry r1 [z; p; x])%C)). rewrite <- sm_scal. apply sm_ext. intros k Hk.
      unfold h1. rewrite (split_up tol P2 r' c W1 S1 E1 LW1 ltac:(rewrite SS; exact LS1) LE1 q1 K1 w1 s1 e1 k Sq1 Hw1 He1 Hs1). rewrite SS. unfold P2, west, east. cbn [put_gamma put_v p_per lam_h p_cols]. ring.
  - intros k0 k1 H0 H1. rewrite <- Et, <- E2. specialize (EV [k0; p'] [k1; q'] (inside2 _ _ _ _ H0 Hp) (inside2 _ _ _ _ H1 Hq)). exact EV.
Qed.
End Ver.
End Pair.
