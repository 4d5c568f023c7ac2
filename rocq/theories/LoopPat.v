(** The gate put into a loop. *)
From Coq Require Import List Arith Lia Bool Reals Lra.
From Verif Require Import Base Cplx SumModel SumSpec SumProofs NetSum NetEx ContractorModel TrgTensor TrgHoleAlg BmpsModel BmpsAlg OptModel CgModel ProjModel ProjSpec ProjAlg ProjCore ProjTwo ProjPatch ProjGrid ProjWave LoopModel LoopSpec LoopAlg LoopGauge LoopRing.
Import NetEx ListNotations.
Local Open Scope nat_scope.

Lemma transfer_shape T l a b c r : shape T = [l; a; b; c; r] -> shape (transfer T T) = [l; l; r; r].
Proof. unfold transfer. destruct T as [sh f]. cbn [shape]. intros ->. reflexivity. Qed.
Lemma upsilon_shape d e f gs ls : shaped d e f gs ls -> forall i, i < 4 -> let n := length (ls (before i)) in shape (upsilon gs ls i) = [n; n; n; n].
Proof.
  intros Sh i Hi n.
  assert (Step : forall T j a, shape T = [a; a; length (ls ((i + j - 1) mod 4)); length (ls ((i + j - 1) mod 4))] -> before ((i + j) mod 4) = (i + j - 1) mod 4 ->
    shape (upsilon_step gs ls i T j) = [a; a; length (ls ((i + j) mod 4)); length (ls ((i + j) mod 4))]).
  { intros T j a ST Eb. pose proof (Sh ((i + j) mod 4) ltac:(apply Nat.mod_upper_bound; lia)) as Q. rewrite Eb in Q. pose proof (transfer_shape _ _ _ _ _ _ Q) as Q'. unfold upsilon_step. cbv zeta. revert ST Q'. clear.
    generalize (transfer (gs ((i + j) mod 4)) (gs ((i + j) mod 4))) (length (ls ((i + j) mod 4))) (ls ((i + j - 1) mod 4)). intros V r l. destruct T as [sh0 f0], V as [sh1 f1]. cbn [shape]. intros -> ->. reflexivity. }
  pose proof (transfer_shape _ _ _ _ _ _ (Sh i Hi)) as S0. unfold upsilon. cbn [fold_left].
  assert (S1 : shape (upsilon_step gs ls i (transfer (gs i) (gs i)) 1) = [n; n; length (ls ((i + 1) mod 4)); length (ls ((i + 1) mod 4))]).
  { apply Step; [|destruct (four_cases i Hi) as [E|[E|[E|E]]]; subst i; reflexivity]. rewrite S0. replace ((i + 1 - 1) mod 4) with i; [reflexivity|]. destruct (four_cases i Hi) as [E|[E|[E|E]]]; subst i; reflexivity. }
  set (A := upsilon_step gs ls i (transfer (gs i) (gs i)) 1) in *. clearbody A.
  assert (S2 : shape (upsilon_step gs ls i A 2) = [n; n; length (ls ((i + 2) mod 4)); length (ls ((i + 2) mod 4))]).
  { apply Step; [|destruct (four_cases i Hi) as [E|[E|[E|E]]]; subst i; reflexivity]. rewrite S1. replace ((i + 2 - 1) mod 4) with ((i + 1) mod 4); [reflexivity|]. destruct (four_cases i Hi) as [E|[E|[E|E]]]; subst i; reflexivity. }
  set (B := upsilon_step gs ls i A 2) in *. clearbody B.
  apply (Step B 3 n); [|destruct (four_cases i Hi) as [E|[E|[E|E]]]; subst i; reflexivity]. rewrite S2. replace ((i + 3 - 1) mod 4) with ((i + 2) mod 4); [reflexivity|]. destruct (four_cases i Hi) as [E|[E|[E|E]]]; subst i; reflexivity.
Qed.

Ltac ins := repeat (constructor; [first [assumption|lia]|]); constructor.
Lemma weighted r0 k E B lam : shape r0 = [k; E; B] -> length lam = E -> let T := contract r0 [1] (diag lam) [0] in
  shape T = [k; B; E] /\ forall i b x, x < E -> entry T [i; b; x] = (entry r0 [i; x; b] * el lam x)%C.
Proof.
  intros S0 L T. assert (Q : shape T = [k; B; length lam] /\ forall i b x, entry T [i; b; x] = sm E (fun x' => (entry r0 [i; x'; b] * dl lam x' x)%C)).
  { unfold T. revert S0. clear. destruct r0 as [sh f]. cbn [shape]. intros ->. split; reflexivity. }
  destruct Q as [Q1 Q2]. split; [rewrite Q1, L; reflexivity|]. intros i b x Hx. rewrite Q2. apply sm_at. exact Hx.
Qed.
Section Pat.
Context (qr : nat -> tensor -> tensor * tensor) (svd : nat -> tensor -> tensor * list R * tensor) (QR : qr_any qr) (SV : svd_any svd).
(** the weighted remainder of the QR decomposition is decomposed *)
Lemma weight_svd r0 k E B lam : shape r0 = [k; E; B] -> length lam = E -> let '(u, s, vt) := svd 1 (contract r0 [1] (diag lam) [0]) in
  shape u = [k; length s] /\ shape vt = [length s; B; E] /\ length s <= B * E /\
  forall i b x, i < k -> b < B -> x < E -> (entry r0 [i; x; b] * el lam x)%C = sm (length s) (fun z => (entry u [i; z] * el s z * entry vt [z; b; x])%C).
Proof.
  intros S0 L. destruct (weighted r0 k E B lam S0 L) as [S1 E1]. pose proof (SV 1 (contract r0 [1] (diag lam) [0]) ltac:(rewrite S1; cbn; lia)) as V.
  destruct (svd 1 (contract r0 [1] (diag lam) [0])) as [[u s] vt]. rewrite S1 in V. cbn [firstn skipn app size fold_right] in V. destruct V as (Su & Sv & _ & Len & V). rewrite Nat.mul_1_r in Len.
  split; [exact Su|]. split; [exact Sv|]. split; [exact Len|]. intros i b x Hi Hb Hx. rewrite <- (E1 i b x Hx). exact (V [i] [b; x] ltac:(ins) ltac:(ins)).
Qed.
(** the QR decomposition of a site that the gate has been put into; legs (left, two others, state; right, right of the gate) *)
Lemma site_qr T Z a b d D B : shape T = [Z; a; b; d; D; B] -> let '(q, r0) := qr 4 T in exists k, shape q = [Z; a; b; d; k] /\ shape r0 = [k; D; B] /\
  forall z i j p x y, z < Z -> i < a -> j < b -> p < d -> x < D -> y < B -> entry T [z; i; j; p; x; y] = sm k (fun k => (entry q [z; i; j; p; k] * entry r0 [k; x; y])%C).
Proof.
  intros S. pose proof (QR 4 T ltac:(rewrite S; cbn; lia)) as V. destruct (qr 4 T) as [q r0]. rewrite S in V. cbn [firstn skipn app] in V. destruct V as (k & S1 & S2 & V). exists k. split; [exact S1|]. split; [exact S2|].
  intros z i j p x y Hz Hi Hj Hp Hx Hy. exact (V [z; i; j; p] [x; y] ltac:(ins) ltac:(ins)).
Qed.
Context (gate : nat -> tensor) (P : peps) (r c : nat).
Let r1 := (r + 1) mod p_rows P. Let c1 := (c + 1) mod p_cols P.
Context (Nr : r1 <> r) (Nc : c1 <> c).
Context (W0 N0 E1 N1 S2 E2 W3 S3 D0 D1 D2 D3 B0 B1 B2 B3 d0 d1 d2 d3 : nat).
Context (Sh0 : shape (gamma P r c) = [W0; D3; D0; N0; d0]) (Sh1 : shape (gamma P r c1) = [D0; D1; E1; N1; d1]) (Sh2 : shape (gamma P r1 c1) = [D2; S2; E2; D1; d2]) (Sh3 : shape (gamma P r1 c) = [W3; S3; D2; D3; d3]).
Context (L0 : length (lam_h P r c1) = D0) (L1 : length (lam_v P r1 c1) = D1) (L2 : length (lam_h P r1 c1) = D2) (L3 : length (lam_v P r1 c) = D3).
Context (Sg0 : shape (gate 0) = [B3; d0; d0; B0]) (Sg1 : shape (gate 1) = [B0; d1; d1; B1]) (Sg2 : shape (gate 2) = [B1; d2; d2; B2]) (Sg3 : shape (gate 3) = [B2; d3; d3; B3]).
Definition patched (s0 s1 s2 s3 : list R) (g0 g1 g2 g3 : tensor) : peps :=
  put_gamma (put_v (put_gamma (put_h (put_gamma (put_v (put_gamma (put_h P r c1 s0) r c1 g1) r1 c1 s1) r1 c1 g2) r1 c1 s2) r1 c g3) r1 c s3) r c g0.
Lemma pat_ok : exists s0 s1 s2 s3 g0 g1 g2 g3, pat qr svd gate P r c = patched s0 s1 s2 s3 g0 g1 g2 g3 /\
  shape g0 = [W0; length s3; length s0; N0; d0] /\ shape g1 = [length s0; length s1; E1; N1; d1] /\ shape g2 = [length s2; S2; E2; length s1; d2] /\ shape g3 = [W3; S3; length s2; length s3; d3] /\
  length s0 <= B0 * D0 /\ length s1 <= B1 * D1 /\ length s2 <= B2 * D2 /\ length s3 <= B3 * D3 /\
  forall e0 f0 e1 f1 e2 f2 e3 f3 p0 p1 p2 p3, e0 < W0 -> f0 < N0 -> e1 < E1 -> f1 < N1 -> e2 < S2 -> f2 < E2 -> e3 < W3 -> f3 < S3 -> p0 < d0 -> p1 < d1 -> p2 < d2 -> p3 < d3 ->
    ring4 (length s0) (length s1) (length s2) (length s3) (el s0) (el s1) (el s2) (el s3) (fun x y => entry g0 [e0; x; y; f0; p0]) (fun x y => entry g1 [x; y; e1; f1; p1]) (fun x y => entry g2 [y; e2; f2; x; p2]) (fun x y => entry g3 [e3; f3; x; y; p3]) =
    sm d0 (fun q0 => sm d1 (fun q1 => sm d2 (fun q2 => sm d3 (fun q3 =>
      (sm B0 (fun b0 => sm B1 (fun b1 => sm B2 (fun b2 => sm B3 (fun b3 => (entry (gate 0%nat) [b3; q0; p0; b0] * entry (gate 1%nat) [b0; q1; p1; b1] * entry (gate 2%nat) [b1; q2; p2; b2] * entry (gate 3%nat) [b2; q3; p3; b3])%C)))) *
       ring4 D0 D1 D2 D3 (el (lam_h P r c1)) (el (lam_v P r1 c1)) (el (lam_h P r1 c1)) (el (lam_v P r1 c)) (fun x y => entry (gamma P r c) [e0; x; y; f0; q0]) (fun x y => entry (gamma P r c1) [x; y; e1; f1; q1]) (fun x y => entry (gamma P r1 c1) [y; e2; f2; x; q2]) (fun x y => entry (gamma P r1 c) [e3; f3; x; y; q3]))%C)))).
Proof.
  unfold pat. fold r1 c1.
  set (t0 := transpose [1; 4; 0; 3; 5; 2; 6] (contract (gamma P r c) [4] (gate 0) [1])).
  assert (T0 : shape t0 = [D3; B3; W0; N0; d0; D0; B0] /\ forall x b w n p y d, entry t0 [x; b; w; n; p; y; d] = sm d0 (fun q => (entry (gamma P r c) [w; x; y; n; q] * entry (gate 0%nat) [b; q; p; d])%C)).
  { unfold t0. revert Sh0 Sg0. clear. destruct (gamma P r c) as [sh0 f0], (gate 0) as [sh1 f1]. cbn [shape]. intros -> ->. split; reflexivity. }
  destruct T0 as [St0 Et0]. pose proof (QR 5 t0 ltac:(rewrite St0; cbn; lia)) as V. destruct (qr 5 t0) as [q0 r0]. rewrite St0 in V. cbn [firstn skipn app] in V. destruct V as (K0 & Sq0 & Sr0 & V0).
  pose proof (weight_svd r0 K0 D0 B0 (lam_h P r c1) Sr0 L0) as V. destruct (svd 1 (contract r0 [1] (diag (lam_h P r c1)) [0])) as [[u0 s0] vt0]. destruct V as (Su0 & Sv0 & Len0 & F0).
  cbv zeta. change (gamma (put_h P r c1 s0) r c1) with (gamma P r c1).
  set (t4 := transpose [0; 2; 3; 4; 1; 5] (contract vt0 [1; 2] (contract (gamma P r c1) [4] (gate 1) [1]) [4; 0])).
  assert (T4 : shape t4 = [length s0; E1; N1; d1; D1; B1] /\ forall z e n p y d, entry t4 [z; e; n; p; y; d] = sm B0 (fun b => sm D0 (fun x => (entry vt0 [z; b; x] * sm d1 (fun q => (entry (gamma P r c1) [x; y; e; n; q] * entry (gate 1%nat) [b; q; p; d])%C))%C))).
  { unfold t4. revert Sv0 Sh1 Sg1. clear. generalize (length s0). intros Z0. destruct (gamma P r c1) as [sh0 f0], (gate 1) as [sh1 f1], vt0 as [sh2 f2]. cbn [shape]. intros -> -> ->. split; reflexivity. }
  destruct T4 as [St4 Et4]. pose proof (site_qr t4 _ _ _ _ _ _ St4) as V. destruct (qr 4 t4) as [q1 r1']. destruct V as (K1 & Sq1 & Sr1 & V1).
  change (lam_v (put_h P r c1 s0) r1 c1) with (lam_v P r1 c1).
  pose proof (weight_svd r1' K1 D1 B1 (lam_v P r1 c1) Sr1 L1) as V. destruct (svd 1 (contract r1' [1] (diag (lam_v P r1 c1)) [0])) as [[u1 s1] vt1]. destruct V as (Su1 & Sv1 & Len1 & F1).
  set (g1 := transpose [0; 4; 1; 2; 3] (contract q1 [4] u1 [0])).
  assert (G1 : shape g1 = [length s0; length s1; E1; N1; d1] /\ forall x y e n p, entry g1 [x; y; e; n; p] = sm K1 (fun k => (entry q1 [x; e; n; p; k] * entry u1 [k; y])%C)).
  { unfold g1. revert Sq1 Su1. clear. generalize (length s0) (length s1). intros Z0 Z1. destruct q1 as [sh0 f0], u1 as [sh1 f1]. cbn [shape]. intros -> ->. split; reflexivity. }
  set (P1 := put_v (put_gamma (put_h P r c1 s0) r c1 g1) r1 c1 s1).
  assert (R1 : gamma P1 r1 c1 = gamma P r1 c1) by (cbn [P1 gamma put_v put_gamma put_h]; rewrite put_other by congruence; reflexivity). rewrite R1.
  assert (R1' : lam_h P1 r1 c1 = lam_h P r1 c1) by (cbn [P1 lam_h put_v put_gamma put_h]; rewrite put_other by congruence; reflexivity). rewrite R1'.
  set (t7 := transpose [0; 2; 3; 4; 1; 5] (contract vt1 [1; 2] (contract (gamma P r1 c1) [4] (gate 2) [1]) [4; 3])).
  assert (T7 : shape t7 = [length s1; S2; E2; d2; D2; B2] /\ forall z s e p y d, entry t7 [z; s; e; p; y; d] = sm B1 (fun b => sm D1 (fun x => (entry vt1 [z; b; x] * sm d2 (fun q => (entry (gamma P r1 c1) [y; s; e; x; q] * entry (gate 2%nat) [b; q; p; d])%C))%C))).
  { unfold t7. revert Sv1 Sh2 Sg2. clear. generalize (length s1). intros Z0. destruct (gamma P r1 c1) as [sh0 f0], (gate 2) as [sh1 f1], vt1 as [sh2 f2]. cbn [shape]. intros -> -> ->. split; reflexivity. }
  destruct T7 as [St7 Et7]. pose proof (site_qr t7 _ _ _ _ _ _ St7) as V. destruct (qr 4 t7) as [q2 r2]. destruct V as (K2 & Sq2 & Sr2 & V2).
  pose proof (weight_svd r2 K2 D2 B2 (lam_h P r1 c1) Sr2 L2) as V. destruct (svd 1 (contract r2 [1] (diag (lam_h P r1 c1)) [0])) as [[u2 s2] vt2]. destruct V as (Su2 & Sv2 & Len2 & F2).
  set (g2 := transpose [4; 1; 2; 0; 3] (contract q2 [4] u2 [0])).
  assert (G2 : shape g2 = [length s2; S2; E2; length s1; d2] /\ forall x y e n p, entry g2 [y; e; n; x; p] = sm K2 (fun k => (entry q2 [x; e; n; p; k] * entry u2 [k; y])%C)).
  { unfold g2. revert Sq2 Su2. clear. generalize (length s1) (length s2). intros Z0 Z1. destruct q2 as [sh0 f0], u2 as [sh1 f1]. cbn [shape]. intros -> ->. split; reflexivity. }
  set (P2 := put_h (put_gamma P1 r1 c1 g2) r1 c1 s2).
  assert (R2 : gamma P2 r1 c = gamma P r1 c) by (cbn [P1 P2 gamma put_v put_gamma put_h]; rewrite !put_other by congruence; reflexivity). rewrite R2.
  assert (R2' : lam_v P2 r1 c = lam_v P r1 c) by (cbn [P1 P2 lam_v put_v put_gamma put_h]; rewrite put_other by congruence; reflexivity). rewrite R2'.
  set (t10 := transpose [0; 1; 2; 4; 3; 5] (contract vt2 [1; 2] (contract (gamma P r1 c) [4] (gate 3) [1]) [4; 2])).
  assert (T10 : shape t10 = [length s2; W3; S3; d3; D3; B3] /\ forall z w s p y d, entry t10 [z; w; s; p; y; d] = sm B2 (fun b => sm D2 (fun x => (entry vt2 [z; b; x] * sm d3 (fun q => (entry (gamma P r1 c) [w; s; x; y; q] * entry (gate 3%nat) [b; q; p; d])%C))%C))).
  { unfold t10. revert Sv2 Sh3 Sg3. clear. generalize (length s2). intros Z0. destruct (gamma P r1 c) as [sh0 f0], (gate 3) as [sh1 f1], vt2 as [sh2 f2]. cbn [shape]. intros -> -> ->. split; reflexivity. }
  destruct T10 as [St10 Et10]. pose proof (site_qr t10 _ _ _ _ _ _ St10) as V. destruct (qr 4 t10) as [q3 r3]. destruct V as (K3 & Sq3 & Sr3 & V3).
  pose proof (weight_svd r3 K3 D3 B3 (lam_v P r1 c) Sr3 L3) as V. destruct (svd 1 (contract r3 [1] (diag (lam_v P r1 c)) [0])) as [[u3 s3] vt3]. destruct V as (Su3 & Sv3 & Len3 & F3).
  set (g3 := transpose [1; 2; 0; 4; 3] (contract q3 [4] u3 [0])).
  assert (G3 : shape g3 = [W3; S3; length s2; length s3; d3] /\ forall x y e n p, entry g3 [e; n; x; y; p] = sm K3 (fun k => (entry q3 [x; e; n; p; k] * entry u3 [k; y])%C)).
  { unfold g3. revert Sq3 Su3. clear. generalize (length s2) (length s3). intros Z0 Z1. destruct q3 as [sh0 f0], u3 as [sh1 f1]. cbn [shape]. intros -> ->. split; reflexivity. }
  set (g0 := transpose [1; 0; 4; 2; 3] (contract vt3 [2; 1] (contract q0 [5] u0 [0]) [0; 1])).
  assert (G0 : shape g0 = [W0; length s3; length s0; N0; d0] /\ forall z y e n p, entry g0 [e; z; y; n; p] = sm D3 (fun x => sm B3 (fun b => (entry vt3 [z; b; x] * sm K0 (fun k => (entry q0 [x; b; e; n; p; k] * entry u0 [k; y])%C))%C))).
  { unfold g0. revert Sq0 Su0 Sv3. clear. generalize (length s0) (length s3). intros Z0 Z1. destruct q0 as [sh0 f0], u0 as [sh1 f1], vt3 as [sh2 f2]. cbn [shape]. intros -> -> ->. split; reflexivity. }
  destruct G0 as [SG0 G0], G1 as [SG1 G1], G2 as [SG2 G2], G3 as [SG3 G3].
  exists s0, s1, s2, s3, g0, g1, g2, g3. split; [reflexivity|]. do 8 (split; [assumption|]).
  intros e0 f0 e1 f1 e2 f2 e3 f3 p0 p1 p2 p3 h0 h1 h2 h3 h4 h5 h6 h7 k0 k1 k2 k3.
  rewrite <- (gates_ring D0 D1 D2 D3 B0 B1 B2 B3 d0 d1 d2 d3 _ _ _ _ (fun q x y => entry (gamma P r c) [e0; x; y; f0; q]) (fun q x y => entry (gamma P r c1) [x; y; e1; f1; q]) (fun q x y => entry (gamma P r1 c1) [y; e2; f2; x; q]) (fun q x y => entry (gamma P r1 c) [e3; f3; x; y; q])
    (fun b q d => entry (gate 0%nat) [b; q; p0; d]) (fun b q d => entry (gate 1%nat) [b; q; p1; d]) (fun b q d => entry (gate 2%nat) [b; q; p2; d]) (fun b q d => entry (gate 3%nat) [b; q; p3; d])).
  rewrite <- (pat_ring D0 D1 D2 D3 B0 B1 B2 B3 K0 K1 K2 K3 (length s0) (length s1) (length s2) (length s3) _ _ _ _ (el s0) (el s1) (el s2) (el s3) _ _ _ _
    (fun x b k => entry q0 [x; b; e0; f0; p0; k]) (fun z k => entry q1 [z; e1; f1; p1; k]) (fun z k => entry q2 [z; e2; f2; p2; k]) (fun z k => entry q3 [z; e3; f3; p3; k])
    (fun k x y => entry r0 [k; x; y]) (fun k x y => entry r1' [k; x; y]) (fun k x y => entry r2 [k; x; y]) (fun k x y => entry r3 [k; x; y])
    (fun k z => entry u0 [k; z]) (fun k z => entry u1 [k; z]) (fun k z => entry u2 [k; z]) (fun k z => entry u3 [k; z])
    (fun z b x => entry vt0 [z; b; x]) (fun z b x => entry vt1 [z; b; x]) (fun z b x => entry vt2 [z; b; x]) (fun z b x => entry vt3 [z; b; x])).
  - apply ring4_ext; intros; try reflexivity; [rewrite G0, sm_swap; reflexivity|apply G1|apply G2|apply G3].
  - intros x b y d Hx Hb Hy Hd. rewrite <- Et0. exact (V0 [x; b; e0; f0; p0] [y; d] ltac:(ins) ltac:(ins)).
  - exact F0.
  - intros z y d Hz Hy Hd. rewrite <- Et4. apply V1; assumption.
  - exact F1.
  - intros z y d Hz Hy Hd. rewrite <- Et7. apply V2; assumption.
  - exact F2.
  - intros z y d Hz Hy Hd. rewrite <- Et10. apply V3; assumption.
  - exact F3.
Qed.
End Pat.
