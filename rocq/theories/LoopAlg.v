(** Sums around a ring of four matrices. *)
From Coq Require Import List Arith Lia Bool Reals Lra.
From Verif Require Import Base Cplx SumModel SumSpec SumProofs NetSum NetEx TrgTensor TrgHoleAlg BmpsAlg ProjCore.
Import ListNotations.
Local Open Scope nat_scope.

Definition mat := nat -> nat -> C.
(** the trace of M0 w0 M1 w1 M2 w2 M3 w3 *)
Definition ring4 (n0 n1 n2 n3 : nat) (w0 w1 w2 w3 : nat -> C) (M0 M1 M2 M3 : mat) : C :=
  sm n0 (fun z0 => sm n1 (fun z1 => sm n2 (fun z2 => sm n3 (fun z3 => (M0 z3 z0 * w0 z0 * (M1 z0 z1 * w1 z1) * (M2 z1 z2 * w2 z2) * (M3 z2 z3 * w3 z3))%C)))).
Lemma ring4_ext n0 n1 n2 n3 w0 w1 w2 w3 v0 v1 v2 v3 M0 M1 M2 M3 N0 N1 N2 N3 :
  (forall z, z < n0 -> w0 z = v0 z) -> (forall z, z < n1 -> w1 z = v1 z) -> (forall z, z < n2 -> w2 z = v2 z) -> (forall z, z < n3 -> w3 z = v3 z) ->
  (forall l r, l < n3 -> r < n0 -> M0 l r = N0 l r) -> (forall l r, l < n0 -> r < n1 -> M1 l r = N1 l r) -> (forall l r, l < n1 -> r < n2 -> M2 l r = N2 l r) -> (forall l r, l < n2 -> r < n3 -> M3 l r = N3 l r) ->
  ring4 n0 n1 n2 n3 w0 w1 w2 w3 M0 M1 M2 M3 = ring4 n0 n1 n2 n3 v0 v1 v2 v3 N0 N1 N2 N3.
Proof.
  intros A0 A1 A2 A3 B0 B1 B2 B3. unfold ring4. apply sm_ext. intros z0 H0. apply sm_ext. intros z1 H1. apply sm_ext. intros z2 H2. apply sm_ext. intros z3 H3.
  rewrite A0, A1, A2, A3, B0, B1, B2, B3 by assumption. reflexivity.
Qed.
Lemma ring4_rot n0 n1 n2 n3 w0 w1 w2 w3 M0 M1 M2 M3 : ring4 n0 n1 n2 n3 w0 w1 w2 w3 M0 M1 M2 M3 = ring4 n1 n2 n3 n0 w1 w2 w3 w0 M1 M2 M3 M0.
Proof.
  unfold ring4. set (T := [one w0; one w1; one w2; one w3; two M0; two M1; two M2; two M3]). set (ds := [n0; n1; n2; n3]).
  ein T ds (Sum 0 (Sum 1 (Sum 2 (Sum 3 (Mul (Mul (Mul (Mul (At 4 [3; 0]) (At 0 [0])) (Mul (At 5 [0; 1]) (At 1 [1]))) (Mul (At 6 [1; 2]) (At 2 [2]))) (Mul (At 7 [2; 3]) (At 3 [3])))))))
     (Sum 1 (Sum 2 (Sum 3 (Sum 0 (Mul (Mul (Mul (Mul (At 5 [0; 1]) (At 1 [1])) (Mul (At 6 [1; 2]) (At 2 [2]))) (Mul (At 7 [2; 3]) (At 3 [3]))) (Mul (At 4 [3; 0]) (At 0 [0]))))))).
Qed.
(** A change of basis on a bond *)
Definition rebond (n n' : nat) (w w' : nat -> C) (X Y : mat) : Prop :=
  forall x y, x < n -> y < n -> sm n' (fun z => (X x z * w' z * Y z y)%C) = if x =? y then w x else RtoC 0.
Lemma pick_sum n (f : nat -> C) j : j < n -> sm n (fun i => (f i * (if i =? j then RtoC 1 else RtoC 0))%C) = f j.
Proof.
  induction n as [|n IH]; [lia|]. intros H. rewrite sm_S. destruct (Nat.eq_dec j n) as [->|N].
  - rewrite Nat.eqb_refl. rewrite sm_zero; [ring|]. intros i Hi. destruct (Nat.eqb_spec i n); [lia|ring].
  - rewrite IH by lia. destruct (Nat.eqb_spec n j); [lia|ring].
Qed.
Lemma pick_sum' n (f : nat -> C) (w : nat -> C) j : j < n -> sm n (fun i => (f i * (if j =? i then w j else RtoC 0))%C) = (f j * w j)%C.
Proof.
  intros H. transitivity (sm n (fun i => ((f i * w i) * (if i =? j then RtoC 1 else RtoC 0))%C)).
  - apply sm_ext. intros i _. rewrite (Nat.eqb_sym j i). destruct (Nat.eqb_spec i j) as [->|]; ring.
  - rewrite (pick_sum n (fun i => f i * w i)%C j H). reflexivity.
Qed.
Lemma ring4_rebond n0 n1 n2 n3 n' w0 w1 w2 w3 w' M0 M1 M2 M3 X Y : rebond n3 n' w3 w' X Y ->
  ring4 n0 n1 n2 n' w0 w1 w2 w' (fun z z0 => sm n3 (fun y => (Y z y * M0 y z0)%C)) M1 M2 (fun z2 z => sm n3 (fun x => (M3 z2 x * X x z)%C)) =
  ring4 n0 n1 n2 n3 w0 w1 w2 w3 M0 M1 M2 M3.
Proof.
  intros B. unfold ring4. apply sm_ext. intros z0 H0. apply sm_ext. intros z1 H1. apply sm_ext. intros z2 H2.
  set (c := (w0 z0 * (M1 z0 z1 * w1 z1) * (M2 z1 z2 * w2 z2))%C).
  transitivity (c * sm n3 (fun x => (M3 z2 x * sm n3 (fun y => (M0 y z0 * sm n' (fun z => (X x z * w' z * Y z y)%C))%C))%C))%C.
  { set (T := [one w'; two X; two Y; one (fun y => M0 y z0); one (fun x => M3 z2 x); zero (w0 z0); zero (M1 z0 z1 * w1 z1)%C; zero (M2 z1 z2 * w2 z2)%C]). set (ds := [n'; n3; n3]). unfold c.
    ein T ds (Sum 0 (Mul (Mul (Mul (Mul (Sum 1 (Mul (At 2 [0; 1]) (At 3 [1]))) (At 5 [])) (At 6 [])) (At 7 [])) (Mul (Sum 2 (Mul (At 4 [2]) (At 1 [2; 0]))) (At 0 [0]))))
       (Mul (Mul (Mul (At 5 []) (At 6 [])) (At 7 [])) (Sum 2 (Mul (At 4 [2]) (Sum 1 (Mul (At 3 [1]) (Sum 0 (Mul (Mul (At 1 [2; 0]) (At 0 [0])) (At 2 [0; 1])))))))). }
  rewrite <- sm_scal. apply sm_ext. intros x Hx.
  rewrite (sm_ext n3 (fun y => (M0 y z0 * sm n' (fun z => (X x z * w' z * Y z y)%C))%C) (fun y => (M0 y z0 * (if x =? y then w3 x else RtoC 0))%C)) by (intros y Hy; rewrite (B x y Hx Hy); reflexivity).
  rewrite (pick_sum' n3 (fun y => M0 y z0) w3 x Hx). unfold c. ring.
Qed.

(** *** The gate is put in *)
(** one site of it, whatever stands on its right *)
Lemma pat_step (D D' B B' K Z' : nat) (l s' : nat -> C) (T : nat -> nat -> nat -> nat -> C) (q : nat -> C) (r : nat -> nat -> nat -> C) (u : mat) (v : nat -> nat -> C) (v' : nat -> nat -> nat -> C) (Y : nat -> nat -> C) :
  (forall y d, y < D' -> d < B' -> sm B (fun b => sm D (fun x => (v b x * T x b y d)%C)) = sm K (fun k => (q k * r k y d)%C)) ->
  (forall k d y, k < K -> d < B' -> y < D' -> (r k y d * l y)%C = sm Z' (fun z => (u k z * s' z * v' z d y)%C)) ->
  sm Z' (fun z' => (sm K (fun k => (q k * u k z')%C) * s' z' * sm B' (fun d => sm D' (fun y => (v' z' d y * Y d y)%C)))%C) =
  sm B (fun b => sm D (fun x => (v b x * sm B' (fun d => sm D' (fun y => (T x b y d * l y * Y d y)%C)))%C)).
Proof.
  intros E F.
  transitivity (sm B' (fun d => sm D' (fun y => (Y d y * sm K (fun k => (q k * sm Z' (fun z => (u k z * s' z * v' z d y)%C))%C))%C))).
  { set (TT := [one q; two u; one s'; three v'; two Y]). set (ds := [Z'; K; B'; D']).
    ein TT ds (Sum 0 (Mul (Mul (Sum 1 (Mul (At 0 [1]) (At 1 [1; 0]))) (At 2 [0])) (Sum 2 (Sum 3 (Mul (At 3 [0; 2; 3]) (At 4 [2; 3]))))))
       (Sum 2 (Sum 3 (Mul (At 4 [2; 3]) (Sum 1 (Mul (At 0 [1]) (Sum 0 (Mul (Mul (At 1 [1; 0]) (At 2 [0])) (At 3 [0; 2; 3])))))))). }
  transitivity (sm B' (fun d => sm D' (fun y => (Y d y * (sm B (fun b => sm D (fun x => (v b x * T x b y d)%C)) * l y))%C))).
  { apply sm_ext. intros d Hd. apply sm_ext. intros y Hy. rewrite (E y d Hy Hd). f_equal. rewrite <- sm_scal_r. apply sm_ext. intros k Hk. rewrite <- (F k d y Hk Hd Hy). ring. }
  set (four := fun (f : nat -> nat -> nat -> nat -> C) (l : list nat) => f (nth 0 l 0) (nth 1 l 0) (nth 2 l 0) (nth 3 l 0)).
  set (TT := [two v; four T; one l; two Y]). set (ds := [B; D; B'; D']).
  ein TT ds (Sum 2 (Sum 3 (Mul (At 3 [2; 3]) (Mul (Sum 0 (Sum 1 (Mul (At 0 [0; 1]) (At 1 [1; 0; 3; 2])))) (At 2 [3])))))
     (Sum 0 (Sum 1 (Mul (At 0 [0; 1]) (Sum 2 (Sum 3 (Mul (Mul (At 1 [1; 0; 3; 2]) (At 2 [3])) (At 3 [2; 3]))))))).
Qed.
Section Pat.
Context (D0 D1 D2 D3 B0 B1 B2 B3 K0 K1 K2 K3 Z0 Z1 Z2 Z3 : nat).
Context (l0 l1 l2 l3 s0 s1 s2 s3 : nat -> C).
(** T_i: a site with its gate; legs (left, gate left, right, gate right) *)
Context (T0 T1 T2 T3 : nat -> nat -> nat -> nat -> C).
Context (q0 : nat -> nat -> nat -> C) (q1 q2 q3 : mat) (r0 r1 r2 r3 : nat -> nat -> nat -> C) (u0 u1 u2 u3 : mat) (v0 v1 v2 v3 : nat -> nat -> nat -> C).
Context (E0 : forall x b y d, x < D3 -> b < B3 -> y < D0 -> d < B0 -> T0 x b y d = sm K0 (fun k => (q0 x b k * r0 k y d)%C)).
Context (F0 : forall k d y, k < K0 -> d < B0 -> y < D0 -> (r0 k y d * l0 y)%C = sm Z0 (fun z => (u0 k z * s0 z * v0 z d y)%C)).
Context (E1 : forall z y d, z < Z0 -> y < D1 -> d < B1 -> sm B0 (fun b => sm D0 (fun x => (v0 z b x * T1 x b y d)%C)) = sm K1 (fun k => (q1 z k * r1 k y d)%C)).
Context (F1 : forall k d y, k < K1 -> d < B1 -> y < D1 -> (r1 k y d * l1 y)%C = sm Z1 (fun z => (u1 k z * s1 z * v1 z d y)%C)).
Context (E2 : forall z y d, z < Z1 -> y < D2 -> d < B2 -> sm B1 (fun b => sm D1 (fun x => (v1 z b x * T2 x b y d)%C)) = sm K2 (fun k => (q2 z k * r2 k y d)%C)).
Context (F2 : forall k d y, k < K2 -> d < B2 -> y < D2 -> (r2 k y d * l2 y)%C = sm Z2 (fun z => (u2 k z * s2 z * v2 z d y)%C)).
Context (E3 : forall z y d, z < Z2 -> y < D3 -> d < B3 -> sm B2 (fun b => sm D2 (fun x => (v2 z b x * T3 x b y d)%C)) = sm K3 (fun k => (q3 z k * r3 k y d)%C)).
Context (F3 : forall k d y, k < K3 -> d < B3 -> y < D3 -> (r3 k y d * l3 y)%C = sm Z3 (fun z => (u3 k z * s3 z * v3 z d y)%C)).

Let a1 z0 z1 := sm K1 (fun k => (q1 z0 k * u1 k z1)%C). Let a2 z1 z2 := sm K2 (fun k => (q2 z1 k * u2 k z2)%C). Let a3 z2 z3 := sm K3 (fun k => (q3 z2 k * u3 k z3)%C).
Let a0 x b z0 := sm K0 (fun k => (q0 x b k * u0 k z0)%C).
Lemma pat_ring : ring4 Z0 Z1 Z2 Z3 s0 s1 s2 s3 (fun z3 z0 => sm B3 (fun b => sm D3 (fun x => (v3 z3 b x * a0 x b z0)%C))) a1 a2 a3 =
  sm B3 (fun b3 => sm D3 (fun x3 => sm B0 (fun b0 => sm D0 (fun x0 => (T0 x3 b3 x0 b0 * l0 x0 * sm B1 (fun b1 => sm D1 (fun x1 => (T1 x0 b0 x1 b1 * l1 x1 *
    sm B2 (fun b2 => sm D2 (fun x2 => (T2 x1 b1 x2 b2 * l2 x2 * (T3 x2 b2 x3 b3 * l3 x3))%C)))%C)))%C)))).
Proof.
  pose (Y3 := fun z0 b3 x3 => a0 x3 b3 z0).
  pose (Y2 := fun z0 b2 x2 => sm B3 (fun b3 => sm D3 (fun x3 => (T3 x2 b2 x3 b3 * l3 x3 * Y3 z0 b3 x3)%C))).
  pose (Y1 := fun z0 b1 x1 => sm B2 (fun b2 => sm D2 (fun x2 => (T2 x1 b1 x2 b2 * l2 x2 * Y2 z0 b2 x2)%C))).
  pose (Y0 := fun z0 b0 x0 => sm B1 (fun b1 => sm D1 (fun x1 => (T1 x0 b0 x1 b1 * l1 x1 * Y1 z0 b1 x1)%C))).
  transitivity (sm Z0 (fun z0 => (s0 z0 * sm B0 (fun b0 => sm D0 (fun x0 => (v0 z0 b0 x0 * Y0 z0 b0 x0)%C)))%C)).
  { unfold ring4. apply sm_ext. intros z0 H0. unfold Y0. rewrite <- (pat_step D0 D1 B0 B1 K1 Z1 l1 s1 T1 (q1 z0) r1 u1 (v0 z0) v1 (Y1 z0)) by (intros; auto).
    rewrite <- sm_scal. apply sm_ext. intros z1 H1. unfold Y1. rewrite <- (pat_step D1 D2 B1 B2 K2 Z2 l2 s2 T2 (q2 z1) r2 u2 (v1 z1) v2 (Y2 z0)) by (intros; auto).
    fold (a1 z0 z1). rewrite <- sm_scal. rewrite <- sm_scal. apply sm_ext. intros z2 H2. unfold Y2. rewrite <- (pat_step D2 D3 B2 B3 K3 Z3 l3 s3 T3 (q3 z2) r3 u3 (v2 z2) v3 (Y3 z0)) by (intros; auto).
    fold (a2 z1 z2). rewrite <- sm_scal. rewrite <- sm_scal. rewrite <- sm_scal. apply sm_ext. intros z3 H3. fold (a3 z2 z3). unfold Y3. ring. }
  assert (C0 : forall b3 x3 b0 x0, b3 < B3 -> x3 < D3 -> b0 < B0 -> x0 < D0 -> sm Z0 (fun z0 => (s0 z0 * v0 z0 b0 x0 * a0 x3 b3 z0)%C) = (T0 x3 b3 x0 b0 * l0 x0)%C).
  { intros b3 x3 b0 x0 h1 h2 h3 h4. rewrite E0 by assumption. rewrite <- sm_scal_r. transitivity (sm K0 (fun k => (q0 x3 b3 k * (r0 k x0 b0 * l0 x0))%C)); [|apply sm_ext; intros; ring].
    transitivity (sm K0 (fun k => (q0 x3 b3 k * sm Z0 (fun z => (u0 k z * s0 z * v0 z b0 x0)%C))%C)); [|apply sm_ext; intros k Hk; rewrite (F0 k b0 x0 Hk h3 h4); reflexivity].
    unfold a0. set (T := [one s0; one (fun z => v0 z b0 x0); one (fun k => q0 x3 b3 k); two u0]). set (ds := [Z0; K0]).
    ein T ds (Sum 0 (Mul (Mul (At 0 [0]) (At 1 [0])) (Sum 1 (Mul (At 2 [1]) (At 3 [1; 0])))))
       (Sum 1 (Mul (At 2 [1]) (Sum 0 (Mul (Mul (At 3 [1; 0]) (At 0 [0])) (At 1 [0]))))). }
  transitivity (sm B3 (fun b3 => sm D3 (fun x3 => sm B0 (fun b0 => sm D0 (fun x0 => (sm Z0 (fun z0 => (s0 z0 * v0 z0 b0 x0 * a0 x3 b3 z0)%C) * sm B1 (fun b1 => sm D1 (fun x1 => (T1 x0 b0 x1 b1 * l1 x1 *
    sm B2 (fun b2 => sm D2 (fun x2 => (T2 x1 b1 x2 b2 * l2 x2 * (T3 x2 b2 x3 b3 * l3 x3))%C)))%C)))%C))))).
  2:{ apply sm_ext. intros b3 h1. apply sm_ext. intros x3 h2. apply sm_ext. intros b0 h3. apply sm_ext. intros x0 h4. rewrite C0 by assumption. reflexivity. }
  unfold Y0, Y1, Y2, Y3. clearbody a0.
  set (four := fun (f : nat -> nat -> nat -> nat -> C) (l : list nat) => f (nth 0 l 0) (nth 1 l 0) (nth 2 l 0) (nth 3 l 0)).
  set (T := [one s0; three v0; four T1; one l1; four T2; one l2; four T3; one l3; three a0]). set (ds := [Z0; B0; D0; B1; D1; B2; D2; B3; D3]).
  ein T ds
    (Sum 0 (Mul (At 0 [0]) (Sum 1 (Sum 2 (Mul (At 1 [0; 1; 2]) (Sum 3 (Sum 4 (Mul (Mul (At 2 [2; 1; 4; 3]) (At 3 [4])) (Sum 5 (Sum 6 (Mul (Mul (At 4 [4; 3; 6; 5]) (At 5 [6])) (Sum 7 (Sum 8 (Mul (Mul (At 6 [6; 5; 8; 7]) (At 7 [8])) (At 8 [8; 7; 0])))))))))))))))
    (Sum 7 (Sum 8 (Sum 1 (Sum 2 (Mul (Sum 0 (Mul (Mul (At 0 [0]) (At 1 [0; 1; 2])) (At 8 [8; 7; 0]))) (Sum 3 (Sum 4 (Mul (Mul (At 2 [2; 1; 4; 3]) (At 3 [4])) (Sum 5 (Sum 6 (Mul (Mul (At 4 [4; 3; 6; 5]) (At 5 [6])) (Mul (At 6 [6; 5; 8; 7]) (At 7 [8]))))))))))))).
Qed.
End Pat.
(** the tensors T_i of a site and its gate *)
Section Gates.
Context (D0 D1 D2 D3 B0 B1 B2 B3 d0 d1 d2 d3 : nat) (l0 l1 l2 l3 : nat -> C) (G0 G1 G2 G3 : nat -> mat) (g0 g1 g2 g3 : nat -> nat -> nat -> C).
Let T0 x b y d := sm d0 (fun p => (G0 p x y * g0 b p d)%C). Let T1 x b y d := sm d1 (fun p => (G1 p x y * g1 b p d)%C).
Let T2 x b y d := sm d2 (fun p => (G2 p x y * g2 b p d)%C). Let T3 x b y d := sm d3 (fun p => (G3 p x y * g3 b p d)%C).
Lemma gates_ring :
  sm B3 (fun b3 => sm D3 (fun x3 => sm B0 (fun b0 => sm D0 (fun x0 => (T0 x3 b3 x0 b0 * l0 x0 * sm B1 (fun b1 => sm D1 (fun x1 => (T1 x0 b0 x1 b1 * l1 x1 *
    sm B2 (fun b2 => sm D2 (fun x2 => (T2 x1 b1 x2 b2 * l2 x2 * (T3 x2 b2 x3 b3 * l3 x3))%C)))%C)))%C)))) =
  sm d0 (fun p0 => sm d1 (fun p1 => sm d2 (fun p2 => sm d3 (fun p3 =>
    (sm B0 (fun b0 => sm B1 (fun b1 => sm B2 (fun b2 => sm B3 (fun b3 => (g0 b3 p0 b0 * g1 b0 p1 b1 * g2 b1 p2 b2 * g3 b2 p3 b3)%C)))) * ring4 D0 D1 D2 D3 l0 l1 l2 l3 (G0 p0) (G1 p1) (G2 p2) (G3 p3))%C)))).
Proof.
  unfold T0, T1, T2, T3, ring4.
  set (T := [three G0; three G1; three G2; three G3; three g0; three g1; three g2; three g3; one l0; one l1; one l2; one l3]). set (ds := [B0; B1; B2; B3; D0; D1; D2; D3; d0; d1; d2; d3]).
  ein T ds
    (Sum 3 (Sum 7 (Sum 0 (Sum 4 (Mul (Mul (Sum 8 (Mul (At 0 [8; 7; 4]) (At 4 [3; 8; 0]))) (At 8 [4])) (Sum 1 (Sum 5 (Mul (Mul (Sum 9 (Mul (At 1 [9; 4; 5]) (At 5 [0; 9; 1]))) (At 9 [5])) (Sum 2 (Sum 6 (Mul (Mul (Sum 10 (Mul (At 2 [10; 5; 6]) (At 6 [1; 10; 2]))) (At 10 [6])) (Mul (Sum 11 (Mul (At 3 [11; 6; 7]) (At 7 [2; 11; 3]))) (At 11 [7])))))))))))))
    (Sum 8 (Sum 9 (Sum 10 (Sum 11 (Mul (Sum 0 (Sum 1 (Sum 2 (Sum 3 (Mul (Mul (Mul (At 4 [3; 8; 0]) (At 5 [0; 9; 1])) (At 6 [1; 10; 2])) (At 7 [2; 11; 3])))))) (Sum 4 (Sum 5 (Sum 6 (Sum 7 (Mul (Mul (Mul (Mul (At 0 [8; 7; 4]) (At 8 [4])) (Mul (At 1 [9; 4; 5]) (At 9 [5]))) (Mul (At 2 [10; 5; 6]) (At 10 [6]))) (Mul (At 3 [11; 6; 7]) (At 11 [7])))))))))))).
Qed.
End Gates.
