(** The energy estimate of the loop projection. *)
From Coq Require Import List Arith Lia Bool Reals Lra.
From Verif Require Import Base Cplx SumModel SumSpec SumProofs NetSum NetEx ContractorModel TrgTensor TrgHoleAlg BmpsAlg ProjModel ProjSpec ProjAlg ProjCore ProjTwo ProjPatch ProjGrid ProjWave ExpSpec ExpAlg LoopModel LoopSpec LoopAlg LoopGauge LoopRing LoopPat LoopWave LoopMain.
Import NetEx ListNotations.
Local Open Scope nat_scope.

Definition quad (f : nat -> nat -> nat -> nat -> C) : list nat -> C := fun l => f (nth 0 l 0) (nth 1 l 0) (nth 2 l 0) (nth 3 l 0).
Definition quint (f : nat -> nat -> nat -> nat -> nat -> C) : list nat -> C := fun l => f (nth 0 l 0) (nth 1 l 0) (nth 2 l 0) (nth 3 l 0) (nth 4 l 0).
Section Alg.
Context (d0 d1 d2 d3 e0 e1 e2 e3 f0 f1 f2 f3 n0 n1 n2 n3 m0 m1 m2 m3 : nat) (M0 M1 M2 M3 N0 N1 N2 N3 : nat -> nat -> nat -> nat -> nat -> C) (w0 w1 w2 w3 v0 v1 v2 v3 : nat -> C).
(** two rings side by side *)
Definition double (Z0 Z1 Z2 Z3 : nat -> nat -> nat -> nat -> C) : C :=
  sm n0 (fun z0 => sm m0 (fun y0 => sm n1 (fun z1 => sm m1 (fun y1 => sm n2 (fun z2 => sm m2 (fun y2 => sm n3 (fun z3 => sm m3 (fun y3 => (((((Z0 z3 y3 z0 y0 * w0 z0)%C * v0 y0)%C * ((Z1 z0 y0 z1 y1 * w1 z1)%C * v1 y1)%C)%C * ((Z2 z1 y1 z2 y2 * w2 z2)%C * v2 y2)%C)%C * ((Z3 z2 y2 z3 y3 * w3 z3)%C * v3 y3)%C)%C)))))))).
Lemma double_apart : double
  (fun x X y Y => sm d0 (fun p0 => sm e0 (fun i0 => sm f0 (fun j0 => (M0 p0 i0 j0 x y * N0 p0 i0 j0 X Y)%C))))
  (fun x X y Y => sm d1 (fun p1 => sm e1 (fun i1 => sm f1 (fun j1 => (M1 p1 i1 j1 x y * N1 p1 i1 j1 X Y)%C))))
  (fun x X y Y => sm d2 (fun p2 => sm e2 (fun i2 => sm f2 (fun j2 => (M2 p2 i2 j2 x y * N2 p2 i2 j2 X Y)%C))))
  (fun x X y Y => sm d3 (fun p3 => sm e3 (fun i3 => sm f3 (fun j3 => (M3 p3 i3 j3 x y * N3 p3 i3 j3 X Y)%C))))
  =
  sm d0 (fun p0 => sm d1 (fun p1 => sm d2 (fun p2 => sm d3 (fun p3 => sm e0 (fun i0 => sm e1 (fun i1 => sm e2 (fun i2 => sm e3 (fun i3 => sm f0 (fun j0 => sm f1 (fun j1 => sm f2 (fun j2 => sm f3 (fun j3 => ((sm m0 (fun y0 => sm m1 (fun y1 => sm m2 (fun y2 => sm m3 (fun y3 => ((((N0 p0 i0 j0 y3 y0 * v0 y0)%C * (N1 p1 i1 j1 y0 y1 * v1 y1)%C)%C * (N2 p2 i2 j2 y1 y2 * v2 y2)%C)%C * (N3 p3 i3 j3 y2 y3 * v3 y3)%C)%C))))) * (sm n0 (fun z0 => sm n1 (fun z1 => sm n2 (fun z2 => sm n3 (fun z3 => ((((M0 p0 i0 j0 z3 z0 * w0 z0)%C * (M1 p1 i1 j1 z0 z1 * w1 z1)%C)%C * (M2 p2 i2 j2 z1 z2 * w2 z2)%C)%C * (M3 p3 i3 j3 z2 z3 * w3 z3)%C)%C))))))%C)))))))))))).
Proof.
  unfold double. set (TT := [quint M0; quint N0; one w0; one v0; quint M1; quint N1; one w1; one v1; quint M2; quint N2; one w2; one v2; quint M3; quint N3; one w3; one v3]). set (ds := [n0; m0; n1; m1; n2; m2; n3; m3; d0; e0; f0; d1; e1; f1; d2; e2; f2; d3; e3; f3]).
  ein TT ds (Sum 0 (Sum 1 (Sum 2 (Sum 3 (Sum 4 (Sum 5 (Sum 6 (Sum 7 (Mul (Mul (Mul (Mul (Mul (Sum 8 (Sum 9 (Sum 10 (Mul (At 0 [8; 9; 10; 6; 0]) (At 1 [8; 9; 10; 7; 1]))))) (At 2 [0])) (At 3 [1])) (Mul (Mul (Sum 11 (Sum 12 (Sum 13 (Mul (At 4 [11; 12; 13; 0; 2]) (At 5 [11; 12; 13; 1; 3]))))) (At 6 [2])) (At 7 [3]))) (Mul (Mul (Sum 14 (Sum 15 (Sum 16 (Mul (At 8 [14; 15; 16; 2; 4]) (At 9 [14; 15; 16; 3; 5]))))) (At 10 [4])) (At 11 [5]))) (Mul (Mul (Sum 17 (Sum 18 (Sum 19 (Mul (At 12 [17; 18; 19; 4; 6]) (At 13 [17; 18; 19; 5; 7]))))) (At 14 [6])) (At 15 [7]))))))))))) (Sum 8 (Sum 11 (Sum 14 (Sum 17 (Sum 9 (Sum 12 (Sum 15 (Sum 18 (Sum 10 (Sum 13 (Sum 16 (Sum 19 (Mul (Sum 1 (Sum 3 (Sum 5 (Sum 7 (Mul (Mul (Mul (Mul (At 1 [8; 9; 10; 7; 1]) (At 3 [1])) (Mul (At 5 [11; 12; 13; 1; 3]) (At 7 [3]))) (Mul (At 9 [14; 15; 16; 3; 5]) (At 11 [5]))) (Mul (At 13 [17; 18; 19; 5; 7]) (At 15 [7]))))))) (Sum 0 (Sum 2 (Sum 4 (Sum 6 (Mul (Mul (Mul (Mul (At 0 [8; 9; 10; 6; 0]) (At 2 [0])) (Mul (At 4 [11; 12; 13; 0; 2]) (At 6 [2]))) (Mul (At 8 [14; 15; 16; 2; 4]) (At 10 [4]))) (Mul (At 12 [17; 18; 19; 4; 6]) (At 14 [6])))))))))))))))))))).
Qed.
Lemma double_overlap Z0 Z1 Z2 Z3 :
  sm n2 (fun z2 => sm m2 (fun y2 => sm n3 (fun z3 => sm m3 (fun y3 => ((sm n1 (fun z1 => sm m1 (fun y1 => ((sm n0 (fun z0 => sm m0 (fun y0 => (((Z0 z3 y3 z0 y0 * w0 z0)%C * v0 y0)%C * ((Z1 z0 y0 z1 y1 * w1 z1)%C * v1 y1)%C)%C))) * ((Z2 z1 y1 z2 y2 * w2 z2)%C * v2 y2)%C)%C))) * ((Z3 z2 y2 z3 y3 * w3 z3)%C * v3 y3)%C)%C)))) = double Z0 Z1 Z2 Z3.
Proof.
  unfold double. set (TT := [quad Z0; one w0; one v0; quad Z1; one w1; one v1; quad Z2; one w2; one v2; quad Z3; one w3; one v3]). set (ds := [n2; m2; n3; m3; n1; m1; n0; m0]).
  ein TT ds (Sum 0 (Sum 1 (Sum 2 (Sum 3 (Mul (Sum 4 (Sum 5 (Mul (Sum 6 (Sum 7 (Mul (Mul (Mul (At 0 [2; 3; 6; 7]) (At 1 [6])) (At 2 [7])) (Mul (Mul (At 3 [6; 7; 4; 5]) (At 4 [4])) (At 5 [5]))))) (Mul (Mul (At 6 [4; 5; 0; 1]) (At 7 [0])) (At 8 [1]))))) (Mul (Mul (At 9 [0; 1; 2; 3]) (At 10 [2])) (At 11 [3]))))))) (Sum 6 (Sum 7 (Sum 4 (Sum 5 (Sum 0 (Sum 1 (Sum 2 (Sum 3 (Mul (Mul (Mul (Mul (Mul (At 0 [2; 3; 6; 7]) (At 1 [6])) (At 2 [7])) (Mul (Mul (At 3 [6; 7; 4; 5]) (At 4 [4])) (At 5 [5]))) (Mul (Mul (At 6 [4; 5; 0; 1]) (At 7 [0])) (At 8 [1]))) (Mul (Mul (At 9 [0; 1; 2; 3]) (At 10 [2])) (At 11 [3]))))))))))).
Qed.
Lemma double_trace Z0 Z1 Z2 Z3 :
  sm m3 (fun y3 => sm n3 (fun z3 => (((sm n2 (fun z2 => sm m2 (fun y2 => ((((sm n1 (fun z1 => sm m1 (fun y1 => ((((sm n0 (fun z0 => sm m0 (fun y0 => (((Z0 z3 y3 z0 y0 * w0 z0)%C * v0 y0)%C * Z1 z0 y0 z1 y1)%C))) * w1 z1)%C * v1 y1)%C * Z2 z1 y1 z2 y2)%C))) * w2 z2)%C * v2 y2)%C * Z3 z2 y2 z3 y3)%C))) * w3 z3)%C * v3 y3)%C)) = double Z0 Z1 Z2 Z3.
Proof.
  unfold double. set (TT := [quad Z0; one w0; one v0; quad Z1; one w1; one v1; quad Z2; one w2; one v2; quad Z3; one w3; one v3]). set (ds := [m3; n3; n2; m2; n1; m1; n0; m0]).
  ein TT ds (Sum 0 (Sum 1 (Mul (Mul (Sum 2 (Sum 3 (Mul (Mul (Mul (Sum 4 (Sum 5 (Mul (Mul (Mul (Sum 6 (Sum 7 (Mul (Mul (Mul (At 0 [1; 0; 6; 7]) (At 1 [6])) (At 2 [7])) (At 3 [6; 7; 4; 5])))) (At 4 [4])) (At 5 [5])) (At 6 [4; 5; 2; 3])))) (At 7 [2])) (At 8 [3])) (At 9 [2; 3; 1; 0])))) (At 10 [1])) (At 11 [0])))) (Sum 6 (Sum 7 (Sum 4 (Sum 5 (Sum 2 (Sum 3 (Sum 1 (Sum 0 (Mul (Mul (Mul (Mul (Mul (At 0 [1; 0; 6; 7]) (At 1 [6])) (At 2 [7])) (Mul (Mul (At 3 [6; 7; 4; 5]) (At 4 [4])) (At 5 [5]))) (Mul (Mul (At 6 [4; 5; 2; 3]) (At 7 [2])) (At 8 [3]))) (Mul (Mul (At 9 [2; 3; 1; 0]) (At 10 [1])) (At 11 [0]))))))))))).
Qed.
End Alg.

Lemma conj_dl s i j : Cconj (dl s i j) = dl s i j.
Proof. unfold dl. cbn [diag entry nth]. destruct (i =? j); apply conj_real. Qed.
Lemma conj_el s i : Cconj (el s i) = el s i.
Proof. apply conj_real. Qed.
Lemma transfer_ok T T' l l' a b c r r' : shape T = [l; a; b; c; r] -> shape T' = [l'; a; b; c; r'] ->
  shape (transfer T T') = [l; l'; r; r'] /\ forall x X y Y, entry (transfer T T') [x; X; y; Y] = sm a (fun p => sm b (fun i => sm c (fun j => (entry T [x; p; i; j; y] * Cconj (entry T' [X; p; i; j; Y]))%C))).
Proof. unfold transfer. destruct T as [sh g], T' as [sh' g']. cbn [shape]. intros -> ->. split; reflexivity. Qed.
Lemma heavy_ok T s l a b c r : shape T = [l; a; b; c; r] -> length s = r -> let V := contract T [4] (diag s) [0] in
  shape V = [l; a; b; c; r] /\ forall x p i j y, y < r -> entry V [x; p; i; j; y] = (entry T [x; p; i; j; y] * el s y)%C.
Proof.
  intros ST L V. assert (Q : shape V = [l; a; b; c; length s] /\ forall x p i j y, entry V [x; p; i; j; y] = sm r (fun y' => (entry T [x; p; i; j; y'] * dl s y' y)%C)).
  { unfold V. revert ST. clear. destruct T as [sh g]. cbn [shape]. intros ->. split; reflexivity. }
  destruct Q as [Q1 Q2]. split; [rewrite Q1, L; reflexivity|]. intros x p i j y Hy. rewrite Q2. apply sm_at. exact Hy.
Qed.
Lemma overlap_raw A0 A1 A2 A3 n0 n1 n2 n3 m0 m1 m2 m3 : shape A0 = [n3; m3; n0; m0] -> shape A1 = [n0; m0; n1; m1] -> shape A2 = [n1; m1; n2; m2] -> shape A3 = [n2; m2; n3; m3] ->
  scalar (contract (contract (contract A0 [2; 3] A1 [0; 1]) [2; 3] A2 [0; 1]) [2; 3; 0; 1] A3 [0; 1; 2; 3]) =
  sm n2 (fun z2 => sm m2 (fun y2 => sm n3 (fun z3 => sm m3 (fun y3 => (sm n1 (fun z1 => sm m1 (fun y1 => (sm n0 (fun z0 => sm m0 (fun y0 => (entry A0 [z3; y3; z0; y0] * entry A1 [z0; y0; z1; y1])%C)) * entry A2 [z1; y1; z2; y2])%C)) * entry A3 [z2; y2; z3; y3])%C)))).
Proof. destruct A0 as [h0 a0], A1 as [h1 a1], A2 as [h2 a2], A3 as [h3 a3]. cbn [shape]. intros -> -> -> ->. reflexivity. Qed.
Lemma trace_raw U s n : shape U = [n; n; n; n] -> length s = n -> loop_trace U s = sm n (fun y => sm n (fun z => (entry U [z; y; z; y] * el s z * el s y)%C)).
Proof.
  intros SU L. assert (Q : loop_trace U s = sm n (fun y => sm n (fun x' => (sm n (fun z => sm n (fun x => (entry U [x; x'; z; y] * dl s z x)%C)) * Cconj (dl s y x'))%C))).
  { unfold loop_trace. revert SU. clear. destruct U as [sh g]. cbn [shape]. intros ->. reflexivity. }
  rewrite Q. apply sm_ext. intros y Hy. etransitivity; [apply sm_ext; intros x' _; rewrite conj_dl; reflexivity|]. rewrite sm_at' by exact Hy. rewrite <- sm_scal_r. apply sm_ext. intros z Hz. rewrite sm_at' by exact Hz. reflexivity.
Qed.
Lemma step_raw T V s a a' n r r' : shape T = [a; a'; n; n] -> length s = n -> shape V = [n; n; r; r'] ->
  let U := contract (contract (contract T [2] (diag s) [0]) [2] (dag (diag s)) [0]) [2; 3] V [0; 1] in
  shape U = [a; a'; r; r'] /\ forall x X y Y, entry U [x; X; y; Y] = sm n (fun z => sm n (fun z' => (entry T [x; X; z; z'] * el s z * el s z' * entry V [z; z'; y; Y])%C)).
Proof.
  intros ST L SV U.
  assert (Q : shape U = [a; a'; r; r'] /\ forall x X y Y, entry U [x; X; y; Y] = sm (length s) (fun z => sm (length s) (fun z' => (sm n (fun k' => (sm n (fun k => (entry T [x; X; k; k'] * dl s k z)%C) * Cconj (dl s k' z'))%C) * entry V [z; z'; y; Y])%C))).
  { unfold U. revert ST SV. clear. destruct T as [sh g], V as [sh' g']. cbn [shape]. intros -> ->. split; reflexivity. }
  destruct Q as [Q1 Q2]. split; [exact Q1|]. intros x X y Y. rewrite Q2, L. apply sm_ext. intros z Hz. apply sm_ext. intros z' Hz'. f_equal.
  etransitivity; [apply sm_ext; intros k' _; rewrite conj_dl, sm_at by exact Hz; reflexivity|]. rewrite (sm_at n (fun k' => (entry T [x; X; z; k'] * el s z)%C)) by exact Hz'. reflexivity.
Qed.
(** the two rings of four tensors *)
Definition over (d e f : nat -> nat) (F : (nat -> nat) -> (nat -> nat) -> (nat -> nat) -> C) : C :=
  nsum (map d [0; 1; 2; 3]) (fun p => nsum (map e [0; 1; 2; 3]) (fun u => nsum (map f [0; 1; 2; 3]) (fun v => F (fun i => nth i p 0) (fun i => nth i u 0) (fun i => nth i v 0)))).
Lemma conj_ring4 n0 n1 n2 n3 w0 w1 w2 w3 M0 M1 M2 M3 : Cconj (ring4 n0 n1 n2 n3 (el w0) (el w1) (el w2) (el w3) M0 M1 M2 M3) =
  ring4 n0 n1 n2 n3 (el w0) (el w1) (el w2) (el w3) (fun l r => Cconj (M0 l r)) (fun l r => Cconj (M1 l r)) (fun l r => Cconj (M2 l r)) (fun l r => Cconj (M3 l r)).
Proof.
  unfold ring4. rewrite conj_sum. apply sm_ext. intros z0 _. rewrite conj_sum. apply sm_ext. intros z1 _. rewrite conj_sum. apply sm_ext. intros z2 _. rewrite conj_sum. apply sm_ext. intros z3 _. rewrite !conj_mul, !conj_el. reflexivity.
Qed.
Definition site_pair (d e f : nat -> nat) (gs gs' : nat -> tensor) (q x X y Y : nat) : C :=
  sm (d q) (fun p => sm (e q) (fun i => sm (f q) (fun j => (entry (gs q) [x; p; i; j; y] * Cconj (entry (gs' q) [X; p; i; j; Y]))%C))).
Definition rings (d e f : nat -> nat) (gs : nat -> tensor) (ls : nat -> list R) (gs' : nat -> tensor) (ls' : nat -> list R) : C :=
  double (length (ls 0)) (length (ls 1)) (length (ls 2)) (length (ls 3)) (length (ls' 0)) (length (ls' 1)) (length (ls' 2)) (length (ls' 3)) (el (ls 0)) (el (ls 1)) (el (ls 2)) (el (ls 3)) (el (ls' 0)) (el (ls' 1)) (el (ls' 2)) (el (ls' 3))
    (site_pair d e f gs gs' 0) (site_pair d e f gs gs' 1) (site_pair d e f gs gs' 2) (site_pair d e f gs gs' 3).
Lemma rings_apart d e f gs ls gs' ls' : rings d e f gs ls gs' ls' = over d e f (fun p u v => (Cconj (around gs' ls' p u v) * around gs ls p u v)%C).
Proof.
  unfold rings, site_pair. etransitivity; [exact (double_apart (d 0) (d 1) (d 2) (d 3) (e 0) (e 1) (e 2) (e 3) (f 0) (f 1) (f 2) (f 3) (length (ls 0)) (length (ls 1)) (length (ls 2)) (length (ls 3)) (length (ls' 0)) (length (ls' 1)) (length (ls' 2)) (length (ls' 3))
    (fun p i j x y => entry (gs 0) [x; p; i; j; y]) (fun p i j x y => entry (gs 1) [x; p; i; j; y]) (fun p i j x y => entry (gs 2) [x; p; i; j; y]) (fun p i j x y => entry (gs 3) [x; p; i; j; y])
    (fun p i j x y => Cconj (entry (gs' 0) [x; p; i; j; y])) (fun p i j x y => Cconj (entry (gs' 1) [x; p; i; j; y])) (fun p i j x y => Cconj (entry (gs' 2) [x; p; i; j; y])) (fun p i j x y => Cconj (entry (gs' 3) [x; p; i; j; y])) _ _ _ _ _ _ _ _)|].
  unfold over. cbn [map nsum]. do 12 (apply sumC_ext; intros ? _). unfold around. rewrite conj_ring4. reflexivity.
Qed.
Lemma overlap_ok d e f gs ls gs' ls' : shaped d e f gs ls -> shaped d e f gs' ls' -> loop_overlap gs ls gs' ls' = rings d e f gs ls gs' ls'.
Proof.
  intros S S'. unfold loop_overlap. cbv zeta. set (A := fun i => transfer (contract (gs i) [4] (diag (ls i)) [0]) (contract (gs' i) [4] (diag (ls' i)) [0])).
  assert (AO : forall q, q < 4 -> shape (A q) = [length (ls (before q)); length (ls' (before q)); length (ls q); length (ls' q)] /\ forall x X y Y, y < length (ls q) -> Y < length (ls' q) -> entry (A q) [x; X; y; Y] = (site_pair d e f gs gs' q x X y Y * el (ls q) y * el (ls' q) Y)%C).
  { intros q Hq. destruct (heavy_ok (gs q) (ls q) _ _ _ _ _ (S q Hq) eq_refl) as [H1 H2]. destruct (heavy_ok (gs' q) (ls' q) _ _ _ _ _ (S' q Hq) eq_refl) as [H3 H4]. destruct (transfer_ok _ _ _ _ _ _ _ _ _ H1 H3) as [H5 H6].
    split; [exact H5|]. intros x X y Y Hy HY. unfold A. rewrite H6. unfold site_pair. rewrite <- !sm_scal_r. apply sm_ext. intros p _. rewrite <- !sm_scal_r. apply sm_ext. intros i _. rewrite <- !sm_scal_r. apply sm_ext. intros j _.
    rewrite H2, H4, conj_mul, conj_el by assumption. ring. }
  destruct (AO 0 ltac:(lia)) as [Z0 Y0]. destruct (AO 1 ltac:(lia)) as [Z1 Y1]. destruct (AO 2 ltac:(lia)) as [Z2 Y2]. destruct (AO 3 ltac:(lia)) as [Z3 Y3]. change (before 0) with 3 in *. change (before 1) with 0 in *. change (before 2) with 1 in *. change (before 3) with 2 in *.
  etransitivity; [exact (overlap_raw (A 0) (A 1) (A 2) (A 3) _ _ _ _ _ _ _ _ Z0 Z1 Z2 Z3)|]. unfold rings. rewrite <- double_overlap.
  apply sm_ext. intros z2 H2. apply sm_ext. intros y2 J2. apply sm_ext. intros z3 H3. apply sm_ext. intros y3 J3. rewrite Y3 by assumption. f_equal.
  apply sm_ext. intros z1 H1. apply sm_ext. intros y1 J1. rewrite Y2 by assumption. f_equal. apply sm_ext. intros z0 H0. apply sm_ext. intros y0 J0. rewrite Y0, Y1 by assumption. reflexivity.
Qed.
Lemma trace_ok d e f gs ls : shaped d e f gs ls -> loop_trace (upsilon gs ls 0) (ls 3) = rings d e f gs ls gs ls.
Proof.
  intros S. set (A := fun i => transfer (gs i) (gs i)).
  assert (AO : forall q, q < 4 -> shape (A q) = [length (ls (before q)); length (ls (before q)); length (ls q); length (ls q)] /\ forall x X y Y, entry (A q) [x; X; y; Y] = site_pair d e f gs gs q x X y Y).
  { intros q Hq. exact (transfer_ok _ _ _ _ _ _ _ _ _ (S q Hq) (S q Hq)). }
  destruct (AO 0 ltac:(lia)) as [Z0 Y0]. destruct (AO 1 ltac:(lia)) as [Z1 Y1]. destruct (AO 2 ltac:(lia)) as [Z2 Y2]. destruct (AO 3 ltac:(lia)) as [Z3 Y3]. change (before 0) with 3 in *. change (before 1) with 0 in *. change (before 2) with 1 in *. change (before 3) with 2 in *.
  assert (SU := upsilon_shape d e f gs ls S 0 ltac:(lia)). change (before 0) with 3 in SU. cbv zeta in SU. rewrite (trace_raw _ _ _ SU eq_refl). clear SU.
  assert (EU : forall x X y Y, entry (upsilon gs ls 0) [x; X; y; Y] = entry (upsilon_step gs ls 0 (upsilon_step gs ls 0 (upsilon_step gs ls 0 (A 0) 1) 2) 3) [x; X; y; Y]) by reflexivity.
  destruct (step_raw (A 0) (A 1) (ls 0) _ _ _ _ _ Z0 eq_refl Z1) as [S1 E1]. change (contract _ [2; 3] (A 1) [0; 1]) with (upsilon_step gs ls 0 (A 0) 1) in S1, E1. set (U1 := upsilon_step gs ls 0 (A 0) 1) in *. clearbody U1.
  destruct (step_raw U1 (A 2) (ls 1) _ _ _ _ _ S1 eq_refl Z2) as [S2 E2]. change (contract _ [2; 3] (A 2) [0; 1]) with (upsilon_step gs ls 0 U1 2) in S2, E2. set (U2 := upsilon_step gs ls 0 U1 2) in *. clearbody U2.
  destruct (step_raw U2 (A 3) (ls 2) _ _ _ _ _ S2 eq_refl Z3) as [S3 E3]. change (contract _ [2; 3] (A 3) [0; 1]) with (upsilon_step gs ls 0 U2 3) in S3, E3.
  unfold rings. rewrite <- double_trace. apply sm_ext. intros y3 _. apply sm_ext. intros z3 _. f_equal. f_equal. rewrite EU, E3.
  apply sm_ext. intros z2 _. apply sm_ext. intros y2 _. rewrite E2, Y3. f_equal. f_equal. f_equal. apply sm_ext. intros z1 _. apply sm_ext. intros y1 _. rewrite E1, Y2. f_equal. f_equal. f_equal. apply sm_ext. intros z0 _. apply sm_ext. intros y0 _. rewrite Y0, Y1. reflexivity.
Qed.

Lemma over_ext d e f F G : (forall p u v, (forall q, q < 4 -> p q < d q) -> (forall q, q < 4 -> u q < e q) -> (forall q, q < 4 -> v q < f q) -> F p u v = G p u v) -> over d e f F = over d e f G.
Proof.
  intros H. unfold over. cbn [map nsum].
  do 12 (apply sumC_ext; let y := fresh "y" in let Hy := fresh "Hy" in intros y Hy; apply in_seq in Hy; apply proj2 in Hy; cbn [Nat.add] in Hy).
  apply H; intros q Hq; four q Hq; assumption.
Qed.
Section Ratio.
Context (qr : nat -> tensor -> tensor * tensor) (svd svdt : nat -> tensor -> tensor * list R * tensor) (evd : tensor -> tensor * list R) (eigvec : bool -> tensor -> list R -> tensor) (pr : loop_params).
Context (QR : qr_any qr) (SV : svd_any svd) (P : peps) (gate : nat -> tensor) (r c : nat) (Fi : fitted (l_env_tol pr) P) (VA : loop_valid P r c) (GF : loop_fits P r c gate).
Let x := corner (p_rows P) (p_cols P) r c. Let b := side (p_rows P) (p_cols P) r c.
Let W q := length (env_left P r c q). Let N q := length (env_right P r c q). Let d q := phys P (fst (x q)) (snd (x q)).
Definition legs_of (u v : nat -> nat) (q l : nat) : nat := if l =? e_leg q then u q else v q.
Let gs_o := fun i => eat2 (to_mps i (loop_gammas P r c i)) (env_left P r c i) (env_right P r c i).
Let ls_o := loop_lambdas P r c.
Lemma old_shape q : q < 4 -> shape (loop_gammas P r c q) = corner_index q (length (ls_o (before q))) (d q) (W q) (N q) (length (ls_o q)).
Proof. intros Hq. pose proof (site_shape pr P r c Fi VA q Hq) as S. revert S. unfold d, x. four q Hq; exact (fun S => S). Qed.
Lemma old_amplitude p u v : (forall q, q < 4 -> u q < W q) -> (forall q, q < 4 -> v q < N q) -> loop_amplitude P r c p u v = around gs_o ls_o p u v.
Proof.
  intros Hu Hv.
  assert (G : forall q y z, q < 4 -> entry (gs_o q) [y; p q; u q; v q; z] = (entry (loop_gammas P r c q) (corner_index q y (p q) (u q) (v q) z) * (el (env_left P r c q) (u q) * el (env_right P r c q) (v q)))%C).
  { intros q y z Hq. destruct (to_mps_ok q _ _ _ _ _ _ Hq (old_shape q Hq)) as [X1 X2]. destruct (eat2_ok _ (env_left P r c q) (env_right P r c q) _ _ _ _ _ X1 eq_refl eq_refl) as [_ Y2]. unfold gs_o. rewrite Y2, X2 by (first [apply Hu|apply Hv]; exact Hq). reflexivity. }
  unfold loop_amplitude, around, ring4. cbv zeta. cbn [map nsum]. apply sumC_ext. intros z0 _. apply sumC_ext. intros z1 _. apply sumC_ext. intros z2 _. apply sumC_ext. intros z3 _. rewrite !G by (clear; lia).
  cbn [nth Nat.add Nat.modulo Nat.divmod fst snd Nat.sub]. unfold el. change (fst (outer_weights P r c 0)) with (env_left P r c 0). change (fst (outer_weights P r c 1)) with (env_left P r c 1). change (fst (outer_weights P r c 2)) with (env_left P r c 2). change (fst (outer_weights P r c 3)) with (env_left P r c 3).
  change (snd (outer_weights P r c 0)) with (env_right P r c 0). change (snd (outer_weights P r c 1)) with (env_right P r c 1). change (snd (outer_weights P r c 2)) with (env_right P r c 2). change (snd (outer_weights P r c 3)) with (env_right P r c 3).
  change (ls_o 0) with (lam_of P (side (p_rows P) (p_cols P) r c 0)). change (ls_o 1) with (lam_of P (side (p_rows P) (p_cols P) r c 1)). change (ls_o 2) with (lam_of P (side (p_rows P) (p_cols P) r c 2)). change (ls_o 3) with (lam_of P (side (p_rows P) (p_cols P) r c 3)).
  unfold loop_gammas, loop_site. cbn [corner fst snd]. unfold next. ring.
Qed.
Lemma over_loop_is F : over_loop P r c F = over d W N F.
Proof. reflexivity. Qed.
Theorem ratio_main out : loop_project qr svd svdt evd eigvec pr gate P r c = Ok out -> lr_ratio out = fst (Cdiv (loop_element gate P r c) (loop_square P r c)).
Proof.
  intros E. unfold loop_project in E. destruct (negb (p_per P) && _); [discriminate E|]. cbv zeta in E.
  destruct (pat_shapes qr svd pr QR SV P gate r c Fi VA GF) as (s0 & s1 & s2 & s3 & g0 & g1 & g2 & g3 & E1 & SG & LS & VAL). cbv zeta in SG, LS, VAL. rewrite E1 in E.
  set (P1 := patched P r c s0 s1 s2 s3 g0 g1 g2 g3) in *. set (gm := fun q => nth q [g0; g1; g2; g3] g0) in *. set (sl := fun q => nth q [s0; s1; s2; s3] s0) in *.
  set (gs := fun i => eat2 (to_mps i (loop_gammas P1 r c i)) (env_left P r c i) (env_right P r c i)) in *. set (ls := loop_lambdas P1 r c) in *.
  assert (GM : forall q, q < 4 -> loop_gammas P1 r c q = gm q) by (intros q Hq; apply patched_gammas; assumption).
  assert (LM : forall q, q < 4 -> ls q = sl q) by (intros q Hq; apply patched_lambdas; assumption).
  assert (SGL : forall q, q < 4 -> shape (loop_gammas P1 r c q) = corner_index q (length (ls (before q))) (d q) (W q) (N q) (length (ls q))).
  { intros q Hq. rewrite (GM q Hq), (LM q Hq), (LM _ (before_lt q)). apply SG. exact Hq. }
  assert (SHP : shaped d W N gs ls).
  { intros q Hq. destruct (to_mps_ok q _ _ _ _ _ _ Hq (SGL q Hq)) as [X1 _]. exact (proj1 (eat2_ok _ (env_left P r c q) (env_right P r c q) _ _ _ _ _ X1 eq_refl eq_refl)). }
  assert (SHO : shaped d W N gs_o ls_o).
  { intros q Hq. destruct (to_mps_ok q _ _ _ _ _ _ Hq (old_shape q Hq)) as [X1 _]. exact (proj1 (eat2_ok _ (env_left P r c q) (env_right P r c q) _ _ _ _ _ X1 eq_refl eq_refl)). }
  destruct (gauge_all svd evd eigvec pr gs ls) as [k1|]; [|discriminate E]. cbn [bind] in E. destruct (fet_all svdt pr k1) as [k2|]; [|discriminate E]. cbn [bind] in E.
  apply Ok_same in E. subst out. cbn [lr_ratio]. fold gs_o. fold ls_o. f_equal. f_equal.
  - rewrite (overlap_ok d W N gs ls gs_o ls_o SHP SHO), rings_apart. unfold loop_element. rewrite over_loop_is. apply over_ext. intros p u v Hp Hu Hv. rewrite (old_amplitude p u v Hu Hv). f_equal.
    assert (O : outer_ok P r c (legs_of u v)) by (intros q Hq; split; [specialize (Hu q Hq); four q Hq; exact Hu|specialize (Hv q Hq); four q Hq; exact Hv]).
    destruct (first_value P r c (loop_gammas P1 r c) ls (legs_of u v) p SGL O) as [_ FV]. change (around gs ls p u v = _) in FV || idtac.
    etransitivity; [exact FV|]. cbv zeta. rewrite (GM 0), (GM 1), (GM 2), (GM 3), (LM 0), (LM 1), (LM 2), (LM 3) by (clear; lia). etransitivity; [apply f_equal; exact (VAL (legs_of u v) p O Hp)|].
    rewrite !nsum_choices. rewrite <- sumC_scal. apply sumC_ext. intros t _. rewrite (old_amplitude (fun i => nth i t 0) u v Hu Hv).
    destruct (first_value P r c (loop_gammas P r c) ls_o (legs_of u v) (fun i => nth i t 0) old_shape O) as [_ FO]. transitivity (gate_value gate (fun i => nth i t 0%nat) p * around gs_o ls_o (fun i => nth i t 0%nat) (fun q => legs_of u v q (e_leg q)) (fun q => legs_of u v q (f_leg q)))%C; [|reflexivity].
    fold gs_o in FO. rewrite FO. change (loop_value (corner (p_rows P) (p_cols P) r c) (side (p_rows P) (p_cols P) r c) l_leg r_leg P (fun i => nth i t 0) (legs_of u v)) with (ring4 (length (ls_o 0)) (length (ls_o 1)) (length (ls_o 2)) (length (ls_o 3)) (el (ls_o 0)) (el (ls_o 1)) (el (ls_o 2)) (el (ls_o 3))
      (fun y z => entry (loop_gammas P r c 0) (site_index l_leg r_leg (legs_of u v 0) 0 y z (nth 0 t 0))) (fun y z => entry (loop_gammas P r c 1) (site_index l_leg r_leg (legs_of u v 1) 1 y z (nth 1 t 0)))
      (fun y z => entry (loop_gammas P r c 2) (site_index l_leg r_leg (legs_of u v 2) 2 y z (nth 2 t 0))) (fun y z => entry (loop_gammas P r c 3) (site_index l_leg r_leg (legs_of u v 3) 3 y z (nth 3 t 0)))). ring.
  - rewrite (trace_ok d W N gs_o ls_o SHO), rings_apart. unfold loop_square. rewrite over_loop_is. apply over_ext. intros p u v Hp Hu Hv. rewrite (old_amplitude p u v Hu Hv). reflexivity.
Qed.
End Ratio.
