(** The holes of a plaquette, of a diamond, of a split and of the last layers, as derivatives. *)
From Coq Require Import List Arith Lia Bool Reals.
From Verif Require Import Base Cplx SumModel SumSpec SumProofs NetSum NetEx TrgModel TrgTensor TrgTopo TrgExactSpec TrgHoleSpec TrgSums TrgFinal TrgExact.
Import ListNotations.
Local Open Scope nat_scope.

Definition at_zero : nat -> nat := fun _ => 0.
Definition lookup (l : list (list nat -> C)) (k : nat) : list nat -> C := nth k l (fun _ => RtoC 0).
Ltac ein T ds e1 e2 :=
  transitivity (den (lookup T) (fun v => nth v ds 0) e1 at_zero); [reflexivity|];
  transitivity (den (lookup T) (fun v => nth v ds 0) e2 at_zero); [apply same_den; vm_compute; reflexivity|reflexivity].
(** *** Plaquettes *)
Section Plaquette.
Context (H Q0 Q1 P1 P0 : tensor) (a0 a1 a2 a3 h0 h1 v0 v1 : nat).
Context (SH : shape H = [a0; a1; a3; a2]) (S0 : shape Q0 = [a0; v0; h0]) (S1 : shape Q1 = [h0; v1; a1]) (S2 : shape P1 = [a2; h1; v0]) (S3 : shape P0 = [h1; v1; a3]).
Definition pcore := (Sum 4 (Sum 5 (Mul (Sum 6 (Mul (At 2 [2; 6; 4]) (At 3 [6; 5; 3]))) (Sum 7 (Mul (At 1 [7; 5; 1]) (At 0 [0; 4; 7])))))).
Definition paired := (Sum 0 (Sum 1 (Sum 3 (Sum 2 (Mul pcore (At 4 [0; 1; 3; 2])))))).
Definition H_tmp1 := (Sum 2 (Sum 3 (Mul (At 4 [0; 1; 3; 2]) (Sum 6 (Mul (At 2 [2; 6; 4]) (At 3 [6; 5; 3])))))).
Definition H_tmp0 := (Sum 1 (Sum 0 (Mul (At 4 [0; 1; 3; 2]) (Sum 7 (Mul (At 1 [7; 5; 1]) (At 0 [0; 4; 7])))))).
Ltac start := destruct H as [sh eh], Q0 as [s0 e0], Q1 as [s1 e1], P1 as [s2 e2], P0 as [s3 e3]; cbn [shape] in *; subst.
Lemma plaquette_hole0 : pair Q0 (plaquette_hole 0 H Q0 Q1 P1 P0) = pair (plaquette_core Q0 Q1 P1 P0) H.
Proof.
  start. ein [e0; e1; e2; e3; eh] [a0; a1; a2; a3; v0; v1; h1; h0]
    (Sum 0 (Sum 4 (Sum 7 (Mul (At 0 [0; 4; 7]) (Sum 5 (Sum 1 (Mul H_tmp1 (At 1 [7; 5; 1])))))))) paired.
Qed.
Lemma plaquette_hole1 : pair Q1 (plaquette_hole 1 H Q0 Q1 P1 P0) = pair (plaquette_core Q0 Q1 P1 P0) H.
Proof.
  start. ein [e0; e1; e2; e3; eh] [a0; a1; a2; a3; v0; v1; h1; h0]
    (Sum 7 (Sum 5 (Sum 1 (Mul (At 1 [7; 5; 1]) (Sum 0 (Sum 4 (Mul H_tmp1 (At 0 [0; 4; 7])))))))) paired.
Qed.
Lemma plaquette_hole2 : pair P1 (plaquette_hole 2 H Q0 Q1 P1 P0) = pair (plaquette_core Q0 Q1 P1 P0) H.
Proof.
  start. ein [e0; e1; e2; e3; eh] [a0; a1; a2; a3; v0; v1; h1; h0]
    (Sum 2 (Sum 6 (Sum 4 (Mul (At 2 [2; 6; 4]) (Sum 5 (Sum 3 (Mul H_tmp0 (At 3 [6; 5; 3])))))))) paired.
Qed.
Lemma plaquette_hole3 : pair P0 (plaquette_hole 3 H Q0 Q1 P1 P0) = pair (plaquette_core Q0 Q1 P1 P0) H.
Proof.
  start. ein [e0; e1; e2; e3; eh] [a0; a1; a2; a3; v0; v1; h1; h0]
    (Sum 6 (Sum 5 (Sum 3 (Mul (At 3 [6; 5; 3]) (Sum 2 (Sum 4 (Mul H_tmp0 (At 2 [2; 6; 4])))))))) paired.
Qed.
End Plaquette.

Lemma plaquette_hole_shape k H Q0 Q1 P1 P0 a0 a1 a2 a3 h0 h1 v0 v1 : shape H = [a0; a1; a3; a2] -> shape Q0 = [a0; v0; h0] -> shape Q1 = [h0; v1; a1] -> shape P1 = [a2; h1; v0] -> shape P0 = [h1; v1; a3] -> k < 4 ->
  shape (plaquette_hole k H Q0 Q1 P1 P0) = shape (match k with 0 => Q0 | 1 => Q1 | 2 => P1 | _ => P0 end).
Proof.
  destruct H as [sh eh], Q0 as [s0 e0], Q1 as [s1 e1], P1 as [s2 e2], P0 as [s3 e3]; cbn [shape]; intros -> -> -> -> -> K. destruct k as [|[|[|[|]]]]; [reflexivity..|lia].
Qed.
(** *** Diamonds *)
Section Diamond.
Context (H Np Ep Sq Wq : tensor) (b0 b1 b2 b3 c0 c1 c2 c3 : nat).
Context (SH : shape H = [b3; b2; b1; b0]) (S0 : shape Np = [b0; c1; c0]) (S1 : shape Ep = [c1; c3; b1]) (S2 : shape Sq = [c2; c3; b2]) (S3 : shape Wq = [b3; c0; c2]).
Definition dcore := (Sum 4 (Sum 5 (Mul (Sum 6 (Mul (At 2 [6; 4; 2]) (At 3 [3; 5; 6]))) (Sum 7 (Mul (At 0 [0; 7; 5]) (At 1 [7; 4; 1])))))).
Definition dpaired := (Sum 3 (Sum 2 (Sum 1 (Sum 0 (Mul dcore (At 4 [3; 2; 1; 0])))))).
Definition H_SW := (Sum 0 (Sum 1 (Mul (At 4 [3; 2; 1; 0]) (Sum 7 (Mul (At 0 [0; 7; 5]) (At 1 [7; 4; 1])))))).
Definition H_NE := (Sum 2 (Sum 3 (Mul (At 4 [3; 2; 1; 0]) (Sum 6 (Mul (At 2 [6; 4; 2]) (At 3 [3; 5; 6])))))).
Ltac start := destruct H as [sh eh], Np as [s0 e0], Ep as [s1 e1], Sq as [s2 e2], Wq as [s3 e3]; cbn [shape] in *; subst.
Lemma diamond_hole0 : pair Np (diamond_hole 0 H Np Ep Sq Wq) = pair (diamond_core Np Ep Sq Wq) H.
Proof.
  start. ein [e0; e1; e2; e3; eh] [b0; b1; b2; b3; c3; c0; c2; c1]
    (Sum 0 (Sum 7 (Sum 5 (Mul (At 0 [0; 7; 5]) (Sum 4 (Sum 1 (Mul H_NE (At 1 [7; 4; 1])))))))) dpaired.
Qed.
Lemma diamond_hole1 : pair Ep (diamond_hole 1 H Np Ep Sq Wq) = pair (diamond_core Np Ep Sq Wq) H.
Proof.
  start. ein [e0; e1; e2; e3; eh] [b0; b1; b2; b3; c3; c0; c2; c1]
    (Sum 7 (Sum 4 (Sum 1 (Mul (At 1 [7; 4; 1]) (Sum 0 (Sum 5 (Mul H_NE (At 0 [0; 7; 5])))))))) dpaired.
Qed.
Lemma diamond_hole2 : pair Sq (diamond_hole 2 H Np Ep Sq Wq) = pair (diamond_core Np Ep Sq Wq) H.
Proof.
  start. ein [e0; e1; e2; e3; eh] [b0; b1; b2; b3; c3; c0; c2; c1]
    (Sum 6 (Sum 4 (Sum 2 (Mul (At 2 [6; 4; 2]) (Sum 3 (Sum 5 (Mul H_SW (At 3 [3; 5; 6])))))))) dpaired.
Qed.
Lemma diamond_hole3 : pair Wq (diamond_hole 3 H Np Ep Sq Wq) = pair (diamond_core Np Ep Sq Wq) H.
Proof.
  start. ein [e0; e1; e2; e3; eh] [b0; b1; b2; b3; c3; c0; c2; c1]
    (Sum 3 (Sum 5 (Sum 6 (Mul (At 3 [3; 5; 6]) (Sum 4 (Sum 2 (Mul H_SW (At 2 [6; 4; 2])))))))) dpaired.
Qed.
End Diamond.
Lemma diamond_hole_shape k H Np Ep Sq Wq b0 b1 b2 b3 c0 c1 c2 c3 : shape H = [b3; b2; b1; b0] -> shape Np = [b0; c1; c0] -> shape Ep = [c1; c3; b1] -> shape Sq = [c2; c3; b2] -> shape Wq = [b3; c0; c2] -> k < 4 ->
  shape (diamond_hole k H Np Ep Sq Wq) = shape (match k with 0 => Np | 1 => Ep | 2 => Sq | _ => Wq end).
Proof.
  destruct H as [sh eh], Np as [s0 e0], Ep as [s1 e1], Sq as [s2 e2], Wq as [s3 e3]; cbn [shape]; intros -> -> -> -> -> K. destruct k as [|[|[|[|]]]]; [reflexivity..|lia].
Qed.
(** *** Splits: the piece that a hole of a piece is the derivative of *)
Definition to_right (U : tensor) (sinv : list R) (M : tensor) : tensor := contract (dag (diag sinv)) [0] (contract (dag U) [0; 1] M [0; 1]) [0].
Definition to_left (Vt : tensor) (sinv : list R) (M : tensor) : tensor := contract (contract M [2; 3] (dag Vt) [1; 2]) [2] (dag (diag sinv)) [1].
Definition new_P (st : stype) (iso : tensor * tensor * list R) (Y : tensor) : tensor :=
  let '(U, Vt, sinv) := iso in match st with Type0 => to_left Vt sinv (matrix_of st Y) | Type1 => to_right U sinv (matrix_of st Y) end.
Definition new_Q (st : stype) (iso : tensor * tensor * list R) (Y : tensor) : tensor :=
  let '(U, Vt, sinv) := iso in match st with Type0 => to_right U sinv (matrix_of st Y) | Type1 => to_left Vt sinv (matrix_of st Y) end.
Definition iso_fits (st : stype) (iso : tensor * tensor * list R) (l d r u : nat) : Prop :=
  let '(U, Vt, sinv) := iso in match st with
  | Type0 => shape U = [l; u; length sinv] /\ shape Vt = [length sinv; d; r]
  | Type1 => shape U = [l; d; length sinv] /\ shape Vt = [length sinv; r; u]
  end.
Definition P_shape (st : stype) (k l d r u : nat) : list nat := match st with Type0 => [l; u; k] | Type1 => [k; r; u] end.
Definition Q_shape (st : stype) (k l d r u : nat) : list nat := match st with Type0 => [k; d; r] | Type1 => [l; d; k] end.
Section Adjoint.
Context (Y H U Vt : tensor) (sinv : list R) (l d r u : nat).
Notation k := (length sinv).
Lemma adjoint_P_pair st : shape Y = [l; d; r; u] -> iso_fits st (U, Vt, sinv) l d r u -> shape H = P_shape st k l d r u ->
  pair Y (adjoint_of_P st (U, Vt, sinv) H) = pair (new_P st (U, Vt, sinv) Y) H /\ shape (adjoint_of_P st (U, Vt, sinv) H) = [l; d; r; u] /\ shape (new_P st (U, Vt, sinv) Y) = P_shape st k l d r u.
Proof.
  destruct Y as [sy ey], H as [sh eh], U as [su eu], Vt as [sv ev]. destruct st; cbn [iso_fits P_shape shape]; intros -> [-> ->] ->; (split; [|split; reflexivity]).
  - ein [ey; eh; entry (dag (diag sinv)); fun ix => Cconj (ev ix)] [l; d; r; u; k; k]
      (Sum 0 (Sum 1 (Sum 2 (Sum 3 (Mul (At 0 [0; 1; 2; 3]) (Sum 5 (Mul (Sum 4 (Mul (At 1 [0; 3; 4]) (At 2 [4; 5]))) (At 3 [5; 1; 2]))))))))
      (Sum 0 (Sum 3 (Sum 4 (Mul (Sum 5 (Mul (Sum 1 (Sum 2 (Mul (At 0 [0; 1; 2; 3]) (At 3 [5; 1; 2])))) (At 2 [4; 5]))) (At 1 [0; 3; 4]))))).
  - ein [ey; eh; entry (dag (diag sinv)); fun ix => Cconj (eu ix)] [l; d; r; u; k; k]
      (Sum 0 (Sum 1 (Sum 2 (Sum 3 (Mul (At 0 [0; 1; 2; 3]) (Sum 4 (Mul (At 3 [0; 1; 4]) (Sum 5 (Mul (At 2 [4; 5]) (At 1 [5; 2; 3]))))))))))
      (Sum 5 (Sum 2 (Sum 3 (Mul (Sum 4 (Mul (At 2 [4; 5]) (Sum 0 (Sum 1 (Mul (At 3 [0; 1; 4]) (At 0 [0; 1; 2; 3])))))) (At 1 [5; 2; 3]))))).
Qed.
Lemma adjoint_Q_pair st : shape Y = [l; d; r; u] -> iso_fits st (U, Vt, sinv) l d r u -> shape H = Q_shape st k l d r u ->
  pair Y (adjoint_of_Q st (U, Vt, sinv) H) = pair (new_Q st (U, Vt, sinv) Y) H /\ shape (adjoint_of_Q st (U, Vt, sinv) H) = [l; d; r; u] /\ shape (new_Q st (U, Vt, sinv) Y) = Q_shape st k l d r u.
Proof.
  destruct Y as [sy ey], H as [sh eh], U as [su eu], Vt as [sv ev]. destruct st; cbn [iso_fits Q_shape shape]; intros -> [-> ->] ->; (split; [|split; reflexivity]).
  - ein [ey; eh; entry (dag (diag sinv)); fun ix => Cconj (eu ix)] [l; d; r; u; k; k]
      (Sum 0 (Sum 1 (Sum 2 (Sum 3 (Mul (At 0 [0; 1; 2; 3]) (Sum 4 (Mul (At 3 [0; 3; 4]) (Sum 5 (Mul (At 2 [4; 5]) (At 1 [5; 1; 2]))))))))))
      (Sum 5 (Sum 1 (Sum 2 (Mul (Sum 4 (Mul (At 2 [4; 5]) (Sum 0 (Sum 3 (Mul (At 3 [0; 3; 4]) (At 0 [0; 1; 2; 3])))))) (At 1 [5; 1; 2]))))).
  - ein [ey; eh; entry (dag (diag sinv)); fun ix => Cconj (ev ix)] [l; d; r; u; k; k]
      (Sum 0 (Sum 1 (Sum 2 (Sum 3 (Mul (At 0 [0; 1; 2; 3]) (Sum 5 (Mul (Sum 4 (Mul (At 1 [0; 1; 4]) (At 2 [4; 5]))) (At 3 [5; 2; 3]))))))))
      (Sum 0 (Sum 1 (Sum 4 (Mul (Sum 5 (Mul (Sum 2 (Sum 3 (Mul (At 0 [0; 1; 2; 3]) (At 3 [5; 2; 3])))) (At 2 [4; 5]))) (At 1 [0; 1; 4]))))).
Qed.
End Adjoint.

(** *** The last layers *)
Definition put_at (X : nat * nat -> tensor) (rc : nat * nat) (Y : tensor) : nat * nat -> tensor := fun q => if (fst q =? fst rc) && (snd q =? snd rc) then Y else X q.
Definition sums (l : list nat) (e : ex) : ex := fold_right Sum e l.
Definition net2 : ex := sums (seq 0 8) (Mul (Mul (At 0 [4; 0; 5; 1]) (At 1 [5; 2; 4; 3])) (Mul (At 2 [6; 1; 7; 0]) (At 3 [7; 3; 6; 2]))).
Lemma even2_den d X : even_sum d 2 X = den (lookup [entry (X (0, 0)); entry (X (0, 1)); entry (X (1, 0)); entry (X (1, 1))]) (fun v => nth v (map d order2) 0) net2 at_zero.
Proof.
  rewrite (even_sum_nsum 2 order2 d X (fun l => match l with [v00; v10; v01; v11; h01; h00; h11; h10] =>
    (entry (X (0, 0)%nat) [h01; v00; h00; v10] * entry (X (0, 1)%nat) [h00; v01; h01; v11] * (entry (X (1, 0)%nat) [h11; v10; h10; v00] * entry (X (1, 1)%nat) [h10; v11; h11; v01]))%C | _ => RtoC 0 end)).
  - reflexivity.
  - cbn. lia.
  - vm_compute. reflexivity.
  - intros a. cbn. ring.
Qed.
Definition legs2 (i : nat) : list nat := match i with 0 => [4; 0; 5; 1] | 1 => [5; 2; 4; 3] | 2 => [6; 1; 7; 0] | _ => [7; 3; 6; 2] end.
Definition at2 i := At i (legs2 i).
Definition hole2_ex (i : nat) : ex := sums (legs2 i) (Mul (at2 i) match i with
  | 0 => sums [7; 6] (Mul (sums [2; 3] (Mul (at2 1) (at2 3))) (at2 2))
  | 1 => sums [6; 7] (Mul (sums [0; 1] (Mul (at2 0) (at2 2))) (at2 3))
  | 2 => sums [2; 3] (Mul (sums [4; 5] (Mul (at2 0) (at2 1))) (at2 3))
  | _ => sums [0; 1] (Mul (sums [4; 5] (Mul (at2 0) (at2 1))) (at2 2))
  end).
Lemma hole2_pair d X Y i : even_fits d 2 X -> i < 4 -> shape Y = shape (four X 2 i) ->
  pair Y (hole_2x2 (four X 2) i) = even_sum d 2 (put_at X (i / 2, i mod 2) Y) /\ shape (hole_2x2 (four X 2) i) = shape (four X 2 i).
Proof.
  intros HF Hi. pose proof (HF (0, 0) ltac:(cbn; tauto)) as F0. pose proof (HF (0, 1) ltac:(cbn; tauto)) as F1. pose proof (HF (1, 0) ltac:(cbn; tauto)) as F2. pose proof (HF (1, 1) ltac:(cbn; tauto)) as F3. cbn in F0, F1, F2, F3. clear HF.
  rewrite even2_den. unfold put_at. destruct i as [|[|[|[|]]]]; [| | | |lia]; unfold four, hole_2x2; cbn [Nat.div Nat.modulo Nat.divmod Nat.sub fst snd Nat.eqb andb]; intros SY;
    rewrite ?F0, ?F1, ?F2, ?F3 in SY; destruct Y as [sy ey]; cbn [shape] in SY; subst sy; destruct (X (0, 0)) as [s0 e0], (X (0, 1)) as [s1 e1], (X (1, 0)) as [s2 e2], (X (1, 1)) as [s3 e3]; cbn [shape] in *; subst; (split; [|reflexivity]).
  - transitivity (den (lookup [ey; e1; e2; e3]) (fun v => nth v (map d order2) 0) (hole2_ex 0) at_zero); [reflexivity|]. apply same_den. vm_compute. reflexivity.
  - transitivity (den (lookup [e0; ey; e2; e3]) (fun v => nth v (map d order2) 0) (hole2_ex 1) at_zero); [reflexivity|]. apply same_den. vm_compute. reflexivity.
  - transitivity (den (lookup [e0; e1; ey; e3]) (fun v => nth v (map d order2) 0) (hole2_ex 2) at_zero); [reflexivity|]. apply same_den. vm_compute. reflexivity.
  - transitivity (den (lookup [e0; e1; e2; ey]) (fun v => nth v (map d order2) 0) (hole2_ex 3) at_zero); [reflexivity|]. apply same_den. vm_compute. reflexivity.
Qed.
(** three by three: numbers of the bonds in the order of [order3] *)
Definition vn (r c : nat) : nat := nth ((r mod 3) * 3 + c mod 3) [6; 7; 8; 3; 4; 5; 0; 1; 2] 0.
Definition hn (r c : nat) : nat := nth ((r mod 3) * 3 + c mod 3) [11; 10; 9; 14; 13; 12; 17; 16; 15] 0.
Definition legs3 (r c : nat) : list nat := [hn r (c + 2); vn r c; hn r c; vn (r + 2) c].
Definition at3 (r c : nat) : ex := At ((r mod 3) * 3 + c mod 3) (legs3 r c).
Definition net3 : ex := sums (seq 0 18) (Mul (Mul (Mul (at3 0 0) (at3 0 1)) (at3 0 2)) (Mul (Mul (Mul (at3 1 0) (at3 1 1)) (at3 1 2)) (Mul (Mul (at3 2 0) (at3 2 1)) (at3 2 2)))).
Definition entries3 (X : nat * nat -> tensor) := [entry (X (0, 0)); entry (X (0, 1)); entry (X (0, 2)); entry (X (1, 0)); entry (X (1, 1)); entry (X (1, 2)); entry (X (2, 0)); entry (X (2, 1)); entry (X (2, 2))].
Lemma even3_den d X : even_sum d 3 X = den (lookup (entries3 X)) (fun v => nth v (map d order3) 0) net3 at_zero.
Proof.
  rewrite (even_sum_nsum 3 order3 d X (fun l => match l with [v20; v21; v22; v10; v11; v12; v00; v01; v02; h02; h01; h00; h12; h11; h10; h22; h21; h20] =>
    ((entry (X (0, 0)%nat) [h02; v00; h00; v20] * entry (X (0, 1)%nat) [h00; v01; h01; v21] * entry (X (0, 2)%nat) [h01; v02; h02; v22]) *
     ((entry (X (1, 0)%nat) [h12; v10; h10; v00] * entry (X (1, 1)%nat) [h10; v11; h11; v01] * entry (X (1, 2)%nat) [h11; v12; h12; v02]) *
      (entry (X (2, 0)%nat) [h22; v20; h20; v10] * entry (X (2, 1)%nat) [h20; v21; h21; v11] * entry (X (2, 2)%nat) [h21; v22; h22; v12])))%C | _ => RtoC 0 end)).
  - reflexivity.
  - cbn. lia.
  - vm_compute. reflexivity.
  - intros a. cbn. ring.
Qed.
Definition ring_ex (r c : nat) : ex := sums [hn r (c + 2); hn r (c + 1)] (Mul (Sum (hn r c) (Mul (at3 r c) (at3 r (c + 1)))) (at3 r (c + 2))).
Definition hole3_ex (i : nat) : ex := let r := i / 3 in let c := i mod 3 in
  sums (legs3 r c) (Mul (at3 r c) (sums [vn r (c + 1); vn r (c + 2); vn (r + 2) (c + 1); vn (r + 2) (c + 2)]
    (Mul (Sum (hn r (c + 1)) (Mul (at3 r (c + 1)) (at3 r (c + 2))))
         (sums [vn (r + 1) c; vn (r + 1) (c + 1); vn (r + 1) (c + 2)] (Mul (ring_ex (r + 1) c) (ring_ex (r + 2) c)))))).
Lemma hole3_same i : i < 9 -> same (hole3_ex i) net3 = true.
Proof. intros H. do 9 (destruct i as [|i]; [vm_compute; reflexivity|]). lia. Qed.
Lemma hole3_pair d X Y i : even_fits d 3 X -> i < 9 -> shape Y = shape (four X 3 i) ->
  pair Y (hole_3x3 (four X 3) i) = even_sum d 3 (put_at X (i / 3, i mod 3) Y) /\ shape (hole_3x3 (four X 3) i) = shape (four X 3 i).
Proof.
  intros HF Hi. pose proof (HF (0, 0) ltac:(cbn; tauto)) as F00. pose proof (HF (0, 1) ltac:(cbn; tauto)) as F01. pose proof (HF (0, 2) ltac:(cbn; tauto)) as F02.
  pose proof (HF (1, 0) ltac:(cbn; tauto)) as F10. pose proof (HF (1, 1) ltac:(cbn; tauto)) as F11. pose proof (HF (1, 2) ltac:(cbn; tauto)) as F12.
  pose proof (HF (2, 0) ltac:(cbn; tauto)) as F20. pose proof (HF (2, 1) ltac:(cbn; tauto)) as F21. pose proof (HF (2, 2) ltac:(cbn; tauto)) as F22. cbn in F00, F01, F02, F10, F11, F12, F20, F21, F22. clear HF.
  intros SY. split.
  - rewrite even3_den, <- (same_den _ _ _ _ (hole3_same i Hi)). revert SY. unfold put_at, entries3. do 9 (destruct i as [|i]; [
      unfold four, hole_3x3; cbn [Nat.div Nat.modulo Nat.divmod Nat.sub Nat.add Nat.mul fst snd Nat.eqb andb]; intros SY; rewrite ?F00, ?F01, ?F02, ?F10, ?F11, ?F12, ?F20, ?F21, ?F22 in SY; destruct Y as [sy ey]; cbn [shape] in SY; subst sy;
      destruct (X (0, 0)) as [s00 e00], (X (0, 1)) as [s01 e01], (X (0, 2)) as [s02 e02], (X (1, 0)) as [s10 e10], (X (1, 1)) as [s11 e11], (X (1, 2)) as [s12 e12], (X (2, 0)) as [s20 e20], (X (2, 1)) as [s21 e21], (X (2, 2)) as [s22 e22];
      cbn [shape] in *; subst; reflexivity|]). lia.
  - clear SY. do 9 (destruct i as [|i]; [
      unfold four, hole_3x3; cbn [Nat.div Nat.modulo Nat.divmod Nat.sub Nat.add Nat.mul fst snd Nat.eqb andb];
      destruct (X (0, 0)) as [s00 e00], (X (0, 1)) as [s01 e01], (X (0, 2)) as [s02 e02], (X (1, 0)) as [s10 e10], (X (1, 1)) as [s11 e11], (X (1, 2)) as [s12 e12], (X (2, 0)) as [s20 e20], (X (2, 1)) as [s21 e21], (X (2, 2)) as [s22 e22];
      cbn [shape] in *; subst; reflexivity|]). lia.
Qed.
