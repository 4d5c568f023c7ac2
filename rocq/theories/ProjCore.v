(** What a projection does to two or three tensors, the indices on their other legs being fixed. *)
From Coq Require Import List Arith Lia Bool Reals Lra.
From Verif Require Import Base Cplx SumModel SumSpec SumProofs NetSum NetEx TrgTensor TrgHoleAlg BmpsAlg.
Import ListNotations.
Local Open Scope nat_scope.

Definition one (f : nat -> C) : list nat -> C := fun l => f (nth 0 l 0).
Definition two (f : nat -> nat -> C) : list nat -> C := fun l => f (nth 0 l 0) (nth 1 l 0).
Definition three (f : nat -> nat -> nat -> C) : list nat -> C := fun l => f (nth 0 l 0) (nth 1 l 0) (nth 2 l 0).
Definition zero (c : C) : list nat -> C := fun _ => c.

Section Two.
Context (d0 d1 D K0 K1 Z : nat) (A0 A1 : nat -> nat -> C) (q0 q1 : nat -> C) (r0 r1 : nat -> nat -> nat -> C) (lam s : nat -> C).
Context (g : nat -> nat -> C) (u vt : nat -> nat -> C) (nu : C).
Context (E0 : forall p x, p < d0 -> x < D -> A0 p x = sm K0 (fun k => (q0 k * r0 k p x)%C)).
Context (E1 : forall p x, p < d1 -> x < D -> A1 p x = sm K1 (fun k => (q1 k * r1 k p x)%C)).
Context (ES : forall k0 k1, k0 < K0 -> k1 < K1 ->
  (nu * sm d0 (fun p => sm d1 (fun q => (sm D (fun x => (r0 k0 p x * lam x * r1 k1 q x)%C) * g p q)%C)))%C = sm Z (fun z => (u k0 z * s z * vt z k1)%C)).
Lemma two_core : sm Z (fun z => (sm K0 (fun k => (q0 k * u k z)%C) * s z * sm K1 (fun k => (q1 k * vt z k)%C))%C) =
  (nu * sm d0 (fun p => sm d1 (fun q => (sm D (fun x => (A0 p x * lam x * A1 q x)%C) * g p q)%C)))%C.
Proof.
  set (T := [one q0; two u; one s; one q1; two vt; three r0; three r1; one lam; two g; zero nu]).
  set (ds := [Z; K0; K1; d0; d1; D]).
  transitivity (den (lookup T) (fun v => nth v ds 0) (Sum 1 (Sum 2 (Mul (Mul (At 0 [1]) (At 3 [2])) (Sum 0 (Mul (Mul (At 1 [1; 0]) (At 2 [0])) (At 4 [0; 2])))))) at_zero).
  { ein T ds (Sum 0 (Mul (Mul (Sum 1 (Mul (At 0 [1]) (At 1 [1; 0]))) (At 2 [0])) (Sum 2 (Mul (At 3 [2]) (At 4 [0; 2])))))
      (Sum 1 (Sum 2 (Mul (Mul (At 0 [1]) (At 3 [2])) (Sum 0 (Mul (Mul (At 1 [1; 0]) (At 2 [0])) (At 4 [0; 2])))))). }
  transitivity (sm K0 (fun k0 => sm K1 (fun k1 => ((q0 k0 * q1 k1) * (nu * sm d0 (fun p => sm d1 (fun q => (sm D (fun x => (r0 k0 p x * lam x * r1 k1 q x)%C) * g p q)%C))))%C))).
  { apply sm_ext. intros k0 H0. apply sm_ext. intros k1 H1. rewrite ES by assumption. reflexivity. }
  transitivity (nu * sm d0 (fun p => sm d1 (fun q => (sm D (fun x => (sm K0 (fun k => (q0 k * r0 k p x)%C) * lam x * sm K1 (fun k => (q1 k * r1 k q x)%C))%C) * g p q)%C)))%C.
  { ein T ds (Sum 1 (Sum 2 (Mul (Mul (At 0 [1]) (At 3 [2])) (Mul (At 9 []) (Sum 3 (Sum 4 (Mul (Sum 5 (Mul (Mul (At 5 [1; 3; 5]) (At 7 [5])) (At 6 [2; 4; 5]))) (At 8 [3; 4]))))))))
      (Mul (At 9 []) (Sum 3 (Sum 4 (Mul (Sum 5 (Mul (Mul (Sum 1 (Mul (At 0 [1]) (At 5 [1; 3; 5]))) (At 7 [5])) (Sum 2 (Mul (At 3 [2]) (At 6 [2; 4; 5]))))) (At 8 [3; 4]))))). }
  f_equal. apply sm_ext. intros p Hp. apply sm_ext. intros q Hq. f_equal. apply sm_ext. intros x Hx. rewrite E0, E1 by assumption. reflexivity.
Qed.
End Two.

Section Three.
Context (da dm db X Y Ka Kb Z1 Z2 : nat) (A B : nat -> nat -> C) (M : nat -> nat -> nat -> C) (qa qb : nat -> C) (ra rb : nat -> nat -> nat -> C).
Context (g : nat -> nat -> nat -> C) (u1 : nat -> nat -> C) (vt1 : nat -> nat -> C) (u2 : nat -> nat -> C) (vt2 : nat -> nat -> C) (s1 s2 inv : nat -> C) (nu : C).
Context (EA : forall p x, p < da -> x < X -> A p x = sm Ka (fun k => (qa k * ra k p x)%C)).
Context (EB : forall p y, p < db -> y < Y -> B p y = sm Kb (fun k => (qb k * rb k p y)%C)).
Context (ES : forall ka kb, ka < Ka -> kb < Kb ->
  (nu * sm da (fun p => sm dm (fun m => sm db (fun q => (sm X (fun x => sm Y (fun y => (ra ka p x * M m x y * rb kb q y)%C)) * g p m q)%C))))%C = sm Z1 (fun z => (u1 kb z * s1 z * vt1 z ka)%C)).
Context (EU : forall kb z, kb < Kb -> z < Z1 -> (u1 kb z * s1 z)%C = sm Z2 (fun w => (u2 kb w * s2 w * vt2 w z)%C)).
Context (EI : forall z, z < Z1 -> (s1 z * inv z * s1 z)%C = s1 z).
Lemma three_core : sm Z1 (fun z => sm Z2 (fun w => (sm Ka (fun k => (qa k * vt1 z k)%C) * s1 z * (vt2 w z * inv z) * s2 w * sm Kb (fun k => (qb k * u2 k w)%C))%C)) =
  (nu * sm da (fun p => sm dm (fun m => sm db (fun q => (sm X (fun x => sm Y (fun y => (A p x * M m x y * B q y)%C)) * g p m q)%C))))%C.
Proof.
  set (T := [one qa; two vt1; one s1; two vt2; one inv; one s2; one qb; two u2; three ra; three M; three rb; three g; zero nu; two u1]).
  set (ds := [Z1; Z2; Ka; Kb; da; dm; db; X; Y]).
  transitivity (den (lookup T) (fun v => nth v ds 0) (Sum 2 (Sum 3 (Mul (Mul (At 0 [2]) (At 6 [3])) (Sum 0 (Mul (Mul (At 1 [0; 2]) (Mul (At 2 [0]) (At 4 [0]))) (Sum 1 (Mul (Mul (At 7 [3; 1]) (At 5 [1])) (At 3 [1; 0])))))))) at_zero).
  { ein T ds (Sum 0 (Sum 1 (Mul (Mul (Mul (Mul (Sum 2 (Mul (At 0 [2]) (At 1 [0; 2]))) (At 2 [0])) (Mul (At 3 [1; 0]) (At 4 [0]))) (At 5 [1])) (Sum 3 (Mul (At 6 [3]) (At 7 [3; 1]))))))
      (Sum 2 (Sum 3 (Mul (Mul (At 0 [2]) (At 6 [3])) (Sum 0 (Mul (Mul (At 1 [0; 2]) (Mul (At 2 [0]) (At 4 [0]))) (Sum 1 (Mul (Mul (At 7 [3; 1]) (At 5 [1])) (At 3 [1; 0])))))))). }
  transitivity (sm Ka (fun ka => sm Kb (fun kb => ((qa ka * qb kb) * (nu * sm da (fun p => sm dm (fun m => sm db (fun q => (sm X (fun x => sm Y (fun y => (ra ka p x * M m x y * rb kb q y)%C)) * g p m q)%C)))))%C))).
  { apply sm_ext. intros ka Ha. apply sm_ext. intros kb Hb. rewrite ES by assumption. apply (f_equal (Cmul (qa ka * qb kb)%C)). apply sm_ext. intros z Hz.
    transitivity (vt1 z ka * (s1 z * inv z) * (u1 kb z * s1 z))%C; [rewrite (EU kb z Hb Hz); reflexivity|]. rewrite <- (EI z Hz) at 3. ring. }
  transitivity (nu * sm da (fun p => sm dm (fun m => sm db (fun q => (sm X (fun x => sm Y (fun y => (sm Ka (fun k => (qa k * ra k p x)%C) * M m x y * sm Kb (fun k => (qb k * rb k q y)%C))%C)) * g p m q)%C))))%C.
  { ein T ds (Sum 2 (Sum 3 (Mul (Mul (At 0 [2]) (At 6 [3])) (Mul (At 12 []) (Sum 4 (Sum 5 (Sum 6 (Mul (Sum 7 (Sum 8 (Mul (Mul (At 8 [2; 4; 7]) (At 9 [5; 7; 8])) (At 10 [3; 6; 8])))) (At 11 [4; 5; 6])))))))))
      (Mul (At 12 []) (Sum 4 (Sum 5 (Sum 6 (Mul (Sum 7 (Sum 8 (Mul (Mul (Sum 2 (Mul (At 0 [2]) (At 8 [2; 4; 7]))) (At 9 [5; 7; 8])) (Sum 3 (Mul (At 6 [3]) (At 10 [3; 6; 8])))))) (At 11 [4; 5; 6])))))). }
  f_equal. apply sm_ext. intros p Hp. apply sm_ext. intros m Hm. apply sm_ext. intros q Hq. f_equal. apply sm_ext. intros x Hx. apply sm_ext. intros y Hy. rewrite EA, EB by assumption. reflexivity.
Qed.
End Three.
