(** One step of the boundary MPS method as sums over indices. *)
From Coq Require Import List Arith Lia Bool Reals.
From Verif Require Import Base Cplx SumModel SumSpec SumProofs NetSum NetEx ContractorModel TrgTensor TrgHoleAlg BmpsModel BmpsSpec.
Import ListNotations.
Local Open Scope nat_scope.

(** a site tensor seen from a boundary: the leg before it (going around the lattice), towards it, after it, away from it *)
Definition local (p : pos) (t : list nat -> C) (a b c d : nat) : C :=
  match p with LEFT => t [b; c; d; a] | DOWN => t [a; b; c; d] | RIGHT => t [d; a; b; c] | UP => t [c; d; a; b] end.
Lemma local_opposite p t a b c d : local (opposite p) t c d a b = local p t a b c d.
Proof. destruct p; reflexivity. Qed.
Lemma local_next p t a b c d : local (next_of p) t b c d a = local p t a b c d.
Proof. destruct p; reflexivity. Qed.
Definition loc (p : pos) (t : list nat -> C) : list nat -> C := fun l => local p t (nth 0 l 0) (nth 1 l 0) (nth 2 l 0) (nth 3 l 0).

Definition sm (n : nat) (f : nat -> C) : C := sumC f (seq 0 n).
Lemma sm_ext n f g : (forall i, i < n -> f i = g i) -> sm n f = sm n g.
Proof. intros H. apply sumC_ext. intros i Hi. apply in_seq in Hi. apply H. lia. Qed.
Lemma sm_S n f : sm (S n) f = (sm n f + f n)%C.
Proof. unfold sm. rewrite seq_S, sumC_app, sumC_cons, sumC_nil. cbn [plus]. ring. Qed.
Lemma sm_extend n D f : n <= D -> (forall i, n <= i < D -> f i = RtoC 0) -> sm n f = sm D f.
Proof.
  intros H. induction H as [|D H IH]; intros Z; [reflexivity|]. rewrite sm_S, Z, IH by (intros; try apply Z; lia). ring.
Qed.
Lemma sm_1 f : sm 1 f = f 0.
Proof. unfold sm. cbn [seq]. rewrite sumC_cons, sumC_nil. ring. Qed.
Lemma sm_first n f : 1 <= n -> (forall i, 0 < i < n -> f i = RtoC 0) -> sm n f = f 0.
Proof. intros H Z. rewrite <- (sm_extend 1 n) by (try lia; intros i Hi; apply Z; lia). apply sm_1. Qed.
Lemma sm_scal n c f : sm n (fun i => (c * f i)%C) = (c * sm n f)%C.
Proof. apply sumC_scal. Qed.
Lemma sm_scal_r n c f : sm n (fun i => (f i * c)%C) = (sm n f * c)%C.
Proof. transitivity (c * sm n f)%C; [rewrite <- sm_scal; apply sm_ext; intros; ring|ring]. Qed.
Lemma sm_swap m n f : sm m (fun i => sm n (f i)) = sm n (fun j => sm m (fun i => f i j)).
Proof. apply sumC_swap. Qed.
Lemma sm_zero n f : (forall i, i < n -> f i = RtoC 0) -> sm n f = RtoC 0.
Proof. intros H. apply sumC_zero. intros i Hi. apply in_seq in Hi. apply H. lia. Qed.

Section Alg.
Context (D : nat).
(** leg 1 may be padded to dimension D *)
Definition padded (A : tensor) : Prop := dimat A 1 <= D /\ forall x u y, dimat A 1 <= u < D -> entry A [x; u; y] = RtoC 0.
Lemma padded_full A a b : shape A = [a; D; b] -> padded A.
Proof. destruct A as [s e]. cbn [shape]. intros ->. split; cbn; lia. Qed.
Lemma grow_shape p e m1 t m2 x0 x1 y z0 z1 P P' : shape e = [x0; y; z0] -> shape m1 = [x1; P; x0] -> shape m2 = [z0; P'; z1] ->
  shape (grow D p e m1 t m2) = [x1; D; z1].
Proof. destruct e as [se ee], m1 as [s1 e1], m2 as [s2 e2]. cbn [shape]. intros -> -> ->. destruct p; reflexivity. Qed.
Lemma grow_entry p e m1 t m2 x0 x1 y z0 z1 P P' x y' z : shape e = [x0; y; z0] -> shape m1 = [x1; P; x0] -> shape m2 = [z0; P'; z1] -> padded e -> padded m1 ->
  entry (grow D p e m1 t m2) [x; y'; z] = sm z0 (fun c => sm D (fun q => (sm D (fun u => sm D (fun b => (sm x0 (fun a => (entry m1 [x; u; a] * entry e [a; b; c])%C) * local p t u b q y')%C)) * entry m2 [c; q; z])%C)).
Proof.
  destruct e as [se ee], m1 as [s1 e1], m2 as [s2 e2]. cbn [shape]. intros -> -> -> [Y1 Y2] [P1 P2]. cbn [dimat shape nth entry] in *.
  transitivity (sm z0 (fun c => sm D (fun q => (sm P (fun u => sm y (fun b => (sm x0 (fun a => (e1 [x; u; a] * ee [a; b; c])%C) * local p t u b q y')%C)) * e2 [c; q; z])%C))).
  - destruct p; reflexivity.
  - apply sm_ext. intros c _. apply sm_ext. intros q _. f_equal. rewrite (sm_extend P D); [|exact P1|].
    + apply sm_ext. intros u _. apply sm_extend; [exact Y1|]. intros b Hb. rewrite (sm_zero x0); [ring|]. intros a _. rewrite Y2 by exact Hb. ring.
    + intros u Hu. apply sm_zero. intros b _. rewrite (sm_zero x0); [ring|]. intros a _. rewrite P2 by exact Hu. ring.
Qed.
Lemma close_value a b x y z x' y' z' : shape a = [x; y; z] -> shape b = [z'; y'; x'] -> padded a ->
  close a b = sm x (fun i => sm D (fun j => sm z (fun k => (entry a [i; j; k] * entry b [k; j; i])%C))).
Proof.
  destruct a as [sa ea], b as [sb eb]. cbn [shape]. intros -> -> [Y1 Y2]. cbn [dimat shape nth entry] in *.
  transitivity (sm x (fun i => sm y (fun j => sm z (fun k => (ea [i; j; k] * eb [k; j; i])%C)))); [reflexivity|].
  apply sm_ext. intros i _. apply sm_extend; [exact Y1|]. intros j Hj. apply sm_zero. intros k _. rewrite Y2 by exact Hj. ring.
Qed.
(** two boundary tensors around one column *)
Section Ring.
Context (p : pos) (e m1 m2 e' : tensor) (t : list nat -> C) (x0 x1 z0 z1 y y' P P' : nat).
Context (Se : shape e = [x0; y; z0]) (S1 : shape m1 = [x1; P; x0]) (S2 : shape m2 = [z0; P'; z1]) (Se' : shape e' = [z1; y'; x1]).
Context (Pe : padded e) (P1 : padded m1) (P2 : padded m2) (Pe' : padded e').
Definition ring : C := sm x1 (fun x => sm D (fun y' => sm z1 (fun z => (sm z0 (fun c => sm D (fun q => (sm D (fun u => sm D (fun b => (sm x0 (fun a => (entry m1 [x; u; a] * entry e [a; b; c])%C) * local p t u b q y')%C)) * entry m2 [c; q; z])%C)) * entry e' [z; y'; x])%C))).
Lemma ring_near : close (grow D p e m1 t m2) e' = ring.
Proof.
  rewrite (close_value _ _ x1 D z1 _ _ _ (grow_shape p e m1 t m2 _ _ _ _ _ _ _ Se S1 S2) Se') by (apply (padded_full _ x1 z1); eapply grow_shape; eassumption).
  apply sm_ext. intros x _. apply sm_ext. intros j _. apply sm_ext. intros z _. f_equal. apply (grow_entry p e m1 t m2 _ _ _ _ _ _ _ _ _ _ Se S1 S2 Pe P1).
Qed.
Definition T5 := [entry m1; entry e; loc p t; entry m2; entry e'].
Definition d5 := [x1; D; z1; z0; D; D; D; x0].
Definition ring_ex := (Sum 0 (Sum 1 (Sum 2 (Mul (Sum 3 (Sum 4 (Mul (Sum 5 (Sum 6 (Mul (Sum 7 (Mul (At 0 [0; 5; 7]) (At 1 [7; 6; 3]))) (At 2 [5; 6; 4; 1])))) (At 3 [3; 4; 2])))) (At 4 [2; 1; 0]))))).
Lemma ring_den : ring = den (lookup T5) (fun v => nth v d5 0) ring_ex at_zero.
Proof. reflexivity. Qed.
Lemma ring_far : close e (grow D (opposite p) e' m2 t m1) = ring.
Proof.
  rewrite (close_value _ _ x0 y z0 _ _ _ Se (grow_shape (opposite p) e' m2 t m1 _ _ _ _ _ _ _ Se' S2 S1) Pe). rewrite ring_den.
  transitivity (den (lookup T5) (fun v => nth v d5 0)
    (Sum 7 (Sum 6 (Sum 3 (Mul (At 1 [7; 6; 3]) (Sum 0 (Sum 5 (Mul (Sum 4 (Sum 1 (Mul (Sum 2 (Mul (At 3 [3; 4; 2]) (At 4 [2; 1; 0]))) (At 2 [5; 6; 4; 1])))) (At 0 [0; 5; 7])))))))) at_zero).
  - apply sm_ext. intros a _. apply sm_ext. intros b _. apply sm_ext. intros c _. f_equal.
    rewrite (grow_entry (opposite p) e' m2 t m1 _ _ _ _ _ _ _ _ _ _ Se' S2 S1 Pe' P2). apply sm_ext. intros x _. apply sm_ext. intros u _. f_equal.
    apply sm_ext. intros q _. apply sm_ext. intros j _. f_equal. apply (local_opposite p t u b q j).
  - apply same_den. vm_compute. reflexivity.
Qed.
(** the same column, contracted the other way around *)
Lemma ring_turned : close (grow D (next_of p) m2 e t e') m1 = ring.
Proof.
  rewrite (close_value _ _ x0 D x1 _ _ _ (grow_shape (next_of p) m2 e t e' _ _ _ _ _ _ _ S2 Se Se') S1) by (apply (padded_full _ x0 x1); eapply grow_shape; eassumption). rewrite ring_den.
  transitivity (den (lookup T5) (fun v => nth v d5 0)
    (Sum 7 (Sum 5 (Sum 0 (Mul (Sum 2 (Sum 1 (Mul (Sum 6 (Sum 4 (Mul (Sum 3 (Mul (At 1 [7; 6; 3]) (At 3 [3; 4; 2]))) (At 2 [5; 6; 4; 1])))) (At 4 [2; 1; 0])))) (At 0 [0; 5; 7]))))) at_zero).
  - apply sm_ext. intros a _. apply sm_ext. intros u _. apply sm_ext. intros x _. f_equal.
    rewrite (grow_entry (next_of p) m2 e t e' _ _ _ _ _ _ _ _ _ _ S2 Se Se' P2 Pe). apply sm_ext. intros z _. apply sm_ext. intros j _. f_equal.
    apply sm_ext. intros b _. apply sm_ext. intros q _. f_equal. apply (local_next p t u b q j).
  - apply same_den. vm_compute. reflexivity.
Qed.
End Ring.
(** a hole plugged *)
Lemma hole_ring e m1 m2 e' t x0 x1 z0 z1 y y' P P' : shape e = [x0; y; z0] -> shape m1 = [x1; P; x0] -> shape m2 = [z0; P'; z1] -> shape e' = [z1; y'; x1] ->
  padded e -> padded m1 -> padded m2 -> padded e' -> plug_hole (punch HORIZONTAL m1 m2 e e') t = ring LEFT e m1 m2 e' t x0 x1 z0 z1.
Proof.
  intros Se S1 S2 Se' [e_1 e_2] [m1_1 m1_2] [m2_1 m2_2] [e'_1 e'_2]. rewrite ring_den.
  transitivity (den (lookup (T5 LEFT e m1 m2 e' t)) (fun v => nth v (d5 x0 x1 z0 z1) 0)
    (Sum 6 (Sum 4 (Sum 1 (Sum 5 (Mul (Sum 7 (Sum 2 (Mul (Sum 3 (Mul (At 1 [7; 6; 3]) (At 3 [3; 4; 2]))) (Sum 0 (Mul (At 4 [2; 1; 0]) (At 0 [0; 5; 7])))))) (At 2 [5; 6; 4; 1])))))) at_zero);
    [|apply same_den; vm_compute; reflexivity].
  destruct e as [se ee], m1 as [s1 e1], m2 as [s2 e2], e' as [se' ee']. cbn [shape] in *. subst. cbn [dimat shape nth entry] in *.
  pose (f := fun b q j u => (sm x0 (fun a => sm z1 (fun z => (sm z0 (fun c => (ee [a; b; c] * e2 [c; q; z])%C) * sm x1 (fun x => (ee' [z; j; x] * e1 [x; u; a])%C))%C)) * local LEFT t u b q j)%C).
  transitivity (sm y (fun b => sm P' (fun q => sm y' (fun j => sm P (fun u => f b q j u))))); [reflexivity|].
  transitivity (sm D (fun b => sm D (fun q => sm D (fun j => sm D (fun u => f b q j u))))); [|reflexivity].
  assert (Zb : forall b q j u, y <= b < D -> f b q j u = RtoC 0).
  { intros b q j u H. unfold f. rewrite (sm_zero x0); [ring|]. intros a _. apply sm_zero. intros z _. rewrite (sm_zero z0); [ring|]. intros c _. rewrite e_2 by exact H. ring. }
  assert (Zq : forall b q j u, P' <= q < D -> f b q j u = RtoC 0).
  { intros b q j u H. unfold f. rewrite (sm_zero x0); [ring|]. intros a _. apply sm_zero. intros z _. rewrite (sm_zero z0); [ring|]. intros c _. rewrite m2_2 by exact H. ring. }
  assert (Zj : forall b q j u, y' <= j < D -> f b q j u = RtoC 0).
  { intros b q j u H. unfold f. rewrite (sm_zero x0); [ring|]. intros a _. apply sm_zero. intros z _. rewrite (sm_zero x1); [ring|]. intros x _. rewrite e'_2 by exact H. ring. }
  assert (Zu : forall b q j u, P <= u < D -> f b q j u = RtoC 0).
  { intros b q j u H. unfold f. rewrite (sm_zero x0); [ring|]. intros a _. apply sm_zero. intros z _. rewrite (sm_zero x1); [ring|]. intros x _. rewrite m1_2 by exact H. ring. }
  rewrite (sm_extend y D); [|exact e_1|intros b Hb; apply sm_zero; intros q _; apply sm_zero; intros j _; apply sm_zero; intros u _; apply Zb; exact Hb].
  apply sm_ext. intros b _. rewrite (sm_extend P' D); [|exact m2_1|intros q Hq; apply sm_zero; intros j _; apply sm_zero; intros u _; apply Zq; exact Hq].
  apply sm_ext. intros q _. rewrite (sm_extend y' D); [|exact e'_1|intros j Hj; apply sm_zero; intros u _; apply Zj; exact Hj].
  apply sm_ext. intros j _. apply sm_extend; [exact m1_1|]. intros u Hu. apply Zu. exact Hu.
Qed.
(** *** Two layers *)
Definition padded2 (A : tensor) : Prop := dimat A 1 <= D /\ dimat A 2 <= D /\ forall x u v y, u < D -> v < D -> dimat A 1 <= u \/ dimat A 2 <= v -> entry A [x; u; v; y] = RtoC 0.
Lemma padded2_full A a b : shape A = [a; D; D; b] -> padded2 A.
Proof. destruct A as [s e]. cbn [shape]. intros ->. repeat split; cbn; lia. Qed.
Lemma grow2_shape p e m1 t1 t2 m2 x0 x1 y1 y2 z0 z1 P P' : shape e = [x0; y1; y2; z0] -> shape m1 = [x1; P; x0] -> shape m2 = [z0; P'; z1] ->
  shape (grow2 D p e m1 t1 t2 m2) = [x1; D; D; z1].
Proof. destruct e as [se ee], m1 as [s1 e1], m2 as [s2 e2]. cbn [shape]. intros -> -> ->. destruct p; reflexivity. Qed.
Lemma grow2_entry p e m1 t1 t2 m2 x0 x1 y1 y2 z0 z1 P P' x j1 j2 z : shape e = [x0; y1; y2; z0] -> shape m1 = [x1; P; x0] -> shape m2 = [z0; P'; z1] -> padded2 e -> padded m1 ->
  entry (grow2 D p e m1 t1 t2 m2) [x; j1; j2; z] =
  sm z0 (fun c => sm D (fun q => (sm D (fun w => sm D (fun b2 => (sm D (fun u => sm D (fun b1 => (sm x0 (fun a => (entry m1 [x; u; a] * entry e [a; b1; b2; c])%C) * local p t1 u b1 w j1)%C)) * local p t2 w b2 q j2)%C)) * entry m2 [c; q; z])%C)).
Proof.
  destruct e as [se ee], m1 as [s1 e1], m2 as [s2 e2]. cbn [shape]. intros -> -> -> (Y1 & Y2 & Y3) [P1 P2]. cbn [dimat shape nth entry] in *.
  transitivity (sm z0 (fun c => sm D (fun q => (sm D (fun w => sm y2 (fun b2 => (sm P (fun u => sm y1 (fun b1 => (sm x0 (fun a => (e1 [x; u; a] * ee [a; b1; b2; c])%C) * local p t1 u b1 w j1)%C)) * local p t2 w b2 q j2)%C)) * e2 [c; q; z])%C))).
  - destruct p; reflexivity.
  - apply sm_ext. intros c _. apply sm_ext. intros q _. f_equal. apply sm_ext. intros w _.
    rewrite (sm_extend y2 D (fun b2 => (sm P (fun u => sm y1 (fun b1 => (sm x0 (fun a => (e1 [x; u; a] * ee [a; b1; b2; c])%C) * local p t1 u b1 w j1)%C)) * local p t2 w b2 q j2)%C)); [|exact Y2|].
    + apply sm_ext. intros b2 Hb2. f_equal. rewrite (sm_extend P D); [|exact P1|].
      * apply sm_ext. intros u _. apply sm_extend; [exact Y1|]. intros b Hb. rewrite (sm_zero x0); [ring|]. intros a _. rewrite Y3 by (try lia; left; lia). ring.
      * intros u Hu. apply sm_zero. intros b _. rewrite (sm_zero x0); [ring|]. intros a _. rewrite P2 by exact Hu. ring.
    + intros b2 Hb2. rewrite (sm_zero P); [ring|]. intros u _. apply sm_zero. intros b1 Hb1. rewrite (sm_zero x0); [ring|]. intros a _. rewrite Y3 by (try lia; right; lia). ring.
Qed.
Lemma close2_value a b x y1 y2 z x' y1' y2' z' : shape a = [x; y1; y2; z] -> shape b = [z'; y2'; y1'; x'] -> padded2 a ->
  close2 a b = sm x (fun i => sm D (fun j => sm D (fun l => sm z (fun k => (entry a [i; j; l; k] * entry b [k; l; j; i])%C)))).
Proof.
  destruct a as [sa ea], b as [sb eb]. cbn [shape]. intros -> -> (Y1 & Y2 & Y3). cbn [dimat shape nth entry] in *.
  transitivity (sm x (fun i => sm y1 (fun j => sm y2 (fun l => sm z (fun k => (ea [i; j; l; k] * eb [k; l; j; i])%C))))); [reflexivity|].
  apply sm_ext. intros i _. rewrite (sm_extend y1 D); [|exact Y1|].
  - apply sm_ext. intros j Hj. apply sm_extend; [exact Y2|]. intros l Hl. apply sm_zero. intros k _. rewrite Y3 by (try lia; right; lia). ring.
  - intros j Hj. apply sm_zero. intros l Hl. apply sm_zero. intros k _. rewrite Y3 by (try lia; left; lia). ring.
Qed.
Section Ring2.
Context (p : pos) (e m1 m2 e' : tensor) (t1 t2 : list nat -> C) (x0 x1 z0 z1 y1 y2 y1' y2' P P' : nat).
Context (Se : shape e = [x0; y1; y2; z0]) (S1 : shape m1 = [x1; P; x0]) (S2 : shape m2 = [z0; P'; z1]) (Se' : shape e' = [z1; y2'; y1'; x1]).
Context (Pe : padded2 e) (P1 : padded m1) (P2 : padded m2) (Pe' : padded2 e').
Definition T6 := [entry m1; entry e; loc p t1; loc p t2; entry m2; entry e'].
(* 0 x, 1 j1, 2 j2, 3 z, 4 c, 5 q, 6 w, 7 b2, 8 u, 9 b1, 10 a *)
Definition d6 := [x1; D; D; z1; z0; D; D; D; D; D; x0].
Definition ring2_ex := (Sum 0 (Sum 1 (Sum 2 (Sum 3 (Mul (Sum 4 (Sum 5 (Mul (Sum 6 (Sum 7 (Mul (Sum 8 (Sum 9 (Mul (Sum 10 (Mul (At 0 [0; 8; 10]) (At 1 [10; 9; 7; 4]))) (At 2 [8; 9; 6; 1])))) (At 3 [6; 7; 5; 2])))) (At 4 [4; 5; 3])))) (At 5 [3; 2; 1; 0])))))).
Definition ring2 : C := sm x1 (fun x => sm D (fun j1 => sm D (fun j2 => sm z1 (fun z => (sm z0 (fun c => sm D (fun q => (sm D (fun w => sm D (fun b2 => (sm D (fun u => sm D (fun b1 => (sm x0 (fun a => (entry m1 [x; u; a] * entry e [a; b1; b2; c])%C) * local p t1 u b1 w j1)%C)) * local p t2 w b2 q j2)%C)) * entry m2 [c; q; z])%C)) * entry e' [z; j2; j1; x])%C)))).
Lemma ring2_den : ring2 = den (lookup T6) (fun v => nth v d6 0) ring2_ex at_zero.
Proof. reflexivity. Qed.
Lemma ring2_near : close2 (grow2 D p e m1 t1 t2 m2) e' = ring2.
Proof.
  rewrite (close2_value _ _ x1 D D z1 _ _ _ _ (grow2_shape p e m1 t1 t2 m2 _ _ _ _ _ _ _ _ Se S1 S2) Se') by (apply (padded2_full _ x1 z1); eapply grow2_shape; eassumption).
  apply sm_ext. intros x _. apply sm_ext. intros j1 _. apply sm_ext. intros j2 _. apply sm_ext. intros z _. f_equal. apply (grow2_entry p e m1 t1 t2 m2 _ _ _ _ _ _ _ _ _ _ _ _ Se S1 S2 Pe P1).
Qed.
Lemma ring2_far : close2 e (grow2 D (opposite p) e' m2 t2 t1 m1) = ring2.
Proof.
  rewrite (close2_value _ _ x0 y1 y2 z0 _ _ _ _ Se (grow2_shape (opposite p) e' m2 t2 t1 m1 _ _ _ _ _ _ _ _ Se' S2 S1) Pe). rewrite ring2_den.
  transitivity (den (lookup T6) (fun v => nth v d6 0)
    (Sum 10 (Sum 9 (Sum 7 (Sum 4 (Mul (At 1 [10; 9; 7; 4]) (Sum 0 (Sum 8 (Mul (Sum 6 (Sum 1 (Mul (Sum 5 (Sum 2 (Mul (Sum 3 (Mul (At 4 [4; 5; 3]) (At 5 [3; 2; 1; 0]))) (At 3 [6; 7; 5; 2])))) (At 2 [8; 9; 6; 1])))) (At 0 [0; 8; 10]))))))))) at_zero).
  - apply sm_ext. intros a _. apply sm_ext. intros b1 _. apply sm_ext. intros b2 _. apply sm_ext. intros c _. f_equal.
    rewrite (grow2_entry (opposite p) e' m2 t2 t1 m1 _ _ _ _ _ _ _ _ _ _ _ _ Se' S2 S1 Pe' P2). apply sm_ext. intros x _. apply sm_ext. intros u _. f_equal.
    apply sm_ext. intros w _. apply sm_ext. intros j1 _. f_equal; [|apply (local_opposite p t1 u b1 w j1)].
    apply sm_ext. intros q _. apply sm_ext. intros j2 _. f_equal. apply (local_opposite p t2 w b2 q j2).
  - apply same_den. vm_compute. reflexivity.
Qed.
End Ring2.
Lemma close2_sym a b x z : shape a = [x; D; D; z] -> shape b = [z; D; D; x] -> close2 a b = close2 b a.
Proof.
  intros A B. rewrite (close2_value a b x D D z _ _ _ _ A B (padded2_full _ _ _ A)), (close2_value b a z D D x _ _ _ _ B A (padded2_full _ _ _ B)).
  ein [entry a; entry b] [x; D; D; z] (Sum 0 (Sum 1 (Sum 2 (Sum 3 (Mul (At 0 [0; 1; 2; 3]) (At 1 [3; 2; 1; 0])))))) (Sum 3 (Sum 2 (Sum 1 (Sum 0 (Mul (At 1 [3; 2; 1; 0]) (At 0 [0; 1; 2; 3])))))).
Qed.
End Alg.
