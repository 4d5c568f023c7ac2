(** A concrete contraction scheme: networks of bond dimension one (product states), contracted
    exactly. It satisfies [contraction_consistent], so the theorems about amplitudes are not
    vacuous. *)
From Coq Require Import List Arith Lia Bool ZArith.
From Verif Require Import Base ContractorModel ContractorSpec ContractorProofs SweepModel SweepSpec SweepProofs.
Import ListNotations.
Local Open Scope Z_scope.

Definition zprod (l : list Z) : Z := fold_right Z.mul 1 l.
Definition prod_ops : ops :=
  mkOps Z (nat -> Z) Z Z Z Z Z
    (fun p => fun _ => 1)
    (fun p ts m => fun i =>
       nth (match p with UP | RIGHT => length ts - 1 - i | _ => i end)%nat ts 1 * m i)
    (fun m i => m i)
    (fun p a b => 1)
    (fun p e a t b => e * a * t * b)
    (fun p a b => 1)
    (fun p e a t1 t2 b => e * a * t1 * t2 * b)
    (fun d ms ts e1 e2 => e1 * e2 * zprod (map (fun x => fst x * snd x) ms) * zprod ts)
    (fun d ms ts e1 e2 => e1 * e2 * zprod (map (fun x => fst x * snd x) ms) * zprod (map (fun x => fst x * snd x) ts))
    (fun d a b e1 e2 => a * b * e1 * e2).

(** Product of all the tensors of the lattice. *)
Fixpoint pr (f : nat -> Z) (n : nat) : Z := match n with O => 1 | S m => pr f m * f m end.
Definition prod_psi (rows cols : nat) (tn : net prod_ops) : Z := pr (fun r => pr (fun c => tn r c) cols) rows.

Lemma pr_ext f g n : (forall i, (i < n)%nat -> f i = g i) -> pr f n = pr g n.
Proof. induction n as [|n IH]; intros E; simpl; [reflexivity|]. rewrite IH, E by (intros; try apply E; lia). reflexivity. Qed.
Lemma pr_mul f g n : pr (fun i => f i * g i) n = pr f n * pr g n.
Proof. induction n as [|n IH]; simpl; [reflexivity|]. rewrite IH. ring. Qed.
Lemma pr_one n : pr (fun _ => 1) n = 1.
Proof. induction n as [|n IH]; simpl; [reflexivity|]. rewrite IH. ring. Qed.
Lemma pr_swap f m n : pr (fun i => pr (fun j => f i j) n) m = pr (fun j => pr (fun i => f i j) m) n.
Proof.
  induction m as [|m IH]; simpl; [symmetry; apply pr_one|]. rewrite IH, <- pr_mul. reflexivity.
Qed.
Lemma pr_app f m n : pr f (m + n) = pr f m * pr (fun i => f (m + i)%nat) n.
Proof.
  induction n as [|n IH]; simpl; [rewrite Nat.add_0_r; ring|].
  rewrite Nat.add_succ_r. simpl. rewrite IH. ring.
Qed.
Lemma pr_first f n : pr f (S n) = f 0%nat * pr (fun i => f (S i)) n.
Proof. induction n as [|n IH]; [cbn [pr]; ring|]. change (pr f (S (S n))) with (pr f (S n) * f (S n)). rewrite IH. cbn [pr]. ring. Qed.
Lemma pr_rev f n : pr (fun i => f (n - 1 - i)%nat) n = pr f n.
Proof.
  induction n as [|n IH]; [reflexivity|]. rewrite pr_first. replace (S n - 1 - 0)%nat with n by lia.
  simpl. rewrite <- IH. rewrite Z.mul_comm. f_equal. apply pr_ext. intros i Hi. f_equal. lia.
Qed.
Lemma zprod_seq f a n : zprod (map f (seq a n)) = pr (fun i => f (a + i)%nat) n.
Proof.
  revert a. induction n as [|n IH]; intros a; [reflexivity|].
  change (zprod (map f (seq a (S n)))) with (f a * zprod (map f (seq (S a) n))). rewrite IH, pr_first, Nat.add_0_r. f_equal.
  apply pr_ext. intros i Hi. f_equal. lia.
Qed.

Lemma seq_shift_gen k a : map (fun i => (a + i)%nat) (seq 0 k) = seq a k.
Proof.
  revert a. induction k as [|k IH]; intros a; [reflexivity|]. simpl. rewrite Nat.add_0_r. f_equal.
  rewrite <- (IH (S a)), <- seq_shift, map_map. apply map_ext. intros i. lia.
Qed.

Lemma mul3 a b c : a * c * b = a * (b * c). Proof. ring. Qed.
Lemma mul4 a b c d : a * b * c * d = a * (b * c * d). Proof. ring. Qed.
Lemma mul4' a b c d : a * b * c * d = a * (d * c * b). Proof. ring. Qed.

Section P.
Context (rows cols : nat) (tn : net prod_ops).

(** Boundary MPS tensor facing site [i] after [k] slices. *)
Definition logical (p : pos) (i : nat) : nat :=
  match p with UP | RIGHT => (wid rows cols p - 1 - i)%nat | _ => i end.
Definition at_slice (p : pos) (j i : nat) : Z :=
  match p with
  | UP => tn j i | DOWN => tn (rows - 1 - j)%nat i
  | LEFT => tn i j | RIGHT => tn i (cols - 1 - j)%nat
  end.
Lemma nth_map_seq0 (f : nat -> Z) n i : (i < n)%nat -> nth i (map f (seq 0 n)) 1 = f i.
Proof.
  intros H. rewrite (nth_indep _ 1 (f 0%nat)) by (now rewrite map_length, seq_length).
  rewrite map_nth, seq_nth by exact H. reflexivity.
Qed.
Lemma bmps_pr p k i : (i < wid rows cols p)%nat ->
  bmps_from prod_ops rows cols tn p k (logical p i) = pr (fun j => at_slice p j i) k.
Proof.
  intros Hi. induction k as [|k IH]; [reflexivity|]. cbn [bmps_from]. simpl absorb. cbv beta.
  rewrite IH. cbn [pr]. rewrite Z.mul_comm. f_equal.
  destruct p; simpl in *; rewrite ?map_length, ?seq_length; rewrite nth_map_seq0; try lia; try reflexivity;
    f_equal; lia.
Qed.
Lemma facing_pr p s i : (i < wid rows cols p)%nat ->
  facing prod_ops rows cols tn p s i = pr (fun j => at_slice p j i) (depth rows cols p s).
Proof. intros Hi. unfold facing, boundary. apply (bmps_pr p _ i Hi). Qed.

(** Product of the line of sites that crosses slice number [s] (along [d]) at position [i]. *)
Definition line (d : orient) (i : nat) : Z :=
  match d with HORIZONTAL => pr (fun r => tn r i) rows | VERTICAL => pr (fun c => tn i c) cols end.
Definition at_d (d : orient) (s i : nat) : Z := match d with HORIZONTAL => tn s i | VERTICAL => tn i s end.

Lemma line_split d s i : (s < nsl rows cols (side1 d))%nat -> (i < wid rows cols (side1 d))%nat ->
  facing prod_ops rows cols tn (side1 d) s i * at_d d s i * facing prod_ops rows cols tn (side2 d) s i = line d i.
Proof.
  intros Hs Hi.
  rewrite !facing_pr by (destruct d; exact Hi).
  assert (G : forall f n, (s < n)%nat -> pr f s * f s * pr (fun j => f (n - 1 - j)%nat) (n - 1 - s) = pr f n).
  { intros f n Hn. assert (E : pr f n = pr f (S s + (n - 1 - s))) by (f_equal; lia).
    rewrite E, pr_app. simpl (pr f (S s)).
    rewrite <- (pr_rev (fun i0 => f (S s + i0)%nat)). f_equal.
    apply pr_ext. intros j Hj. f_equal. lia. }
  destruct d; simpl in *.
  - apply (G (fun r => tn r i) rows Hs).
  - apply (G (fun c => tn i c) cols Hs).
Qed.

Lemma env_near d s k : (s < nsl rows cols (side1 d))%nat -> (k <= wid rows cols (side1 d))%nat ->
  env_from prod_ops rows cols tn (near d) s k = pr (line d) k.
Proof.
  intros Hs. induction k as [|k IH]; intros Hk; [destruct d; reflexivity|].
  cbn [env_from pr]. rewrite <- (line_split d s k Hs) by lia. rewrite <- IH by lia.
  destruct d; [apply mul4|apply mul4'].
Qed.
Lemma env_far d s k : (s < nsl rows cols (side1 d))%nat -> (k <= wid rows cols (side1 d))%nat ->
  env_from prod_ops rows cols tn (far d) s k = pr (fun i => line d (wid rows cols (side1 d) - 1 - i)%nat) k.
Proof.
  intros Hs. induction k as [|k IH]; intros Hk; [destruct d; reflexivity|].
  cbn [env_from pr]. rewrite <- (line_split d s (wid rows cols (side1 d) - 1 - k) Hs) by lia. rewrite <- IH by lia.
  destruct d; unfold facing; simpl in *.
  - replace (cols - 1 - (cols - 1 - k))%nat with k by lia. apply mul4'.
  - replace (rows - 1 - (rows - 1 - k))%nat with k by lia. apply mul4.
Qed.
Lemma psi_line d : prod_psi rows cols tn = pr (line d) (wid rows cols (side1 d)).
Proof. unfold prod_psi. destruct d; simpl; [apply (pr_swap (fun r c => tn r c))|reflexivity]. Qed.

Lemma map_mul {X} (f g : X -> Z) l : zprod (map (fun x => f x * g x) l) = zprod (map f l) * zprod (map g l).
Proof.
  induction l as [|a l IH]; [reflexivity|]. simpl map.
  change (zprod (f a * g a :: map (fun x => f x * g x) l)) with (f a * g a * zprod (map (fun x => f x * g x) l)).
  change (zprod (f a :: map f l)) with (f a * zprod (map f l)).
  change (zprod (g a :: map g l)) with (g a * zprod (map g l)). rewrite IH. ring.
Qed.

Lemma trace_prod d x k : (1 <= k)%nat -> window_in rows cols d x k ->
  trace_at prod_ops rows cols tn d x k = prod_psi rows cols tn.
Proof.
  intros Hk Hin.
  assert (H1 : (across d x < nsl rows cols (side1 d))%nat) by (destruct d; simpl in *; lia).
  assert (H2 : (along d x + k <= wid rows cols (side1 d))%nat) by (destruct d; simpl in *; lia).
  unfold trace_at, window1_spec. cbn [tr1 prod_ops].
  rewrite env_near, env_far by lia. rewrite (psi_line d).
  set (n := wid rows cols (side1 d)) in *. set (a := along d x) in *. set (s := across d x) in *.
  rewrite map_map. cbn [fst snd].
  assert (EC : map (fun y => tn (fst y) (snd y)) (chain d x k) = map (at_d d s) (seq a k)).
  { unfold chain. rewrite map_map. subst a s.
    rewrite <- (seq_shift_gen k (along d x)). rewrite map_map. apply map_ext. intros i. destruct d; simpl; f_equal; lia. }
  rewrite EC, <- Z.mul_assoc, <- map_mul.
  assert (EL : zprod (map (fun i => facing prod_ops rows cols tn (side1 d) s i * facing prod_ops rows cols tn (side2 d) s i * at_d d s i) (seq a k))
     = pr (fun i => line d (a + i)%nat) k).
  { rewrite zprod_seq. apply pr_ext. intros i Hi.
    rewrite <- (line_split d s (a + i)) by (fold n; auto; lia). ring. }
  rewrite EL. assert (EN : pr (line d) n = pr (line d) (a + (k + (n - (a + k))))) by (f_equal; lia).
  rewrite EN, pr_app, pr_app.
  assert (ER : pr (fun i => line d (n - 1 - i)%nat) (n - (a + k)) = pr (fun i => line d (a + (k + i))%nat) (n - (a + k))).
  { rewrite <- (pr_rev (fun i => line d (a + (k + i))%nat)). apply pr_ext. intros i Hi. f_equal. lia. }
  rewrite ER. apply mul3.
Qed.
End P.

Lemma prod_consistent rows cols : contraction_consistent prod_ops rows cols (prod_psi rows cols).
Proof. intros tn d x k. apply trace_prod. Qed.
