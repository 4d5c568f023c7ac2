(** The contractions of the walker, element by element, as operations on the bonds of a row. *)
From Coq Require Import List Arith Lia Bool ZArith Reals.
From Verif Require Import Base Cplx WalkModel WalkSpec.
Import ListNotations.

Section Alg.
Variable D : nat.
Notation sumD f := (sumC f (seq 0 D)).

Lemma tuples_S : forall n (f : list nat -> C),
  sumC f (tuples D (S n)) = sumD (fun x => sumC (fun v => f (x :: v)) (tuples D n)).
Proof. intros n f. cbn [tuples]. rewrite sumC_flat_map. apply sumC_ext. intros x _. apply sumC_map. Qed.
Lemma tuples_0 : forall f : list nat -> C, sumC f (tuples D 0) = f [].
Proof. intros f. cbn [tuples]. rewrite sumC_cons, sumC_nil. ring. Qed.
Lemma sum_l : forall X (c : C) (f : X -> C) l, Cmul c (sumC f l) = sumC (fun x => Cmul c (f x)) l.
Proof. intros. symmetry. apply sumC_scal. Qed.
Lemma sum_r : forall X (c : C) (f : X -> C) l, Cmul (sumC f l) c = sumC (fun x => Cmul (f x) c) l.
Proof.
  intros X c f l. replace (Cmul (sumC f l) c) with (Cmul c (sumC f l)) by ring. rewrite sum_l.
  apply sumC_ext. intros x _. ring.
Qed.
Lemma sum_prod : forall X Y (f : X * Y -> C) (l : list X) (l' : list Y),
  sumC f (list_prod l l') = sumC (fun x => sumC (fun y => f (x, y)) l') l.
Proof.
  intros X Y f l l'. induction l as [|x l IH]; [reflexivity|].
  cbn [list_prod]. rewrite sumC_app, sumC_cons, IH. f_equal. apply sumC_map.
Qed.
Lemma sum_bonds : forall f : bonds -> C,
  sumC f (all_bonds D) = sumD (fun x => sumD (fun y => sumD (fun z => f (x, y, z)))).
Proof.
  intros f. unfold all_bonds.
  transitivity (sumC (fun xy => sumD (fun z => f (xy, z))) (list_prod (seq 0 D) (seq 0 D))).
  - exact (sum_prod (nat * nat) nat f _ _).
  - exact (sum_prod nat nat (fun xy => sumD (fun z => f (xy, z))) _ _).
Qed.

(** moving the outermost of several sums inwards *)
Lemma in2 : forall F : nat -> nat -> C, sumD (fun a => sumD (fun b => F a b)) = sumD (fun b => sumD (fun a => F a b)).
Proof. intros F. apply sumC_swap. Qed.
Lemma in3 : forall F : nat -> nat -> nat -> C,
  sumD (fun a => sumD (fun b => sumD (fun c => F a b c))) = sumD (fun b => sumD (fun c => sumD (fun a => F a b c))).
Proof. intros F. rewrite in2. apply sumC_ext. intros b _. apply in2. Qed.
Lemma in4 : forall F : nat -> nat -> nat -> nat -> C,
  sumD (fun a => sumD (fun b => sumD (fun c => sumD (fun d => F a b c d))))
  = sumD (fun b => sumD (fun c => sumD (fun d => sumD (fun a => F a b c d)))).
Proof. intros F. rewrite in2. apply sumC_ext. intros b _. apply in3. Qed.
Lemma in5 : forall F : nat -> nat -> nat -> nat -> nat -> C,
  sumD (fun a => sumD (fun b => sumD (fun c => sumD (fun d => sumD (fun e => F a b c d e)))))
  = sumD (fun b => sumD (fun c => sumD (fun d => sumD (fun e => sumD (fun a => F a b c d e))))).
Proof. intros F. rewrite in2. apply sumC_ext. intros b _. apply in4. Qed.

Lemma grow_left_elem : forall b u s d x y z,
  grow_left D b u s d [x; y; z]
  = sumC (fun m => Cmul (b [fst (fst m); snd (fst m); snd m]) (column D u s d m (x, y, z))) (all_bonds D).
Proof.
  intros b u s d x y z. rewrite sum_bonds. cbn [fst snd].
  transitivity (sumD (fun z0 => sumD (fun q => sumD (fun p => sumD (fun y0 => sumD (fun x0 =>
     Cmul (b [x0; y0; z0]) (Cmul (u [x; p; x0]) (Cmul (s [y0; q; y; p]) (d [z0; q; z]))))))))).
  - unfold grow_left, contract_axes, contract_cyclic, contract. cbn [length cyclic seq map].
    rewrite tuples_S. apply sumC_ext. intros z0 _. rewrite tuples_S. apply sumC_ext. intros q _. rewrite tuples_0.
    cbn -[tuples sumC Cmul]. rewrite tuples_S, sum_r. apply sumC_ext. intros p _. rewrite tuples_S, sum_r. apply sumC_ext. intros y0 _.
    rewrite tuples_0. cbn -[tuples sumC Cmul]. rewrite tuples_S, !sum_r. apply sumC_ext. intros x0 _. rewrite tuples_0. cbn -[tuples sumC Cmul]. ring.
  - symmetry. unfold column.
    transitivity (sumD (fun x0 => sumD (fun y0 => sumD (fun z0 => sumD (fun p => sumD (fun q =>
       Cmul (b [x0; y0; z0]) (Cmul (u [x; p; x0]) (Cmul (s [y0; q; y; p]) (d [z0; q; z]))))))))).
    { apply sumC_ext. intros x0 _. apply sumC_ext. intros y0 _. apply sumC_ext. intros z0 _.
      rewrite sum_l. apply sumC_ext. intros p _. apply sum_l. }
    rewrite in5. rewrite in4. apply sumC_ext. intros z0 _. apply in2.
Qed.

Lemma grow_right_elem : forall b u s d x y z,
  grow_right D b d s u [z; y; x]
  = sumC (fun m => Cmul (column D u s d (x, y, z) m) (b [snd m; snd (fst m); fst (fst m)])) (all_bonds D).
Proof.
  intros b u s d x y z. rewrite sum_bonds. cbn [fst snd].
  transitivity (sumD (fun x0 => sumD (fun p => sumD (fun q => sumD (fun y0 => sumD (fun z0 =>
     Cmul (Cmul (u [x0; p; x]) (Cmul (s [y; q; y0; p]) (d [z; q; z0]))) (b [z0; y0; x0]))))))).
  - unfold grow_right, contract_axes, contract_cyclic, contract. cbn [length cyclic seq map].
    rewrite tuples_S. apply sumC_ext. intros x0 _. rewrite tuples_S. apply sumC_ext. intros p _. rewrite tuples_0.
    cbn -[tuples sumC Cmul]. rewrite tuples_S, sum_r. apply sumC_ext. intros q _. rewrite tuples_S, sum_r. apply sumC_ext. intros y0 _.
    rewrite tuples_0. cbn -[tuples sumC Cmul]. rewrite tuples_S, !sum_r. apply sumC_ext. intros z0 _. rewrite tuples_0. cbn -[tuples sumC Cmul]. ring.
  - symmetry. apply sumC_ext. intros x0 _. unfold column.
    transitivity (sumD (fun y0 => sumD (fun z0 => sumD (fun p => sumD (fun q =>
       Cmul (Cmul (u [x0; p; x]) (Cmul (s [y; q; y0; p]) (d [z; q; z0]))) (b [z0; y0; x0])))))).
    { apply sumC_ext. intros y0 _. apply sumC_ext. intros z0 _.
      rewrite sum_r. apply sumC_ext. intros p _. apply sum_r. }
    transitivity (sumD (fun y0 => sumD (fun p => sumD (fun q => sumD (fun z0 =>
       Cmul (Cmul (u [x0; p; x]) (Cmul (s [y; q; y0; p]) (d [z; q; z0]))) (b [z0; y0; x0])))))).
    { apply sumC_ext. intros y0 _. apply in3. }
    apply in3.
Qed.

Lemma trace_elem : forall u l s d r,
  trace D u l s d r
  = sumC (fun m => Cmul (grow_left D l u s d [fst (fst m); snd (fst m); snd m]) (r [snd m; snd (fst m); fst (fst m)])) (all_bonds D).
Proof.
  intros u l s d r. rewrite sum_bonds. cbn [fst snd].
  change (trace D u l s d r) with (contract_axes D 3 (grow_left D l u s d) [0; 1; 2] 3 r [2; 1; 0] []).
  generalize (grow_left D l u s d). intros g. unfold contract_axes, contract. cbn [length].
  rewrite tuples_S. apply sumC_ext. intros x _. rewrite tuples_S. apply sumC_ext. intros y _.
  rewrite tuples_S. apply sumC_ext. intros z _. rewrite tuples_0. reflexivity.
Qed.

Lemma column_tensor_elem : forall u s d x y z x' y' z',
  column_tensor D u s d [x'; x; y; y'; z; z'] = column D u s d (x, y, z) (x', y', z').
Proof.
  intros. unfold column_tensor, contract_axes, contract, column. cbn [length].
  rewrite tuples_S.
  transitivity (sumD (fun q => sumD (fun p => Cmul (u [x'; p; x]) (Cmul (s [y; q; y'; p]) (d [z; q; z']))))).
  - apply sumC_ext. intros q _. rewrite tuples_0. cbn -[tuples sumC Cmul]. rewrite tuples_S, sum_r. apply sumC_ext. intros p _.
    rewrite tuples_0. cbn -[tuples sumC Cmul]. ring.
  - apply in2.
Qed.

(** ContractRow absorbs a column into the accumulator: the second column, then the later ones *)
Lemma absorb_second : forall (a c : tensor) x y z,
  contract_axes D 6 a [1; 2; 4] 6 c [0; 3; 5] [0; 0; 0; x; y; z]
  = sumC (fun m => Cmul (c [fst (fst m); x; y; snd (fst m); z; snd m]) (a [0; fst (fst m); snd (fst m); 0; snd m; 0])) (all_bonds D).
Proof.
  intros a c x y z. rewrite sum_bonds. cbn [fst snd]. unfold contract_axes, contract. cbn [length].
  rewrite tuples_S. apply sumC_ext. intros x0 _. rewrite tuples_S. apply sumC_ext. intros y0 _.
  rewrite tuples_S. apply sumC_ext. intros z0 _. rewrite tuples_0. cbn -[tuples sumC Cmul]. ring.
Qed.
Lemma absorb_later : forall (a c : tensor) x y z,
  contract_axes D 6 a [3; 4; 5] 6 c [0; 3; 5] [0; 0; 0; x; y; z]
  = sumC (fun m => Cmul (c [fst (fst m); x; y; snd (fst m); z; snd m]) (a [0; 0; 0; fst (fst m); snd (fst m); snd m])) (all_bonds D).
Proof.
  intros a c x y z. rewrite sum_bonds. cbn [fst snd]. unfold contract_axes, contract. cbn [length].
  rewrite tuples_S. apply sumC_ext. intros x0 _. rewrite tuples_S. apply sumC_ext. intros y0 _.
  rewrite tuples_S. apply sumC_ext. intros z0 _. rewrite tuples_0. cbn -[tuples sumC Cmul]. ring.
Qed.

(** sums over the bonds *)
Lemma in_bonds : forall m, In m (all_bonds D) <-> fst (fst m) < D /\ snd (fst m) < D /\ snd m < D.
Proof.
  intros [[x y] z]. unfold all_bonds. cbn [fst snd].
  split.
  - intros H. apply in_prod_iff in H. destruct H as [H1 H2]. apply in_prod_iff in H1.
    destruct H1 as [H1 H3]. apply in_seq in H1, H2, H3. lia.
  - intros (H1 & H2 & H3). apply in_prod; [apply in_prod|]; apply in_seq; lia.
Qed.
Definition bonds_eqb (s e : bonds) : bool :=
  (fst (fst s) =? fst (fst e)) && (snd (fst s) =? snd (fst e)) && (snd s =? snd e).
Lemma bonds_eqb_eq : forall s e, bonds_eqb s e = true <-> s = e.
Proof.
  intros [[a b] c] [[a' b'] c']. unfold bonds_eqb. cbn [fst snd].
  rewrite !andb_true_iff, !Nat.eqb_eq. split; [intros [[-> ->] ->]; reflexivity | intros E; injection E; auto].
Qed.
Lemma sum_delta_nat : forall k (f : nat -> C), k < D -> sumD (fun x => if x =? k then f x else RtoC 0) = f k.
Proof.
  intros k f H. assert (G : forall n o, o <= k < o + n -> sumC (fun x => if x =? k then f x else RtoC 0) (seq o n) = f k).
  { induction n as [|n IH]; intros o Ho; [lia|]. cbn [seq]. rewrite sumC_cons.
    destruct (Nat.eqb_spec o k) as [->|N].
    - rewrite sumC_zero; [ring|]. intros x X. apply in_seq in X. destruct (Nat.eqb_spec x k); [lia | reflexivity].
    - rewrite IH by lia. ring. }
  apply G. lia.
Qed.
Lemma sum_delta : forall e (f : bonds -> C), In e (all_bonds D) ->
  sumC (fun m => if bonds_eqb m e then f m else RtoC 0) (all_bonds D) = f e.
Proof.
  intros [[a b] c] f H. apply in_bonds in H. cbn [fst snd] in H. rewrite sum_bonds.
  rewrite <- (sum_delta_nat a (fun x => f (x, b, c))) by lia. apply sumC_ext. intros x _.
  destruct (Nat.eqb_spec x a) as [->|N].
  - rewrite <- (sum_delta_nat b (fun y => f (a, y, c))) by lia. apply sumC_ext. intros y _.
    destruct (Nat.eqb_spec y b) as [->|M].
    + rewrite <- (sum_delta_nat c (fun z => f (a, b, z))) by lia. apply sumC_ext. intros z _.
      unfold bonds_eqb. cbn [fst snd]. rewrite !Nat.eqb_refl. reflexivity.
    + apply sumC_zero. intros z _. unfold bonds_eqb. cbn [fst snd].
      destruct (Nat.eqb_spec y b); [contradiction|]. rewrite andb_false_r. reflexivity.
  - apply sumC_zero. intros y _. apply sumC_zero. intros z _. unfold bonds_eqb. cbn [fst snd].
    destruct (Nat.eqb_spec x a); [contradiction|]. reflexivity.
Qed.

Lemma weight_nil : forall s e, weight D [] s e = if bonds_eqb s e then RtoC 1 else RtoC 0.
Proof. reflexivity. Qed.
Lemma weight_one : forall c s e, In e (all_bonds D) -> weight D [c] s e = c s e.
Proof.
  intros c s e H. cbn [weight].
  rewrite <- (sum_delta e (fun m => c s m) H). apply sumC_ext. intros m _. unfold bonds_eqb.
  destruct (_ && _ && _); ring.
Qed.
Lemma weight_app : forall A B s e, In s (all_bonds D) ->
  weight D (A ++ B) s e = sumC (fun m => Cmul (weight D A s m) (weight D B m e)) (all_bonds D).
Proof.
  induction A as [|c A IH]; intros B s e H.
  - cbn [app]. rewrite <- (sum_delta s (fun m => weight D B m e) H). apply sumC_ext. intros m _.
    rewrite weight_nil. unfold bonds_eqb. rewrite (Nat.eqb_sym (fst (fst s))), (Nat.eqb_sym (snd (fst s))), (Nat.eqb_sym (snd s)).
    destruct (_ && _ && _); ring.
  - cbn [app weight].
    transitivity (sumC (fun m => sumC (fun k => Cmul (c s m) (Cmul (weight D A m k) (weight D B k e))) (all_bonds D)) (all_bonds D)).
    + apply sumC_ext. intros m M. rewrite IH by exact M. apply sum_l.
    + rewrite sumC_swap. apply sumC_ext. intros k _. rewrite sum_r. apply sumC_ext. intros m _. ring.
Qed.
Lemma weight_snoc : forall A c s e, In s (all_bonds D) -> In e (all_bonds D) ->
  weight D (A ++ [c]) s e = sumC (fun m => Cmul (weight D A s m) (c m e)) (all_bonds D).
Proof.
  intros A c s e Hs He. rewrite weight_app by exact Hs. apply sumC_ext. intros m _. rewrite weight_one by exact He. reflexivity.
Qed.
End Alg.
