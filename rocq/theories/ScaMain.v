From Coq Require Import List Arith Bool ZArith Reals Lia Lra.
From Verif Require Import Base Cplx MinsrModel MinsrSpec MinsrMain ScaModel ScaSpec ScaProofs.
Import ListNotations.
Local Open Scope R_scope.

(** *** One eigensystem *)
Section One.
Variables (n : nat) (T z : nat -> nat -> C) (lam : list R).
Hypothesis E : eigensystem n T z lam.
Notation el k := (RtoC (nth k lam 0%R)).
Lemma eig_right (x : nat -> C) i : (i < n)%nat -> sumC (fun j => T i j * x j)%C (seq 0 n) = sumC (fun k => z i k * (el k * sumC (fun j => Cconj (z j k) * x j) (seq 0 n)))%C (seq 0 n).
Proof.
  intros I. destruct E as (_ & _ & D). rewrite (sumC_ext _ (fun j => sumC (fun k => z i k * (el k * (Cconj (z j k) * x j)))%C (seq 0 n))).
  - rewrite sumC_swap. apply sumC_ext. intros k _. rewrite <- !sumC_scal. apply sumC_ext. intros j _. ring.
  - intros j J. apply in_seq in J. rewrite (D i j I ltac:(lia)). rewrite <- sum_scal_r. apply sumC_ext. intros k _. ring.
Qed.
Lemma eig_vec i k : (i < n)%nat -> (k < n)%nat -> sumC (fun j => T i j * z j k)%C (seq 0 n) = (el k * z i k)%C.
Proof.
  intros I K. rewrite (eig_right (fun j => z j k) i I). destruct E as (_ & O & _).
  rewrite (sumC_ext _ (fun l => ((if (k =? l)%nat then RtoC 1 else RtoC 0) * (el l * z i l))%C)).
  - exact (sum_pick (fun l => el l * z i l)%C k n K).
  - intros l L. apply in_seq in L. rewrite (O l k ltac:(lia) K). rewrite (Nat.eqb_sym l k). destruct (k =? l)%nat; ring.
Qed.
Lemma eig_unit k : (k < n)%nat -> ~ (forall i, (i < n)%nat -> z i k = RtoC 0).
Proof.
  intros K Z. destruct E as (_ & O & _). assert (H := O k k K K). rewrite Nat.eqb_refl in H. rewrite sumC_zero in H.
  - injection H as H. lra.
  - intros i I. apply in_seq in I. rewrite (Z i ltac:(lia)). ring.
Qed.
Lemma eig_hermitian i j : (i < n)%nat -> (j < n)%nat -> T i j = Cconj (T j i).
Proof.
  intros I J. destruct E as (_ & _ & D). rewrite (D i j I J), (D j i J I), conj_sum. apply sumC_ext. intros k _. apply C_ext; unfold Cmul, Cconj, RtoC; simpl; ring.
Qed.
End One.

(** *** Two eigensystems of one matrix *)
Section Two.
Variables (n : nat) (T z w : nat -> nat -> C) (lam mu : list R).
Hypothesis E : eigensystem n T z lam.
Hypothesis F : eigensystem n T w mu.
(** overlap of two eigenvectors *)
Definition overlap (l k : nat) : C := sumC (fun j => Cconj (w j l) * z j k)%C (seq 0 n).
Lemma overlap_value l k : (l < n)%nat -> (k < n)%nat -> (RtoC (nth l mu 0%R) * overlap l k)%C = (RtoC (nth k lam 0%R) * overlap l k)%C.
Proof.
  intros L K. unfold overlap. transitivity (sumC (fun i => Cconj (w i l) * sumC (fun j => T i j * z j k) (seq 0 n))%C (seq 0 n)).
  - rewrite (sumC_ext (fun i => Cconj (w i l) * sumC (fun j => T i j * z j k) (seq 0 n))%C (fun i => sumC (fun j => Cconj (w i l) * (T i j * z j k))%C (seq 0 n))) by (intros; symmetry; apply sumC_scal).
    rewrite sumC_swap, <- sumC_scal. apply sumC_ext. intros j J. apply in_seq in J.
    rewrite (sumC_ext _ (fun i => z j k * Cconj (T j i * w i l))%C).
    + rewrite sumC_scal, <- conj_sum. rewrite (eig_vec n T w mu F j l ltac:(lia) L). apply C_ext; unfold Cmul, Cconj, RtoC; simpl; ring.
    + intros i I. apply in_seq in I. rewrite (eig_hermitian n T w mu F i j) by lia. apply C_ext; unfold Cmul, Cconj; simpl; ring.
  - rewrite <- sumC_scal. apply sumC_ext. intros i I. apply in_seq in I. rewrite (eig_vec n T z lam E i k ltac:(lia) K). ring.
Qed.
Lemma overlap_same l k : (l < n)%nat -> (k < n)%nat -> overlap l k = RtoC 0 \/ nth l mu 0 = nth k lam 0.
Proof.
  intros L K. assert (H := overlap_value l k L K). destruct (Ceq_dec (overlap l k) (RtoC 0)) as [Z|Z]; [left; exact Z|]. right.
  destruct (overlap l k) as [a b]. unfold Cmul, RtoC in H. simpl in H. injection H as H1 H2. destruct (Req_EM_T a 0) as [A|A].
  - destruct (Req_EM_T b 0) as [B|B]; [exfalso; apply Z; subst; reflexivity|]. apply (Rmult_eq_reg_r b); [lra|exact B].
  - apply (Rmult_eq_reg_r a); [lra|exact A].
Qed.
Lemma expand k i : (k < n)%nat -> (i < n)%nat -> nth k lam 0 <> 0 -> z i k = sumC (fun l => w i l * overlap l k)%C (seq 0 n).
Proof.
  intros K I N. assert (H := eig_vec n T z lam E i k I K). rewrite (eig_right n T w mu F (fun j => z j k) i I) in H.
  rewrite (sumC_ext _ (fun l => RtoC (nth k lam 0%R) * (w i l * overlap l k))%C) in H.
  - rewrite sumC_scal in H. set (s := sumC _ _) in *. destruct s as [s1 s2], (z i k) as [a b]. unfold Cmul, RtoC in H. simpl in H. injection H as H1 H2.
    f_equal; apply (Rmult_eq_reg_l (nth k lam 0)); try exact N; lra.
  - intros l L. apply in_seq in L. fold (overlap l k). rewrite (overlap_value l k ltac:(lia) K). ring.
Qed.
Lemma max_le : lambda_max lam <= lambda_max mu.
Proof.
  assert (G : forall l m, 0 <= m -> (forall x, In x l -> Rabs x <= m) -> lambda_max l <= m).
  { intros l m M H. unfold lambda_max. assert (A : forall acc, acc <= m -> fold_left (fun m x => Rmax m (Rabs x)) l acc <= m).
    { induction l as [|x l IH]; intros acc A; [exact A|]. cbn [fold_left]. apply IH; [intros y Y; apply H; right; exact Y|]. apply Rmax_lub; [exact A|apply H; left; reflexivity]. }
    apply A, M. }
  destruct (lambda_max_bound mu) as [M0 M]. apply G; [exact M0|]. intros x X. destruct (Rle_lt_dec (Rabs x) (lambda_max mu)) as [L|L]; [exact L|]. exfalso.
  destruct (In_nth lam x 0 X) as (k & K & <-). destruct E as (LE & _). destruct F as (LF & _). rewrite LE in K.
  assert (N : nth k lam 0 <> 0). { intros Z. rewrite Z, Rabs_R0 in L. lra. }
  apply (eig_unit n T z lam E k K). intros i I. rewrite (expand k i K I N). apply sumC_zero. intros l Hl. apply in_seq in Hl.
  destruct (overlap_same l k ltac:(lia) K) as [->|Q]; [ring|]. exfalso. assert (IL : (l < length mu)%nat) by lia. assert (B := M (nth l mu 0) (nth_In mu 0 IL)). rewrite Q in B. lra.
Qed.
End Two.

Lemma plus_same r a soft l l' k k' : (k < length l)%nat -> (k' < length l')%nat -> lambda_max l = lambda_max l' -> nth k l 0 = nth k' l' 0 ->
  nth k (pinv r a soft l) 0 = nth k' (pinv r a soft l') 0.
Proof.
  intros K K' M Q. unfold pinv. rewrite M. destruct soft.
  - match goal with |- nth k (map ?f l) 0 = _ => rewrite (nth_indep (map f l) 0 (f 0)), (nth_indep (map f l') 0 (f 0)) by (rewrite map_length; assumption); rewrite !(map_nth f), Q; reflexivity end.
  - match goal with |- nth k (map ?f l) 0 = _ => rewrite (nth_indep (map f l) 0 (f 0)), (nth_indep (map f l') 0 (f 0)) by (rewrite map_length; assumption); rewrite !(map_nth f), Q; reflexivity end.
Qed.
Lemma independent n T z w lam mu r a soft rhs : eigensystem n T z lam -> eigensystem n T w mu -> 0 <= r -> 0 <= a ->
  forall i, (i < n)%nat -> apply_pinv n z (pinv r a soft lam) rhs i = apply_pinv n w (pinv r a soft mu) rhs i.
Proof.
  intros E F R A i I. assert (M : lambda_max lam = lambda_max mu) by (apply Rle_antisym; [exact (max_le n T z w lam mu E F)|exact (max_le n T w z mu lam F E)]).
  assert (LE := proj1 E). assert (LF := proj1 F). unfold apply_pinv.
  rewrite (sumC_ext _ (fun k => sumC (fun l => w i l * (overlap n z w l k * RtoC (nth l (pinv r a soft mu) 0%R) * sumC (fun j => Cconj (z j k) * rhs j) (seq 0 n)))%C (seq 0 n))).
  - rewrite sumC_swap. apply sumC_ext. intros l L. apply in_seq in L. rewrite sumC_scal. f_equal.
    rewrite (sumC_ext _ (fun k => RtoC (nth l (pinv r a soft mu) 0%R) * (overlap n z w l k * sumC (fun j => Cconj (z j k) * rhs j) (seq 0 n)))%C) by (intros; ring). rewrite sumC_scal.
    destruct (Req_EM_T (nth l mu 0) 0) as [Z|N].
    + assert (P : nth l (pinv r a soft mu) 0 = 0) by exact (proj1 (proj2 (pinv_filter r a soft mu l R A ltac:(lia))) Z). rewrite P. ring.
    + f_equal. rewrite (sumC_ext (fun k => overlap n z w l k * sumC (fun j => Cconj (z j k) * rhs j) (seq 0 n))%C (fun k => sumC (fun j => overlap n z w l k * (Cconj (z j k) * rhs j))%C (seq 0 n))) by (intros; symmetry; apply sumC_scal).
      rewrite sumC_swap. apply sumC_ext. intros j J. apply in_seq in J. rewrite (expand n T w z mu lam F E l j ltac:(lia) ltac:(lia) N), conj_sum, <- sum_scal_r.
      apply sumC_ext. intros k _. assert (O : overlap n z w l k = Cconj (overlap n w z k l)) by (unfold overlap; rewrite conj_sum; apply sumC_ext; intros x _; apply C_ext; unfold Cmul, Cconj; simpl; ring).
      rewrite O. apply C_ext; unfold Cmul, Cconj; simpl; ring.
  - intros k K. apply in_seq in K. destruct (Req_EM_T (nth k lam 0) 0) as [Z|N].
    + assert (P : nth k (pinv r a soft lam) 0 = 0) by exact (proj1 (proj2 (pinv_filter r a soft lam k R A ltac:(lia))) Z). rewrite P.
      transitivity (RtoC 0); [ring|]. symmetry. apply sumC_zero. intros l L. apply in_seq in L. destruct (overlap_same n T z w lam mu E F l k ltac:(lia) ltac:(lia)) as [->|Q]; [ring|].
      assert (P' : nth l (pinv r a soft mu) 0 = 0) by exact (proj1 (proj2 (pinv_filter r a soft mu l R A ltac:(lia))) (eq_trans Q Z)). rewrite P'. ring.
    + rewrite (expand n T z w lam mu E F k i ltac:(lia) I N) at 1. rewrite <- sum_scal_r. apply sumC_ext. intros l L. apply in_seq in L.
      destruct (overlap_same n T z w lam mu E F l k ltac:(lia) ltac:(lia)) as [->|Q]; [ring|].
      rewrite (plus_same r a soft lam mu k l ltac:(lia) ltac:(lia) M (eq_sym Q)). ring.
Qed.

(** *** What the solve needs and gives *)
Local Open Scope nat_scope.
Lemma filter_le {X} (f : X -> bool) l : length (filter f l) <= length l.
Proof. induction l as [|x l IH]; cbn [filter length]; [lia|]. destruct (f x); cbn [length]; lia. Qed.
Lemma owned_le nb P p n : owned nb P p n <= n.
Proof. unfold owned. rewrite <- (seq_length n 0) at 2. apply filter_le. Qed.
Lemma solve_ok n nb nprow npcol z zs r a soft lam rhs : 0 < nb -> 0 < nprow -> 0 < npcol -> distributed n nb nb nprow npcol z zs ->
  (Z.of_nat n <= 2147483647)%Z -> (forall p q, p < nprow -> q < npcol -> (Z.of_nat (owned nb nprow p n) * Z.of_nat (owned nb npcol q n) <= 2147483647)%Z) ->
  exists y, scalapack_solve n nb nprow npcol r a soft lam zs rhs = Ok y /\ forall i, i < n -> y i = apply_pinv n z (pinv r a soft lam) rhs i.
Proof.
  intros NB PR PC D N S. destruct (scalapack_solve n nb nprow npcol r a soft lam zs rhs) as [y|e] eqn:Q.
  - exists y. split; [reflexivity|]. exact (solved n nb nprow npcol z zs NB PR PC D r a soft lam rhs y Q).
  - exfalso. revert Q. unfold scalapack_solve, int_max. destruct (Z.ltb_spec 2147483647 (Z.of_nat n)) as [L|_]; [lia|].
    destruct (existsb _ _) eqn:X; [|discriminate]. apply existsb_exists in X. destruct X as (k & K & X). apply in_seq in K. apply Z.ltb_lt in X. exfalso. revert X. unfold last_position, lld.
    assert (A : my_row npcol k < nprow) by (apply Nat.div_lt_upper_bound; nia). assert (B : my_col npcol k < npcol) by (apply Nat.mod_upper_bound; lia).
    rewrite (numroc_owned nb nprow NB n _ A), (numroc_owned nb npcol NB n _ B). specialize (S _ _ A B). assert (U := owned_le nb nprow (my_row npcol k) n). assert (V := owned_le nb npcol (my_col npcol k) n).
    set (x := owned nb nprow (my_row npcol k) n) in *. set (w := owned nb npcol (my_col npcol k) n) in *. clearbody x w. intros X.
    destruct x as [|x]; [cbn [Nat.max Z.of_nat] in X; lia|]. rewrite Nat.max_r in X by lia. nia.
Qed.
Lemma too_large n nb nprow npcol zs r a soft lam rhs : (2147483647 < Z.of_nat n)%Z -> scalapack_solve n nb nprow npcol r a soft lam zs rhs = Fail Throw.
Proof. intros H. unfold scalapack_solve, int_max. destruct (Z.ltb_spec 2147483647 (Z.of_nat n)); [reflexivity|lia]. Qed.
Lemma overflow n nb zs r a soft lam rhs : 0 < nb -> (46341 <= Z.of_nat n <= 2147483647)%Z -> scalapack_solve n nb 1 1 r a soft lam zs rhs = Fail UB.
Proof.
  intros NB H. unfold scalapack_solve, int_max. destruct (Z.ltb_spec 2147483647 (Z.of_nat n)); [lia|]. cbn [Nat.mul Nat.add seq existsb].
  assert (E : numroc n nb 0 1 = n). { unfold numroc. rewrite Nat.mod_1_r, Nat.div_1_r. cbn [Nat.ltb Nat.leb Nat.eqb]. rewrite (Nat.div_mod n nb) at 3 by lia. lia. }
  unfold last_position, lld, my_row, my_col. cbn [Nat.div Nat.modulo Nat.divmod fst snd Nat.sub]. rewrite E. rewrite Nat.max_r by lia.
  match goal with |- context [(?x <? ?y)%Z] => destruct (Z.ltb_spec x y) as [_|L] end; [reflexivity|]. nia.
Qed.
Lemma flat_nth {X} (f : nat -> nat -> X) d s : forall n a j i, j < n -> i < s -> nth (j * s + i) (flat_map (fun j => map (f j) (seq 0 s)) (seq a n)) d = f (a + j) i.
Proof.
  induction n as [|n IH]; intros a j i J I; [lia|]. cbn [seq flat_map]. destruct j as [|j].
  - cbn [Nat.mul Nat.add]. rewrite app_nth1 by (rewrite map_length, seq_length; exact I). rewrite (nth_indep _ d (f a 0)) by (rewrite map_length, seq_length; exact I).
    rewrite (map_nth (f a)), seq_nth by exact I. rewrite Nat.add_0_r. reflexivity.
  - rewrite app_nth2 by (rewrite map_length, seq_length; cbn [Nat.mul]; lia). rewrite map_length, seq_length. replace (S j * s + i - s) with (j * s + i) by (cbn [Nat.mul]; lia).
    rewrite (IH (S a) j i ltac:(lia) I). f_equal. lia.
Qed.
Lemma source P s T blocks : 0 < s -> length blocks = P -> row_blocks (P * s) s T blocks -> distributed (P * s) s (P * s) P 1 T (map (to_column_major s (P * s)) blocks).
Proof.
  intros S L B i j I J. assert (P0 : 0 < P) by nia. assert (G : i / s < P) by (apply Nat.div_lt_upper_bound; nia). assert (M : i mod s < s) by (apply Nat.mod_upper_bound; lia).
  unfold place, owner at 2 3. rewrite (Nat.div_small (i / s) P G), (Nat.div_small j (P * s) J), (Nat.mod_small j (P * s) J), Nat.mod_1_r, Nat.div_1_r.
  unfold owner. rewrite (Nat.mod_small (i / s) P G). rewrite <- (numroc_owned s P S (P * s) (i / s) G).
  assert (E : numroc (P * s) s (i / s) P = s). { unfold numroc. rewrite Nat.div_mul, Nat.div_same, Nat.mod_same, Nat.mod_mul by lia. cbn [Nat.ltb Nat.leb]. destruct (_ =? _); lia. }
  rewrite E. cbn [Nat.mul Nat.add]. rewrite Nat.mul_1_r, Nat.add_0_r.
  rewrite (nth_indep _ [] (to_column_major s (P * s) [])) by (rewrite map_length; lia). rewrite map_nth. unfold to_column_major. rewrite (Nat.add_comm (i mod s)).
  rewrite (flat_nth (fun j0 i0 => nth (i0 * (P * s) + j0) (nth (i / s) blocks []) (RtoC 0)) (RtoC 0) s (P * s) 0 j (i mod s) J M).
  cbn [Nat.add]. rewrite (B (i / s) (i mod s) j ltac:(lia) M J). f_equal. rewrite (Nat.div_mod i s) at 3 by lia. lia.
Qed.
Lemma any_mode available mode n nb nprow npcol T z mu w lam zs r a soft rhs y : 0 < nb -> 0 < nprow -> 0 < npcol -> distributed n nb nb nprow npcol w zs ->
  eigensystem n T z mu -> eigensystem n T w lam -> (0 <= r)%R -> (0 <= a)%R -> minsr_solve available mode n nb nprow npcol r a soft z mu zs lam rhs = Ok y ->
  forall i, i < n -> y i = apply_pinv n z (pinv r a soft mu) rhs i.
Proof.
  intros NB PR PC D E F R A. unfold minsr_solve. destruct (use_scalapack available mode n) as [b|]; cbn [bind]; [|discriminate]. destruct b.
  - intros Q i I. rewrite (solved n nb nprow npcol w zs NB PR PC D r a soft lam rhs y Q i I). exact (independent n T w z lam mu r a soft rhs F E R A i I).
  - intros Q i _. injection Q as <-. reflexivity.
Qed.
Lemma choice available mode n nb nprow npcol z mu zs lam r a soft rhs : let y := minsr_solve available mode n nb nprow npcol r a soft z mu zs lam rhs in
  let replicated := Ok (apply_pinv n z (pinv r a soft mu) rhs) in let distributed := scalapack_solve n nb nprow npcol r a soft lam zs rhs in
  (mode = Replicated -> y = replicated) /\ (mode = Distributed -> y = if available then distributed else Fail Throw) /\
  (mode = Auto -> (available = true /\ (5000 < Z.of_nat n)%Z -> y = distributed) /\ (available = false \/ (Z.of_nat n <= 5000)%Z -> y = replicated)).
Proof.
  cbv zeta. unfold minsr_solve, use_scalapack. split; [|split]; intros ->; cbn [bind]; [reflexivity|destruct available; reflexivity|]. split.
  - intros [-> H]. apply Z.ltb_lt in H. rewrite H. reflexivity.
  - intros [->|H]; [reflexivity|]. apply Z.ltb_ge in H. rewrite H. destruct available; reflexivity.
Qed.
