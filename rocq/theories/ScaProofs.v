From Coq Require Import List Arith Bool ZArith Reals Lia Permutation.
From Verif Require Import Base Cplx MinsrModel ScaModel ScaSpec.
Import ListNotations.
Local Open Scope nat_scope.

Lemma pick_sum (f : nat -> C) n k : k < n -> sumC (fun j => if k =? j then f j else RtoC 0) (seq 0 n) = f k.
Proof.
  intros H. assert (G : forall n a, sumC (fun j => if k =? j then f j else RtoC 0) (seq a n) = if (a <=? k) && (k <? a + n) then f k else RtoC 0).
  { clear. induction n as [|n IH]; intros a.
    - cbn [seq]. rewrite sumC_nil. destruct (Nat.leb_spec a k), (Nat.ltb_spec k (a + 0)); try reflexivity; lia.
    - cbn [seq]. rewrite sumC_cons, IH. destruct (Nat.eqb_spec k a) as [->|N].
      + destruct (Nat.leb_spec (S a) a), (Nat.leb_spec a a), (Nat.ltb_spec a (a + S n)); cbn [andb]; try lia; ring.
      + destruct (Nat.leb_spec (S a) k), (Nat.ltb_spec k (S a + n)), (Nat.leb_spec a k), (Nat.ltb_spec k (a + S n)); cbn [andb]; try lia; ring. }
  rewrite G. destruct (Nat.leb_spec 0 k), (Nat.ltb_spec k (0 + n)); cbn [andb]; try lia; reflexivity.
Qed.

(** *** Places *)
Section Places.
Variables (nb P : nat).
Hypothesis NB : 0 < nb.
Lemma l2g_shape p l : local_to_global nb p P l = nb * (P * (l / nb) + p) + l mod nb.
Proof. unfold local_to_global, indxl2g. replace (l + 1 - 1) with l by lia. lia. Qed.
Lemma l2g_div p l : local_to_global nb p P l / nb = P * (l / nb) + p.
Proof. rewrite l2g_shape. symmetry. apply (Nat.div_unique _ nb _ (l mod nb)); [apply Nat.mod_upper_bound; lia|reflexivity]. Qed.
Lemma l2g_mod p l : local_to_global nb p P l mod nb = l mod nb.
Proof. rewrite l2g_shape. symmetry. apply (Nat.mod_unique _ nb (P * (l / nb) + p)); [apply Nat.mod_upper_bound; lia|reflexivity]. Qed.
Lemma l2g_owner p l : p < P -> owner nb P (local_to_global nb p P l) = p.
Proof. intros H. unfold owner. rewrite l2g_div. symmetry. apply (Nat.mod_unique _ P (l / nb)); [exact H|reflexivity]. Qed.
Lemma l2g_place p l : p < P -> place nb P (local_to_global nb p P l) = l.
Proof.
  intros H. unfold place. rewrite l2g_div, l2g_mod. replace ((P * (l / nb) + p) / P) with (l / nb) by (apply (Nat.div_unique _ P _ p); [exact H|reflexivity]).
  rewrite (Nat.div_mod l nb) at 3 by lia. lia.
Qed.
Lemma place_l2g g : 0 < P -> local_to_global nb (owner nb P g) P (place nb P g) = g.
Proof.
  intros H. rewrite l2g_shape. unfold place, owner. assert (M : g mod nb < nb) by (apply Nat.mod_upper_bound; lia).
  replace ((g / nb / P * nb + g mod nb) / nb) with (g / nb / P) by (apply (Nat.div_unique _ nb _ (g mod nb)); [exact M|lia]).
  replace ((g / nb / P * nb + g mod nb) mod nb) with (g mod nb) by (apply (Nat.mod_unique _ nb (g / nb / P)); [exact M|lia]).
  rewrite <- Nat.div_mod by lia. rewrite <- Nat.div_mod by lia. reflexivity.
Qed.
Lemma in_range n p l : p < P -> (l < numroc n nb p P <-> local_to_global nb p P l < n).
Proof.
  intros H. rewrite l2g_shape. unfold numroc. assert (P0 : P <> 0) by lia. assert (N0 : nb <> 0) by lia.
  assert (E1 := Nat.div_mod n nb N0). assert (E2 := Nat.div_mod (n / nb) P P0). assert (E3 := Nat.div_mod l nb N0).
  assert (M1 := Nat.mod_upper_bound n nb N0). assert (M2 := Nat.mod_upper_bound (n / nb) P P0). assert (M3 := Nat.mod_upper_bound l nb N0).
  set (B := n / nb) in *. set (e := n mod nb) in *. set (b := B / P) in *. set (x := B mod P) in *. set (q := l / nb) in *. set (m := l mod nb) in *. clearbody B e b x q m.
  destruct (Nat.ltb_spec p x) as [L|L]; [|destruct (Nat.eqb_spec p x) as [Q|Q]].
  - split; intros K.
    + assert (q <= b) by nia. assert (P * q + p + 1 <= B) by nia. nia.
    + assert (P * q + p <= B) by nia. assert (q <= b) by nia. nia.
  - subst p. split; intros K.
    + assert (q <= b) by nia. destruct (Nat.eq_dec q b) as [->|D]; [nia|]. assert (P * q + x + 1 <= B) by nia. nia.
    + assert (P * q + x <= B) by nia. assert (q <= b) by nia. destruct (Nat.eq_dec q b) as [->|D]; [nia|]. assert (q + 1 <= b) by lia. nia.
  - split; intros K.
    + assert (q < b) by nia. assert (P * q + p + 1 <= B) by nia. nia.
    + assert (P * q + p <= B) by nia. assert (q < b) by nia. nia.
Qed.
Lemma dealt n p : p < P -> Permutation (map (local_to_global nb p P) (seq 0 (numroc n nb p P))) (filter (fun g => owner nb P g =? p) (seq 0 n)).
Proof.
  intros H. apply NoDup_Permutation.
  - apply FinFun.Injective_map_NoDup; [|apply seq_NoDup]. intros a b E. rewrite <- (l2g_place p a H), <- (l2g_place p b H), E. reflexivity.
  - apply NoDup_filter, seq_NoDup.
  - intros g. rewrite in_map_iff, filter_In, in_seq. split.
    + intros (l & <- & I). apply in_seq in I. split; [|apply Nat.eqb_eq, l2g_owner, H]. destruct (in_range n p l H) as [K _]. lia.
    + intros [[_ G] O]. apply Nat.eqb_eq in O. subst p. exists (place nb P g). assert (E := place_l2g g ltac:(lia)). split; [exact E|]. apply in_seq.
      destruct (in_range n (owner nb P g) (place nb P g) H) as [_ K]. rewrite E in K. lia.
Qed.
Lemma numroc_owned n p : p < P -> numroc n nb p P = owned nb P p n.
Proof. intros H. unfold owned. rewrite <- (Permutation_length (dealt n p H)), map_length, seq_length. reflexivity. Qed.
Lemma dealt_sum n (f : nat -> C) : 0 < P ->
  sumC (fun p => sumC (fun l => f (local_to_global nb p P l)) (seq 0 (numroc n nb p P))) (seq 0 P) = sumC f (seq 0 n).
Proof.
  intros H. rewrite (sumC_ext _ (fun p => sumC (fun g => if owner nb P g =? p then f g else RtoC 0) (seq 0 n))).
  - rewrite sumC_swap. apply sumC_ext. intros g _. assert (O : owner nb P g < P) by (apply Nat.mod_upper_bound; lia). exact (pick_sum (fun _ => f g) P (owner nb P g) O).
  - intros p I. apply in_seq in I. rewrite <- (sumC_map f (local_to_global nb p P)). rewrite (sumC_perm f _ _ (dealt n p ltac:(lia))). symmetry. apply sumC_filter.
Qed.
End Places.

(** *** Sums *)
Lemma bumps {X} (key : X -> nat) (val : X -> C) l : forall x i, fold_left (fun x a => bump x (key a) (val a)) l x i = (x i + sumC (fun a => if i =? key a then val a else RtoC 0) l)%C.
Proof.
  induction l as [|a l IH]; intros x i; cbn [fold_left]; [rewrite sumC_nil; ring|]. rewrite IH, sumC_cons. unfold bump. destruct (i =? key a); ring.
Qed.
Lemma bumps2 {X Y} (key : X -> Y -> nat) (val : X -> Y -> C) l' l : forall x i,
  fold_left (fun x a => fold_left (fun x b => bump x (key a b) (val a b)) l' x) l x i = (x i + sumC (fun a => sumC (fun b => if i =? key a b then val a b else RtoC 0) l') l)%C.
Proof.
  induction l as [|a l IH]; intros x i; cbn [fold_left]; [rewrite sumC_nil; ring|]. rewrite IH, sumC_cons. rewrite (bumps (key a) (val a)). ring.
Qed.
Lemma grid_sum (f : nat -> C) npcol nprow : sumC f (seq 0 (nprow * npcol)) = sumC (fun a => sumC (fun b => f (a * npcol + b)) (seq 0 npcol)) (seq 0 nprow).
Proof.
  induction nprow as [|k IH]; [reflexivity|]. rewrite seq_S, sumC_app, <- IH. cbn [Nat.mul]. rewrite Nat.add_comm, seq_app, sumC_app. rewrite sumC_cons, sumC_nil. f_equal.
  rewrite <- (Nat.add_0_r (0 + k * npcol)) at 1. assert (S : forall m a, seq (0 + k * npcol + a) m = map (fun b => k * npcol + b) (seq a m)).
  { induction m as [|m IHm]; intros a; [reflexivity|]. cbn [seq map]. rewrite <- IHm. replace (S (0 + k * npcol + a)) with (0 + k * npcol + S a) by lia. reflexivity. }
  rewrite S, sumC_map. cbn [Nat.add]. ring.
Qed.
(** *** The solve *)
Section Solve.
Variables (n nb nprow npcol : nat) (z : nat -> nat -> C) (zs : list (list C)).
Hypothesis NB : 0 < nb.
Hypothesis PR : 0 < nprow.
Hypothesis PC : 0 < npcol.
Hypothesis D : distributed n nb nb nprow npcol z zs.
Lemma coords a b : b < npcol -> my_row npcol (a * npcol + b) = a /\ my_col npcol (a * npcol + b) = b.
Proof.
  intros B. unfold my_row, my_col. split.
  - symmetry. apply (Nat.div_unique _ npcol _ b); [exact B|lia].
  - symmetry. apply (Nat.mod_unique _ npcol a); [exact B|lia].
Qed.
Lemma entry a b li lj : a < nprow -> b < npcol -> li < numroc n nb a nprow -> lj < numroc n nb b npcol ->
  nth (li + lj * lld n nb nprow npcol (a * npcol + b)) (nth (a * npcol + b) zs []) (RtoC 0) = z (local_to_global nb a nprow li) (local_to_global nb b npcol lj).
Proof.
  intros A B I J. assert (Hi := proj1 (in_range nb nprow NB n a li A) I). assert (Hj := proj1 (in_range nb npcol NB n b lj B) J).
  assert (E := D _ _ Hi Hj). rewrite (l2g_owner nb nprow NB a li A), (l2g_owner nb npcol NB b lj B), (l2g_place nb nprow NB a li A), (l2g_place nb npcol NB b lj B) in E.
  unfold lld. rewrite (proj1 (coords a b B)). rewrite Nat.max_r by lia. rewrite (numroc_owned nb nprow NB n a A). exact E.
Qed.
Lemma grid2 (F : nat -> nat -> C) :
  sumC (fun a => sumC (fun b => sumC (fun lj => sumC (fun li => F (local_to_global nb a nprow li) (local_to_global nb b npcol lj)) (seq 0 (numroc n nb a nprow))) (seq 0 (numroc n nb b npcol))) (seq 0 npcol)) (seq 0 nprow) =
  sumC (fun j => sumC (fun i => F i j) (seq 0 n)) (seq 0 n).
Proof.
  rewrite (sumC_ext _ (fun a => sumC (fun j => sumC (fun li => F (local_to_global nb a nprow li) j) (seq 0 (numroc n nb a nprow))) (seq 0 n))).
  - rewrite sumC_swap. apply sumC_ext. intros j _. exact (dealt_sum nb nprow NB n (fun i => F i j) PR).
  - intros a _. exact (dealt_sum nb npcol NB n (fun j => sumC (fun li => F (local_to_global nb a nprow li) j) (seq 0 (numroc n nb a nprow))) PC).
Qed.
Lemma tmp_total rhs k : k < n -> allreduce (map (fun r => local_tmp n nb nprow npcol r (nth r zs []) rhs) (seq 0 (nprow * npcol))) k = sumC (fun i => Cconj (z i k) * rhs i)%C (seq 0 n).
Proof.
  intros K. unfold allreduce. rewrite sumC_map, grid_sum.
  rewrite (sumC_ext _ (fun a => sumC (fun b => sumC (fun lj => sumC (fun li => (fun i j => if k =? j then (Cconj (z i j) * rhs i)%C else RtoC 0) (local_to_global nb a nprow li) (local_to_global nb b npcol lj)) (seq 0 (numroc n nb a nprow))) (seq 0 (numroc n nb b npcol))) (seq 0 npcol))).
  - rewrite (grid2 (fun i j => if k =? j then (Cconj (z i j) * rhs i)%C else RtoC 0)). rewrite sumC_swap. apply sumC_ext. intros i _. exact (pick_sum (fun j => Cconj (z i j) * rhs i)%C n k K).
  - intros a A. apply in_seq in A. apply sumC_ext. intros b B. apply in_seq in B. unfold local_tmp. destruct (coords a b ltac:(lia)) as [-> ->].
    rewrite (bumps2 (fun lj li => local_to_global nb b npcol lj) (fun lj li => Cconj (nth (li + lj * lld n nb nprow npcol (a * npcol + b)) (nth (a * npcol + b) zs []) (RtoC 0)) * rhs (local_to_global nb a nprow li))%C).
    etransitivity; [|apply sumC_ext; intros lj J; apply sumC_ext; intros li I; reflexivity]. match goal with |- (_ + ?s)%C = _ => transitivity s; [ring|] end.
    apply sumC_ext. intros lj J. apply in_seq in J. apply sumC_ext. intros li I. apply in_seq in I. rewrite entry by lia. reflexivity.
Qed.
Lemma result_total tmp i : i < n -> allreduce (map (fun r => local_result n nb nprow npcol r (nth r zs []) tmp) (seq 0 (nprow * npcol))) i = sumC (fun j => z i j * tmp j)%C (seq 0 n).
Proof.
  intros K. unfold allreduce. rewrite sumC_map, grid_sum.
  rewrite (sumC_ext _ (fun a => sumC (fun b => sumC (fun lj => sumC (fun li => (fun i' j => if i =? i' then (z i' j * tmp j)%C else RtoC 0) (local_to_global nb a nprow li) (local_to_global nb b npcol lj)) (seq 0 (numroc n nb a nprow))) (seq 0 (numroc n nb b npcol))) (seq 0 npcol))).
  - rewrite (grid2 (fun i' j => if i =? i' then (z i' j * tmp j)%C else RtoC 0)). apply sumC_ext. intros j _. exact (pick_sum (fun i' => z i' j * tmp j)%C n i K).
  - intros a A. apply in_seq in A. apply sumC_ext. intros b B. apply in_seq in B. unfold local_result. destruct (coords a b ltac:(lia)) as [-> ->].
    rewrite (bumps2 (fun lj li => local_to_global nb a nprow li) (fun lj li => nth (li + lj * lld n nb nprow npcol (a * npcol + b)) (nth (a * npcol + b) zs []) (RtoC 0) * tmp (local_to_global nb b npcol lj))%C).
    match goal with |- (_ + ?s)%C = _ => transitivity s; [ring|] end.
    apply sumC_ext. intros lj J. apply in_seq in J. apply sumC_ext. intros li I. apply in_seq in I. rewrite entry by lia. reflexivity.
Qed.
Lemma solved r a soft lam rhs y : scalapack_solve n nb nprow npcol r a soft lam zs rhs = Ok y -> forall i, i < n -> y i = apply_pinv n z (pinv r a soft lam) rhs i.
Proof.
  unfold scalapack_solve. destruct (_ <? _)%Z; [discriminate|]. destruct (existsb _ _); [discriminate|]. intros E. injection E as <-. intros i I.
  rewrite (result_total _ i I). unfold apply_pinv. apply sumC_ext. intros k K. apply in_seq in K. rewrite (tmp_total rhs k) by lia. ring.
Qed.
End Solve.
