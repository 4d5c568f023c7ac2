(** The terms on triangles as operators. *)
From Coq Require Import List Arith Bool Reals Lia Lra Permutation.
From Verif Require Import Base Cplx SumModel SumSpec SumProofs NetSum PbcProofs TrgTensor BmpsSum ProjModel ProjSpec ProjWave ProjTri ProjSteps ExpModel ExpSpec ExpAlg ExpOp ExpMain ExpTotal TriSweepModel TriSweepSpec TriSweepSeries.
Import ListNotations.
Local Open Scope nat_scope.

Definition dl (i j : nat) : C := if i =? j then RtoC 1 else RtoC 0.
Lemma pick_r (f : nat -> C) n j : j < n -> sumC (fun z => (f z * dl z j)%C) (seq 0 n) = f j.
Proof. intros H. apply (BmpsMain.sumC_pick f n j H). Qed.
Section Three.
Context (s : basis) (psi : basis -> C) (HR : respects psi) (a b c : nat * nat) (Nab : a <> b) (Nbc : b <> c) (Nac : a <> c) (d : nat).
Notation v x := (s (fst x) (snd x)).
Context (Ha : v a < d) (Hb : v b < d) (Hc : v c < d).
Notation G i j k := (psi (at_site (at_site (at_site s a i) b j) c k)).
Ltac by_site := apply HR; intros r q; cbv beta delta [at_site];
  repeat match goal with |- context [(r =? fst ?x) && (q =? snd ?x)] => let H := fresh in let N := fresh in
    destruct (site_dec (r, q) x) as [H|N]; [assert (r = fst x) by (rewrite <- H; reflexivity); assert (q = snd x) by (rewrite <- H; reflexivity); clear H; rewrite ?(proj2 (Nat.eqb_eq r (fst x))), ?(proj2 (Nat.eqb_eq q (snd x))) by assumption; cbn [andb]
    |replace ((r =? fst x) && (q =? snd x)) with false by (symmetry; apply andb_false_iff; destruct (Nat.eqb_spec r (fst x)); [right; apply Nat.eqb_neq; intros ?; apply N; apply injective_projections; assumption|left; reflexivity])] end;
  try reflexivity; try (exfalso; match goal with N : ?x <> ?y |- _ => apply N; apply injective_projections; congruence end); try congruence.
Lemma own_c i j : G i j (v c) = psi (at_site (at_site s a i) b j).
Proof. by_site. Qed.
Lemma own_b i k : G i (v b) k = psi (at_site (at_site s a i) c k).
Proof. by_site. Qed.
Lemma own_a j k : G (v a) j k = psi (at_site (at_site s b j) c k).
Proof. by_site. Qed.
Lemma own_bc i : G i (v b) (v c) = psi (at_site s a i).
Proof. by_site. Qed.
Lemma own_ac j : G (v a) j (v c) = psi (at_site s b j).
Proof. by_site. Qed.
Lemma own_ab k : G (v a) (v b) k = psi (at_site s c k).
Proof. by_site. Qed.
Notation S3 f := (sumC (fun i => sumC (fun j => sumC (fun k => f i j k) (seq 0 d)) (seq 0 d)) (seq 0 d)).
Notation S2 f := (sumC (fun i => sumC (fun j => f i j) (seq 0 d)) (seq 0 d)).
Notation S1 f := (sumC (fun i => f i) (seq 0 d)).
Lemma S3_add (f g : nat -> nat -> nat -> C) : S3 (fun i j k => (f i j k + g i j k)%C) = (S3 f + S3 g)%C.
Proof. rewrite <- sumC_add. apply sumC_ext. intros i _. rewrite <- sumC_add. apply sumC_ext. intros j _. apply sumC_add. Qed.
Lemma pad_c (F : nat -> nat -> C) : S3 (fun i j k => (F i j * dl k (v c) * G i j k)%C) = S2 (fun i j => (F i j * psi (at_site (at_site s a i) b j))%C).
Proof. apply sumC_ext. intros i _. apply sumC_ext. intros j _. rewrite <- own_c, <- (pick_r (fun k => (F i j * G i j k)%C) d (v c) Hc). apply sumC_ext. intros k _. ring. Qed.
Lemma pad_b (F : nat -> nat -> C) : S3 (fun i j k => (F i k * dl j (v b) * G i j k)%C) = S2 (fun i k => (F i k * psi (at_site (at_site s a i) c k))%C).
Proof.
  apply sumC_ext. intros i _. rewrite (sumC_swap (fun j k => (F i k * dl j (v b) * G i j k)%C)). apply sumC_ext. intros k _. rewrite <- own_b, <- (pick_r (fun j => (F i k * G i j k)%C) d (v b) Hb). apply sumC_ext. intros j _. ring.
Qed.
Lemma pad_a (F : nat -> nat -> C) : S3 (fun i j k => (dl i (v a) * F j k * G i j k)%C) = S2 (fun j k => (F j k * psi (at_site (at_site s b j) c k))%C).
Proof.
  rewrite (sumC_swap (fun i j => sumC (fun k => (dl i (v a) * F j k * G i j k)%C) (seq 0 d))). apply sumC_ext. intros j _. rewrite (sumC_swap (fun i k => (dl i (v a) * F j k * G i j k)%C)). apply sumC_ext. intros k _.
  rewrite <- own_a, <- (pick_r (fun i => (F j k * G i j k)%C) d (v a) Ha). apply sumC_ext. intros i _. ring.
Qed.
Lemma pad_bc (F : nat -> C) : S3 (fun i j k => (F i * dl j (v b) * dl k (v c) * G i j k)%C) = S1 (fun i => (F i * psi (at_site s a i))%C).
Proof.
  apply sumC_ext. intros i _. rewrite <- own_bc. rewrite (sumC_ext _ (fun j => (F i * G i j (v c) * dl j (v b))%C)).
  - apply (pick_r (fun j => (F i * G i j (v c))%C)). exact Hb.
  - intros j _. rewrite <- (pick_r (fun k => (F i * G i j k * dl j (v b))%C) d (v c) Hc). apply sumC_ext. intros k _. ring.
Qed.
Lemma pad_ac (F : nat -> C) : S3 (fun i j k => (dl i (v a) * F j * dl k (v c) * G i j k)%C) = S1 (fun j => (F j * psi (at_site s b j))%C).
Proof.
  rewrite (sumC_swap (fun i j => sumC (fun k => (dl i (v a) * F j * dl k (v c) * G i j k)%C) (seq 0 d))). apply sumC_ext. intros j _. rewrite <- own_ac. rewrite (sumC_ext _ (fun i => (F j * G i j (v c) * dl i (v a))%C)).
  - apply (pick_r (fun i => (F j * G i j (v c))%C)). exact Ha.
  - intros i _. rewrite <- (pick_r (fun k => (F j * G i j k * dl i (v a))%C) d (v c) Hc). apply sumC_ext. intros k _. ring.
Qed.
Lemma pad_ab (F : nat -> C) : S3 (fun i j k => (dl i (v a) * dl j (v b) * F k * G i j k)%C) = S1 (fun k => (F k * psi (at_site s c k))%C).
Proof.
  rewrite (sumC_ext _ (fun i => (sumC (fun k => (F k * G i (v b) k)%C) (seq 0 d) * dl i (v a))%C)).
  - rewrite (pick_r (fun i => sumC (fun k => (F k * G i (v b) k)%C) (seq 0 d)) d (v a) Ha). apply sumC_ext. intros k _. rewrite own_ab. reflexivity.
  - intros i _. rewrite (sumC_swap (fun j k => (dl i (v a) * dl j (v b) * F k * G i j k)%C)). rewrite mul_comm, <- sumC_scal. apply sumC_ext. intros k _. rewrite <- (pick_r (fun j => (dl i (v a) * (F k * G i j k))%C) d (v b) Hb). apply sumC_ext. intros j _. ring.
Qed.
Lemma three_term (T : tensor) (X Y Z : nat -> nat -> C) (U V W : nat -> C) :
  (forall i j k, entry T [i; v a; j; v b; k; v c] = (X i k * dl j (v b) + Y i j * dl k (v c) + dl i (v a) * Z j k +
     (U i * dl j (v b) * dl k (v c) + dl i (v a) * V j * dl k (v c) + dl i (v a) * dl j (v b) * W k))%C) ->
  term T [d; d; d] [a; b; c] psi s =
  (S2 (fun i k => X i k * psi (at_site (at_site s a i) c k)) + S2 (fun i j => Y i j * psi (at_site (at_site s a i) b j)) + S2 (fun j k => Z j k * psi (at_site (at_site s b j) c k)) +
   (S1 (fun i => U i * psi (at_site s a i)) + S1 (fun j => V j * psi (at_site s b j)) + S1 (fun k => W k * psi (at_site s c k))))%C.
Proof.
  intros E. unfold term. rewrite sum_choices3. cbn [values map zip place]. rewrite <- pad_b, <- pad_c, <- pad_a, <- pad_bc, <- pad_ac, <- pad_ab. rewrite <- !S3_add.
  apply sumC_ext. intros i _. apply sumC_ext. intros j _. apply sumC_ext. intros k _. rewrite E. ring.
Qed.
Lemma two_S2 h (x y : nat * nat) k : S2 (fun i j => (k * entry h [i; v x; j; v y] * psi (at_site (at_site s x i) y j))%C) = (k * term h [d; d] [x; y] psi s)%C.
Proof. unfold term. rewrite sum_choices2. cbn [values map zip place]. rewrite <- sumC_scal. apply sumC_ext. intros i _. rewrite <- sumC_scal. apply sumC_ext. intros j _. ring. Qed.
Lemma one_S1 h (x : nat * nat) k : S1 (fun i => (k * entry h [i; v x] * psi (at_site s x i))%C) = (k * term h [d] [x] psi s)%C.
Proof. unfold term. rewrite sum_choices1. cbn [values map zip place]. rewrite <- sumC_scal. apply sumC_ext. intros i _. ring. Qed.
End Three.
