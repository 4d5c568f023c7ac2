(** The last layers: their contractions and their holes. *)
From Coq Require Import List Arith Lia Bool Reals Permutation.
From Verif Require Import Base Cplx SumModel SumSpec SumProofs NetSum TrgModel TrgTensor TrgTopo TrgExactSpec TrgSums.
Import ListNotations.
Local Open Scope nat_scope.

Lemma gsum_nsum_acc (F : list nat -> C) d : forall vs us a, NoDup (us ++ vs) -> gsum vs d (fun a => F (map a (us ++ vs))) a = nsum (map d vs) (fun l => F (map a us ++ l)).
Proof.
  induction vs as [|v vs IH]; intros us a N; cbn [NetSum.gsum map nsum]; [rewrite !app_nil_r; reflexivity|]. apply sumC_ext. intros i _.
  assert (E : us ++ v :: vs = (us ++ [v]) ++ vs) by (rewrite <- app_assoc; reflexivity). rewrite E in N |- *. rewrite IH by exact N.
  assert (M : map (upd a v i) (us ++ [v]) = map a us ++ [i]).
  { rewrite map_app. cbn [map]. rewrite upd_same. f_equal. apply map_upd. intros Q. rewrite <- app_assoc in N. cbn [app] in N. apply NoDup_remove_2 in N. apply N, in_or_app. left. exact Q. }
  rewrite M. assert (FE : forall ds (f g : list nat -> C), (forall l, f l = g l) -> nsum ds f = nsum ds g).
  { clear. induction ds as [|x ds IHd]; intros f g H; cbn [nsum]; [apply H|]. apply sumC_ext. intros i _. apply IHd. intros l. apply H. }
  apply FE. intros l. rewrite <- app_assoc. reflexivity.
Qed.
Lemma gsum_nsum vs d F a : NoDup vs -> gsum vs d (fun a => F (map a vs)) a = nsum (map d vs) F.
Proof. intros N. exact (gsum_nsum_acc F d vs [] a N). Qed.
(** rearranged explicit lists *)
Definition included (l l' : list var) : bool := forallb (fun x => if in_dec var_dec x l' then true else false) l.
Lemma included_perm l l' : NoDup l -> length l' <= length l -> included l l' = true -> Permutation l l'.
Proof.
  intros N L I. apply NoDup_Permutation_bis; [exact N|exact L|]. intros x Hx. unfold included in I. rewrite forallb_forall in I. specialize (I x Hx). destruct (in_dec var_dec x l'); [assumption|discriminate].
Qed.
Lemma even_sum_nsum w vs d X F : length vs <= length (bond_vars w) -> included (bond_vars w) vs = true ->
  (forall a, prodC (fun rc => entry (X rc) (map a (qlist (legs w rc)))) (grid w w) = F (map a vs)) ->
  even_sum d w X = nsum (map d vs) F.
Proof.
  intros L I E. pose proof (included_perm _ _ (bond_vars_nodup w) L I) as P. unfold even_sum. rewrite (gsum_perm var_dec _ _ d _ P (bond_vars_nodup w)).
  rewrite (gsum_ext_all var_dec vs d _ (fun a => F (map a vs)) zero E). apply gsum_nsum. exact (Permutation_NoDup P (bond_vars_nodup w)).
Qed.
Lemma delta (f : nat -> C) i n : i < n -> sumC (fun k => (f k * (if (i =? k)%nat then RtoC 1 else RtoC 0))%C) (seq 0 n) = f i.
Proof.
  intros H. replace n with (i + S (n - i - 1)) by lia. rewrite seq_app, sumC_app. cbn [seq Nat.add]. rewrite sumC_cons, Nat.eqb_refl.
  rewrite (sumC_zero _ (seq 0 i)), (sumC_zero _ (seq (S i) _)); [ring| |]; intros k Hk; apply in_seq in Hk; destruct (Nat.eqb_spec i k); try lia; ring.
Qed.
Lemma delta' (f : nat -> C) i n : i < n -> sumC (fun k => (f k * (if (k =? i)%nat then RtoC 1 else RtoC 0))%C) (seq 0 n) = f i.
Proof. intros H. rewrite <- (delta f i n H). apply sumC_ext. intros k _. rewrite Nat.eqb_sym. reflexivity. Qed.
Lemma final1_sum d X : even_fits d 1 X -> final_1x1 (X (0, 0)) = even_sum d 1 X.
Proof.
  intros HF. specialize (HF (0, 0) ltac:(cbn; tauto)). cbn in HF.
  rewrite (even_sum_nsum 1 [Bond (Ver 0 0); Bond (Hor 0 0)] d X (fun l => match l with [v; h] => entry (X (0, 0)%nat) [h; v; h; v] | _ => RtoC 0 end)).
  - destruct (X (0, 0)) as [s e]. cbn [shape] in HF. rewrite HF. cbn. set (h := d (Bond (Hor 0 0))). set (v := d (Bond (Ver 0 0))).
    apply sumC_ext. intros i Hi. apply in_seq in Hi.
    transitivity (sumC (fun j => (sumC (fun k => e [k; i; k; j]) (seq 0 h) * (if (j =? i)%nat then RtoC 1 else RtoC 0))%C) (seq 0 v)).
    + apply sumC_ext. intros j _. f_equal. apply sumC_ext. intros k Hk. apply in_seq in Hk. exact (delta (fun k' => e [k; i; k'; j]) k h ltac:(lia)).
    + rewrite delta' by lia. reflexivity.
  - cbn. lia.
  - vm_compute. reflexivity.
  - intros a. cbn. ring.
Qed.
Lemma scal_r {Y} (c : C) (f : Y -> C) l : sumC (fun x => (f x * c)%C) l = (sumC f l * c)%C.
Proof. transitivity (sumC (fun x => (c * f x)%C) l); [apply sumC_ext; intros; ring|rewrite sumC_scal; ring]. Qed.
(** sums of independent factors *)
Lemma sum22 (f g : nat -> nat -> C) a b c e : sumC (fun i => sumC (fun j => sumC (fun k => sumC (fun l => (f i j * g k l)%C) (seq 0 e)) (seq 0 c)) (seq 0 b)) (seq 0 a) =
  (sumC (fun i => sumC (fun j => f i j) (seq 0 b)) (seq 0 a) * sumC (fun k => sumC (fun l => g k l) (seq 0 e)) (seq 0 c))%C.
Proof.
  rewrite <- scal_r. apply sumC_ext. intros i _. rewrite <- scal_r. apply sumC_ext. intros j _. rewrite <- sumC_scal. apply sumC_ext. intros k _. apply sumC_scal.
Qed.
Definition s3 (n : nat * nat * nat) (f : nat -> nat -> nat -> C) : C := sumC (fun x => sumC (fun y => sumC (fun z => f x y z) (seq 0 (snd n))) (seq 0 (snd (fst n)))) (seq 0 (fst (fst n))).
Lemma s3_ext n f g : (forall x y z, f x y z = g x y z) -> s3 n f = s3 n g.
Proof. intros H. unfold s3. do 3 (apply sumC_ext; intros ? _). apply H. Qed.
Lemma s3_scal n c f : s3 n (fun x y z => (c * f x y z)%C) = (c * s3 n f)%C.
Proof. unfold s3. rewrite <- sumC_scal. apply sumC_ext. intros x _. rewrite <- sumC_scal. apply sumC_ext. intros y _. apply sumC_scal. Qed.
Lemma s3_scal_r n c f : s3 n (fun x y z => (f x y z * c)%C) = (s3 n f * c)%C.
Proof. rewrite (s3_ext n _ (fun x y z => (c * f x y z)%C)) by (intros; ring). rewrite s3_scal. ring. Qed.
Lemma s333 n m k f g h : (s3 n f * (s3 m g * s3 k h))%C = s3 n (fun x y z => s3 m (fun u v w => s3 k (fun a b c => (f x y z * (g u v w * h a b c))%C))).
Proof.
  rewrite <- s3_scal_r. apply s3_ext. intros x y z. rewrite <- s3_scal_r, <- s3_scal. apply s3_ext. intros u v w. rewrite <- !s3_scal. reflexivity.
Qed.
Lemma ring3 a b c (f : nat -> nat -> nat -> C) (g : nat -> nat -> C) :
  sumC (fun x => sumC (fun y => (sumC (fun z => f x y z) (seq 0 c) * g x y)%C) (seq 0 b)) (seq 0 a) = s3 (a, b, c) (fun x y z => (f x y z * g x y)%C).
Proof. unfold s3. cbn [fst snd]. do 2 (apply sumC_ext; intros ? _). rewrite scal_r. reflexivity. Qed.

(** *** Two by two *)
Definition four (X : nat * nat -> tensor) (w i : nat) : tensor := X (i / w, i mod w).
Definition order2 : list var := [Bond (Ver 0 0); Bond (Ver 1 0); Bond (Ver 0 1); Bond (Ver 1 1); Bond (Hor 0 1); Bond (Hor 0 0); Bond (Hor 1 1); Bond (Hor 1 0)].
Lemma final2_sum d X : even_fits d 2 X -> final_2x2 (four X 2) = even_sum d 2 X.
Proof.
  intros HF. pose proof (HF (0, 0) ltac:(cbn; tauto)) as F0. pose proof (HF (0, 1) ltac:(cbn; tauto)) as F1. pose proof (HF (1, 0) ltac:(cbn; tauto)) as F2. pose proof (HF (1, 1) ltac:(cbn; tauto)) as F3. cbn in F0, F1, F2, F3.
  rewrite (even_sum_nsum 2 order2 d X (fun l => match l with [v00; v10; v01; v11; h01; h00; h11; h10] =>
    (entry (X (0, 0)%nat) [h01; v00; h00; v10] * entry (X (0, 1)%nat) [h00; v01; h01; v11] * (entry (X (1, 0)%nat) [h11; v10; h10; v00] * entry (X (1, 1)%nat) [h10; v11; h11; v01]))%C | _ => RtoC 0 end)).
  - unfold final_2x2, four, order2. cbn [Nat.div Nat.modulo Nat.divmod Nat.sub fst snd]. destruct (X (0, 0)) as [s0 e0], (X (0, 1)) as [s1 e1], (X (1, 0)) as [s2 e2], (X (1, 1)) as [s3 e3]. cbn [shape] in F0, F1, F2, F3. rewrite F0, F1, F2, F3. cbn -[sumC].
    do 4 (apply sumC_ext; intros ? _). rewrite sum22. reflexivity.
  - cbn. lia.
  - vm_compute. reflexivity.
  - intros a. cbn. ring.
Qed.
(** *** Three by three *)
Definition order3 : list var := [Bond (Ver 2 0); Bond (Ver 2 1); Bond (Ver 2 2); Bond (Ver 1 0); Bond (Ver 1 1); Bond (Ver 1 2); Bond (Ver 0 0); Bond (Ver 0 1); Bond (Ver 0 2);
  Bond (Hor 0 2); Bond (Hor 0 1); Bond (Hor 0 0); Bond (Hor 1 2); Bond (Hor 1 1); Bond (Hor 1 0); Bond (Hor 2 2); Bond (Hor 2 1); Bond (Hor 2 0)].
Lemma final3_sum d X : even_fits d 3 X -> final_3x3 (four X 3) = even_sum d 3 X.
Proof.
  intros HF. pose proof (HF (0, 0) ltac:(cbn; tauto)) as F00. pose proof (HF (0, 1) ltac:(cbn; tauto)) as F01. pose proof (HF (0, 2) ltac:(cbn; tauto)) as F02.
  pose proof (HF (1, 0) ltac:(cbn; tauto)) as F10. pose proof (HF (1, 1) ltac:(cbn; tauto)) as F11. pose proof (HF (1, 2) ltac:(cbn; tauto)) as F12.
  pose proof (HF (2, 0) ltac:(cbn; tauto)) as F20. pose proof (HF (2, 1) ltac:(cbn; tauto)) as F21. pose proof (HF (2, 2) ltac:(cbn; tauto)) as F22. cbn in F00, F01, F02, F10, F11, F12, F20, F21, F22.
  rewrite (even_sum_nsum 3 order3 d X (fun l => match l with [v20; v21; v22; v10; v11; v12; v00; v01; v02; h02; h01; h00; h12; h11; h10; h22; h21; h20] =>
    ((entry (X (0, 0)%nat) [h02; v00; h00; v20] * entry (X (0, 1)%nat) [h00; v01; h01; v21] * entry (X (0, 2)%nat) [h01; v02; h02; v22]) *
     ((entry (X (1, 0)%nat) [h12; v10; h10; v00] * entry (X (1, 1)%nat) [h10; v11; h11; v01] * entry (X (1, 2)%nat) [h11; v12; h12; v02]) *
      (entry (X (2, 0)%nat) [h22; v20; h20; v10] * entry (X (2, 1)%nat) [h20; v21; h21; v11] * entry (X (2, 2)%nat) [h21; v22; h22; v12])))%C | _ => RtoC 0 end)).
  - unfold final_3x3, four, order3. cbn [Nat.div Nat.modulo Nat.divmod Nat.sub fst snd].
    destruct (X (0, 0)) as [s00 e00], (X (0, 1)) as [s01 e01], (X (0, 2)) as [s02 e02], (X (1, 0)) as [s10 e10], (X (1, 1)) as [s11 e11], (X (1, 2)) as [s12 e12], (X (2, 0)) as [s20 e20], (X (2, 1)) as [s21 e21], (X (2, 2)) as [s22 e22].
    cbn [shape] in F00, F01, F02, F10, F11, F12, F20, F21, F22. rewrite F00, F01, F02, F10, F11, F12, F20, F21, F22. cbn -[sumC].
    do 6 (apply sumC_ext; intros ? _).
    set (H0 := (d (Bond (Hor 0 2)), d (Bond (Hor 0 1)), d (Bond (Hor 0 0)))). set (H1 := (d (Bond (Hor 1 2)), d (Bond (Hor 1 1)), d (Bond (Hor 1 0)))). set (H2 := (d (Bond (Hor 2 2)), d (Bond (Hor 2 1)), d (Bond (Hor 2 0)))).
    transitivity (s3 (d (Bond (Ver 0 0)), d (Bond (Ver 0 1)), d (Bond (Ver 0 2))) (fun p q r =>
      (s3 H0 (fun a b c => (e00 [a; p; c; x]%nat * e01 [c; q; b; x0]%nat * e02 [b; r; a; x1]%nat)%C) *
       (s3 H1 (fun a b c => (e10 [a; x2; c; p]%nat * e11 [c; x3; b; q]%nat * e12 [b; x4; a; r]%nat)%C) *
        s3 H2 (fun a b c => (e20 [a; x; c; x2]%nat * e21 [c; x0; b; x3]%nat * e22 [b; x1; a; x4]%nat)%C)))%C)).
    + rewrite !ring3. unfold s3 at 2. cbn [fst snd]. rewrite <- scal_r. apply sumC_ext. intros p _. rewrite <- scal_r. apply sumC_ext. intros q _. rewrite <- scal_r. apply sumC_ext. intros r _. rewrite !ring3. fold H0 H1 H2. ring.
    + unfold s3 at 1. cbn [fst snd]. do 3 (apply sumC_ext; intros ? _). rewrite s333. reflexivity.
  - cbn. lia.
  - vm_compute. reflexivity.
  - intros a. cbn. ring.
Qed.
