(** If a gate takes a block of two or three tensors to zero, it takes the wave function to zero. *)
From Coq Require Import List Arith Lia Bool Reals Lra Permutation.
From Verif Require Import Base Cplx SumModel SumSpec SumProofs NetSum PbcProofs TrgTensor BmpsAlg ProjModel ProjSpec ProjAlg ProjTwo ProjPatch ProjGrid ProjWave ProjThree ProjTri.
Import ListNotations.
Local Open Scope nat_scope.

Definition nil_tensor : tensor := Tn [] (fun _ => RtoC 0).
Lemma prod_zero {A} (f : A -> C) x : forall l, In x l -> f x = RtoC 0 -> prodC f l = RtoC 0.
Proof. induction l as [|a l IH]; intros H E; [destruct H|]. cbn [prodC fold_right]. destruct H as [->|H]; [rewrite E; ring|]. fold (prodC f l). rewrite IH by assumption. ring. Qed.
Lemma wave_zero P r c s : r < p_rows P -> c < p_cols P -> gamma P r c = nil_tensor -> wave P s = RtoC 0.
Proof.
  intros Hr Hc E. unfold wave. cbv zeta. generalize (bonds (p_rows P) (p_cols P) (p_per P)) at 2. intros B. generalize (fun _ : bond => 0).
  assert (Z : forall a, (prodC (fun rc => entry (gamma P (fst rc) (snd rc)) (index_at P s a (fst rc) (snd rc))) (grid (p_rows P) (p_cols P)) * prodC (fun b => RtoC (nth (a b) (lam_of P b) 0%R)) B)%C = RtoC 0).
  { intros a. rewrite (prod_zero _ (r, c)); [ring|apply grid_in; split; assumption|]. cbn [fst snd]. rewrite E. reflexivity. }
  induction (bonds (p_rows P) (p_cols P) (p_per P)) as [|b l IH]; intros a; cbn [sum_over]; [apply Z|].
  apply sumC_zero. intros v _. apply IH.
Qed.

Section Tri.
Context (tol : R) (P : peps) (F : fitted tol P).
Context (rA cA rM cM rB cB la mx my lb' : nat) (bx by' : bond) (da dm db : nat) (G : nat -> nat -> nat -> C).
Context (IA : rA < p_rows P /\ cA < p_cols P) (IM : rM < p_rows P /\ cM < p_cols P) (IB : rB < p_rows P /\ cB < p_cols P).
Context (NAM : (rA, cA) <> (rM, cM)) (NAB : (rA, cA) <> (rB, cB)) (NMB : (rM, cM) <> (rB, cB)).
Context (Hx : In bx (bs P)) (Hy : In by' (bs P)) (Nb : bx <> by').
Context (EA : lb P rA cA la = Some bx) (EMx : lb P rM cM mx = Some bx) (EMy : lb P rM cM my = Some by') (EB : lb P rB cB lb' = Some by').
Context (Ux : forall r c l, r < p_rows P -> c < p_cols P -> l < 4 -> lb P r c l = Some bx -> ((r, c) = (rA, cA) /\ l = la) \/ ((r, c) = (rM, cM) /\ l = mx)).
Context (Uy : forall r c l, r < p_rows P -> c < p_cols P -> l < 4 -> lb P r c l = Some by' -> ((r, c) = (rM, cM) /\ l = my) \/ ((r, c) = (rB, cB) /\ l = lb')).
Context (x : basis).
Context (BLOCK : forall fA fM fB,
  (forall l, l < 4 -> l <> la -> fine tol P rA cA l (fA l)) -> (forall l, l < 4 -> l <> mx -> l <> my -> fine tol P rM cM l (fM l)) -> (forall l, l < 4 -> l <> lb' -> fine tol P rB cB l (fB l)) ->
  sm da (fun p => sm dm (fun q => sm db (fun o => (sm (length (lam_of P bx)) (fun z => sm (length (lam_of P by')) (fun w =>
    (entry (gamma P rA cA) (ix (but_leg fA la z) p) * el (lam_of P bx) z * entry (gamma P rM cM) (ix (but_leg (but_leg fM mx z) my w) q) * el (lam_of P by') w * entry (gamma P rB cB) (ix (but_leg fB lb' w) o))%C)) * G p q o)%C))) = RtoC 0).
Lemma tri_gone : sm da (fun p => sm dm (fun q => sm db (fun o => (G p q o * wave P (at_site (at_site (at_site x (rA, cA) p) (rM, cM) q) (rB, cB) o))%C))) = RtoC 0.
Proof.
  set (P' := put_gamma P rA cA nil_tensor).
  assert (W : wave P' x = RtoC 0) by (apply (wave_zero P' rA cA); [exact (proj1 IA)|exact (proj2 IA)|apply put_same]).
  assert (GO : forall r c, (r, c) <> (rA, cA) -> gamma P' r c = gamma P r c) by (intros r c N; unfold P'; cbn [put_gamma gamma]; apply put_other; exact N).
  rewrite <- W. transitivity (RtoC 1 * sm da (fun p => sm dm (fun q => sm db (fun o => (G p q o * wave P (at_site (at_site (at_site x (rA, cA) p) (rM, cM) q) (rB, cB) o))%C))))%C; [ring|]. symmetry.
  apply (tri_wave tol P P' F rA cA rM cM rB cB la mx my lb' bx by' (lam_of P bx) (lam_of P by') nil_tensor (gamma P rM cM) (gamma P rB cB) da dm db (RtoC 1) G); try assumption; try reflexivity.
  - apply put_same.
  - apply GO. congruence.
  - apply GO. congruence.
  - intros r c N _ _. apply GO. exact N.
  - intros fA fM fB HA HM HB. rewrite (BLOCK fA fM fB HA HM HB). transitivity (RtoC 0); [|ring]. apply sumC_zero. intros z _. apply sumC_zero. intros w _. cbn [nil_tensor entry]. ring.
Qed.
End Tri.

Section Pair.
Context (tol : R) (P : peps) (F : fitted tol P).
Context (r0 c0 r1 c1 l0 l1 : nat) (b : bond) (d0 d1 : nat) (G : nat -> nat -> C).
Context (I0 : r0 < p_rows P /\ c0 < p_cols P) (I1 : r1 < p_rows P /\ c1 < p_cols P) (NN : (r0, c0) <> (r1, c1)) (Hb : In b (bs P)).
Context (E0 : lb P r0 c0 l0 = Some b) (E1 : lb P r1 c1 l1 = Some b).
Context (U : forall r c l, r < p_rows P -> c < p_cols P -> l < 4 -> lb P r c l = Some b -> ((r, c) = (r0, c0) /\ l = l0) \/ ((r, c) = (r1, c1) /\ l = l1)).
Context (x : basis).
Context (BLOCK : forall f0 f1,
  (forall l, l < 4 -> l <> l0 -> fine tol P r0 c0 l (f0 l)) -> (forall l, l < 4 -> l <> l1 -> fine tol P r1 c1 l (f1 l)) ->
  sm d0 (fun p => sm d1 (fun q => (sm (length (lam_of P b)) (fun z =>
    (entry (gamma P r0 c0) (ix (but_leg f0 l0 z) p) * el (lam_of P b) z * entry (gamma P r1 c1) (ix (but_leg f1 l1 z) q))%C) * G p q)%C)) = RtoC 0).
Lemma pair_gone : sm d0 (fun p => sm d1 (fun q => (G p q * wave P (at_site (at_site x (r0, c0) p) (r1, c1) q))%C)) = RtoC 0.
Proof.
  set (P' := put_gamma P r0 c0 nil_tensor).
  assert (W : wave P' x = RtoC 0) by (apply (wave_zero P' r0 c0); [exact (proj1 I0)|exact (proj2 I0)|apply put_same]).
  rewrite <- W. symmetry.
  transitivity (sumC (fun t => (G (fst t) (snd t) * wave P (at_site (at_site x (r0, c0) (fst t)) (r1, c1) (snd t)))%C) (list_prod (seq 0 d0) (seq 0 d1))).
  2:{ rewrite sumC_prod. reflexivity. }
  assert (U0 : forall l', l' < 4 -> lb P r0 c0 l' = Some b -> l' = l0) by (intros l' Hl E; destruct (U r0 c0 l' (proj1 I0) (proj2 I0) Hl E) as [[_ K]|[K _]]; [exact K|contradiction]).
  assert (U1 : forall l', l' < 4 -> lb P r1 c1 l' = Some b -> l' = l1) by (intros l' Hl E; destruct (U r1 c1 l' (proj1 I1) (proj2 I1) Hl E) as [[K _]|[_ K]]; [symmetry in K; contradiction|exact K]).
  apply (patch P P' [(r0, c0); (r1, c1)] [b]); try reflexivity.
  - constructor; [intros [Q|[]]; congruence|constructor; [intros []|constructor]].
  - intros y [<-|[<-|[]]]; apply grid_in; assumption.
  - constructor; [intros []|constructor].
  - intros y [<-|[]]. exact Hb.
  - intros r c l b' Hr Hc N Hl E [<-|[]]. apply N. destruct (U r c l Hr Hc Hl E) as [[-> _]|[-> _]]; cbn; auto.
  - intros r c N. unfold P'. cbn [put_gamma gamma]. apply put_other. intros Q. apply N. rewrite Q. cbn. auto.
  - intros t r c N. rewrite !at_other; [reflexivity|intros Q; apply N; rewrite Q; cbn; auto..].
  - intros a A.
    assert (GOOD : forall r c l, r < p_rows P -> c < p_cols P -> l < 4 -> lb P r c l <> Some b -> fine tol P r c l (lv P a r c l)).
    { intros r c l Hr Hc Hl N. apply leg_good; try assumption. intros b' E. apply A; [apply (leg_in _ _ _ r c l); assumption|]. intros [<-|[]]. contradiction. }
    rewrite inner_two. transitivity (RtoC 0).
    { apply sumC_zero. intros z _. unfold site_of at 1. cbn [fst snd]. unfold P' at 1. cbn [put_gamma gamma]. rewrite put_same. cbn [nil_tensor entry]. ring. }
    symmetry. rewrite <- (BLOCK (lv P a r0 c0) (lv P a r1 c1)).
    + rewrite sumC_prod. apply sumC_ext. intros p _. apply sumC_ext. intros q _. cbn [fst snd]. rewrite inner_two. match goal with |- (_ * ?S)%C = (?T * _)%C => assert (E : S = T) end; [|rewrite E; ring].
      apply sm_ext. intros z _. unfold site_of. cbn [fst snd]. rewrite (index_up P _ a b z r0 c0 l0 E0 U0), (index_up P _ a b z r1 c1 l1 E1 U1).
      rewrite (at_other _ (r1, c1) q r0 c0 NN), !at_same. reflexivity.
    + intros l Hl N. apply GOOD; try tauto. intros Q. apply N. apply U0; assumption.
    + intros l Hl N. apply GOOD; try tauto. intros Q. apply N. apply U1; assumption.
Qed.
End Pair.
