(** A loop replaced by another on the wave function. *)
From Coq Require Import List Arith Lia Bool Reals Lra Permutation.
From Verif Require Import Base Cplx SumModel SumSpec SumProofs NetSum PbcProofs TrgTensor BmpsAlg ProjModel ProjSpec ProjAlg ProjTwo ProjPatch ProjGrid ProjWave ProjThree ProjTri LoopModel LoopSpec LoopAlg LoopGauge LoopRing.
Import ListNotations.
Local Open Scope nat_scope.

Section Quad.
Context (tol : R) (P P' : peps) (F : fitted tol P).
Context (x : nat -> nat * nat) (b : nat -> bond) (ll lr : nat -> nat).
Context (IX : forall q, q < 4 -> fst (x q) < p_rows P /\ snd (x q) < p_cols P) (NX : forall q q', q < 4 -> q' < 4 -> x q = x q' -> q = q').
Context (HB : forall q, q < 4 -> In (b q) (bs P)) (NB : forall q q', q < 4 -> q' < 4 -> b q = b q' -> q = q').
Context (EL : forall q, q < 4 -> lb P (fst (x q)) (snd (x q)) (ll q) = Some (b (before q))) (ER : forall q, q < 4 -> lb P (fst (x q)) (snd (x q)) (lr q) = Some (b q)).
Context (L4 : forall q, q < 4 -> ll q < 4 /\ lr q < 4 /\ ll q <> lr q).
Context (Un : forall q r c l, q < 4 -> r < p_rows P -> c < p_cols P -> l < 4 -> lb P r c l = Some (b q) -> exists q', q' < 4 /\ (r, c) = x q' /\ ((l = lr q' /\ q' = q) \/ (l = ll q' /\ before q' = q))).
(** the values of the four bonds *)
Definition up4 (a : bond -> nat) (z0 z1 z2 z3 : nat) : bond -> nat := up (up (up (up a (b 0) z0) (b 1) z1) (b 2) z2) (b 3) z3.
Lemma up4_hit a z0 z1 z2 z3 q : q < 4 -> up4 a z0 z1 z2 z3 (b q) = nth q [z0; z1; z2; z3] 0.
Proof using NB. clear - NB.
  intros Hq. unfold up4. destruct (four_cases q Hq) as [E|[E|[E|E]]]; subst q; cbn [nth];
  repeat first [rewrite upd_same; reflexivity|rewrite upd_other by (intros Q; apply NB in Q; lia)].
Qed.
Lemma up4_miss a z0 z1 z2 z3 b' : (forall q, q < 4 -> b' <> b q) -> up4 a z0 z1 z2 z3 b' = a b'.
Proof using. clear. intros N. unfold up4. rewrite !upd_other by (apply N; lia). reflexivity. Qed.
Definition site_index (f : nat -> nat) (q y z p : nat) : list nat := ix (but_leg (but_leg f (ll q) y) (lr q) z) p.
Lemma index4 s a z0 z1 z2 z3 q : q < 4 -> index_at P s (up4 a z0 z1 z2 z3) (fst (x q)) (snd (x q)) =
  site_index (lv P a (fst (x q)) (snd (x q))) q (nth (before q) [z0; z1; z2; z3] 0) (nth q [z0; z1; z2; z3] 0) (s (fst (x q)) (snd (x q))).
Proof.
  intros Hq. unfold site_index. apply (index_is P s _ (fst (x q)) (snd (x q)) (but_leg (but_leg (lv P a (fst (x q)) (snd (x q))) (ll q) _) (lr q) _)). intros l Hl. unfold but_leg.
  destruct (IX q Hq) as [Hr Hc]. destruct (L4 q Hq) as (L1 & L2 & L3).
  destruct (Nat.eqb_spec l (lr q)) as [->|N]; [unfold leg_value; rewrite (ER q Hq); apply up4_hit; exact Hq|].
  destruct (Nat.eqb_spec l (ll q)) as [->|N']; [unfold leg_value; rewrite (EL q Hq); apply up4_hit; apply before_lt|].
  unfold leg_value. destruct (lb P (fst (x q)) (snd (x q)) l) as [b'|] eqn:E; [|reflexivity]. apply up4_miss. intros q' Hq' ->. destruct (Un q' _ _ l Hq' Hr Hc Hl E) as (q2 & Hq2 & X & D).
  rewrite <- surjective_pairing in X. apply NX in X; try assumption. subst q2. destruct D as [[-> _]|[-> _]]; contradiction.
Qed.
Definition loop_sites := [x 0; x 1; x 2; x 3]. Definition loop_bonds := [b 0; b 1; b 2; b 3].
(** the loop at given values of the other legs: [f q] those of site q *)
Definition loop_value (Q : peps) (s : nat -> nat) (f : nat -> nat -> nat) : C :=
  let M q : mat := fun y z => entry (gamma Q (fst (x q)) (snd (x q))) (site_index (f q) q y z (s q)) in let n q := length (lam_of Q (b q)) in
  ring4 (n 0) (n 1) (n 2) (n 3) (el (lam_of Q (b 0))) (el (lam_of Q (b 1))) (el (lam_of Q (b 2))) (el (lam_of Q (b 3))) (M 0) (M 1) (M 2) (M 3).
Lemma inner_four Q s a : p_rows Q = p_rows P -> p_cols Q = p_cols P -> p_per Q = p_per P ->
  inner loop_sites loop_bonds Q s a = loop_value Q (fun q => s (fst (x q)) (snd (x q))) (fun q => lv P a (fst (x q)) (snd (x q))).
Proof.
  intros D1 D2 D3. unfold inner, loop_bonds, loop_sites. cbn [gsum]. unfold loop_value, ring4, sm. apply sumC_ext. intros z0 _. apply sumC_ext. intros z1 _. apply sumC_ext. intros z2 _. apply sumC_ext. intros z3 _.
  change (up (up (up (up a (b 0) z0) (b 1) z1) (b 2) z2) (b 3) z3) with (up4 a z0 z1 z2 z3).
  assert (S : forall q, q < 4 -> site_of Q s (up4 a z0 z1 z2 z3) (x q) = entry (gamma Q (fst (x q)) (snd (x q))) (site_index (lv P a (fst (x q)) (snd (x q))) q (nth (before q) [z0; z1; z2; z3] 0) (nth q [z0; z1; z2; z3] 0) (s (fst (x q)) (snd (x q))))).
  { intros q Hq. unfold site_of. rewrite <- index4 by exact Hq. unfold index_at. rewrite D1, D2, D3. reflexivity. }
  cbn [prodC fold_right]. unfold weight_of. rewrite (up4_hit a z0 z1 z2 z3 0), (up4_hit a z0 z1 z2 z3 1), (up4_hit a z0 z1 z2 z3 2), (up4_hit a z0 z1 z2 z3 3) by (clear; lia). rewrite (S 0), (S 1), (S 2), (S 3) by (clear; lia).
  cbn [nth Nat.add Nat.modulo Nat.divmod fst snd Nat.sub]. ring.
Qed.
Context (D1 : p_rows P' = p_rows P) (D2 : p_cols P' = p_cols P) (D3 : p_per P' = p_per P).
Context (GO : forall r c, (forall q, q < 4 -> (r, c) <> x q) -> gamma P' r c = gamma P r c).
Context (LO : forall b', In b' (bs P) -> (forall q, q < 4 -> b' <> b q) -> lam_of P' b' = lam_of P b').
Lemma not_site r c : ~ In (r, c) loop_sites -> forall q, q < 4 -> (r, c) <> x q.
Proof using. clear. intros N q Hq E. apply N. unfold loop_sites. destruct (four_cases q Hq) as [K|[K|[K|K]]]; subst q; rewrite E; cbn; auto. Qed.
Lemma not_bond b' : ~ In b' loop_bonds -> forall q, q < 4 -> b' <> b q.
Proof using. clear. intros N q Hq E. apply N. unfold loop_bonds. destruct (four_cases q Hq) as [K|[K|[K|K]]]; subst q; rewrite E; cbn; auto. Qed.
Lemma site_in q : q < 4 -> In (x q) loop_sites.
Proof using. clear. intros Hq. unfold loop_sites. destruct (four_cases q Hq) as [K|[K|[K|K]]]; subst q; cbn; auto. Qed.
Lemma sites_nodup : NoDup loop_sites.
Proof.
  unfold loop_sites. repeat (constructor; [cbn [In]; intros H; repeat match goal with H : _ \/ _ |- _ => destruct H as [H|H] end; try contradiction; apply NX in H; lia|]). constructor.
Qed.
Lemma bonds_nodup : NoDup loop_bonds.
Proof.
  unfold loop_bonds. repeat (constructor; [cbn [In]; intros H; repeat match goal with H : _ \/ _ |- _ => destruct H as [H|H] end; try contradiction; apply NB in H; lia|]). constructor.
Qed.
Lemma far r c l b' : r < p_rows P -> c < p_cols P -> ~ In (r, c) loop_sites -> l < 4 -> lb P r c l = Some b' -> ~ In b' loop_bonds.
Proof using Un. clear - Un.
  intros Hr Hc N Hl E [H|[H|[H|[H|[]]]]]; subst b'; [destruct (Un 0 r c l) as (q & Hq & X & _)|destruct (Un 1 r c l) as (q & Hq & X & _)|destruct (Un 2 r c l) as (q & Hq & X & _)|destruct (Un 3 r c l) as (q & Hq & X & _)]; try assumption; try lia; apply N; rewrite X; apply site_in; exact Hq.
Qed.
(** the weights on the legs out of the loop: values that are there, and that can be inverted *)
Definition outer_fine (f : nat -> nat -> nat) : Prop := forall q l, q < 4 -> l < 4 -> l <> ll q -> l <> lr q ->
  f q l < length (wt P (fst (x q)) (snd (x q)) l) /\ good tol (wt P (fst (x q)) (snd (x q)) l) (f q l).
Context (s : basis) {T : Type} (ts : list T) (k : T -> C) (old : T -> nat -> nat).
Context (BLOCK : forall f, outer_fine f -> loop_value P' (fun q => s (fst (x q)) (snd (x q))) f = sumC (fun t => (k t * loop_value P (old t) f)%C) ts).
Definition with_sites (p : nat -> nat) : basis := at_site (at_site (at_site (at_site s (x 0) (p 0)) (x 1) (p 1)) (x 2) (p 2)) (x 3) (p 3).
Lemma with_sites_at p q : q < 4 -> with_sites p (fst (x q)) (snd (x q)) = p q.
Proof.
  intros Hq. unfold with_sites. destruct (four_cases q Hq) as [E|[E|[E|E]]]; subst q;
  repeat first [rewrite at_other by (rewrite <- surjective_pairing; intros Q; apply NX in Q; lia)
  | match goal with |- at_site _ ?y ?v (fst ?y) (snd ?y) = _ => rewrite (surjective_pairing y) at 1; apply at_same end].
Qed.
Theorem quad_wave : wave P' s = sumC (fun t => (k t * wave P (with_sites (old t)))%C) ts.
Proof.
  apply (patch P P' loop_sites loop_bonds ts k (fun t => with_sites (old t))); try assumption.
  - exact sites_nodup.
  - intros y Hy. destruct y as [r c]. apply grid_in. destruct Hy as [H|[H|[H|[H|[]]]]]; [specialize (IX 0 ltac:(lia))|specialize (IX 1 ltac:(lia))|specialize (IX 2 ltac:(lia))|specialize (IX 3 ltac:(lia))]; rewrite H in IX; exact IX.
  - exact bonds_nodup.
  - intros y [H|[H|[H|[H|[]]]]]; subst y; apply HB; lia.
  - exact far.
  - intros r c N. apply GO. apply not_site. exact N.
  - intros b' Hb N. apply LO; [exact Hb|]. apply not_bond. exact N.
  - intros t r c N. unfold with_sites. rewrite !at_other by (apply (not_site r c N); lia). reflexivity.
  - intros a A. rewrite inner_four by assumption. rewrite BLOCK.
    + apply sumC_ext. intros t _. rewrite inner_four by reflexivity. f_equal. unfold loop_value. rewrite !with_sites_at by (clear; lia). reflexivity.
    + intros q l Hq Hl N1 N2. destruct (IX q Hq) as [Hr Hc]. apply leg_good; try assumption. intros b' E. apply A; [apply (leg_in _ _ _ (fst (x q)) (snd (x q)) l); assumption|].
      intros [H|[H|[H|[H|[]]]]]; subst b'; [destruct (Un 0 _ _ l ltac:(lia) Hr Hc Hl E) as (q' & Hq' & X & D)|destruct (Un 1 _ _ l ltac:(lia) Hr Hc Hl E) as (q' & Hq' & X & D)|destruct (Un 2 _ _ l ltac:(lia) Hr Hc Hl E) as (q' & Hq' & X & D)|destruct (Un 3 _ _ l ltac:(lia) Hr Hc Hl E) as (q' & Hq' & X & D)];
      rewrite <- surjective_pairing in X; apply NX in X; try assumption; subst q'; destruct D as [[-> _]|[-> _]]; contradiction.
Qed.
Context (WP : forall r c l, r < p_rows P -> c < p_cols P -> l < 4 -> (forall q, q < 4 -> lb P r c l <> Some (b q)) -> wt P' r c l = wt P r c l).
Theorem quad_fitted :
  (forall q, q < 4 -> shape (gamma P' (fst (x q)) (snd (x q))) = map (fun l => length (if l =? lr q then lam_of P' (b q) else if l =? ll q then lam_of P' (b (before q)) else wt P (fst (x q)) (snd (x q)) l)) [0; 1; 2; 3] ++ [phys P (fst (x q)) (snd (x q))]) ->
  (forall q, q < 4 -> kept tol (lam_of P' (b q))) -> fitted tol P' /\ same_sites P P'.
Proof using D1 D2 D3 ER EL F GO IX L4 LO NX Un WP.
  clear BLOCK. clear ts k old s T HB NB. intros SG KB. apply (fitted_patch tol P P' loop_sites loop_bonds); try assumption.
  - intros r c N. apply GO. apply not_site. exact N.
  - intros b' Hb N. apply LO; [exact Hb|]. apply not_bond. exact N.
  - intros r c l Hr Hc Hl N. apply WP; try assumption. intros q Hq Q. apply (N _ Q). unfold loop_bonds. destruct (four_cases q Hq) as [E|[E|[E|E]]]; subst q; cbn; auto.
  - exact far.
  - intros r c H. assert (W : exists q, q < 4 /\ (r, c) = x q) by (destruct H as [H|[H|[H|[H|[]]]]]; [exists 0|exists 1|exists 2|exists 3]; split; auto; lia).
    destruct W as (q & Hq & E). replace r with (fst (x q)) by (rewrite <- E; reflexivity). replace c with (snd (x q)) by (rewrite <- E; reflexivity). rewrite (SG q Hq). destruct (IX q Hq) as [Hr Hc]. destruct (L4 q Hq) as (L1 & L2 & L3).
    assert (V : forall l, l < 4 -> (if l =? lr q then lam_of P' (b q) else if l =? ll q then lam_of P' (b (before q)) else wt P (fst (x q)) (snd (x q)) l) = wt P' (fst (x q)) (snd (x q)) l).
    { intros l Hl. destruct (Nat.eqb_spec l (lr q)) as [->|N]; [symmetry; apply wt_bond; rewrite ?D1, ?D2, ?D3; try assumption; apply ER; exact Hq|].
      destruct (Nat.eqb_spec l (ll q)) as [->|N']; [symmetry; apply wt_bond; rewrite ?D1, ?D2, ?D3; try assumption; apply EL; exact Hq|].
      symmetry. apply WP; try assumption. intros q' Hq' Q. destruct (Un q' _ _ l Hq' Hr Hc Hl Q) as (q2 & Hq2 & X & D). rewrite <- surjective_pairing in X. apply NX in X; try assumption. subst q2. destruct D as [[-> _]|[-> _]]; contradiction. }
    cbn [map app]. rewrite (V 0), (V 1), (V 2), (V 3) by (clear; lia). reflexivity.
  - intros b' [H|[H|[H|[H|[]]]]]; subst b'; apply KB; lia.
Qed.
End Quad.
