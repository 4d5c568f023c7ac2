(** The triangle projections on the wave function. *)
From Coq Require Import List Arith Lia Bool Reals Lra Permutation.
From Verif Require Import Base Cplx SumModel SumSpec SumProofs NetSum PbcProofs TrgTensor BmpsAlg ProjModel ProjSpec ProjAlg ProjTwo ProjPatch ProjGrid ProjWave ProjThree.
Import ListNotations.
Local Open Scope nat_scope.

(** the index of a site *)
Definition ix (f : nat -> nat) (p : nat) : list nat := [f 0; f 1; f 2; f 3; p].
Lemma inner_three x y z b1 b2 Q s a : b1 <> b2 -> inner [x; y; z] [b1; b2] Q s a =
  sm (length (lam_of Q b1)) (fun i => sm (length (lam_of Q b2)) (fun j =>
    (site_of Q s (up (up a b1 i) b2 j) x * el (lam_of Q b1) i * site_of Q s (up (up a b1 i) b2 j) y * el (lam_of Q b2) j * site_of Q s (up (up a b1 i) b2 j) z)%C)).
Proof.
  intros N. unfold inner. cbn [gsum]. unfold sm. change (dims_of Q b1) with (length (lam_of Q b1)). apply sumC_ext. intros i _. change (dims_of Q b2) with (length (lam_of Q b2)). apply sumC_ext. intros j _.
  cbn [prodC fold_right]. unfold weight_of at 1 2. rewrite upd_same. rewrite (upd_other bond_eq_dec (up a b1 i) b2 j b1 N). rewrite upd_same. ring.
Qed.
Lemma wave_ext P s t : (forall r c, r < p_rows P -> c < p_cols P -> s r c = t r c) -> wave P s = wave P t.
Proof.
  intros H. unfold wave. rewrite !sum_over_gsum. apply gsum_ext_all. intros a. f_equal. apply prodC_ext. intros [r c] Hg. apply grid_in in Hg. cbn [fst snd]. unfold index_at. rewrite H by tauto. reflexivity.
Qed.

Definition same_sites (P P' : peps) : Prop :=
  p_rows P' = p_rows P /\ p_cols P' = p_cols P /\ p_per P' = p_per P /\ forall r c, r < p_rows P -> c < p_cols P -> phys P' r c = phys P r c.
Lemma fitted_patch tol P P' X I : fitted tol P -> p_rows P' = p_rows P -> p_cols P' = p_cols P -> p_per P' = p_per P ->
  (forall r c, ~ In (r, c) X -> gamma P' r c = gamma P r c) -> (forall b, In b (bs P) -> ~ In b I -> lam_of P' b = lam_of P b) ->
  (forall r c l, r < p_rows P -> c < p_cols P -> l < 4 -> (forall b, lb P r c l = Some b -> ~ In b I) -> wt P' r c l = wt P r c l) ->
  (forall r c l b, r < p_rows P -> c < p_cols P -> ~ In (r, c) X -> l < 4 -> lb P r c l = Some b -> ~ In b I) ->
  (forall r c, In (r, c) X -> shape (gamma P' r c) = [length (wt P' r c 0); length (wt P' r c 1); length (wt P' r c 2); length (wt P' r c 3); phys P r c]) ->
  (forall b, In b I -> kept tol (lam_of P' b)) -> fitted tol P' /\ same_sites P P'.
Proof.
  intros (T & SH & KE & OP) D1 D2 D3 GO LO WO FAR SX KI.
  assert (PH : forall r c, r < p_rows P -> c < p_cols P -> phys P' r c = phys P r c).
  { intros r c Hr Hc. destruct (in_dec site_dec (r, c) X) as [H|H]; [|unfold phys; rewrite GO by exact H; reflexivity]. unfold phys at 1. rewrite (dimat_shape _ _ _ (SX r c H)). reflexivity. }
  split; [|split; [exact D1|split; [exact D2|split; [exact D3|exact PH]]]]. split; [exact T|]. rewrite D1, D2, D3. split; [|split].
  - intros r c Hr Hc. rewrite PH by assumption. destruct (in_dec site_dec (r, c) X) as [H|H]; [apply SX; exact H|]. rewrite GO by exact H. rewrite SH by assumption.
    rewrite !WO; try assumption; try lia; [reflexivity|intros b E; apply (FAR r c _ b) in E; try assumption; lia..].
  - intros b Hb. destruct (in_dec bond_eq_dec b I) as [H|H]; [apply KI; exact H|]. rewrite LO by assumption. apply KE. exact Hb.
  - intros r c l Hr Hc Hl E. rewrite WO; try assumption; [apply OP; assumption|]. intros b Q. congruence.
Qed.

Section Tri.
Context (tol : R) (P P' : peps) (F : fitted tol P).
Context (rA cA rM cM rB cB la mx my lb' : nat) (bx by' : bond) (s1 s2 : list R) (gA gM gB : tensor) (da dm db : nat) (nu : C) (G : nat -> nat -> nat -> C).
Context (IA : rA < p_rows P /\ cA < p_cols P) (IM : rM < p_rows P /\ cM < p_cols P) (IB : rB < p_rows P /\ cB < p_cols P).
Context (NAM : (rA, cA) <> (rM, cM)) (NAB : (rA, cA) <> (rB, cB)) (NMB : (rM, cM) <> (rB, cB)).
Context (Hx : In bx (bs P)) (Hy : In by' (bs P)) (Nb : bx <> by').
Context (EA : lb P rA cA la = Some bx) (EMx : lb P rM cM mx = Some bx) (EMy : lb P rM cM my = Some by') (EB : lb P rB cB lb' = Some by').
Context (Ux : forall r c l, r < p_rows P -> c < p_cols P -> l < 4 -> lb P r c l = Some bx -> ((r, c) = (rA, cA) /\ l = la) \/ ((r, c) = (rM, cM) /\ l = mx)).
Context (Uy : forall r c l, r < p_rows P -> c < p_cols P -> l < 4 -> lb P r c l = Some by' -> ((r, c) = (rM, cM) /\ l = my) \/ ((r, c) = (rB, cB) /\ l = lb')).
Context (D1 : p_rows P' = p_rows P) (D2 : p_cols P' = p_cols P) (D3 : p_per P' = p_per P).
Context (GA : gamma P' rA cA = gA) (GM : gamma P' rM cM = gM) (GB : gamma P' rB cB = gB).
Context (GO : forall r c, (r, c) <> (rA, cA) -> (r, c) <> (rM, cM) -> (r, c) <> (rB, cB) -> gamma P' r c = gamma P r c).
Context (LX : lam_of P' bx = s1) (LY : lam_of P' by' = s2) (LO : forall b, In b (bs P) -> b <> bx -> b <> by' -> lam_of P' b = lam_of P b).
Context (x : basis).
Definition fine (r c l v : nat) : Prop := v < length (wt P r c l) /\ good tol (wt P r c l) v.
Context (BLOCK : forall fA fM fB,
  (forall l, l < 4 -> l <> la -> fine rA cA l (fA l)) -> (forall l, l < 4 -> l <> mx -> l <> my -> fine rM cM l (fM l)) -> (forall l, l < 4 -> l <> lb' -> fine rB cB l (fB l)) ->
  sm (length s1) (fun z => sm (length s2) (fun w => (entry gA (ix (but_leg fA la z) (x rA cA)) * el s1 z * entry gM (ix (but_leg (but_leg fM mx z) my w) (x rM cM)) * el s2 w * entry gB (ix (but_leg fB lb' w) (x rB cB)))%C)) =
  (nu * sm da (fun p => sm dm (fun q => sm db (fun o => (sm (length (lam_of P bx)) (fun z => sm (length (lam_of P by')) (fun w =>
    (entry (gamma P rA cA) (ix (but_leg fA la z) p) * el (lam_of P bx) z * entry (gamma P rM cM) (ix (but_leg (but_leg fM mx z) my w) q) * el (lam_of P by') w * entry (gamma P rB cB) (ix (but_leg fB lb' w) o))%C)) * G p q o)%C))))%C).

Lemma index_A s a z w : index_at P s (up (up a bx z) by' w) rA cA = ix (but_leg (lv P a rA cA) la z) (s rA cA).
Proof.
  apply (index_is P s _ rA cA (but_leg (lv P a rA cA) la z)). intros l Hl. rewrite lv_miss by (intros Q; destruct (Uy rA cA l (proj1 IA) (proj2 IA) Hl Q) as [[K _]|[K _]]; congruence).
  unfold but_leg. destruct (Nat.eqb_spec l la) as [->|N]; [apply lv_hit; exact EA|]. apply lv_miss. intros Q. destruct (Ux rA cA l (proj1 IA) (proj2 IA) Hl Q) as [[_ K]|[K _]]; congruence.
Qed.
Lemma index_B s a z w : index_at P s (up (up a bx z) by' w) rB cB = ix (but_leg (lv P a rB cB) lb' w) (s rB cB).
Proof.
  apply (index_is P s _ rB cB (but_leg (lv P a rB cB) lb' w)). intros l Hl. unfold but_leg. destruct (Nat.eqb_spec l lb') as [->|N]; [apply lv_hit; exact EB|].
  rewrite lv_miss by (intros Q; destruct (Uy rB cB l (proj1 IB) (proj2 IB) Hl Q) as [[K _]|[_ K]]; congruence). apply lv_miss. intros Q. destruct (Ux rB cB l (proj1 IB) (proj2 IB) Hl Q) as [[K _]|[K _]]; congruence.
Qed.
Lemma index_M s a z w : index_at P s (up (up a bx z) by' w) rM cM = ix (but_leg (but_leg (lv P a rM cM) mx z) my w) (s rM cM).
Proof.
  apply (index_is P s _ rM cM (but_leg (but_leg (lv P a rM cM) mx z) my w)). intros l Hl. unfold but_leg. destruct (Nat.eqb_spec l my) as [->|N]; [apply lv_hit; exact EMy|].
  rewrite lv_miss by (intros Q; destruct (Uy rM cM l (proj1 IM) (proj2 IM) Hl Q) as [[_ K]|[K _]]; congruence).
  destruct (Nat.eqb_spec l mx) as [->|N']; [apply lv_hit; exact EMx|]. apply lv_miss. intros Q. destruct (Ux rM cM l (proj1 IM) (proj2 IM) Hl Q) as [[K _]|[_ K]]; congruence.
Qed.
Lemma index_same s a r c : index_at P' s a r c = index_at P s a r c.
Proof. unfold index_at. rewrite D1, D2, D3. reflexivity. Qed.
Theorem tri_wave : wave P' x = (nu * sm da (fun p => sm dm (fun q => sm db (fun o => (G p q o * wave P (at_site (at_site (at_site x (rA, cA) p) (rM, cM) q) (rB, cB) o))%C))))%C.
Proof.
  transitivity (sumC (fun t => ((nu * G (fst t) (fst (snd t)) (snd (snd t))) * wave P (at_site (at_site (at_site x (rA, cA) (fst t)) (rM, cM) (fst (snd t))) (rB, cB) (snd (snd t))))%C) (list_prod (seq 0 da) (list_prod (seq 0 dm) (seq 0 db)))).
  2:{ rewrite sumC_prod. rewrite <- sm_scal. apply sumC_ext. intros p _. rewrite sumC_prod. rewrite <- sm_scal. apply sumC_ext. intros q _. rewrite <- sm_scal. apply sumC_ext. intros o _. cbn [fst snd]. ring. }
  apply (patch P P' [(rA, cA); (rM, cM); (rB, cB)] [bx; by']); try assumption.
  - constructor; [intros [Q|[Q|[]]]; congruence|]. constructor; [intros [Q|[]]; congruence|]. constructor; [intros []|constructor].
  - intros y [<-|[<-|[<-|[]]]]; apply grid_in; assumption.
  - constructor; [intros [Q|[]]; congruence|]. constructor; [intros []|constructor].
  - intros y [<-|[<-|[]]]; assumption.
  - intros r c l b Hr Hc N Hl E [<-|[<-|[]]]; apply N; [destruct (Ux r c l Hr Hc Hl E) as [[-> _]|[-> _]]|destruct (Uy r c l Hr Hc Hl E) as [[-> _]|[-> _]]]; cbn; auto.
  - intros r c N. apply GO; intros Q; apply N; rewrite Q; cbn; auto.
  - intros b Hb N. apply LO; [exact Hb|intros ->; apply N; cbn; auto..].
  - intros t r c N. rewrite !at_other; [reflexivity|intros Q; apply N; rewrite Q; cbn; auto..].
  - intros a A.
    assert (GOOD : forall r c l, r < p_rows P -> c < p_cols P -> l < 4 -> lb P r c l <> Some bx -> lb P r c l <> Some by' -> fine r c l (lv P a r c l)).
    { intros r c l Hr Hc Hl N1 N2. apply leg_good; try assumption. intros b E. apply A; [apply (leg_in _ _ _ r c l); assumption|]. intros [<-|[<-|[]]]; contradiction. }
    rewrite inner_three by exact Nb. rewrite LX, LY.
    transitivity (sm (length s1) (fun z => sm (length s2) (fun w => (entry gA (ix (but_leg (lv P a rA cA) la z) (x rA cA)) * el s1 z * entry gM (ix (but_leg (but_leg (lv P a rM cM) mx z) my w) (x rM cM)) * el s2 w * entry gB (ix (but_leg (lv P a rB cB) lb' w) (x rB cB)))%C))).
    { apply sm_ext. intros z _. apply sm_ext. intros w _. unfold site_of. cbn [fst snd]. rewrite !index_same, index_A, index_M, index_B, GA, GM, GB. reflexivity. }
    rewrite BLOCK.
    + rewrite sumC_prod. rewrite <- sm_scal. apply sumC_ext. intros p _. rewrite sumC_prod. rewrite <- sm_scal. apply sumC_ext. intros q _. rewrite <- sm_scal. apply sumC_ext. intros o _. cbn [fst snd].
      rewrite inner_three by exact Nb. match goal with |- (_ * (?S * _))%C = (_ * ?T)%C => assert (E : S = T) end; [|rewrite E; ring].
      apply sm_ext. intros z _. apply sm_ext. intros w _. unfold site_of. cbn [fst snd]. rewrite index_A, index_M, index_B.
      rewrite (at_other _ (rB, cB) o rA cA NAB), (at_other _ (rM, cM) q rA cA NAM), at_same, (at_other _ (rB, cB) o rM cM NMB), !at_same. reflexivity.
    + intros l Hl N. destruct IA. apply GOOD; try assumption; intros Q; [destruct (Ux rA cA l) as [[_ K]|[K _]]|destruct (Uy rA cA l) as [[K _]|[K _]]]; try assumption; congruence.
    + intros l Hl N N'. destruct IM. apply GOOD; try assumption; intros Q; [destruct (Ux rM cM l) as [[K _]|[_ K]]|destruct (Uy rM cM l) as [[_ K]|[K _]]]; try assumption; congruence.
    + intros l Hl N. destruct IB. apply GOOD; try assumption; intros Q; [destruct (Ux rB cB l) as [[K _]|[K _]]|destruct (Uy rB cB l) as [[K _]|[_ K]]]; try assumption; congruence.
Qed.

Context (WP : forall r c l, r < p_rows P -> c < p_cols P -> l < 4 -> lb P r c l <> Some bx -> lb P r c l <> Some by' -> wt P' r c l = wt P r c l).
Context (la4 : la < 4) (mx4 : mx < 4) (my4 : my < 4) (lb4 : lb' < 4).
Theorem tri_fitted :
  shape gA = map (fun l => length (if l =? la then s1 else wt P rA cA l)) [0; 1; 2; 3] ++ [phys P rA cA] ->
  shape gM = map (fun l => length (if l =? mx then s1 else if l =? my then s2 else wt P rM cM l)) [0; 1; 2; 3] ++ [phys P rM cM] ->
  shape gB = map (fun l => length (if l =? lb' then s2 else wt P rB cB l)) [0; 1; 2; 3] ++ [phys P rB cB] ->
  kept tol s1 -> kept tol s2 -> fitted tol P' /\ same_sites P P'.
Proof.
  intros SA SM SB K1 K2.
  assert (HX : forall r c l, r < p_rows P -> c < p_cols P -> l < 4 -> lb P r c l = Some bx -> wt P' r c l = s1).
  { intros r c l Hr Hc Hl E. rewrite <- LX. apply wt_bond; rewrite ?D1, ?D2, ?D3; assumption. }
  assert (HY : forall r c l, r < p_rows P -> c < p_cols P -> l < 4 -> lb P r c l = Some by' -> wt P' r c l = s2).
  { intros r c l Hr Hc Hl E. rewrite <- LY. apply wt_bond; rewrite ?D1, ?D2, ?D3; assumption. }
  apply (fitted_patch tol P P' [(rA, cA); (rM, cM); (rB, cB)] [bx; by']); try assumption.
  - intros r c N. apply GO; intros Q; apply N; rewrite Q; cbn; auto.
  - intros b Hb N. apply LO; [exact Hb|intros ->; apply N; cbn; auto..].
  - intros r c l Hr Hc Hl N. apply WP; try assumption; intros Q; apply (N _ Q); cbn; auto.
  - intros r c l b Hr Hc N Hl E [<-|[<-|[]]]; apply N; [destruct (Ux r c l Hr Hc Hl E) as [[-> _]|[-> _]]|destruct (Uy r c l Hr Hc Hl E) as [[-> _]|[-> _]]]; cbn; auto.
  - destruct IA as [A1 A2], IM as [M1 M2], IB as [B1 B2]. intros r c [Q|[Q|[Q|[]]]]; injection Q as <- <-.
    + rewrite GA, SA. assert (H : forall l, l < 4 -> (if l =? la then s1 else wt P rA cA l) = wt P' rA cA l).
      { intros l Hl. destruct (Nat.eqb_spec l la) as [->|N]; [symmetry; apply HX; assumption|]. symmetry. apply WP; try assumption; intros Q; [destruct (Ux rA cA l) as [[_ K]|[K _]]|destruct (Uy rA cA l) as [[K _]|[K _]]]; try assumption; congruence. }
      cbn [map app]. rewrite (H 0), (H 1), (H 2), (H 3) by (clear; lia). reflexivity.
    + rewrite GM, SM. assert (H : forall l, l < 4 -> (if l =? mx then s1 else if l =? my then s2 else wt P rM cM l) = wt P' rM cM l).
      { intros l Hl. destruct (Nat.eqb_spec l mx) as [->|N]; [symmetry; apply HX; assumption|]. destruct (Nat.eqb_spec l my) as [->|N']; [symmetry; apply HY; assumption|].
        symmetry. apply WP; try assumption; intros Q; [destruct (Ux rM cM l) as [[K _]|[_ K]]|destruct (Uy rM cM l) as [[_ K]|[K _]]]; try assumption; congruence. }
      cbn [map app]. rewrite (H 0), (H 1), (H 2), (H 3) by (clear; lia). reflexivity.
    + rewrite GB, SB. assert (H : forall l, l < 4 -> (if l =? lb' then s2 else wt P rB cB l) = wt P' rB cB l).
      { intros l Hl. destruct (Nat.eqb_spec l lb') as [->|N]; [symmetry; apply HY; assumption|]. symmetry. apply WP; try assumption; intros Q; [destruct (Ux rB cB l) as [[K _]|[K _]]|destruct (Uy rB cB l) as [[K _]|[_ K]]]; try assumption; congruence. }
      cbn [map app]. rewrite (H 0), (H 1), (H 2), (H 3) by (clear; lia). reflexivity.
  - intros b [<-|[<-|[]]]; [rewrite LX|rewrite LY]; assumption.
Qed.
End Tri.
