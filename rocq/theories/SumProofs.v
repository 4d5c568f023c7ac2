(** Amplitudes of direct sums. *)
From Coq Require Import List Arith Lia Bool Reals Lra.
From Verif Require Import Base Cplx SumModel SumSpec.
Import ListNotations.
Local Open Scope nat_scope.

(** *** Sums over bond values *)
Lemma assign_same a b i : assign a b i b = i.
Proof. unfold assign. destruct (bond_eq_dec b b); [reflexivity|contradiction]. Qed.
Lemma assign_other a b i b' : b' <> b -> assign a b i b' = a b'.
Proof. intros E. unfold assign. destruct (bond_eq_dec b' b); [contradiction|reflexivity]. Qed.
Lemma sum_over_zero bs d f (P : bond -> nat -> Prop) : (forall a, (exists b, ~ In b bs /\ P b (a b)) -> f a = RtoC 0) ->
  forall l a, incl l bs -> (exists b, ~ In b bs /\ P b (a b)) -> sum_over l d f a = RtoC 0.
Proof.
  intros Z. induction l as [|b l IH]; intros a I (b0 & N & Hp); cbn [sum_over]; [apply Z; eauto|]. apply sumC_zero. intros i _. apply IH; [intros x Hx; apply I; right; exact Hx|].
  exists b0. split; [exact N|]. rewrite assign_other; [exact Hp|]. intros ->. apply N, I. left. reflexivity.
Qed.
Lemma sum_over_vanish l d f : (forall a, f a = RtoC 0) -> forall a, sum_over l d f a = RtoC 0.
Proof. intros Z. induction l as [|b l IH]; intros a; cbn [sum_over]; [apply Z|]. apply sumC_zero. intros i _. apply IH. Qed.
(** [f] vanishes when a bond of [all] fails [P], and is [g] of the related assignment when all satisfy it *)
Section Part.
Variables (all : list bond) (D D' lo : bond -> nat) (f g : (bond -> nat) -> C).
Hypothesis fits : forall b, lo b + D' b <= D b.
(** the window of values [lo b <= i < lo b + D' b] of a bond, renumbered from zero *)
Let win (b : bond) (i : nat) : Prop := lo b <= i < lo b + D' b.
Hypothesis off : forall a b, In b all -> a b < D b -> ~ win b (a b) -> f a = RtoC 0.
Hypothesis on : forall a a', (forall b, In b all -> win b (a b) /\ a b = lo b + a' b) -> f a = g a'.
Lemma seq_split (b : bond) : seq 0 (D b) = seq 0 (lo b) ++ map (fun i => lo b + i) (seq 0 (D' b)) ++ seq (lo b + D' b) (D b - (lo b + D' b)).
Proof.
  specialize (fits b). replace (D b) with (lo b + (D' b + (D b - (lo b + D' b)))) at 1 by lia. rewrite !seq_app. cbn [plus]. f_equal. f_equal.
  rewrite <- (Nat.add_0_r (lo b)) at 1. generalize 0 as s. generalize (D' b) as n. induction n as [|n IH]; intros s; [reflexivity|]. cbn [seq map]. f_equal. rewrite <- IH. f_equal. lia.
Qed.
Lemma off_zero l : forall a b, incl l all -> In b all -> ~ In b l -> a b < D b -> ~ win b (a b) -> sum_over l D f a = RtoC 0.
Proof.
  induction l as [|x l IH]; intros a b I Hb N Hd W; cbn [sum_over]; [eapply off; eauto|]. apply sumC_zero. intros i _.
  assert (E : assign a x i b = a b) by (apply assign_other; intros ->; apply N; left; reflexivity).
  apply (IH _ b); [intros y Hy; apply I; right; exact Hy|exact Hb|intros Hx; apply N; right; exact Hx|rewrite E; exact Hd|rewrite E; exact W].
Qed.
Lemma part_sum l : NoDup l -> incl l all -> forall a a', (forall b, In b all -> ~ In b l -> win b (a b) /\ a b = lo b + a' b) ->
  sum_over l D f a = sum_over l D' g a'.
Proof.
  induction l as [|x l IH]; intros ND I a a' R; cbn [sum_over]; [apply on; intros b Hb; apply R; auto|]. inversion ND as [|? ? Nx ND']; subst.
  assert (I' : incl l all) by (intros y Hy; apply I; right; exact Hy). assert (Hx : In x all) by (apply I; left; reflexivity).
  rewrite seq_split, !sumC_app, sumC_map.
  rewrite (sumC_zero _ (seq 0 (lo x))), (sumC_zero _ (seq (lo x + D' x) _)).
  - rewrite (sumC_ext _ (fun i => sum_over l D' g (assign a' x i))); [ring|]. intros i Hi. apply in_seq in Hi. apply IH; [exact ND'|exact I'|]. intros b Hb Nb.
    destruct (bond_eq_dec b x) as [->|E]; [rewrite !assign_same; unfold win; lia|]. rewrite !assign_other by exact E. apply R; [exact Hb|]. intros [Q|Q]; congruence.
  - intros i Hi. apply in_seq in Hi. apply (off_zero l _ x I' Hx Nx); rewrite assign_same; unfold win; lia.
  - intros i Hi. apply in_seq in Hi. pose proof (fits x). apply (off_zero l _ x I' Hx Nx); rewrite assign_same; unfold win; lia.
Qed.
End Part.
(** two non-overlapping windows on a non-empty list of bonds *)
Lemma two_parts b0 l (D1 D2 : bond -> nat) (f g1 g2 : (bond -> nat) -> C) : NoDup (b0 :: l) ->
  (forall a a', (forall b, In b (b0 :: l) -> a b < D1 b /\ a b = a' b) -> f a = g1 a') ->
  (forall a a', (forall b, In b (b0 :: l) -> D1 b <= a b /\ a b = D1 b + a' b) -> f a = g2 a') ->
  (forall a, (exists b, In b (b0 :: l) /\ a b < D1 b) -> (exists b, In b (b0 :: l) /\ D1 b <= a b) -> f a = RtoC 0) ->
  forall a a1 a2, sum_over (b0 :: l) (fun b => D1 b + D2 b) f a = (sum_over (b0 :: l) D1 g1 a1 + sum_over (b0 :: l) D2 g2 a2)%C.
Proof.
  intros ND L Hh M a a1 a2. inversion ND as [|? ? N0 ND']; subst. cbn [sum_over]. rewrite seq_app, sumC_app. cbn [plus].
  assert (I : incl l (b0 :: l)) by (intros y Hy; right; exact Hy). f_equal.
  - apply sumC_ext. intros i Hi. apply in_seq in Hi.
    set (f' := fun a => if a b0 <? D1 b0 then f a else RtoC 0).
    transitivity (sum_over l (fun b => D1 b + D2 b) f' (assign a b0 i)).
    { assert (G : forall l' a, incl l' l -> a b0 < D1 b0 -> sum_over l' (fun b => D1 b + D2 b) f a = sum_over l' (fun b => D1 b + D2 b) f' a).
      { clear a. induction l' as [|x l' IHl]; intros a Il Ha; cbn [sum_over]; [unfold f'; destruct (Nat.ltb_spec (a b0) (D1 b0)); [reflexivity|lia]|].
        apply sumC_ext. intros j _. apply IHl; [intros y Hy; apply Il; right; exact Hy|]. rewrite assign_other; [exact Ha|]. intros ->. apply N0, Il. left. reflexivity. }
      apply G; [intros y Hy; exact Hy|]. rewrite assign_same. lia. }
    apply (part_sum (b0 :: l) _ D1 (fun _ => 0)); [intros b; lia| | |exact ND'|exact I|].
    + intros a0 b Hb Hd W. unfold f'. destruct (Nat.ltb_spec (a0 b0) (D1 b0)); [|reflexivity]. apply M; [exists b0; split; [left; reflexivity|assumption]|exists b; split; [exact Hb|lia]].
    + intros a0 a' W. unfold f'. destruct (Nat.ltb_spec (a0 b0) (D1 b0)) as [_|Q]; [|destruct (W b0 (or_introl eq_refl)); lia]. apply L. intros b Hb. destruct (W b Hb). lia.
    + intros b Hb Nb. destruct Hb as [<-|Hb]; [|contradiction]. rewrite !assign_same. lia.
  - replace (seq (D1 b0) (D2 b0)) with (map (fun i => D1 b0 + i) (seq 0 (D2 b0))).
    2:{ replace (seq (D1 b0) (D2 b0)) with (seq (D1 b0 + 0) (D2 b0)) by (f_equal; lia). generalize 0 as s. generalize (D2 b0) as n. induction n as [|n IH]; intros s; [reflexivity|]. cbn [seq map]. rewrite IH. do 2 f_equal. lia. }
    rewrite sumC_map. apply sumC_ext. intros i Hi. apply in_seq in Hi.
    set (f' := fun a => if a b0 <? D1 b0 then RtoC 0 else f a).
    transitivity (sum_over l (fun b => D1 b + D2 b) f' (assign a b0 (D1 b0 + i))).
    { assert (G : forall l' a, incl l' l -> D1 b0 <= a b0 -> sum_over l' (fun b => D1 b + D2 b) f a = sum_over l' (fun b => D1 b + D2 b) f' a).
      { clear a. induction l' as [|x l' IHl]; intros a Il Ha; cbn [sum_over]; [unfold f'; destruct (Nat.ltb_spec (a b0) (D1 b0)); [lia|reflexivity]|].
        apply sumC_ext. intros j _. apply IHl; [intros y Hy; apply Il; right; exact Hy|]. rewrite assign_other; [exact Ha|]. intros ->. apply N0, Il. left. reflexivity. }
      apply G; [intros y Hy; exact Hy|]. rewrite assign_same. lia. }
    apply (part_sum (b0 :: l) _ D2 D1); [intros b; lia| | |exact ND'|exact I|].
    + intros a0 b Hb Hd W. unfold f'. destruct (Nat.ltb_spec (a0 b0) (D1 b0)); [reflexivity|]. apply M; [exists b; split; [exact Hb|lia]|exists b0; split; [left; reflexivity|assumption]].
    + intros a0 a' W. unfold f'. destruct (Nat.ltb_spec (a0 b0) (D1 b0)) as [Q|_]; [destruct (W b0 (or_introl eq_refl)); lia|]. apply Hh. intros b Hb. destruct (W b Hb). lia.
    + intros b Hb Nb. destruct Hb as [<-|Hb]; [|contradiction]. rewrite !assign_same. lia.
Qed.
Lemma sum_over_ext l d d' f f' : (forall b, In b l -> d b = d' b) -> (forall a, f a = f' a) -> forall a, sum_over l d f a = sum_over l d' f' a.
Proof.
  intros Hd Hf. induction l as [|b l IH]; intros a; cbn [sum_over]; [apply Hf|]. rewrite (Hd b) by (left; reflexivity). apply sumC_ext. intros i _. apply IH. intros x Hx. apply Hd. right. exact Hx.
Qed.
Lemma sum_over_scal l d f c : forall a, sum_over l d (fun a => (c * f a)%C) a = (c * sum_over l d f a)%C.
Proof. induction l as [|b l IH]; intros a; cbn [sum_over]; [reflexivity|]. rewrite <- sumC_scal. apply sumC_ext. intros i _. apply IH. Qed.

(** *** Products *)
Lemma prodC_ext {X} (f g : X -> C) l : (forall x, In x l -> f x = g x) -> prodC f l = prodC g l.
Proof. induction l as [|x l IH]; intros E; [reflexivity|]. cbn [prodC fold_right]. rewrite E by (left; reflexivity). f_equal. apply IH. auto with datatypes. Qed.
Lemma prodC_zero {X} (f : X -> C) l x : In x l -> f x = RtoC 0 -> prodC f l = RtoC 0.
Proof.
  induction l as [|y l IH]; intros Hx E; [destruct Hx|]. change (prodC f (y :: l)) with (f y * prodC f l)%C.
  destruct Hx as [->|Hx]; [rewrite E; ring|]. rewrite (IH Hx E). ring.
Qed.
Lemma prodC_scal {X} (f : X -> C) c l : prodC (fun x => (RtoC c * f x)%C) l = (RtoC (c ^ length l) * prodC f l)%C.
Proof.
  induction l as [|x l IH]; [cbn; ring|]. change (prodC (fun x => (RtoC c * f x)%C) (x :: l)) with ((RtoC c * f x) * prodC (fun x => (RtoC c * f x)%C) l)%C.
  rewrite IH. change (prodC f (x :: l)) with (f x * prodC f l)%C. cbn [length pow]. rewrite RtoC_mul. ring.
Qed.

(** *** The lattice *)
Lemma grid_in rows cols r c : In (r, c) (grid rows cols) <-> r < rows /\ c < cols.
Proof. unfold grid. rewrite in_prod_iff, !in_seq. lia. Qed.
Lemma grid_nodup rows cols : NoDup (grid rows cols).
Proof.
  unfold grid. generalize (seq_NoDup cols 0). generalize (seq 0 cols) as l'. intros l' N'. generalize (seq_NoDup rows 0). generalize (seq 0 rows) as l.
  induction l as [|x l IH]; intros ND; [constructor|]. inversion ND as [|? ? Nx ND']; subst. cbn [list_prod]. specialize (IH ND').
  assert (D : forall y, In (x, y) (list_prod l l') -> False) by (intros y Hy; apply in_prod_iff in Hy; tauto). revert IH D N'. generalize (list_prod l l') as L. intros L IH D. revert IH. generalize l' as m. clear - D. intros m IH. induction m as [|y m IHm]; intros N'; [exact IH|].
  inversion N'; subst. cbn [map app]. constructor; [|auto]. intros Q. apply in_app_or in Q. destruct Q as [Q|Q]; [|eapply D; exact Q]. apply in_map_iff in Q. destruct Q as (z & E & Hz). congruence.
Qed.
Lemma bonds_in rows cols per b : In b (bonds rows cols per) <->
  match b with Hor r c => r < rows /\ c < (if per then cols else cols - 1) | Ver r c => r < (if per then rows else rows - 1) /\ c < cols end.
Proof.
  unfold bonds. rewrite in_app_iff, !in_map_iff. destruct b as [r c|r c].
  - split; [intros [((r' & c') & E & Hp)|((r' & c') & E & _)]; [injection E as <- <-; apply grid_in in Hp; exact Hp|discriminate]|]. intros Hp. left. exists (r, c). split; [reflexivity|apply grid_in; exact Hp].
  - split; [intros [((r' & c') & E & _)|((r' & c') & E & Hp)]; [discriminate|injection E as <- <-; apply grid_in in Hp; exact Hp]|]. intros Hp. right. exists (r, c). split; [reflexivity|apply grid_in; exact Hp].
Qed.
Lemma map_nodup {X Y} (f : X -> Y) l : (forall x y, f x = f y -> x = y) -> NoDup l -> NoDup (map f l).
Proof. intros I ND. induction ND as [|x l N _ IH]; [constructor|]. cbn [map]. constructor; [|exact IH]. intros Q. apply in_map_iff in Q. destruct Q as (y & E & Hy). apply I in E. congruence. Qed.
Lemma bonds_nodup rows cols per : NoDup (bonds rows cols per).
Proof.
  unfold bonds. assert (A : NoDup (map (fun rc => Hor (fst rc) (snd rc)) (grid rows (if per then cols else cols - 1)))) by (apply map_nodup; [intros [] [] E; cbn in E; congruence|apply grid_nodup]).
  assert (B : NoDup (map (fun rc => Ver (fst rc) (snd rc)) (grid (if per then rows else rows - 1) cols))) by (apply map_nodup; [intros [] [] E; cbn in E; congruence|apply grid_nodup]).
  revert A. generalize (grid rows (if per then cols else cols - 1)) as l. induction l as [|x l IH]; intros A; [exact B|]. cbn [map app] in *. inversion A as [|? ? Nx A']; subst. constructor; [|auto].
  intros Q. apply in_app_or in Q. destruct Q as [Q|Q]; [contradiction|]. apply in_map_iff in Q. destruct Q as (y & E & _). discriminate.
Qed.
Lemma leg_in rows cols per r c l b : r < rows -> c < cols -> leg_bond rows cols per r c l = Some b -> In b (bonds rows cols per).
Proof.
  intros Hr Hc E. rewrite bonds_in. destruct per; destruct l as [|[|[|l]]]; cbn [leg_bond] in E; rewrite ?orb_true_r, ?orb_false_r in E;
    repeat match type of E with context [?x <? ?y] => destruct (Nat.ltb_spec x y) end; try discriminate; injection E as <-; lia.
Qed.
(** the legs that are expanded are those with a bond *)
Lemma expand_leg rows cols per r c l : r < rows -> c < cols -> l < 4 ->
  mem l (expand_indices r c rows cols per) = match leg_bond rows cols per r c l with Some _ => true | None => false end.
Proof.
  intros Hr Hc Hl. unfold expand_indices. destruct per.
  - destruct l as [|[|[|[|l]]]]; [| | | |lia]; cbn [leg_bond mem existsb Nat.eqb orb]; rewrite ?orb_true_r; try reflexivity; [destruct (0 <? c)|destruct (0 <? r)]; reflexivity.
  - replace (r <? rows - 1) with (r + 1 <? rows) by (destruct (Nat.ltb_spec (r + 1) rows), (Nat.ltb_spec r (rows - 1)); try reflexivity; lia).
    replace (c <? cols - 1) with (c + 1 <? cols) by (destruct (Nat.ltb_spec (c + 1) cols), (Nat.ltb_spec c (cols - 1)); try reflexivity; lia).
    destruct l as [|[|[|[|l]]]]; [| | | |lia]; cbn [leg_bond]; destruct (0 <? c), (r + 1 <? rows), (c + 1 <? cols), (0 <? r); reflexivity.
Qed.
Lemma expand_lt4 rows cols per r c l : In l (expand_indices r c rows cols per) -> l < 4.
Proof.
  unfold expand_indices. destruct per; [cbn; lia|]. rewrite !in_app_iff. destruct (0 <? c), (r <? rows - 1), (c <? cols - 1), (0 <? r); cbn; lia.
Qed.
Lemma mem_in l x : mem l x = true <-> In l x.
Proof. unfold mem. rewrite existsb_exists. split; [intros (y & Hy & E); apply Nat.eqb_eq in E; congruence|intros Hl; exists l; split; [exact Hl|apply Nat.eqb_refl]]. Qed.

(** *** Two states on the same lattice *)
Section S.
Variables (u v : lat) (s : nat -> nat -> nat).
Hypothesis MU : matched u.
Hypothesis MV : matched v.
Hypothesis SL : same_lattice u v.
Let rows := l_rows u. Let cols := l_cols u. Let per := l_per u.
Let w := wf_sum u v.
Let B := bonds rows cols per.
Lemma sum_dim r c l b : r < rows -> c < cols -> l < 4 -> leg_bond rows cols per r c l = Some b -> dim (l_ten w r c) l = bond_dim u b + bond_dim v b.
Proof.
  intros Hr Hc Hl E. unfold w, wf_sum, site_sum. cbn [l_ten]. fold rows cols per. pose proof (expand_leg rows cols per r c l Hr Hc Hl) as X. rewrite E in X.
  destruct MU as (_ & _ & DU), MV as (_ & _ & DV). destruct SL as (S1 & S2 & S3). specialize (DU r c l b Hr Hc Hl E).
  unfold rows, cols, per in *. rewrite S1, S2, S3 in E. rewrite S1 in Hr. rewrite S2 in Hc. specialize (DV r c l b Hr Hc Hl E). rewrite S1, S2, S3 in *.
  destruct (expand_indices r c (l_rows v) (l_cols v) (l_per v)) as [|x0 x]; [discriminate|].
  unfold dim at 1. cbn [expand dims]. rewrite (nth_indep _ 0 ((fun l => if mem l (x0 :: x) then dim (l_ten u r c) l + dim (l_ten v r c) l else dim (l_ten u r c) l) 0)) by exact Hl.
  rewrite (map_nth (fun l => if mem l (x0 :: x) then dim (l_ten u r c) l + dim (l_ten v r c) l else dim (l_ten u r c) l)), seq_nth by exact Hl. cbn [plus]. rewrite X, DU, DV. reflexivity.
Qed.
Lemma in_leg b : In b B -> exists r c l, r < rows /\ c < cols /\ l < 4 /\ leg_bond rows cols per r c l = Some b /\ match b with Hor r' c' => r' = r /\ c' = c /\ l = 2 | Ver r' c' => r' = r /\ c' = c /\ l = 1 end.
Proof.
  intros Hb. unfold B in Hb. rewrite bonds_in in Hb. destruct MU as (R1 & C1 & _). fold rows in R1. fold cols in C1. destruct b as [r c|r c].
  - exists r, c, 2. assert (c < cols) by (destruct per; lia). repeat (split; [lia|]). split; [|auto]. cbn [leg_bond]. destruct (Nat.ltb_spec (c + 1) cols), per; try reflexivity; lia.
  - exists r, c, 1. assert (r < rows) by (destruct per; lia). repeat (split; [lia|]). split; [|auto]. cbn [leg_bond]. destruct (Nat.ltb_spec (r + 1) rows), per; try reflexivity; lia.
Qed.
Lemma sum_bond_dim b : In b B -> bond_dim w b = bond_dim u b + bond_dim v b.
Proof.
  intros Hb. destruct (in_leg b Hb) as (r & c & l & Hr & Hc & Hl & E & Q). rewrite <- (sum_dim r c l b Hr Hc Hl E). destruct b; destruct Q as (-> & -> & ->); reflexivity.
Qed.
Lemma sum_matched : matched w.
Proof.
  destruct MU as (R1 & C1 & _). split; [exact R1|]. split; [exact C1|]. intros r c l b Hr Hc Hl E. rewrite sum_bond_dim; [apply (sum_dim r c l b Hr Hc Hl E)|]. eapply leg_in; [exact Hr|exact Hc|exact E].
Qed.
Lemma sum_same : same_lattice w v.
Proof. exact SL. Qed.
Definition legs (a : bond -> nat) r c := map (leg_value rows cols per a r c) [0; 1; 2; 3].
Lemma legs_nth a r c l : l < 4 -> nth l (legs a r c) 0 = leg_value rows cols per a r c l.
Proof. intros Hl. destruct l as [|[|[|[|l]]]]; try reflexivity. lia. Qed.
Lemma weight_u x : l_rows x = rows -> l_cols x = cols -> l_per x = per -> forall a, weight x s a = prodC (fun rc => ent (l_ten x (fst rc) (snd rc)) (legs a (fst rc) (snd rc)) (s (fst rc) (snd rc))) (grid rows cols).
Proof. intros E1 E2 E3 a. unfold weight. rewrite E1, E2, E3. reflexivity. Qed.
(** a lattice without bonds is a single open site *)
Lemma no_bonds : B = [] -> rows = 1 /\ cols = 1 /\ per = false.
Proof.
  intros E. destruct MU as (R1 & C1 & _). fold rows in R1. fold cols in C1.
  assert (N : forall b, ~ In b B) by (intros b; rewrite E; intros []). pose proof (N (Hor 0 0)) as A. pose proof (N (Ver 0 0)) as A'. unfold B in A, A'. rewrite bonds_in in A, A'. destruct per; [lia|]. lia.
Qed.
Section A.
Variable a : bond -> nat.
Let low r c := forall l b, l < 4 -> leg_bond rows cols per r c l = Some b -> a b < bond_dim u b.
Let high r c := forall l b, l < 4 -> leg_bond rows cols per r c l = Some b -> bond_dim u b <= a b.
Let E r c := ent (l_ten w r c) (legs a r c) (s r c).
Lemma site_form r c : r < rows -> c < cols -> B <> [] -> exists x0 x, expand_indices r c rows cols per = x0 :: x /\
  E r c = ent (expand (l_ten u r c) (l_ten v r c) (x0 :: x)) (legs a r c) (s r c) /\
  (forall l, In l (x0 :: x) <-> l < 4 /\ exists b, leg_bond rows cols per r c l = Some b) /\
  forall l b, l < 4 -> leg_bond rows cols per r c l = Some b -> nth l (legs a r c) 0 = a b /\ dim (l_ten u r c) l = bond_dim u b.
Proof.
  intros Hr Hc NB. unfold E, w, wf_sum, site_sum. cbn [l_ten]. fold rows cols per. pose proof (fun l => expand_leg rows cols per r c l Hr Hc) as X.
  pose proof (fun l => expand_lt4 rows cols per r c l) as X4. destruct MU as (_ & _ & DU).
  destruct (expand_indices r c rows cols per) as [|x0 x] eqn:EX.
  { exfalso. apply NB. unfold B. assert (F : rows = 1 /\ cols = 1 /\ per = false).
    { unfold expand_indices in EX. destruct per; [discriminate|]. destruct (Nat.ltb_spec 0 c), (Nat.ltb_spec r (rows - 1)), (Nat.ltb_spec c (cols - 1)), (Nat.ltb_spec 0 r); try discriminate. lia. }
    destruct F as (-> & -> & ->). reflexivity. }
  exists x0, x. split; [reflexivity|]. split; [reflexivity|]. split.
  - intros l. split.
    + intros Hl. assert (L4 := X4 l Hl). split; [exact L4|]. apply mem_in in Hl. rewrite (X l L4) in Hl. destruct (leg_bond rows cols per r c l); [eauto|discriminate].
    + intros (L4 & b & Hb). apply mem_in. rewrite (X l L4), Hb. reflexivity.
  - intros l b Hl Hb. split; [rewrite legs_nth by exact Hl; unfold leg_value; rewrite Hb; reflexivity|exact (DU r c l b Hr Hc Hl Hb)].
Qed.
Lemma site_low r c : r < rows -> c < cols -> B <> [] -> low r c -> E r c = ent (l_ten u r c) (legs a r c) (s r c).
Proof.
  intros Hr Hc NB Lo. destruct (site_form r c Hr Hc NB) as (x0 & x & _ & -> & IN & DE). unfold expand. cbn [ent].
  replace (forallb _ _) with true; [reflexivity|]. symmetry. apply forallb_forall. intros l Hl. apply IN in Hl. destruct Hl as (L4 & b & Hb). destruct (DE l b L4 Hb) as [-> ->]. apply Nat.ltb_lt. exact (Lo l b L4 Hb).
Qed.
Lemma site_high r c a' : r < rows -> c < cols -> B <> [] -> high r c -> (forall b, In b B -> a b = bond_dim u b + a' b) -> E r c = ent (l_ten v r c) (legs a' r c) (s r c).
Proof.
  intros Hr Hc NB Hi R. destruct (site_form r c Hr Hc NB) as (x0 & x & EX & -> & IN & DE). unfold expand. cbn [ent].
  replace (forallb (fun l => nth l (legs a r c) 0 <? dim (l_ten u r c) l) (x0 :: x)) with false.
  - replace (forallb (fun l => dim (l_ten u r c) l <=? nth l (legs a r c) 0) (x0 :: x)) with true.
    + f_equal. change (legs a' r c) with (map (leg_value rows cols per a' r c) [0; 1; 2; 3]). change (seq 0 4) with [0; 1; 2; 3]. apply map_ext_in. intros l Hl. assert (L4 : l < 4) by (cbn in Hl; lia). rewrite <- EX, (expand_leg rows cols per r c l Hr Hc L4). rewrite legs_nth by exact L4. unfold leg_value.
      destruct (leg_bond rows cols per r c l) as [b|] eqn:Hb; [|reflexivity]. destruct (DE l b L4 Hb) as [_ ->]. rewrite (R b); [lia|]. eapply leg_in; [exact Hr|exact Hc|exact Hb].
    + symmetry. apply forallb_forall. intros l Hl. apply IN in Hl. destruct Hl as (L4 & b & Hb). destruct (DE l b L4 Hb) as [-> ->]. apply Nat.leb_le. exact (Hi l b L4 Hb).
  - symmetry. cbn [forallb]. destruct (proj1 (IN x0) (or_introl eq_refl)) as (L4 & b & Hb). destruct (DE x0 b L4 Hb) as [-> ->]. pose proof (Hi x0 b L4 Hb). destruct (Nat.ltb_spec (a b) (bond_dim u b)); [lia|reflexivity].
Qed.
Lemma site_mixed r c : r < rows -> c < cols -> B <> [] -> E r c <> RtoC 0 -> low r c \/ high r c.
Proof.
  intros Hr Hc NB NZ. destruct (site_form r c Hr Hc NB) as (x0 & x & _ & EE & IN & DE). rewrite EE in NZ. unfold expand in NZ. cbn [ent] in NZ.
  destruct (forallb (fun l => nth l (legs a r c) 0 <? dim (l_ten u r c) l) (x0 :: x)) eqn:F1.
  - left. intros l b Hl Hb. rewrite forallb_forall in F1. specialize (F1 l (proj2 (IN l) (conj Hl (ex_intro _ b Hb)))). apply Nat.ltb_lt in F1. destruct (DE l b Hl Hb) as [Q1 Q2]. rewrite Q1, Q2 in F1. exact F1.
  - destruct (forallb (fun l => dim (l_ten u r c) l <=? nth l (legs a r c) 0) (x0 :: x)) eqn:F2; [|contradiction].
    right. intros l b Hl Hb. rewrite forallb_forall in F2. specialize (F2 l (proj2 (IN l) (conj Hl (ex_intro _ b Hb)))). apply Nat.leb_le in F2. destruct (DE l b Hl Hb) as [Q1 Q2]. rewrite Q1, Q2 in F2. exact F2.
Qed.
Hypothesis NB : B <> [].
Hypothesis NZ : forall r c, r < rows -> c < cols -> E r c <> RtoC 0.
Lemma low_or_high r c : r < rows -> c < cols -> low r c \/ high r c.
Proof. intros Hr Hc. apply (site_mixed r c Hr Hc NB), NZ; assumption. Qed.
Lemma step_right r c (P Q : nat -> nat -> Prop) : r < rows -> c + 1 < cols -> (P = low /\ Q = high \/ P = high /\ Q = low) -> P r c -> P r (c + 1).
Proof.
  intros Hr Hc PQ HP. assert (E2 : leg_bond rows cols per r c 2 = Some (Hor r c)) by (cbn [leg_bond]; destruct (Nat.ltb_spec (c + 1) cols); [reflexivity|lia]).
  assert (E0 : leg_bond rows cols per r (c + 1) 0 = Some (Hor r c)) by (cbn [leg_bond]; destruct (Nat.ltb_spec 0 (c + 1)); [f_equal; f_equal; lia|lia]).
  destruct (low_or_high r (c + 1) Hr ltac:(lia)) as [Hx|Hx], PQ as [[-> ->]|[-> ->]]; try exact Hx; exfalso.
  - pose proof (HP 2 (Hor r c) ltac:(lia) E2). pose proof (Hx 0 (Hor r c) ltac:(lia) E0). lia.
  - pose proof (HP 2 (Hor r c) ltac:(lia) E2). pose proof (Hx 0 (Hor r c) ltac:(lia) E0). lia.
Qed.
Lemma step_down r c (P Q : nat -> nat -> Prop) : r + 1 < rows -> c < cols -> (P = low /\ Q = high \/ P = high /\ Q = low) -> P r c -> P (r + 1) c.
Proof.
  intros Hr Hc PQ HP. assert (E2 : leg_bond rows cols per r c 1 = Some (Ver r c)) by (cbn [leg_bond]; destruct (Nat.ltb_spec (r + 1) rows); [reflexivity|lia]).
  assert (E0 : leg_bond rows cols per (r + 1) c 3 = Some (Ver r c)) by (cbn [leg_bond]; destruct (Nat.ltb_spec 0 (r + 1)); [f_equal; f_equal; lia|lia]).
  destruct (low_or_high (r + 1) c ltac:(lia) Hc) as [Hx|Hx], PQ as [[-> ->]|[-> ->]]; try exact Hx; exfalso.
  - pose proof (HP 1 (Ver r c) ltac:(lia) E2). pose proof (Hx 3 (Ver r c) ltac:(lia) E0). lia.
  - pose proof (HP 1 (Ver r c) ltac:(lia) E2). pose proof (Hx 3 (Ver r c) ltac:(lia) E0). lia.
Qed.
Lemma everywhere (P Q : nat -> nat -> Prop) : (P = low /\ Q = high \/ P = high /\ Q = low) -> P 0 0 -> forall r c, r < rows -> c < cols -> P r c.
Proof.
  intros PQ P0. pose proof MU as (_ & C1 & _). fold cols in C1. assert (C : forall r, r < rows -> P r 0).
  { induction r as [|r IH]; intros Hr; [exact P0|]. replace (S r) with (r + 1) by lia. apply (step_down r 0 P Q); [lia|lia|exact PQ|apply IH; lia]. }
  intros r c Hr. revert r Hr. induction c as [|c IH]; intros r Hr Hc; [apply C, Hr|]. replace (S c) with (c + 1) by lia. apply (step_right r c P Q); [lia|lia|exact PQ|apply IH; lia].
Qed.
Lemma one_side : (forall b, In b B -> a b < bond_dim u b) \/ (forall b, In b B -> bond_dim u b <= a b).
Proof.
  destruct MU as (R1 & C1 & _). destruct (low_or_high 0 0 R1 C1) as [H0|H0]; [left|right]; intros b Hb; destruct (in_leg b Hb) as (r & c & l & Hr & Hc & Hl & Eb & _).
  - exact (everywhere low high (or_introl (conj eq_refl eq_refl)) H0 r c Hr Hc l b Hl Eb).
  - exact (everywhere high low (or_intror (conj eq_refl eq_refl)) H0 r c Hr Hc l b Hl Eb).
Qed.
End A.
Theorem sum_amplitude : amplitude w s = (amplitude u s + amplitude v s)%C.
Proof.
  unfold amplitude. destruct SL as (S1 & S2 & S3). rewrite <- S1, <- S2, <- S3. change (l_rows w) with rows. change (l_cols w) with cols. change (l_per w) with per. fold rows cols per.
  fold B. destruct B as [|b0 l] eqn:EB.
  { cbn [sum_over]. destruct (no_bonds EB) as (R1 & C1 & P0). rewrite !weight_u by (reflexivity || symmetry; assumption). rewrite R1, C1. cbn [grid list_prod seq map app prodC fold_right fst snd].
    unfold w, wf_sum, site_sum. cbn [l_ten]. fold rows cols per. rewrite R1, C1, P0. cbn [expand_indices Nat.ltb Nat.leb Nat.sub app tadd ent]. ring. }
  assert (NB : B <> []) by (rewrite EB; discriminate).
  rewrite (sum_over_ext _ (bond_dim w) (fun b => bond_dim u b + bond_dim v b) _ (weight w s)); [|intros b Hb; apply sum_bond_dim; rewrite EB; exact Hb|reflexivity].
  apply two_parts.
  - rewrite <- EB. apply bonds_nodup.
  - intros a a' R. rewrite !weight_u by reflexivity. apply prodC_ext. intros [r c] Hrc. apply grid_in in Hrc. cbn [fst snd].
    assert (EL : legs a r c = legs a' r c).
    { unfold legs. apply map_ext. intros k. unfold leg_value. destruct (leg_bond rows cols per r c k) as [b|] eqn:Eb; [|reflexivity]. apply R. rewrite <- EB. eapply leg_in; [apply Hrc|apply Hrc|exact Eb]. }
    rewrite <- EL. apply (site_low a r c ltac:(apply Hrc) ltac:(apply Hrc) NB). intros k b Hk Eb. apply R. rewrite <- EB. eapply leg_in; [apply Hrc|apply Hrc|exact Eb].
  - intros a a' R. rewrite (weight_u w) by reflexivity. rewrite (weight_u v) by (symmetry; assumption). apply prodC_ext. intros [r c] Hrc. apply grid_in in Hrc. cbn [fst snd].
    apply (site_high a r c a' ltac:(apply Hrc) ltac:(apply Hrc) NB).
    + intros k b Hk Eb. apply R. rewrite <- EB. eapply leg_in; [apply Hrc|apply Hrc|exact Eb].
    + intros b Hb. apply R. rewrite <- EB. exact Hb.
  - intros a (b1 & H1 & L1) (b2 & H2 & L2). rewrite weight_u by reflexivity. rewrite <- EB in H1, H2.
    set (F := fun rc : nat * nat => ent (l_ten w (fst rc) (snd rc)) (legs a (fst rc) (snd rc)) (s (fst rc) (snd rc))).
    assert (DZ : (exists rc, In rc (grid rows cols) /\ F rc = RtoC 0) \/ forall rc, In rc (grid rows cols) -> F rc <> RtoC 0).
    { generalize (grid rows cols) as L. induction L as [|x L IH]; [right; intros rc []|]. destruct (Ceq_dec (F x) (RtoC 0)) as [Z|Z]; [left; exists x; split; [left; reflexivity|exact Z]|].
      destruct IH as [(rc & I & Q)|IH]; [left; exists rc; split; [right; exact I|exact Q]|right; intros rc [<-|I]; auto]. }
    destruct DZ as [(rc & I & Q)|NZ]; [exact (prodC_zero F _ rc I Q)|]. exfalso.
    destruct (one_side a NB) as [O|O]; [intros r c Hr Hc; apply (NZ (r, c)), grid_in; auto|specialize (O b2 H2); lia|specialize (O b1 H1); lia].
Qed.
End S.
