(** NearestNeighborSiteProject on the wave function. *)
From Coq Require Import List Arith Lia Bool Reals Lra Permutation.
From Verif Require Import Base Cplx SumModel SumSpec SumProofs NetSum PbcProofs TrgTensor BmpsAlg ProjModel ProjSpec ProjAlg ProjTwo ProjPatch ProjGrid.
Import ListNotations.
Local Open Scope nat_scope.

Theorem patch P P' (X : list (nat * nat)) (I : list bond) {T} (ts : list T) (k : T -> C) (st : T -> basis) s :
  p_rows P' = p_rows P -> p_cols P' = p_cols P -> p_per P' = p_per P -> NoDup X -> incl X (grid (p_rows P) (p_cols P)) -> NoDup I -> incl I (bs P) ->
  (forall r c l b, r < p_rows P -> c < p_cols P -> ~ In (r, c) X -> l < 4 -> lb P r c l = Some b -> ~ In b I) ->
  (forall r c, ~ In (r, c) X -> gamma P' r c = gamma P r c) -> (forall b, In b (bs P) -> ~ In b I -> lam_of P' b = lam_of P b) ->
  (forall t r c, ~ In (r, c) X -> st t r c = s r c) ->
  (forall a, (forall b, In b (bs P) -> ~ In b I -> a b < length (lam_of P b) /\ el (lam_of P b) (a b) <> RtoC 0) -> inner X I P' s a = sumC (fun t => (k t * inner X I P (st t) a)%C) ts) ->
  wave P' s = sumC (fun t => (k t * wave P (st t))%C) ts.
Proof.
  destruct P as [R K per g v h], P' as [R' K' per' g' v' h']. cbn [p_rows p_cols p_per gamma]. intros -> -> -> NX IX NI II FAR GS LS ST H.
  apply (patch_gate R K per X I NX IX NI II); try assumption.
  - intros r c l b Hg. apply grid_in in Hg. intros. apply (FAR r c l b); try tauto.
  - intros r c _. apply GS.
  - intros t r c _. apply ST.
  - intros a Ra Za. apply H. intros b Hb Nb. split; [apply Ra|apply Za]; apply but_in; tauto.
Qed.
Lemma inner_two x y b Q s a : inner [x; y] [b] Q s a = sm (length (lam_of Q b)) (fun z => (site_of Q s (up a b z) x * el (lam_of Q b) z * site_of Q s (up a b z) y)%C).
Proof.
  unfold inner. cbn [gsum]. unfold sm. change (dims_of Q b) with (length (lam_of Q b)). apply sumC_ext. intros z _. cbn [prodC fold_right]. unfold weight_of at 1. rewrite upd_same. ring.
Qed.
Lemma index_is P s a r c f : (forall l, l < 4 -> lv P a r c l = f l) -> index_at P s a r c = [f 0; f 1; f 2; f 3; s r c].
Proof. intros H. unfold index_at. cbn [map app]. rewrite (H 0), (H 1), (H 2), (H 3) by lia. reflexivity. Qed.
(** at a site where one bond is given a value *)
Definition but_leg (f : nat -> nat) (l z : nat) : nat -> nat := fun l' => if l' =? l then z else f l'.
Lemma index_up P s a b z r c l : lb P r c l = Some b -> (forall l', l' < 4 -> lb P r c l' = Some b -> l' = l) ->
  index_at P s (up a b z) r c = [but_leg (lv P a r c) l z 0; but_leg (lv P a r c) l z 1; but_leg (lv P a r c) l z 2; but_leg (lv P a r c) l z 3; s r c].
Proof.
  intros H U. apply (index_is P s (up a b z) r c (but_leg (lv P a r c) l z)). intros l' Hl. unfold but_leg. destruct (Nat.eqb_spec l' l) as [->|N]; [apply lv_hit; exact H|].
  apply lv_miss. intros Q. apply N. apply U; assumption.
Qed.
Lemma once_h P r c c1 l l' : c <> (c + 1) mod p_cols P -> r < p_rows P -> c1 < p_cols P -> l < 4 -> l' < 4 -> lb P r c1 l = Some (Hor r c) -> lb P r c1 l' = Some (Hor r c) -> l' = l.
Proof.
  intros N Hr Hc Hl Hl' E E'. pose proof (leg_ends P r c1 l _ Hr Hc Hl E) as A. pose proof (leg_ends P r c1 l' _ Hr Hc Hl' E') as B. cbn in A, B. lia.
Qed.
Lemma once_v P r c r1 l l' : r <> (r + 1) mod p_rows P -> r1 < p_rows P -> c < p_cols P -> l < 4 -> l' < 4 -> lb P r1 c l = Some (Ver r c) -> lb P r1 c l' = Some (Ver r c) -> l' = l.
Proof.
  intros N Hr Hc Hl Hl' E E'. pose proof (leg_ends P r1 c l _ Hr Hc Hl E) as A. pose proof (leg_ends P r1 c l' _ Hr Hc Hl' E') as B. cbn in A, B. lia.
Qed.
Lemma wrap_h P r c : In (Hor r c) (bs P) -> (c + 1) mod h_cols P = (c + 1) mod p_cols P.
Proof. rewrite bonds_in. intros [_ H]. unfold h_cols. destruct (p_per P); [reflexivity|]. rewrite !Nat.mod_small by lia. reflexivity. Qed.
Lemma wrap_v P r c : In (Ver r c) (bs P) -> (r + 1) mod v_rows P = (r + 1) mod p_rows P.
Proof. rewrite bonds_in. intros [H _]. unfold v_rows. destruct (p_per P); [reflexivity|]. rewrite !Nat.mod_small by lia. reflexivity. Qed.
Lemma wrap_v' P r c : In (Ver r c) (bs P) -> (if p_per P then (r + 1) mod v_rows P else r + 1) = (r + 1) mod p_rows P.
Proof. intros H. rewrite <- (wrap_v P r c H). apply bonds_in in H. unfold v_rows. destruct (p_per P); [reflexivity|]. rewrite Nat.mod_small by lia. reflexivity. Qed.
Lemma at_other s x k r c : (r, c) <> x -> at_site s x k r c = s r c.
Proof. intros N. unfold at_site. destruct x as [r0 c0]. cbn [fst snd]. destruct (Nat.eqb_spec r r0) as [->|]; [|reflexivity]. destruct (Nat.eqb_spec c c0) as [->|]; [congruence|reflexivity]. Qed.
Lemma at_same s r c k : at_site s (r, c) k r c = k.
Proof. unfold at_site. cbn. rewrite !Nat.eqb_refl. reflexivity. Qed.
Lemma put_other {A} (m : nat -> nat -> A) r c x r' c' : (r', c') <> (r, c) -> put m r c x r' c' = m r' c'.
Proof. intros N. unfold put. destruct (Nat.eqb_spec r' r) as [->|]; [|reflexivity]. destruct (Nat.eqb_spec c' c) as [->|]; [congruence|reflexivity]. Qed.
Lemma put_same {A} (m : nat -> nat -> A) r c x : put m r c x r c = x.
Proof. unfold put. rewrite !Nat.eqb_refl. reflexivity. Qed.
Lemma dimat_shape T i l : shape T = l -> dimat T i = nth i l 0.
Proof. intros <-. reflexivity. Qed.

Section Pair.
Context (qr : tensor -> tensor * tensor) (svd : nat -> tensor -> tensor * list R * tensor) (tol : R) (m : nat).
Context (QR : qr_exact qr) (SV : svd_up_to m svd).
Context (P : peps) (gate : tensor) (ham : option tensor) (F : fitted tol P).
Context (r c : nat).

Section Hor.
Let c' := (c + 1) mod p_cols P. Let b := Hor r c.
Context (Hb : In b (bs P)) (NL : c <> c') (Sg : shape gate = [phys P r c; phys P r c'; phys P r c; phys P r c']).
Context (Big : phys P r c * length (lam_of P b) * phys P r c <= m).
Let res := project_h qr svd tol P gate ham r c.
Lemma pair_h : exists s g0 g1, r_peps res = put_gamma (put_gamma (set_bond P b s) r c g0) r c' g1 /\
  shape g0 = [length (wt P r c 0); length (wt P r c 1); length s; length (wt P r c 3); phys P r c] /\
  shape g1 = [length s; length (wt P r c' 1); length (wt P r c' 2); length (wt P r c' 3); phys P r c'] /\
  forall x, x r c < phys P r c -> x r c' < phys P r c' -> wave (r_peps res) x = (RtoC (/ r_norm res) * gate2 gate (r, c) (r, c') (wave P) x)%C.
Proof.
  destruct F as (T & SH & KE & OP). pose proof (proj1 (bonds_in _ _ _ _) Hb) as HB. cbn in HB. destruct HB as [Hr Hc0].
  destruct (next_row _ _ _ Hc0) as (Hc & Hc' & _). fold c' in Hc'.
  pose proof (end_left P r c Hb) as L0. pose proof (end_right P r c Hb) as L1. fold c' in L1.
  pose proof (wrap_h P r c Hb) as WR. fold c' in WR.
  pose proof (SH r c Hr Hc) as S0. pose proof (SH r c' Hr Hc') as S1.
  assert (U0 : forall l', l' < 4 -> lb P r c l' = Some b -> l' = 2) by (intros l' Hl E; apply (once_h P r c c); try assumption; lia).
  assert (U1 : forall l', l' < 4 -> lb P r c' l' = Some b -> l' = 0) by (intros l' Hl E; apply (once_h P r c c'); try assumption; lia).
  pose proof (wt_bond P r c 2 b Hr Hc ltac:(lia) L0) as W0. pose proof (wt_bond P r c' 0 b Hr Hc' ltac:(lia) L1) as W1.
  rewrite W0 in S0. rewrite W1 in S1.
  pose proof (local_h qr svd tol m QR SV P gate ham r c (length (wt P r c 0)) (length (wt P r c 1)) (length (wt P r c 3)) (phys P r c) (length (wt P r c' 1)) (length (wt P r c' 2)) (length (wt P r c' 3)) (phys P r c') (length (lam_of P b))) as L.
  cbv zeta in L. rewrite WR in L. cbn [wt] in L, W0, W1, S0, S1. unfold west in W1. rewrite W0, W1 in L.
  specialize (L S0 S1 eq_refl eq_refl eq_refl eq_refl eq_refl eq_refl eq_refl eq_refl Sg Big NL).
  destruct L as (s & g0 & g1 & E & G0 & G1 & L).
  { intros s. change (put_h P r c' s) with (set_bond P b s). apply (wt_set_miss P b s r c' 2 Hb Hr Hc'); [lia|]. intros Q. apply U1 in Q; lia. }
  exists s, g0, g1. change (put_h P r c' s) with (set_bond P b s) in E. split; [exact E|]. split; [exact G0|]. split; [exact G1|].
  intros x X0 X1. fold res in E, L.
  unfold gate2. rewrite !(dimat_shape gate _ _ Sg). cbn [nth fst snd].
  transitivity (sumC (fun t => ((RtoC (/ r_norm res) * entry gate [fst t; snd t; x r c; x r c']) * wave P (at_site (at_site x (r, c) (fst t)) (r, c') (snd t)))%C) (list_prod (seq 0 (phys P r c)) (seq 0 (phys P r c')))).
  2:{ rewrite sumC_prod. rewrite <- sumC_scal. apply sumC_ext. intros i _. rewrite <- sumC_scal. apply sumC_ext. intros j _. cbn [fst snd]. ring. }
  apply (patch P (r_peps res) [(r, c); (r, c')] [b]); rewrite ?E.
  - reflexivity.
  - reflexivity.
  - reflexivity.
  - constructor; [intros [Q|[]]; injection Q; intros; apply NL; congruence|constructor; [intros []|constructor]].
  - intros y [<-|[<-|[]]]; apply grid_in; split; assumption.
  - constructor; [intros []|constructor].
  - intros y [<-|[]]. exact Hb.
  - intros r2 c2 l b2 Hr2 Hc2 N Hl E2 [<-|[]]. apply leg_ends in E2; try assumption. apply N. cbn. destruct E2 as [(-> & -> & _)|(-> & -> & _)]; auto.
  - intros r2 c2 N. cbn [put_gamma gamma set_bond]. rewrite !put_other; [reflexivity|intros Q; apply N; rewrite Q; cbn; auto..].
  - intros b2 H2 N. change (lam_of (put_gamma (put_gamma (set_bond P b s) r c g0) r c' g1) b2) with (lam_of (set_bond P b s) b2). rewrite lam_set by assumption. destruct (bond_eq_dec b2 b) as [->|]; [exfalso; apply N; left; reflexivity|reflexivity].
  - intros t r2 c2 N. rewrite !at_other; [reflexivity|intros Q; apply N; rewrite Q; cbn; auto..].
  - intros a A.
    assert (GOOD : forall r2 c2 l, r2 < p_rows P -> c2 < p_cols P -> l < 4 -> lb P r2 c2 l <> Some b -> lv P a r2 c2 l < length (wt P r2 c2 l) /\ good tol (wt P r2 c2 l) (lv P a r2 c2 l)).
    { intros r2 c2 l Hr2 Hc2 Hl N. apply leg_good; try assumption. intros b2 E2. apply A; [apply (leg_in _ _ _ r2 c2 l); assumption|]. intros [<-|[]]. apply N. exact E2. }
    rewrite inner_two. set (P' := put_gamma (put_gamma (set_bond P b s) r c g0) r c' g1) in *.
    assert (LL : lam_of P' b = s).
    { change (lam_of P' b) with (lam_of (set_bond P b s) b). rewrite lam_set by assumption. destruct (bond_eq_dec b b); [reflexivity|congruence]. }
    assert (GM0 : gamma P' r c = g0). { unfold P'. cbn [put_gamma gamma]. rewrite put_other by (intros Q; injection Q; intros; apply NL; congruence). apply put_same. }
    assert (GM1 : gamma P' r c' = g1). { unfold P'. cbn [put_gamma gamma]. apply put_same. }
    rewrite LL.
    transitivity (sm (length s) (fun z => (entry g0 [lv P a r c 0; lv P a r c 1; z; lv P a r c 3; x r c] * el s z * entry g1 [z; lv P a r c' 1; lv P a r c' 2; lv P a r c' 3; x r c'])%C)).
    { apply sm_ext. intros z _. unfold site_of. cbn [fst snd]. rewrite GM0, GM1. f_equal; [f_equal|]; f_equal.
      - exact (index_up P x a b z r c 2 L0 U0).
      - exact (index_up P x a b z r c' 0 L1 U1). }
    assert (M : forall r2 c2 l l', l <> l' -> (forall l1, l1 < 4 -> lb P r2 c2 l1 = Some b -> l1 = l') -> l < 4 -> lb P r2 c2 l <> Some b) by (intros r2 c2 l l' Nl U Hl Q; apply Nl; apply U; assumption).
    destruct (GOOD r c 0 Hr Hc ltac:(lia) (M r c 0 2 ltac:(lia) U0 ltac:(lia))) as [a1 b1].
    destruct (GOOD r c 1 Hr Hc ltac:(lia) (M r c 1 2 ltac:(lia) U0 ltac:(lia))) as [a2 b2].
    destruct (GOOD r c 3 Hr Hc ltac:(lia) (M r c 3 2 ltac:(lia) U0 ltac:(lia))) as [a3 b3].
    destruct (GOOD r c' 1 Hr Hc' ltac:(lia) (M r c' 1 0 ltac:(lia) U1 ltac:(lia))) as [a4 b4].
    destruct (GOOD r c' 2 Hr Hc' ltac:(lia) (M r c' 2 0 ltac:(lia) U1 ltac:(lia))) as [a5 b5].
    destruct (GOOD r c' 3 Hr Hc' ltac:(lia) (M r c' 3 0 ltac:(lia) U1 ltac:(lia))) as [a6 b6].
    rewrite (L _ _ _ _ _ _ _ _ a1 a2 a3 a4 a5 a6 X0 X1 b1 b2 b3 b4 b5 b6).
    rewrite sumC_prod. rewrite <- sm_scal. apply sumC_ext. intros p _. rewrite <- sm_scal. apply sumC_ext. intros q _. cbn [fst snd].
    rewrite inner_two. transitivity ((RtoC (/ r_norm res) * entry gate [p; q; x r c; x r c']) * sm (length (lam_of P b)) (fun x0 => (entry (gamma P r c) [lv P a r c 0; lv P a r c 1; x0; lv P a r c 3; p] * el (lam_of P b) x0 * entry (gamma P r c') [x0; lv P a r c' 1; lv P a r c' 2; lv P a r c' 3; q])%C))%C; [ring|].
    f_equal. apply sm_ext. intros z _. unfold site_of. cbn [fst snd]. f_equal; [f_equal|]; f_equal.
    + rewrite (index_up P _ a b z r c 2 L0 U0). unfold but_leg. cbn [Nat.eqb]. rewrite at_other by (intros Q; injection Q; intros; apply NL; congruence). rewrite at_same. reflexivity.
    + rewrite (index_up P _ a b z r c' 0 L1 U1). unfold but_leg. cbn [Nat.eqb]. rewrite at_same. reflexivity.
Qed.
End Hor.
Section Ver.
Let r' := (r + 1) mod p_rows P. Let b := Ver r c.
Context (Hb : In b (bs P)) (NL : r <> r') (Sg : shape gate = [phys P r c; phys P r' c; phys P r c; phys P r' c]).
Context (Big : phys P r c * length (lam_of P b) * phys P r c <= m).
Let res := project_v qr svd tol P gate ham r c.
Lemma pair_v : exists s g0 g1, r_peps res = put_gamma (put_gamma (set_bond P b s) r c g0) r' c g1 /\
  shape g0 = [length (wt P r c 0); length s; length (wt P r c 2); length (wt P r c 3); phys P r c] /\
  shape g1 = [length (wt P r' c 0); length (wt P r' c 1); length (wt P r' c 2); length s; phys P r' c] /\
  forall x, x r c < phys P r c -> x r' c < phys P r' c -> wave (r_peps res) x = (RtoC (/ r_norm res) * gate2 gate (r, c) (r', c) (wave P) x)%C.
Proof.
  destruct F as (T & SH & KE & OP). pose proof (proj1 (bonds_in _ _ _ _) Hb) as HB. cbn in HB. destruct HB as [Hr0 Hc].
  destruct (next_row _ _ _ Hr0) as (Hr & Hr' & _). fold r' in Hr'.
  pose proof (end_up P r c Hb) as L0. pose proof (end_down P r c Hb) as L1. fold r' in L1.
  pose proof (wrap_v' P r c Hb) as WR. fold r' in WR.
  pose proof (SH r c Hr Hc) as S0. pose proof (SH r' c Hr' Hc) as S1.
  assert (U0 : forall l', l' < 4 -> lb P r c l' = Some b -> l' = 1) by (intros l' Hl E; apply (once_v P r c r); try assumption; lia).
  assert (U1 : forall l', l' < 4 -> lb P r' c l' = Some b -> l' = 3) by (intros l' Hl E; apply (once_v P r c r'); try assumption; lia).
  pose proof (wt_bond P r c 1 b Hr Hc ltac:(lia) L0) as W0. pose proof (wt_bond P r' c 3 b Hr' Hc ltac:(lia) L1) as W1.
  rewrite W0 in S0. rewrite W1 in S1.
  pose proof (local_v qr svd tol m QR SV P gate ham r c (length (wt P r c 0)) (length (wt P r c 2)) (length (wt P r c 3)) (phys P r c) (length (wt P r' c 0)) (length (wt P r' c 1)) (length (wt P r' c 2)) (phys P r' c) (length (lam_of P b))) as L.
  cbv zeta in L. rewrite WR in L. cbn [wt] in L, W0, W1, S0, S1. unfold north in W1. rewrite W1 in L.
  specialize (L S0 S1 eq_refl eq_refl eq_refl eq_refl eq_refl eq_refl eq_refl Sg Big NL).
  destruct L as (s & g0 & g1 & E & G0 & G1 & L).
  { intros s. change (put_v P r' c s) with (set_bond P b s). apply (wt_set_miss P b s r' c 1 Hb Hr' Hc); [lia|]. intros Q. apply U1 in Q; lia. }
  exists s, g0, g1. change (put_v P r' c s) with (set_bond P b s) in E. split; [exact E|]. split; [exact G0|]. split; [exact G1|].
  intros x X0 X1. fold res in E, L.
  unfold gate2. rewrite !(dimat_shape gate _ _ Sg). cbn [nth fst snd].
  transitivity (sumC (fun t => ((RtoC (/ r_norm res) * entry gate [fst t; snd t; x r c; x r' c]) * wave P (at_site (at_site x (r, c) (fst t)) (r', c) (snd t)))%C) (list_prod (seq 0 (phys P r c)) (seq 0 (phys P r' c)))).
  2:{ rewrite sumC_prod. rewrite <- sumC_scal. apply sumC_ext. intros i _. rewrite <- sumC_scal. apply sumC_ext. intros j _. cbn [fst snd]. ring. }
  apply (patch P (r_peps res) [(r, c); (r', c)] [b]); rewrite ?E.
  - reflexivity.
  - reflexivity.
  - reflexivity.
  - constructor; [intros [Q|[]]; injection Q; intros; apply NL; congruence|constructor; [intros []|constructor]].
  - intros y [<-|[<-|[]]]; apply grid_in; split; assumption.
  - constructor; [intros []|constructor].
  - intros y [<-|[]]. exact Hb.
  - intros r2 c2 l b2 Hr2 Hc2 N Hl E2 [<-|[]]. apply leg_ends in E2; try assumption. apply N. cbn. destruct E2 as [(-> & -> & _)|(-> & -> & _)]; auto.
  - intros r2 c2 N. cbn [put_gamma gamma set_bond]. rewrite !put_other; [reflexivity|intros Q; apply N; rewrite Q; cbn; auto..].
  - intros b2 H2 N. change (lam_of (put_gamma (put_gamma (set_bond P b s) r c g0) r' c g1) b2) with (lam_of (set_bond P b s) b2). rewrite lam_set by assumption. destruct (bond_eq_dec b2 b) as [->|]; [exfalso; apply N; left; reflexivity|reflexivity].
  - intros t r2 c2 N. rewrite !at_other; [reflexivity|intros Q; apply N; rewrite Q; cbn; auto..].
  - intros a A.
    assert (GOOD : forall r2 c2 l, r2 < p_rows P -> c2 < p_cols P -> l < 4 -> lb P r2 c2 l <> Some b -> lv P a r2 c2 l < length (wt P r2 c2 l) /\ good tol (wt P r2 c2 l) (lv P a r2 c2 l)).
    { intros r2 c2 l Hr2 Hc2 Hl N. apply leg_good; try assumption. intros b2 E2. apply A; [apply (leg_in _ _ _ r2 c2 l); assumption|]. intros [<-|[]]. apply N. exact E2. }
    rewrite inner_two. set (P' := put_gamma (put_gamma (set_bond P b s) r c g0) r' c g1) in *.
    assert (LL : lam_of P' b = s).
    { change (lam_of P' b) with (lam_of (set_bond P b s) b). rewrite lam_set by assumption. destruct (bond_eq_dec b b); [reflexivity|congruence]. }
    assert (GM0 : gamma P' r c = g0). { unfold P'. cbn [put_gamma gamma]. rewrite put_other by (intros Q; injection Q; intros; apply NL; congruence). apply put_same. }
    assert (GM1 : gamma P' r' c = g1). { unfold P'. cbn [put_gamma gamma]. apply put_same. }
    rewrite LL.
    transitivity (sm (length s) (fun z => (entry g0 [lv P a r c 0; z; lv P a r c 2; lv P a r c 3; x r c] * el s z * entry g1 [lv P a r' c 0; lv P a r' c 1; lv P a r' c 2; z; x r' c])%C)).
    { apply sm_ext. intros z _. unfold site_of. cbn [fst snd]. rewrite GM0, GM1. f_equal; [f_equal|]; f_equal.
      - exact (index_up P x a b z r c 1 L0 U0).
      - exact (index_up P x a b z r' c 3 L1 U1). }
    assert (M : forall r2 c2 l l', l <> l' -> (forall l1, l1 < 4 -> lb P r2 c2 l1 = Some b -> l1 = l') -> l < 4 -> lb P r2 c2 l <> Some b) by (intros r2 c2 l l' Nl U Hl Q; apply Nl; apply U; assumption).
    destruct (GOOD r c 0 Hr Hc ltac:(lia) (M r c 0 1 ltac:(lia) U0 ltac:(lia))) as [a1 b1].
    destruct (GOOD r c 2 Hr Hc ltac:(lia) (M r c 2 1 ltac:(lia) U0 ltac:(lia))) as [a2 b2].
    destruct (GOOD r c 3 Hr Hc ltac:(lia) (M r c 3 1 ltac:(lia) U0 ltac:(lia))) as [a3 b3].
    destruct (GOOD r' c 0 Hr' Hc ltac:(lia) (M r' c 0 3 ltac:(lia) U1 ltac:(lia))) as [a4 b4].
    destruct (GOOD r' c 1 Hr' Hc ltac:(lia) (M r' c 1 3 ltac:(lia) U1 ltac:(lia))) as [a5 b5].
    destruct (GOOD r' c 2 Hr' Hc ltac:(lia) (M r' c 2 3 ltac:(lia) U1 ltac:(lia))) as [a6 b6].
    rewrite (L _ _ _ _ _ _ _ _ a1 a2 a3 a4 a5 a6 X0 X1 b1 b2 b3 b4 b5 b6).
    rewrite sumC_prod. rewrite <- sm_scal. apply sumC_ext. intros p _. rewrite <- sm_scal. apply sumC_ext. intros q _. cbn [fst snd].
    rewrite inner_two. transitivity ((RtoC (/ r_norm res) * entry gate [p; q; x r c; x r' c]) * sm (length (lam_of P b)) (fun x0 => (entry (gamma P r c) [lv P a r c 0; x0; lv P a r c 2; lv P a r c 3; p] * el (lam_of P b) x0 * entry (gamma P r' c) [lv P a r' c 0; lv P a r' c 1; lv P a r' c 2; x0; q])%C))%C; [ring|].
    f_equal. apply sm_ext. intros z _. unfold site_of. cbn [fst snd]. f_equal; [f_equal|]; f_equal.
    + rewrite (index_up P _ a b z r c 1 L0 U0). unfold but_leg. cbn [Nat.eqb]. rewrite at_other by (intros Q; injection Q; intros; apply NL; congruence). rewrite at_same. reflexivity.
    + rewrite (index_up P _ a b z r' c 3 L1 U1). unfold but_leg. cbn [Nat.eqb]. rewrite at_same. reflexivity.
Qed.
End Ver.
End Pair.
