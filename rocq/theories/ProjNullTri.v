(** The norm of a projection on three sites is zero only if the gate takes the state to zero. *)
From Coq Require Import List Arith Lia Bool Reals Lra Permutation.
From Verif Require Import Base Cplx SumModel SumSpec SumProofs NetSum PbcProofs TrgTensor BmpsAlg ProjModel ProjSpec ProjAlg ProjTwo ProjPatch ProjGrid ProjWave ProjThree ProjTri ProjCorner ProjNull3 ProjGone.
Import ListNotations.
Local Open Scope nat_scope.

Section Triangle.
Context (qr : tensor -> tensor * tensor) (svd : nat -> tensor -> tensor * list R * tensor) (tol : R).
Context (QR : qr_exact qr).
Context (P : peps) (gate : tensor) (ham : option tensor) (F : fitted tol P).
Context (r c : nat).
Section UR.
Let lc := (c + p_cols P - 1) mod p_cols P. Let lr := (r + 1) mod p_rows P.
Let bx := Hor r lc. Let by' := Ver r c.
Context (Hr : r < p_rows P) (Hc : c < p_cols P) (Hx : In bx (bs P)) (Hy : In by' (bs P)) (NR : r <> lr) (NC : c <> lc).
Context (Sg : shape gate = [phys P r lc; phys P r c; phys P lr c; phys P r lc; phys P r c; phys P lr c]).
Let res := project_ur qr svd tol P gate ham r c.
Lemma gone_ur : r_norm res = 0%R -> forall x, x r lc < phys P r lc -> x r c < phys P r c -> x lr c < phys P lr c -> gate3 gate (r, lc) (r, c) (lr, c) (wave P) x = RtoC 0.
Proof.
  destruct F as (T & SH & KE & OP). pose proof (proj1 (bonds_in _ _ _ _) Hx) as HX. pose proof (proj1 (bonds_in _ _ _ _) Hy) as HY. cbn in HX, HY.
  assert (Hlr : lr < p_rows P) by (apply Nat.mod_upper_bound; lia).
  assert (Hlc : lc < p_cols P) by (apply Nat.mod_upper_bound; lia).
  assert (PN : (lc + 1) mod p_cols P = c) by (apply prev_next; exact Hc).
  pose proof (wrap_v P r c ltac:(assumption)) as WV. fold lr in WV.
  pose proof (wrap_left P r c Hc Hx) as WL. fold lc in WL.
  assert (IA : r < p_rows P /\ lc < p_cols P) by (split; assumption). assert (IM : r < p_rows P /\ c < p_cols P) by (split; assumption). assert (IB : lr < p_rows P /\ c < p_cols P) by (split; assumption).
  assert (NAM : (r, lc) <> (r, c)) by congruence. assert (NAB : (r, lc) <> (lr, c)) by congruence. assert (NMB : (r, c) <> (lr, c)) by congruence. assert (Nb : bx <> by') by (unfold bx, by'; congruence).
  assert (EA : lb P r lc 2 = Some bx) by (apply end_left; exact Hx). assert (EMx : lb P r c 0 = Some bx) by (rewrite <- PN at 1; apply end_right; exact Hx).
  assert (EMy : lb P r c 1 = Some by') by (apply end_up; exact Hy). assert (EB : lb P lr c 3 = Some by') by (apply end_down; exact Hy).
  assert (Ux : forall r2 c2 l, r2 < p_rows P -> c2 < p_cols P -> l < 4 -> lb P r2 c2 l = Some bx -> ((r2, c2) = (r, lc) /\ l = 2) \/ ((r2, c2) = (r, c) /\ l = 0)).
  { intros r2 c2 l Hr2 Hc2 Hl E. apply leg_ends in E; try assumption. cbn in E. rewrite PN in E. destruct E as [(-> & -> & ->)|(-> & -> & ->)]; [left; split; reflexivity|right; split; reflexivity]. }
  assert (Uy : forall r2 c2 l, r2 < p_rows P -> c2 < p_cols P -> l < 4 -> lb P r2 c2 l = Some by' -> ((r2, c2) = (r, c) /\ l = 1) \/ ((r2, c2) = (lr, c) /\ l = 3)).
  { intros r2 c2 l Hr2 Hc2 Hl E. apply leg_ends in E; try assumption. cbn in E.  destruct E as [(-> & -> & ->)|(-> & -> & ->)]; [left; split; reflexivity|right; split; reflexivity]. }
  assert (NA : forall l, l < 4 -> l <> 2 -> lb P r lc l <> Some bx /\ lb P r lc l <> Some by').
  { intros l Hl N. destruct IA. split; intros Q; [destruct (Ux r lc l) as [[_ K]|[K _]]|destruct (Uy r lc l) as [[K _]|[K _]]]; try assumption; congruence. }
  assert (NM : forall l, l < 4 -> l <> 0 -> l <> 1 -> lb P r c l <> Some bx /\ lb P r c l <> Some by').
  { intros l Hl N N'. destruct IM. split; intros Q; [destruct (Ux r c l) as [[K _]|[_ K]]|destruct (Uy r c l) as [[_ K]|[K _]]]; try assumption; congruence. }
  assert (NB : forall l, l < 4 -> l <> 3 -> lb P lr c l <> Some bx /\ lb P lr c l <> Some by').
  { intros l Hl N. destruct IB. split; intros Q; [destruct (Ux lr c l) as [[K _]|[K _]]|destruct (Uy lr c l) as [[K _]|[_ K]]]; try assumption; congruence. }
  assert (WA : wt P r lc 2 = lam_of P bx) by (apply wt_bond; try assumption; clear; lia). assert (WX : wt P r c 0 = lam_of P bx) by (apply wt_bond; try assumption; clear; lia).
  assert (WY : wt P r c 1 = lam_of P by') by (apply wt_bond; try assumption; clear; lia). assert (WB : wt P lr c 3 = lam_of P by') by (apply wt_bond; try assumption; clear; lia).
  pose proof (SH r lc (proj1 IA) (proj2 IA)) as SA. pose proof (SH r c (proj1 IM) (proj2 IM)) as SM. pose proof (SH lr c (proj1 IB) (proj2 IB)) as SB. rewrite WA in SA. rewrite WX, WY in SM. rewrite WB in SB.
  pose proof (null_ur qr svd tol QR P gate ham r c (length (wt P r lc 0)) (length (wt P r lc 1)) (length (wt P r lc 3)) (phys P r lc) (length (lam_of P bx)) (length (lam_of P by')) (length (wt P r c 2)) (length (wt P r c 3)) (phys P r c) (length (wt P lr c 0)) (length (wt P lr c 1)) (length (wt P lr c 2)) (phys P lr c)) as L.
  cbv zeta in L. rewrite WV, WL in L. cbn [wt] in L, WX, WY, SA, SM, SB.
  specialize (L SA SM SB eq_refl eq_refl eq_refl (f_equal (@length R) WX) (f_equal (@length R) WY) eq_refl eq_refl eq_refl eq_refl eq_refl Sg).
  rewrite WX, WY in L.
  fold res in L. intros Z0 x XA XM XB. specialize (L Z0).
  unfold gate3. rewrite !(dimat_shape gate _ _ Sg). cbn [nth fst snd].
  transitivity (sm (phys P r lc) (fun p => sm (phys P r c) (fun q => sm (phys P lr c) (fun o => (entry gate [p; q; o; x r lc; x r c; x lr c] * wave P (at_site (at_site (at_site x (r, lc) p) (r, c) q) (lr, c) o))%C)))).
  { symmetry. reflexivity. }
  apply (tri_gone tol P F r lc r c lr c 2 0 1 3 bx by' (phys P r lc) (phys P r c) (phys P lr c) (fun p q o => entry gate [p; q; o; x r lc; x r c; x lr c])); try assumption.
      intros fA fM fB HA HM HB. refine (L (fA 0) (fA 1) (fA 3) (fM 2) (fM 3) (fB 0) (fB 1) (fB 2) (x r lc) (x r c) (x lr c) _ _ _ _ _ _ _ _ XA XM XB _ _ _ _ _ _ _ _); (apply HA + apply HM + apply HB); clear; lia.
Qed.
End UR.

Section UL.
Let rc := (c + 1) mod p_cols P. Let lr := (r + 1) mod p_rows P.
Let bx := Ver r c. Let by' := Hor r c.
Context (Hr : r < p_rows P) (Hc : c < p_cols P) (Hx : In bx (bs P)) (Hy : In by' (bs P)) (NR : r <> lr) (NC : c <> rc).
Context (Sg : shape gate = [phys P r rc; phys P r c; phys P lr c; phys P r rc; phys P r c; phys P lr c]).
Let res := project_ul qr svd tol P gate ham r c.
Lemma gone_ul : r_norm res = 0%R -> forall x, x lr c < phys P lr c -> x r c < phys P r c -> x r rc < phys P r rc -> gate3 gate (r, rc) (r, c) (lr, c) (wave P) x = RtoC 0.
Proof.
  destruct F as (T & SH & KE & OP). pose proof (proj1 (bonds_in _ _ _ _) Hx) as HX. pose proof (proj1 (bonds_in _ _ _ _) Hy) as HY. cbn in HX, HY.
  assert (Hlr : lr < p_rows P) by (apply Nat.mod_upper_bound; lia).
  assert (Hrc : rc < p_cols P) by (apply Nat.mod_upper_bound; lia).
  pose proof (wrap_v P r c ltac:(assumption)) as WV. fold lr in WV.
  pose proof (wrap_h P r c Hy) as WL. fold rc in WL.
  assert (IA : lr < p_rows P /\ c < p_cols P) by (split; assumption). assert (IM : r < p_rows P /\ c < p_cols P) by (split; assumption). assert (IB : r < p_rows P /\ rc < p_cols P) by (split; assumption).
  assert (NAM : (lr, c) <> (r, c)) by congruence. assert (NAB : (lr, c) <> (r, rc)) by congruence. assert (NMB : (r, c) <> (r, rc)) by congruence. assert (Nb : bx <> by') by (unfold bx, by'; congruence).
  assert (EA : lb P lr c 3 = Some bx) by (apply end_down; exact Hx). assert (EMx : lb P r c 1 = Some bx) by (apply end_up; exact Hx).
  assert (EMy : lb P r c 2 = Some by') by (apply end_left; exact Hy). assert (EB : lb P r rc 0 = Some by') by (apply end_right; exact Hy).
  assert (Ux : forall r2 c2 l, r2 < p_rows P -> c2 < p_cols P -> l < 4 -> lb P r2 c2 l = Some bx -> ((r2, c2) = (lr, c) /\ l = 3) \/ ((r2, c2) = (r, c) /\ l = 1)).
  { intros r2 c2 l Hr2 Hc2 Hl E. apply leg_ends in E; try assumption. cbn in E.  destruct E as [(-> & -> & ->)|(-> & -> & ->)]; [right; split; reflexivity|left; split; reflexivity]. }
  assert (Uy : forall r2 c2 l, r2 < p_rows P -> c2 < p_cols P -> l < 4 -> lb P r2 c2 l = Some by' -> ((r2, c2) = (r, c) /\ l = 2) \/ ((r2, c2) = (r, rc) /\ l = 0)).
  { intros r2 c2 l Hr2 Hc2 Hl E. apply leg_ends in E; try assumption. cbn in E.  destruct E as [(-> & -> & ->)|(-> & -> & ->)]; [left; split; reflexivity|right; split; reflexivity]. }
  assert (NA : forall l, l < 4 -> l <> 3 -> lb P lr c l <> Some bx /\ lb P lr c l <> Some by').
  { intros l Hl N. destruct IA. split; intros Q; [destruct (Ux lr c l) as [[_ K]|[K _]]|destruct (Uy lr c l) as [[K _]|[K _]]]; try assumption; congruence. }
  assert (NM : forall l, l < 4 -> l <> 1 -> l <> 2 -> lb P r c l <> Some bx /\ lb P r c l <> Some by').
  { intros l Hl N N'. destruct IM. split; intros Q; [destruct (Ux r c l) as [[K _]|[_ K]]|destruct (Uy r c l) as [[_ K]|[K _]]]; try assumption; congruence. }
  assert (NB : forall l, l < 4 -> l <> 0 -> lb P r rc l <> Some bx /\ lb P r rc l <> Some by').
  { intros l Hl N. destruct IB. split; intros Q; [destruct (Ux r rc l) as [[K _]|[K _]]|destruct (Uy r rc l) as [[K _]|[_ K]]]; try assumption; congruence. }
  assert (WA : wt P lr c 3 = lam_of P bx) by (apply wt_bond; try assumption; clear; lia). assert (WX : wt P r c 1 = lam_of P bx) by (apply wt_bond; try assumption; clear; lia).
  assert (WY : wt P r c 2 = lam_of P by') by (apply wt_bond; try assumption; clear; lia). assert (WB : wt P r rc 0 = lam_of P by') by (apply wt_bond; try assumption; clear; lia).
  pose proof (SH lr c (proj1 IA) (proj2 IA)) as SA. pose proof (SH r c (proj1 IM) (proj2 IM)) as SM. pose proof (SH r rc (proj1 IB) (proj2 IB)) as SB. rewrite WA in SA. rewrite WX, WY in SM. rewrite WB in SB.
  pose proof (null_ul qr svd tol QR P gate ham r c (length (wt P lr c 0)) (length (wt P lr c 1)) (length (wt P lr c 2)) (phys P lr c) (length (lam_of P bx)) (length (lam_of P by')) (length (wt P r c 0)) (length (wt P r c 3)) (phys P r c) (length (wt P r rc 1)) (length (wt P r rc 2)) (length (wt P r rc 3)) (phys P r rc)) as L.
  cbv zeta in L. rewrite WV, WL in L. cbn [wt] in L, WX, WY, SA, SM, SB.
  specialize (L SA SM SB eq_refl eq_refl eq_refl eq_refl (f_equal (@length R) WX) (f_equal (@length R) WY) eq_refl eq_refl eq_refl eq_refl Sg).
  rewrite WX, WY in L.
  fold res in L. intros Z0 x XA XM XB. specialize (L Z0).
  unfold gate3. rewrite !(dimat_shape gate _ _ Sg). cbn [nth fst snd].
  transitivity (sm (phys P lr c) (fun p => sm (phys P r c) (fun q => sm (phys P r rc) (fun o => (entry gate [o; q; p; x r rc; x r c; x lr c] * wave P (at_site (at_site (at_site x (lr, c) p) (r, c) q) (r, rc) o))%C)))).
  { symmetry. rewrite sm_swap3. apply sumC_ext. intros o _. apply sumC_ext. intros q _. apply sumC_ext. intros p _. f_equal. apply wave_ext. intros r2 c2 _ _. unfold at_site. cbn [fst snd]. destruct (Nat.eqb_spec r2 (lr)), (Nat.eqb_spec c2 (c)), (Nat.eqb_spec r2 (r)), (Nat.eqb_spec c2 (c)), (Nat.eqb_spec r2 (r)), (Nat.eqb_spec c2 (rc)); cbn [andb]; try reflexivity; exfalso; congruence. }
  apply (tri_gone tol P F lr c r c r rc 3 1 2 0 bx by' (phys P lr c) (phys P r c) (phys P r rc) (fun p q o => entry gate [o; q; p; x r rc; x r c; x lr c])); try assumption.
      intros fA fM fB HA HM HB. refine (L (fA 0) (fA 1) (fA 2) (fM 0) (fM 3) (fB 1) (fB 2) (fB 3) (x lr c) (x r c) (x r rc) _ _ _ _ _ _ _ _ XA XM XB _ _ _ _ _ _ _ _); (apply HA + apply HM + apply HB); clear; lia.
Qed.
End UL.

Section LR.
Let lr := (r + 1) mod p_rows P. Let lc := (c + p_cols P - 1) mod p_cols P.
Let bx := Ver r c. Let by' := Hor lr lc.
Context (Hr : r < p_rows P) (Hc : c < p_cols P) (Hx : In bx (bs P)) (Hy : In by' (bs P)) (NR : r <> lr) (NC : c <> lc).
Context (Sg : shape gate = [phys P r c; phys P lr c; phys P lr lc; phys P r c; phys P lr c; phys P lr lc]).
Let res := project_lr qr svd tol P gate ham r c.
Lemma gone_lr : r_norm res = 0%R -> forall x, x r c < phys P r c -> x lr c < phys P lr c -> x lr lc < phys P lr lc -> gate3 gate (r, c) (lr, c) (lr, lc) (wave P) x = RtoC 0.
Proof.
  destruct F as (T & SH & KE & OP). pose proof (proj1 (bonds_in _ _ _ _) Hx) as HX. pose proof (proj1 (bonds_in _ _ _ _) Hy) as HY. cbn in HX, HY.
  assert (Hlr : lr < p_rows P) by (apply Nat.mod_upper_bound; lia).
  assert (Hlc : lc < p_cols P) by (apply Nat.mod_upper_bound; lia).
  assert (PN : (lc + 1) mod p_cols P = c) by (apply prev_next; exact Hc).
  pose proof (wrap_v P r c ltac:(assumption)) as WV. fold lr in WV.
  pose proof (wrap_left P lr c Hc Hy) as WL. fold lc in WL.
  assert (IA : r < p_rows P /\ c < p_cols P) by (split; assumption). assert (IM : lr < p_rows P /\ c < p_cols P) by (split; assumption). assert (IB : lr < p_rows P /\ lc < p_cols P) by (split; assumption).
  assert (NAM : (r, c) <> (lr, c)) by congruence. assert (NAB : (r, c) <> (lr, lc)) by congruence. assert (NMB : (lr, c) <> (lr, lc)) by congruence. assert (Nb : bx <> by') by (unfold bx, by'; congruence).
  assert (EA : lb P r c 1 = Some bx) by (apply end_up; exact Hx). assert (EMx : lb P lr c 3 = Some bx) by (apply end_down; exact Hx).
  assert (EMy : lb P lr c 0 = Some by') by (rewrite <- PN at 1; apply end_right; exact Hy). assert (EB : lb P lr lc 2 = Some by') by (apply end_left; exact Hy).
  assert (Ux : forall r2 c2 l, r2 < p_rows P -> c2 < p_cols P -> l < 4 -> lb P r2 c2 l = Some bx -> ((r2, c2) = (r, c) /\ l = 1) \/ ((r2, c2) = (lr, c) /\ l = 3)).
  { intros r2 c2 l Hr2 Hc2 Hl E. apply leg_ends in E; try assumption. cbn in E.  destruct E as [(-> & -> & ->)|(-> & -> & ->)]; [left; split; reflexivity|right; split; reflexivity]. }
  assert (Uy : forall r2 c2 l, r2 < p_rows P -> c2 < p_cols P -> l < 4 -> lb P r2 c2 l = Some by' -> ((r2, c2) = (lr, c) /\ l = 0) \/ ((r2, c2) = (lr, lc) /\ l = 2)).
  { intros r2 c2 l Hr2 Hc2 Hl E. apply leg_ends in E; try assumption. cbn in E. rewrite PN in E. destruct E as [(-> & -> & ->)|(-> & -> & ->)]; [right; split; reflexivity|left; split; reflexivity]. }
  assert (NA : forall l, l < 4 -> l <> 1 -> lb P r c l <> Some bx /\ lb P r c l <> Some by').
  { intros l Hl N. destruct IA. split; intros Q; [destruct (Ux r c l) as [[_ K]|[K _]]|destruct (Uy r c l) as [[K _]|[K _]]]; try assumption; congruence. }
  assert (NM : forall l, l < 4 -> l <> 3 -> l <> 0 -> lb P lr c l <> Some bx /\ lb P lr c l <> Some by').
  { intros l Hl N N'. destruct IM. split; intros Q; [destruct (Ux lr c l) as [[K _]|[_ K]]|destruct (Uy lr c l) as [[_ K]|[K _]]]; try assumption; congruence. }
  assert (NB : forall l, l < 4 -> l <> 2 -> lb P lr lc l <> Some bx /\ lb P lr lc l <> Some by').
  { intros l Hl N. destruct IB. split; intros Q; [destruct (Ux lr lc l) as [[K _]|[K _]]|destruct (Uy lr lc l) as [[K _]|[_ K]]]; try assumption; congruence. }
  assert (WA : wt P r c 1 = lam_of P bx) by (apply wt_bond; try assumption; clear; lia). assert (WX : wt P lr c 3 = lam_of P bx) by (apply wt_bond; try assumption; clear; lia).
  assert (WY : wt P lr c 0 = lam_of P by') by (apply wt_bond; try assumption; clear; lia). assert (WB : wt P lr lc 2 = lam_of P by') by (apply wt_bond; try assumption; clear; lia).
  pose proof (SH r c (proj1 IA) (proj2 IA)) as SA. pose proof (SH lr c (proj1 IM) (proj2 IM)) as SM. pose proof (SH lr lc (proj1 IB) (proj2 IB)) as SB. rewrite WA in SA. rewrite WX, WY in SM. rewrite WB in SB.
  pose proof (null_lr qr svd tol QR P gate ham r c (length (wt P r c 0)) (length (wt P r c 2)) (length (wt P r c 3)) (phys P r c) (length (lam_of P bx)) (length (lam_of P by')) (length (wt P lr c 1)) (length (wt P lr c 2)) (phys P lr c) (length (wt P lr lc 0)) (length (wt P lr lc 1)) (length (wt P lr lc 3)) (phys P lr lc)) as L.
  cbv zeta in L. rewrite WV, WL in L. cbn [wt] in L, WX, WY, SA, SM, SB.
  specialize (L SA SM SB eq_refl eq_refl eq_refl (f_equal (@length R) WY) eq_refl eq_refl (f_equal (@length R) WX) eq_refl eq_refl eq_refl Sg).
  rewrite WX, WY in L.
  fold res in L. intros Z0 x XA XM XB. specialize (L Z0).
  unfold gate3. rewrite !(dimat_shape gate _ _ Sg). cbn [nth fst snd].
  transitivity (sm (phys P r c) (fun p => sm (phys P lr c) (fun q => sm (phys P lr lc) (fun o => (entry gate [p; q; o; x r c; x lr c; x lr lc] * wave P (at_site (at_site (at_site x (r, c) p) (lr, c) q) (lr, lc) o))%C)))).
  { symmetry. reflexivity. }
  apply (tri_gone tol P F r c lr c lr lc 1 3 0 2 bx by' (phys P r c) (phys P lr c) (phys P lr lc) (fun p q o => entry gate [p; q; o; x r c; x lr c; x lr lc])); try assumption.
      intros fA fM fB HA HM HB. refine (L (fA 0) (fA 2) (fA 3) (fM 1) (fM 2) (fB 0) (fB 1) (fB 3) (x r c) (x lr c) (x lr lc) _ _ _ _ _ _ _ _ XA XM XB _ _ _ _ _ _ _ _); (apply HA + apply HM + apply HB); clear; lia.
Qed.
End LR.

Section LL.
Let lr := (r + 1) mod p_rows P. Let rc := (c + 1) mod p_cols P.
Let bx := Hor lr c. Let by' := Ver r c.
Context (Hr : r < p_rows P) (Hc : c < p_cols P) (Hx : In bx (bs P)) (Hy : In by' (bs P)) (NR : r <> lr) (NC : c <> rc).
Context (Sg : shape gate = [phys P r c; phys P lr c; phys P lr rc; phys P r c; phys P lr c; phys P lr rc]).
Let res := project_ll qr svd tol P gate ham r c.
Lemma gone_ll : r_norm res = 0%R -> forall x, x lr rc < phys P lr rc -> x lr c < phys P lr c -> x r c < phys P r c -> gate3 gate (r, c) (lr, c) (lr, rc) (wave P) x = RtoC 0.
Proof.
  destruct F as (T & SH & KE & OP). pose proof (proj1 (bonds_in _ _ _ _) Hx) as HX. pose proof (proj1 (bonds_in _ _ _ _) Hy) as HY. cbn in HX, HY.
  assert (Hlr : lr < p_rows P) by (apply Nat.mod_upper_bound; lia).
  assert (Hrc : rc < p_cols P) by (apply Nat.mod_upper_bound; lia).
  pose proof (wrap_v P r c ltac:(assumption)) as WV. fold lr in WV.
  pose proof (wrap_h P lr c Hx) as WL. fold rc in WL.
  assert (IA : lr < p_rows P /\ rc < p_cols P) by (split; assumption). assert (IM : lr < p_rows P /\ c < p_cols P) by (split; assumption). assert (IB : r < p_rows P /\ c < p_cols P) by (split; assumption).
  assert (NAM : (lr, rc) <> (lr, c)) by congruence. assert (NAB : (lr, rc) <> (r, c)) by congruence. assert (NMB : (lr, c) <> (r, c)) by congruence. assert (Nb : bx <> by') by (unfold bx, by'; congruence).
  assert (EA : lb P lr rc 0 = Some bx) by (apply end_right; exact Hx). assert (EMx : lb P lr c 2 = Some bx) by (apply end_left; exact Hx).
  assert (EMy : lb P lr c 3 = Some by') by (apply end_down; exact Hy). assert (EB : lb P r c 1 = Some by') by (apply end_up; exact Hy).
  assert (Ux : forall r2 c2 l, r2 < p_rows P -> c2 < p_cols P -> l < 4 -> lb P r2 c2 l = Some bx -> ((r2, c2) = (lr, rc) /\ l = 0) \/ ((r2, c2) = (lr, c) /\ l = 2)).
  { intros r2 c2 l Hr2 Hc2 Hl E. apply leg_ends in E; try assumption. cbn in E.  destruct E as [(-> & -> & ->)|(-> & -> & ->)]; [right; split; reflexivity|left; split; reflexivity]. }
  assert (Uy : forall r2 c2 l, r2 < p_rows P -> c2 < p_cols P -> l < 4 -> lb P r2 c2 l = Some by' -> ((r2, c2) = (lr, c) /\ l = 3) \/ ((r2, c2) = (r, c) /\ l = 1)).
  { intros r2 c2 l Hr2 Hc2 Hl E. apply leg_ends in E; try assumption. cbn in E.  destruct E as [(-> & -> & ->)|(-> & -> & ->)]; [right; split; reflexivity|left; split; reflexivity]. }
  assert (NA : forall l, l < 4 -> l <> 0 -> lb P lr rc l <> Some bx /\ lb P lr rc l <> Some by').
  { intros l Hl N. destruct IA. split; intros Q; [destruct (Ux lr rc l) as [[_ K]|[K _]]|destruct (Uy lr rc l) as [[K _]|[K _]]]; try assumption; congruence. }
  assert (NM : forall l, l < 4 -> l <> 2 -> l <> 3 -> lb P lr c l <> Some bx /\ lb P lr c l <> Some by').
  { intros l Hl N N'. destruct IM. split; intros Q; [destruct (Ux lr c l) as [[K _]|[_ K]]|destruct (Uy lr c l) as [[_ K]|[K _]]]; try assumption; congruence. }
  assert (NB : forall l, l < 4 -> l <> 1 -> lb P r c l <> Some bx /\ lb P r c l <> Some by').
  { intros l Hl N. destruct IB. split; intros Q; [destruct (Ux r c l) as [[K _]|[K _]]|destruct (Uy r c l) as [[K _]|[_ K]]]; try assumption; congruence. }
  assert (WA : wt P lr rc 0 = lam_of P bx) by (apply wt_bond; try assumption; clear; lia). assert (WX : wt P lr c 2 = lam_of P bx) by (apply wt_bond; try assumption; clear; lia).
  assert (WY : wt P lr c 3 = lam_of P by') by (apply wt_bond; try assumption; clear; lia). assert (WB : wt P r c 1 = lam_of P by') by (apply wt_bond; try assumption; clear; lia).
  pose proof (SH lr rc (proj1 IA) (proj2 IA)) as SA. pose proof (SH lr c (proj1 IM) (proj2 IM)) as SM. pose proof (SH r c (proj1 IB) (proj2 IB)) as SB. rewrite WA in SA. rewrite WX, WY in SM. rewrite WB in SB.
  pose proof (null_ll qr svd tol QR P gate ham r c (length (wt P lr rc 1)) (length (wt P lr rc 2)) (length (wt P lr rc 3)) (phys P lr rc) (length (lam_of P bx)) (length (lam_of P by')) (length (wt P lr c 0)) (length (wt P lr c 1)) (phys P lr c) (length (wt P r c 0)) (length (wt P r c 2)) (length (wt P r c 3)) (phys P r c)) as L.
  cbv zeta in L. rewrite WV, WL in L. cbn [wt] in L, WX, WY, SA, SM, SB.
  specialize (L SA SM SB eq_refl eq_refl eq_refl eq_refl eq_refl (f_equal (@length R) WX) (f_equal (@length R) WY) eq_refl eq_refl eq_refl Sg).
  rewrite WX, WY in L.
  fold res in L. intros Z0 x XA XM XB. specialize (L Z0).
  unfold gate3. rewrite !(dimat_shape gate _ _ Sg). cbn [nth fst snd].
  transitivity (sm (phys P lr rc) (fun p => sm (phys P lr c) (fun q => sm (phys P r c) (fun o => (entry gate [o; q; p; x r c; x lr c; x lr rc] * wave P (at_site (at_site (at_site x (lr, rc) p) (lr, c) q) (r, c) o))%C)))).
  { symmetry. rewrite sm_swap3. apply sumC_ext. intros o _. apply sumC_ext. intros q _. apply sumC_ext. intros p _. f_equal. apply wave_ext. intros r2 c2 _ _. unfold at_site. cbn [fst snd]. destruct (Nat.eqb_spec r2 (lr)), (Nat.eqb_spec c2 (rc)), (Nat.eqb_spec r2 (lr)), (Nat.eqb_spec c2 (c)), (Nat.eqb_spec r2 (r)), (Nat.eqb_spec c2 (c)); cbn [andb]; try reflexivity; exfalso; congruence. }
  apply (tri_gone tol P F lr rc lr c r c 0 2 3 1 bx by' (phys P lr rc) (phys P lr c) (phys P r c) (fun p q o => entry gate [o; q; p; x r c; x lr c; x lr rc])); try assumption.
      intros fA fM fB HA HM HB. refine (L (fA 1) (fA 2) (fA 3) (fM 0) (fM 1) (fB 0) (fB 2) (fB 3) (x lr rc) (x lr c) (x r c) _ _ _ _ _ _ _ _ XA XM XB _ _ _ _ _ _ _ _); (apply HA + apply HM + apply HB); clear; lia.
Qed.
End LL.
End Triangle.
