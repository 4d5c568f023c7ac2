(** Sequences of projections. *)
From Coq Require Import List Arith Lia Bool Reals Lra Permutation.
From Verif Require Import Base Cplx SumModel SumSpec SumProofs NetSum PbcProofs TrgTensor BmpsAlg ProjModel ProjSpec ProjAlg ProjTwo ProjPatch ProjGrid ProjWave ProjThree ProjTri ProjCorner.
Import ListNotations.
Local Open Scope nat_scope.

Section Steps.
Context (qr : tensor -> tensor * tensor) (svd : nat -> tensor -> tensor * list R * tensor) (tol : R) (m : nat).
Context (QR : qr_exact qr) (SV : svd_up_to m svd).

(** after a projection on a pair *)
Lemma pair_fitted P r0 c0 r1 c1 l0 l1 b s g0 g1 : fitted tol P -> In b (bs P) -> r0 < p_rows P -> c0 < p_cols P -> r1 < p_rows P -> c1 < p_cols P -> l0 < 4 -> l1 < 4 -> (r0, c0) <> (r1, c1) ->
  lb P r0 c0 l0 = Some b -> lb P r1 c1 l1 = Some b ->
  (forall r c l, r < p_rows P -> c < p_cols P -> l < 4 -> lb P r c l = Some b -> ((r, c) = (r0, c0) /\ l = l0) \/ ((r, c) = (r1, c1) /\ l = l1)) ->
  let sh r c l := map (fun l' => if l' =? l then length s else length (wt P r c l')) [0; 1; 2; 3] ++ [phys P r c] in
  shape g0 = sh r0 c0 l0 -> shape g1 = sh r1 c1 l1 ->
  let P' := put_gamma (put_gamma (set_bond P b s) r0 c0 g0) r1 c1 g1 in kept tol (lam_of P' b) -> fitted tol P' /\ same_sites P P'.
Proof.
  intros F Hb Hr0 Hc0 Hr1 Hc1 Hl0 Hl1 N E0 E1 U sh S0 S1 P' KS. destruct (set_rows P b s) as (R1 & R2 & R3).
  assert (HX : forall r c l, r < p_rows P -> c < p_cols P -> l < 4 -> lb P r c l = Some b -> forall l', l' < 4 -> (lb P r c l' = Some b -> l' = l) -> (if l' =? l then length s else length (wt P r c l')) = length (wt P' r c l')).
  { intros r c l Hr Hc Hl E l' Hl' Q. change (wt P' r c l') with (wt (set_bond P b s) r c l'). destruct (Nat.eqb_spec l' l) as [->|Nl]; [rewrite wt_set_hit by assumption; reflexivity|]. rewrite wt_set_miss; try assumption; [reflexivity|]. intros K. apply Nl, Q, K. }
  apply (fitted_patch tol P P' [(r0, c0); (r1, c1)] [b]); try assumption; unfold P'; cbn [put_gamma p_rows p_cols p_per gamma]; try assumption.
  - intros r c Q. rewrite !put_other by (intros K; apply Q; rewrite K; cbn; auto). destruct b; reflexivity.
  - intros b' H' Q. change (lam_of (set_bond P b s) b' = lam_of P b'). rewrite lam_set by assumption. destruct (bond_eq_dec b' b) as [->|]; [exfalso; apply Q; left; reflexivity|reflexivity].
  - intros r c l Hr Hc Hl Q. change (wt (set_bond P b s) r c l = wt P r c l). apply wt_set_miss; try assumption. intros K. apply (Q b K). left. reflexivity.
  - intros r c l b' Hr Hc Q Hl E [<-|[]]. apply Q. destruct (U r c l Hr Hc Hl E) as [[-> _]|[-> _]]; cbn; auto.
  - fold P'. intros r c [Q|[Q|[]]]; injection Q as <- <-.
    + rewrite put_other by exact N. rewrite put_same, S0. unfold sh. cbn [map app]. assert (H : forall l', l' < 4 -> (if l' =? l0 then length s else length (wt P r0 c0 l')) = length (wt P' r0 c0 l')) by (intros l' Hl'; apply (HX r0 c0 l0); try assumption; intros K; destruct (U r0 c0 l' Hr0 Hc0 Hl' K) as [[_ Z]|[Z _]]; [exact Z|congruence]).
      rewrite (H 0), (H 1), (H 2), (H 3) by (clear; lia). reflexivity.
    + rewrite put_same, S1. unfold sh. cbn [map app]. assert (H : forall l', l' < 4 -> (if l' =? l1 then length s else length (wt P r1 c1 l')) = length (wt P' r1 c1 l')) by (intros l' Hl'; apply (HX r1 c1 l1); try assumption; intros K; destruct (U r1 c1 l' Hr1 Hc1 Hl' K) as [[Z _]|[_ Z]]; [congruence|exact Z]).
      rewrite (H 0), (H 1), (H 2), (H 3) by (clear; lia). reflexivity.
  - intros b' [<-|[]]. exact KS.
Qed.

Lemma nodup2 {A} (x y : A) l : NoDup (x :: y :: l) -> x <> y.
Proof. intros N Q. apply NoDup_cons_iff in N. apply (proj1 N). left. congruence. Qed.
Lemma lam_pair P b s r0 c0 g0 r1 c1 g1 : In b (bs P) -> lam_of (put_gamma (put_gamma (set_bond P b s) r0 c0 g0) r1 c1 g1) b = s.
Proof. intros H. change (lam_of (set_bond P b s) b = s). rewrite lam_set by assumption. destruct (bond_eq_dec b b); congruence. Qed.
Lemma norm_form n w z : n <> 0%R -> w = (RtoC (/ n) * z)%C -> (RtoC n * w)%C = z.
Proof. intros N ->. transitivity ((RtoC n * RtoC (/ n)) * z)%C; [ring|]. rewrite <- RtoC_mul, Rinv_r by exact N. ring. Qed.

Theorem step_ok P o gate ham : fitted tol P -> valid P o -> gate_fits P o gate -> room m P o -> let res := project qr svd tol P o gate ham in r_norm res <> 0%R ->
  (forall b, In b (bonds_of (p_rows P) (p_cols P) o) -> kept tol (lam_of (r_peps res) b)) ->
  (fitted tol (r_peps res) /\ same_sites P (r_peps res)) /\
  forall x, proper P x -> (RtoC (r_norm res) * wave (r_peps res) x)%C = act (p_rows P) (p_cols P) o gate (wave P) x.
Proof.
  intros F [VB VS] SG RM res NZ KS.
  destruct o as [r c|r c|r c|r c|r c|r c]; cbn [bonds_of sites_of project] in *; unfold gate_fits in SG; cbn [sites_of map app fst snd] in SG; unfold room in RM; cbn zeta in RM; unfold next, prev in *.
  - (* Row *)
    assert (Hb : In (Hor r c) (bs P)) by (apply VB; left; reflexivity). pose proof (proj1 (bonds_in _ _ _ _) Hb) as HB. cbn in HB. destruct HB as [Hr Hc0]. destruct (next_row _ _ _ Hc0) as (Hc & Hc' & _).
    pose proof (nodup2 _ _ _ VS) as NL.
    destruct (pair_h qr svd tol m QR SV P gate ham F r c Hb ltac:(congruence) SG ltac:(nia)) as (s & g0 & g1 & E & S0 & S1 & WV). fold res in E, WV.
    split.
    + rewrite E. apply (pair_fitted P r c r ((c + 1) mod p_cols P) 2 0 (Hor r c) s g0 g1); try assumption; try (clear; lia).
      * apply end_left; exact Hb.
      * apply end_right; exact Hb.
      * intros r2 c2 l Hr2 Hc2 Hl Q. apply leg_ends in Q; try assumption. cbn in Q. destruct Q as [(-> & -> & ->)|(-> & -> & ->)]; auto.
      * rewrite <- E. apply KS. left. reflexivity.
    + intros x X. apply norm_form; [exact NZ|]. apply WV; apply X; assumption.
  - (* Col *)
    assert (Hb : In (Ver r c) (bs P)) by (apply VB; left; reflexivity). pose proof (proj1 (bonds_in _ _ _ _) Hb) as HB. cbn in HB. destruct HB as [Hr0 Hc]. destruct (next_row _ _ _ Hr0) as (Hr & Hr' & _).
    pose proof (nodup2 _ _ _ VS) as NL.
    destruct (pair_v qr svd tol m QR SV P gate ham F r c Hb ltac:(congruence) SG ltac:(nia)) as (s & g0 & g1 & E & S0 & S1 & WV). fold res in E, WV.
    split.
    + rewrite E. apply (pair_fitted P r c ((r + 1) mod p_rows P) c 1 3 (Ver r c) s g0 g1); try assumption; try (clear; lia).
      * apply end_up; exact Hb.
      * apply end_down; exact Hb.
      * intros r2 c2 l Hr2 Hc2 Hl Q. apply leg_ends in Q; try assumption. cbn in Q. destruct Q as [(-> & -> & ->)|(-> & -> & ->)]; auto.
      * rewrite <- E. apply KS. left. reflexivity.
    + intros x X. apply norm_form; [exact NZ|]. apply WV; apply X; assumption.
  - (* UpperRight *)
    assert (Hx : In (Hor r ((c + p_cols P - 1) mod p_cols P)) (bs P)) by (apply VB; left; reflexivity). assert (Hy : In (Ver r c) (bs P)) by (apply VB; right; left; reflexivity).
    pose proof (proj1 (bonds_in _ _ _ _) Hy) as HB. cbn in HB. destruct HB as [Hr0 Hc]. destruct (next_row _ _ _ Hr0) as (Hr & Hr' & _).
    pose proof (nodup2 _ _ _ VS) as N1. apply NoDup_cons_iff, proj2 in VS. pose proof (nodup2 _ _ _ VS) as N2.
    assert (Hlc : (c + p_cols P - 1) mod p_cols P < p_cols P) by (apply Nat.mod_upper_bound; lia).
    destruct (tri_ur qr svd tol m QR SV P gate ham F r c Hr Hc Hx Hy ltac:(congruence) ltac:(congruence) SG ltac:(rewrite Nat.mul_assoc; apply RM) ltac:(rewrite Nat.mul_assoc; apply RM)) as [FT WV]. fold res in FT, WV.
    split; [apply FT; apply KS; cbn; auto|]. intros x X. apply norm_form; [exact NZ|]. apply WV; [apply KS; cbn; auto|apply X; assumption..].
  - (* UpperLeft *)
    assert (Hy : In (Hor r c) (bs P)) by (apply VB; left; reflexivity). assert (Hx : In (Ver r c) (bs P)) by (apply VB; right; left; reflexivity).
    pose proof (proj1 (bonds_in _ _ _ _) Hx) as HB. cbn in HB. destruct HB as [Hr0 Hc]. destruct (next_row _ _ _ Hr0) as (Hr & Hr' & _).
    pose proof (nodup2 _ _ _ VS) as N1. apply NoDup_cons_iff, proj2 in VS. pose proof (nodup2 _ _ _ VS) as N2.
    assert (Hrc : (c + 1) mod p_cols P < p_cols P) by (apply Nat.mod_upper_bound; lia).
    destruct (tri_ul qr svd tol m QR SV P gate ham F r c Hr Hc Hx Hy ltac:(congruence) ltac:(congruence) SG ltac:(rewrite Nat.mul_assoc; apply RM) ltac:(rewrite Nat.mul_assoc; apply RM)) as [FT WV]. fold res in FT, WV.
    split; [apply FT; apply KS; cbn; auto|]. intros x X. apply norm_form; [exact NZ|]. apply WV; [apply KS; cbn; auto|apply X; assumption..].
  - (* LowerRight *)
    assert (Hx : In (Ver r c) (bs P)) by (apply VB; left; reflexivity). assert (Hy : In (Hor ((r + 1) mod p_rows P) ((c + p_cols P - 1) mod p_cols P)) (bs P)) by (apply VB; right; left; reflexivity).
    pose proof (proj1 (bonds_in _ _ _ _) Hx) as HB. cbn in HB. destruct HB as [Hr0 Hc]. destruct (next_row _ _ _ Hr0) as (Hr & Hr' & _).
    pose proof (nodup2 _ _ _ VS) as N1. apply NoDup_cons_iff, proj2 in VS. pose proof (nodup2 _ _ _ VS) as N2.
    assert (Hlc : (c + p_cols P - 1) mod p_cols P < p_cols P) by (apply Nat.mod_upper_bound; lia).
    destruct (tri_lr qr svd tol m QR SV P gate ham F r c Hr Hc Hx Hy ltac:(congruence) ltac:(congruence) SG ltac:(rewrite Nat.mul_assoc; apply RM) ltac:(rewrite Nat.mul_assoc; apply RM)) as [FT WV]. fold res in FT, WV.
    split; [apply FT; apply KS; cbn; auto|]. intros x X. apply norm_form; [exact NZ|]. apply WV; [apply KS; cbn; auto|apply X; assumption..].
  - (* LowerLeft *)
    assert (Hy : In (Ver r c) (bs P)) by (apply VB; left; reflexivity). assert (Hx : In (Hor ((r + 1) mod p_rows P) c) (bs P)) by (apply VB; right; left; reflexivity).
    pose proof (proj1 (bonds_in _ _ _ _) Hy) as HB. cbn in HB. destruct HB as [Hr0 Hc]. destruct (next_row _ _ _ Hr0) as (Hr & Hr' & _).
    pose proof (nodup2 _ _ _ VS) as N1. apply NoDup_cons_iff, proj2 in VS. pose proof (nodup2 _ _ _ VS) as N2.
    assert (Hrc : (c + 1) mod p_cols P < p_cols P) by (apply Nat.mod_upper_bound; lia).
    destruct (tri_ll qr svd tol m QR SV P gate ham F r c Hr Hc Hx Hy ltac:(congruence) ltac:(congruence) SG ltac:(rewrite Nat.mul_assoc; apply RM) ltac:(rewrite Nat.mul_assoc; apply RM)) as [FT WV]. fold res in FT, WV.
    split; [apply FT; apply KS; cbn; auto|]. intros x X. apply norm_form; [exact NZ|]. apply WV; [apply KS; cbn; auto|apply X; assumption..].
Qed.

(** gates see only basis states of the sites *)
Lemma proper_at P x k s : proper P s -> k < phys P (fst x) (snd x) -> proper P (at_site s x k).
Proof. intros H K r c Hr Hc. unfold at_site. destruct (Nat.eqb_spec r (fst x)) as [->|]; [destruct (Nat.eqb_spec c (snd x)) as [->|]|]; cbn [andb]; [exact K|apply H; assumption..]. Qed.
Definition agree (P : peps) (f g : basis -> C) : Prop := forall s, proper P s -> f s = g s.
Lemma act_agree P o gate f g : gate_fits P o gate -> agree P f g -> agree P (act (p_rows P) (p_cols P) o gate f) (act (p_rows P) (p_cols P) o gate g).
Proof.
  intros SG A s Hs. unfold gate_fits in SG. unfold act.
  assert (Two : forall x y, shape gate = [phys P (fst x) (snd x); phys P (fst y) (snd y)] ++ [phys P (fst x) (snd x); phys P (fst y) (snd y)] -> gate2 gate x y f s = gate2 gate x y g s).
  { intros x y S. unfold gate2. rewrite !(dimat_shape gate _ _ S). cbn [nth app]. apply sumC_ext. intros i Hi. apply sumC_ext. intros j Hj. apply in_seq in Hi, Hj. f_equal. apply A. apply proper_at; [apply proper_at; [exact Hs|lia]|lia]. }
  assert (Three : forall x y z, shape gate = [phys P (fst x) (snd x); phys P (fst y) (snd y); phys P (fst z) (snd z)] ++ [phys P (fst x) (snd x); phys P (fst y) (snd y); phys P (fst z) (snd z)] -> gate3 gate x y z f s = gate3 gate x y z g s).
  { intros x y z S. unfold gate3. rewrite !(dimat_shape gate _ _ S). cbn [nth app]. apply sumC_ext. intros i Hi. apply sumC_ext. intros j Hj. apply sumC_ext. intros k Hk. apply in_seq in Hi, Hj, Hk. f_equal. apply A. apply proper_at; [apply proper_at; [apply proper_at; [exact Hs|lia]|lia]|lia]. }
  destruct o; cbn [sites_of map] in *; first [apply Two|apply Three]; exact SG.
Qed.
Lemma act_scal P o gate k f s : act (p_rows P) (p_cols P) o gate (fun s => (k * f s)%C) s = (k * act (p_rows P) (p_cols P) o gate f s)%C.
Proof.
  unfold act. assert (Two : forall x y, gate2 gate x y (fun s => (k * f s)%C) s = (k * gate2 gate x y f s)%C).
  { intros. unfold gate2. rewrite <- sumC_scal. apply sumC_ext. intros i _. rewrite <- sumC_scal. apply sumC_ext. intros j _. ring. }
  assert (Three : forall x y z, gate3 gate x y z (fun s => (k * f s)%C) s = (k * gate3 gate x y z f s)%C).
  { intros. unfold gate3. rewrite <- sumC_scal. apply sumC_ext. intros i _. rewrite <- sumC_scal. apply sumC_ext. intros j _. rewrite <- sumC_scal. apply sumC_ext. intros l _. ring. }
  destruct o; cbn [sites_of]; first [apply Two|apply Three].
Qed.
Lemma same_trans P P1 P2 : same_sites P P1 -> same_sites P1 P2 -> same_sites P P2.
Proof. intros (A1 & A2 & A3 & A4) (B1 & B2 & B3 & B4). repeat split; try congruence. intros r c Hr Hc. rewrite B4 by congruence. apply A4; assumption. Qed.
Lemma proper_same P P' s : same_sites P P' -> proper P s -> proper P' s.
Proof. intros (A1 & A2 & A3 & A4) H r c Hr Hc. rewrite A1 in Hr. rewrite A2 in Hc. rewrite A4 by assumption. apply H; assumption. Qed.
(** every gate of the list fits the sites *)
Fixpoint all_fit (P : peps) (l : list (call * tensor * option tensor)) : Prop := match l with [] => True | (o, g, _) :: l' => gate_fits P o g /\ all_fit P l' end.
Lemma fit_same P P' o g : same_sites P P' -> valid P o -> gate_fits P' o g <-> gate_fits P o g.
Proof.
  intros (A1 & A2 & A3 & A4) [VB _]. unfold gate_fits. rewrite A1, A2.
  assert (E : map (fun x => phys P' (fst x) (snd x)) (sites_of (p_rows P) (p_cols P) o) = map (fun x => phys P (fst x) (snd x)) (sites_of (p_rows P) (p_cols P) o)).
  { apply map_ext_in. intros [r c] Hx. cbn [fst snd].
    assert (B : forall b, In b (bonds_of (p_rows P) (p_cols P) o) -> In b (bs P)) by exact VB.
    destruct o as [r0 c0|r0 c0|r0 c0|r0 c0|r0 c0|r0 c0]; cbn [sites_of bonds_of] in *;
      repeat match goal with B : forall b, In b ?l -> _ |- _ => pose proof (B _ (or_introl eq_refl)); try pose proof (B _ (or_intror (or_introl eq_refl))); clear B end;
      repeat match goal with H : In _ (bs P) |- _ => apply bonds_in in H; cbn in H end;
      assert (r0 < p_rows P /\ c0 < p_cols P) as [Hr Hc] by (destruct (p_per P); lia);
      assert (next (p_rows P) r0 < p_rows P) by (apply Nat.mod_upper_bound; lia); assert (next (p_cols P) c0 < p_cols P) by (apply Nat.mod_upper_bound; lia); assert (prev (p_cols P) c0 < p_cols P) by (apply Nat.mod_upper_bound; lia);
      repeat (destruct Hx as [Hx|Hx]; [injection Hx as <- <-; apply A4; assumption|]); destruct Hx. }
  rewrite E. reflexivity.
Qed.
Lemma acts_agree P : forall l f g, all_fit P l -> agree P f g -> agree P (acts (p_rows P) (p_cols P) l f) (acts (p_rows P) (p_cols P) l g).
Proof. induction l as [|[[o gt] h] l IH]; intros f g Fl A; [exact A|]. cbn [acts]. destruct Fl as [F1 F2]. apply IH; [exact F2|]. apply act_agree; assumption. Qed.
Lemma acts_scal P k : forall l f s, all_fit P l -> proper P s -> acts (p_rows P) (p_cols P) l (fun s => (k * f s)%C) s = (k * acts (p_rows P) (p_cols P) l f s)%C.
Proof.
  induction l as [|[[o gt] h] l IH]; intros f s Fl Hs; [reflexivity|]. cbn [acts]. destruct Fl as [F1 F2]. rewrite <- IH by assumption. apply (acts_agree P l); [exact F2| |exact Hs]. intros t _. apply act_scal.
Qed.
Lemma fitted_all P : forall l, fitted tol P -> lossless qr svd tol m P l -> fitted tol (fst (project_all qr svd tol P l)) /\ same_sites P (fst (project_all qr svd tol P l)).
Proof.
  intros l. revert P. induction l as [|[[o g] h] l IH]; intros P F L; [split; [exact F|repeat split; reflexivity]|]. cbn [project_all lossless] in *. destruct L as (V & SG & RM & NZ & KS & L).
  destruct (step_ok P o g h F V SG RM NZ KS) as [[F1 S1] _]. destruct (IH _ F1 L) as [F2 S2]. destruct (project_all qr svd tol (r_peps (project qr svd tol P o g h)) l) as [Q n]. cbn [fst] in *. split; [exact F2|]. exact (same_trans _ _ _ S1 S2).
Qed.
Lemma lossless_fit P : forall l, fitted tol P -> lossless qr svd tol m P l -> (forall o g h, In (o, g, h) l -> valid P o) -> all_fit P l.
Proof.
  intros l. revert P. induction l as [|[[o g] h] l IH]; intros P F L VA; [exact I|]. cbn [all_fit lossless] in *. destruct L as (V & SG & RM & NZ & KS & L). split; [exact SG|].
  destruct (step_ok P o g h F V SG RM NZ KS) as [[F1 S1] _]. pose proof S1 as (A1 & A2 & A3 & A4).
  assert (VA' : forall o' g' h', In (o', g', h') l -> valid (r_peps (project qr svd tol P o g h)) o').
  { intros o' g' h' Hin. destruct (VA o' g' h' (or_intror Hin)) as [B1 B2]. split; rewrite ?A1, ?A2, ?A3; assumption. }
  pose proof (IH _ F1 L VA') as Fl. assert (VA2 : forall o g h, In (o, g, h) l -> valid P o) by (intros o2 g2 h2 Q2; exact (VA o2 g2 h2 (or_intror Q2))). clear -Fl S1 VA2. revert Fl VA2. induction l as [|[[o' g'] h'] l IHl]; intros Fl VA2; [exact I|]. destruct Fl as [Q1 Q2]. split.
  - apply (fit_same P (r_peps (project qr svd tol P o g h)) o' g' S1); [apply (VA2 o' g' h'); left; reflexivity|exact Q1].
  - apply IHl; [exact Q2|]. intros a b c Q. apply (VA2 a b c). right. exact Q.
Qed.
Lemma lossless_valid P : forall l, fitted tol P -> lossless qr svd tol m P l -> forall o g h, In (o, g, h) l -> valid P o.
Proof.
  intros l. revert P. induction l as [|[[o g] h] l IH]; intros P F L o' g' h' Hin; [destruct Hin|]. cbn [lossless] in L. destruct L as (V & SG & RM & NZ & KS & L).
  destruct Hin as [Q|Hin]; [injection Q as <- _ _; exact V|]. destruct (step_ok P o g h F V SG RM NZ KS) as [[F1 S1] _]. pose proof S1 as (A1 & A2 & A3 & A4).
  destruct (IH _ F1 L o' g' h' Hin) as [B1 B2]. rewrite A1, A2, ?A3 in B1. rewrite A1, A2 in B2. split; assumption.
Qed.
Theorem run_ok : forall l P, sound tol P -> lossless qr svd tol m P l ->
  let '(Q, n) := project_all qr svd tol P l in sound tol Q /\ same_sites P Q /\
  forall s, proper P s -> (RtoC n * wave Q s)%C = acts (p_rows P) (p_cols P) l (wave P) s.
Proof.
  intros l P S L. apply sound_fitted in S. destruct (fitted_all P l S L) as [FA SA].
  assert (W : forall l P, fitted tol P -> lossless qr svd tol m P l -> forall s, proper P s -> (RtoC (snd (project_all qr svd tol P l)) * wave (fst (project_all qr svd tol P l)) s)%C = acts (p_rows P) (p_cols P) l (wave P) s).
  { clear -QR SV. intros l. induction l as [|[[o g] h] l IH]; intros P F L s Hs; [cbn; ring|].
    pose proof (lossless_fit P _ F L (lossless_valid P _ F L)) as FI.
    cbn [project_all lossless acts] in *. destruct L as (V & SG & RM & NZ & KS & L).
    destruct (step_ok P o g h F V SG RM NZ KS) as [[F1 S1] W1]. pose proof S1 as (A1 & A2 & A3 & A4).
    specialize (IH _ F1 L s (proper_same _ _ _ S1 Hs)). set (res := project qr svd tol P o g h) in *. destruct (project_all qr svd tol (r_peps res) l) as [Q n]. cbn [fst snd] in *.
    rewrite RtoC_mul. transitivity (RtoC (r_norm res) * (RtoC n * wave Q s))%C; [ring|]. rewrite IH, A1, A2. rewrite <- (acts_scal P _ l _ s (proj2 FI) Hs).
    apply (acts_agree P l); [exact (proj2 FI)| |exact Hs]. intros t Ht. apply W1. exact Ht. }
  specialize (W l P S L). destruct (project_all qr svd tol P l) as [Q n]. cbn [fst snd] in *. split; [apply sound_fitted; exact FA|]. split; [exact SA|exact W].
Qed.
Lemma proper_iff P Q s : same_sites P Q -> proper P s <-> proper Q s.
Proof. intros S. split; [apply proper_same; exact S|]. destruct S as (A1 & A2 & A3 & A4). intros H r c Hr Hc. rewrite <- A4 by assumption. apply H; [rewrite A1|rewrite A2]; assumption. Qed.
Theorem all_calls : forall l P, sound tol P -> lossless qr svd tol m P l ->
  let '(Q, n) := project_all qr svd tol P l in
  sound tol Q /\ (p_rows Q = p_rows P /\ p_cols Q = p_cols P /\ p_per Q = p_per P /\ forall s, proper P s <-> proper Q s) /\
  forall s, proper P s -> (RtoC n * wave Q s)%C = acts (p_rows P) (p_cols P) l (wave P) s.
Proof.
  intros l P S L. pose proof (run_ok l P S L) as H. destruct (project_all qr svd tol P l) as [Q n]. destruct H as (H1 & H2 & H3). split; [exact H1|]. split; [|exact H3].
  pose proof H2 as (A1 & A2 & A3 & _). repeat split; try assumption; apply (proper_iff P Q s H2).
Qed.
Theorem one_call : forall P o gate ham, sound tol P -> lossless qr svd tol m P [(o, gate, ham)] ->
  let res := project qr svd tol P o gate ham in
  forall s, proper P s -> (RtoC (r_norm res) * wave (r_peps res) s)%C = act (p_rows P) (p_cols P) o gate (wave P) s.
Proof.
  intros P o gate ham S L res s Hs. pose proof (run_ok _ P S L) as H. cbn [project_all acts] in H. fold res in H. rewrite Rmult_1_r in H. apply H. exact Hs.
Qed.
End Steps.
