(** The operators of a sweep add up to the Hamiltonian; one and several sweeps. *)
From Coq Require Import List Arith Bool Reals Lia Lra Permutation.
From Verif Require Import Base Cplx SumModel SumSpec SumProofs NetSum PbcProofs TrgTensor BmpsSum ProjModel ProjSpec ProjWave ProjTri ProjSteps ExpModel ExpSpec ExpAlg ExpOp ExpMain ExpTotal TriSweepModel TriSweepSpec TriSweepSeries TriSweepTerm TriSweepMain.
Import ListNotations.
Local Open Scope nat_scope.

Lemma exchange h d x y psi s : exchangeable h -> x <> y -> respects psi -> term h [d; d] [x; y] psi s = term h [d; d] [y; x] psi s.
Proof.
  intros E N HR. unfold term. rewrite !sum_choices2. cbn [values map zip place]. rewrite sumC_swap. apply sumC_ext. intros j _. apply sumC_ext. intros i _. rewrite E. f_equal. apply HR. intros r c. unfold at_site.
  destruct (Nat.eqb_spec r (fst x)) as [E1|]; destruct (Nat.eqb_spec c (snd x)) as [E2|]; cbn [andb]; destruct (Nat.eqb_spec r (fst y)) as [E3|]; destruct (Nat.eqb_spec c (snd y)) as [E4|]; cbn [andb]; try reflexivity.
  exfalso. apply N. apply injective_projections; congruence.
Qed.
Lemma half_share n (z : C) : 0 < n -> (RtoC (INR n) * (RtoC (1 / INR (2 * n)) * z + RtoC (1 / INR (2 * n)) * z))%C = z.
Proof.
  intros H. transitivity (RtoC (INR n * (1 / INR (2 * n)) * 2) * z)%C; [rewrite !RtoC_mul; replace (RtoC 2) with (RtoC 1 + RtoC 1)%C by (rewrite <- RtoC_add; f_equal; lra); ring|].
  replace (INR n * (1 / INR (2 * n)) * 2)%R with 1%R; [ring|]. rewrite mult_INR. assert (INR n <> 0%R) by (apply not_0_INR; lia). cbn [INR]. field. assumption.
Qed.
Section Total.
Context (e : nnn_executor) (P : peps) (HR : 2 <= p_rows P) (HK : 2 <= p_cols P) (psi : basis -> C) (s : basis) (RP : respects psi).
Notation R := (p_rows P). Notation K := (p_cols P). Notation per := (p_per P).
Notation LR := (if per then R else R - 1). Notation LK := (if per then K else K - 1).
Notation d z := (phys P (fst z) (snd z)).
Definition pairT h x y : C := term h [d x; d y] [x; y] psi s.
Definition siteT x : C := match x_onsite e with None => RtoC 0 | Some on => term (on (fst x) (snd x)) [d x] [x] psi s end.
Definition above n x := one_if ((0 <? x) || per) + one_if ((x + 1 <? n) || per).
Lemma above_pos n x : 2 <= n -> x < n -> 0 < above n x.
Proof. intros Hn Hx. unfold above. destruct per; rewrite ?orb_true_r, ?orb_false_r; cbn [one_if]; [lia|]. destruct (Nat.ltb_spec 0 x), (Nat.ltb_spec (x + 1) n); cbn [one_if]; lia. Qed.
Definition hw r c : C := (RtoC (1 / INR (2 * above R r)) * pairT (x_nn e) (r, c) (r, next K c))%C.
Definition vw r c : C := (RtoC (1 / INR (2 * above K c)) * pairT (x_nn e) (r, c) (next R r, c))%C.
(** the four triangles of a plaquette *)
Lemma plaquette_sum r c : nnn_fit e P -> exchangeable (x_nn e) -> inside_at P r c ->
  sumC (fun p => triangle_operator e P (p, r, c) psi s) [AtUpperRight; AtLowerRight; AtLowerLeft; AtUpperLeft] =
  ((pairT (x_nnn e) (r, c) (next R r, next K c) + pairT (x_nnn e) (r, next K c) (next R r, c)) + ((hw r c + hw r c) + (hw (next R r) c + hw (next R r) c) + ((vw r c + vw r c) + (vw r (next K c) + vw r (next K c)))) +
   RtoC (1 / 4) * (siteT (r, c) + siteT (r, next K c) + (siteT (next R r, c) + siteT (next R r, next K c))))%C.
Proof.
  intros (d0 & HD & _) EX [Hr Hc]. destruct (mod_vert P HR HK r Hr) as (_ & V1 & V2 & V3). destruct (mod_horiz P HR HK c Hc) as (_ & W1 & W2 & W3).
  assert (NR : (next R r =? r) = false) by (apply Nat.eqb_neq; exact V2). assert (RN : (r =? next R r) = false) by (apply Nat.eqb_neq; congruence).
  assert (X1 : pairT (x_nn e) (r, next K c) (r, c) = pairT (x_nn e) (r, c) (r, next K c)) by (unfold pairT; cbn [fst snd]; rewrite (HD r (next K c)), (HD r c) by assumption; apply exchange; [exact EX|congruence|exact RP]).
  assert (X2 : pairT (x_nn e) (next R r, next K c) (next R r, c) = pairT (x_nn e) (next R r, c) (next R r, next K c)) by (unfold pairT; cbn [fst snd]; rewrite (HD (next R r) (next K c)), (HD (next R r) c) by assumption; apply exchange; [exact EX|congruence|exact RP]).
  assert (ST : forall x, match x_onsite e with None => RtoC 0 | Some on => RtoC (1 / 12) * term (on (fst x) (snd x)) [d x] [x] psi s end%C = (RtoC (1 / 12) * siteT x)%C) by (intros x; unfold siteT; destruct (x_onsite e); [reflexivity|ring]).
  rewrite !sumC_cons, sumC_nil. unfold triangle_operator. cbn [triangle_sites]. rewrite !ST. unfold sides. cbn [fst snd]. rewrite !Nat.eqb_refl, ?NR, ?RN.
  change (term ?h [phys P ?a ?b; phys P ?a' ?b'] [(?a, ?b); (?a', ?b')] psi s) with (pairT h (a, b) (a', b')). rewrite X1, X2. unfold hw, vw. fold (above R r) (above R (next R r)) (above K c) (above K (next K c)).
  replace (RtoC (1 / 4)) with (RtoC (1 / 12) + RtoC (1 / 12) + RtoC (1 / 12))%C by (rewrite <- !RtoC_add; f_equal; lra).
  match goal with |- _ = (?a + ?b + _ + _)%C => assert (HH : forall w : C, w = (RtoC (1 / 2) * w + RtoC (1 / 2) * w)%C) by (intros w; transitivity ((RtoC (1 / 2) + RtoC (1 / 2)) * w)%C; [rewrite <- RtoC_add; replace (1 / 2 + 1 / 2)%R with 1%R by lra; ring|ring]) end.
  rewrite (HH (pairT (x_nnn e) (r, c) (next R r, next K c))) at 3. rewrite (HH (pairT (x_nnn e) (r, next K c) (next R r, c))) at 3. ring.
Qed.
Lemma sum_of_order (f : triangle -> C) : sumC f (triangle_order R K per) = sumC (fun r => sumC (fun c => sumC (fun p => f (p, r, c)) [AtUpperRight; AtLowerRight; AtLowerLeft; AtUpperLeft]) (seq 0 LK)) (seq 0 LR).
Proof.
  unfold triangle_order. rewrite sumC_flat_map.
  rewrite (sumC_ext _ (fun p => sumC (fun r => sumC (fun c => f (p, r, c)) (seq 0 LK)) (seq 0 LR))).
  - rewrite (sumC_swap (fun p r => sumC (fun c => f (p, r, c)) (seq 0 LK))). apply sumC_ext. intros r _. apply (sumC_swap (fun p c => f (p, r, c))).
  - intros p _. rewrite sumC_flat_map. rewrite (sumC_ext _ (fun c => sumC (fun r => f (p, r, c)) (seq 0 LR))) by (intros c _; apply sumC_map). apply (sumC_swap (fun c r => f (p, r, c))).
Qed.
Lemma hor_total : sumC (fun r => sumC (fun c => (hw r c + hw r c + (hw (next R r) c + hw (next R r) c))%C) (seq 0 LK)) (seq 0 LR) = sumC (fun r => sumC (fun c => pairT (x_nn e) (r, c) (r, next K c)) (seq 0 LK)) (seq 0 R).
Proof.
  rewrite sumC_swap, (sumC_swap (fun r c => pairT (x_nn e) (r, c) (r, next K c))). apply sumC_ext. intros c _. etransitivity; [exact (row_sum (fun r => (hw r c + hw r c)%C) per R ltac:(lia))|]. apply sumC_ext. intros r Hr. apply in_seq in Hr. apply half_share. apply above_pos; lia.
Qed.
Lemma ver_total : sumC (fun r => sumC (fun c => (vw r c + vw r c + (vw r (next K c) + vw r (next K c)))%C) (seq 0 LK)) (seq 0 LR) = sumC (fun r => sumC (fun c => pairT (x_nn e) (r, c) (next R r, c)) (seq 0 K)) (seq 0 LR).
Proof.
  apply sumC_ext. intros r _. etransitivity; [exact (row_sum (fun c => (vw r c + vw r c)%C) per K ltac:(lia))|]. apply sumC_ext. intros c Hc. apply in_seq in Hc. apply half_share. apply above_pos; lia.
Qed.
Lemma site_total : plain_onsite e P -> sumC (fun r => sumC (fun c => (RtoC (1 / 4) * (siteT (r, c) + siteT (r, next K c) + (siteT (next R r, c) + siteT (next R r, next K c))))%C) (seq 0 LK)) (seq 0 LR) = sumC siteT (grid R K).
Proof.
  intros PO. unfold grid. rewrite sumC_prod. unfold plain_onsite in PO. destruct (x_onsite e) as [on|] eqn:EO.
  - destruct PO as [PE _].
    assert (G : forall n (f : nat -> C), 2 <= n -> sumC (fun c => (f c + f (next n c))%C) (seq 0 n) = sumC (fun c => (f c + f c)%C) (seq 0 n)).
    { intros n f Hn. pose proof (row_sum f true n ltac:(lia)) as Q. unfold next. rewrite Q. apply sumC_ext. intros c _. rewrite !orb_true_r. cbn [one_if]. cbn [Nat.add INR]. rewrite RtoC_add. ring. }
    rewrite PE. rewrite (sumC_ext _ (fun r => (sumC (fun c => (RtoC (1/4) * (siteT (r, c) + siteT (r, next K c)))%C) (seq 0 K) + sumC (fun c => (RtoC (1/4) * (siteT (next R r, c) + siteT (next R r, next K c)))%C) (seq 0 K))%C)) by (intros r _; rewrite <- sumC_add; apply sumC_ext; intros c _; ring).
    rewrite (G R (fun r => sumC (fun c => (RtoC (1/4) * (siteT (r, c) + siteT (r, next K c)))%C) (seq 0 K)) HR). apply sumC_ext. intros r _. rewrite !sumC_scal. rewrite (G K (fun c => siteT (r, c)) HK). rewrite sumC_add.
    transitivity ((RtoC (1/4) + RtoC (1/4) + RtoC (1/4) + RtoC (1/4)) * sumC (fun c => siteT (r, c)) (seq 0 K))%C; [ring|]. rewrite <- !RtoC_add. replace (1/4+1/4+1/4+1/4)%R with 1%R by lra. ring.
  - assert (Z : forall x, siteT x = RtoC 0) by (intros x; unfold siteT; rewrite EO; reflexivity). rewrite !sumC_zero; [reflexivity| |]; intros r _; apply sumC_zero; intros c _; rewrite !Z; ring.
Qed.
Theorem triangles_add_up : nnn_fit e P -> plain_onsite e P -> exchangeable (x_nn e) -> sumC (fun t => triangle_operator e P t psi s) (triangle_order R K per) = nnn_hamiltonian e P psi s.
Proof.
  intros NF PO EX. rewrite sum_of_order.
  rewrite (sumC_ext _ (fun r => sumC (fun c => ((pairT (x_nnn e) (r, c) (next R r, next K c) + pairT (x_nnn e) (r, next K c) (next R r, c)) + ((hw r c + hw r c) + (hw (next R r) c + hw (next R r) c) + ((vw r c + vw r c) + (vw r (next K c) + vw r (next K c)))) +
   RtoC (1 / 4) * (siteT (r, c) + siteT (r, next K c) + (siteT (next R r, c) + siteT (next R r, next K c))))%C) (seq 0 LK))).
  2:{ intros r Hr. apply sumC_ext. intros c Hc. apply in_seq in Hr, Hc. apply plaquette_sum; try assumption. split; lia. }
  transitivity (sumC (fun r => (sumC (fun c => (pairT (x_nnn e) (r, c) (next R r, next K c) + pairT (x_nnn e) (r, next K c) (next R r, c))%C) (seq 0 LK) + (sumC (fun c => (hw r c + hw r c + (hw (next R r) c + hw (next R r) c))%C) (seq 0 LK) + sumC (fun c => (vw r c + vw r c + (vw r (next K c) + vw r (next K c)))%C) (seq 0 LK)) +
    sumC (fun c => (RtoC (1 / 4) * (siteT (r, c) + siteT (r, next K c) + (siteT (next R r, c) + siteT (next R r, next K c))))%C) (seq 0 LK))%C) (seq 0 LR)).
  { apply sumC_ext. intros r _. rewrite <- !sumC_add. reflexivity. }
  rewrite !sumC_add, hor_total, ver_total, (site_total PO). unfold nnn_hamiltonian, bonds, plaquettes_of. rewrite sumC_app, !sumC_map. unfold grid. rewrite !sumC_prod. cbn [ends].
  transitivity ((sumC (fun r => sumC (fun c => pairT (x_nn e) (r, c) (r, next K c)) (seq 0 LK)) (seq 0 R) + sumC (fun r => sumC (fun c => pairT (x_nn e) (r, c) (next R r, c)) (seq 0 K)) (seq 0 LR)) + sumC (fun r => sumC (fun c => (pairT (x_nnn e) (r, c) (next R r, next K c) + pairT (x_nnn e) (r, next K c) (next R r, c))%C) (seq 0 LK)) (seq 0 LR) + sumC (fun a => sumC (fun b => siteT (a, b)) (seq 0 K)) (seq 0 R))%C; [ring|].
  f_equal. unfold siteT. destruct (x_onsite e) as [on|]; [rewrite sumC_prod; reflexivity|]. apply sumC_zero. intros r _. apply sumC_zero. reflexivity.
Qed.
End Total.
