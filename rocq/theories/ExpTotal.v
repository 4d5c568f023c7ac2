(** The terms of all bonds add up to the Hamiltonian; several sweeps. *)
From Coq Require Import List Arith Bool Reals Lia Lra Permutation.
From Verif Require Import Base Cplx SumModel SumSpec SumProofs NetSum PbcProofs TrgTensor BmpsSum ProjModel ProjSpec ProjWave ProjPatch ProjGrid ProjThree ProjTri ProjCorner ProjSteps ExpModel ExpSpec ExpAlg ExpOp ExpMain.
Import ListNotations.
Local Open Scope nat_scope.

Lemma sweep_perm R K per : Permutation (sweep_order R K per) (bonds R K per).
Proof.
  assert (NB : NoDup (bonds R K per)).
  { apply bonds_nodup. }
  apply NoDup_Permutation; [|exact NB|].
  - unfold sweep_order. assert (G : forall (f : nat -> nat -> bond) a b, (forall r c r' c', f r c = f r' c' -> r = r' /\ c = c') -> NoDup (flat_map (fun c => map (fun r => f r c) (seq 0 a)) (seq 0 b))).
    { intros f a b Inj. generalize (seq_NoDup b 0). generalize (seq 0 b). intros l N. induction N as [|c l Hc N IH]; [constructor|]. cbn [flat_map]. apply BmpsSum.NoDup_append; [|exact IH|].
      - apply FinFun.Injective_map_NoDup; [|apply seq_NoDup]. intros r r' Q. apply Inj in Q. apply Q.
      - intros x Hx Hy. apply in_map_iff in Hx. destruct Hx as [r [<- _]]. apply in_flat_map in Hy. destruct Hy as [c' [Hc' Hy]]. apply in_map_iff in Hy. destruct Hy as [r' [Q _]]. apply Inj in Q. destruct Q as [_ Q]. congruence. }
    apply BmpsSum.NoDup_append; [apply G; intros; split; congruence|apply G; intros; split; congruence|].
    intros x Hx Hy. apply in_flat_map in Hx. destruct Hx as [c [_ Hx]]. apply in_map_iff in Hx. destruct Hx as [r [<- _]]. apply in_flat_map in Hy. destruct Hy as [c' [_ Hy]]. apply in_map_iff in Hy. destruct Hy as [r' [Q _]]. discriminate.
  - intros b. split; [apply sweep_in|]. intros Hb. apply bonds_in in Hb. unfold sweep_order. apply in_or_app. destruct b as [r c|r c]; destruct Hb as [H1 H2]; [right|left]; apply in_flat_map; exists c; (split; [apply in_seq; lia|]); apply in_map_iff; exists r; (split; [reflexivity|apply in_seq; lia]).
Qed.
(** a row of bonds *)
Lemma row_sum (f : nat -> C) (per : bool) n : 1 <= n ->
  sumC (fun c => (f c + f ((c + 1) mod n))%C) (seq 0 (if per then n else n - 1)) = sumC (fun c => (RtoC (INR (one_if ((0 <? c) || per) + one_if ((c + 1 <? n) || per))) * f c)%C) (seq 0 n).
Proof.
  intros Hn. destruct n as [|m]; [lia|]. rewrite sumC_add.
  transitivity (sumC (fun c => (RtoC (INR (one_if ((0 <? c) || per))) * f c)%C) (seq 0 (S m)) + sumC (fun c => (RtoC (INR (one_if ((c + 1 <? S m) || per))) * f c)%C) (seq 0 (S m)))%C.
  2:{ rewrite <- sumC_add. apply sumC_ext. intros c _. rewrite plus_INR, RtoC_add. ring. }
  assert (A : sumC (fun c => (RtoC (INR (one_if ((0 <? c) || per))) * f c)%C) (seq 0 (S m)) = (RtoC (INR (one_if per)) * f 0%nat + sumC (fun c => f (c + 1)%nat) (seq 0 m))%C).
  { cbn [seq]. rewrite sumC_cons. f_equal. rewrite <- seq_shift, sumC_map. apply sumC_ext. intros c _. cbn [Nat.ltb Nat.leb orb one_if INR]. rewrite Nat.add_1_r. ring. }
  assert (B : sumC (fun c => (RtoC (INR (one_if ((c + 1 <? S m) || per))) * f c)%C) (seq 0 (S m)) = (sumC f (seq 0 m) + RtoC (INR (one_if per)) * f m)%C).
  { rewrite seq_S, sumC_app, sumC_cons, sumC_nil. cbn [Nat.add]. rewrite (proj2 (Nat.ltb_ge (m + 1) (S m))) by lia. cbn [orb]. f_equal; [|ring]. apply sumC_ext. intros c Hc. apply in_seq in Hc. rewrite (proj2 (Nat.ltb_lt (c + 1) (S m))) by lia. cbn [orb one_if INR]. ring. }
  rewrite A, B. destruct per; cbn [one_if INR].
  - rewrite seq_S, !sumC_app, !sumC_cons, !sumC_nil. cbn [Nat.add]. replace (m + 1) with (S m) by lia. rewrite Nat.mod_same by lia.
    rewrite (sumC_ext (fun c => f ((c + 1) mod S m)) (fun c => f (c + 1)) (seq 0 m)) by (intros c Hc; apply in_seq in Hc; rewrite Nat.mod_small by lia; reflexivity). ring.
  - replace (S m - 1) with m by lia. rewrite (sumC_ext (fun c => f ((c + 1) mod S m)) (fun c => f (c + 1)) (seq 0 m)) by (intros c Hc; apply in_seq in Hc; rewrite Nat.mod_small by lia; reflexivity). ring.
Qed.
(** every site is shared among its bonds *)
Lemma shares_sum R K per (T : nat * nat -> C) : 2 <= R -> 2 <= K ->
  let w x := (RtoC (1 / INR (degree R K per x)) * T x)%C in
  sumC (fun b => (w (fst (ends R K b)) + w (snd (ends R K b)))%C) (bonds R K per) = sumC T (grid R K).
Proof.
  intros HR HK w. unfold bonds. rewrite sumC_app, !sumC_map. unfold grid. rewrite !sumC_prod. cbn [fst snd ends].
  rewrite (sumC_ext (fun a => sumC (fun b => (w (a, b) + w (a, (b + 1) mod K))%C) (seq 0 (if per then K else K - 1))) (fun r => sumC (fun c => (RtoC (INR (one_if ((0 <? c) || per) + one_if ((c + 1 <? K) || per))) * w (r, c))%C) (seq 0 K)))
    by (intros r _; apply (row_sum (fun c => w (r, c))); lia).
  rewrite (sumC_swap (fun a b => (w (a, b) + w ((a + 1) mod R, b))%C)).
  rewrite (sumC_ext (fun b => sumC (fun a => (w (a, b) + w ((a + 1) mod R, b))%C) (seq 0 (if per then R else R - 1))) (fun c => sumC (fun r => (RtoC (INR (one_if ((0 <? r) || per) + one_if ((r + 1 <? R) || per))) * w (r, c))%C) (seq 0 R)))
    by (intros c _; apply (row_sum (fun r => w (r, c))); lia).
  rewrite (sumC_swap (fun c r => (RtoC (INR (one_if ((0 <? r) || per) + one_if ((r + 1 <? R) || per))) * w (r, c))%C)). rewrite <- sumC_add. apply sumC_ext. intros r Hr. rewrite <- sumC_add. apply sumC_ext. intros c Hc. apply in_seq in Hr, Hc.
  transitivity (RtoC (INR (degree R K per (r, c))) * w (r, c))%C.
  - rewrite degree_sum. rewrite !plus_INR, !RtoC_add. ring.
  - unfold w. assert (Z : INR (degree R K per (r, c)) <> 0%R).
    { apply not_0_INR. rewrite degree_sum. destruct per; rewrite ?orb_true_r, ?orb_false_r; cbn [one_if]; [lia|]. destruct (Nat.ltb_spec 0 c), (Nat.ltb_spec (c + 1) K); cbn [one_if]; lia. }
    transitivity (RtoC (INR (degree R K per (r, c)) * (1 / INR (degree R K per (r, c)))) * T (r, c))%C; [rewrite RtoC_mul; ring|]. replace (INR (degree R K per (r, c)) * (1 / INR (degree R K per (r, c))))%R with 1%R by (field; exact Z). ring.
Qed.
Theorem operators_add_up e P psi s : 2 <= p_rows P -> 2 <= p_cols P -> sumC (fun b => bond_operator e P b psi s) (sweep_order (p_rows P) (p_cols P) (p_per P)) = hamiltonian e P psi s.
Proof.
  intros HR HK. rewrite (sumC_perm _ _ _ (sweep_perm _ _ _)). unfold hamiltonian. unfold bond_operator. destruct (e_onsite e) as [on|].
  - rewrite <- (shares_sum (p_rows P) (p_cols P) (p_per P) (fun x => term (on (fst x) (snd x)) [phys P (fst x) (snd x)] [x] psi s) HR HK). rewrite <- sumC_add. apply sumC_ext. intros b _. destruct (ends (p_rows P) (p_cols P) b) as [x y]. reflexivity.
  - match goal with |- _ = (?A + RtoC 0)%C => transitivity A; [|ring] end. apply sumC_ext. intros b _. destruct (ends (p_rows P) (p_cols P) b) as [x y]. ring.
Qed.
Theorem terms_add_up eps e P : 2 <= p_rows P -> 2 <= p_cols P -> terms_fit e P -> forall psi, respects psi -> forall s, proper P s ->
  evolved P (nn_calls eps e (p_rows P) (p_cols P) (p_per P)) psi s = hamiltonian e P psi s.
Proof.
  intros HR HK TF psi H s Hs. rewrite <- operators_add_up by assumption. unfold evolved. rewrite calls_are, sumC_map. apply sumC_ext. intros b Hb. cbn [fst snd]. apply sweep_in in Hb.
  rewrite <- (proj2 (ham_ok e P HR HK TF b Hb) psi s H Hs). destruct b; reflexivity.
Qed.

(** *** Several sweeps *)
Lemma operator_same e P Q b : same_sites P Q -> In b (bonds (p_rows P) (p_cols P) (p_per P)) -> 2 <= p_rows P -> 2 <= p_cols P -> forall f g, (forall s, f s = g s) -> forall s, bond_operator e Q b f s = bond_operator e P b g s.
Proof.
  intros (A1 & A2 & A3 & A4) Hb HR HK f g E s. unfold bond_operator. rewrite A1, A2, A3. destruct (ends_ok P HR HK b Hb) as (_ & [X1 X2] & [Y1 Y2]). destruct (ends (p_rows P) (p_cols P) b) as [x y]. cbn [fst snd] in *. rewrite !A4 by assumption.
  assert (T : forall t ds xs, term t ds xs f s = term t ds xs g s) by (intros; unfold term; apply sumC_ext; intros l _; rewrite E; reflexivity). rewrite T. destruct (e_onsite e); [rewrite !T|]; reflexivity.
Qed.
Lemma trotter_same e P Q order : same_sites P Q -> 2 <= p_rows P -> 2 <= p_cols P -> forall f g, (forall s, f s = g s) -> forall s, trotter e Q order f s = trotter e P order g s.
Proof.
  intros S HR HK. unfold trotter. pose proof S as (A1 & A2 & A3 & _). rewrite A1, A2, A3.
  assert (G : forall l, incl l (bonds (p_rows P) (p_cols P) (p_per P)) -> forall f g, (forall s, f s = g s) -> forall s,
    fold_left (fun psi b => exp_terms (e_tau e) (bond_operator e Q b) (order b) psi) l f s = fold_left (fun psi b => exp_terms (e_tau e) (bond_operator e P b) (order b) psi) l g s).
  { induction l as [|b l IH]; intros I f g E s; [apply E|]. cbn [fold_left]. apply IH; [intros q H; apply I; right; exact H|]. intros t. unfold exp_terms. apply sumC_ext. intros k _. f_equal.
    revert t. induction k as [|k IHk]; intros t; [apply E|]. cbn [times_op Nat.iter nat_rect]. apply (operator_same e P Q b S (I b (or_introl eq_refl)) HR HK). exact IHk. }
  intros f g E s. apply (G _ (sweep_in _ _ _) f g E s).
Qed.
Lemma trotter_agree e P order f g : agree P f g -> agree P (trotter e P order f) (trotter e P order g).
Proof.
  unfold trotter. generalize (sweep_order (p_rows P) (p_cols P) (p_per P)). intros l. revert f g. induction l as [|b l IH]; intros f g A; [exact A|]. cbn [fold_left]. apply IH. apply exp_agree. exact A.
Qed.
Lemma operator_scal e P b k f s : bond_operator e P b (fun s => (k * f s)%C) s = (k * bond_operator e P b f s)%C.
Proof.
  unfold bond_operator. destruct (ends (p_rows P) (p_cols P) b) as [x y]. assert (T : forall t ds xs, term t ds xs (fun s => (k * f s)%C) s = (k * term t ds xs f s)%C) by (intros; unfold term; rewrite <- sumC_scal; apply sumC_ext; intros l _; ring).
  rewrite T. destruct (e_onsite e); [rewrite !T|]; ring.
Qed.
Lemma same_self P : same_sites P P.
Proof. repeat split; reflexivity. Qed.
Lemma trotter_scal e P order k : 2 <= p_rows P -> 2 <= p_cols P -> forall f s, trotter e P order (fun s => (k * f s)%C) s = (k * trotter e P order f s)%C.
Proof.
  intros HR HK. unfold trotter.
  assert (G : forall l, incl l (bonds (p_rows P) (p_cols P) (p_per P)) -> forall f g, (forall s, f s = (k * g s)%C) -> forall s,
    fold_left (fun psi b => exp_terms (e_tau e) (bond_operator e P b) (order b) psi) l f s = (k * fold_left (fun psi b => exp_terms (e_tau e) (bond_operator e P b) (order b) psi) l g s)%C).
  { induction l as [|b l IH]; intros I f g E s; [apply E|]. cbn [fold_left]. apply IH; [intros q H; apply I; right; exact H|]. intros t. unfold exp_terms. rewrite <- sumC_scal. apply sumC_ext. intros j _.
    assert (Q : forall t, times_op j (bond_operator e P b) f t = (k * times_op j (bond_operator e P b) g t)%C).
    { induction j as [|j IHj]; intros u; [apply E|]. cbn [times_op Nat.iter nat_rect]. refine (eq_trans _ (operator_scal e P b k _ u)). apply (operator_same e P P b (same_self P) (I b (or_introl eq_refl)) HR HK). exact IHj. }
    rewrite Q. ring. }
  intros f s. apply (G _ (sweep_in _ _ _) (fun s => (k * f s)%C) f (fun _ => eq_refl) s).
Qed.
Theorem sweeps_trotter eps qr svd tol m : qr_exact qr -> svd_up_to m svd -> forall e n P, sound tol P -> 2 <= p_rows P -> 2 <= p_cols P -> terms_fit e P ->
  lossless_sweeps eps qr svd tol m e n P ->
  let '(Q, x) := nn_sweeps eps qr svd tol e n P in exists orders, length orders = n /\ (forall o, In o orders -> forall b, 2 <= o b <= 999) /\
  forall s, proper P s -> (RtoC x * wave Q s)%C = fold_left (fun psi o => trotter e P o psi) orders (wave P) s.
Proof.
  intros QR SV e. induction n as [|n IH]; intros P SO HR HK TF LL; cbn [nn_sweeps lossless_sweeps] in *.
  - exists []. split; [reflexivity|]. split; [intros o []|]. intros s _. cbn. ring.
  - destruct LL as [L1 L2]. pose proof (sweep_trotter eps qr svd tol m QR SV e P SO HR HK TF L1) as T. pose proof (run_ok qr svd tol m QR SV _ P SO L1) as RO. unfold nn_sweep in *.
    destruct (project_all qr svd tol P (nn_calls eps e (p_rows P) (p_cols P) (p_per P))) as [Q x]. cbn [fst] in L2. destruct RO as (SQ & SS & _). destruct T as [order [O1 O2]]. pose proof SS as (A1 & A2 & A3 & A4).
    assert (TQ : terms_fit e Q).
    { destruct TF as [T1 T2]. split.
      - rewrite A1, A2, A3. intros b Hb. specialize (T1 b Hb). destruct (ends_ok P HR HK b Hb) as (_ & [X1 X2] & [Y1 Y2]). destruct (ends (p_rows P) (p_cols P) b) as [y z]. cbn [fst snd] in *. rewrite !A4 by assumption. exact T1.
      - destruct (e_onsite e); [|exact I]. destruct T2 as [d T2]. exists d. rewrite A1, A2. intros r c Hr Hc. rewrite A4 by assumption. apply T2; assumption. }
    specialize (IH Q SQ ltac:(rewrite A1; exact HR) ltac:(rewrite A2; exact HK) TQ L2). destruct (nn_sweeps eps qr svd tol e n Q) as [Q' y]. destruct IH as (orders & LO & B & W).
    exists (order :: orders). split; [cbn; congruence|]. split; [intros o [<-|Ho]; [exact O1|apply B; exact Ho]|]. intros s Hs. cbn [fold_left].
    assert (FS : forall os f g, (forall s, proper P s -> f s = g s) -> forall s, proper P s -> fold_left (fun psi o => trotter e P o psi) os f s = fold_left (fun psi o => trotter e P o psi) os g s).
    { induction os as [|o os IHo]; intros f g E t Ht; [apply E; exact Ht|]. cbn [fold_left]. apply IHo; [|exact Ht]. apply trotter_agree. exact E. }
    assert (FK : forall os k f t, fold_left (fun psi o => trotter e P o psi) os (fun s => (k * f s)%C) t = (k * fold_left (fun psi o => trotter e P o psi) os f t)%C).
    { assert (FE : forall os f g, (forall s, f s = g s) -> forall s, fold_left (fun psi o => trotter e P o psi) os f s = fold_left (fun psi o => trotter e P o psi) os g s).
      { induction os as [|o os IHo]; intros f g E t; [apply E|]. cbn [fold_left]. apply IHo. apply (trotter_same e P P o (same_self P) HR HK). exact E. }
      induction os as [|o os IHo]; intros k f t; [reflexivity|]. cbn [fold_left]. refine (eq_trans _ (IHo k _ t)). apply FE. intros u. apply trotter_scal; assumption. }
    assert (FQ : forall os f t, fold_left (fun psi o => trotter e Q o psi) os f t = fold_left (fun psi o => trotter e P o psi) os f t).
    { assert (G : forall os f g, (forall s, f s = g s) -> forall s, fold_left (fun psi o => trotter e Q o psi) os f s = fold_left (fun psi o => trotter e P o psi) os g s).
      { induction os as [|o os IHo]; intros f g E t; [apply E|]. cbn [fold_left]. apply IHo. apply (trotter_same e P Q o SS HR HK). exact E. }
      intros os f t. apply G. reflexivity. }
    rewrite RtoC_mul. transitivity (RtoC x * (RtoC y * wave Q' s))%C; [ring|]. rewrite W by (apply (proper_iff P Q s SS); exact Hs). rewrite FQ, <- FK. apply FS; [|exact Hs]. intros t Ht. apply O2. exact Ht.
Qed.
