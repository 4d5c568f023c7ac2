(** The terms of the bonds, and a sweep as the product of their exponential series. *)
From Coq Require Import List Arith Bool Reals Lia Lra Permutation.
From Verif Require Import Base Cplx SumModel SumSpec SumProofs NetSum PbcProofs TrgTensor ProjModel ProjSpec ProjWave ProjSteps ExpModel ExpSpec ExpAlg ExpOp.
Import ListNotations.
Local Open Scope nat_scope.

(** *** Shares *)
Lemma degree_sum R K per r c : degree R K per (r, c) = one_if ((0 <? c) || per) + one_if ((r + 1 <? R) || per) + one_if ((c + 1 <? K) || per) + one_if ((0 <? r) || per).
Proof.
  unfold degree. cbn [fst snd filter leg_bond]. destruct (0 <? c), ((r + 1 <? R) || per), ((c + 1 <? K) || per), (0 <? r), per; reflexivity.
Qed.
Ltac cases := repeat match goal with |- context [?a =? ?b] => destruct (Nat.eqb_spec a b) | |- context [?a <? ?b] => destruct (Nat.ltb_spec a b) end; cbn [one_if orb andb negb]; try reflexivity; try (exfalso; lia).
Lemma hor_shares R K (per : bool) r c : 2 <= R -> 2 <= K -> r < R -> c < (if per then K else K - 1) ->
  let edge := one_if (negb per && ((r =? 0) || (r =? R - 1))) in
  4 - edge - one_if (negb per && (c =? 0)) = degree R K per (r, c) /\ 4 - edge - one_if (negb per && (c =? K - 2)) = degree R K per (r, (c + 1) mod K).
Proof.
  intros HR HK Hr Hc edge. unfold edge. rewrite !degree_sum. destruct per; cbn [negb andb one_if].
  - rewrite !orb_true_r. split; reflexivity.
  - rewrite (Nat.mod_small (c + 1)) by lia. rewrite !orb_false_r. split; cases.
Qed.
Lemma ver_shares R K (per : bool) r c : 2 <= R -> 2 <= K -> c < K -> r < (if per then R else R - 1) ->
  let edge := one_if (negb per && ((c =? 0) || (c =? K - 1))) in
  4 - edge - one_if (negb per && (r =? 0)) = degree R K per (r, c) /\ 4 - edge - one_if (negb per && (r =? R - 2)) = degree R K per ((r + 1) mod R, c).
Proof.
  intros HR HK Hc Hr edge. unfold edge. rewrite !degree_sum. destruct per; cbn [negb andb one_if].
  - rewrite !orb_true_r. split; reflexivity.
  - rewrite (Nat.mod_small (r + 1)) by lia. rewrite !orb_false_r. split; cases.
Qed.

(** *** The term of a bond *)
Lemma outer A B a a' b b' : shape A = [a; a'] -> shape B = [b; b'] -> shape (contract A [] B []) = [a; a'; b; b'] /\ forall i j k l, entry (contract A [] B []) [i; j; k; l] = (entry A [i; j] * entry B [k; l])%C.
Proof. destruct A as [shA fA], B as [shB fB]. cbn [shape]. intros -> ->. split; reflexivity. Qed.
Lemma bond_term base d h1 on1 h2 on2 : shape base = [d; d; d; d] -> shape on1 = [d; d] -> shape on2 = [d; d] -> let B := bond_hamiltonian base h1 on1 h2 on2 (eye d) in
  shape B = [d; d; d; d] /\ forall x y psi s, x <> y -> respects psi -> s (fst x) (snd x) < d -> s (fst y) (snd y) < d ->
  term B [d; d] [x; y] psi s = (term base [d; d] [x; y] psi s + (RtoC h1 * term on1 [d] [x] psi s + RtoC h2 * term on2 [d] [y] psi s))%C.
Proof.
  intros S0 S1 S2 B. destruct (outer on1 (eye d) d d d d S1 eq_refl) as [_ E1]. destruct (outer (eye d) on2 d d d d eq_refl S2) as [_ E2]. split; [exact S0|]. intros x y psi s D H Hx Hy.
  assert (HB : forall i j k l, entry B [i; j; k; l] = (entry base [i; j; k; l] + (RtoC h1 * (entry on1 [i; j] * (if k =? l then RtoC 1 else RtoC 0)) + RtoC h2 * ((if i =? j then RtoC 1 else RtoC 0) * entry on2 [k; l])))%C).
  { intros i j k l. unfold B, bond_hamiltonian. cbn [tadd times entry]. rewrite E1, E2. cbn [eye entry nth]. ring. }
  unfold term. rewrite !sum_choices2, !sum_choices1. cbn [values map zip place]. rewrite <- !sumC_scal.
  transitivity (sumC (fun i => (sumC (fun j => (entry base [i; s (fst x) (snd x); j; s (fst y) (snd y)] * psi (at_site (at_site s x i) y j))%C) (seq 0 d) +
     (RtoC h1 * (entry on1 [i; s (fst x) (snd x)] * psi (at_site s x i)) + (if i =? s (fst x) (snd x) then RtoC 1 else RtoC 0) * sumC (fun j => (RtoC h2 * (entry on2 [j; s (fst y) (snd y)] * psi (at_site s y j)))%C) (seq 0 d)))%C) (seq 0 d)).
  - apply sumC_ext. intros i Hi.
    rewrite (sumC_ext _ (fun j => (entry base [i; s (fst x) (snd x); j; s (fst y) (snd y)] * psi (at_site (at_site s x i) y j) +
      (RtoC h1 * entry on1 [i; s (fst x) (snd x)] * psi (at_site (at_site s x i) y j) * (if j =? s (fst y) (snd y) then RtoC 1 else RtoC 0) +
       (if i =? s (fst x) (snd x) then RtoC 1 else RtoC 0) * (RtoC h2 * (entry on2 [j; s (fst y) (snd y)] * psi (at_site (at_site s x i) y j))))%C)%C)) by (intros j _; rewrite HB; ring).
    rewrite !sumC_add. f_equal. f_equal.
    + rewrite (BmpsMain.sumC_pick (fun j => (RtoC h1 * entry on1 [i; s (fst x) (snd x)] * psi (at_site (at_site s x i) y j))%C) d (s (fst y) (snd y)) Hy).
      transitivity (RtoC h1 * entry on1 [i; s (fst x) (snd x)] * psi (at_site s x i))%C; [|ring]. f_equal. apply H. intros r c. destruct (site_dec (r, c) y) as [<-|N]; [rewrite at_same; symmetry; apply at_other; cbn; congruence|]. rewrite at_other by exact N. reflexivity.
    + rewrite sumC_scal. destruct (Nat.eqb_spec i (s (fst x) (snd x))) as [->|]; [|ring]. f_equal. apply sumC_ext. intros j _. f_equal. f_equal. apply H. intros r c. destruct (site_dec (r, c) y) as [<-|N]; [rewrite !at_same; reflexivity|]. rewrite (at_other _ y j r c N), (at_other s y j r c N). destruct (site_dec (r, c) x) as [<-|N']; [rewrite at_same; reflexivity|]. rewrite at_other by exact N'. reflexivity.
  - rewrite !sumC_add. f_equal. f_equal.
    rewrite (sumC_ext _ (fun i => (sumC (fun j => (RtoC h2 * (entry on2 [j; s (fst y) (snd y)] * psi (at_site s y j)))%C) (seq 0 d) * (if i =? s (fst x) (snd x) then RtoC 1 else RtoC 0))%C)) by (intros; ring).
    apply (BmpsMain.sumC_pick (fun _ => sumC (fun j => (RtoC h2 * (entry on2 [j; s (fst y) (snd y)] * psi (at_site s y j)))%C) (seq 0 d))). exact Hx.
Qed.
Definition ham_of (e : executor) (R K : nat) (per : bool) (b : bond) : tensor := match b with Hor r c => hor_ham e R K per r c | Ver r c => ver_ham e R K per r c end.
Definition call_of (b : bond) : call := match b with Hor r c => Row r c | Ver r c => Col r c end.

Section Sweep.
Context (eps : R) (e : executor) (P : peps).
Context (HR : 2 <= p_rows P) (HK : 2 <= p_cols P) (TF : terms_fit e P).
Notation pd x := (phys P (fst x) (snd x)).
Notation fx b := (fst (ends (p_rows P) (p_cols P) b)).
Notation fy b := (snd (ends (p_rows P) (p_cols P) b)).
Notation ham b := (ham_of e (p_rows P) (p_cols P) (p_per P) b).
Notation gate b := (taylor_exp eps (e_tau e) (ham b)).

Lemma step_mod n c : 2 <= n -> c < n -> (c + 1) mod n <> c /\ (c + 1) mod n < n.
Proof. intros Hn Hc. split; [|apply Nat.mod_upper_bound; lia]. destruct (Nat.eq_dec (c + 1) n) as [E|]; [rewrite E, Nat.mod_same by lia; lia|rewrite Nat.mod_small by lia; lia]. Qed.
Lemma ends_ok b : In b (bonds (p_rows P) (p_cols P) (p_per P)) -> fx b <> fy b /\ (fst (fx b) < p_rows P /\ snd (fx b) < p_cols P) /\ (fst (fy b) < p_rows P /\ snd (fy b) < p_cols P).
Proof.
  intros H. apply bonds_in in H. destruct b as [r c|r c]; cbn in H |- *; destruct H as [H1 H2].
  - assert (c < p_cols P) by (destruct (p_per P); lia). destruct (step_mod (p_cols P) c HK H) as [Q1 Q2]. repeat split; try assumption. congruence.
  - assert (r < p_rows P) by (destruct (p_per P); lia). destruct (step_mod (p_rows P) r HR H) as [Q1 Q2]. repeat split; try assumption. congruence.
Qed.
Lemma ham_ok b : In b (bonds (p_rows P) (p_cols P) (p_per P)) -> shape (ham b) = [pd (fx b); pd (fx b); pd (fy b); pd (fy b)] /\
  forall psi s, respects psi -> proper P s -> term (ham b) [pd (fx b); pd (fy b)] [fx b; fy b] psi s = bond_operator e P b psi s.
Proof.
  intros Hb. destruct (ends_ok b Hb) as (D & [X1 X2] & [Y1 Y2]). destruct TF as [T1 T2]. specialize (T1 b Hb). unfold bond_operator, base_term in *.
  destruct (e_onsite e) as [on|] eqn:EO.
  - destruct T2 as [d T2].
    assert (Sx : shape (on (fst (fx b)) (snd (fx b))) = [d; d]) by (apply T2; assumption). assert (Sy : shape (on (fst (fy b)) (snd (fy b))) = [d; d]) by (apply T2; assumption).
    assert (Px : pd (fx b) = d) by (apply T2; assumption). assert (Py : pd (fy b) = d) by (apply T2; assumption).
    assert (SI : site_id on = eye d) by (unfold site_id; rewrite (dimat_shape _ 0 [d; d] (proj2 (T2 0 0 ltac:(lia) ltac:(lia)))); reflexivity).
    pose proof (proj1 (bonds_in _ _ _ _) Hb) as HB.
    destruct b as [r c|r c]; cbn [ends fst snd ham_of] in *; unfold hor_ham, ver_ham; rewrite EO, SI; destruct HB as [H1 H2].
    + destruct (hor_shares (p_rows P) (p_cols P) (p_per P) r c HR HK H1 H2) as [-> ->]. rewrite Px, Py in *.
      destruct (bond_term _ d (1 / INR (degree (p_rows P) (p_cols P) (p_per P) (r, c))) (on r c) (1 / INR (degree (p_rows P) (p_cols P) (p_per P) (r, (c + 1) mod p_cols P))) (on r ((c + 1) mod p_cols P)) T1 Sx Sy) as [B1 B2].
      split; [exact B1|]. intros psi s Hp Hs. rewrite B2; [reflexivity|exact D|exact Hp|cbn [fst snd]..]; [rewrite <- Px|rewrite <- Py]; apply Hs; assumption.
    + destruct (ver_shares (p_rows P) (p_cols P) (p_per P) r c HR HK H2 H1) as [-> ->]. rewrite Px, Py in *.
      destruct (bond_term _ d (1 / INR (degree (p_rows P) (p_cols P) (p_per P) (r, c))) (on r c) (1 / INR (degree (p_rows P) (p_cols P) (p_per P) ((r + 1) mod p_rows P, c))) (on ((r + 1) mod p_rows P) c) T1 Sx Sy) as [B1 B2].
      split; [exact B1|]. intros psi s Hp Hs. rewrite B2; [reflexivity|exact D|exact Hp|cbn [fst snd]..]; [rewrite <- Px|rewrite <- Py]; apply Hs; assumption.
  - destruct b as [r c|r c]; cbn [ends fst snd ham_of] in *; unfold hor_ham, ver_ham; rewrite EO; (split; [exact T1|]); intros psi s _ _; ring.
Qed.
Lemma place_proper xs ds l s : Forall2 (fun x d => d = phys P (fst x) (snd x)) xs ds -> proper P s -> In l (choices ds) -> proper P (place s xs l).
Proof.
  intros H. revert l s. induction H as [|x d xs ds E _ IH]; intros l s Hs Hl; [destruct l; exact Hs|]. apply choices_in in Hl. inversion Hl as [|v d' l' ds' Hv Hl']; subst. cbn [place]. apply IH; [apply proper_at; assumption|apply choices_in; exact Hl'].
Qed.
Lemma term_agree T xs ds f g : Forall2 (fun x d => d = phys P (fst x) (snd x)) xs ds -> agree P f g -> agree P (term T ds xs f) (term T ds xs g).
Proof. intros H A s Hs. unfold term. apply sumC_ext. intros l Hl. f_equal. apply A. eapply place_proper; eassumption. Qed.
Lemma operator_agree b f g : agree P f g -> agree P (bond_operator e P b f) (bond_operator e P b g).
Proof.
  intros A s Hs. unfold bond_operator. destruct (ends (p_rows P) (p_cols P) b) as [x y].
  rewrite (term_agree (base_term e b) [x; y] [pd x; pd y] f g) by (first [exact A|exact Hs|repeat constructor]). f_equal. destruct (e_onsite e) as [on|]; [|reflexivity].
  rewrite (term_agree _ [x] [pd x] f g) by (first [exact A|exact Hs|repeat constructor]). rewrite (term_agree _ [y] [pd y] f g) by (first [exact A|exact Hs|repeat constructor]). reflexivity.
Qed.
Lemma times_same b psi : In b (bonds (p_rows P) (p_cols P) (p_per P)) -> respects psi -> forall k, agree P (times_op k (term (ham b) [pd (fx b); pd (fy b)] [fx b; fy b]) psi) (times_op k (bond_operator e P b) psi).
Proof.
  intros Hb H. destruct (ham_ok b Hb) as [_ E].
  assert (RK : forall k, respects (times_op k (term (ham b) [pd (fx b); pd (fy b)] [fx b; fy b]) psi)) by (induction k as [|k IH]; [exact H|]; apply (op_respects (matrix_of (ham b)) [pd (fx b); pd (fy b)] [fx b; fy b]); [reflexivity|exact IH]).
  induction k as [|k IH]; intros s Hs; [reflexivity|]. cbn [times_op Nat.iter nat_rect]. change (nat_rect (fun _ => basis -> C) psi (fun _ => ?h) k) with (times_op k h psi). rewrite E; [|apply RK|exact Hs]. apply operator_agree; assumption.
Qed.
Lemma exp_agree tau b f g K : agree P f g -> agree P (exp_terms tau (bond_operator e P b) K f) (exp_terms tau (bond_operator e P b) K g).
Proof.
  intros A s Hs. unfold exp_terms. apply sumC_ext. intros k _. f_equal. revert s Hs. induction k as [|k IH]; intros s Hs; [apply A; exact Hs|]. cbn [times_op Nat.iter nat_rect]. apply (operator_agree b _ _ IH). exact Hs.
Qed.
(** the gate of a bond *)
Lemma bond_gate b : In b (bonds (p_rows P) (p_cols P) (p_per P)) -> gate_fits P (call_of b) (gate b) /\ exists K, 2 <= K <= 999 /\
  forall psi, respects psi -> agree P (act (p_rows P) (p_cols P) (call_of b) (gate b) psi) (exp_terms (e_tau e) (bond_operator e P b) K psi).
Proof.
  intros Hb. destruct (ends_ok b Hb) as (D & [X1 X2] & [Y1 Y2]). destruct (ham_ok b Hb) as [S _]. destruct (gate_exp eps (e_tau e) _ _ _ _ _ S D) as (K & HK' & SG & G).
  split; [unfold gate_fits; rewrite SG; destruct b; reflexivity|]. exists K. split; [exact HK'|]. intros psi H s Hs.
  transitivity (gate2 (gate b) (fx b) (fy b) psi s); [destruct b; reflexivity|]. rewrite G; [|exact H|apply Hs; assumption..]. unfold exp_terms. apply sumC_ext. intros k _. f_equal. apply times_same; assumption.
Qed.
Lemma act_respects b psi : respects psi -> respects (act (p_rows P) (p_cols P) (call_of b) (gate b) psi).
Proof.
  intros H s s' E. assert (Q : forall x y, gate2 (gate b) x y psi s = gate2 (gate b) x y psi s'); [|destruct b; apply Q].
  intros x y. unfold gate2. apply sumC_ext. intros i _. apply sumC_ext. intros j _. rewrite !E. f_equal. apply H. intros r c. unfold at_site. rewrite E. reflexivity.
Qed.
(** a list of bonds *)
Lemma bonds_act l : incl l (bonds (p_rows P) (p_cols P) (p_per P)) -> exists order, (forall b, 2 <= order b <= 999) /\ forall psi, respects psi ->
  agree P (acts (p_rows P) (p_cols P) (map (fun b => (call_of b, gate b, Some (ham b))) l) psi) (fold_left (fun psi b => exp_terms (e_tau e) (bond_operator e P b) (order b) psi) l psi).
Proof.
  intros Hl.
  assert (O : exists order, (forall b, 2 <= order b <= 999) /\ forall b, In b l -> forall psi, respects psi -> agree P (act (p_rows P) (p_cols P) (call_of b) (gate b) psi) (exp_terms (e_tau e) (bond_operator e P b) (order b) psi)).
  { induction l as [|b l IH]; [exists (fun _ => 2); split; [intros; lia|intros b []]|]. destruct IH as [order [O1 O2]]; [intros b' Q; apply Hl; right; exact Q|]. destruct (bond_gate b (Hl b (or_introl eq_refl))) as (_ & K & HK' & G).
    exists (fun b' => if bond_eq_dec b' b then K else order b'). split; [intros b'; destruct (bond_eq_dec b' b); [exact HK'|apply O1]|]. intros b' Hb' psi H. destruct (bond_eq_dec b' b) as [->|N]; [apply G; exact H|]. apply O2; [|exact H]. destruct Hb' as [Q|Q]; [congruence|exact Q]. }
  destruct O as [order [O1 O2]]. exists order. split; [exact O1|].
  assert (FA : forall l', incl l' l -> forall f g, agree P f g -> agree P (fold_left (fun psi b => exp_terms (e_tau e) (bond_operator e P b) (order b) psi) l' f) (fold_left (fun psi b => exp_terms (e_tau e) (bond_operator e P b) (order b) psi) l' g)).
  { induction l' as [|b l' IH]; intros I f g A; [exact A|]. cbn [fold_left]. apply IH; [intros q Q; apply I; right; exact Q|]. apply exp_agree. exact A. }
  assert (G : forall l', incl l' l -> forall psi, respects psi -> agree P (acts (p_rows P) (p_cols P) (map (fun b => (call_of b, gate b, Some (ham b))) l') psi) (fold_left (fun psi b => exp_terms (e_tau e) (bond_operator e P b) (order b) psi) l' psi)).
  { induction l' as [|b l' IH]; intros I psi H s Hs; [reflexivity|]. cbn [map acts fold_left]. rewrite IH; [|intros q Q; apply I; right; exact Q|apply act_respects; exact H|exact Hs]. apply FA; [intros q Q; apply I; right; exact Q| |exact Hs]. apply O2; [apply I; left; reflexivity|exact H]. }
  apply G. apply incl_refl.
Qed.
End Sweep.
Lemma calls_are eps e R K per : nn_calls eps e R K per = map (fun b => (call_of b, taylor_exp eps (e_tau e) (ham_of e R K per b), Some (ham_of e R K per b))) (sweep_order R K per).
Proof.
  unfold nn_calls, sweep_order. rewrite map_app, !flat_map_concat_map, !concat_map, !map_map. f_equal; f_equal; apply map_ext; intros c; rewrite map_map; reflexivity.
Qed.
Lemma sweep_in R K per : incl (sweep_order R K per) (bonds R K per).
Proof.
  intros b Hb. apply bonds_in. apply in_app_or in Hb. destruct Hb as [Hb|Hb]; apply in_flat_map in Hb; destruct Hb as [c [Hc Hb]]; apply in_map_iff in Hb; destruct Hb as [r [<- Hr]]; apply in_seq in Hc, Hr; cbn; lia.
Qed.
Lemma wave_respects P : respects (wave P).
Proof.
  intros s s' E. unfold wave. apply sum_over_ext; [reflexivity|]. intros a. f_equal. apply prodC_ext. intros [r c] _. unfold index_at. cbn [fst snd]. rewrite E. reflexivity.
Qed.
Theorem sweep_trotter eps qr svd tol m : qr_exact qr -> svd_up_to m svd -> forall e P, sound tol P -> 2 <= p_rows P -> 2 <= p_cols P -> terms_fit e P ->
  lossless qr svd tol m P (nn_calls eps e (p_rows P) (p_cols P) (p_per P)) ->
  let '(Q, n) := nn_sweep eps qr svd tol e P in exists order, (forall b, 2 <= order b <= 999) /\ forall s, proper P s -> (RtoC n * wave Q s)%C = trotter e P order (wave P) s.
Proof.
  intros QR SV e P SO HR HK TF LL. pose proof (all_calls qr svd tol m QR SV _ P SO LL) as A. unfold nn_sweep. destruct (project_all qr svd tol P (nn_calls eps e (p_rows P) (p_cols P) (p_per P))) as [Q n]. destruct A as (_ & _ & A).
  destruct (bonds_act eps e P HR HK TF (sweep_order (p_rows P) (p_cols P) (p_per P)) (sweep_in _ _ _)) as [order [O1 O2]]. exists order. split; [exact O1|]. intros s Hs. rewrite A by exact Hs. rewrite calls_are. apply O2; [apply wave_respects|exact Hs].
Qed.
