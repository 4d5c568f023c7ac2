(** One and several sweeps; the triangular lattice. *)
From Coq Require Import List Arith Bool Reals Lia Lra Permutation.
From Verif Require Import Base Cplx SumModel SumSpec SumProofs NetSum PbcProofs TrgTensor BmpsSum ProjModel ProjSpec ProjWave ProjTri ProjSteps ExpModel ExpSpec ExpAlg ExpOp ExpMain ExpTotal TriSweepModel TriSweepSpec TriSweepSeries TriSweepTerm TriSweepMain TriSweepTotal.
Import ListNotations.
Local Open Scope nat_scope.

Lemma energy_gives tau n E : energy_of tau n = Some E -> tau <> 0%R -> exp (- tau * E) = n.
Proof. unfold energy_of. destruct (Rlt_dec 0 n) as [H|]; [|discriminate]. intros Q T. injection Q as <-. replace (- tau * (- ln n / tau))%R with (ln n) by (field; exact T). apply exp_ln. exact H. Qed.
Lemma all_app qr svd tol : forall a b P, project_all qr svd tol P (a ++ b) = let '(P1, x) := project_all qr svd tol P a in let '(Q, y) := project_all qr svd tol P1 b in (Q, (x * y)%R).
Proof.
  induction a as [|[[o g] h] a IH]; intros b P; cbn [app project_all].
  - destruct (project_all qr svd tol P b) as [Q y]. rewrite Rmult_1_l. reflexivity.
  - rewrite IH. destruct (project_all qr svd tol (r_peps (project qr svd tol P o g h)) a) as [P1 x]. destruct (project_all qr svd tol P1 b) as [Q y]. rewrite Rmult_assoc. reflexivity.
Qed.
Lemma lossless_app qr svd tol m : forall a b P, lossless qr svd tol m P (a ++ b) <-> lossless qr svd tol m P a /\ lossless qr svd tol m (fst (project_all qr svd tol P a)) b.
Proof.
  induction a as [|[[o g] h] a IH]; intros b P; cbn [app lossless project_all]; [cbn [fst]; intuition|]. rewrite IH. destruct (project_all qr svd tol (r_peps (project qr svd tol P o g h)) a) as [P1 x]. cbn [fst]. tauto.
Qed.

Lemma map_rep {X Y} (f : X -> Y) a n : map f (repeat a n) = repeat (f a) n.
Proof. induction n as [|n IH]; [reflexivity|]. cbn. rewrite IH. reflexivity. Qed.

Section Run.
Context (eps : R) (qr : tensor -> tensor * tensor) (svd : nat -> tensor -> tensor * list R * tensor) (tol : R) (m : nat) (QR : qr_exact qr) (SV : svd_up_to m svd).
Notation product_of e P l := (fun orders psi => series_product (x_tau e) (triangle_operator e P) l orders psi).
Lemma listed_series e P l : sound tol P -> 2 <= p_rows P -> 2 <= p_cols P -> nnn_fit e P -> plain_onsite e P -> (forall t, In t l -> In t (triangle_order (p_rows P) (p_cols P) (p_per P))) ->
  let calls := map (fun t : triangle => let '(p, r, c) := t in let ham := tri_ham e (p_rows P) (p_cols P) (p_per P) (corner_of (p_rows P) (p_cols P) (p_per P) p r c) p in (tri_call (p_cols P) (p_per P) p r c, taylor_exp eps (x_tau e) ham, Some ham)) l in
  lossless qr svd tol m P calls -> let '(Q, n) := project_all qr svd tol P calls in
  exists orders, orders_for l orders /\ forall s, proper P s -> (RtoC n * wave Q s)%C = series_product (x_tau e) (triangle_operator e P) l orders (wave P) s.
Proof.
  intros SO HR HK NF PO I calls LL.
  set (o := fun t : triangle => let '(p, r, c) := t in tri_call (p_cols P) (p_per P) p r c). set (ham := fun t : triangle => let '(p, r, c) := t in tri_ham e (p_rows P) (p_cols P) (p_per P) (corner_of (p_rows P) (p_cols P) (p_per P) p r c) p).
  assert (E : calls = map (fun t => (o t, taylor_exp eps (x_tau e) (ham t), Some (ham t))) l) by (unfold calls; apply map_ext; intros [[p r] c]; reflexivity). rewrite E in *. clearbody calls. subst calls.
  apply (sweep_series P eps (x_tau e) o ham (fun t => Some (ham t)) (triangle_operator e P) qr svd tol m QR SV l SO); [|exact LL].
  intros [[p r] c] Ht. apply I in Ht. apply (order_in P HR HK (p, r, c)) in Ht. exact (tri_stands e P HR HK p r c NF PO Ht).
Qed.
Lemma calls_listed e R K per : nnn_calls e R K per eps = map (fun t : triangle => let '(p, r, c) := t in let ham := tri_ham e R K per (corner_of R K per p r c) p in (tri_call K per p r c, taylor_exp eps (x_tau e) ham, Some ham)) (triangle_order R K per).
Proof.
  unfold nnn_calls, triangle_order. rewrite !flat_map_concat_map, !concat_map, !map_map. f_equal. apply map_ext. intros p. rewrite !flat_map_concat_map, !concat_map, !map_map. f_equal. apply map_ext. intros c. rewrite map_map. reflexivity.
Qed.
Theorem nnn_trotter e P : sound tol P -> 2 <= p_rows P -> 2 <= p_cols P -> nnn_fit e P -> plain_onsite e P -> lossless qr svd tol m P (nnn_calls e (p_rows P) (p_cols P) (p_per P) eps) ->
  let '(Q, n, en) := nnn_sweep eps qr svd tol e P in
  exists orders, orders_for (triangle_order (p_rows P) (p_cols P) (p_per P)) orders /\
  (forall s, proper P s -> (RtoC n * wave Q s)%C = series_product (x_tau e) (triangle_operator e P) (triangle_order (p_rows P) (p_cols P) (p_per P)) orders (wave P) s) /\
  (forall E, en = Some E -> x_tau e <> 0%R -> n = exp (- x_tau e * E)).
Proof.
  intros SO HR HK NF PO LL. rewrite calls_listed in LL. pose proof (listed_series e P _ SO HR HK NF PO (fun t H => H) LL) as A. cbv zeta in A. unfold nnn_sweep. rewrite calls_listed.
  match goal with |- context [project_all _ _ _ P ?l] => destruct (project_all qr svd tol P l) as [Q n] end. destruct A as (orders & O & A). exists orders. split; [exact O|]. split; [exact A|]. intros E HE HT. symmetry. apply energy_gives; assumption.
Qed.
Lemma sweeps_listed e : forall n P, sound tol P -> lossless_nnn eps qr svd tol m e n P ->
  let l := concat (repeat (nnn_calls e (p_rows P) (p_cols P) (p_per P) eps) n) in
  nnn_sweeps eps qr svd tol e n P = project_all qr svd tol P l /\ lossless qr svd tol m P l.
Proof.
  induction n as [|n IH]; intros P SO LL; [split; [reflexivity|exact I]|]. cbn [repeat concat nnn_sweeps lossless_nnn] in *. destruct LL as [L1 L2]. pose proof (all_calls qr svd tol m QR SV _ P SO L1) as A. unfold nnn_sweep in *.
  set (l := nnn_calls e (p_rows P) (p_cols P) (p_per P) eps) in *. pose proof (all_app qr svd tol l (concat (repeat l n)) P) as AP. pose proof (lossless_app qr svd tol m l (concat (repeat l n)) P) as LP.
  destruct (project_all qr svd tol P l) as [Q x]. cbn [fst] in *. destruct A as (SQ & (A1 & A2 & A3 & _) & _). destruct (IH Q SQ L2) as [I1 I2]. rewrite A1, A2, A3 in I1, I2. fold l in I1, I2. rewrite I1. rewrite AP. split; [reflexivity|]. apply LP. split; assumption.
Qed.
Theorem nnn_trotters e n P : sound tol P -> 2 <= p_rows P -> 2 <= p_cols P -> nnn_fit e P -> plain_onsite e P -> lossless_nnn eps qr svd tol m e n P ->
  let l := concat (repeat (triangle_order (p_rows P) (p_cols P) (p_per P)) n) in
  let '(Q, x) := nnn_sweeps eps qr svd tol e n P in
  exists orders, orders_for l orders /\ forall s, proper P s -> (RtoC x * wave Q s)%C = series_product (x_tau e) (triangle_operator e P) l orders (wave P) s.
Proof.
  intros SO HR HK NF PO LL l. destruct (sweeps_listed e n P SO LL) as [E L]. rewrite E. clear E.
  assert (C : concat (repeat (nnn_calls e (p_rows P) (p_cols P) (p_per P) eps) n) = map (fun t : triangle => let '(p, r, c) := t in let ham := tri_ham e (p_rows P) (p_cols P) (p_per P) (corner_of (p_rows P) (p_cols P) (p_per P) p r c) p in (tri_call (p_cols P) (p_per P) p r c, taylor_exp eps (x_tau e) ham, Some ham)) l).
  { unfold l. rewrite concat_map. f_equal. rewrite calls_listed. rewrite map_rep. reflexivity. }
  rewrite C in *. apply (listed_series e P l SO HR HK NF PO); [|exact L]. unfold l. intros t Ht. apply in_concat in Ht. destruct Ht as (l' & Hl & Ht). apply repeat_spec in Hl. subst l'. exact Ht.
Qed.

(** *** The triangular lattice *)
Definition piece_call (q : piece) : call :=
  match q with
  | Edge (Hor r c) => Row r c | Edge (Ver r c) => Col r c
  | Tri a b c => if fst a =? fst b then UpperLeft (fst b) (snd b) else LowerRight (fst a) (snd a)
  end.
Definition piece_ham (e : tri_executor) (q : piece) : tensor := match q with Edge _ => y_nn e | Tri _ _ _ => y_tri e end.
Definition calls_of (e : tri_executor) (l : list piece) : list (call * tensor * option tensor) := map (fun q => (piece_call q, taylor_exp eps (y_tau e) (piece_ham e q), None)) l.
Lemma first_are e R K : first_half eps e R K = calls_of e (first_pieces R K).
Proof.
  unfold first_half, first_pieces, calls_of. rewrite map_app, map_map. f_equal. rewrite <- seq_shift, !flat_map_concat_map, !concat_map, !map_map. f_equal. apply map_ext. intros c. cbn [map]. f_equal; [replace (Datatypes.S c - 1) with c by lia; reflexivity|].
  rewrite map_map. apply map_ext. intros r. cbn [piece_call piece_ham fst snd]. rewrite (proj2 (Nat.eqb_neq r (r + 1))) by lia. rewrite Nat.add_1_r. reflexivity.
Qed.
Lemma second_are e R K : second_half eps e R K = calls_of e (second_pieces R K).
Proof.
  unfold second_half, second_pieces, calls_of. rewrite map_app, map_map. f_equal. rewrite !flat_map_concat_map, !concat_map, !map_map. f_equal. apply map_ext. intros c. rewrite map_app, map_map. f_equal.
  apply map_ext. intros r. cbn [piece_call piece_ham fst snd]. rewrite Nat.eqb_refl. reflexivity.
Qed.
Definition piece_at (R K : nat) (q : piece) : Prop :=
  match q with
  | Edge (Hor r c) => r < R /\ c + 1 < K | Edge (Ver r c) => r + 1 < R /\ c < K
  | Tri a b c => exists r k, r + 1 < R /\ k + 1 < K /\ ((a = (r, k + 1) /\ b = (r + 1, k + 1) /\ c = (r + 1, k)) \/ (a = (r, k + 1) /\ b = (r, k) /\ c = (r + 1, k)))
  end.
Lemma pieces_at R K q : In q (first_pieces R K ++ second_pieces R K) -> 1 <= R -> 1 <= K -> piece_at R K q.
Proof.
  intros H HR HK. apply in_app_or in H. destruct H as [H|H]; apply in_app_or in H; destruct H as [H|H].
  - apply in_map_iff in H. destruct H as (r & <- & Hr). apply in_seq in Hr. cbn. lia.
  - apply in_flat_map in H. destruct H as (c & Hc & [<-|H]); apply in_seq in Hc; [cbn; lia|]. apply in_map_iff in H. destruct H as (r & <- & Hr). apply in_seq in Hr. exists r, c. repeat split; try lia. left. auto.
  - apply in_flat_map in H. destruct H as (c & Hc & H); apply in_seq in Hc. apply in_app_or in H. destruct H as [H|[<-|[]]]; [|cbn; lia]. apply in_map_iff in H. destruct H as (r & <- & Hr). apply in_seq in Hr. exists r, c. repeat split; try lia. right. auto.
  - apply in_map_iff in H. destruct H as (r & <- & Hr). apply in_seq in Hr. cbn. lia.
Qed.
Ltac distinct_sites := repeat (apply NoDup_cons; [cbn [In]; intros Q; repeat (destruct Q as [Q|Q]; [inversion Q; lia|]); exact Q|]); apply NoDup_nil.
Lemma piece_stands e P q : tri_fit e P -> piece_at (p_rows P) (p_cols P) q -> stands P piece_call (piece_ham e) (piece_operator e P) q.
Proof.
  intros (d & HD & S1 & S2) A.
  assert (M : forall n k, k + 1 < n -> next n k = k + 1) by (intros n k H; apply Nat.mod_small; lia).
  assert (MP : forall n k, k + 1 < n -> prev n (k + 1) = k) by (intros n k H; unfold prev; replace (k + 1 + n - 1) with (k + 1 * n) by lia; rewrite Nat.mod_add by lia; apply Nat.mod_small; lia).
  destruct q as [[r c|r c]|a b z]; cbn [piece_at] in A; unfold stands; cbn [piece_call piece_ham piece_operator ends].
  - destruct A as [Hr Hc]. cbn [sites_of dims map zip fst snd]. change ((c + 1) mod p_cols P) with (next (p_cols P) c). rewrite M by lia. assert (phys P r c = d) by (apply HD; lia). assert (phys P r (c + 1) = d) by (apply HD; lia). split; [|split; [rewrite H, H0; exact S1|split]].
    + split; [intros b [<-|[]]; apply bonds_in; cbn; destruct (p_per P); lia|]. cbn [sites_of]. rewrite M by lia. distinct_sites.
    + intros f g E s Hs. unfold piece_operator. cbn [ends]. change ((c + 1) mod p_cols P) with (next (p_cols P) c). rewrite M by lia. apply (term_agree P (y_nn e) [(r, c); (r, c + 1)] [phys P r c; phys P r (c + 1)] f g); [repeat constructor|exact E|exact Hs].
    + intros psi _ s _. unfold piece_operator. cbn [ends]. change ((c + 1) mod p_cols P) with (next (p_cols P) c). rewrite M by lia. reflexivity.
  - destruct A as [Hr Hc]. cbn [sites_of dims map zip fst snd]. change ((r + 1) mod p_rows P) with (next (p_rows P) r). rewrite M by lia. assert (phys P r c = d) by (apply HD; lia). assert (phys P (r + 1) c = d) by (apply HD; lia). split; [|split; [rewrite H, H0; exact S1|split]].
    + split; [intros b [<-|[]]; apply bonds_in; cbn; destruct (p_per P); lia|]. cbn [sites_of]. rewrite M by lia. distinct_sites.
    + intros f g E s Hs. unfold piece_operator. cbn [ends]. change ((r + 1) mod p_rows P) with (next (p_rows P) r). rewrite M by lia. apply (term_agree P (y_nn e) [(r, c); (r + 1, c)] [phys P r c; phys P (r + 1) c] f g); [repeat constructor|exact E|exact Hs].
    + intros psi _ s _. unfold piece_operator. cbn [ends]. change ((r + 1) mod p_rows P) with (next (p_rows P) r). rewrite M by lia. reflexivity.
  - destruct A as (r & k & Hr & Hk & A). assert (DD : phys P r (k + 1) = d /\ phys P (r + 1) (k + 1) = d /\ phys P (r + 1) k = d /\ phys P r k = d) by (repeat split; apply HD; lia). destruct DD as (D1 & D2 & D3 & D4).
    destruct A as [(-> & -> & ->)|(-> & -> & ->)]; cbn [fst snd].
    + rewrite (proj2 (Nat.eqb_neq r (r + 1))) by lia. cbn [sites_of dims map zip fst snd]. rewrite (M (p_rows P) r), MP by lia. rewrite D1, D2, D3. split; [|split; [exact S2|split]].
      * split; [intros b Hb; cbn [bonds_of] in Hb; rewrite (M (p_rows P) r), MP in Hb by lia; destruct Hb as [<-|[<-|[]]]; apply bonds_in; cbn; destruct (p_per P); lia|]. cbn [sites_of]. rewrite (M (p_rows P) r), MP by lia. distinct_sites.
      * intros f g E s Hs. unfold piece_operator. cbn [fst snd]. rewrite D1, D2, D3. apply (term_agree P (y_tri e) [(r, k + 1); (r + 1, k + 1); (r + 1, k)] [d; d; d] f g); [repeat constructor; cbn; congruence|exact E|exact Hs].
      * intros psi _ s _. unfold piece_operator. cbn [fst snd]. rewrite D1, D2, D3. reflexivity.
    + rewrite Nat.eqb_refl. cbn [sites_of dims map zip fst snd]. rewrite (M (p_rows P) r), (M (p_cols P) k) by lia. rewrite D1, D4, D3. split; [|split; [exact S2|split]].
      * split; [intros b Hb; cbn [bonds_of] in Hb; destruct Hb as [<-|[<-|[]]]; apply bonds_in; cbn; destruct (p_per P); lia|]. cbn [sites_of]. rewrite (M (p_rows P) r), (M (p_cols P) k) by lia. distinct_sites.
      * intros f g E s Hs. unfold piece_operator. cbn [fst snd]. rewrite D1, D4, D3. apply (term_agree P (y_tri e) [(r, k + 1); (r, k); (r + 1, k)] [d; d; d] f g); [repeat constructor; cbn; congruence|exact E|exact Hs].
      * intros psi _ s _. unfold piece_operator. cbn [fst snd]. rewrite D1, D4, D3. reflexivity.
Qed.
Theorem tri_trotter e P : sound tol P -> 1 <= p_rows P -> 1 <= p_cols P -> tri_fit e P -> lossless_tri eps qr svd tol m e P ->
  let l := first_pieces (p_rows P) (p_cols P) ++ second_pieces (p_rows P) (p_cols P) in
  let '(Q, na, nb, e0) := tri_sweep eps qr svd tol e P in
  exists orders, orders_for l orders /\
  (forall s, proper P s -> (RtoC (na * nb) * wave Q s)%C = series_product (y_tau e) (piece_operator e P) l orders (wave P) s) /\
  (forall E, e0 = Some E -> y_tau e <> 0%R -> (na * nb)%R = exp (- (2 * y_tau e) * E)).
Proof.
  intros SO HR HK TF LL l. unfold lossless_tri in LL. unfold tri_sweep. rewrite first_are, second_are in *. unfold calls_of in LL. rewrite <- map_app in LL. fold l in LL.
  pose proof (sweep_series P eps (y_tau e) piece_call (piece_ham e) (fun _ => None) (piece_operator e P) qr svd tol m QR SV l SO (fun q H => piece_stands e P q TF (pieces_at _ _ q H HR HK)) LL) as A. unfold l in A at 1. rewrite map_app in A. rewrite all_app in A. unfold calls_of.
  match goal with |- context [project_all qr svd tol P ?x] => destruct (project_all qr svd tol P x) as [P1 na] end. match goal with |- context [project_all qr svd tol P1 ?x] => destruct (project_all qr svd tol P1 x) as [Q nb] end.
  destruct A as (orders & O & A). exists orders. split; [exact O|]. split; [exact A|]. intros E HE HT.
  destruct (energy_of (y_tau e) na) as [ea|] eqn:EA; [|discriminate]. destruct (energy_of (y_tau e) nb) as [eb|] eqn:EB; [|discriminate]. injection HE as <-. rewrite <- (energy_gives _ _ _ EA HT), <- (energy_gives _ _ _ EB HT), <- exp_plus. f_equal. field.
Qed.
End Run.
