(** What the loop projection does to the state. *)
From Coq Require Import List Arith Lia Bool Reals Lra Permutation.
From Verif Require Import Base Cplx SumModel SumSpec SumProofs NetSum NetEx PbcProofs ContractorModel TrgTensor TrgHoleAlg BmpsAlg ProjModel ProjSpec ProjAlg ProjCore ProjTwo ProjPatch ProjGrid ProjWave ProjThree ProjTri ExpSpec ExpAlg LoopModel LoopSpec LoopAlg LoopGauge LoopRing LoopPat LoopWave.
Import NetEx ListNotations.
Local Open Scope nat_scope.

(** *** The order of the legs *)
Ltac four q Hq := let Q := fresh "Q" in destruct (four_cases q Hq) as [Q|[Q|[Q|Q]]]; subst q.
Definition l_leg (q : nat) : nat := match q with 0 => 1 | 1 => 0 | 2 => 3 | _ => 2 end.
Definition r_leg (q : nat) : nat := match q with 0 => 2 | 1 => 1 | 2 => 0 | _ => 3 end.
Definition e_leg (q : nat) : nat := match q with 0 => 0 | 1 => 2 | 2 => 1 | _ => 0 end.
Definition f_leg (q : nat) : nat := match q with 0 => 3 | 1 => 3 | 2 => 2 | _ => 1 end.
Lemma legs_index f q y z p : q < 4 -> site_index l_leg r_leg f q y z p = corner_index q y p (f (e_leg q)) (f (f_leg q)) z.
Proof. intros Hq. four q Hq; reflexivity. Qed.
Lemma to_mps_ok q T l d e f r : q < 4 -> shape T = corner_index q l d e f r ->
  shape (to_mps q T) = [l; d; e; f; r] /\ forall y p i j z, entry (to_mps q T) [y; p; i; j; z] = entry T (corner_index q y p i j z).
Proof. intros Hq. unfold to_mps. destruct T as [sh g]. cbn [shape]. four q Hq; cbn [corner_index]; intros ->; split; reflexivity. Qed.
Lemma from_mps_ok q T l d e f r : q < 4 -> shape T = [l; d; e; f; r] ->
  shape (from_mps q T) = corner_index q l d e f r /\ forall y p i j z, entry (from_mps q T) (corner_index q y p i j z) = entry T [y; p; i; j; z].
Proof. intros Hq. unfold from_mps. destruct T as [sh g]. cbn [shape]. four q Hq; cbn [corner_index]; intros ->; split; reflexivity. Qed.
Lemma eat2_ok T lw rw l d e f r : shape T = [l; d; e; f; r] -> length lw = e -> length rw = f ->
  shape (eat2 T lw rw) = [l; d; e; f; r] /\ forall y p i j z, i < e -> j < f -> entry (eat2 T lw rw) [y; p; i; j; z] = (entry T [y; p; i; j; z] * (el lw i * el rw j))%C.
Proof.
  intros ST L1 L2. assert (Q : shape (eat2 T lw rw) = [l; d; length lw; length rw; r] /\ forall y p i j z, entry (eat2 T lw rw) [y; p; i; j; z] = sm f (fun j' => (sm e (fun i' => (entry T [y; p; i'; j'; z] * dl lw i i')%C) * dl rw j j')%C)).
  { unfold eat2. revert ST. clear. destruct T as [sh g]. cbn [shape]. intros ->. split; reflexivity. }
  destruct Q as [Q1 Q2]. split; [rewrite Q1, L1, L2; reflexivity|]. intros y p i j z Hi Hj. rewrite Q2. rewrite sm_at' by exact Hj. rewrite sm_at' by exact Hi. ring.
Qed.
Lemma split2_ok tol T lw rw l d e f r : shape T = [l; d; e; f; r] -> length lw = e -> length rw = f ->
  shape (split2 tol T lw rw) = [l; d; e; f; r] /\ forall y p i j z, i < e -> j < f -> entry (split2 tol T lw rw) [y; p; i; j; z] = (entry T [y; p; i; j; z] * (el (inv_elements tol lw) i * el (inv_elements tol rw) j))%C.
Proof. intros ST L1 L2. apply (eat2_ok T (inv_elements tol lw) (inv_elements tol rw)); [exact ST|rewrite inv_length; assumption..]. Qed.
Lemma ring4_scale n0 n1 n2 n3 w0 w1 w2 w3 M0 M1 M2 M3 a0 a1 a2 a3 c0 c1 c2 c3 :
  ring4 n0 n1 n2 n3 (fun z => c0 * w0 z)%C (fun z => c1 * w1 z)%C (fun z => c2 * w2 z)%C (fun z => c3 * w3 z)%C (fun l r => M0 l r * a0)%C (fun l r => M1 l r * a1)%C (fun l r => M2 l r * a2)%C (fun l r => M3 l r * a3)%C =
  (c0 * c1 * c2 * c3 * (a0 * a1 * a2 * a3) * ring4 n0 n1 n2 n3 w0 w1 w2 w3 M0 M1 M2 M3)%C.
Proof.
  unfold ring4. rewrite <- sm_scal. apply sm_ext. intros z0 _. rewrite <- sm_scal. apply sm_ext. intros z1 _. rewrite <- sm_scal. apply sm_ext. intros z2 _. rewrite <- sm_scal. apply sm_ext. intros z3 _. ring.
Qed.
Lemma unit_el s i : el (unit_length s) i = (RtoC (/ norm_of s) * el s i)%C.
Proof.
  unfold el, unit_length. rewrite <- RtoC_mul. f_equal. set (f := fun x : R => (/ norm_of s * x)%R). replace 0%R with (f 0%R) at 1 by (unfold f; ring). rewrite map_nth. reflexivity.
Qed.

(** *** Many weights replaced *)
Definition sets (P : peps) (l : list (bond * list R)) : peps := fold_left (fun P x => set_bond P (fst x) (snd x)) l P.
Lemma sets_dims l : forall P, p_rows (sets P l) = p_rows P /\ p_cols (sets P l) = p_cols P /\ p_per (sets P l) = p_per P.
Proof.
  induction l as [|x l IH]; intros P; [repeat split; reflexivity|]. unfold sets in *. cbn [fold_left]. destruct (IH (set_bond P (fst x) (snd x))) as (A & B & C). destruct (set_rows P (fst x) (snd x)) as (A' & B' & C').
  rewrite A, B, C. repeat split; assumption.
Qed.
Lemma sets_lam l b' : forall P, (forall x, In x l -> In (fst x) (bs P) /\ b' <> fst x) -> In b' (bs P) -> lam_of (sets P l) b' = lam_of P b'.
Proof.
  induction l as [|x l IH]; intros P H Hb; [reflexivity|]. unfold sets in *. cbn [fold_left]. destruct (set_rows P (fst x) (snd x)) as (A & B & C). destruct (H x ltac:(left; reflexivity)) as [H1 H2].
  rewrite IH; rewrite ?A, ?B, ?C; [|intros y Hy; apply H; right; exact Hy|exact Hb]. rewrite lam_set by assumption. destruct (bond_eq_dec b' (fst x)); [contradiction|reflexivity].
Qed.
Lemma sets_wt l r c k : forall P, (forall x, In x l -> In (fst x) (bs P) /\ lb P r c k <> Some (fst x)) -> r < p_rows P -> c < p_cols P -> k < 4 -> wt (sets P l) r c k = wt P r c k.
Proof.
  induction l as [|x l IH]; intros P H Hr Hc Hk; [reflexivity|]. unfold sets in *. cbn [fold_left]. destruct (set_rows P (fst x) (snd x)) as (A & B & C). destruct (H x ltac:(left; reflexivity)) as [H1 H2].
  rewrite IH; rewrite ?A, ?B, ?C; try assumption; [|intros y Hy; apply H; right; exact Hy]. apply wt_set_miss; assumption.
Qed.

Lemma fet_roots svdt pr l : forall k k', fold_left (fet_step svdt pr) l (Ok k) = Ok k' -> k_roots k' = k_roots k.
Proof.
  induction l as [|i l IH]; intros k k' E; [apply Ok_same in E; subst k'; reflexivity|]. cbn [fold_left] in E.
  destruct (fet_step svdt pr (Ok k) i) as [k1|y] eqn:E1.
  - rewrite (IH _ _ E). unfold fet_step in E1. cbn [bind] in E1. destruct (fet svdt pr (k_us k i) (k_ls k ((i + 3) mod 4))) as [[[u s] vd]|]; [|discriminate E1]. cbn [bind] in E1. apply Ok_same in E1. subst k1. reflexivity.
  - exfalso. clear IH E1. induction l as [|q l IH]; [discriminate E|]. apply IH. exact E.
Qed.

Section Main.
Context (qr : nat -> tensor -> tensor * tensor) (svd svdt : nat -> tensor -> tensor * list R * tensor) (evd : tensor -> tensor * list R) (eigvec : bool -> tensor -> list R -> tensor) (pr : loop_params) (m : nat).
Context (QR : qr_any qr) (SV : svd_any svd) (SVT : svd_up_to m svdt) (EV : evd_unitary evd) (EG : eig_shape eigvec).
Context (P : peps) (gate : nat -> tensor) (r c : nat) (Fi : fitted (l_env_tol pr) P) (VA : loop_valid P r c) (GF : loop_fits P r c gate).
Let x := corner (p_rows P) (p_cols P) r c.
Let b := side (p_rows P) (p_cols P) r c.
Let r1 := next (p_rows P) r. Let c1 := next (p_cols P) c.
Lemma loop_geometry : (r < p_rows P /\ c < p_cols P /\ r1 < p_rows P /\ c1 < p_cols P) /\ r1 <> r /\ c1 <> c.
Proof.
  destruct VA as [HB ND]. pose proof (HB (Hor r c) ltac:(left; reflexivity)) as H0. pose proof (HB (Ver r c) ltac:(right; right; right; left; reflexivity)) as H3. apply bonds_in in H0. apply bonds_in in H3.
  destruct H0 as [Hr Hc'], H3 as [Hr' Hc]. split.
  - split; [exact Hr|]. split; [exact Hc|]. split; unfold r1, c1, next; apply Nat.mod_upper_bound; lia.
  - cbn [map corner] in ND. fold r1 c1 in ND. inversion ND as [|? ? N1 ND1]; subst. split; intros Q; apply N1; rewrite Q; cbn; auto.
Qed.
Lemma loop_bond q : q < 4 -> In (b q) (bs P).
Proof. intros Hq. apply (proj1 VA). apply in_map. four q Hq; cbn; auto. Qed.
Lemma loop_inside q : q < 4 -> fst (x q) < p_rows P /\ snd (x q) < p_cols P.
Proof. intros Hq. destruct loop_geometry as ((A & B & C & D) & _). unfold x. four q Hq; cbn [corner fst snd]; fold r1 c1; split; assumption. Qed.
Lemma loop_distinct q q' : q < 4 -> q' < 4 -> x q = x q' -> q = q'.
Proof.
  intros Hq Hq'. destruct loop_geometry as (_ & N1 & N2). unfold x. four q Hq; four q' Hq'; cbn [corner]; fold r1 c1; intros E; try reflexivity; exfalso; injection E; congruence.
Qed.
Lemma loop_bonds_distinct q q' : q < 4 -> q' < 4 -> b q = b q' -> q = q'.
Proof.
  intros Hq Hq'. destruct loop_geometry as (_ & N1 & N2). unfold b. four q Hq; four q' Hq'; cbn [side]; fold r1 c1; intros E; try reflexivity; try discriminate E; exfalso; injection E; congruence.
Qed.
Lemma loop_left q : q < 4 -> lb P (fst (x q)) (snd (x q)) (l_leg q) = Some (b (before q)).
Proof.
  intros Hq. pose proof (loop_bond (before q) (before_lt q)) as HB. revert HB. unfold x, b. four q Hq; cbn [corner side fst snd l_leg Nat.add Nat.modulo Nat.divmod Nat.sub]; intros HB; [apply end_up|apply end_right|apply end_down|apply end_left]; exact HB.
Qed.
Lemma loop_right q : q < 4 -> lb P (fst (x q)) (snd (x q)) (r_leg q) = Some (b q).
Proof.
  intros Hq. pose proof (loop_bond q Hq) as HB. revert HB. unfold x, b. four q Hq; cbn [corner side fst snd r_leg]; intros HB; [apply end_left|apply end_up|apply end_right|apply end_down]; exact HB.
Qed.
Lemma loop_legs q : q < 4 -> l_leg q < 4 /\ r_leg q < 4 /\ l_leg q <> r_leg q.
Proof. intros Hq. four q Hq; cbn; lia. Qed.
Lemma loop_ends q r2 c2 l : q < 4 -> r2 < p_rows P -> c2 < p_cols P -> l < 4 -> lb P r2 c2 l = Some (b q) ->
  exists q', q' < 4 /\ (r2, c2) = x q' /\ ((l = r_leg q' /\ q' = q) \/ (l = l_leg q' /\ before q' = q)).
Proof.
  intros Hq Hr Hc Hl E. apply leg_ends in E; try assumption. unfold b, x in *. four q Hq; cbn [side] in E; destruct E as [(-> & -> & ->)|(-> & -> & ->)].
  - exists 0. split; [lia|]. split; [reflexivity|left; split; reflexivity].
  - exists 1. split; [lia|]. split; [reflexivity|right; split; reflexivity].
  - exists 1. split; [lia|]. split; [reflexivity|left; split; reflexivity].
  - exists 2. split; [lia|]. split; [reflexivity|right; split; reflexivity].
  - exists 3. split; [lia|]. split; [reflexivity|right; split; reflexivity].
  - exists 2. split; [lia|]. split; [reflexivity|left; split; reflexivity].
  - exists 0. split; [lia|]. split; [reflexivity|right; split; reflexivity].
  - exists 3. split; [lia|]. split; [reflexivity|left; split; reflexivity].
Qed.

(** *** The tensors that are stored *)
Section Stored.
Context (s0 s1 s2 s3 : list R) (g0 g1 g2 g3 : tensor) (gs : nat -> tensor) (ls : nat -> list R).
Let P1 := patched P r c s0 s1 s2 s3 g0 g1 g2 g3.
Let P' := store P1 r c gs ls.
Lemma patched_gammas q : q < 4 -> loop_gammas P1 r c q = nth q [g0; g1; g2; g3] g0.
Proof.
  intros Hq. destruct loop_geometry as (_ & N1 & N2). unfold r1, c1, next in N1, N2. unfold P1, patched, loop_gammas, loop_site. cbn [put_gamma put_v put_h p_rows p_cols gamma].
  four q Hq; cbn [fst snd nth]; repeat first [rewrite put_same; reflexivity|rewrite put_other by congruence].
Qed.
Lemma patched_lambdas q : q < 4 -> loop_lambdas P1 r c q = nth q [s0; s1; s2; s3] s0.
Proof.
  intros Hq. destruct loop_geometry as (_ & N1 & N2). unfold r1, c1, next in N1, N2. unfold P1, patched, loop_lambdas. cbn [put_gamma put_v put_h p_rows p_cols lam_h lam_v].
  four q Hq; cbn [nth]; repeat first [rewrite put_same; reflexivity|rewrite put_other by congruence].
Qed.
Lemma stored_gamma q : q < 4 -> gamma P' (fst (x q)) (snd (x q)) = gs q.
Proof.
  intros Hq. destruct loop_geometry as (_ & N1 & N2). unfold r1, c1, next in N1, N2. unfold P', P1, store, patched, x, corner, next. cbn [put_gamma put_v put_h p_rows p_cols gamma].
  four q Hq; cbn [fst snd]; repeat first [rewrite put_same; reflexivity|rewrite put_other by congruence].
Qed.
Lemma stored_lam q : q < 4 -> lam_of P' (b q) = ls q.
Proof.
  intros Hq. destruct loop_geometry as (_ & N1 & N2). unfold r1, c1, next in N1, N2. unfold P', P1, store, patched, b, side, next.
  four q Hq; cbn [lam_of put_gamma put_v put_h p_rows p_cols lam_h lam_v]; unfold next; repeat first [rewrite put_same; reflexivity|rewrite put_other by congruence].
Qed.
Lemma stored_other r2 c2 : (forall q, q < 4 -> (r2, c2) <> x q) -> gamma P' r2 c2 = gamma P r2 c2.
Proof.
  intros N. pose proof (N 0 ltac:(lia)) as A0. pose proof (N 1 ltac:(lia)) as A1. pose proof (N 2 ltac:(lia)) as A2. pose proof (N 3 ltac:(lia)) as A3. unfold x, corner, next in A0, A1, A2, A3.
  unfold P', P1, store, patched. cbn [put_gamma put_v put_h p_rows p_cols gamma]. rewrite !put_other by assumption. reflexivity.
Qed.
Let chain := [(b 0, s0); (b 1, s1); (b 2, s2); (b 3, s3); (b 0, ls 0); (b 1, ls 1); (b 2, ls 2); (b 3, ls 3)].
Lemma stored_fields : lam_h P' = lam_h (sets P chain) /\ lam_v P' = lam_v (sets P chain) /\ p_rows P' = p_rows (sets P chain) /\ p_cols P' = p_cols (sets P chain) /\ p_per P' = p_per (sets P chain).
Proof. repeat split; reflexivity. Qed.
Lemma stored_lam_other b' : In b' (bs P) -> (forall q, q < 4 -> b' <> b q) -> lam_of P' b' = lam_of P b'.
Proof.
  intros Hb N. destruct stored_fields as (F1 & F2 & F3 & F4 & F5). transitivity (lam_of (sets P chain) b').
  - destruct b'; cbn [lam_of]; rewrite ?F1, ?F2, ?F3, ?F4; reflexivity.
  - apply sets_lam; [|exact Hb]. intros y Hy. repeat destruct Hy as [Hy|Hy]; subst; cbn [fst]; try contradiction; (split; [apply loop_bond|apply N]; lia).
Qed.
Lemma stored_wt r2 c2 l : r2 < p_rows P -> c2 < p_cols P -> l < 4 -> (forall q, q < 4 -> lb P r2 c2 l <> Some (b q)) -> wt P' r2 c2 l = wt P r2 c2 l.
Proof.
  intros Hr Hc Hl N. destruct stored_fields as (F1 & F2 & F3 & F4 & F5). transitivity (wt (sets P chain) r2 c2 l).
  - unfold wt, west, east, north, south. rewrite ?F1, ?F2, ?F3, ?F4, ?F5. reflexivity.
  - apply sets_wt; try assumption. intros y Hy. repeat destruct Hy as [Hy|Hy]; subst; cbn [fst]; try contradiction; (split; [apply loop_bond|apply N]; lia).
Qed.
End Stored.

(** *** The state *)
Let W q := length (env_left P r c q). Let N q := length (env_right P r c q). Let d q := phys P (fst (x q)) (snd (x q)). Let D q := length (lam_of P (b q)).
Lemma env_e q : q < 4 -> env_left P r c q = wt P (fst (x q)) (snd (x q)) (e_leg q).
Proof. intros Hq. unfold x. four q Hq; reflexivity. Qed.
Lemma env_f q : q < 4 -> env_right P r c q = wt P (fst (x q)) (snd (x q)) (f_leg q).
Proof. intros Hq. unfold x. four q Hq; reflexivity. Qed.
Lemma site_shape q : q < 4 -> shape (gamma P (fst (x q)) (snd (x q))) = corner_index q (D (before q)) (d q) (W q) (N q) (D q).
Proof.
  intros Hq. destruct Fi as (_ & SH & _ & _). destruct (loop_inside q Hq) as [Hr Hc]. rewrite (SH _ _ Hr Hc). pose proof (wt_bond P _ _ _ _ Hr Hc (proj1 (loop_legs q Hq)) (loop_left q Hq)) as A1. pose proof (wt_bond P _ _ _ _ Hr Hc (proj1 (proj2 (loop_legs q Hq))) (loop_right q Hq)) as A2.
  unfold D, W, N, d. rewrite (env_e q Hq), (env_f q Hq), <- A1, <- A2. four q Hq; reflexivity.
Qed.
Lemma outer_range f q : outer_fine (l_env_tol pr) P x l_leg r_leg f -> q < 4 ->
  (f q (e_leg q) < W q /\ good (l_env_tol pr) (env_left P r c q) (f q (e_leg q))) /\ (f q (f_leg q) < N q /\ good (l_env_tol pr) (env_right P r c q) (f q (f_leg q))).
Proof.
  intros O Hq. unfold W, N. rewrite (env_e q Hq), (env_f q Hq). split; apply O; try exact Hq; clear - Hq; four q Hq; cbn; lia.
Qed.
Definition outer_ok (f : nat -> nat -> nat) : Prop := forall q, q < 4 -> f q (e_leg q) < W q /\ f q (f_leg q) < N q.
Lemma fine_ok f : outer_fine (l_env_tol pr) P x l_leg r_leg f -> outer_ok f.
Proof. intros O q Hq. destruct (outer_range f q O Hq) as [[A _] [B _]]. split; assumption. Qed.
Lemma norms_apart (a0 a1 a2 a3 t0 t1 t2 t3 : R) : (1 * a0 * a1 * a2 * a3 * t0 * t1 * t2 * t3 <> 0)%R -> (a0 <> 0 /\ a1 <> 0 /\ a2 <> 0 /\ a3 <> 0 /\ t0 <> 0 /\ t1 <> 0 /\ t2 <> 0 /\ t3 <> 0)%R.
Proof. intros H. repeat split; intros E; apply H; rewrite E; ring. Qed.
(** the loop after the truncations, with the outer weights divided out and everything normalised *)
Lemma final_value (gs : nat -> tensor) (ls : nat -> list R) f p : shaped d W N gs ls -> outer_ok f ->
  let gs2 := fun i => from_mps i (split2 (l_env_tol pr) (gs i) (env_left P r c i) (env_right P r c i)) in
  let v q := (el (inv_elements (l_env_tol pr) (env_left P r c q)) (f q (e_leg q)) * el (inv_elements (l_env_tol pr) (env_right P r c q)) (f q (f_leg q)))%C in
  ring4 (length (ls 0)) (length (ls 1)) (length (ls 2)) (length (ls 3)) (el (unit_length (ls 0))) (el (unit_length (ls 1))) (el (unit_length (ls 2))) (el (unit_length (ls 3)))
    (fun y z => entry (normalised (gs2 0)) (site_index l_leg r_leg (f 0) 0 y z (p 0))) (fun y z => entry (normalised (gs2 1)) (site_index l_leg r_leg (f 1) 1 y z (p 1)))
    (fun y z => entry (normalised (gs2 2)) (site_index l_leg r_leg (f 2) 2 y z (p 2))) (fun y z => entry (normalised (gs2 3)) (site_index l_leg r_leg (f 3) 3 y z (p 3))) =
  (RtoC (/ norm_of (ls 0%nat)) * RtoC (/ norm_of (ls 1%nat)) * RtoC (/ norm_of (ls 2%nat)) * RtoC (/ norm_of (ls 3%nat)) *
   (RtoC (/ tnorm (gs2 0%nat)) * v 0%nat * (RtoC (/ tnorm (gs2 1%nat)) * v 1%nat) * (RtoC (/ tnorm (gs2 2%nat)) * v 2%nat) * (RtoC (/ tnorm (gs2 3%nat)) * v 3%nat)) *
   around gs ls p (fun q => f q (e_leg q)) (fun q => f q (f_leg q)))%C.
Proof.
  intros Sh O gs2 v. unfold around. rewrite <- ring4_scale.
  assert (G : forall q y z, q < 4 -> entry (normalised (gs2 q)) (site_index l_leg r_leg (f q) q y z (p q)) = (entry (gs q) [y; p q; f q (e_leg q); f q (f_leg q); z] * (RtoC (/ tnorm (gs2 q)) * v q))%C).
  { intros q y z Hq. rewrite legs_index by exact Hq. cbn [normalised entry]. destruct (O q Hq) as [E1 E2].
    destruct (split2_ok (l_env_tol pr) (gs q) (env_left P r c q) (env_right P r c q) _ _ _ _ _ (Sh q Hq) eq_refl eq_refl) as [X1 X2]. destruct (from_mps_ok q _ _ _ _ _ _ Hq X1) as [_ Y2].
    unfold gs2 at 2. rewrite Y2, X2 by assumption. unfold v. ring. }
  apply ring4_ext; intros; solve [apply unit_el|apply G; lia].
Qed.
(** the loop before them, with the outer weights *)
Lemma first_value (gm : nat -> tensor) (ls : nat -> list R) f p : (forall q, q < 4 -> shape (gm q) = corner_index q (length (ls (before q))) (d q) (W q) (N q) (length (ls q))) -> outer_ok f ->
  let gs := fun i => eat2 (to_mps i (gm i)) (env_left P r c i) (env_right P r c i) in
  let v q := (el (env_left P r c q) (f q (e_leg q)) * el (env_right P r c q) (f q (f_leg q)))%C in
  shaped d W N gs ls /\
  around gs ls p (fun q => f q (e_leg q)) (fun q => f q (f_leg q)) =
  (v 0%nat * v 1%nat * v 2%nat * v 3%nat * ring4 (length (ls 0%nat)) (length (ls 1%nat)) (length (ls 2%nat)) (length (ls 3%nat)) (el (ls 0%nat)) (el (ls 1%nat)) (el (ls 2%nat)) (el (ls 3%nat))
    (fun y z => entry (gm 0%nat) (site_index l_leg r_leg (f 0%nat) 0 y z (p 0%nat))) (fun y z => entry (gm 1%nat) (site_index l_leg r_leg (f 1%nat) 1 y z (p 1%nat)))
    (fun y z => entry (gm 2%nat) (site_index l_leg r_leg (f 2%nat) 2 y z (p 2%nat))) (fun y z => entry (gm 3%nat) (site_index l_leg r_leg (f 3%nat) 3 y z (p 3%nat))))%C.
Proof.
  intros Sh O gs v. split.
  - intros q Hq. destruct (to_mps_ok q (gm q) _ _ _ _ _ Hq (Sh q Hq)) as [X1 _]. destruct (eat2_ok (to_mps q (gm q)) (env_left P r c q) (env_right P r c q) _ _ _ _ _ X1 eq_refl eq_refl) as [Y1 _]. exact Y1.
  - unfold around.
    assert (G : forall q y z, q < 4 -> entry (gs q) [y; p q; f q (e_leg q); f q (f_leg q); z] = (entry (gm q) (site_index l_leg r_leg (f q) q y z (p q)) * v q)%C).
    { intros q y z Hq. rewrite legs_index by exact Hq. destruct (O q Hq) as [E1 E2].
      destruct (to_mps_ok q (gm q) _ _ _ _ _ Hq (Sh q Hq)) as [X1 X2]. destruct (eat2_ok (to_mps q (gm q)) (env_left P r c q) (env_right P r c q) _ _ _ _ _ X1 eq_refl eq_refl) as [_ Y2].
      unfold gs. rewrite Y2, X2 by assumption. reflexivity. }
    transitivity (RtoC 1 * RtoC 1 * RtoC 1 * RtoC 1 * (v 0%nat * v 1%nat * v 2%nat * v 3%nat) * ring4 (length (ls 0%nat)) (length (ls 1%nat)) (length (ls 2%nat)) (length (ls 3%nat)) (el (ls 0%nat)) (el (ls 1%nat)) (el (ls 2%nat)) (el (ls 3%nat))
    (fun y z => entry (gm 0%nat) (site_index l_leg r_leg (f 0%nat) 0 y z (p 0%nat))) (fun y z => entry (gm 1%nat) (site_index l_leg r_leg (f 1%nat) 1 y z (p 1%nat)))
    (fun y z => entry (gm 2%nat) (site_index l_leg r_leg (f 2%nat) 2 y z (p 2%nat))) (fun y z => entry (gm 3%nat) (site_index l_leg r_leg (f 3%nat) 3 y z (p 3%nat))))%C; [|ring].
    rewrite <- ring4_scale. apply ring4_ext; intros; solve [ring|apply G; lia].
Qed.

Lemma pat_shapes : exists s0 s1 s2 s3 g0 g1 g2 g3, let gm q := nth q [g0; g1; g2; g3] g0 in let sl q := nth q [s0; s1; s2; s3] s0 in
  pat qr svd gate P r c = patched P r c s0 s1 s2 s3 g0 g1 g2 g3 /\
  (forall q, q < 4 -> shape (gm q) = corner_index q (length (sl (before q))) (d q) (W q) (N q) (length (sl q))) /\
  (forall q, q < 4 -> length (sl q) <= dimat (gate q) 3 * D q) /\
  forall f p, outer_ok f -> (forall q, q < 4 -> p q < d q) ->
    ring4 (length (sl 0)) (length (sl 1)) (length (sl 2)) (length (sl 3)) (el (sl 0)) (el (sl 1)) (el (sl 2)) (el (sl 3))
      (fun y z => entry (gm 0) (site_index l_leg r_leg (f 0) 0 y z (p 0))) (fun y z => entry (gm 1) (site_index l_leg r_leg (f 1) 1 y z (p 1)))
      (fun y z => entry (gm 2) (site_index l_leg r_leg (f 2) 2 y z (p 2))) (fun y z => entry (gm 3) (site_index l_leg r_leg (f 3) 3 y z (p 3))) =
    nsum (map (fun i => dimat (gate i) 1) [0; 1; 2; 3]) (fun q => (gate_value gate (fun i => nth i q 0%nat) p * loop_value x b l_leg r_leg P (fun i => nth i q 0%nat) f)%C).
Proof.
  destruct GF as [B HG]. destruct loop_geometry as (_ & N1 & N2).
  pose proof (site_shape 0 ltac:(lia)) as Z0. pose proof (site_shape 1 ltac:(lia)) as Z1. pose proof (site_shape 2 ltac:(lia)) as Z2. pose proof (site_shape 3 ltac:(lia)) as Z3.
  pose proof (HG 0 ltac:(lia)) as G0. pose proof (HG 1 ltac:(lia)) as G1. pose proof (HG 2 ltac:(lia)) as G2. pose proof (HG 3 ltac:(lia)) as G3. cbv zeta in G0, G1, G2, G3. fold x in G0, G1, G2, G3.
  change ((0 + 3) mod 4) with 3 in *. change ((1 + 3) mod 4) with 0 in *. change ((2 + 3) mod 4) with 1 in *. change ((3 + 3) mod 4) with 2 in *. fold (d 0) in G0. fold (d 1) in G1. fold (d 2) in G2. fold (d 3) in G3.
  destruct (pat_ok qr svd QR SV gate P r c N1 N2 (W 0) (N 0) (W 1) (N 1) (W 2) (N 2) (W 3) (N 3) (D 0) (D 1) (D 2) (D 3) (B 0) (B 1) (B 2) (B 3) (d 0) (d 1) (d 2) (d 3) Z0 Z1 Z2 Z3 eq_refl eq_refl eq_refl eq_refl G0 G1 G2 G3)
    as (s0 & s1 & s2 & s3 & g0 & g1 & g2 & g3 & E & S0 & S1 & S2 & S3 & L0 & L1 & L2 & L3 & R4).
  exists s0, s1, s2, s3, g0, g1, g2, g3. intros gm sl. split; [exact E|]. split; [intros q Hq; four q Hq; assumption|]. split.
  - intros q Hq. four q Hq; unfold sl; cbn [nth]; [rewrite (dimat_shape _ 3 _ G0)|rewrite (dimat_shape _ 3 _ G1)|rewrite (dimat_shape _ 3 _ G2)|rewrite (dimat_shape _ 3 _ G3)]; cbn [nth]; assumption.
  - intros f p O Hp. pose proof (O 0 ltac:(lia)) as [A0 B0]. pose proof (O 1 ltac:(lia)) as [A1 B1]. pose proof (O 2 ltac:(lia)) as [A2 B2]. pose proof (O 3 ltac:(lia)) as [A3 B3].
    specialize (R4 _ _ _ _ _ _ _ _ _ _ _ _ A0 B0 A1 B1 A2 B2 A3 B3 (Hp 0 ltac:(lia)) (Hp 1 ltac:(lia)) (Hp 2 ltac:(lia)) (Hp 3 ltac:(lia))).
    cbn [map]. rewrite (dimat_shape _ 1 _ G0), (dimat_shape _ 1 _ G1), (dimat_shape _ 1 _ G2), (dimat_shape _ 1 _ G3). cbn [nth]. etransitivity; [exact R4|].
    cbn [nsum]. apply sumC_ext. intros q0 _. apply sumC_ext. intros q1 _. apply sumC_ext. intros q2 _. apply sumC_ext. intros q3 _. unfold gate_value. cbn [map]. rewrite (dimat_shape _ 3 _ G0), (dimat_shape _ 3 _ G1), (dimat_shape _ 3 _ G2), (dimat_shape _ 3 _ G3). cbn [nth nsum]. reflexivity.
Qed.
Theorem loop_main out : loop_project qr svd svdt evd eigvec pr gate P r c = Ok out -> (0 < l_inv_tol pr)%R -> Forall (fun y => (l_inv_tol pr <= y)%R) (lr_roots out) -> (lr_norm out <> 0)%R -> loop_room m P r c gate ->
  (forall s, proper P s -> (RtoC (lr_norm out) * wave (lr_peps out) s)%C = gate4 gate x (wave P) s) /\
  ((forall q, q < 4 -> kept (l_env_tol pr) (lam_of (lr_peps out) (b q))) -> fitted (l_env_tol pr) (lr_peps out) /\ same_sites P (lr_peps out)).
Proof.
  intros E PT RT NN RM. unfold loop_project in E. destruct (negb (p_per P) && _); [discriminate E|]. cbv zeta in E.
  destruct pat_shapes as (s0 & s1 & s2 & s3 & g0 & g1 & g2 & g3 & E1 & SG & LS & VAL). cbv zeta in SG, LS, VAL. rewrite E1 in E.
  set (P1 := patched P r c s0 s1 s2 s3 g0 g1 g2 g3) in *. set (gm := fun q => nth q [g0; g1; g2; g3] g0) in *. set (sl := fun q => nth q [s0; s1; s2; s3] s0) in *.
  set (gs := fun i => eat2 (to_mps i (loop_gammas P1 r c i)) (env_left P r c i) (env_right P r c i)) in *. set (ls := loop_lambdas P1 r c) in *.
  assert (GM : forall q, q < 4 -> loop_gammas P1 r c q = gm q) by (intros q Hq; apply patched_gammas; exact Hq).
  assert (LM : forall q, q < 4 -> ls q = sl q) by (intros q Hq; apply patched_lambdas; exact Hq).
  assert (SGL : forall q, q < 4 -> shape (loop_gammas P1 r c q) = corner_index q (length (ls (before q))) (d q) (W q) (N q) (length (ls q))).
  { intros q Hq. rewrite (GM q Hq), (LM q Hq), (LM _ (before_lt q)). apply SG. exact Hq. }
  assert (SHP : shaped d W N gs ls).
  { intros q Hq. destruct (to_mps_ok q _ _ _ _ _ _ Hq (SGL q Hq)) as [X1 _]. exact (proj1 (eat2_ok _ (env_left P r c q) (env_right P r c q) _ _ _ _ _ X1 eq_refl eq_refl)). }
  destruct (gauge_all svd evd eigvec pr gs ls) as [k1|] eqn:EG1; [|discriminate E]. cbn [bind] in E. destruct (fet_all svdt pr k1) as [k2|] eqn:EF; [|discriminate E]. cbn [bind] in E.
  apply Ok_same in E. subst out. cbn [lr_peps lr_norm lr_roots] in *.
  assert (RK : k_roots k2 = k_roots k1) by (apply (fet_roots svdt pr [0; 1; 2; 3]); exact EF). rewrite RK in RT.
  assert (R0 : ringed d W N m (Ring gs ls (upsilon gs ls) [])).
  { split; [exact SHP|]. split; [intros q Hq; exact (upsilon_shape d W N gs ls SHP q Hq)|]. intros q Hq. cbn [k_ls]. rewrite (LM q Hq). etransitivity; [apply LS; exact Hq|]. exact (RM q Hq). }
  destruct (gauge_all_ok d W N svd evd eigvec pr m SV EV EG PT gs ls k1 R0 EG1 RT) as [R1 A1]. destruct (fet_all_ok d W N svdt pr m SVT k1 R1) as (k2' & EF' & S2 & A2 & _). assert (k2' = k2) by congruence. subst k2'.
  set (gs2 := fun i => from_mps i (split2 (l_env_tol pr) (k_gs k2 i) (env_left P r c i) (env_right P r c i))) in *.
  set (P' := store P1 r c (fun i => normalised (gs2 i)) (fun i => unit_length (k_ls k2 i))) in *.
  cbn [fold_left] in NN |- *.
  destruct (norms_apart _ _ _ _ _ _ _ _ NN) as (Ha0 & Ha1 & Ha2 & Ha3 & Ht0 & Ht1 & Ht2 & Ht3).
  set (a0 := norm_of (k_ls k2 0)) in *. set (a1 := norm_of (k_ls k2 1)) in *. set (a2 := norm_of (k_ls k2 2)) in *. set (a3 := norm_of (k_ls k2 3)) in *. set (t0 := tnorm (gs2 0)) in *. set (t1 := tnorm (gs2 1)) in *. set (t2 := tnorm (gs2 2)) in *. set (t3 := tnorm (gs2 3)) in *.
  set (nrm := (1 * a0 * a1 * a2 * a3 * t0 * t1 * t2 * t3)%R) in *.
  assert (NI : RtoC (/ nrm) = (RtoC (/ a0) * RtoC (/ a1) * RtoC (/ a2) * RtoC (/ a3) * RtoC (/ t0) * RtoC (/ t1) * RtoC (/ t2) * RtoC (/ t3))%C).
  { rewrite <- !RtoC_mul. f_equal. unfold nrm. field. repeat split; assumption. }
  assert (QG : forall q, q < 4 -> gamma P' (fst (x q)) (snd (x q)) = normalised (gs2 q)) by exact (stored_gamma s0 s1 s2 s3 g0 g1 g2 g3 (fun i => normalised (gs2 i)) (fun i => unit_length (k_ls k2 i))).
  assert (QL : forall q, q < 4 -> lam_of P' (b q) = unit_length (k_ls k2 q)) by exact (stored_lam s0 s1 s2 s3 g0 g1 g2 g3 (fun i => normalised (gs2 i)) (fun i => unit_length (k_ls k2 i))).
  assert (KEY : forall s f, proper P s -> outer_fine (l_env_tol pr) P x l_leg r_leg f ->
    loop_value x b l_leg r_leg P' (fun q => s (fst (x q)) (snd (x q))) f = sumC (fun t => ((RtoC (/ nrm) * gate_value gate (fun i => nth i t 0%nat) (fun q => s (fst (x q)) (snd (x q)))) * loop_value x b l_leg r_leg P (fun i => nth i t 0%nat) f)%C) (choices (map (fun i => dimat (gate i) 1) [0; 1; 2; 3]))).
  { intros s f Hs O. set (p := fun q => s (fst (x q)) (snd (x q))).
    assert (Hp : forall q, q < 4 -> p q < d q) by (intros q Hq; destruct (loop_inside q Hq) as [I1 I2]; exact (Hs _ _ I1 I2)).
    unfold loop_value at 1. rewrite (QG 0), (QG 1), (QG 2), (QG 3), (QL 0), (QL 1), (QL 2), (QL 3) by (clear; lia). unfold unit_length at 1 2 3 4. rewrite !map_length.
    etransitivity; [exact (final_value (k_gs k2) (k_ls k2) f p S2 (fine_ok f O))|]. cbv zeta. fold gs2. fold a0 a1 a2 a3 t0 t1 t2 t3.
    rewrite (A2 p (fun q => f q (e_leg q)) (fun q => f q (f_leg q))), (A1 p (fun q => f q (e_leg q)) (fun q => f q (f_leg q))).
    destruct (first_value (loop_gammas P1 r c) ls f p SGL (fine_ok f O)) as [_ FV]. fold gs in FV. rewrite FV. clear FV.
    rewrite (GM 0), (GM 1), (GM 2), (GM 3), (LM 0), (LM 1), (LM 2), (LM 3) by (clear; lia). specialize (VAL f p (fine_ok f O) Hp). etransitivity; [apply f_equal; apply f_equal; exact VAL|].
    rewrite nsum_choices. set (S := sumC _ _).
    transitivity (RtoC (/ nrm) * S)%C.
    - rewrite NI. pose proof (outer_range f 0 O ltac:(clear; lia)) as [[_ A0] [_ B0]]. pose proof (outer_range f 1 O ltac:(clear; lia)) as [[_ A1'] [_ B1]]. pose proof (outer_range f 2 O ltac:(clear; lia)) as [[_ A2'] [_ B2]]. pose proof (outer_range f 3 O ltac:(clear; lia)) as [[_ A3] [_ B3]]. unfold good in *.
      set (u0 := el (inv_elements _ (env_left P r c 0)) _) in *. set (u1 := el (inv_elements _ (env_left P r c 1)) _) in *. set (u2 := el (inv_elements _ (env_left P r c 2)) _) in *. set (u3 := el (inv_elements _ (env_left P r c 3)) _) in *.
      set (v0 := el (inv_elements _ (env_right P r c 0)) _) in *. set (v1 := el (inv_elements _ (env_right P r c 1)) _) in *. set (v2 := el (inv_elements _ (env_right P r c 2)) _) in *. set (v3 := el (inv_elements _ (env_right P r c 3)) _) in *.
      set (w0 := el (env_left P r c 0) _) in *. set (w1 := el (env_left P r c 1) _) in *. set (w2 := el (env_left P r c 2) _) in *. set (w3 := el (env_left P r c 3) _) in *.
      set (z0 := el (env_right P r c 0) _) in *. set (z1 := el (env_right P r c 1) _) in *. set (z2 := el (env_right P r c 2) _) in *. set (z3 := el (env_right P r c 3) _) in *.
      transitivity (RtoC (/ a0) * RtoC (/ a1) * RtoC (/ a2) * RtoC (/ a3) * RtoC (/ t0) * RtoC (/ t1) * RtoC (/ t2) * RtoC (/ t3) * ((u0 * w0) * (v0 * z0) * (u1 * w1) * (v1 * z1) * (u2 * w2) * (v2 * z2) * (u3 * w3) * (v3 * z3)) * S)%C; [ring|].
      rewrite A0, B0, A1', B1, A2', B2, A3, B3. ring.
    - unfold S. rewrite <- sumC_scal. apply sumC_ext. intros t _. ring. }
  split.
  - intros s Hs. change ((RtoC nrm * wave P' s)%C = gate4 gate x (wave P) s).
    rewrite (quad_wave (l_env_tol pr) P P' Fi x b l_leg r_leg loop_inside loop_distinct loop_bond loop_bonds_distinct loop_left loop_right loop_legs loop_ends eq_refl eq_refl eq_refl
      (stored_other s0 s1 s2 s3 g0 g1 g2 g3 _ _) (stored_lam_other s0 s1 s2 s3 g0 g1 g2 g3 _ _) s _ _ (fun t i => nth i t 0) (fun f O => KEY s f Hs O)).
    unfold gate4. rewrite nsum_choices. rewrite <- sumC_scal. apply sumC_ext. intros t _. change (at_sites s x t) with (with_sites x s (fun i => nth i t 0)).
    transitivity (RtoC (nrm * / nrm) * (gate_value gate (fun i => nth i t 0%nat) (fun q => s (fst (x q)) (snd (x q))) * wave P (with_sites x s (fun i => nth i t 0%nat))))%C; [rewrite RtoC_mul; ring|]. rewrite Rinv_r by exact NN. ring.
  - intros KP. apply (quad_fitted (l_env_tol pr) P P' Fi x b l_leg r_leg loop_inside loop_distinct loop_left loop_right loop_legs loop_ends eq_refl eq_refl eq_refl
      (stored_other s0 s1 s2 s3 g0 g1 g2 g3 _ _) (stored_lam_other s0 s1 s2 s3 g0 g1 g2 g3 _ _)); [apply stored_wt| |exact KP].
    intros q Hq. rewrite (QG q Hq), (QL q Hq), (QL _ (before_lt q)). cbn [normalised shape]. unfold gs2.
    destruct (split2_ok (l_env_tol pr) (k_gs k2 q) (env_left P r c q) (env_right P r c q) _ _ _ _ _ (S2 q Hq) eq_refl eq_refl) as [X1 _]. rewrite (proj1 (from_mps_ok q _ _ _ _ _ _ Hq X1)).
    unfold W, N, d. rewrite (env_e q Hq), (env_f q Hq). four q Hq; cbn [map app l_leg r_leg e_leg f_leg Nat.eqb corner_index]; unfold unit_length; rewrite !map_length; reflexivity.
Qed.
End Main.
