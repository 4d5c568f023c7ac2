(** The loop projection comes to an end when the new state is not zero and the matrices that are inverted are well conditioned. *)
From Coq Require Import List Arith Lia Bool Reals Lra.
From Verif Require Import Base Cplx SumModel SumSpec SumProofs NetSum NetEx PbcProofs ContractorModel TrgTensor TrgHoleAlg BmpsModel BmpsChain BmpsAlg OptModel CgModel ProjModel ProjSpec ProjAlg ProjCore ProjTwo ProjPatch ProjGrid ProjWave ProjTri ExpSpec ExpAlg LoopModel LoopSpec LoopAlg LoopGauge LoopRing LoopPat LoopWave LoopMain LoopRatio LoopTotal.
Import NetEx ListNotations.
Local Open Scope nat_scope.

(** the tensors and weights of the loop with the gate: the outer weights are in the tensors *)
Definition new_ring (qr : nat -> tensor -> tensor * tensor) (svd : nat -> tensor -> tensor * list R * tensor) (gate : nat -> tensor) (P : peps) (r c : nat) : (nat -> tensor) * (nat -> list R) :=
  let P1 := pat qr svd gate P r c in
  (fun i => eat2 (to_mps i (loop_gammas P1 r c i)) (env_left P r c i) (env_right P r c i), loop_lambdas P1 r c).
(** the square roots of the eigenvalues that gauge fixing inverts are not below the tolerance *)
Definition conditioned (qr : nat -> tensor -> tensor * tensor) (svd : nat -> tensor -> tensor * list R * tensor) (evd : tensor -> tensor * list R) (eigvec : bool -> tensor -> list R -> tensor) (pr : loop_params)
  (gate : nat -> tensor) (P : peps) (r c : nat) : Prop :=
  let '(gs, ls) := new_ring qr svd gate P r c in
  forall left i, i < 4 -> Forall (fun y => (l_inv_tol pr <= y)%R) (roots (unit_length (fix_sign (snd (evd (eigvec left (upsilon gs ls i) (ls ((i + 3) mod 4)))))))).

Lemma norm_null s : norm_of s = 0%R -> forall z, el s z = RtoC 0.
Proof.
  unfold norm_of. intros H z. assert (P : forall l : list R, (0 <= fold_right (fun x a => x * x + a)%R 0%R l)%R) by (induction l as [|a l IH]; cbn; [lra|nra]).
  apply sqrt_eq_0 in H; [|apply P]. unfold el. f_equal. revert z. induction s as [|a s IH]; intros [|z]; try reflexivity; cbn [nth]; cbn [fold_right] in H; pose proof (P s); [nra|]. apply IH. nra.
Qed.
Lemma around_null gs ls p u v q : q < 4 -> (forall l z, l < length (ls (before q)) -> z < length (ls q) -> (entry (gs q) [l; p q; u q; v q; z] * el (ls q) z)%C = RtoC 0) -> around gs ls p u v = RtoC 0.
Proof.
  intros Hq. destruct (four_cases q Hq) as [E|[E|[E|E]]]; subst q; cbn [Nat.add Nat.modulo Nat.divmod fst snd Nat.sub]; intros H; unfold around, ring4;
    apply sm_zero; intros z0 H0; apply sm_zero; intros z1 H1; apply sm_zero; intros z2 H2; apply sm_zero; intros z3 H3; rewrite H by assumption; ring.
Qed.

Section Done.
Context (qr : nat -> tensor -> tensor * tensor) (svd svdt : nat -> tensor -> tensor * list R * tensor) (evd : tensor -> tensor * list R) (eigvec : bool -> tensor -> list R -> tensor) (pr : loop_params) (m : nat).
Context (QR : qr_any qr) (SV : svd_any svd) (SVT : svd_up_to m svdt) (EV : evd_unitary evd) (EG : eig_shape eigvec).
Context (P : peps) (gate : nat -> tensor) (r c : nat) (Fi : fitted (l_env_tol pr) P) (VA : loop_valid P r c) (GF : loop_fits P r c gate).
Let x := corner (p_rows P) (p_cols P) r c.
Let b := side (p_rows P) (p_cols P) r c.
Let d q := phys P (fst (x q)) (snd (x q)).
Let W q := length (env_left P r c q).
Let N q := length (env_right P r c q).
Lemma no_value s : (forall f, outer_fine (l_env_tol pr) P x l_leg r_leg f ->
    nsum (map (fun i => dimat (gate i) 1) [0; 1; 2; 3]) (fun q => (gate_value gate (fun i => nth i q 0%nat) (fun q => s (fst (x q)) (snd (x q))) * loop_value x b l_leg r_leg P (fun i => nth i q 0%nat) f)%C) = RtoC 0) ->
  gate4 gate x (wave P) s = RtoC 0.
Proof.
  intros H. set (own := fun q => s (fst (x q)) (snd (x q))).
  pose proof (@quad_wave (l_env_tol pr) P P Fi x b l_leg r_leg (loop_inside P r c VA) (loop_distinct P r c VA) (loop_bond P r c VA) (loop_bonds_distinct P r c VA) (loop_left P r c VA) (loop_right P r c VA) (loop_legs P r c) (loop_ends P r c) eq_refl eq_refl eq_refl
      (fun _ _ _ => eq_refl) (fun _ _ _ => eq_refl) s (option (list nat))) as QW.
  set (ts := choices (map (fun i => dimat (gate i) 1) [0; 1; 2; 3])) in *.
  set (old := fun (t : option (list nat)) => match t with Some t => (fun i => nth i t 0) | None => own end).
  set (k := fun (t : option (list nat)) => match t with Some t => gate_value gate (fun i => nth i t 0) own | None => RtoC 1 end).
  assert (Q1 : wave P s = sumC (fun t => (k t * wave P (with_sites x s (old t)))%C) [None]).
  { apply QW. intros f _. rewrite sumC_cons. change (sumC _ []) with (RtoC 0). unfold k, old. fold own. ring. }
  assert (Q2 : wave P s = sumC (fun t => (k t * wave P (with_sites x s (old t)))%C) (None :: map Some ts)).
  { apply QW. intros f O. specialize (H f O). rewrite nsum_choices in H. rewrite sumC_cons, sumC_map. unfold k, old. fold own. fold own in H. fold ts in H. rewrite H. ring. }
  rewrite Q1 in Q2. rewrite !sumC_cons in Q2. change (sumC _ []) with (RtoC 0) in Q2. rewrite sumC_map in Q2. unfold gate4. rewrite nsum_choices. fold ts.
  change (sumC (fun y => (k (Some y) * wave P (with_sites x s (old (Some y))))%C) ts = RtoC 0).
  set (A := (k None * _)%C) in *. set (B := sumC _ ts) in *. transitivity ((A + B) - A)%C; [ring|]. rewrite <- Q2. ring.
Qed.
(** what is around the loop after the gate is zero only if the new state is *)
Lemma no_ring s : let '(gs, ls) := new_ring qr svd gate P r c in proper P s ->
  (forall f, outer_fine (l_env_tol pr) P x l_leg r_leg f -> around gs ls (fun q => s (fst (x q)) (snd (x q))) (fun q => f q (e_leg q)) (fun q => f q (f_leg q)) = RtoC 0) ->
  gate4 gate x (wave P) s = RtoC 0.
Proof.
  unfold new_ring. cbv zeta. intros Hs H. apply no_value. intros f O. specialize (H f O). set (p := fun q => s (fst (x q)) (snd (x q))) in *.
  assert (Hp : forall q, q < 4 -> p q < d q) by (intros q Hq; destruct (loop_inside P r c VA q Hq) as [I1 I2]; exact (Hs _ _ I1 I2)).
  destruct (pat_shapes qr svd pr QR SV P gate r c Fi VA GF) as (s0 & s1 & s2 & s3 & g0 & g1 & g2 & g3 & E1 & SG & LS & VAL). cbv zeta in SG, LS, VAL. rewrite E1 in H.
  set (P1 := patched P r c s0 s1 s2 s3 g0 g1 g2 g3) in *. set (gm := fun q => nth q [g0; g1; g2; g3] g0) in *. set (sl := fun q => nth q [s0; s1; s2; s3] s0) in *. set (ls := loop_lambdas P1 r c) in *.
  assert (GM : forall q, q < 4 -> loop_gammas P1 r c q = gm q) by (intros q Hq; apply patched_gammas; assumption).
  assert (LM : forall q, q < 4 -> ls q = sl q) by (intros q Hq; apply patched_lambdas; assumption).
  assert (SGL : forall q, q < 4 -> shape (loop_gammas P1 r c q) = corner_index q (length (ls (before q))) (d q) (W q) (N q) (length (ls q))).
  { intros q Hq. rewrite (GM q Hq), (LM q Hq), (LM _ (before_lt q)). apply SG. exact Hq. }
  pose proof (fine_ok pr P r c f O) as O'. destruct (first_value P r c (loop_gammas P1 r c) ls f p SGL O') as [_ FV]. rewrite H in FV. clear H.
  rewrite (GM 0), (GM 1), (GM 2), (GM 3), (LM 0), (LM 1), (LM 2), (LM 3) in FV by (clear; lia). specialize (VAL f p O' Hp). etransitivity; [symmetry; exact VAL|]. clear VAL.
  set (Z := ring4 _ _ _ _ _ _ _ _ _ _ _ _) in *. change (Z = RtoC 0).
  pose proof (outer_range pr P r c f 0 O ltac:(clear; lia)) as [[_ A0] [_ B0]]. pose proof (outer_range pr P r c f 1 O ltac:(clear; lia)) as [[_ A1] [_ B1]]. pose proof (outer_range pr P r c f 2 O ltac:(clear; lia)) as [[_ A2] [_ B2]]. pose proof (outer_range pr P r c f 3 O ltac:(clear; lia)) as [[_ A3] [_ B3]]. unfold good in *.
  set (u0 := el (inv_elements _ (env_left P r c 0)) _) in *. set (u1 := el (inv_elements _ (env_left P r c 1)) _) in *. set (u2 := el (inv_elements _ (env_left P r c 2)) _) in *. set (u3 := el (inv_elements _ (env_left P r c 3)) _) in *.
  set (v0 := el (inv_elements _ (env_right P r c 0)) _) in *. set (v1 := el (inv_elements _ (env_right P r c 1)) _) in *. set (v2 := el (inv_elements _ (env_right P r c 2)) _) in *. set (v3 := el (inv_elements _ (env_right P r c 3)) _) in *.
  set (w0 := el (env_left P r c 0) _) in *. set (w1 := el (env_left P r c 1) _) in *. set (w2 := el (env_left P r c 2) _) in *. set (w3 := el (env_left P r c 3) _) in *.
  set (z0 := el (env_right P r c 0) _) in *. set (z1 := el (env_right P r c 1) _) in *. set (z2 := el (env_right P r c 2) _) in *. set (z3 := el (env_right P r c 3) _) in *.
  transitivity (((u0 * w0) * (v0 * z0) * (u1 * w1) * (v1 * z1) * (u2 * w2) * (v2 * z2) * (u3 * w3) * (v3 * z3)) * Z)%C; [rewrite A0, B0, A1, B1, A2, B2, A3, B3; ring|].
  transitivity ((u0 * v0 * u1 * v1 * u2 * v2 * u3 * v3) * (w0 * z0 * (w1 * z1) * (w2 * z2) * (w3 * z3) * Z))%C; [ring|]. rewrite <- FV. ring.
Qed.
Theorem loop_done : (0 < l_inv_tol pr)%R -> (0 < l_correct pr)%R -> (0 <= l_warn pr)%R -> loop_room m P r c gate -> conditioned qr svd evd eigvec pr gate P r c ->
  (exists s, proper P s /\ gate4 gate x (wave P) s <> RtoC 0) ->
  exists out, loop_project qr svd svdt evd eigvec pr gate P r c = Ok out /\ lr_norm out <> 0%R /\ Forall (fun y => (l_inv_tol pr <= y)%R) (lr_roots out).
Proof.
  intros PT CP WP RM CD (s & Hs & NZ). pose proof (no_ring s) as NR. unfold conditioned in CD. unfold loop_project.
  assert (G0 : negb (p_per P) && ((p_rows P <=? r + 1) || (p_cols P <=? c + 1)) = false).
  { destruct VA as [I _]. apply not_true_is_false. intros Q. apply andb_true_iff in Q. destruct Q as [Q1 Q2]. apply negb_true_iff in Q1. rewrite Q1 in I.
    pose proof (I (Hor r c) (or_introl eq_refl)) as I1. pose proof (I (Ver r c) (or_intror (or_intror (or_intror (or_introl eq_refl))))) as I2. apply bonds_in in I1. apply bonds_in in I2. cbn in I1, I2. apply orb_true_iff in Q2. destruct Q2 as [Q2|Q2]; apply Nat.leb_le in Q2; lia. }
  rewrite G0. cbv zeta. unfold new_ring in NR, CD. cbv zeta in NR, CD.
  destruct (pat_shapes qr svd pr QR SV P gate r c Fi VA GF) as (s0 & s1 & s2 & s3 & g0 & g1 & g2 & g3 & E1 & SG & LS & _). cbv zeta in SG, LS. rewrite E1 in *.
  set (P1 := patched P r c s0 s1 s2 s3 g0 g1 g2 g3) in *. set (gm := fun q => nth q [g0; g1; g2; g3] g0) in *. set (sl := fun q => nth q [s0; s1; s2; s3] s0) in *.
  set (gs := fun i => eat2 (to_mps i (loop_gammas P1 r c i)) (env_left P r c i) (env_right P r c i)) in *. set (ls := loop_lambdas P1 r c) in *.
  assert (GM : forall q, q < 4 -> loop_gammas P1 r c q = gm q) by (intros q Hq; apply patched_gammas; assumption).
  assert (LM : forall q, q < 4 -> ls q = sl q) by (intros q Hq; apply patched_lambdas; assumption).
  assert (SGL : forall q, q < 4 -> shape (loop_gammas P1 r c q) = corner_index q (length (ls (before q))) (d q) (W q) (N q) (length (ls q))).
  { intros q Hq. rewrite (GM q Hq), (LM q Hq), (LM _ (before_lt q)). apply SG. exact Hq. }
  assert (SHP : shaped d W N gs ls).
  { intros q Hq. destruct (to_mps_ok q _ _ _ _ _ _ Hq (SGL q Hq)) as [X1 _]. exact (proj1 (eat2_ok _ (env_left P r c q) (env_right P r c q) _ _ _ _ _ X1 eq_refl eq_refl)). }
  assert (R0 : ringed d W N m (Ring gs ls (upsilon gs ls) [])).
  { split; [exact SHP|]. split; [intros q Hq; exact (upsilon_shape d W N gs ls SHP q Hq)|]. intros q Hq. cbn [k_ls]. rewrite (LM q Hq). etransitivity; [apply LS; exact Hq|]. exact (RM q Hq). }
  set (p := fun q => s (fst (x q)) (snd (x q))) in *.
  assert (Hp : forall q, q < 4 -> p q < d q) by (intros q Hq; destruct (loop_inside P r c VA q Hq) as [I1 I2]; exact (Hs _ _ I1 I2)).
  assert (TR : forall i, i < 4 -> loop_trace (upsilon gs ls i) (ls (before i)) <> RtoC 0).
  { intros i Hi Q. apply NZ. apply (NR Hs). intros f O. pose proof (fine_ok pr P r c f O) as O'.
    exact (trace_null d W N gs ls i Hi SHP Q p _ _ Hp (fun q Hq => proj1 (O' q Hq)) (fun q Hq => proj2 (O' q Hq))). }
  destruct (gauge_all_total d W N svd evd eigvec pr m SV EV EG PT CP WP gs ls R0 TR CD) as (k1 & EG1 & I1). rewrite EG1. cbn [bind].
  destruct (gauge_all_ok d W N svd evd eigvec pr m SV EV EG PT gs ls k1 R0 EG1 I1) as [R1 A1]. destruct (fet_all_ok d W N svdt pr m SVT k1 R1) as (k2 & EF & S2 & A2 & RK). rewrite EF. cbn [bind].
  eexists. split; [reflexivity|]. cbn [lr_norm lr_roots]. split; [|rewrite RK; exact I1].
  set (gs2 := fun i => from_mps i (split2 (l_env_tol pr) (k_gs k2 i) (env_left P r c i) (env_right P r c i))).
  cbn [fold_left]. fold (gs2 0) (gs2 1) (gs2 2) (gs2 3). intros Q. apply NZ. apply (NR Hs). intros f O.
  rewrite <- (A1 p (fun q => f q (e_leg q)) (fun q => f q (f_leg q))), <- (A2 p (fun q => f q (e_leg q)) (fun q => f q (f_leg q))).
  assert (Wt : forall q, q < 4 -> norm_of (k_ls k2 q) = 0%R -> around (k_gs k2) (k_ls k2) p (fun q => f q (e_leg q)) (fun q => f q (f_leg q)) = RtoC 0).
  { intros q Hq Z. apply (around_null _ _ _ _ _ q Hq). intros l z _ _. rewrite (norm_null _ Z). ring. }
  assert (Tt : forall q, q < 4 -> tnorm (gs2 q) = 0%R -> around (k_gs k2) (k_ls k2) p (fun q => f q (e_leg q)) (fun q => f q (f_leg q)) = RtoC 0).
  { intros q Hq Z. apply (around_null _ _ _ _ _ q Hq). intros l z Hl Hz. pose proof (outer_range pr P r c f q O Hq) as [[B1 G1] [B2 G2]].
    destruct (split2_ok (l_env_tol pr) (k_gs k2 q) (env_left P r c q) (env_right P r c q) _ _ _ _ _ (S2 q Hq) eq_refl eq_refl) as [X1 X2]. destruct (from_mps_ok q _ _ _ _ _ _ Hq X1) as [Y1 Y2].
    assert (IN : inside (shape (gs2 q)) (corner_index q l (p q) (f q (e_leg q)) (f q (f_leg q)) z)).
    { unfold gs2. rewrite Y1. pose proof (Hp q Hq) as Hpq. four q Hq; cbn [corner_index]; repeat constructor; assumption. }
    pose proof (tnorm_all_zero _ Z _ IN) as E. unfold gs2 in E. rewrite Y2, X2 in E by assumption. unfold good in G1, G2.
    set (u := el (inv_elements _ (env_left P r c q)) _) in *. set (v := el (inv_elements _ (env_right P r c q)) _) in *. set (w := el (env_left P r c q) _) in *. set (w' := el (env_right P r c q) _) in *. set (T := entry (k_gs k2 q) _) in *.
    transitivity ((T * (u * v)) * (w * w') * el (k_ls k2 q) z)%C; [|rewrite E; ring]. transitivity (T * ((u * w) * (v * w')) * el (k_ls k2 q) z)%C; [rewrite G1, G2; ring|ring]. }
  apply Rmult_integral in Q. destruct Q as [Q|Q]; [|exact (Tt 3 ltac:(clear; lia) Q)]. apply Rmult_integral in Q. destruct Q as [Q|Q]; [|exact (Tt 2 ltac:(clear; lia) Q)].
  apply Rmult_integral in Q. destruct Q as [Q|Q]; [|exact (Tt 1 ltac:(clear; lia) Q)]. apply Rmult_integral in Q. destruct Q as [Q|Q]; [|exact (Tt 0 ltac:(clear; lia) Q)].
  apply Rmult_integral in Q. destruct Q as [Q|Q]; [|exact (Wt 3 ltac:(clear; lia) Q)]. apply Rmult_integral in Q. destruct Q as [Q|Q]; [|exact (Wt 2 ltac:(clear; lia) Q)].
  apply Rmult_integral in Q. destruct Q as [Q|Q]; [|exact (Wt 1 ltac:(clear; lia) Q)]. apply Rmult_integral in Q. destruct Q as [Q|Q]; [exfalso; lra|exact (Wt 0 ltac:(clear; lia) Q)].
Qed.
End Done.
(** a plaquette that would stick out of an open lattice *)
Theorem loop_outside qr svd svdt evd eigvec pr gate P r c : p_per P = false -> p_rows P <= r + 1 \/ p_cols P <= c + 1 -> loop_project qr svd svdt evd eigvec pr gate P r c = Fail Throw.
Proof.
  intros H1 H2. unfold loop_project. rewrite H1. replace ((p_rows P <=? r + 1) || (p_cols P <=? c + 1)) with true; [reflexivity|]. symmetry. apply orb_true_iff. destruct H2 as [H|H]; [left|right]; apply Nat.leb_le; exact H.
Qed.
Lemma conditioned_any qr svd evd eigvec pr m P gate r c : qr_any qr -> svd_any svd -> fitted (l_env_tol pr) P -> loop_valid P r c -> loop_fits P r c gate -> loop_room m P r c gate ->
  (forall left U s, length s <= m -> Forall (fun y => (l_inv_tol pr <= y)%R) (roots (unit_length (fix_sign (snd (evd (eigvec left U s))))))) -> conditioned qr svd evd eigvec pr gate P r c.
Proof.
  intros QR SV Fi VA GF RM H. unfold conditioned, new_ring. cbv zeta. intros left i Hi. apply H.
  destruct (pat_shapes qr svd pr QR SV P gate r c Fi VA GF) as (s0 & s1 & s2 & s3 & g0 & g1 & g2 & g3 & E1 & SG & LS & _). cbv zeta in LS. rewrite E1. rewrite (patched_lambdas P r c VA s0 s1 s2 s3 g0 g1 g2 g3 _ (before_lt i)).
  etransitivity; [exact (LS _ (before_lt i))|]. exact (RM _ (before_lt i)).
Qed.
(** what is stored, whatever was truncated *)
Lemma unit_tensor T : tnorm T <> 0%R -> fst (nsum (shape (normalised T)) (fun ix => RtoC (Cnorm2 (entry (normalised T) ix)))) = 1%R.
Proof.
  intros H. cbn [normalised shape entry]. assert (E : nsum (shape T) (fun ix => RtoC (Cnorm2 (RtoC (/ tnorm T) * entry T ix))) = (RtoC (/ tnorm T * / tnorm T) * nsum (shape T) (fun ix => RtoC (Cnorm2 (entry T ix))))%C).
  { rewrite <- nsum_scal. apply nsum_ext. intros ix _ _. rewrite <- RtoC_mul. f_equal. unfold Cnorm2. destruct (entry T ix) as [u v]. cbn. ring. }
  rewrite E. clear E. pose proof (proj1 (ProjExample.nsum_nonneg (shape T) (fun ix => RtoC (Cnorm2 (entry T ix))) ltac:(intros ix; unfold ProjExample.re_nonneg, Cnorm2; cbn; nra))) as N. unfold ProjExample.re_nonneg in N.
  unfold tnorm in *. set (z := nsum _ _) in *. change (fst (RtoC (/ sqrt (fst z) * / sqrt (fst z)) * z)%C) with (/ sqrt (fst z) * / sqrt (fst z) * fst z - 0 * snd z)%R. rewrite <- (sqrt_sqrt (fst z) N) at 3. field. exact H.
Qed.
Lemma unit_weights s : norm_of s <> 0%R -> fold_right (fun x a => x * x + a)%R 0%R (unit_length s) = 1%R.
Proof.
  intros H. unfold unit_length. set (k := (/ norm_of s)%R). assert (E : forall l, fold_right (fun x a => x * x + a)%R 0%R (map (fun x => k * x)%R l) = (k * k * fold_right (fun x a => x * x + a) 0 l)%R) by (induction l as [|a l IH]; cbn; [ring|rewrite IH; ring]).
  rewrite E. assert (N : forall l : list R, (0 <= fold_right (fun x a => x * x + a)%R 0%R l)%R) by (induction l as [|a l IH]; cbn; [lra|nra]). unfold k, norm_of in *. rewrite <- (sqrt_sqrt _ (N s)) at 3. field. exact H.
Qed.
Theorem loop_stored qr svd svdt evd eigvec pr P gate r c out : qr_any qr -> svd_any svd -> sound (l_env_tol pr) P -> loop_valid P r c -> loop_fits P r c gate -> loop_project qr svd svdt evd eigvec pr gate P r c = Ok out ->
  let P' := lr_peps out in let x := corner (p_rows P) (p_cols P) r c in let b := side (p_rows P) (p_cols P) r c in
  (p_rows P' = p_rows P /\ p_cols P' = p_cols P /\ p_per P' = p_per P) /\
  (forall i j, (forall q, q < 4 -> (i, j) <> x q) -> gamma P' i j = gamma P i j) /\
  (forall b', In b' (bonds (p_rows P) (p_cols P) (p_per P)) -> (forall q, q < 4 -> b' <> b q) -> lam_of P' b' = lam_of P b') /\
  (lr_norm out <> 0%R -> forall q, q < 4 ->
    let T := gamma P' (fst (x q)) (snd (x q)) in fst (nsum (shape T) (fun ix => RtoC (Cnorm2 (entry T ix)))) = 1%R /\ fold_right (fun x a => x * x + a)%R 0%R (lam_of P' (b q)) = 1%R).
Proof.
  intros QR SV SO VA GF E. apply sound_fitted in SO. unfold loop_project in E. destruct (negb (p_per P) && _); [discriminate E|]. cbv zeta in E.
  destruct (pat_shapes qr svd pr QR SV P gate r c SO VA GF) as (s0 & s1 & s2 & s3 & g0 & g1 & g2 & g3 & E1 & _). rewrite E1 in E.
  destruct (gauge_all svd evd eigvec pr _ _) as [k1|] in E; [|discriminate E]. cbn [bind] in E. destruct (fet_all svdt pr k1) as [k2|] in E; [|discriminate E]. cbn [bind] in E.
  apply Ok_same in E. subst out. cbn [lr_peps lr_norm]. set (gs2 := fun i => from_mps i (split2 (l_env_tol pr) (k_gs k2 i) (env_left P r c i) (env_right P r c i))).
  split; [repeat split|]. split; [exact (stored_other P r c s0 s1 s2 s3 g0 g1 g2 g3 _ _)|]. split; [exact (stored_lam_other P r c VA s0 s1 s2 s3 g0 g1 g2 g3 _ _)|].
  intros NN q Hq. rewrite (stored_gamma P r c VA s0 s1 s2 s3 g0 g1 g2 g3 _ _ q Hq), (stored_lam P r c VA s0 s1 s2 s3 g0 g1 g2 g3 _ _ q Hq).
  cbn [fold_left] in NN. destruct (norms_apart _ _ _ _ _ _ _ _ NN) as (Ha0 & Ha1 & Ha2 & Ha3 & Ht0 & Ht1 & Ht2 & Ht3).
  split; [apply unit_tensor|apply unit_weights]; destruct (four_cases q Hq) as [F|[F|[F|F]]]; subst q; assumption.
Qed.
