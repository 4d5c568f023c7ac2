(** Loop invariants of the sweeps and traversals. *)
From Coq Require Import List Arith Lia Bool FinFun.
From Verif Require Import Base ContractorModel ContractorSpec ContractorProofs SweepModel SweepSpec.
Import ListNotations.

Lemma chain_in d x k y : In y (chain d x k) ->
  across d y = across d x /\ along d x <= along d y < along d x + k.
Proof.
  unfold chain. intros Hy. apply in_map_iff in Hy. destruct Hy as (j & <- & Hj). apply in_seq in Hj.
  destruct d, x; simpl in *; lia.
Qed.

Section S.
Context (o : ops) (Rng : Type) (rows cols : nat).
Context (tps : sitps o) (ker : kernel o Rng).
Hypothesis Hrows : 1 <= rows.
Hypothesis Hcols : 1 <= cols.
Notation wstate := (wst o Rng).
Implicit Types (w : wstate) (c : con o).

(** An invariant of configuration, amplitude and network, indifferent to caches and to the
    random engine, that updates with right environments preserve. *)
Context (J : wstate -> Prop).
Hypothesis J_ext : forall w w', cfg w' = cfg w -> amp w' = amp w -> tn w' = tn w -> J w -> J w'.
Hypothesis J_update : forall w d x k ns a g ms e1 e2, 1 <= k -> window_in rows cols d x k -> J w ->
  window1_spec o rows cols (tn w) d x k = (ms, e1, e2) ->
  ker (map (fun y => cfg w (fst y) (snd y)) (chain d x k)) (amp w)
      (fun ns => tr1 o d ms (chain_tensors o tps (chain d x k) ns) e1 e2) (rng w) = (Some (ns, a), g) ->
  J (update_local o tps a (combine (chain d x k) ns) w).
Hypothesis J_setamp : forall w d x k ms e1 e2 c, 1 <= k -> window_in rows cols d x k -> J w ->
  window1_spec o rows cols (tn w) d x k = (ms, e1, e2) ->
  J (mkW (cfg w) (tr1 o d ms (map (fun y => tn w (fst y) (snd y)) (chain d x k)) e1 e2) (tn w) c (rng w)) /\
  J (mkW (cfg w) (tr1 o d ms (chain_tensors o tps (chain d x k)
       (map (fun y => cfg w (fst y) (snd y)) (chain d x k))) e1 e2) (tn w) c (rng w)).

Local Notation bmS := (bmS o rows cols).
Local Notation btS := (btS o rows cols).
Local Notation bt2S := (bt2S o rows cols).
Local Notation nsl := (nsl rows cols).
Local Notation wid := (wid rows cols).

Definition G tn c : Prop :=
  rows_ c = rows /\ cols_ c = cols /\
  forall p, bm c p = bmS tn p (length (bm c p)) /\ 1 <= length (bm c p) <= nsl p.
(** The caches around slice [s] are at least long enough. *)
Definition Hw d s tn c : Prop :=
  G tn c /\ s < nsl (side1 d) /\ s + 1 <= length (bm c (side1 d)) /\
  nsl (side1 d) - s <= length (bm c (side2 d)).
(** The window is exactly at slice [s]. *)
Definition H d s tn c : Prop :=
  G tn c /\ s < nsl (side1 d) /\ length (bm c (side1 d)) = s + 1 /\
  length (bm c (side2 d)) = nsl (side1 d) - s.
Lemma H_Hw d s tn c : H d s tn c -> Hw d s tn c.
Proof. unfold H, Hw. intuition lia. Qed.

Lemma G_ext tn c c' :
  rows_ c' = rows_ c -> cols_ c' = cols_ c -> (forall p, bm c' p = bm c p) -> G tn c -> G tn c'.
Proof.
  intros A B C [R [K F]]. split; [congruence|]. split; [congruence|].
  intros p. rewrite C. apply F.
Qed.
Lemma H_ext d s tn c c' :
  rows_ c' = rows_ c -> cols_ c' = cols_ c -> (forall p, bm c' p = bm c p) -> H d s tn c -> H d s tn c'.
Proof.
  intros A B C [K F]. split; [eapply G_ext; eauto|]. now rewrite !C.
Qed.
Lemma Hw_ext d s tn c c' :
  rows_ c' = rows_ c -> cols_ c' = cols_ c -> (forall p, bm c' p = bm c p) -> Hw d s tn c -> Hw d s tn c'.
Proof.
  intros A B C [K F]. split; [eapply G_ext; eauto|]. now rewrite !C.
Qed.

Lemma nsl_pos p : 1 <= nsl p.
Proof. destruct p; simpl; assumption. Qed.
Lemma wid_pos p : 1 <= wid p.
Proof. destruct p; simpl; assumption. Qed.

(** *** Boundary MPS commands *)
Lemma G_init tn c : rows_ c = rows -> cols_ c = cols -> G tn (init o c).
Proof.
  intros R C. split; [exact R|]. split; [exact C|].
  intros p. destruct p; simpl; (split; [reflexivity|split; [lia|]]); assumption.
Qed.

Lemma delete_inner_G tn c p : G tn c -> G tn (delete_inner o c p) /\
  length (bm (delete_inner o c p) p) = 1 /\
  (forall q, q <> p -> bm (delete_inner o c p) q = bm c q) /\
  bt (delete_inner o c p) = bt c /\ bt2 (delete_inner o c p) = bt2 c.
Proof.
  intros [R [C F]]. unfold delete_inner. destruct (bm c p) as [|b l] eqn:E.
  - destruct (F p) as [_ F2]. rewrite E in F2. simpl in F2. lia.
  - split; [split; [exact R|split; [exact C|]]|].
    + intros q. cbn [bm set_bm]. unfold upd. destruct (pos_eqb p q) eqn:Epq.
      * apply pos_eqb_eq in Epq. subst q. destruct (F p) as [F1 F2]. rewrite E in F1.
        simpl length in *.
        unfold ContractorProofs.bmS in F1 |- *. simpl in F1 |- *. injection F1 as -> _.
        split; [reflexivity|]. pose proof (nsl_pos p). lia.
      * apply F.
    + cbn [bm bt bt2 set_bm]. rewrite upd_same. repeat split; auto.
      intros q Hq. apply upd_other. auto.
Qed.

Lemma generate_H tn c d : G tn c ->
  exists c', generate_bmps_approach o tn (side1 d) c = Ok c' /\ H d 0 tn c' /\
    (forall q, bt c' q = bt c q) /\ (forall q, bt2 c' q = bt2 c q).
Proof.
  intros HG. destruct (delete_inner_G tn c (side1 d) HG) as (HG1 & L1 & O1 & B1 & B2).
  unfold generate_bmps_approach. set (c1 := delete_inner o c (side1 d)) in *.
  fold (side2 d). destruct HG1 as [R [C F]].
  destruct (F (side2 d)) as [F1 F2].
  assert (E : grow_full_bmps o tn (side2 d) c1 =
     iter_res (nsl (side1 d) - length (bm c1 (side2 d))) (grow_bmps_step o tn (side2 d)) c1).
  { unfold grow_full_bmps. rewrite R, C.
    destruct d; cbn in F2 |- *; unfold usub;
      (destruct (_ <? _) eqn:E; [apply Nat.ltb_lt in E; lia|reflexivity]). }
  rewrite E.
  assert (N : nsl (side2 d) = nsl (side1 d)) by (destruct d; reflexivity).
  destruct (iter_grow_ok o tn (side2 d) (nsl (side1 d) - length (bm c1 (side2 d))) c1
     (length (bm c1 (side2 d)))) as (c' & E' & R' & C' & B' & O' & T1 & T2).
  - rewrite R, C. exact F1.
  - lia.
  - rewrite R, C. lia.
  - exists c'. split; [exact E'|].
    rewrite R, C in B'.
    assert (L : length (bm c' (side2 d)) = nsl (side1 d)).
    { rewrite B', bmS_length. lia. }
    assert (D12 : side1 d <> side2 d) by (destruct d; discriminate).
    split; [split; [|]|].
    + split; [congruence|]. split; [congruence|]. intros p.
      destruct (pos_eqb (side2 d) p) eqn:Ep.
      * apply pos_eqb_eq in Ep. subst p. rewrite L. split.
        { rewrite B'. f_equal. lia. } pose proof (nsl_pos (side1 d)). lia.
      * assert (p <> side2 d) by (intros ->; rewrite pos_eqb_refl in Ep; discriminate).
        rewrite O' by auto. apply F.
    + split; [apply nsl_pos|]. rewrite O' by auto. rewrite L1, L. lia.
    + split; intros q; [rewrite T1, B1|rewrite T2, B2]; reflexivity.
Qed.

Lemma shift_b_H tn c d s : H d s tn c -> s + 1 < nsl (side1 d) ->
  exists c', shift_bmps_window o tn (side2 d) c = Ok c' /\ H d (s + 1) tn c' /\
    (forall q, bt c' q = bt c q) /\ (forall q, bt2 c' q = bt2 c q).
Proof.
  intros [[R [C F]] [Hs [L1 L2]]] Hs1. unfold shift_bmps_window.
  assert (D12 : side2 d <> side1 d) by (destruct d; discriminate).
  assert (O12 : opposite (side2 d) = side1 d) by (destruct d; reflexivity).
  assert (N : nsl (side2 d) = nsl (side1 d)) by (destruct d; reflexivity).
  destruct (F (side2 d)) as [F1 _]. rewrite L2 in F1.
  destruct (nsl (side1 d) - s) as [|m] eqn:Em; [lia|].
  rewrite F1, bmS_snoc, pop_back_app. cbn [bind]. rewrite O12.
  set (c1 := set_bm o c (side2 d) (bmS tn (side2 d) m)).
  assert (B1 : bm c1 (side1 d) = ContractorProofs.bmS o (rows_ c1) (cols_ c1) tn (side1 d) (s + 1)).
  { unfold c1. cbn [bm set_bm rows_ cols_]. rewrite upd_other by auto.
    destruct (F (side1 d)) as [F3 _]. rewrite L1 in F3. rewrite R, C. exact F3. }
  rewrite (grow_step_ok o tn (side1 d) c1 (s + 1) B1) by (simpl; rewrite R, C; lia).
  eexists. split; [reflexivity|]. split; [|split; intros; reflexivity].
  split; [|].
  - split; [exact R|]. split; [exact C|]. intros p.
    cbn [bm set_bm c1 rows_ cols_]. unfold upd.
    destruct (pos_eqb (side1 d) p) eqn:E1.
    + apply pos_eqb_eq in E1. subst p. rewrite bmS_length, R, C. split; [reflexivity|lia].
    + destruct (pos_eqb (side2 d) p) eqn:E2.
      * apply pos_eqb_eq in E2. subst p. rewrite bmS_length. split; [reflexivity|lia].
      * apply F.
  - cbn [bm set_bm c1 rows_ cols_]. rewrite upd_same, bmS_length.
    rewrite upd_other by auto. rewrite upd_same, bmS_length. lia.
Qed.

Lemma sides_pre d : (pre_of (near d) = side1 d /\ next_of (near d) = side2 d /\
                     pre_of (far d) = side2 d /\ next_of (far d) = side1 d) \/
                    (pre_of (near d) = side2 d /\ next_of (near d) = side1 d /\
                     pre_of (far d) = side1 d /\ next_of (far d) = side2 d).
Proof. destruct d; simpl; auto. Qed.

(** Both boundary MPS of slice [s] are available, on whichever side. *)
Lemma Hw_sides d s tn c p : Hw d s tn c -> p = side1 d \/ p = side2 d ->
  bm c p = bmS tn p (length (bm c p)) /\ s < nsl p /\ depth rows cols p s < length (bm c p) /\
  wid p = wid (side1 d).
Proof.
  intros [[R [C F]] [Hs [L1 L2]]] Hp. split; [apply F|].
  destruct d, Hp; subst p; simpl in *; lia.
Qed.

Lemma near_far_sides d p : p = near d \/ p = far d ->
  (pre_of p = side1 d \/ pre_of p = side2 d) /\ (next_of p = side1 d \/ next_of p = side2 d).
Proof. destruct d; intros [->| ->]; simpl; auto. Qed.

(** *** One-layer boundary tensors *)
Lemma init_e_ok tn c d s p : Hw d s tn c -> p = near d \/ p = far d ->
  init_bten o tn p s c = Ok (set_bt o c p (btS tn p s 1)).
Proof.
  intros HH Hp. destruct (near_far_sides d p Hp) as [P1 P2].
  destruct (Hw_sides d s tn c _ HH P1) as (A1 & A2 & A3 & A4).
  destruct (Hw_sides d s tn c _ HH P2) as (B1 & B2 & B3 & B4).
  destruct HH as [[R [C F]] _].
  pose proof (wid_pos (pre_of p)) as WP. rewrite <- R, <- C in *.
  eapply init_bten_ok; eauto.
Qed.

Lemma grow_e_ok tn c d s p rem : Hw d s tn c -> p = near d \/ p = far d ->
  1 <= rem <= wid (side1 d) ->
  exists c', grow_full_bten o tn p s rem true c = Ok c' /\
    rows_ c' = rows_ c /\ cols_ c' = cols_ c /\
    bt c' p = btS tn p s (S (wid (side1 d) - rem)) /\
    (forall q, q <> p -> bt c' q = bt c q) /\
    (forall q, bm c' q = bm c q) /\ (forall q, bt2 c' q = bt2 c q).
Proof.
  intros HH Hp Hr. destruct (near_far_sides d p Hp) as [P1 P2].
  destruct (Hw_sides d s tn c _ HH P1) as (A1 & A2 & A3 & A4).
  destruct (Hw_sides d s tn c _ HH P2) as (B1 & B2 & B3 & B4).
  destruct HH as [[R [C F]] _].
  rewrite <- A4 in *. clear A4 B4. rewrite <- R, <- C in *.
  eapply grow_full_bten_ok; eauto.
Qed.

Lemma H_back d s tn c p : H d s tn c -> p = side1 d \/ p = side2 d ->
  back (bm c p) = Ok (boundary o rows cols tn p s).
Proof.
  intros HH Hp. destruct (Hw_sides d s tn c p (H_Hw _ _ _ _ HH) Hp) as (A1 & A2 & A3 & _).
  rewrite A1. destruct HH as [_ [Hs [L1 L2]]].
  assert (E : length (bm c p) = S (depth rows cols p s)).
  { destruct d, Hp; subst p; simpl in *; lia. }
  rewrite E, bmS_snoc, back_app. reflexivity.
Qed.

Lemma shift_e_ok tn c d s l r :
  H d s tn c -> bt c (near d) = btS tn (near d) s (S l) -> bt c (far d) = btS tn (far d) s (S r) ->
  l < wid (side1 d) ->
  exists c', shift_bten_window o tn (far d) c = Ok c' /\
    rows_ c' = rows_ c /\ cols_ c' = cols_ c /\
    bt c' (near d) = btS tn (near d) s (S (S l)) /\ bt c' (far d) = btS tn (far d) s r /\
    (forall q, bm c' q = bm c q) /\ (forall q, bt2 c' q = bt2 c q).
Proof.
  intros HH Bn Bf Hl. unfold shift_bten_window.
  assert (O1 : opposite (far d) = near d) by (destruct d; reflexivity).
  assert (D1 : far d <> near d) by (destruct d; discriminate).
  rewrite Bf, btS_snoc, pop_back_app. cbn [bind]. rewrite O1.
  set (c1 := set_bt o c (far d) (btS tn (far d) s r)).
  assert (H1 : H d s tn c1) by (eapply H_ext; [| | |exact HH]; reflexivity).
  destruct (near_far_sides d (near d) (or_introl eq_refl)) as [P1 P2].
  unfold grow_bten_step.
  assert (LS : length (bm c1 (match near d with LEFT | RIGHT => UP | UP | DOWN => LEFT end)) = s + 1).
  { destruct H1 as [_ [_ [L _]]]. destruct d; exact L. }
  rewrite LS. unfold usub at 1. destruct (s + 1 <? 1) eqn:E; [apply Nat.ltb_lt in E; lia|]. cbn [bind].
  assert (Bn1 : bt c1 (near d) = btS tn (near d) s (S l)).
  { unfold c1. cbn [bt set_bt]. rewrite upd_other by auto. exact Bn. }
  rewrite Bn1, btS_length. rewrite usub_1. cbn [bind]. replace (s + 1 - 1) with s by lia.
  rewrite (H_back d s tn c1 _ H1 P1). cbn [bind]. rewrite (H_back d s tn c1 _ H1 P2). cbn [bind].
  destruct H1 as [[R [C F]] [Hs _]].
  assert (A4 : wid (pre_of (near d)) = wid (side1 d)) by (destruct d; reflexivity).
  assert (A5 : nsl (pre_of (near d)) = nsl (side1 d)) by (destruct d; reflexivity).
  assert (GW := env_grow_with_ok o tn (near d) c1 s l).
  rewrite R, C in GW. rewrite (GW Bn1) by lia.
  eexists. split; [reflexivity|]. cbn [rows_ cols_ bt bm bt2 set_bt c1].
  rewrite upd_same, upd_other, upd_same by auto. repeat split; auto.
Qed.

(** *** Reading windows *)
Lemma mps_pairs_ok tn d s1 s2 p q k : forall i,
  wid p = wid (side1 d) -> wid q = wid (side1 d) -> i + k <= wid (side1 d) ->
  mps_pairs o (wid (side1 d)) p q (boundary o rows cols tn p s1) (boundary o rows cols tn q s2) i k
  = Ok (map (fun j => (facing o rows cols tn p s1 j, facing o rows cols tn q s2 j)) (seq i k)).
Proof.
  induction k as [|k IH]; intros i Hp Hq Hk; [reflexivity|].
  cbn [mps_pairs seq map]. unfold at_logical. destruct (i <? _) eqn:E; [|apply Nat.ltb_ge in E; lia].
  cbn [bind]. rewrite Nat.add_1_r. rewrite IH by (auto; lia). cbn [bind].
  unfold facing. rewrite Hp, Hq. reflexivity.
Qed.

Lemma window1_ok tn c d s x k l r :
  Hw d s tn c -> across d x = s -> 
  bt c (near d) = btS tn (near d) s l -> bt c (far d) = btS tn (far d) s r ->
  along d x < l -> along d x + k <= wid (side1 d) -> 1 <= k -> wid (side1 d) - (along d x + k) < r ->
  window1 o c d x k = Ok (window1_spec o rows cols tn d x k).
Proof.
  intros HH Ha Bn Bf Hl Hk Hk1 Hr. subst s. unfold window1, window1_spec.
  destruct (Hw_sides _ _ _ _ (side1 d) HH (or_introl eq_refl)) as (A1 & A2 & A3 & A4).
  destruct (Hw_sides _ _ _ _ (side2 d) HH (or_intror eq_refl)) as (B1 & B2 & B3 & B4).
  destruct HH as [[R [C F]] _].
  assert (E1 : bmps_at_slice o c (side1 d) (across d x) = Ok (boundary o rows cols tn (side1 d) (across d x))).
  { rewrite <- R, <- C in *. eapply bmps_at_slice_ok; eauto. }
  assert (E2 : bmps_at_slice o c (side2 d) (across d x) = Ok (boundary o rows cols tn (side2 d) (across d x))).
  { rewrite <- R, <- C in *. eapply bmps_at_slice_ok; eauto. }
  rewrite E1, E2, R, C. cbn [bind]. rewrite mps_pairs_ok by auto. cbn [bind].
  rewrite Bn. unfold idx, ContractorProofs.btS. rewrite nth_error_map_seq.
  destruct (along d x <? l) eqn:E; [|apply Nat.ltb_ge in E; lia]. cbn [bind].
  assert (E3 : env_at_slice rows cols (bt c) (far d) (along d x + k - 1)
     = Ok (env_from o rows cols tn (far d) (across d x) (wid (side1 d) - (along d x + k)))).
  { unfold env_at_slice, at_, far in *. destruct d; simpl in *; rewrite Bf; unfold ContractorProofs.btS;
      rewrite nth_error_map_seq;
      repeat match goal with |- context [?a <? ?b] => destruct (Nat.ltb_spec a b); try lia end;
      match goal with |- Ok (_ ?a) = Ok (_ ?b) => replace a with b by lia; reflexivity end. }
  rewrite E3. reflexivity.
Qed.

(** *** Two-layer boundary tensors *)
(** For slices [s], [s+1]: side1 must reach [s], side2 must reach [s+1]. *)
Lemma layers_sides d s p : p = near d \/ p = far d ->
  (pre_of p = side1 d /\ next_of p = side2 d /\ fst (layers p s) = s /\ snd (layers p s) = s + 1) \/
  (pre_of p = side2 d /\ next_of p = side1 d /\ fst (layers p s) = s + 1 /\ snd (layers p s) = s).
Proof. destruct d; intros [->| ->]; simpl; auto 10. Qed.

Lemma side_slice d s tn c p k : Hw d s tn c -> s + 1 < nsl (side1 d) ->
  (p = side1 d /\ k = s) \/ (p = side2 d /\ k = s + 1) ->
  bm c p = bmS tn p (length (bm c p)) /\ k < nsl p /\ depth rows cols p k < length (bm c p) /\
  wid p = wid (side1 d) /\ nsl p = nsl (side1 d).
Proof.
  intros [[R [C F]] [Hs [L1 L2]]] Hs1 Hp. split; [apply F|].
  destruct d, Hp as [[-> ->]|[-> ->]]; simpl in *; lia.
Qed.

Lemma layers_side_slice d s p : p = near d \/ p = far d ->
  ((pre_of p = side1 d /\ fst (layers p s) = s) \/ (pre_of p = side2 d /\ fst (layers p s) = s + 1)) /\
  ((next_of p = side1 d /\ snd (layers p s) = s) \/ (next_of p = side2 d /\ snd (layers p s) = s + 1)).
Proof. destruct d; intros [->| ->]; simpl; auto 10. Qed.

Lemma init_e2_ok tn c d s p : Hw d s tn c -> s + 1 < nsl (side1 d) -> p = near d \/ p = far d ->
  init_bten2 o tn p s c = Ok (set_bt2 o c p (bt2S tn p s 1)).
Proof.
  intros HH Hs1 Hp. destruct (layers_side_slice d s p Hp) as [P1 P2].
  destruct (side_slice d s tn c _ _ HH Hs1 P1) as (A1 & A2 & A3 & A4 & A5).
  destruct (side_slice d s tn c _ _ HH Hs1 P2) as (B1 & B2 & B3 & B4 & B5).
  destruct HH as [[R [C F]] _]. rewrite <- A5 in Hs1. clear A5 B5 A4 B4.
  pose proof (wid_pos (pre_of p)) as WP. rewrite <- R, <- C in *.
  eapply init_bten2_ok; eauto.
Qed.

Lemma grow_e2_ok tn c d s p rem : Hw d s tn c -> s + 1 < nsl (side1 d) -> p = near d \/ p = far d ->
  1 <= rem <= wid (side1 d) ->
  exists c', grow_full_bten2 o tn p s rem true c = Ok c' /\
    rows_ c' = rows_ c /\ cols_ c' = cols_ c /\
    bt2 c' p = bt2S tn p s (S (wid (side1 d) - rem)) /\
    (forall q, q <> p -> bt2 c' q = bt2 c q) /\
    (forall q, bm c' q = bm c q) /\ (forall q, bt c' q = bt c q).
Proof.
  intros HH Hs1 Hp Hr. destruct (layers_side_slice d s p Hp) as [P1 P2].
  destruct (side_slice d s tn c _ _ HH Hs1 P1) as (A1 & A2 & A3 & A4 & A5).
  destruct (side_slice d s tn c _ _ HH Hs1 P2) as (B1 & B2 & B3 & B4 & B5).
  destruct HH as [[R [C F]] _]. rewrite <- A5 in Hs1. rewrite <- A4 in *. clear A5 B5 A4 B4.
  rewrite <- R, <- C in *.
  eapply grow_full_bten2_ok; eauto.
Qed.

Lemma shift_e2_ok tn c d s l r :
  Hw d s tn c -> s + 1 < nsl (side1 d) ->
  bt2 c (near d) = bt2S tn (near d) s (S l) -> bt2 c (far d) = bt2S tn (far d) s (S r) ->
  l < wid (side1 d) ->
  exists c', shift_bten2_window o tn (far d) s c = Ok c' /\
    rows_ c' = rows_ c /\ cols_ c' = cols_ c /\
    bt2 c' (near d) = bt2S tn (near d) s (S (S l)) /\ bt2 c' (far d) = bt2S tn (far d) s r /\
    (forall q, bm c' q = bm c q) /\ (forall q, bt c' q = bt c q).
Proof.
  intros HH Hs1 Bn Bf Hl. unfold shift_bten2_window.
  assert (O1 : opposite (far d) = near d) by (destruct d; reflexivity).
  assert (D1 : far d <> near d) by (destruct d; discriminate).
  rewrite Bf, bt2S_snoc, pop_back_app. cbn [bind]. rewrite O1.
  set (c1 := set_bt2 o c (far d) (bt2S tn (far d) s r)).
  assert (H1 : Hw d s tn c1) by (eapply Hw_ext; [| | |exact HH]; reflexivity).
  destruct (layers_side_slice d s (near d) (or_introl eq_refl)) as [P1 P2].
  destruct (side_slice d s tn c1 _ _ H1 Hs1 P1) as (A1 & A2 & A3 & A4 & A5).
  destruct (side_slice d s tn c1 _ _ H1 Hs1 P2) as (B1 & B2 & B3 & B4 & B5).
  destruct H1 as [[R [C F]] _].
  assert (Bn1 : bt2 c1 (near d) = bt2S tn (near d) s (S l)).
  { unfold c1. cbn [bt2 set_bt2]. rewrite upd_other by auto. exact Bn. }
  unfold grow_bten2_step.
  assert (EL : layers (near d) s = (fst (layers (near d) s), snd (layers (near d) s)))
    by apply surjective_pairing.
  assert (I1 : bmps_idx_slice o c1 (pre_of (near d)) (fst (layers (near d) s))
     = Ok (boundary o rows cols tn (pre_of (near d)) (fst (layers (near d) s)))).
  { rewrite <- R, <- C in *. eapply bmps_idx_slice_ok; eauto. }
  assert (I2 : bmps_idx_slice o c1 (next_of (near d)) (snd (layers (near d) s))
     = Ok (boundary o rows cols tn (next_of (near d)) (snd (layers (near d) s)))).
  { rewrite <- R, <- C in *. eapply bmps_idx_slice_ok; eauto. }
  assert (GW := env2_grow_with_ok o tn (near d) c1 s l).
  rewrite R, C in GW. specialize (GW Bn1).
  destruct (layers (near d) s) as [s1 s2]. cbn [fst snd] in *.
  rewrite Bn1, bt2S_length. rewrite usub_1. cbn [bind].
  rewrite I1. cbn [bind]. rewrite I2. cbn [bind].
  rewrite GW by lia.
  eexists. split; [reflexivity|]. cbn [rows_ cols_ bt bm bt2 set_bt2 c1].
  rewrite upd_same, upd_other, upd_same by auto. repeat split; auto.
Qed.

Lemma window2_ok tn c d s x k l r :
  Hw d s tn c -> across d x = s -> s + 1 < nsl (side1 d) ->
  bt2 c (near d) = bt2S tn (near d) s l -> bt2 c (far d) = bt2S tn (far d) s r ->
  along d x < l -> along d x + k <= wid (side1 d) -> 1 <= k -> wid (side1 d) - (along d x + k) < r ->
  window2 o c d x k = Ok (window2_spec o rows cols tn d x k).
Proof.
  intros HH Ha Hs1 Bn Bf Hl Hk Hk1 Hr. subst s. unfold window2, window2_spec.
  destruct (side_slice _ _ _ _ (side1 d) (across d x) HH Hs1) as (A1 & A2 & A3 & A4 & A5); [auto|].
  destruct (side_slice _ _ _ _ (side2 d) (across d x + 1) HH Hs1) as (B1 & B2 & B3 & B4 & B5); [auto|].
  destruct HH as [[R [C F]] _].
  assert (E1 : bmps_at_slice o c (side1 d) (across d x) = Ok (boundary o rows cols tn (side1 d) (across d x))).
  { rewrite <- R, <- C in *. eapply bmps_at_slice_ok; eauto. }
  assert (E2 : bmps_at_slice o c (side2 d) (across d x + 1) = Ok (boundary o rows cols tn (side2 d) (across d x + 1))).
  { rewrite <- R, <- C in *. eapply bmps_at_slice_ok; eauto. }
  rewrite E1, E2, R, C. cbn [bind]. rewrite mps_pairs_ok by auto. cbn [bind].
  rewrite Bn. unfold idx, ContractorProofs.bt2S. rewrite nth_error_map_seq.
  destruct (along d x <? l) eqn:E; [|apply Nat.ltb_ge in E; lia]. cbn [bind].
  assert (E3 : env_at_slice rows cols (bt2 c) (far d) (along d x + k - 1)
     = Ok (env2_from o rows cols tn (far d) (across d x) (wid (side1 d) - (along d x + k)))).
  { unfold env_at_slice, at_, far in *. destruct d; simpl in *; rewrite Bf; unfold ContractorProofs.bt2S;
      rewrite nth_error_map_seq;
      repeat match goal with |- context [?a <? ?b] => destruct (Nat.ltb_spec a b); try lia end;
      match goal with |- Ok (_ ?a) = Ok (_ ?b) => replace a with b by lia; reflexivity end. }
  rewrite E3. reflexivity.
Qed.

(** *** Site updates *)
Lemma agree_upd2 x t (tn : net o) : agree_off o rows cols x (upd2 tn x t) tn.
Proof.
  intros r q _ _ Hne. unfold upd2, site_eqb. simpl.
  destruct (r =? fst x) eqn:E1; [|reflexivity]. destruct (q =? snd x) eqn:E2; [|reflexivity].
  apply Nat.eqb_eq in E1, E2. exfalso. apply Hne. destruct x; simpl in *; congruence.
Qed.

Lemma keep_pos x p : fst x < rows -> snd x < cols -> 1 <= keep_len rows cols x p.
Proof. destruct p; simpl; lia. Qed.

Lemma erase_G tn t c x : G tn c -> fst x < rows -> snd x < cols ->
  G (upd2 tn x t) (erase_envs_after_update o x c).
Proof.
  intros [R [C F]] H1 H2. split; [exact R|]. split; [exact C|]. intros p.
  cbn [bm erase_envs_after_update]. rewrite R, C.
  destruct (F p) as [F1 F2]. rewrite F1. rewrite firstn_bmS, bmS_length.
  split.
  - symmetry. apply bmS_update with x; auto; [apply agree_upd2|lia].
  - pose proof (keep_pos x p H1 H2). lia.
Qed.

(** An update inside the window [l .. n-r] of slice [s] keeps the window. *)
Lemma erase_window d s l r tn t c x :
  H d s tn c -> fst x < rows -> snd x < cols -> across d x = s ->
  bt c (near d) = btS tn (near d) s l -> bt c (far d) = btS tn (far d) s r ->
  l <= along d x + 1 -> along d x + r <= wid (side1 d) ->
  let c' := erase_envs_after_update o x c in let tn' := upd2 tn x t in
  H d s tn' c' /\ bt c' (near d) = btS tn' (near d) s l /\ bt c' (far d) = btS tn' (far d) s r.
Proof.
  intros [HG [Hs [L1 L2]]] Hr Hc Ha Bn Bf Hl Hr'. simpl.
  pose proof HG as [R [C F]].
  assert (Kn : keep_len rows cols x (near d) = along d x + 1) by (destruct d; reflexivity).
  assert (Kf : keep_len rows cols x (far d) = wid (side1 d) - along d x) by (destruct d; reflexivity).
  assert (Ks1 : keep_len rows cols x (side1 d) = s + 1) by (subst s; destruct d; reflexivity).
  assert (Ks2 : keep_len rows cols x (side2 d) = nsl (side1 d) - s) by (subst s; destruct d; reflexivity).
  split; [split; [apply erase_G; auto|]|].
  - split; [exact Hs|]. cbn [bm erase_envs_after_update]. rewrite R, C, Ks1, Ks2, !firstn_length. lia.
  - cbn [bt erase_envs_after_update]. rewrite R, C, Bn, Bf, !firstn_btS, Kn, Kf.
    rewrite !Nat.min_r by lia. split; symmetry; apply btS_update with x; auto using agree_upd2;
      try lia; subst s; destruct d; reflexivity.
Qed.

(** *** Triples *)
Definition triple (P : wstate -> Prop) (l : list cmd) (Q : wstate -> Prop) : Prop :=
  forall w, P w -> J w -> exists w' lg, run o tps ker l w = Ok (w', lg) /\ Q w' /\ J w' /\
    log_fresh o rows cols lg.

Lemma log_app l1 l2 : log_fresh o rows cols l1 -> log_fresh o rows cols l2 -> log_fresh o rows cols (l1 ++ l2).
Proof. intros A B n q x Hi. apply in_app_or in Hi. destruct Hi; [apply A|apply B]; auto. Qed.
Lemma log_nil : log_fresh o rows cols [].
Proof. intros n q x []. Qed.
Lemma log_read n q : log_fresh o rows cols [Read n q (answer o rows cols n q)].
Proof. intros n' q' x [E|[]]. inversion E. reflexivity. Qed.

Lemma run_app l1 : forall l2 w, run o tps ker (l1 ++ l2) w =
  (r1 <- run o tps ker l1 w ;; r2 <- run o tps ker l2 (fst r1) ;; Ok (fst r2, snd r1 ++ snd r2)).
Proof.
  induction l1 as [|x l1 IH]; intros l2 w; simpl.
  - destruct (run o tps ker l2 w) as [[? ?]|]; reflexivity.
  - destruct (exec o tps ker x w) as [[w1 g1]|]; cbn [bind]; [|reflexivity].
    rewrite IH. simpl. destruct (run o tps ker l1 w1) as [[w2 g2]|]; cbn [bind fst snd]; [|reflexivity].
    destruct (run o tps ker l2 w2) as [[w3 g3]|]; cbn [bind fst snd]; [|reflexivity].
    now rewrite app_assoc.
Qed.

Lemma triple_app P Q R l1 l2 : triple P l1 Q -> triple Q l2 R -> triple P (l1 ++ l2) R.
Proof.
  intros T1 T2 w HP HJ. destruct (T1 w HP HJ) as (w1 & g1 & E1 & HQ & HJ1 & F1).
  destruct (T2 w1 HQ HJ1) as (w2 & g2 & E2 & HR & HJ2 & F2).
  exists w2, (g1 ++ g2). rewrite run_app, E1. cbn [bind fst snd]. rewrite E2. cbn [bind fst snd].
  auto using log_app.
Qed.
Lemma triple_nil (P : wstate -> Prop) : triple P [] P.
Proof. intros w HP HJ. exists w, []. repeat split; auto. apply log_nil. Qed.
Lemma triple_cons P Q R x l : triple P [x] Q -> triple Q l R -> triple P (x :: l) R.
Proof. intros. change (x :: l) with ([x] ++ l). eapply triple_app; eauto. Qed.
Lemma triple_weaken (P P' Q Q' : wstate -> Prop) l :
  triple P' l Q' -> (forall w, P w -> P' w) -> (forall w, Q' w -> Q w) -> triple P l Q.
Proof.
  intros T A B w HP HJ. destruct (T w (A w HP) HJ) as (w1 & g1 & E1 & HQ & F1).
  exists w1, g1. auto.
Qed.
Lemma triple_for (I : nat -> wstate -> Prop) a b f :
  a <= b -> (forall i, a <= i < b -> triple (I i) (f i) (I (i + 1))) ->
  triple (I a) (for_ a b f) (I b).
Proof.
  intros Hab Hf. unfold for_.
  assert (E : forall n a0, a0 + n = b -> a <= a0 -> triple (I a0) (flat_map f (seq a0 n)) (I b)).
  { induction n as [|n IH]; intros a0 En Ha0.
    - replace b with a0 by lia. apply triple_nil.
    - simpl. eapply triple_app; [apply Hf; lia|]. rewrite Nat.add_1_r. apply IH; lia. }
  apply E; lia.
Qed.
Lemma triple_when (P Q : wstate -> Prop) b l :
  (b = true -> triple P l Q) -> (b = false -> forall w, P w -> Q w) -> triple P (when b l) Q.
Proof.
  intros A B. destruct b; simpl; auto. eapply triple_weaken; [apply triple_nil| |]; eauto.
Qed.

Definition sH d s w := H d s (tn w) (ctr w).
Definition sG w := G (tn w) (ctr w).
(** Window state: slice [s], [l] / [r] boundary tensors on the near / far side. *)
Definition sE d s l r w :=
  sH d s w /\ bt (ctr w) (near d) = btS (tn w) (near d) s l /\
  bt (ctr w) (far d) = btS (tn w) (far d) s r.
Definition sEn d s l w := sH d s w /\ bt (ctr w) (near d) = btS (tn w) (near d) s l.
Definition sE2 d s l r w :=
  sH d s w /\ bt2 (ctr w) (near d) = bt2S (tn w) (near d) s l /\
  bt2 (ctr w) (far d) = bt2S (tn w) (far d) s r.
Definition sE2n d s l w := sH d s w /\ bt2 (ctr w) (near d) = bt2S (tn w) (near d) s l.

Lemma exec_one x w w' lg : exec o tps ker x w = Ok (w', lg) -> run o tps ker [x] w = Ok (w', lg).
Proof. intros E. cbn [run]. rewrite E. cbn. now rewrite app_nil_r. Qed.

Ltac finish E HJ := eexists; eexists; split;
  [apply exec_one; cbn [exec]; try rewrite E; reflexivity|split; [|split; [revert HJ; apply J_ext; reflexivity|apply log_nil]]].

Lemma t_generate d : triple sG [Generate (side1 d)] (sH d 0).
Proof.
  intros w HG HJ. destruct (generate_H _ _ d HG) as (c' & E & HH & _).
  finish E HJ. exact HH.
Qed.
Lemma t_shiftb d s : s + 1 < nsl (side1 d) -> triple (sH d s) [ShiftB (side2 d)] (sH d (s + 1)).
Proof.
  intros Hs w HG HJ. destruct (shift_b_H _ _ d s HG Hs) as (c' & E & HH & _).
  finish E HJ. exact HH.
Qed.
Lemma t_delete p : triple sG [DeleteInner p] sG.
Proof.
  intros w HG HJ. destruct (delete_inner_G _ _ p HG) as (HG1 & _).
  finish HG HJ. exact HG1.
Qed.
Lemma t_init_e d s : triple (sH d s) [InitE (near d) s] (sEn d s 1).
Proof.
  intros w HH HJ. pose proof (init_e_ok _ _ d s (near d) (H_Hw _ _ _ _ HH) (or_introl eq_refl)) as E.
  finish E HJ.
  split; [eapply H_ext; [| | |exact HH]; reflexivity|]. simpl. now rewrite upd_same.
Qed.
Lemma near_ne_far d : near d <> far d.
Proof. destruct d; discriminate. Qed.
Lemma t_grow_e d s l rem : 1 <= rem <= wid (side1 d) ->
  triple (sEn d s l) [GrowE (far d) s rem true] (sE d s l (S (wid (side1 d) - rem))).
Proof.
  intros Hr w [HH Bn] HJ.
  destruct (grow_e_ok _ _ d s (far d) rem (H_Hw _ _ _ _ HH) (or_intror eq_refl) Hr)
    as (c' & E & R & C & B & O1 & O2 & O3).
  finish E HJ.
  split; [eapply H_ext; [| | |exact HH]; auto|]. cbn [ctr tn set_con].
  rewrite O1 by apply near_ne_far. auto.
Qed.
Lemma t_shift_e d s l r : l < wid (side1 d) ->
  triple (sE d s (S l) (S r)) [ShiftE (far d)] (sE d s (S (S l)) r).
Proof.
  intros Hl w [HH [Bn Bf]] HJ.
  destruct (shift_e_ok _ _ d s l r HH Bn Bf Hl) as (c' & E & R & C & B1 & B2 & O2 & O3).
  finish E HJ.
  split; [eapply H_ext; [| | |exact HH]; auto|]. cbn [ctr tn set_con]. auto.
Qed.
Lemma t_init_e2 d s : s + 1 < nsl (side1 d) -> triple (sH d s) [InitE2 (near d) s] (sE2n d s 1).
Proof.
  intros Hs w HH HJ.
  pose proof (init_e2_ok _ _ d s (near d) (H_Hw _ _ _ _ HH) Hs (or_introl eq_refl)) as E.
  finish E HJ.
  split; [eapply H_ext; [| | |exact HH]; reflexivity|]. simpl. now rewrite upd_same.
Qed.
Lemma t_grow_e2 d s l rem : s + 1 < nsl (side1 d) -> 1 <= rem <= wid (side1 d) ->
  triple (sE2n d s l) [GrowE2 (far d) s rem true] (sE2 d s l (S (wid (side1 d) - rem))).
Proof.
  intros Hs Hr w [HH Bn] HJ.
  destruct (grow_e2_ok _ _ d s (far d) rem (H_Hw _ _ _ _ HH) Hs (or_intror eq_refl) Hr)
    as (c' & E & R & C & B & O1 & O2 & O3).
  finish E HJ.
  split; [eapply H_ext; [| | |exact HH]; auto|]. cbn [ctr tn set_con].
  rewrite O1 by apply near_ne_far. auto.
Qed.
Lemma t_shift_e2 d s l r : s + 1 < nsl (side1 d) -> l < wid (side1 d) ->
  triple (sE2 d s (S l) (S r)) [ShiftE2 (far d) s] (sE2 d s (S (S l)) r).
Proof.
  intros Hs Hl w [HH [Bn Bf]] HJ.
  destruct (shift_e2_ok _ _ d s l r (H_Hw _ _ _ _ HH) Hs Bn Bf Hl) as (c' & E & R & C & B1 & B2 & O2 & O3).
  finish E HJ.
  split; [eapply H_ext; [| | |exact HH]; auto|]. cbn [ctr tn set_con]. auto.
Qed.
Lemma t_query1 d s l r x k :
  across d x = s -> along d x < l -> along d x + k <= wid (side1 d) -> 1 <= k ->
  wid (side1 d) - (along d x + k) < r ->
  triple (sE d s l r) [Query (Q1 d x k)] (sE d s l r).
Proof.
  intros A1 A2 A3 A4 A5 w HE HJ. pose proof HE as [HH [Bn Bf]].
  pose proof (window1_ok _ _ d s x k l r (H_Hw _ _ _ _ HH) A1 Bn Bf A2 A3 A4 A5) as E.
  exists w, [Read (tn w) (Q1 d x k) (answer o rows cols (tn w) (Q1 d x k))].
  split; [apply exec_one; cbn [exec do_query]; rewrite E; reflexivity|].
  auto using log_read.
Qed.
Lemma t_query2 d s l r x k :
  across d x = s -> s + 1 < nsl (side1 d) -> along d x < l -> along d x + k <= wid (side1 d) -> 1 <= k ->
  wid (side1 d) - (along d x + k) < r ->
  triple (sE2 d s l r) [Query (Q2 d x k)] (sE2 d s l r).
Proof.
  intros A1 A0 A2 A3 A4 A5 w HE HJ. pose proof HE as [HH [Bn Bf]].
  pose proof (window2_ok _ _ d s x k l r (H_Hw _ _ _ _ HH) A1 A0 Bn Bf A2 A3 A4 A5) as E.
  exists w, [Read (tn w) (Q2 d x k) (answer o rows cols (tn w) (Q2 d x k))].
  split; [apply exec_one; cbn [exec do_query]; rewrite E; reflexivity|].
  auto using log_read.
Qed.

Lemma t_visit (P : wstate -> Prop) v : triple P [Query (query_of v)] P -> triple P [Visit v] P.
Proof.
  intros T w HP HJ. destruct (T w HP HJ) as (w' & lg & E & HQ & HJ' & F).
  cbn [run exec] in E.
  destruct (do_query o (ctr w) (query_of v)) as [r|] eqn:ED; cbn [bind fst snd app] in E; [|discriminate].
  inversion E; subst. exists w', [Read (tn w') (query_of v) r; Visited v].
  split; [apply exec_one; cbn [exec]; rewrite ED; reflexivity|]. split; [exact HQ|]. split; [exact HJ'|].
  intros n q x [Hi|[Hi|[]]]; [|discriminate]. apply F. left. exact Hi.
Qed.

(** Site update inside the window. *)
Lemma update_single_sE d s l r x n w :
  sE d s l r w -> fst x < rows -> snd x < cols -> across d x = s ->
  l <= along d x + 1 -> along d x + r <= wid (side1 d) ->
  sE d s l r (update_single_site o tps x n w).
Proof.
  intros [HH [Bn Bf]] Hr Hc Ha Hl Hr'.
  destruct (erase_window d s l r (tn w) (tps (fst x) (snd x) n) (ctr w) x HH Hr Hc Ha Bn Bf Hl Hr')
    as (A & B & C).
  split; [exact A|]. split; [exact B|exact C].
Qed.
Lemma update_fold_sE d s l r xs : forall w,
  sE d s l r w ->
  (forall x n, In (x, n) xs -> fst x < rows /\ snd x < cols /\ across d x = s /\
     l <= along d x + 1 /\ along d x + r <= wid (side1 d)) ->
  sE d s l r (fold_left (fun y sn => update_single_site o tps (fst sn) (snd sn) y) xs w).
Proof.
  induction xs as [|[x n] xs IH]; intros w HE Hx; [exact HE|].
  simpl. apply IH.
  - destruct (Hx x n (or_introl eq_refl)) as (A & B & C & D & E).
    apply update_single_sE; auto.
  - intros y m Hy. apply (Hx y m). right. exact Hy.
Qed.

Lemma chain_lattice d x k : across d x < nsl (side1 d) -> along d x + k <= wid (side1 d) ->
  forallb (in_lattice rows cols) (chain d x k) = true.
Proof.
  intros A B. apply forallb_forall. intros y Hy. apply chain_in in Hy.
  unfold in_lattice. apply andb_true_iff. rewrite !Nat.ltb_lt.
  destruct d, x, y; simpl in *; lia.
Qed.
Lemma window_in_of d x k : across d x < nsl (side1 d) -> along d x + k <= wid (side1 d) ->
  window_in rows cols d x k.
Proof. destruct d; simpl; auto. Qed.

Lemma update_fold_frame xs : forall w g,
  let f := fun y sn => update_single_site o tps (fst sn) (snd sn) y in
  cfg (fold_left f xs (mkW (cfg w) (amp w) (tn w) (ctr w) g)) = cfg (fold_left f xs w) /\
  tn (fold_left f xs (mkW (cfg w) (amp w) (tn w) (ctr w) g)) = tn (fold_left f xs w).
Proof.
  induction xs as [|x xs IH]; intros w g; simpl; [auto|].
  destruct (IH (update_single_site o tps (fst x) (snd x) w) g) as [A B].
  split; [rewrite <- A|rewrite <- B]; reflexivity.
Qed.

Lemma t_update d s l r x k :
  across d x = s -> l = along d x + 1 -> along d x + k <= wid (side1 d) -> 1 <= k ->
  r = S (wid (side1 d) - (along d x + k)) ->
  triple (sE d s l r) [Update d x k] (sE d s l r).
Proof.
  intros A1 A2 A3 A4 A5 w HE HJ. pose proof HE as [HH [Bn Bf]].
  assert (E := window1_ok _ _ d s x k l r (H_Hw _ _ _ _ HH) A1 Bn Bf).
  rewrite A2, A5 in E. specialize (E ltac:(lia) A3 A4 ltac:(lia)).
  pose proof HH as [[R [C F]] [Hs _]]. subst s.
  assert (CL := chain_lattice d x k Hs A3).
  pose proof (window_in_of d x k Hs A3) as WI.
  destruct (window1_spec o rows cols (tn w) d x k) as [[ms e1] e2] eqn:EW.
  destruct (ker (map (fun y => cfg w (fst y) (snd y)) (chain d x k)) (amp w)
     (fun ns => tr1 o d ms (chain_tensors o tps (chain d x k) ns) e1 e2) (rng w)) as [dec g'] eqn:EK.
  eexists; eexists. split.
  { apply exec_one. cbn [exec]. rewrite R, C, CL, E. cbn [bind]. rewrite EK. reflexivity. }
  assert (LG : forall b, log_fresh o rows cols
     [Read (tn w) (Q1 d x k) (W1 (ms, e1, e2)); Tried d x k b]).
  { intros b n q y [Hi|[Hi|[]]]; inversion Hi. unfold answer. now rewrite EW. }
  destruct dec as [[ns a]|].
  - split; [|split; [|apply LG]].
    + assert (U : sE d (across d x) l r (fold_left (fun y sn => update_single_site o tps (fst sn) (snd sn) y)
         (combine (chain d x k) ns) (mkW (cfg w) (amp w) (tn w) (ctr w) g'))).
      { apply update_fold_sE; [exact HE|]. intros y m Hy. apply in_combine_l in Hy.
        apply chain_in in Hy. destruct d, x, y; simpl in *; lia. }
      exact U.
    + pose proof (J_update w d x k ns a g' ms e1 e2 A4 WI HJ EW EK) as J'.
      destruct (update_fold_frame (combine (chain d x k) ns) w g') as [F1 F2].
      revert J'. apply J_ext; simpl; auto.
  - split; [exact HE|]. split; [revert HJ; apply J_ext; reflexivity|apply LG].
Qed.

Lemma t_setamp d s l r x k :
  across d x = s -> along d x < l -> along d x + k <= wid (side1 d) -> 1 <= k ->
  wid (side1 d) - (along d x + k) < r ->
  triple (sE d s l r) [SetAmp d x k] (sE d s l r) /\
  triple (sE d s l r) [SetAmpC d x k] (sE d s l r).
Proof.
  intros A1 A2 A3 A4 A5. split; intros w HE HJ; pose proof HE as [HH [Bn Bf]];
  assert (E := window1_ok _ _ d s x k l r (H_Hw _ _ _ _ HH) A1 Bn Bf A2 A3 A4 A5);
  pose proof HH as [[R [C F]] [Hs _]]; subst s;
  pose proof (window_in_of d x k Hs A3) as WI;
  destruct (window1_spec o rows cols (tn w) d x k) as [[ms e1] e2] eqn:EW;
  (eexists; eexists; split;
   [apply exec_one; cbn [exec]; rewrite R, C, (chain_lattice d x k Hs A3), E; reflexivity|];
   split; [exact HE|]; split; [eapply J_setamp; eauto|];
   intros n q y [Hi|[]]; inversion Hi; unfold answer; now rewrite EW).
Qed.

(** *** Strips: one row or one column of a sweep *)
Definition mk (d : orient) (s i : nat) : site := match d with HORIZONTAL => (s, i) | VERTICAL => (i, s) end.
Lemma mk_across d s i : across d (mk d s i) = s. Proof. destruct d; reflexivity. Qed.
Lemma mk_along d s i : along d (mk d s i) = i. Proof. destruct d; reflexivity. Qed.

Lemma H_G d s w : sH d s w -> sG w.
Proof. intros HH. apply HH. Qed.

(** Updates of every chain of [k] sites of slice [s]. *)
Lemma t_strip d s k : 1 <= k <= wid (side1 d) ->
  triple (sE d s 1 (S (wid (side1 d) - k)))
    (for_ 0 (wid (side1 d) - (k - 1)) (fun i =>
       [Update d (mk d s i) k] ++ when (i <? wid (side1 d) - k) [ShiftE (far d)])) (sH d s).
Proof.
  intros Hk. set (n := wid (side1 d)) in *.
  apply triple_weaken with (P' := sE d s (S (min 0 (n - k))) (S (n - k - min 0 (n - k))))
     (Q' := sE d s (S (min (n - (k - 1)) (n - k))) (S (n - k - min (n - (k - 1)) (n - k)))).
  - apply (triple_for (fun i => sE d s (S (min i (n - k))) (S (n - k - min i (n - k))))); [lia|].
    intros i Hi. rewrite !Nat.min_l by lia.
    eapply triple_app with (Q := sE d s (S i) (S (n - k - i))).
    + apply t_update; rewrite ?mk_across, ?mk_along; auto; fold n; lia.
    + apply triple_when.
      * intros Hb. apply Nat.ltb_lt in Hb.
        replace (min (i + 1) (n - k)) with (S i) by lia.
        replace (n - k - i) with (S (n - k - S i)) by lia. apply t_shift_e. fold n. lia.
      * intros Hb w. apply Nat.ltb_ge in Hb. replace (min (i + 1) (n - k)) with i by lia. auto.
  - intros w. replace (min 0 (n - k)) with 0 by lia. rewrite Nat.sub_0_r. auto.
  - intros w HE. apply HE.
Qed.

(** The loop over slices. *)
Lemma t_slices_end d body :
  (forall s, s < nsl (side1 d) -> triple (sH d s) (body s) (sH d s)) ->
  triple sG ([Generate (side1 d)] ++
    for_ 0 (nsl (side1 d)) (fun s => body s ++ when (s <? nsl (side1 d) - 1) [ShiftB (side2 d)])) (sH d (nsl (side1 d) - 1)).
Proof.
  intros Hb. set (L := nsl (side1 d)) in *. assert (1 <= L) by apply nsl_pos.
  eapply triple_app; [apply t_generate|].
  eapply triple_weaken with (P' := sH d (min 0 (L - 1))) (Q' := sH d (min L (L - 1)));
    [|auto|intros w; rewrite Nat.min_r by lia; auto].
  apply (triple_for (fun i => sH d (min i (L - 1)))); [lia|].
  intros i Hi. rewrite Nat.min_l by lia. eapply triple_app; [apply Hb; lia|].
  apply triple_when.
  - intros E. apply Nat.ltb_lt in E. replace (min (i + 1) (L - 1)) with (i + 1) by lia.
    apply t_shiftb. fold L. lia.
  - intros E w. apply Nat.ltb_ge in E. replace (min (i + 1) (L - 1)) with i by lia. auto.
Qed.

Lemma t_slices d body :
  (forall s, s < nsl (side1 d) -> triple (sH d s) (body s) (sH d s)) ->
  triple sG ([Generate (side1 d)] ++
    for_ 0 (nsl (side1 d)) (fun s => body s ++ when (s <? nsl (side1 d) - 1) [ShiftB (side2 d)])) sG.
Proof.
  intros Hb. eapply triple_weaken; [apply (t_slices_end d body Hb)|auto|intros w; apply H_G].
Qed.

(** *** Whole programs *)
Definition part (d : orient) (body : nat -> list cmd) : list cmd :=
  [Generate (side1 d)] ++
    for_ 0 (nsl (side1 d)) (fun s => body s ++ when (s <? nsl (side1 d) - 1) [ShiftB (side2 d)]).

Lemma for_ext {X} (f g : nat -> list X) a b : (forall i, f i = g i) -> for_ a b f = for_ a b g.
Proof.
  intros E. unfold for_. generalize (seq a (b - a)). induction l; simpl; congruence.
Qed.

Definition strip (d : orient) (k s : nat) (pre : list cmd) : list cmd :=
  [InitE (near d) s; GrowE (far d) s k true] ++ pre ++
  for_ 0 (wid (side1 d) - (k - 1)) (fun i =>
       [Update d (mk d s i) k] ++ when (i <? wid (side1 d) - k) [ShiftE (far d)]).

Lemma t_strip_full d k s pre : 1 <= k <= wid (side1 d) -> 
  (triple (sE d s 1 (S (wid (side1 d) - k))) pre (sE d s 1 (S (wid (side1 d) - k)))) ->
  triple (sH d s) (strip d k s pre) (sH d s).
Proof.
  intros Hk Hp. unfold strip. cbn [app].
  eapply triple_cons; [apply t_init_e|].
  eapply triple_cons; [apply t_grow_e; exact Hk|].
  eapply triple_app; [exact Hp|]. apply t_strip. exact Hk.
Qed.

Lemma sweep_nn_parts : sweep_nn_obc rows cols =
  part HORIZONTAL (fun s => strip HORIZONTAL 2 s []) ++ [DeleteInner LEFT] ++ [DeleteInner RIGHT] ++
  part VERTICAL (fun s => strip VERTICAL 2 s []) ++ [DeleteInner UP].
Proof. reflexivity. Qed.

Lemma sweep_tnn_parts : sweep_tnn_obc rows cols =
  part HORIZONTAL (fun s => strip HORIZONTAL 3 s [SetAmpC HORIZONTAL (s, 0) 3]) ++ [DeleteInner LEFT] ++ [DeleteInner RIGHT] ++
  part VERTICAL (fun s => strip VERTICAL 3 s [SetAmpC VERTICAL (0, s) 3]) ++ [DeleteInner UP].
Proof. reflexivity. Qed.

Lemma t_sweep_nn : 2 <= rows -> 2 <= cols -> triple sG (sweep_nn_obc rows cols) sG.
Proof.
  intros Hr Hc. rewrite sweep_nn_parts.
  eapply triple_app; [apply t_slices; intros s Hs; apply t_strip_full; [simpl; lia|apply triple_nil]|].
  eapply triple_app; [apply t_delete|]. eapply triple_app; [apply t_delete|].
  eapply triple_app; [apply t_slices; intros s Hs; apply t_strip_full; [simpl; lia|apply triple_nil]|].
  apply t_delete.
Qed.

Lemma t_sweep_tnn : 3 <= rows -> 3 <= cols -> triple sG (sweep_tnn_obc rows cols) sG.
Proof.
  intros Hr Hc. rewrite sweep_tnn_parts.
  eapply triple_app; [apply t_slices; intros s Hs; apply t_strip_full;
    [simpl; lia|apply t_setamp; simpl; lia]|].
  eapply triple_app; [apply t_delete|]. eapply triple_app; [apply t_delete|].
  eapply triple_app; [apply t_slices; intros s Hs; apply t_strip_full;
    [simpl; lia|apply t_setamp; simpl; lia]|].
  apply t_delete.
Qed.

(** Traversals. *)
Definition row_read (holes : bool) (s : nat) : list cmd :=
  [InitE LEFT s; GrowE RIGHT s 1 true; Query (Q1 HORIZONTAL (s, 0) 2)] ++
    for_ 0 cols (fun col =>
      when holes [Visit (VHole (s, col))] ++
      when (col <? cols - 1) [Visit (VBond HORIZONTAL (s, col)); ShiftE RIGHT]).
Definition row_nnn (nnn : bool) (s : nat) : list cmd :=
  when (nnn && (s <? rows - 1))
      ([InitE2 LEFT s; GrowE2 RIGHT s 2 true] ++
       for_ 0 (cols - 1) (fun col =>
         [Visit (VDiag LEFTUP_TO_RIGHTDOWN (s, col)); Visit (VDiag LEFTDOWN_TO_RIGHTUP (s, col)); ShiftE2 RIGHT s])).

Lemma t_row_read holes s : 2 <= cols -> triple (sH HORIZONTAL s) (row_read holes s) (sH HORIZONTAL s).
Proof.
  intros Hc. unfold row_read. cbn [app].
  eapply triple_cons; [apply (t_init_e HORIZONTAL)|].
  eapply triple_cons; [apply (t_grow_e HORIZONTAL); simpl; lia|].
  eapply triple_cons; [apply (t_query1 HORIZONTAL); simpl; lia|].
  simpl (ContractorModel.wid _ _ _).
  eapply triple_weaken with (P' := sE HORIZONTAL s (S (min 0 (cols - 1))) (S (cols - 1 - min 0 (cols - 1))))
    (Q' := sE HORIZONTAL s (S (min cols (cols - 1))) (S (cols - 1 - min cols (cols - 1)))).
  2:{ intros w. rewrite Nat.min_l, Nat.sub_0_r by lia. auto. }
  2:{ intros w HE. apply HE. }
  apply (triple_for (fun i => sE HORIZONTAL s (S (min i (cols - 1))) (S (cols - 1 - min i (cols - 1))))); [lia|].
  intros i Hi. rewrite Nat.min_l by lia.
  eapply triple_app.
  - apply triple_when; [intros _; apply t_visit, (t_query1 HORIZONTAL); simpl; lia|intros _ w HE; exact HE].
  - apply triple_when.
    + intros E. apply Nat.ltb_lt in E. replace (min (i + 1) (cols - 1)) with (S i) by lia.
      eapply triple_cons; [apply t_visit, (t_query1 HORIZONTAL); simpl; lia|].
      replace (cols - 1 - i) with (S (cols - 1 - S i)) by lia.
      apply (t_shift_e HORIZONTAL); simpl; lia.
    + intros E w. apply Nat.ltb_ge in E. replace (min (i + 1) (cols - 1)) with i by lia. auto.
Qed.

Lemma t_row_nnn nnn s : 2 <= cols -> s < rows -> triple (sH HORIZONTAL s) (row_nnn nnn s) (sH HORIZONTAL s).
Proof.
  intros Hc Hs. unfold row_nnn. apply triple_when; [|auto].
  intros E. apply andb_true_iff in E. destruct E as [_ E]. apply Nat.ltb_lt in E. cbn [app].
  eapply triple_cons; [apply (t_init_e2 HORIZONTAL); simpl; lia|].
  eapply triple_cons; [apply (t_grow_e2 HORIZONTAL); simpl; lia|].
  simpl (ContractorModel.wid _ _ _).
  eapply triple_weaken with (P' := sE2 HORIZONTAL s (S 0) (cols - 1 - 0))
    (Q' := sE2 HORIZONTAL s (S (cols - 1)) (cols - 1 - (cols - 1))).
  2:{ intros w. replace (cols - 1 - 0) with (S (cols - 2)) by lia. auto. }
  2:{ intros w HE. apply HE. }
  apply (triple_for (fun i => sE2 HORIZONTAL s (S i) (cols - 1 - i))); [lia|].
  intros i Hi.
  eapply triple_cons; [apply t_visit, (t_query2 HORIZONTAL); simpl; lia|].
  eapply triple_cons; [apply t_visit, (t_query2 HORIZONTAL); simpl; lia|].
  replace (cols - 1 - i) with (S (cols - 1 - (i + 1))) by lia. rewrite Nat.add_1_r.
  apply (t_shift_e2 HORIZONTAL); simpl; lia.
Qed.

Definition col_read (s : nat) : list cmd :=
  [InitE UP s; GrowE DOWN s 2 true; Query (Q1 VERTICAL (0, s) 2)] ++
    for_ 0 (rows - 1) (fun row =>
      [Visit (VBond VERTICAL (row, s))] ++ when (row <? rows - 2) [ShiftE DOWN]).

Lemma t_col_read s : 2 <= rows -> triple (sH VERTICAL s) (col_read s) (sH VERTICAL s).
Proof.
  intros Hr. unfold col_read. cbn [app].
  eapply triple_cons; [apply (t_init_e VERTICAL)|].
  eapply triple_cons; [apply (t_grow_e VERTICAL); simpl; lia|].
  eapply triple_cons; [apply (t_query1 VERTICAL); simpl; lia|].
  simpl (ContractorModel.wid _ _ _).
  eapply triple_weaken with (P' := sE VERTICAL s (S (min 0 (rows - 2))) (S (rows - 2 - min 0 (rows - 2))))
    (Q' := sE VERTICAL s (S (min (rows - 1) (rows - 2))) (S (rows - 2 - min (rows - 1) (rows - 2)))).
  2:{ intros w. rewrite Nat.min_l, Nat.sub_0_r by lia. auto. }
  2:{ intros w HE. apply HE. }
  apply (triple_for (fun i => sE VERTICAL s (S (min i (rows - 2))) (S (rows - 2 - min i (rows - 2))))); [lia|].
  intros i Hi. rewrite (Nat.min_l i) by lia.
  eapply triple_cons; [apply t_visit, (t_query1 VERTICAL); simpl; lia|].
  apply triple_when.
  - intros E. apply Nat.ltb_lt in E. replace (min (i + 1) (rows - 2)) with (S i) by lia.
    replace (rows - 2 - i) with (S (rows - 2 - S i)) by lia.
    apply (t_shift_e VERTICAL); simpl; lia.
  - intros E w. apply Nat.ltb_ge in E. replace (min (i + 1) (rows - 2)) with i by lia. auto.
Qed.

Lemma for_when_last {X} (f : nat -> list X) n :
  for_ 0 n (fun i => when (i <? n - 1) (f i)) = for_ 0 (n - 1) f.
Proof.
  unfold for_. rewrite !Nat.sub_0_r. destruct n as [|n]; [reflexivity|].
  rewrite seq_snoc, flat_map_app. simpl.
  replace (n - 0) with n by lia. rewrite Nat.ltb_irrefl. simpl. rewrite app_nil_r.
  assert (Hl : forall i, In i (seq 0 n) -> i < n) by (intros i Hi; apply in_seq in Hi; lia).
  induction (seq 0 n) as [|a l IH]; [reflexivity|]. simpl.
  destruct (a <? n) eqn:E; [|apply Nat.ltb_ge in E; specialize (Hl a (or_introl eq_refl)); lia].
  simpl. f_equal. apply IH. intros i Hi. apply Hl. right. exact Hi.
Qed.

Lemma cal_horizontal_part holes nnn : cal_horizontal holes nnn rows cols =
  part HORIZONTAL (fun s => row_read holes s ++ row_nnn nnn s).
Proof.
  unfold cal_horizontal, part. cbn [side1 side2 opposite]. simpl (ContractorModel.nsl _ _ _). f_equal.
  apply for_ext. intros s. unfold row_read, row_nnn. cbn [app].
  rewrite <- ?app_assoc. cbn [app]. rewrite <- ?app_assoc. reflexivity.
Qed.
Lemma traverse_horizontal_part nnn : traverse_horizontal nnn rows cols =
  part HORIZONTAL (fun s => row_read false s ++ row_nnn nnn s).
Proof.
  unfold traverse_horizontal, part. cbn [side1 side2 opposite]. simpl (ContractorModel.nsl _ _ _). f_equal.
  apply for_ext. intros s. unfold row_read, row_nnn. cbn [app when].
  rewrite (for_when_last (fun col => [Visit (VBond HORIZONTAL (s, col)); ShiftE RIGHT])).
  rewrite <- ?app_assoc. cbn [app]. rewrite <- ?app_assoc. reflexivity.
Qed.
Lemma traverse_vertical_part : traverse_vertical rows cols = part VERTICAL col_read.
Proof. reflexivity. Qed.

Lemma t_cal_horizontal holes nnn : 2 <= rows -> 2 <= cols -> triple sG (cal_horizontal holes nnn rows cols) sG.
Proof.
  intros Hr Hc. rewrite cal_horizontal_part. apply t_slices. intros s Hs.
  eapply triple_app; [apply t_row_read; auto|apply t_row_nnn; auto].
Qed.
Lemma t_traverse_horizontal nnn : 2 <= rows -> 2 <= cols -> triple sG (traverse_horizontal nnn rows cols) sG.
Proof.
  intros Hr Hc. rewrite traverse_horizontal_part. apply t_slices. intros s Hs.
  eapply triple_app; [apply t_row_read; auto|apply t_row_nnn; auto].
Qed.
Lemma t_traverse_vertical : 2 <= rows -> 2 <= cols -> triple sG (traverse_vertical rows cols) sG.
Proof.
  intros Hr Hc. rewrite traverse_vertical_part. apply t_slices. intros s Hs. apply t_col_read; auto.
Qed.
Lemma t_traverse_all nnn : 2 <= rows -> 2 <= cols -> triple sG (traverse_all nnn rows cols) sG.
Proof.
  intros Hr Hc. eapply triple_app; [apply t_traverse_horizontal|apply t_traverse_vertical]; auto.
Qed.
Lemma t_cal_energy holes nnn : 2 <= rows -> 2 <= cols -> triple sG (cal_energy_and_holes holes nnn rows cols) sG.
Proof.
  intros Hr Hc. eapply triple_app; [apply t_cal_horizontal|apply t_traverse_vertical]; auto.
Qed.

(** Programs of the fermionic and of the transverse-field evaluators. *)
Lemma t_row_read_fermion holes s : 2 <= cols -> triple (sH HORIZONTAL s)
  ([InitE LEFT s; GrowE RIGHT s 1 true] ++
    for_ 0 cols (fun col =>
      when holes [Visit (VHole (s, col))] ++
      when (col <? cols - 1) [Visit (VBond HORIZONTAL (s, col)); ShiftE RIGHT])) (sH HORIZONTAL s).
Proof.
  intros Hc. cbn [app].
  eapply triple_cons; [apply (t_init_e HORIZONTAL)|].
  eapply triple_cons; [apply (t_grow_e HORIZONTAL); simpl; lia|].
  simpl (ContractorModel.wid _ _ _).
  eapply triple_weaken with (P' := sE HORIZONTAL s (S (min 0 (cols - 1))) (S (cols - 1 - min 0 (cols - 1))))
    (Q' := sE HORIZONTAL s (S (min cols (cols - 1))) (S (cols - 1 - min cols (cols - 1)))).
  2:{ intros w. rewrite Nat.min_l, Nat.sub_0_r by lia. auto. }
  2:{ intros w HE. apply HE. }
  apply (triple_for (fun i => sE HORIZONTAL s (S (min i (cols - 1))) (S (cols - 1 - min i (cols - 1))))); [lia|].
  intros i Hi. rewrite Nat.min_l by lia.
  eapply triple_app.
  - apply triple_when; [intros _; apply t_visit, (t_query1 HORIZONTAL); simpl; lia|intros _ w HE; exact HE].
  - apply triple_when.
    + intros E. apply Nat.ltb_lt in E. replace (min (i + 1) (cols - 1)) with (S i) by lia.
      eapply triple_cons; [apply t_visit, (t_query1 HORIZONTAL); simpl; lia|].
      replace (cols - 1 - i) with (S (cols - 1 - S i)) by lia.
      apply (t_shift_e HORIZONTAL); simpl; lia.
    + intros E w. apply Nat.ltb_ge in E. replace (min (i + 1) (cols - 1)) with i by lia. auto.
Qed.
Lemma t_cal_energy_fermion holes nnn : 2 <= rows -> 2 <= cols -> triple sG (cal_energy_fermion holes nnn rows cols) sG.
Proof.
  intros Hr Hc. unfold cal_energy_fermion. eapply triple_app; [|apply t_traverse_vertical; auto].
  assert (E : cal_horizontal_fermion holes nnn rows cols = part HORIZONTAL (fun s =>
    ([InitE LEFT s; GrowE RIGHT s 1 true] ++
    for_ 0 cols (fun col =>
      when holes [Visit (VHole (s, col))] ++
      when (col <? cols - 1) [Visit (VBond HORIZONTAL (s, col)); ShiftE RIGHT])) ++ row_nnn nnn s)).
  { unfold cal_horizontal_fermion, part. cbn [side1 side2 opposite]. simpl (ContractorModel.nsl _ _ _). f_equal.
    apply for_ext. intros s. unfold row_nnn. cbn [app]. rewrite <- ?app_assoc. cbn [app]. rewrite <- ?app_assoc. reflexivity. }
  rewrite E. apply t_slices. intros s Hs.
  eapply triple_app; [apply t_row_read_fermion; auto|apply t_row_nnn; auto].
Qed.
Lemma t_row_tfim holes s : 2 <= cols -> triple (sH HORIZONTAL s)
  ([InitE LEFT s; GrowE RIGHT s 1 true; Query (Q1 HORIZONTAL (s, 0) 2)] ++
    for_ 0 cols (fun col =>
      when holes [Visit (VHole (s, col))] ++ [Visit (VSite (s, col))] ++
      when (col <? cols - 1) [ShiftE RIGHT])) (sH HORIZONTAL s).
Proof.
  intros Hc. cbn [app].
  eapply triple_cons; [apply (t_init_e HORIZONTAL)|].
  eapply triple_cons; [apply (t_grow_e HORIZONTAL); simpl; lia|].
  eapply triple_cons; [apply (t_query1 HORIZONTAL); simpl; lia|].
  simpl (ContractorModel.wid _ _ _).
  eapply triple_weaken with (P' := sE HORIZONTAL s (S (min 0 (cols - 1))) (S (cols - 1 - min 0 (cols - 1))))
    (Q' := sE HORIZONTAL s (S (min cols (cols - 1))) (S (cols - 1 - min cols (cols - 1)))).
  2:{ intros w. rewrite Nat.min_l, Nat.sub_0_r by lia. auto. }
  2:{ intros w HE. apply HE. }
  apply (triple_for (fun i => sE HORIZONTAL s (S (min i (cols - 1))) (S (cols - 1 - min i (cols - 1))))); [lia|].
  intros i Hi. rewrite Nat.min_l by lia.
  eapply triple_app.
  - apply triple_when; [intros _; apply t_visit, (t_query1 HORIZONTAL); simpl; lia|intros _ w HE; exact HE].
  - cbn [app]. eapply triple_cons; [apply t_visit, (t_query1 HORIZONTAL); simpl; lia|].
    apply triple_when.
    + intros E. apply Nat.ltb_lt in E. replace (min (i + 1) (cols - 1)) with (S i) by lia.
      replace (cols - 1 - i) with (S (cols - 1 - S i)) by lia.
      apply (t_shift_e HORIZONTAL); simpl; lia.
    + intros E w. apply Nat.ltb_ge in E. replace (min (i + 1) (cols - 1)) with i by lia. auto.
Qed.
Lemma t_cal_tfim holes : 2 <= rows -> 2 <= cols -> triple sG (cal_tfim holes rows cols) sG.
Proof.
  intros Hr Hc.
  assert (E : cal_tfim holes rows cols = part HORIZONTAL (fun s =>
    [InitE LEFT s; GrowE RIGHT s 1 true; Query (Q1 HORIZONTAL (s, 0) 2)] ++
    for_ 0 cols (fun col =>
      when holes [Visit (VHole (s, col))] ++ [Visit (VSite (s, col))] ++
      when (col <? cols - 1) [ShiftE RIGHT]))).
  { reflexivity. }
  rewrite E. apply t_slices. intros s Hs. apply t_row_tfim; auto.
Qed.

(** *** EvaluateAmplitude *)
Lemma grow_for_row_ok tn c row : G tn c -> row < rows ->
  exists c', grow_bmps_for_row o tn row c = Ok c' /\ Hw HORIZONTAL row tn c' /\
    (forall q, bt c' q = bt c q) /\ (forall q, bt2 c' q = bt2 c q).
Proof.
  intros [R [C F]] Hrow. unfold grow_bmps_for_row, grow_bmps_for.
  destruct (F DOWN) as [D1 D2]. destruct (F UP) as [U1 U2].
  rewrite usub_ok by (rewrite R, C; exact (proj2 D2)). cbn [bind]. rewrite R, C.
  simpl (ContractorModel.nsl _ _ _) in *.
  destruct (iter_grow_ok o tn DOWN (rows - length (bm c DOWN) - row) c (length (bm c DOWN)))
    as (c1 & E1 & R1 & C1 & B1 & O1 & T1 & S1); [rewrite R, C; exact D1|lia|rewrite R, C; simpl; lia|].
  rewrite E1. cbn [bind]. rewrite (O1 UP) by discriminate.
  destruct (Nat.eqb_spec (length (bm c UP)) 0) as [E0|E0]; [lia|].
  destruct (iter_grow_ok o tn UP (row - (length (bm c UP) - 1)) c1 (length (bm c UP)))
    as (c2 & E2 & R2 & C2 & B2 & O2 & T2 & S2);
    [rewrite (O1 UP) by discriminate; rewrite R1, C1, R, C; exact U1|lia|rewrite R1, C1, R, C; simpl; lia|].
  exists c2. split; [exact E2|].
  rewrite R, C in B1. rewrite R1, C1, R, C in B2.
  assert (LD : bm c2 DOWN = bmS tn DOWN (length (bm c DOWN) + (rows - length (bm c DOWN) - row))).
  { rewrite O2 by discriminate. exact B1. }
  split; [split; [|split; [exact Hrow|]]|split; intros q; [rewrite T2, T1|rewrite S2, S1]; reflexivity].
  - split; [congruence|]. split; [congruence|]. intros p. destruct p.
    + rewrite O2, O1 by discriminate. apply F.
    + rewrite LD, bmS_length. split; [reflexivity|simpl; lia].
    + rewrite O2, O1 by discriminate. apply F.
    + rewrite B2, bmS_length. split; [reflexivity|simpl; lia].
  - cbn [side1 side2 opposite]. rewrite LD, B2, !bmS_length. simpl. lia.
Qed.

Lemma evaluate_ok w : sG w -> 2 <= cols ->
  exists w' lg, run o tps ker evaluate_amplitude w = Ok (w', lg) /\ sG w' /\
    cfg w' = cfg w /\ tn w' = tn w /\ rng w' = rng w /\
    amp w' = trace_at o rows cols (tn w) HORIZONTAL (0, 0) 2 /\
    log_fresh o rows cols lg.
Proof.
  intros HG Hc.
  destruct (grow_for_row_ok (tn w) (ctr w) 0 HG) as (c1 & E1 & H1 & _); [lia|].
  destruct (grow_e_ok (tn w) c1 HORIZONTAL 0 RIGHT 2 H1 (or_intror eq_refl)) as
    (c2 & E2 & R2 & C2 & B2 & O2 & M2 & _); [simpl; lia|].
  assert (H2 : Hw HORIZONTAL 0 (tn w) c2) by (eapply Hw_ext; [| | |exact H1]; auto).
  pose proof (init_e_ok (tn w) c2 HORIZONTAL 0 LEFT H2 (or_introl eq_refl)) as E3.
  set (c3 := set_bt o c2 LEFT (btS (tn w) LEFT 0 1)) in *.
  assert (H3 : Hw HORIZONTAL 0 (tn w) c3) by (eapply Hw_ext; [| | |exact H2]; reflexivity).
  assert (E4 : window1 o c3 HORIZONTAL (0, 0) 2 = Ok (window1_spec o rows cols (tn w) HORIZONTAL (0, 0) 2)).
  { eapply window1_ok with (l := 1) (r := S (cols - 2)); [exact H3|reflexivity| | | | | |]; simpl; try lia.
    - reflexivity.
    - exact B2. }
  pose proof H3 as [[R3 [C3 _]] _].
  destruct (window1_spec o rows cols (tn w) HORIZONTAL (0, 0) 2) as [[ms e1] e2] eqn:EW.
  eexists; eexists. split.
  { unfold evaluate_amplitude. cbn [run exec ctr set_con tn]. rewrite E1. cbn [bind fst snd ctr set_con tn].
    rewrite E2. cbn [bind fst snd ctr set_con tn]. rewrite E3. cbn [bind fst snd ctr set_con tn].
    fold c3. rewrite R3, C3, (chain_lattice HORIZONTAL (0, 0) 2), E4 by (simpl; lia).
    cbn [bind fst snd]. reflexivity. }
  cbn [cfg amp tn rng set_con ctr].
  split; [exact (proj1 H3)|]. repeat split.
  - unfold trace_at. rewrite EW. reflexivity.
  - intros n q y Hi. simpl in Hi. destruct Hi as [Hi|[]]. inversion Hi. unfold answer. now rewrite EW.
Qed.

End S.

(** The state predicate used above is the one of the specification. *)
Lemma ready_sG o Rng rows cols (w : wst o Rng) :
  ready o rows cols w <-> sG o Rng rows cols w.
Proof.
  unfold ready, sG, G. split.
  - intros (R & C & F & L). split; [exact R|]. split; [exact C|]. intros p.
    apply bm_fresh_iff with (p := p) in F. rewrite R, C in F. split; [exact F|].
    specialize (L p). destruct p; exact L.
  - intros (R & C & F). split; [exact R|]. split; [exact C|]. split.
    + apply bm_fresh_iff. intros p. rewrite R, C. apply F.
    + intros p. destruct (F p) as [_ L]. destruct p; exact L.
Qed.

(** *** Invariant instances *)
Section Inst.
Context (o : ops) (Rng : Type) (rows cols : nat) (tps : sitps o) (ker : kernel o Rng).

Definition run_ok (l : list cmd) : Prop :=
  forall w : wst o Rng, ready o rows cols w ->
    exists w' lg, run o tps ker l w = Ok (w', lg) /\ ready o rows cols w' /\ log_fresh o rows cols lg.

Lemma triple_run_ok l :
  triple o Rng rows cols tps ker (fun _ => True) (sG o Rng rows cols) l (sG o Rng rows cols) -> run_ok l.
Proof.
  intros T w Hw. apply ready_sG in Hw. destruct (T w Hw I) as (w' & lg & E & Q & _ & F).
  exists w', lg. rewrite ready_sG. auto.
Qed.

(** Coherence of configuration, network and amplitude. *)
Context (psi : net o -> Amp o).
Hypothesis Hpsi : contraction_consistent o rows cols psi.
Hypothesis Hker : honest ker.
Hypothesis Hext : forall t t', (forall r c, r < rows -> c < cols -> t r c = t' r c) -> psi t = psi t'.

Definition coh (w : wst o Rng) : Prop := projected o rows cols tps (cfg w) (tn w) /\ amp w = psi (tn w).

Lemma chain_nodup d x k : NoDup (chain d x k).
Proof.
  unfold chain. apply FinFun.Injective_map_NoDup; [|apply seq_NoDup].
  intros a b. destruct d, x; simpl; intros E; inversion E; lia.
Qed.

Lemma chain_length d x k : length (chain d x k) = k.
Proof. unfold chain. now rewrite map_length, seq_length. Qed.

Lemma upd2_same {X} (f : nat -> nat -> X) y x : upd2 f y x (fst y) (snd y) = x.
Proof. unfold upd2, site_eqb. simpl. now rewrite !Nat.eqb_refl. Qed.
Lemma upd2_other {X} (f : nat -> nat -> X) y x r c : (r, c) <> y -> upd2 f y x r c = f r c.
Proof.
  intros H. unfold upd2, site_eqb. simpl.
  destruct (Nat.eqb_spec r (fst y)), (Nat.eqb_spec c (snd y)); simpl; auto.
  exfalso. apply H. destruct y; simpl in *; congruence.
Qed.

(** Effect of a list of site updates on configuration and network. *)
Definition upds (w : wst o Rng) l := fold_left (fun y sn => update_single_site o tps (fst sn) (snd sn) y) l w.
Lemma upds_cons w y n l : upds w ((y, n) :: l) = upds (update_single_site o tps y n w) l.
Proof. reflexivity. Qed.
Lemma upds_other l : forall w r c, (forall n, ~ In ((r, c), n) l) ->
  cfg (upds w l) r c = cfg w r c /\ tn (upds w l) r c = tn w r c.
Proof.
  induction l as [|[y n] l IH]; intros w r c Hn; [auto|].
  rewrite upds_cons. destruct (IH (update_single_site o tps y n w) r c) as [A B].
  - intros m Hm. apply (Hn m). right. exact Hm.
  - rewrite A, B. simpl.
    assert ((r, c) <> y) by (intros <-; apply (Hn n); left; reflexivity).
    now rewrite !upd2_other by auto.
Qed.
Lemma upds_in l : forall w y n, NoDup (map fst l) -> In (y, n) l ->
  cfg (upds w l) (fst y) (snd y) = n /\ tn (upds w l) (fst y) (snd y) = tps (fst y) (snd y) n.
Proof.
  induction l as [|[z m] l IH]; intros w y n Hn Hi; [destruct Hi|].
  simpl in Hn. inversion Hn as [|? ? H1 H2]; subst. simpl in Hi. destruct Hi as [Hi|Hi].
  - inversion Hi; subst. rewrite upds_cons.
    destruct (upds_other l (update_single_site o tps y n w) (fst y) (snd y)) as [A B].
    { intros k Hk. apply H1. apply in_map_iff. exists ((fst y, snd y), k). destruct y; auto. }
    rewrite A, B. simpl. now rewrite !upd2_same.
  - rewrite upds_cons. apply IH; auto.
Qed.
Lemma upds_projected l w : projected o rows cols tps (cfg w) (tn w) ->
  projected o rows cols tps (cfg (upds w l)) (tn (upds w l)).
Proof.
  revert w. induction l as [|[y n] l IH]; intros w Hp; [exact Hp|].
  rewrite upds_cons. apply IH. intros r c Hr Hc. simpl.
  destruct (Nat.eq_dec r (fst y)), (Nat.eq_dec c (snd y)); subst;
    try (rewrite !upd2_other by (intros E; destruct y; simpl in *; congruence); apply Hp; auto).
  now rewrite !upd2_same.
Qed.

Lemma map_fst_combine {A B} (l : list A) (l' : list B) : length l' = length l -> map fst (combine l l') = l.
Proof.
  revert l'. induction l as [|a l IH]; intros [|b l'] E; simpl in *; try discriminate; auto.
  f_equal. apply IH. lia.
Qed.

(** The environment of a window does not depend on the tensors inside the window. *)
Lemma boundary_ext tn tn' p s :
  s < nsl rows cols p ->
  (forall r c, r < rows -> c < cols ->
      (match p with UP | DOWN => r <> s | LEFT | RIGHT => c <> s end) -> tn r c = tn' r c) ->
  boundary o rows cols tn p s = boundary o rows cols tn' p s.
Proof.
  intros Hs He. unfold boundary. apply bmps_from_ext.
  - intros r c j Hr Hc Hj Hp. apply He; auto. destruct p; simpl in *; lia.
  - destruct p; simpl in *; lia.
Qed.
Lemma env_ext tn tn' p s k :
  s < nsl rows cols (pre_of p) -> k <= wid rows cols (pre_of p) ->
  (forall r c, r < rows -> c < cols ->
      (match p with LEFT | RIGHT => r <> s | UP | DOWN => c <> s end) \/
      (exists i, i < k /\ env_site (wid rows cols (pre_of p)) p s i = (r, c)) -> tn r c = tn' r c) ->
  env_from o rows cols tn p s k = env_from o rows cols tn' p s k.
Proof.
  intros Hs Hk He.
  assert (B1 : boundary o rows cols tn (pre_of p) s = boundary o rows cols tn' (pre_of p) s).
  { apply boundary_ext; auto. intros r c Hr Hc Hp. apply He; auto. destruct p; simpl in *; auto. }
  assert (B2 : boundary o rows cols tn (next_of p) s = boundary o rows cols tn' (next_of p) s).
  { apply boundary_ext; [rewrite nsl_next; auto|]. intros r c Hr Hc Hp. apply He; auto. destruct p; simpl in *; auto. }
  induction k as [|k IH]; cbn [env_from].
  - now rewrite B1, B2.
  - rewrite IH; [|lia|].
    + rewrite B1, B2. f_equal.
      destruct (env_site_in rows cols p s k) as [A B]; [lia|auto|].
      apply He; auto. right. exists k. split; [lia|]. destruct (env_site _ p s k); reflexivity.
    + intros r c Hr Hc Hp. apply He; auto. destruct Hp as [Hp|(i & Hi & E)]; [auto|].
      right. exists i. split; [lia|exact E].
Qed.
Lemma window_ext tn tn' d x k : 1 <= k -> window_in rows cols d x k ->
  (forall r c, r < rows -> c < cols -> ~ In (r, c) (chain d x k) -> tn r c = tn' r c) ->
  window1_spec o rows cols tn d x k = window1_spec o rows cols tn' d x k.
Proof.
  intros Hk Hin He. unfold window1_spec.
  assert (IN : forall r c, In (r, c) (chain d x k) -> across d (r, c) = across d x /\
     along d x <= along d (r, c) < along d x + k).
  { intros r c. apply chain_in. }
  assert (FE : forall p, p = side1 d \/ p = side2 d ->
    boundary o rows cols tn p (across d x) = boundary o rows cols tn' p (across d x)).
  { intros p Hp. apply boundary_ext.
    - destruct d, Hp; subst p; simpl in *; lia.
    - intros r c Hr Hc Hne. apply He; auto. intros Hi. apply IN in Hi.
      destruct d, Hp; subst p; simpl in *; lia. }
  f_equal; [f_equal|].
  - apply map_ext. intros i. unfold facing. rewrite !FE by auto. reflexivity.
  - apply env_ext.
    + destruct d; simpl in *; lia.
    + destruct d; simpl in *; lia.
    + intros r c Hr Hc Hp. apply He; auto. intros Hi. apply IN in Hi.
      destruct Hp as [Hp|(i & Hi2 & E)]; destruct d, x; simpl in *; try inversion E; subst; lia.
  - apply env_ext.
    + destruct d; simpl in *; lia.
    + destruct d; simpl in *; lia.
    + intros r c Hr Hc Hp. apply He; auto. intros Hi. apply IN in Hi.
      destruct Hp as [Hp|(i & Hi2 & E)]; destruct d, x; simpl in *; try inversion E; subst; lia.
Qed.

Lemma coh_update w d x k ns a g ms e1 e2 : 1 <= k -> window_in rows cols d x k -> coh w ->
  window1_spec o rows cols (tn w) d x k = (ms, e1, e2) ->
  ker (map (fun y => cfg w (fst y) (snd y)) (chain d x k)) (amp w)
      (fun ns => tr1 o d ms (chain_tensors o tps (chain d x k) ns) e1 e2) (rng w) = (Some (ns, a), g) ->
  coh (update_local o tps a (combine (chain d x k) ns) w).
Proof.
  intros Hk Hin [Hp Ha] EW EK. destruct (Hker _ _ _ _ _ _ _ EK) as [EL Eb].
  rewrite map_length, chain_length in EL.
  unfold coh, update_local. fold (upds w (combine (chain d x k) ns)). cbn [cfg tn amp].
  set (l := combine (chain d x k) ns) in *.
  split; [apply upds_projected; exact Hp|].
  subst a. rewrite <- (Hpsi (tn (upds w l)) d x k Hk Hin). unfold trace_at.
  rewrite <- (window_ext (tn w) (tn (upds w l)) d x k Hk Hin), EW.
  - f_equal. unfold chain_tensors. fold l.
    assert (MF : map fst l = chain d x k) by (apply map_fst_combine; rewrite chain_length; exact EL).
    rewrite <- MF at 1. rewrite map_map. apply map_ext_in. intros [y n] Hy.
    destruct (upds_in l w y n) as [_ B]; auto. { rewrite MF. apply chain_nodup. }
  - intros r c Hr Hc Hni. symmetry. apply upds_other. intros n Hi. apply Hni.
    eapply in_combine_l; exact Hi.
Qed.

Lemma coh_setamp w d x k ms e1 e2 c : 1 <= k -> window_in rows cols d x k -> coh w ->
  window1_spec o rows cols (tn w) d x k = (ms, e1, e2) ->
  coh (mkW (cfg w) (tr1 o d ms (map (fun y => tn w (fst y) (snd y)) (chain d x k)) e1 e2) (tn w) c (rng w)) /\
  coh (mkW (cfg w) (tr1 o d ms (chain_tensors o tps (chain d x k)
       (map (fun y => cfg w (fst y) (snd y)) (chain d x k))) e1 e2) (tn w) c (rng w)).
Proof.
  intros Hk Hin [Hp Ha] EW. assert (HT := Hpsi (tn w) d x k Hk Hin). unfold trace_at in HT.
  rewrite EW in HT.
  assert (EC : chain_tensors o tps (chain d x k) (map (fun y => cfg w (fst y) (snd y)) (chain d x k))
    = map (fun y => tn w (fst y) (snd y)) (chain d x k)).
  { clear HT. unfold chain_tensors.
    assert (HC : forall y, In y (chain d x k) -> fst y < rows /\ snd y < cols).
    { intros y Hy. apply chain_in in Hy. destruct d, x, y; simpl in *; lia. }
    induction (chain d x k) as [|y l IH]; [reflexivity|]. simpl. f_equal.
    - destruct (HC y (or_introl eq_refl)). rewrite Hp; auto.
    - apply IH. intros z Hz. apply HC. right. exact Hz. }
  split; (split; [exact Hp|]); cbn [amp tn]; [|rewrite EC]; exact HT.
Qed.

Lemma triple_run_coh l :
  triple o Rng rows cols tps ker coh (sG o Rng rows cols) l (sG o Rng rows cols) ->
  forall w : wst o Rng, ready o rows cols w -> coh w ->
    exists w' lg, run o tps ker l w = Ok (w', lg) /\ ready o rows cols w' /\ coh w' /\ log_fresh o rows cols lg.
Proof.
  intros T w Hw HJ. apply ready_sG in Hw. destruct (T w Hw HJ) as (w' & lg & E & Q & J' & F).
  exists w', lg. rewrite ready_sG. auto.
Qed.
Lemma coh_ext (w w' : wst o Rng) : cfg w' = cfg w -> amp w' = amp w -> tn w' = tn w -> coh w -> coh w'.
Proof. intros A B C HC. revert HC. unfold coh. rewrite A, B, C. auto. Qed.
End Inst.
