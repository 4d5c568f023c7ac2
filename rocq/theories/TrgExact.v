(** The TRG contractor is exact when no split loses anything. *)
From Coq Require Import List Arith Lia Bool Reals Permutation.
From Verif Require Import Base Cplx SumModel SumSpec SumProofs NetSum TrgModel TrgSpec TrgTensor TrgProofs TrgTopo TrgMain TrgExactSpec TrgSums TrgFinal.
Import ListNotations.
Local Open Scope nat_scope.

Lemma even_sum_ext d d' w X X' : (forall v, In v (bond_vars w) -> d v = d' v) -> (forall rc, In rc (grid w w) -> X rc = X' rc) -> even_sum d w X = even_sum d' w X'.
Proof.
  intros D E. unfold even_sum. rewrite (gsum_dims var_dec _ d d' _ D). apply gsum_ext_all. intros a. apply prodC_ext. intros rc H. rewrite E by exact H. reflexivity.
Qed.
Lemma odd_sum_ext d d' w X X' : (forall v, In v (site_vars w) -> d v = d' v) -> (forall rc, In rc (evens w) -> X rc = X' rc) -> odd_sum d w X = odd_sum d' w X'.
Proof.
  intros D E. unfold odd_sum. rewrite (gsum_dims var_dec _ d d' _ D). apply gsum_ext_all. intros a. apply prodC_ext. intros rc H. rewrite E by exact H. reflexivity.
Qed.

Section Exact.
Context (svd : trunc -> tensor -> tensor * list R * tensor) (p : trunc) (n : nat).
Notation o := (tensor_ops svd).
Notation made s X := (fun i => make_split o p (ty n s i) (X i)).
Notation Ten := (Ten o).
(** no split of the layers loses anything *)
Fixpoint all_exact (s : nat) (sc : list (scale o)) (X : nat -> Ten) : Prop :=
  match sc with
  | fine :: ((coarse :: _) as rest) =>
      (forall i, i < alen (tens fine) -> recombines (ty n s i) (X i) (sd_P (made s X i)) (sd_Q (made s X i))) /\ all_exact (S s) rest (up o p (ty n) s coarse X)
  | _ => True
  end.
(** tensors by site *)
Definition by_site (w : nat) (X : nat -> Ten) : nat * nat -> tensor := fun rc => X (fst rc * w + snd rc).
Definition by_node (m : nat) (X : nat -> Ten) : nat * nat -> tensor := fun rc => X (fst rc * m + snd rc / 2).
(** dimensions of the new legs *)
Definition with_sites (d : var -> nat) (P : nat * nat -> tensor) : var -> nat := fun v =>
  match v with Bond b => d v | Site r c => match colour (r, c) with Type0 => dimat (P (r, c)) 2 | Type1 => dimat (P (r, c)) 0 end end.
Definition with_bonds (m : nat) (d : var -> nat) (P : nat * nat -> tensor) : var -> nat := fun v =>
  match v with Site r c => d v | Bond (Hor i j) => dimat (P (en m (i, j))) 2 | Bond (Ver i j) => dimat (P (sn (i, j))) 0 end.
Lemma with_bonds_new m d P rc : 1 <= m -> In rc (evens (2 * m)) -> with_bonds m d P (new_bond m rc) = match row_type rc with Type0 => dimat (P rc) 2 | Type1 => dimat (P rc) 0 end.
Proof.
  destruct rc as [r c]. intros Hm H. apply in_evens in H. destruct H as (Hr & Hc & E). unfold new_bond, row_type. cbn [fst snd]. destruct (Nat.eqb_spec (r mod 2) 1) as [O|O]; cbn [with_bonds].
  - replace (sn (r / 2, c / 2)) with (r, c) by (unfold sn; cbn [fst snd]; f_equal; lia). reflexivity.
  - replace (en m (r / 2, down1 m (c / 2))) with (r, c); [reflexivity|]. unfold en. cbn [fst snd]. assert (c / 2 < m) by lia. rewrite (up_odd m Hm d P P) by (apply down1_lt; assumption). rewrite up_down by lia. f_equal; lia.
Qed.
Lemma new_not_corner m rc : ~ In (new_bond m rc) (qlist (corners (2 * m) rc)).
Proof. destruct rc as [r c]. unfold new_bond, corners. cbn [fst snd qlist In]. destruct (r mod 2 =? 1); intuition discriminate. Qed.
Lemma new_not_leg w rc : ~ In (new_site rc) (qlist (legs w rc)).
Proof. destruct rc as [r c]. unfold new_site, legs. cbn [fst snd qlist In]. intuition discriminate. Qed.
Lemma width_next s m : s mod 2 = 0 -> width n s = 2 * m -> width n (S s) = 2 * m /\ width n (S (S s)) = m.
Proof.
  intros P W. split; [unfold width in *; replace (S s / 2) with (s / 2) by lia; exact W|].
  unfold width in *. replace (S (S s) / 2) with (S (s / 2)) by lia. rewrite Nat.pow_succ_r', Nat.mul_comm, <- Nat.div_div by (try apply Nat.pow_nonzero; lia). rewrite W. lia.
Qed.
Lemma ty_even s m rc : s mod 2 = 0 -> width n s = 2 * m -> In rc (grid (2 * m) (2 * m)) -> ty n s (fst rc * (2 * m) + snd rc) = colour rc.
Proof. destruct rc as [r c]. intros P W H. apply grid_in in H. unfold ty, colour. rewrite even_mod, P, W. cbn [Nat.eqb fst snd]. rewrite code_div, code_mod by tauto. reflexivity. Qed.
Lemma ty_odd s m rc : s mod 2 = 1 -> width n s = 2 * m -> In rc (evens (2 * m)) -> ty n s (fst rc * m + snd rc / 2) = row_type rc.
Proof. destruct rc as [r c]. intros P W H. apply in_evens in H. unfold ty, row_type. rewrite even_mod, P, W. cbn [Nat.eqb fst snd]. replace (2 * m / 2) with m by lia. rewrite code_div by lia. reflexivity. Qed.
(** an even layer *)
Lemma even_layer s m (mid : scale o) X d : 2 <= m -> s mod 2 = 0 -> width n s = 2 * m ->
  (forall q k, In (q, k) (even_links (2 * m)) -> aval (c2f mid) q = k) ->
  even_fits d (2 * m) (by_site (2 * m) X) ->
  (forall i, i < 2 * m * (2 * m) -> recombines (ty n s i) (X i) (sd_P (made s X i)) (sd_Q (made s X i))) ->
  let X1 := up o p (ty n) s mid X in
  exists d1, odd_fits d1 (2 * m) (by_node m X1) /\ even_sum d (2 * m) (by_site (2 * m) X) = odd_sum d1 (2 * m) (by_node m X1).
Proof.
  intros M P W C1 HF E0 X1.
  set (P0 := fun rc => sd_P (make_split o p (ty n s (fst rc * (2 * m) + snd rc)) (by_site (2 * m) X rc))).
  set (Q0 := fun rc => sd_Q (make_split o p (ty n s (fst rc * (2 * m) + snd rc)) (by_site (2 * m) X rc))).
  set (d0 := with_sites d P0).
  assert (HC0 : forall rc, In rc (grid (2 * m) (2 * m)) -> cut d0 (colour rc) (legs (2 * m) rc) (new_site rc) (by_site (2 * m) X rc) (P0 rc) (Q0 rc)).
  { intros [r c] H. apply recombines_cut.
    - rewrite <- (ty_even s m (r, c) P W H). apply E0. apply grid_in in H. apply code_lt; tauto.
    - rewrite (HF _ H). reflexivity.
    - apply new_not_leg.
    - reflexivity. }
  assert (EP : forall rc, In rc (evens (2 * m)) -> by_node m X1 rc = plaq m P0 Q0 rc).
  { intros [r c] H. apply in_evens in H. unfold by_node, X1, up. cbn [fst snd]. rewrite even_mod, P. cbn [Nat.eqb].
    assert (L : In (r * m + c / 2, (r * (2 * m) + c, r * (2 * m) + up1 (2 * m) c, up1 (2 * m) r * (2 * m) + c, up1 (2 * m) r * (2 * m) + up1 (2 * m) c)) (even_links (2 * m))).
    { apply in_even_links. exists r, c. tauto. }
    replace (aval (c2f mid) (r * m + c / 2)) with ((r * (2 * m) + c, r * (2 * m) + up1 (2 * m) c, up1 (2 * m) r * (2 * m) + c, up1 (2 * m) r * (2 * m) + up1 (2 * m) c)) by (symmetry; exact (C1 _ _ L)).
    reflexivity. }
  exists d0. split.
  - intros rc H. rewrite EP by exact H. exact (plaq_fits m ltac:(lia) d0 (by_site (2 * m) X) P0 Q0 HC0 rc H).
  - rewrite (even_sum_ext d d0 (2 * m) _ (by_site (2 * m) X)); [|intros v Hv; apply in_map_iff in Hv; destruct Hv as (b & <- & _); reflexivity|reflexivity].
    rewrite (plaquettes m ltac:(lia) d0 (by_site (2 * m) X) P0 Q0 HC0). apply odd_sum_ext; [reflexivity|]. intros rc H. symmetry. apply EP. exact H.
Qed.
(** an odd layer *)
Lemma odd_layer s m (coarse : scale o) X1 d0 : 2 <= m -> s mod 2 = 1 -> width n s = 2 * m ->
  (forall q k, In (q, k) (odd_links (2 * m)) -> aval (c2f coarse) q = k) ->
  odd_fits d0 (2 * m) (by_node m X1) ->
  (forall i, i < 2 * m * m -> recombines (ty n s i) (X1 i) (sd_P (made s X1 i)) (sd_Q (made s X1 i))) ->
  let X2 := up o p (ty n) s coarse X1 in
  exists d2, even_fits d2 m (by_site m X2) /\ odd_sum d0 (2 * m) (by_node m X1) = even_sum d2 m (by_site m X2).
Proof.
  intros M P W1 C2 F1 E1 X2.
  set (P1 := fun rc => sd_P (make_split o p (ty n s (fst rc * m + snd rc / 2)) (by_node m X1 rc))).
  set (Q1 := fun rc => sd_Q (make_split o p (ty n s (fst rc * m + snd rc / 2)) (by_node m X1 rc))).
  set (d1 := with_bonds m d0 P1).
  assert (HC1 : forall rc, In rc (evens (2 * m)) -> cut d1 (row_type rc) (corners (2 * m) rc) (new_bond m rc) (by_node m X1 rc) (P1 rc) (Q1 rc)).
  { intros [r c] H. apply recombines_cut.
    - rewrite <- (ty_odd s m (r, c) P W1 H). apply (E1 (r * m + c / 2)). apply in_evens in H. apply code_lt; lia.
    - rewrite (F1 _ H). reflexivity.
    - apply new_not_corner.
    - apply with_bonds_new; [lia|exact H]. }
  assert (ED : forall ij, In ij (grid m m) -> by_site m X2 ij = diam m P1 Q1 ij).
  { intros [i j] H. pose proof H as H'. apply grid_in in H. unfold by_site, X2, up. cbn [fst snd]. replace (Nat.even s) with false by (rewrite even_mod, P; reflexivity).
    assert (L : In (i * m + j, (down1 (2 * m) (2 * i) * m + (2 * j + 1) / 2, 2 * i * m + up1 (2 * m) (2 * j + 1) / 2, (2 * i + 1) * m + (2 * j + 1) / 2, 2 * i * m + 2 * j / 2)) (odd_links (2 * m))).
    { apply in_odd_links. exists i, j. split; [tauto|]. split; [tauto|]. split; [reflexivity|].
      replace ((2 * j + 1) / 2) with j by lia. replace (2 * j / 2) with j by lia. reflexivity. }
    replace (aval (c2f coarse) (i * m + j)) with ((down1 (2 * m) (2 * i) * m + (2 * j + 1) / 2, 2 * i * m + up1 (2 * m) (2 * j + 1) / 2, (2 * i + 1) * m + (2 * j + 1) / 2, 2 * i * m + 2 * j / 2)) by (symmetry; exact (C2 _ _ L)).
    reflexivity. }
  exists d1. split.
  - intros ij H. rewrite ED by exact H. exact (diam_fits m ltac:(lia) d1 (by_node m X1) P1 Q1 HC1 ij H).
  - rewrite (odd_sum_ext d0 d1 (2 * m) _ (by_node m X1)); [|intros v Hv; apply in_map_iff in Hv; destruct Hv as (b & <- & _); reflexivity|reflexivity].
    rewrite (diamonds m ltac:(lia) d1 (by_node m X1) P1 Q1 HC1). apply even_sum_ext; [reflexivity|]. intros ij H. symmetry. apply ED. exact H.
Qed.
(** all layers *)
Lemma top_len_cons (a b : scale o) l : top_len o (a :: b :: l) = top_len o (b :: l).
Proof. unfold top_len. cbn [rev]. destruct (rev l ++ [b]) as [|z zs] eqn:Q; [destruct (rev l); discriminate|reflexivity]. Qed.
Lemma layers_sum w sc : built o w sc -> forall s X d, s mod 2 = 0 -> width n s = w -> even_fits d w (by_site w X) -> all_exact s sc X ->
  amplitude_of o (map (top_of o p (ty n) s sc X) (seq 0 (top_len o sc))) = Ok (even_sum d w (by_site w X)).
Proof.
  induction 1 as [w top Hw L|m fine mid coarse rest M L0 L1 C1 C2 B IH]; intros s X d P W F A.
  - unfold top_len. cbn [rev app top_of]. rewrite L. assert (w = 1 \/ w = 2 \/ w = 3) as [->|[->| ->]] by lia.
    + rewrite <- (final1_sum d _ F). reflexivity.
    + rewrite <- (final2_sum d _ F). reflexivity.
    + rewrite <- (final3_sum d _ F). reflexivity.
  - destruct A as [A0 A]. destruct A as [A1 A]. destruct (width_next s m P W) as [W1 W2].
    destruct (even_layer s m mid X d M P W C1 F) as (d1 & F1 & ->); [intros i Hi; apply A0; rewrite L0; exact Hi|].
    destruct (odd_layer (S s) m coarse (up o p (ty n) s mid X) d1 M ltac:(lia) W1 C2 F1) as (d2 & F2 & ->); [intros i Hi; apply A1; rewrite L1; exact Hi|].
    rewrite !top_len_cons. apply (IH (S (S s))); [lia|exact W2|exact F2|exact A].
Qed.
(** an exact decomposition loses nothing *)
Lemma decode_lt w k i : i < w * k -> i / k < w /\ i mod k < k /\ i = i / k * k + i mod k.
Proof. intros H. assert (K : k <> 0) by lia. pose proof (Nat.mod_upper_bound i k K). pose proof (Nat.div_lt_upper_bound i k w K ltac:(lia)). pose proof (Nat.div_mod i k K). lia. Qed.
Lemma even_rank d w X i : even_fits d w (by_site w X) -> i < w * w -> length (shape (X i)) = 4.
Proof.
  intros F H. destruct (decode_lt w w i H) as (H1 & H2 & H3). specialize (F (i / w, i mod w) (proj2 (grid_in _ _ _ _) (conj H1 H2))). unfold by_site in F. cbn [fst snd] in F. rewrite <- H3 in F. rewrite F. reflexivity.
Qed.
Lemma odd_rank d m X i : odd_fits d (2 * m) (by_node m X) -> i < 2 * m * m -> length (shape (X i)) = 4.
Proof.
  intros F H. destruct (decode_lt (2 * m) m i H) as (H1 & H2 & H3). set (r := i / m) in *. set (c := i mod m) in *.
  assert (HI : In (r, 2 * c + r mod 2) (evens (2 * m))) by (apply in_evens; lia).
  specialize (F _ HI). unfold by_node in F. cbn [fst snd] in F. replace (r * m + (2 * c + r mod 2) / 2) with i in F by (replace ((2 * c + r mod 2) / 2) with c by lia; exact H3). rewrite F. reflexivity.
Qed.
Lemma exact_layers : (forall st T, length (shape T) = 4 -> recombines st T (sd_P (make_split o p st T)) (sd_Q (make_split o p st T))) ->
  forall w sc, built o w sc -> forall s X d, s mod 2 = 0 -> width n s = w -> even_fits d w (by_site w X) -> all_exact s sc X.
Proof.
  intros E. induction 1 as [w top Hw L|m fine mid coarse rest M L0 L1 C1 C2 B IH]; intros s X d P W F; [exact I|].
  assert (A0 : forall i, i < 2 * m * (2 * m) -> recombines (ty n s i) (X i) (sd_P (made s X i)) (sd_Q (made s X i))) by (intros i Hi; apply E; exact (even_rank d (2 * m) X i F Hi)).
  destruct (width_next s m P W) as [W1 W2]. destruct (even_layer s m mid X d M P W C1 F A0) as (d1 & F1 & _).
  assert (A1 : let X1 := up o p (ty n) s mid X in forall i, i < 2 * m * m -> recombines (ty n (S s) i) (X1 i) (sd_P (made (S s) X1 i)) (sd_Q (made (S s) X1 i))) by (intros X1 i Hi; apply E; exact (odd_rank d1 m _ i F1 Hi)).
  destruct (odd_layer (S s) m coarse (up o p (ty n) s mid X) d1 M ltac:(lia) W1 C2 F1 A1) as (d2 & F2 & _).
  split; [intros i Hi; apply A0; rewrite <- L0; exact Hi|]. split; [intros i Hi; apply A1; rewrite <- L1; exact Hi|]. apply (IH (S (S s)) _ d2); [lia|exact W2|exact F2].
Qed.
(** nothing was lost in the cache *)
Lemma coherent_exact : forall sc s X, coherent o p (ty n) s sc X ->
  (forall a, In a sc -> forall i T d, i < alen (tens a) -> i < alen (splits a) -> aval (tens a) i = Some T -> aval (splits a) i = Some d -> recombines (sd_type d) T (sd_P d) (sd_Q d)) ->
  all_exact s sc X.
Proof.
  induction sc as [|a sc IH]; intros s X H E; [exact I|]. destruct sc as [|b sc]; [exact I|]. destruct H as (H1 & (H2 & H3) & H4). split; [|apply IH; [exact H4|intros c Hc; apply E; right; exact Hc]].
  intros i Hi. assert (Q := E a (or_introl eq_refl) i (X i) (made s X i) Hi ltac:(lia) (H1 i Hi) (H3 i Hi)).
  assert (Z : sd_type (made s X i) = ty n s i) by (unfold make_split; destruct (split_node o p (ty n s i) (X i)) as [[? ?] ?]; reflexivity). exact (eq_ind _ (fun t => recombines t (X i) (sd_P (made s X i)) (sd_Q (made s X i))) Q _ Z).
Qed.
Lemma exact_coherent sc : forall s X, coherent o p (ty n) s sc X -> top_splits o sc -> all_exact s sc X ->
  forall a, In a sc -> forall i T d, i < alen (tens a) -> i < alen (splits a) -> aval (tens a) i = Some T -> aval (splits a) i = Some d -> recombines (sd_type d) T (sd_P d) (sd_Q d).
Proof.
  induction sc as [|b sc IH]; intros s X H TS A a Ha i T d Hi Hs ET ES; [contradiction|]. destruct sc as [|c sc].
  - destruct Ha as [<-|[]]. destruct TS as (pre & top & Q & SP). destruct pre as [|? pre]; [|destruct pre; discriminate]. injection Q as <-. rewrite SP in Hs. cbn in Hs. lia.
  - destruct H as (H1 & (H2 & H3) & H4), A as [A0 A]. destruct Ha as [<-|Ha]; [|exact (IH (S s) _ H4 (top_splits_tl _ _ _ _ TS) A a Ha i T d Hi Hs ET ES)].
    rewrite H1 in ET by exact Hi. rewrite H3 in ES by exact Hi. injection ET as <-. injection ES as <-.
    assert (Z : sd_type (made s X i) = ty n s i) by (unfold make_split; destruct (split_node o p (ty n s i) (X i)) as [[? ?] ?]; reflexivity). exact (eq_ind_r (fun t => recombines t (X i) (sd_P (made s X i)) (sd_Q (made s X i))) (A0 i Hi) Z).
Qed.
End Exact.

(** *** A singular value decomposition that is exact *)
Lemma left_scaled u q a b : shape u = [a; b; length q] ->
  shape (contract u [2] (diag q) [0]) = [a; b; length q] /\
  forall i j x, x < length q -> entry (contract u [2] (diag q) [0]) [i; j; x] = (entry u [i; j; x] * RtoC (nth x q 0%R))%C.
Proof.
  destruct u as [sh e]. cbn [shape]. intros ->. split; [reflexivity|]. intros i j x H. unfold contract, diag. cbn -[sumC].
  rewrite <- (delta' (fun k => (e [i; j; k] * RtoC (nth k q 0%R))%C) x (length q) H). apply sumC_ext. intros k _. destruct (k =? x); ring.
Qed.
Lemma right_scaled v q a b : shape v = [length q; a; b] ->
  shape (contract (diag q) [1] v [0]) = [length q; a; b] /\
  forall x i j, x < length q -> entry (contract (diag q) [1] v [0]) [x; i; j] = (RtoC (nth x q 0%R) * entry v [x; i; j])%C.
Proof.
  destruct v as [sh e]. cbn [shape]. intros ->. split; [reflexivity|]. intros x i j H. unfold contract, diag. cbn -[sumC].
  rewrite <- (delta (fun k => (RtoC (nth x q 0%R) * e [k; i; j])%C) x (length q) H). apply sumC_ext. intros k _. destruct (Nat.eqb_spec x k); [subst; ring|ring].
Qed.
Lemma root_square s x : Forall (fun y => (0 <= y)%R) s -> x < length s -> (RtoC (nth x (map sqrt s) 0%R) * RtoC (nth x (map sqrt s) 0%R))%C = RtoC (nth x s 0%R).
Proof.
  intros F H. rewrite (nth_indep _ 0%R (sqrt 0%R)) by (rewrite map_length; exact H). rewrite map_nth, <- RtoC_mul, sqrt_sqrt; [reflexivity|]. rewrite Forall_forall in F. apply F, nth_In, H.
Qed.
Lemma split_exact svd p st T : exact_svd svd p -> length (shape T) = 4 ->
  recombines st T (sd_P (make_split (tensor_ops svd) p st T)) (sd_Q (make_split (tensor_ops svd) p st T)).
Proof.
  intros E H. destruct T as [sh e]. cbn [shape] in H. destruct sh as [|d0 [|d1 [|d2 [|d3 [|]]]]]; try discriminate H.
  unfold make_split. cbn [split_node tensor_ops]. unfold split_tensor. destruct st.
  - specialize (E (transpose [0; 3; 1; 2] (Tn [d0; d1; d2; d3] e)) eq_refl). destruct (svd p _) as [[u s] vt]. destruct E as (U & V & NN & E). cbn [dimat shape transpose map nth] in U, V, E.
    exists (length s). cbn [sd_P sd_Q]. rewrite <- (map_length sqrt s) in U, V. destruct (left_scaled u (map sqrt s) _ _ U) as [L1 L2]. destruct (right_scaled vt (map sqrt s) _ _ V) as [R1 R2]. rewrite map_length in L1, L2, R1, R2.
    split; [split; [exact L1|exact R1]|]. cbn [dimat shape nth]. intros l d r t Hl Hd Hr Ht.
    transitivity (entry (transpose [0; 3; 1; 2] (Tn [d0; d1; d2; d3] e)) [l; t; d; r]); [reflexivity|]. rewrite E by assumption. apply sumC_ext. intros x Hx. apply in_seq in Hx. rewrite L2, R2 by lia. rewrite <- (root_square s x NN) by lia. ring.
  - specialize (E (Tn [d0; d1; d2; d3] e) eq_refl). destruct (svd p _) as [[u s] vt]. destruct E as (U & V & NN & E). cbn [dimat shape map nth] in U, V, E.
    exists (length s). cbn [sd_P sd_Q]. rewrite <- (map_length sqrt s) in U, V. destruct (left_scaled u (map sqrt s) _ _ U) as [L1 L2]. destruct (right_scaled vt (map sqrt s) _ _ V) as [R1 R2]. rewrite map_length in L1, L2, R1, R2.
    split; [split; [exact L1|exact R1]|]. cbn [dimat shape nth]. intros l d r t Hl Hd Hr Ht.
    rewrite E by assumption. apply sumC_ext. intros x Hx. apply in_seq in Hx. rewrite L2, R2 by lia. rewrite <- (root_square s x NN) by lia. ring.
Qed.

(** *** The sum over the torus *)
Lemma legs_bonds n r c : r < n -> c < n -> leg_bond n n true r c 0 = Some (Hor r (down1 n c)) /\ leg_bond n n true r c 1 = Some (Ver r c) /\
  leg_bond n n true r c 2 = Some (Hor r c) /\ leg_bond n n true r c 3 = Some (Ver (down1 n r) c).
Proof.
  intros Hr Hc. cbn [leg_bond]. rewrite !orb_true_r, !down1_val by assumption. destruct c as [|c], r as [|r]; cbn [Nat.ltb Nat.leb Nat.eqb]; repeat split; reflexivity.
Qed.
Lemma torus_even n X : torus_sum n X = even_sum (fun v => match v with Bond b => torus_dim X b | Site _ _ => 0 end) n (fun rc => X (fst rc) (snd rc)).
Proof.
  unfold torus_sum, even_sum, bond_vars. rewrite sum_over_gsum. symmetry. apply (gsum_rename bond_eq_dec var_dec Bond).
  - congruence.
  - intros a a' E. apply prodC_ext. intros [r c] H. apply grid_in in H. cbn [fst snd]. f_equal. unfold leg_value.
    pose proof (legs_bonds n r c ltac:(tauto) ltac:(tauto)) as (Q0 & Q1 & Q2 & Q3). cbn [map legs qlist]. rewrite Q0, Q1, Q2, Q3. rewrite !E. reflexivity.
  - reflexivity.
  - reflexivity.
Qed.
Lemma closes_fits n X : closes n X -> even_fits (fun v => match v with Bond b => torus_dim X b | Site _ _ => 0 end) n (fun rc => X (fst rc) (snd rc)).
Proof.
  intros H [r c] I. apply grid_in in I. destruct (H r c ltac:(tauto) ltac:(tauto)) as [L D]. cbn [fst snd].
  pose proof (legs_bonds n r c ltac:(tauto) ltac:(tauto)) as (Q0 & Q1 & Q2 & Q3). cbn [map legs qlist].
  pose proof (D 0 _ ltac:(lia) Q0) as D0. pose proof (D 1 _ ltac:(lia) Q1) as D1. pose proof (D 2 _ ltac:(lia) Q2) as D2. pose proof (D 3 _ ltac:(lia) Q3) as D3.
  destruct (X r c) as [sh e]. cbn [shape] in *. destruct sh as [|e0 [|e1 [|e2 [|e3 [|]]]]]; try discriminate L. unfold dimat in D0, D1, D2, D3. cbn [shape nth] in D0, D1, D2, D3. subst. reflexivity.
Qed.

(** *** The contractor *)
Section Main.
Context (svd : trunc -> tensor -> tensor * list R * tensor) (p : trunc) (n : nat) (Hn : trg_size n).
Notation o := (tensor_ops svd).
Lemma all_exact_shape : forall sc sc' s X, Forall2 (same_shape o) sc sc' -> all_exact svd p n s sc' X -> all_exact svd p n s sc X.
Proof.
  induction sc as [|a sc IH]; intros sc' s X F A; inversion F as [|? a' ? sc1 Ha F1]; subst; [exact I|].
  destruct sc as [|b sc]; inversion F1 as [|? b' ? sc2 Hb F2]; subst; [exact I|]. destruct A as [A0 A]. split; [intros i Hi; apply A0; destruct Ha as (Ha & _); rewrite <- Ha; exact Hi|].
  rewrite (up_shape o p (ty n) s b b' X Hb). exact (IH _ (S s) _ F1 A).
Qed.
Notation dims X := (fun v => match v with Bond b => torus_dim X b | Site _ _ => 0 end).
Lemma flat_site X rc : In rc (grid n n) -> by_site svd n (flat o n X) rc = X (fst rc) (snd rc).
Proof. destruct rc as [r c]. intros H. apply grid_in in H. unfold by_site, flat. cbn [fst snd]. rewrite code_div, code_mod by tauto. reflexivity. Qed.
Lemma flat_fits X : closes n X -> even_fits (dims X) n (by_site svd n (flat o n X)).
Proof. intros H rc I. rewrite flat_site by exact I. exact (closes_fits n X H rc I). Qed.
Lemma amp_sum sc0 X : built o n sc0 -> closes n X -> all_exact svd p n 0 sc0 (flat o n X) -> amp o p n sc0 (flat o n X) = Ok (torus_sum n X).
Proof.
  intros B H A. unfold amp. rewrite (layers_sum svd p n n sc0 B 0 (flat o n X) (dims X) eq_refl (width0 n) (flat_fits X H) A). f_equal. rewrite torus_even. apply even_sum_ext; [reflexivity|]. apply flat_site.
Qed.
Lemma fresh_sum X t z : closes n X -> fresh o p (torus o n X) = Ok (t, z) -> lossless svd t -> z = torus_sum n X.
Proof.
  intros H E L. destruct (shape_exists o p n Hn X) as (sub & sc0 & HI & HT & HB & HS). destruct (fresh_keeps o p n sub sc0 HI HT HB HS X) as (t' & z' & E' & A & sc & Et & F & CO & TS).
  rewrite E in E'. injection E' as <- <-. assert (AE : all_exact svd p n 0 sc0 (flat o n X)).
  { apply (all_exact_shape sc0 sc 0 _ F). apply coherent_exact; [exact CO|]. subst t. exact L. }
  rewrite (amp_sum sc0 X HB H AE) in A. injection A as <-. reflexivity.
Qed.
Lemma fresh_small X : n <= 3 -> closes n X -> exists t, fresh o p (torus o n X) = Ok (t, torus_sum n X).
Proof.
  intros S3 H. destruct (shape_exists o p n Hn X) as (sub & sc0 & HI & HT & HB & HS). destruct (fresh_keeps o p n sub sc0 HI HT HB HS X) as (t & z & E & A & K).
  exists t. rewrite E. do 2 f_equal. rewrite (amp_sum sc0 X HB H) in A; [injection A as <-; reflexivity|]. inversion HB; subst; [exact I|lia].
Qed.
Section ExactSvd.
Hypothesis HE : exact_svd svd p.
Lemma exact_all sc0 X : built o n sc0 -> closes n X -> all_exact svd p n 0 sc0 (flat o n X).
Proof. intros B H. apply (exact_layers svd p n (fun st T => split_exact svd p st T HE) n sc0 B 0 _ (dims X) eq_refl (width0 n)). exact (flat_fits X H). Qed.
Lemma fresh_exact X : closes n X -> exists t, fresh o p (torus o n X) = Ok (t, torus_sum n X) /\ lossless svd t.
Proof.
  intros H. destruct (shape_exists o p n Hn X) as (sub & sc0 & HI & HT & HB & HS). destruct (fresh_keeps o p n sub sc0 HI HT HB HS X) as (t & z & E & A & sc & Et & F & CO & TS).
  exists t. rewrite (amp_sum sc0 X HB H (exact_all sc0 X HB H)) in A. injection A as <-. split; [exact E|]. subst t. unfold lossless. cbn [t_scales]. apply (exact_coherent svd p n sc 0 (flat o n X) CO TS).
  assert (F' : Forall2 (same_shape o) sc sc0) by (clear -F; induction F as [|a b l l' (H1 & H2 & H3) F IH]; constructor; [repeat split; congruence|exact IH]). apply (all_exact_shape sc sc0 0 _ F'). exact (exact_all sc0 X HB H).
Qed.
Lemma exact_moves X moves reps : Forall (on_lattice o n) moves -> on_lattice o n reps ->
  let Y := fold_left (with_replacements o) moves X in closes n Y -> closes n (with_replacements o Y reps) ->
  exists t0 z0 t tr, fresh o p (torus o n X) = Ok (t0, z0) /\ accept_all o t0 moves = Ok t /\
    trace o t (torus o n Y) = Ok (t, torus_sum n Y) /\
    evaluate_replacement o t reps = Ok (torus_sum n (with_replacements o Y reps)) /\
    begin_trial o t reps = Ok tr /\ tr_amp tr = torus_sum n (with_replacements o Y reps).
Proof.
  intros HM HR Y HY HY'. destruct (trials_fresh o p n Hn X moves HM) as (t0 & z0 & t & E0 & E & t1 & z1 & E1 & _ & T & _ & R). fold Y in E1, R.
  destruct (fresh_exact Y HY) as (t1' & E1' & _). rewrite E1 in E1'. injection E1' as <- ->.
  destruct (R reps HR) as (t2 & z2 & tr & E2 & EV & BT & TA). destruct (fresh_exact _ HY') as (t2' & E2' & _). rewrite E2 in E2'. injection E2' as <- ->.
  exists t0, z0, t, tr. repeat split; try assumption. apply T. reflexivity.
Qed.
End ExactSvd.
End Main.

(** *** Tensor product states *)
Lemma projected_closes v s : l_rows v = l_cols v -> l_per v = true -> matched v -> (forall r c, r < l_rows v -> c < l_cols v -> length (dims (l_ten v r c)) = 4) -> closes (l_rows v) (projected v s).
Proof.
  intros E P (_ & _ & M) D r c Hr Hc. split; [apply D; [exact Hr|rewrite <- E; exact Hc]|]. intros l b Hl B. apply (M r c l b Hr); [rewrite <- E; exact Hc|exact Hl|]. rewrite <- E, P. exact B.
Qed.
Lemma projected_sum v s : l_rows v = l_cols v -> l_per v = true -> torus_sum (l_rows v) (projected v s) = amplitude v s.
Proof.
  intros E P. unfold amplitude, weight. rewrite <- E, P. reflexivity.
Qed.
(** *** A decomposition that is exact *)
Definition plain_svd (_ : trunc) (T : tensor) : tensor * list R * tensor :=
  let k := dimat T 2 * dimat T 3 in
  (Tn [dimat T 0; dimat T 1; k] (fun ix => entry T [nth 0 ix 0; nth 1 ix 0; nth 2 ix 0 / dimat T 3; nth 2 ix 0 mod dimat T 3]),
   repeat 1%R k,
   Tn [k; dimat T 2; dimat T 3] (fun ix => if nth 0 ix 0 =? nth 1 ix 0 * dimat T 3 + nth 2 ix 0 then RtoC 1 else RtoC 0)).
Lemma plain_exact p : exact_svd plain_svd p.
Proof.
  intros T _. unfold plain_svd. rewrite repeat_length. split; [reflexivity|]. split; [reflexivity|]. split; [apply Forall_forall; intros x H; apply repeat_spec in H; subst; apply Rle_0_1|].
  intros i j k l _ _ Hk Hl. cbn [entry nth]. set (f := fun x => entry T [i; j; x / dimat T 3; x mod dimat T 3]).
  transitivity (f (k * dimat T 3 + l)); [unfold f; rewrite code_div, code_mod by exact Hl; reflexivity|].
  rewrite <- (delta' f (k * dimat T 3 + l) (dimat T 2 * dimat T 3)) by (apply code_lt; assumption). apply sumC_ext. intros x Hx. apply in_seq in Hx. unfold f.
  replace (nth x (repeat 1%R (dimat T 2 * dimat T 3)) 0%R) with 1%R; [ring|]. symmetry. apply (repeat_spec (dimat T 2 * dimat T 3)), nth_In. rewrite repeat_length. lia.
Qed.
