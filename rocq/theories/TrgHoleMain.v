(** Holes paired with tensors, layer by layer. *)
From Coq Require Import List Arith Lia Bool Reals Lra Permutation.
From Verif Require Import Base Cplx SumModel SumSpec SumProofs NetSum TrgModel TrgSpec TrgTensor TrgProofs TrgTopo TrgMain TrgExactSpec TrgSums TrgFinal TrgExact TrgHoleSpec TrgHoleAlg TrgHoleLoop.
Import ListNotations.
Local Open Scope nat_scope.

(** *** Pairing *)
Lemma nsum_ext ds : forall f g, (forall vs, Forall2 lt vs ds -> f vs = g vs) -> nsum ds f = nsum ds g.
Proof.
  induction ds as [|d ds IH]; intros f g E; cbn [nsum]; [apply E; constructor|]. apply sumC_ext. intros i Hi. apply in_seq in Hi. apply IH. intros vs F. apply E. constructor; [lia|exact F].
Qed.
Lemma nsum_zero ds : forall f, (forall vs, Forall2 lt vs ds -> f vs = RtoC 0) -> nsum ds f = RtoC 0.
Proof.
  induction ds as [|d ds IH]; intros f E; cbn [nsum]; [apply E; constructor|]. apply sumC_zero. intros i Hi. apply in_seq in Hi. apply IH. intros vs F. apply E. constructor; [lia|exact F].
Qed.
Lemma nsum_add ds : forall f g, nsum ds (fun vs => (f vs + g vs)%C) = (nsum ds f + nsum ds g)%C.
Proof. induction ds as [|d ds IH]; intros f g; cbn [nsum]; [reflexivity|]. rewrite <- sumC_add. apply sumC_ext. intros i _. apply IH. Qed.
Lemma nsum_scal ds c : forall f, nsum ds (fun vs => (c * f vs)%C) = (c * nsum ds f)%C.
Proof. induction ds as [|d ds IH]; intros f; cbn [nsum]; [reflexivity|]. rewrite <- sumC_scal. apply sumC_ext. intros i _. apply IH. Qed.
Lemma pair_ext Y Y' H : shape Y = shape Y' -> (forall ix, Forall2 lt ix (shape Y) -> entry Y ix = entry Y' ix) -> pair Y H = pair Y' H.
Proof. intros S E. unfold pair. rewrite <- S. apply nsum_ext. intros vs F. rewrite E by exact F. reflexivity. Qed.
Lemma pair_zero Y H : (forall ix, Forall2 lt ix (shape Y) -> entry Y ix = RtoC 0) -> pair Y H = RtoC 0.
Proof. intros E. apply nsum_zero. intros vs F. rewrite E by exact F. ring. Qed.
Lemma pair_add Y A B : pair Y (tadd A B) = (pair Y A + pair Y B)%C.
Proof. unfold pair. rewrite <- nsum_add. apply nsum_ext. intros vs _. cbn [entry tadd]. ring. Qed.
Lemma pair_div Y k A : pair Y (tdiv k A) = (RtoC (1 / INR k) * pair Y A)%C.
Proof. unfold pair. rewrite <- nsum_scal. apply nsum_ext. intros vs _. cbn [entry tdiv]. ring. Qed.
Lemma in3 ix a b c : Forall2 lt ix [a; b; c] -> exists x y z, ix = [x; y; z] /\ x < a /\ y < b /\ z < c.
Proof.
  intros F. inversion F as [|x ? l ? Hx F1]; subst. inversion F1 as [|y ? l1 ? Hy F2]; subst. inversion F2 as [|z ? l2 ? Hz F3]; subst. inversion F3; subst. exists x, y, z. tauto.
Qed.

Section Holes.
Context (svd : trunc -> tensor -> tensor * list R * tensor) (p : trunc) (n : nat).
Notation o := (tensor_ops svd).
Notation made s X := (fun i => make_split o p (ty n s i) (X i)).
Notation Ten := (Ten o).
Notation arr := TrgModel.arr.
(** *** Splits *)
Definition svd_of (G : trunc -> tensor -> tensor -> list R -> tensor -> Prop) st T : Prop := let '(u, s, vt) := svd p (matrix_of st T) in G p (matrix_of st T) u s vt.
Definition legs_ok := svd_of (fun _ => svd_legs).
Lemma made_shapes st T l d r u : shape T = [l; d; r; u] -> legs_ok st T -> exists k, let e := make_split o p st T in
  shape (sd_P e) = P_shape st k l d r u /\ shape (sd_Q e) = Q_shape st k l d r u /\ iso_fits st (sd_iso e) l d r u /\ length (snd (sd_iso e)) = k.
Proof.
  destruct T as [sh e]. cbn [shape]. intros ->. unfold legs_ok, svd_of, make_split. cbn [split_node tensor_ops]. unfold split_tensor. destruct st; cbn [matrix_of].
  - destruct (svd p _) as [[U s] Vt]. intros [A B]. cbn [dimat shape transpose map nth] in A, B. exists (length s). cbn [sd_P sd_Q sd_iso P_shape Q_shape iso_fits snd].
    assert (L : length (inv_elements (inv_eps p (map sqrt s)) (map sqrt s)) = length s) by (unfold inv_elements; rewrite !map_length; reflexivity).
    rewrite <- (map_length sqrt s) in A, B. destruct (left_scaled U (map sqrt s) _ _ A) as [L1 _]. destruct (right_scaled Vt (map sqrt s) _ _ B) as [R1 _]. rewrite map_length in L1, R1, A, B.
    rewrite L. tauto.
  - destruct (svd p _) as [[U s] Vt]. intros [A B]. cbn [dimat shape map nth] in A, B. exists (length s). cbn [sd_P sd_Q sd_iso P_shape Q_shape iso_fits snd].
    assert (L : length (inv_elements (inv_eps p (map sqrt s)) (map sqrt s)) = length s) by (unfold inv_elements; rewrite !map_length; reflexivity).
    rewrite <- (map_length sqrt s) in A, B. destruct (left_scaled U (map sqrt s) _ _ A) as [L1 _]. destruct (right_scaled Vt (map sqrt s) _ _ B) as [R1 _]. rewrite map_length in L1, R1, A, B.
    rewrite L. tauto.
Qed.
(** the tensor that the two pieces give *)
Definition rejoined st (T P Q : tensor) : tensor := Tn (shape T) (fun ix => match ix with
  | [l; d; r; u] => sumC (fun x => match st with Type0 => (entry P [l; u; x] * entry Q [x; d; r])%C | Type1 => (entry Q [l; d; x] * entry P [x; r; u])%C end) (seq 0 match st with Type0 => dimat P 2 | Type1 => dimat P 0 end)
  | _ => RtoC 0 end).
Lemma rejoined_ok st T P Q l d r u k : shape T = [l; d; r; u] -> shape P = P_shape st k l d r u -> shape Q = Q_shape st k l d r u -> recombines st (rejoined st T P Q) P Q.
Proof.
  destruct T as [sh e]. cbn [shape]. intros -> A B. exists k. unfold dimat. cbn [rejoined shape nth]. split; [destruct st; split; assumption|]. intros. cbn [rejoined entry]. unfold dimat. destruct st; rewrite A; reflexivity.
Qed.
(** *** Contributions *)
Definition piece (b : bool) s X i : tensor := if b then sd_Q (made s X i) else sd_P (made s X i).
Definition new_piece (b : bool) s X i (Y : tensor) : tensor := if b then new_Q (ty n s i) (sd_iso (made s X i)) Y else new_P (ty n s i) (sd_iso (made s X i)) Y.
(** what parent q gives to its child i *)
Definition routed s (X : nat -> Ten) (X1 : nat -> Ten) (H : arr Ten) q i (c : tensor) : Prop := shape c = shape (X i) /\ exists b h,
  (forall Y, shape Y = shape (X i) -> pair Y c = pair (new_piece b s X i Y) h /\ shape (new_piece b s X i Y) = shape (piece b s X i)) /\ pair (piece b s X i) h = pair (X1 q) (aval H q).
Lemma route_Q s X i h : legs_ok (ty n s i) (X i) -> length (shape (X i)) = 4 -> shape h = shape (sd_Q (made s X i)) ->
  let c := adjoint_of_Q (ty n s i) (sd_iso (made s X i)) h in shape c = shape (X i) /\
  forall Y, shape Y = shape (X i) -> pair Y c = pair (new_piece true s X i Y) h /\ shape (new_piece true s X i Y) = shape (piece true s X i).
Proof.
  intros A L. remember (shape (X i)) as sh eqn:SX. symmetry in SX. destruct sh as [|l [|d [|r [|u [|]]]]]; try discriminate L. destruct (made_shapes _ _ _ _ _ _ SX A) as (k & _ & B & C0 & D). intros SHh. cbv zeta.
  unfold new_piece, piece. rewrite B in SHh. cbv beta in *. set (e := make_split o p (ty n s i) (X i)) in *. destruct (sd_iso e) as [[U Vt] sinv] eqn:EI. cbn [snd] in D. subst k. split.
  - destruct (adjoint_Q_pair (X i) h U Vt sinv l d r u (ty n s i) SX C0 SHh) as (_ & S2 & _). exact S2.
  - intros Y SY. destruct (adjoint_Q_pair Y h U Vt sinv l d r u (ty n s i) SY C0 SHh) as (S1 & _ & S3). split; [exact S1|]. rewrite B. exact S3.
Qed.
Lemma route_P s X i h : legs_ok (ty n s i) (X i) -> length (shape (X i)) = 4 -> shape h = shape (sd_P (made s X i)) ->
  let c := adjoint_of_P (ty n s i) (sd_iso (made s X i)) h in shape c = shape (X i) /\
  forall Y, shape Y = shape (X i) -> pair Y c = pair (new_piece false s X i Y) h /\ shape (new_piece false s X i Y) = shape (piece false s X i).
Proof.
  intros A L. remember (shape (X i)) as sh eqn:SX. symmetry in SX. destruct sh as [|l [|d [|r [|u [|]]]]]; try discriminate L. destruct (made_shapes _ _ _ _ _ _ SX A) as (k & B & _ & C0 & D). intros SHh. cbv zeta.
  unfold new_piece, piece. rewrite B in SHh. cbv beta in *. set (e := make_split o p (ty n s i) (X i)) in *. destruct (sd_iso e) as [[U Vt] sinv] eqn:EI. cbn [snd] in D. subst k. split.
  - destruct (adjoint_P_pair (X i) h U Vt sinv l d r u (ty n s i) SX C0 SHh) as (_ & S2 & _). exact S2.
  - intros Y SY. destruct (adjoint_P_pair Y h U Vt sinv l d r u (ty n s i) SY C0 SHh) as (S1 & _ & S3). split; [exact S1|]. rewrite B. exact S3.
Qed.
Lemma even_routes s m (mid : scale o) X d : 2 <= m -> s mod 2 = 0 -> width n s = 2 * m ->
  (forall q k, In (q, k) (even_links (2 * m)) -> aval (c2f mid) q = k) ->
  even_fits d (2 * m) (by_site svd (2 * m) X) ->
  (forall i, i < 2 * m * (2 * m) -> legs_ok (ty n s i) (X i)) ->
  let X1 := up o p (ty n) s mid X in
  exists d1, odd_fits d1 (2 * m) (by_node svd m X1) /\
    forall H q k, q < 2 * m * m -> k < 4 -> shape (aval H q) = shape (X1 q) -> routed s X X1 H q (child (aval (c2f mid) q) k) (contribution o p (ty n) s mid X H q k).
Proof.
  intros M P W C1 HF E0 X1.
  set (P0 := fun rc => sd_P (make_split o p (ty n s (fst rc * (2 * m) + snd rc)) (by_site svd (2 * m) X rc))).
  set (Q0 := fun rc => sd_Q (make_split o p (ty n s (fst rc * (2 * m) + snd rc)) (by_site svd (2 * m) X rc))).
  set (R0 := fun rc => rejoined (ty n s (fst rc * (2 * m) + snd rc)) (by_site svd (2 * m) X rc) (P0 rc) (Q0 rc)).
  set (d0 := with_sites d P0).
  assert (HC0 : forall rc, In rc (grid (2 * m) (2 * m)) -> cut d0 (colour rc) (legs (2 * m) rc) (new_site rc) (R0 rc) (P0 rc) (Q0 rc)).
  { intros [r c] H. assert (SX := HF _ H). apply recombines_cut.
    - rewrite <- (ty_even svd p n s m (r, c) P W H). apply grid_in in H. cbn [legs qlist map] in SX. destruct (made_shapes _ _ _ _ _ _ SX (E0 (r * (2 * m) + c) ltac:(apply code_lt; tauto))) as (k & A & B & _). eapply rejoined_ok; [exact SX|exact A|exact B].
    - cbn [R0 rejoined shape]. rewrite SX. reflexivity.
    - exact (new_not_leg svd p _ _).
    - reflexivity. }
  assert (EP : forall rc, In rc (evens (2 * m)) -> by_node svd m X1 rc = plaq m P0 Q0 rc).
  { intros [r c] H. apply in_evens in H. unfold by_node, X1, up. cbn [fst snd]. rewrite even_mod, P. cbn [Nat.eqb].
    assert (L : In (r * m + c / 2, (r * (2 * m) + c, r * (2 * m) + up1 (2 * m) c, up1 (2 * m) r * (2 * m) + c, up1 (2 * m) r * (2 * m) + up1 (2 * m) c)) (even_links (2 * m))).
    { apply in_even_links. exists r, c. tauto. }
    replace (aval (c2f mid) (r * m + c / 2)) with ((r * (2 * m) + c, r * (2 * m) + up1 (2 * m) c, up1 (2 * m) r * (2 * m) + c, up1 (2 * m) r * (2 * m) + up1 (2 * m) c)) by (symmetry; exact (C1 _ _ L)).
    reflexivity. }
  exists d0. split.
  - intros rc H. rewrite EP by exact H. exact (plaq_fits m ltac:(lia) d0 R0 P0 Q0 HC0 rc H).
  - intros H q k Hq Hk SH. destruct (decode_lt svd p (2 * m) m q Hq) as (D1 & D2 & D3). set (r := q / m) in *. set (c := 2 * (q mod m) + r mod 2).
    assert (HE : In (r, c) (evens (2 * m))) by (apply in_evens; unfold c; lia). assert (Eq : q = r * m + c / 2) by (unfold c; replace ((2 * (q mod m) + r mod 2) / 2) with (q mod m) by lia; exact D3).
    assert (L : In (q, (r * (2 * m) + c, r * (2 * m) + up1 (2 * m) c, up1 (2 * m) r * (2 * m) + c, up1 (2 * m) r * (2 * m) + up1 (2 * m) c)) (even_links (2 * m))).
    { apply in_even_links. exists r, c. pose proof HE as HE'. apply in_evens in HE'. tauto. }
    pose proof (EP _ HE) as EQ. unfold by_node in EQ. cbn [fst snd] in EQ. rewrite <- Eq in EQ. destruct (plaq_shapes m ltac:(lia) d0 R0 P0 Q0 HC0 r c HE) as (S0 & S1 & S2 & S3).
    destruct (four_sites m d0 P0 Q0 (r, c) HE) as (G0 & G1 & G2 & G3). cbn [map] in S0, S1, S2, S3.
    assert (SHp : shape (aval H q) = [d0 (Site r c); d0 (Site r (up1 (2 * m) c)); d0 (Site (up1 (2 * m) r) (up1 (2 * m) c)); d0 (Site (up1 (2 * m) r) c)]).
    { rewrite SH. rewrite EQ. exact (plaq_fits m ltac:(lia) d0 R0 P0 Q0 HC0 (r, c) HE). }
    unfold contribution. rewrite even_mod, P. cbn [Nat.eqb].
    replace (aval (c2f mid) q) with ((r * (2 * m) + c, r * (2 * m) + up1 (2 * m) c, up1 (2 * m) r * (2 * m) + c, up1 (2 * m) r * (2 * m) + up1 (2 * m) c)) by (symmetry; exact (C1 _ _ L)).
    assert (RK : forall rc, In rc (grid (2 * m) (2 * m)) -> fst rc * (2 * m) + snd rc < 2 * m * (2 * m) /\ length (shape (X (fst rc * (2 * m) + snd rc))) = 4).
    { intros [r' c'] I. assert (SX := HF _ I). unfold by_site in SX. split; [apply grid_in in I; apply code_lt; tauto|]. rewrite SX. reflexivity. }
    pose proof (plaquette_hole_shape k (aval H q) _ _ _ _ _ _ _ _ _ _ _ _ SHp S0 S1 S2 S3 Hk) as HS.
    destruct k as [|[|[|[|]]]]; [| | | |lia]; cbn [child Nat.ltb Nat.leb].
    + destruct (RK _ G0) as [R1 R2]. destruct (route_Q s X _ (plaquette_hole 0 (aval H q) (Q0 (r, c)) (Q0 (tr m (r, c))) (P0 (bl m (r, c))) (P0 (br m (r, c)))) (E0 _ R1) R2 HS) as [T1 T2].
      split; [exact T1|]. exists true. eexists. split; [exact T2|]. rewrite EQ. exact (plaquette_hole0 (aval H q) _ _ _ _ _ _ _ _ _ _ _ _ SHp S0 S1 S2 S3).
    + destruct (RK _ G1) as [R1 R2]. destruct (route_Q s X _ (plaquette_hole 1 (aval H q) (Q0 (r, c)) (Q0 (tr m (r, c))) (P0 (bl m (r, c))) (P0 (br m (r, c)))) (E0 _ R1) R2 HS) as [T1 T2].
      split; [exact T1|]. exists true. eexists. split; [exact T2|]. rewrite EQ. exact (plaquette_hole1 (aval H q) _ _ _ _ _ _ _ _ _ _ _ _ SHp S0 S1 S2 S3).
    + destruct (RK _ G2) as [R1 R2]. destruct (route_P s X _ (plaquette_hole 2 (aval H q) (Q0 (r, c)) (Q0 (tr m (r, c))) (P0 (bl m (r, c))) (P0 (br m (r, c)))) (E0 _ R1) R2 HS) as [T1 T2].
      split; [exact T1|]. exists false. eexists. split; [exact T2|]. rewrite EQ. exact (plaquette_hole2 (aval H q) _ _ _ _ _ _ _ _ _ _ _ _ SHp S0 S1 S2 S3).
    + destruct (RK _ G3) as [R1 R2]. destruct (route_P s X _ (plaquette_hole 3 (aval H q) (Q0 (r, c)) (Q0 (tr m (r, c))) (P0 (bl m (r, c))) (P0 (br m (r, c)))) (E0 _ R1) R2 HS) as [T1 T2].
      split; [exact T1|]. exists false. eexists. split; [exact T2|]. rewrite EQ. exact (plaquette_hole3 (aval H q) _ _ _ _ _ _ _ _ _ _ _ _ SHp S0 S1 S2 S3).
Qed.
Lemma odd_routes s m (coarse : scale o) X1 d0 : 2 <= m -> s mod 2 = 1 -> width n s = 2 * m ->
  (forall q k, In (q, k) (odd_links (2 * m)) -> aval (c2f coarse) q = k) ->
  odd_fits d0 (2 * m) (by_node svd m X1) ->
  (forall i, i < 2 * m * m -> legs_ok (ty n s i) (X1 i)) ->
  let X2 := up o p (ty n) s coarse X1 in
  exists d2, even_fits d2 m (by_site svd m X2) /\
    forall H q k, q < m * m -> k < 4 -> shape (aval H q) = shape (X2 q) -> routed s X1 X2 H q (child (aval (c2f coarse) q) k) (contribution o p (ty n) s coarse X1 H q k).
Proof.
  intros M P W1 C2 F1 E1 X2.
  set (P1 := fun rc => sd_P (make_split o p (ty n s (fst rc * m + snd rc / 2)) (by_node svd m X1 rc))).
  set (Q1 := fun rc => sd_Q (make_split o p (ty n s (fst rc * m + snd rc / 2)) (by_node svd m X1 rc))).
  set (R1 := fun rc => rejoined (ty n s (fst rc * m + snd rc / 2)) (by_node svd m X1 rc) (P1 rc) (Q1 rc)).
  set (d1 := with_bonds m d0 P1).
  assert (LT : forall rc, In rc (evens (2 * m)) -> fst rc * m + snd rc / 2 < 2 * m * m) by (intros [r c] H; apply in_evens in H; apply code_lt; cbn [fst snd]; lia).
  assert (HC1 : forall rc, In rc (evens (2 * m)) -> cut d1 (row_type rc) (corners (2 * m) rc) (new_bond m rc) (R1 rc) (P1 rc) (Q1 rc)).
  { intros [r c] H. assert (SX := F1 _ H). apply recombines_cut.
    - rewrite <- (ty_odd svd p n s m (r, c) P W1 H). cbn [corners qlist map] in SX. destruct (made_shapes _ _ _ _ _ _ SX (E1 _ (LT _ H))) as (k & A & B & _). eapply rejoined_ok; [exact SX|exact A|exact B].
    - cbn [R1 rejoined shape]. rewrite SX. reflexivity.
    - exact (new_not_corner svd p _ _).
    - apply (with_bonds_new svd p); [lia|exact H]. }
  assert (LK : forall i j, i < m -> j < m -> In (i * m + j, (down1 (2 * m) (2 * i) * m + (2 * j + 1) / 2, 2 * i * m + up1 (2 * m) (2 * j + 1) / 2, (2 * i + 1) * m + (2 * j + 1) / 2, 2 * i * m + 2 * j / 2)) (odd_links (2 * m))).
  { intros i j Hi Hj. apply in_odd_links. exists i, j. split; [tauto|]. split; [tauto|]. split; [reflexivity|]. replace ((2 * j + 1) / 2) with j by lia. replace (2 * j / 2) with j by lia. reflexivity. }
  assert (ED : forall ij, In ij (grid m m) -> by_site svd m X2 ij = diam m P1 Q1 ij).
  { intros [i j] H. apply grid_in in H. unfold by_site, X2, up. cbn [fst snd]. replace (Nat.even s) with false by (rewrite even_mod, P; reflexivity).
    replace (aval (c2f coarse) (i * m + j)) with ((down1 (2 * m) (2 * i) * m + (2 * j + 1) / 2, 2 * i * m + up1 (2 * m) (2 * j + 1) / 2, (2 * i + 1) * m + (2 * j + 1) / 2, 2 * i * m + 2 * j / 2)) by (symmetry; exact (C2 _ _ (LK i j ltac:(tauto) ltac:(tauto)))).
    reflexivity. }
  exists d1. split.
  - intros ij H. rewrite ED by exact H. exact (diam_fits m ltac:(lia) d1 R1 P1 Q1 HC1 ij H).
  - intros H q k Hq Hk SH. destruct (decode_lt svd p m m q Hq) as (D1 & D2 & D3). set (i := q / m) in *. set (j := q mod m) in *. assert (HG : In (i, j) (grid m m)) by (apply grid_in; tauto).
    pose proof (ED _ HG) as EQ. unfold by_site in EQ. cbn [fst snd] in EQ. rewrite <- D3 in EQ. destruct (diamond_shapes m ltac:(lia) d1 R1 P1 Q1 HC1 i j HG) as (S0 & S1 & S2 & S3).
    destruct (four_nodes m ltac:(lia) d1 P1 Q1 (i, j) HG) as (G0 & G1 & G2 & G3). cbn [map] in S0, S1, S2, S3.
    assert (SHp : shape (aval H q) = [d1 (Bond (Hor i (down1 m j))); d1 (Bond (Ver i j)); d1 (Bond (Hor i j)); d1 (Bond (Ver (down1 m i) j))]).
    { rewrite SH. rewrite EQ. exact (diam_fits m ltac:(lia) d1 R1 P1 Q1 HC1 (i, j) HG). }
    unfold contribution. replace (Nat.even s) with false by (rewrite even_mod, P; reflexivity).
    replace (aval (c2f coarse) q) with ((down1 (2 * m) (2 * i) * m + (2 * j + 1) / 2, 2 * i * m + up1 (2 * m) (2 * j + 1) / 2, (2 * i + 1) * m + (2 * j + 1) / 2, 2 * i * m + 2 * j / 2)) by (symmetry; rewrite D3; exact (C2 _ _ (LK i j D1 D2))).
    assert (RK : forall rc, In rc (evens (2 * m)) -> length (shape (X1 (fst rc * m + snd rc / 2))) = 4).
    { intros rc I. assert (SX := F1 _ I). unfold by_node in SX. rewrite SX. destruct rc. reflexivity. }
    pose proof (diamond_hole_shape k (aval H q) _ _ _ _ _ _ _ _ _ _ _ _ SHp S0 S1 S2 S3 Hk) as HS.
    set (hole := fun k => diamond_hole k (aval H q) (P1 (nn m (i, j))) (P1 (en m (i, j))) (Q1 (sn (i, j))) (Q1 (wn (i, j)))).
    destruct k as [|[|[|[|]]]]; [| | | |lia]; cbn [child Nat.ltb Nat.leb].
    + destruct (route_P s X1 _ (hole 0) (E1 _ (LT _ G0)) (RK _ G0) HS) as [T1 T2].
      split; [exact T1|]. exists false. eexists. split; [exact T2|]. rewrite EQ. exact (diamond_hole0 (aval H q) _ _ _ _ _ _ _ _ _ _ _ _ SHp S0 S1 S2 S3).
    + destruct (route_P s X1 _ (hole 1) (E1 _ (LT _ G1)) (RK _ G1) HS) as [T1 T2].
      split; [exact T1|]. exists false. eexists. split; [exact T2|]. rewrite EQ. exact (diamond_hole1 (aval H q) _ _ _ _ _ _ _ _ _ _ _ _ SHp S0 S1 S2 S3).
    + destruct (route_Q s X1 _ (hole 2) (E1 _ (LT _ G2)) (RK _ G2) HS) as [T1 T2].
      split; [exact T1|]. exists true. eexists. split; [exact T2|]. rewrite EQ. exact (diamond_hole2 (aval H q) _ _ _ _ _ _ _ _ _ _ _ _ SHp S0 S1 S2 S3).
    + destruct (route_Q s X1 _ (hole 3) (E1 _ (LT _ G3)) (RK _ G3) HS) as [T1 T2].
      split; [exact T1|]. exists true. eexists. split; [exact T2|]. rewrite EQ. exact (diamond_hole3 (aval H q) _ _ _ _ _ _ _ _ _ _ _ _ SHp S0 S1 S2 S3).
Qed.
(** *** Averages *)
Lemma average_const s coarse X H i h sh Y v :
  (forall q k, q < alen (tens coarse) -> k < 4 -> child (aval (c2f coarse) q) k = i -> let c := contribution o p (ty n) s coarse X H q k in shape c = sh /\ pair Y c = v) ->
  averaged o p (ty n) s coarse X H i h -> shape h = sh /\ pair Y h = v.
Proof.
  intros A (k & y & G & ->). assert (E : 1 <= k /\ shape y = sh /\ pair Y y = (RtoC (INR k) * v)%C).
  { induction G as [q k Hq Hk C0|k y q j G IH Hq Hk C0].
    - destruct (A q k Hq Hk C0) as [A1 A2]. split; [lia|]. split; [exact A1|]. rewrite A2. cbn [INR]. ring.
    - destruct IH as (I1 & I2 & I3). destruct (A q j Hq Hk C0) as [A1 A2]. split; [lia|]. split; [exact I2|]. cbn [ten_add tensor_ops]. rewrite pair_add, I3, A2, S_INR, RtoC_add. ring. }
  destruct E as (E1 & E2 & E3). destruct (Nat.eqb_spec k 1) as [->|NE]; [split; [exact E2|rewrite E3; cbn [INR]; ring]|].
  split; [exact E2|]. cbn [ten_div tensor_ops]. rewrite pair_div, E3. transitivity ((RtoC (1 / INR k) * RtoC (INR k)) * v)%C; [ring|]. rewrite <- RtoC_mul. replace (1 / INR k * INR k)%R with 1%R; [ring|]. field. apply not_0_INR. lia.
Qed.
(** *** The last layer *)
Lemma holes_top_ok w (top : scale o) X d : w = 2 \/ w = 3 -> alen (tens top) = w * w -> has_tens o top X -> even_fits d w (by_site svd w X) ->
  exists H, holes_top o top = Ok H /\ alen H = w * w /\ forall i, i < w * w -> shape (aval H i) = shape (X i) /\
    forall Y, shape Y = shape (X i) -> pair Y (aval H i) = even_sum d w (put_at (by_site svd w X) (i / w, i mod w) Y).
Proof.
  intros Hw L HT F. unfold holes_top. assert (Q : (alen (tens top) =? 9) || (alen (tens top) =? 4) = true) by (rewrite L; destruct Hw as [->| ->]; reflexivity). rewrite Q. clear Q.
  destruct (foreach_inv (fun done xs => xs = map X done) (fun xs i => y <- aget (tens top) i;; x <- need y;; Ok (xs ++ [x])) (seq 0 (alen (tens top))) []) as (xs & -> & ->).
  - reflexivity.
  - intros done i rest xs E ->. assert (Hi : i < alen (tens top)) by (apply in_range; rewrite E; apply in_or_app; right; left; reflexivity). rewrite aget_ok by exact Hi. cbn [bind]. rewrite HT by exact Hi. cbn [need bind]. eexists. split; [reflexivity|]. rewrite map_app. reflexivity.
  - cbn [bind]. rewrite L. destruct Hw as [->| ->].
    + eexists. split; [reflexivity|]. split; [reflexivity|]. intros i Hi. split.
      * assert (SX : shape (X i) = shape (four (by_site svd 2 X) 2 i)) by (do 4 (destruct i as [|i]; [reflexivity|]); lia). destruct (hole2_pair d (by_site svd 2 X) (X i) i F ltac:(lia) SX) as [_ S2]. rewrite SX. rewrite <- S2. do 4 (destruct i as [|i]; [reflexivity|]). lia.
      * intros Y SY. assert (SX : shape (X i) = shape (four (by_site svd 2 X) 2 i)) by (do 4 (destruct i as [|i]; [reflexivity|]); lia). rewrite SX in SY. destruct (hole2_pair d (by_site svd 2 X) Y i F ltac:(lia) SY) as [S1 _]. rewrite <- S1. do 4 (destruct i as [|i]; [reflexivity|]). lia.
    + eexists. split; [reflexivity|]. split; [reflexivity|]. intros i Hi. split.
      * assert (SX : shape (X i) = shape (four (by_site svd 3 X) 3 i)) by (do 9 (destruct i as [|i]; [reflexivity|]); lia). destruct (hole3_pair d (by_site svd 3 X) (X i) i F ltac:(lia) SX) as [_ S2]. rewrite SX. rewrite <- S2. do 9 (destruct i as [|i]; [reflexivity|]). lia.
      * intros Y SY. assert (SX : shape (X i) = shape (four (by_site svd 3 X) 3 i)) by (do 9 (destruct i as [|i]; [reflexivity|]); lia). rewrite SX in SY. destruct (hole3_pair d (by_site svd 3 X) Y i F ltac:(lia) SY) as [S1 _]. rewrite <- S1. do 9 (destruct i as [|i]; [reflexivity|]). lia.
Qed.
(** *** All layers *)
Lemma ok_inj (a b : C) : Ok a = Ok b -> a = b.
Proof. intros E. injection E. auto. Qed.
Fixpoint all_svd G (s : nat) (sc : list (scale o)) (X : nat -> Ten) : Prop :=
  match sc with
  | fine :: ((coarse :: _) as rest) => (forall i, i < alen (tens fine) -> svd_of G (ty n s i) (X i)) /\ all_svd G (S s) rest (up o p (ty n) s coarse X)
  | _ => True
  end.
Definition keeps_piece s X i (Y : tensor) : Prop := forall b ix, Forall2 lt ix (shape (piece b s X i)) -> entry (new_piece b s X i Y) ix = entry (piece b s X i) ix.
Definition kills_piece s X i (Y : tensor) : Prop := forall b ix, Forall2 lt ix (shape (piece b s X i)) -> entry (new_piece b s X i Y) ix = RtoC 0.
Lemma routed_keeps s X X1 H q i c : routed s X X1 H q i c -> keeps_piece s X i (X i) -> shape c = shape (X i) /\ pair (X i) c = pair (X1 q) (aval H q).
Proof.
  intros (S & b & h & A & B) K. split; [exact S|]. destruct (A _ eq_refl) as [A1 A2]. rewrite A1, <- B. apply pair_ext; [exact A2|]. rewrite A2. apply K.
Qed.
Lemma routed_kills s X X1 H q i c Y : routed s X X1 H q i c -> shape Y = shape (X i) -> kills_piece s X i Y -> shape c = shape (X i) /\ pair Y c = RtoC 0.
Proof.
  intros (S & b & h & A & B) SY K. split; [exact S|]. destruct (A _ SY) as [A1 A2]. rewrite A1. apply pair_zero. rewrite A2. apply K.
Qed.
Fixpoint all_kept (s : nat) (sc : list (scale o)) (X : nat -> Ten) : Prop :=
  match sc with
  | fine :: ((coarse :: _) as rest) => (forall i, i < alen (tens fine) -> keeps_piece s X i (X i)) /\ all_kept (S s) rest (up o p (ty n) s coarse X)
  | _ => True
  end.
Context (sub : arr bool).
Lemma down_step s (fine coarse : scale o) X w1 H : layer_ok o sub (ty n) s fine coarse -> has_splits o p (ty n) s fine X -> 0 < alen (tens fine) -> alen (tens coarse) = w1 ->
  (forall H q k, q < w1 -> k < 4 -> shape (aval H q) = shape (up o p (ty n) s coarse X q) -> routed s X (up o p (ty n) s coarse X) H q (child (aval (c2f coarse) q) k) (contribution o p (ty n) s coarse X H q k)) ->
  alen H = w1 -> (forall i, i < w1 -> shape (aval H i) = shape (up o p (ty n) s coarse X i)) ->
  exists H', holes_down o s fine coarse H = Ok H' /\ alen H' = alen (tens fine) /\ (forall i, i < alen (tens fine) -> shape (aval H' i) = shape (X i)) /\
    (forall v, (forall i, i < alen (tens fine) -> keeps_piece s X i (X i)) -> (forall q, q < w1 -> pair (up o p (ty n) s coarse X q) (aval H q) = v) -> forall i, i < alen (tens fine) -> pair (X i) (aval H' i) = v) /\
    (forall i Y, i < alen (tens fine) -> shape Y = shape (X i) -> kills_piece s X i Y -> pair Y (aval H' i) = RtoC 0).
Proof.
  intros L HS Pos LC RT LH SH. destruct (holes_down_ok o sub p (ty n) s fine coarse X H L HS (eq_trans LH (eq_sym LC)) Pos) as (H' & E & A & V). exists H'. split; [exact E|]. split; [exact A|].
  assert (RT' : forall i q k, q < alen (tens coarse) -> k < 4 -> child (aval (c2f coarse) q) k = i -> routed s X (up o p (ty n) s coarse X) H q i (contribution o p (ty n) s coarse X H q k)).
  { intros i q k Hq Hk <-. apply RT; [lia|exact Hk|apply SH; lia]. }
  split; [|split].
  - intros i Hi. pose (Y := Tn [] (fun _ => RtoC 0)). apply (average_const s coarse X H i (aval H' i) (shape (X i)) Y (RtoC 0)); [|exact (V i Hi)]. intros q k Hq Hk C0. destruct (RT' i q k Hq Hk C0) as [S _]. split; [exact S|]. apply pair_zero. reflexivity.
  - intros v K PV i Hi. apply (average_const s coarse X H i (aval H' i) (shape (X i)) (X i) v); [|exact (V i Hi)]. intros q k Hq Hk C0. destruct (routed_keeps _ _ _ _ _ _ _ (RT' i q k Hq Hk C0) (K i Hi)) as [S1 S2]. split; [exact S1|]. rewrite S2. apply PV. lia.
  - intros i Y Hi SY K. apply (average_const s coarse X H i (aval H' i) (shape (X i)) Y (RtoC 0)); [|exact (V i Hi)]. intros q k Hq Hk C0. exact (routed_kills _ _ _ _ _ _ _ Y (RT' i q k Hq Hk C0) SY K).
Qed.
Lemma put_at_same w X i : i < w * w -> forall rc, In rc (grid w w) -> put_at (by_site svd w X) (i / w, i mod w) (X i) rc = by_site svd w X rc.
Proof.
  intros Hi [r c] H. apply grid_in in H. unfold put_at, by_site. cbn [fst snd]. destruct (Nat.eqb_spec r (i / w)) as [->|]; [|reflexivity]. destruct (Nat.eqb_spec c (i mod w)) as [->|]; [|reflexivity]. cbn [andb].
  destruct (decode_lt svd p w w i Hi) as (_ & _ & <-). reflexivity.
Qed.
Lemma holes_layers w sc : built o w sc -> forall s X d, 2 <= w -> s mod 2 = 0 -> width n s = w -> topo o sub (ty n) s sc -> coherent o p (ty n) s sc X ->
  even_fits d w (by_site svd w X) -> all_svd (fun _ => svd_legs) s sc X ->
  exists H, holes_from o s sc = Ok H /\ alen H = w * w /\ (forall i, i < w * w -> shape (aval H i) = shape (X i)) /\
    (all_kept s sc X -> forall z, amplitude_of o (map (top_of o p (ty n) s sc X) (seq 0 (top_len o sc))) = Ok z -> forall i, i < w * w -> pair (X i) (aval H i) = z) /\
    (3 < w -> forall i Y, i < w * w -> shape Y = shape (X i) -> kills_piece s X i Y -> pair Y (aval H i) = RtoC 0).
Proof.
  induction 1 as [w top Hw L|m fine mid coarse rest M L0 L1 C1 C2 B IH]; intros s X d W2 P W T CO F A.
  - assert (w = 2 \/ w = 3) as W3 by lia. destruct (holes_top_ok w top X d W3 L CO F) as (H & E & AL & V). exists H. split; [exact E|]. split; [exact AL|]. split; [intros i Hi; apply (V i Hi)|]. split; [|lia].
    intros _ z Z i Hi. destruct (V i Hi) as [_ V2]. rewrite (V2 _ eq_refl). rewrite (even_sum_ext d d w _ _ (fun _ _ => eq_refl) (put_at_same w X i Hi)).
    unfold top_len in Z. cbn [rev app top_of] in Z. rewrite L in Z. destruct W3 as [->| ->].
    + rewrite <- (final2_sum d _ F). exact (ok_inj _ _ Z).
    + rewrite <- (final3_sum d _ F). exact (ok_inj _ _ Z).
  - destruct A as [A0 [A1 A]]. destruct T as [T0 [T1 T]]. destruct CO as (_ & S0 & _ & S1 & CO). destruct (width_next svd p n s m P W) as [W1 Wm].
    destruct (even_routes s m mid X d M P W C1 F) as (d1 & F1 & R0); [intros i Hi; apply A0; rewrite L0; exact Hi|].
    destruct (odd_routes (S s) m coarse (up o p (ty n) s mid X) d1 M ltac:(lia) W1 C2 F1) as (d2 & F2 & R1); [intros i Hi; apply A1; rewrite L1; exact Hi|].
    destruct (IH (S (S s)) _ d2 M ltac:(lia) Wm T CO F2 A) as (H2 & E2 & AL2 & SH2 & V2 & _).
    assert (LC : alen (tens coarse) = m * m) by (destruct (built_len o m _ B) as (a & l & Q & Q'); injection Q as -> ->; exact Q').
    destruct (down_step (S s) mid coarse _ (m * m) H2 T1 S1 ltac:(rewrite L1; nia) LC R1 AL2 SH2) as (H1 & E1 & AL1 & SH1 & V1 & _). rewrite L1 in AL1, SH1, V1.
    destruct (down_step s fine mid X (2 * m * m) H1 T0 S0 ltac:(rewrite L0; nia) L1 R0 AL1 SH1) as (H0 & E0 & AL0 & SH0 & V0 & Z0). rewrite L0 in AL0, SH0, V0, Z0.
    exists H0. split; [|split; [exact AL0|split; [exact SH0|split; [|intros _; exact Z0]]]].
    + change (holes_from o s (fine :: mid :: coarse :: rest)) with (H <- (H <- holes_from o (S (S s)) (coarse :: rest);; holes_down o (S s) mid coarse H);; holes_down o s fine mid H).
      rewrite E2. cbn [bind]. rewrite E1. cbn [bind]. exact E0.
    + intros [K0 [K1 K]] z Z. rewrite !top_len_cons in Z. apply V0; [intros i Hi; apply K0; rewrite L0; exact Hi|]. apply V1; [intros i Hi; apply K1; rewrite L1; exact Hi|]. exact (V2 K z Z).
Qed.
(** *** Singular triples *)
Lemma to_right_entry U sinv Mt a b k l x i j : shape U = [a; b; length sinv] -> shape Mt = [a; b; k; l] -> x < length sinv ->
  entry (to_right U sinv Mt) [x; i; j] = (RtoC (nth x sinv 0%R) * sumC (fun y => sumC (fun z => (Cconj (entry U [y; z; x]) * entry Mt [y; z; i; j])%C) (seq 0 b)) (seq 0 a))%C.
Proof.
  destruct U as [su eu], Mt as [sm em]. cbn [shape]. intros -> -> Hx. unfold to_right, contract, dag, diag. cbn -[sumC].
  rewrite <- (delta' (fun t => (RtoC (nth x sinv 0%R) * sumC (fun y => sumC (fun z => (Cconj (eu [y; z; t]) * em [y; z; i; j])%C) (seq 0 b)) (seq 0 a))%C) x (length sinv) Hx).
  apply sumC_ext. intros t _. destruct (Nat.eqb_spec t x); [subst; rewrite Cconj_R; ring|]. rewrite Cconj_R. ring.
Qed.
Lemma to_left_entry Vt sinv Mt a b k l x i j : shape Vt = [length sinv; k; l] -> shape Mt = [a; b; k; l] -> x < length sinv ->
  entry (to_left Vt sinv Mt) [i; j; x] = (sumC (fun y => sumC (fun z => (entry Mt [i; j; y; z] * Cconj (entry Vt [x; y; z]))%C) (seq 0 l)) (seq 0 k) * RtoC (nth x sinv 0%R))%C.
Proof.
  destruct Vt as [su eu], Mt as [sm em]. cbn [shape]. intros -> -> Hx. unfold to_left, contract, dag, diag. cbn -[sumC].
  rewrite <- (delta' (fun t => (sumC (fun y => sumC (fun z => (em [i; j; y; z] * Cconj (eu [t; y; z]))%C) (seq 0 l)) (seq 0 k) * RtoC (nth x sinv 0%R))%C) x (length sinv) Hx).
  apply sumC_ext. intros t _. destruct (Nat.eqb_spec x t) as [->|N].
  - rewrite Nat.eqb_refl, Cconj_R. ring.
  - destruct (Nat.eqb_spec t x); [lia|]. rewrite Cconj_R. ring.
Qed.
Lemma inverse_root q s x : Forall (fun y => (0 <= y)%R) s -> Forall (fun y => y = 0%R \/ (inv_eps q (map sqrt s) <= sqrt y)%R) s -> x < length s ->
  (nth x (inv_elements (inv_eps q (map sqrt s)) (map sqrt s)) 0 * nth x s 0 = nth x (map sqrt s) 0)%R.
Proof.
  intros NN F Hx. set (eps := inv_eps q (map sqrt s)) in *. assert (EP : (0 < eps)%R) by (unfold eps, inv_eps; eapply Rlt_le_trans; [|apply Rmax_r]; unfold float_min; apply Rinv_0_lt_compat, pow_lt; lra).
  rewrite Forall_forall in NN, F. assert (HI : In (nth x s 0%R) s) by (apply nth_In; exact Hx). specialize (NN _ HI). specialize (F _ HI).
  unfold inv_elements. rewrite map_map. pose (f := fun y => if Rlt_dec (Rabs (sqrt y)) eps then 0%R else (/ sqrt y)%R).
  rewrite (nth_indep (map f s) 0%R (f 0%R)) by (rewrite map_length; exact Hx). rewrite (nth_indep (map sqrt s) 0%R (sqrt 0%R)) by (rewrite map_length; exact Hx). rewrite !map_nth. unfold f. set (y := nth x s 0%R) in *.
  destruct (Rlt_dec (Rabs (sqrt y)) eps) as [LT|GE].
  - destruct F as [->|F]; [rewrite sqrt_0; ring|]. rewrite Rabs_right in LT by (apply Rle_ge, sqrt_pos). lra.
  - assert (sqrt y <> 0)%R by (intros Z; apply GE; rewrite Z, Rabs_R0; exact EP). rewrite <- (sqrt_sqrt y NN) at 2. field. assumption.
Qed.
Lemma singular_keeps s X i : length (shape (X i)) = 4 -> svd_of singular (ty n s i) (X i) -> keeps_piece s X i (X i).
Proof.
  intros L. unfold keeps_piece, new_piece, piece, svd_of. generalize (ty n s i). intros st. destruct (X i) as [sh e]. cbn [shape] in L. destruct sh as [|d0 [|d1 [|d2 [|d3 [|]]]]]; try discriminate L.
  unfold make_split. cbn [split_node tensor_ops]. unfold split_tensor. destruct st; cbn [matrix_of].
  - destruct (svd p _) as [[U sv] Vt]. intros ((A & B) & NN & LV & RV & EV). cbn [dimat shape transpose map nth] in A, B, LV, RV.
    assert (LI : length (inv_elements (inv_eps p (map sqrt sv)) (map sqrt sv)) = length sv) by (unfold inv_elements; rewrite !map_length; reflexivity).
    assert (A' := A). assert (B' := B). rewrite <- (map_length sqrt sv) in A', B'. destruct (left_scaled U (map sqrt sv) _ _ A') as [L1 L2]. destruct (right_scaled Vt (map sqrt sv) _ _ B') as [R1 R2]. rewrite map_length in L1, L2, R1, R2.
    intros b ix. cbn [sd_P sd_Q sd_iso new_P new_Q matrix_of]. destruct b; [rewrite R1|rewrite L1]; intros I3; apply in3 in I3; destruct I3 as (x & y & z & -> & Hx & Hy & Hz).
    + rewrite (to_right_entry U _ _ d0 d3 d1 d2) by (try rewrite LI; try exact A; try reflexivity; exact Hx). rewrite R2 by exact Hx. rewrite LV by assumption. rewrite <- (inverse_root p sv x NN EV Hx), RtoC_mul. ring.
    + rewrite (to_left_entry Vt _ _ d0 d3 d1 d2) by (try rewrite LI; try exact B; try reflexivity; exact Hz). rewrite L2 by exact Hz. rewrite RV by assumption. rewrite <- (inverse_root p sv z NN EV Hz), RtoC_mul. ring.
  - destruct (svd p _) as [[U sv] Vt]. intros ((A & B) & NN & LV & RV & EV). cbn [dimat shape map nth] in A, B, LV, RV.
    assert (LI : length (inv_elements (inv_eps p (map sqrt sv)) (map sqrt sv)) = length sv) by (unfold inv_elements; rewrite !map_length; reflexivity).
    assert (A' := A). assert (B' := B). rewrite <- (map_length sqrt sv) in A', B'. destruct (left_scaled U (map sqrt sv) _ _ A') as [L1 L2]. destruct (right_scaled Vt (map sqrt sv) _ _ B') as [R1 R2]. rewrite map_length in L1, L2, R1, R2.
    intros b ix. cbn [sd_P sd_Q sd_iso new_P new_Q matrix_of]. destruct b; [rewrite L1|rewrite R1]; intros I3; apply in3 in I3; destruct I3 as (x & y & z & -> & Hx & Hy & Hz).
    + rewrite (to_left_entry Vt _ _ d0 d1 d2 d3) by (try rewrite LI; try exact B; try reflexivity; exact Hz). rewrite L2 by exact Hz. rewrite RV by assumption. rewrite <- (inverse_root p sv z NN EV Hz), RtoC_mul. ring.
    + rewrite (to_right_entry U _ _ d0 d1 d2 d3) by (try rewrite LI; try exact A; try reflexivity; exact Hx). rewrite R2 by exact Hx. rewrite LV by assumption. rewrite <- (inverse_root p sv x NN EV Hx), RtoC_mul. ring.
Qed.
(** Y is orthogonal to the kept vectors of the split of T *)
Definition orthogonal st T (Y : tensor) : Prop := let '(u, s, vt) := svd p (matrix_of st T) in left_orthogonal u (matrix_of st Y) /\ right_orthogonal vt (matrix_of st Y).
Lemma orthogonal_kills s X i Y : length (shape (X i)) = 4 -> legs_ok (ty n s i) (X i) -> shape Y = shape (X i) -> orthogonal (ty n s i) (X i) Y -> kills_piece s X i Y.
Proof.
  intros L. unfold kills_piece, new_piece, piece, legs_ok, svd_of, orthogonal. generalize (ty n s i). intros st. destruct (X i) as [sh e], Y as [sy ey]. cbn [shape] in L. destruct sh as [|d0 [|d1 [|d2 [|d3 [|]]]]]; try discriminate L.
  unfold make_split. cbn [split_node tensor_ops]. unfold split_tensor. cbn [shape]. destruct st; cbn [matrix_of].
  - destruct (svd p _) as [[U sv] Vt]. intros (A & B) -> (LV & RV). cbn [dimat shape transpose map nth] in A, B. unfold left_orthogonal, right_orthogonal in LV, RV. unfold dimat at 1 in LV. unfold dimat at 3 in RV. rewrite A in LV. rewrite B in RV. cbn [dimat shape transpose map nth] in LV, RV.
    assert (LI : length (inv_elements (inv_eps p (map sqrt sv)) (map sqrt sv)) = length sv) by (unfold inv_elements; rewrite !map_length; reflexivity).
    assert (A' := A). assert (B' := B). rewrite <- (map_length sqrt sv) in A', B'. destruct (left_scaled U (map sqrt sv) _ _ A') as [L1 L2]. destruct (right_scaled Vt (map sqrt sv) _ _ B') as [R1 R2]. rewrite map_length in L1, L2, R1, R2.
    intros b ix. cbn [sd_P sd_Q sd_iso new_P new_Q matrix_of]. destruct b; [rewrite R1|rewrite L1]; intros I3; apply in3 in I3; destruct I3 as (x & y & z & -> & Hx & Hy & Hz).
    + rewrite (to_right_entry U _ _ d0 d3 d1 d2) by (try rewrite LI; try exact A; try reflexivity; exact Hx). rewrite LV by assumption. ring.
    + rewrite (to_left_entry Vt _ _ d0 d3 d1 d2) by (try rewrite LI; try exact B; try reflexivity; exact Hz). rewrite RV by assumption. ring.
  - destruct (svd p _) as [[U sv] Vt]. intros (A & B) -> (LV & RV). cbn [dimat shape map nth] in A, B. unfold left_orthogonal, right_orthogonal in LV, RV. unfold dimat at 1 in LV. unfold dimat at 3 in RV. rewrite A in LV. rewrite B in RV. cbn [dimat shape map nth] in LV, RV.
    assert (LI : length (inv_elements (inv_eps p (map sqrt sv)) (map sqrt sv)) = length sv) by (unfold inv_elements; rewrite !map_length; reflexivity).
    assert (A' := A). assert (B' := B). rewrite <- (map_length sqrt sv) in A', B'. destruct (left_scaled U (map sqrt sv) _ _ A') as [L1 L2]. destruct (right_scaled Vt (map sqrt sv) _ _ B') as [R1 R2]. rewrite map_length in L1, L2, R1, R2.
    intros b ix. cbn [sd_P sd_Q sd_iso new_P new_Q matrix_of]. destruct b; [rewrite L1|rewrite R1]; intros I3; apply in3 in I3; destruct I3 as (x & y & z & -> & Hx & Hy & Hz).
    + rewrite (to_left_entry Vt _ _ d0 d1 d2 d3) by (try rewrite LI; try exact B; try reflexivity; exact Hz). rewrite RV by assumption. ring.
    + rewrite (to_right_entry U _ _ d0 d1 d2 d3) by (try rewrite LI; try exact A; try reflexivity; exact Hx). rewrite LV by assumption. ring.
Qed.
End Holes.
