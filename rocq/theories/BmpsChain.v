(** The boundary MPS as a function of its outer indices, and what MultiplyMPO does to it. *)
From Coq Require Import List Arith Lia Bool Reals.
From Verif Require Import Base Cplx SumModel SumSpec SumProofs NetSum NetEx ContractorModel TrgTensor TrgHoleAlg BmpsModel BmpsSpec BmpsAlg.
Import ListNotations.
Local Open Scope nat_scope.

(** *** Sums over lists *)
Lemma nsum_ext ds f g : (forall us, length us = length ds -> Forall2 lt us ds -> f us = g us) -> nsum ds f = nsum ds g.
Proof.
  revert f g. induction ds as [|d ds IH]; intros f g H; cbn [nsum]; [apply H; constructor|]. apply sumC_ext. intros i Hi. apply in_seq in Hi. apply IH. intros us L F. apply H; [cbn; congruence|constructor; [lia|exact F]].
Qed.
Lemma nsum_sm ds n f : nsum ds (fun us => sm n (fun i => f i us)) = sm n (fun i => nsum ds (f i)).
Proof.
  revert f. induction ds as [|d ds IH]; intros f; cbn [nsum]; [reflexivity|].
  transitivity (sumC (fun i => sm n (fun j => nsum ds (fun vs => f j (i :: vs)))) (seq 0 d)); [apply sumC_ext; intros i _; apply (IH (fun j vs => f j (i :: vs)))|]. apply sumC_swap.
Qed.
Lemma nsum_scal ds c f : nsum ds (fun us => (c * f us)%C) = (c * nsum ds f)%C.
Proof.
  revert f. induction ds as [|d ds IH]; intros f; cbn [nsum]; [reflexivity|]. rewrite <- sumC_scal. apply sumC_ext. intros i _. apply IH.
Qed.
Lemma nsum_scal_r ds c f : nsum ds (fun us => (f us * c)%C) = (nsum ds f * c)%C.
Proof. transitivity (c * nsum ds f)%C; [rewrite <- nsum_scal; apply nsum_ext; intros; ring|ring]. Qed.
Lemma nsum_swap ds es f : nsum ds (fun us => nsum es (fun vs => f us vs)) = nsum es (fun vs => nsum ds (fun us => f us vs)).
Proof.
  revert f. induction ds as [|d ds IH]; intros f; cbn [nsum]; [reflexivity|].
  transitivity (sm d (fun i => nsum es (fun vs => nsum ds (fun us => f (i :: us) vs)))); [apply sm_ext; intros i _; apply (IH (fun us vs => f (i :: us) vs))|]. symmetry. apply (nsum_sm es d (fun i vs => nsum ds (fun us => f (i :: us) vs))).
Qed.

Definition hd0 (l : list nat) : nat := match l with [] => 0 | x :: _ => x end.
Definition delta0 (x : nat) : C := if x =? 0 then RtoC 1 else RtoC 0.
(** the product of the tensors at the outer indices [us], from the bond x on; [k] closes the last bond *)
Fixpoint mvalk (k : nat -> C) (ms : list tensor) (us : list nat) (x : nat) : C :=
  match ms with
  | [] => k x
  | A :: ms' => sm (dimat A 2) (fun y => (entry A [x; hd0 us; y] * mvalk k ms' (tl us) y)%C)
  end.
Definition mval := mvalk delta0.
Lemma mvalk_app k l l' : forall us x, mvalk k (l ++ l') us x = mvalk (mvalk k l' (skipn (length l) us)) l us x.
Proof.
  induction l as [|A l IH]; intros us x; [reflexivity|]. cbn [app mvalk length]. apply sm_ext. intros y _. f_equal. rewrite IH.
  destruct us as [|u us]; cbn [tl skipn]; [rewrite skipn_nil|]; reflexivity.
Qed.
Lemma mvalk_ext k k' ms : forall us x, (forall y, k y = k' y) -> mvalk k ms us x = mvalk k' ms us x.
Proof. induction ms as [|A ms IH]; intros us x H; cbn [mvalk]; [apply H|]. apply sm_ext. intros y _. f_equal. apply IH, H. Qed.

Section Chain.
Context (D : nat) (D1 : 1 <= D).
(** a chain of tensors from a bond of dimension x to one of dimension z, outer dimension P, bonds at most c *)
Fixpoint linked (P c : nat) (ms : list tensor) (x z : nat) : Prop :=
  match ms with
  | [] => x = z
  | A :: ms' => exists y, shape A = [x; P; y] /\ y <= c /\ padded D A /\ linked P c ms' y z
  end.
Lemma linked_app P c l l' : forall x z, linked P c (l ++ l') x z <-> exists y, linked P c l x y /\ linked P c l' y z.
Proof.
  induction l as [|A l IH]; intros x z; cbn [app linked].
  - split; [intros H; exists x; split; [reflexivity|exact H]|intros (y & -> & H); exact H].
  - split.
    + intros (y & S & B & Q & L). apply IH in L. destruct L as (w & L1 & L2). exists w. split; [exists y; auto|exact L2].
    + intros (w & (y & S & B & Q & L1) & L2). exists y. split; [exact S|]. split; [exact B|]. split; [exact Q|]. apply IH. exists w. split; assumption.
Qed.
(** a row of site tensors: [us] towards the boundary, [vs] away from it, from the bond h on *)
Definition weightf := nat -> nat -> nat -> nat -> C.
Fixpoint rowv (fs : list weightf) (us vs : list nat) (h : nat) : C :=
  match fs with
  | [] => delta0 h
  | f :: fs' => sm D (fun h' => (f h (hd0 us) h' (hd0 vs) * rowv fs' (tl us) (tl vs) h')%C)
  end.
(** a boundary MPS and a row below it *)
Fixpoint joint (ms : list tensor) (fs : list weightf) (vs : list nat) (h y : nat) : C :=
  match ms, fs with
  | [], _ => (delta0 h * delta0 y)%C
  | A :: ms', f :: fs' => sm D (fun u => sm D (fun h' => sm (dimat A 2) (fun y' => ((entry A [y; u; y'] * f h u h' (hd0 vs)) * joint ms' fs' (tl vs) h' y')%C)))
  | _ :: _, [] => RtoC 0
  end.

Lemma joint_split ms : forall fs vs h y, length ms = length fs ->
  joint ms fs vs h y = nsum (repeat D (length ms)) (fun us => (mval ms us y * rowv fs us vs h)%C).
Proof.
  induction ms as [|A ms IH]; intros [|f fs] vs h y L; try discriminate L.
  - cbn [joint nsum repeat length rowv]. unfold mval. cbn [mvalk]. ring.
  - cbn [length repeat nsum joint]. apply sm_ext. intros u _. injection L as L.
    transitivity (sm D (fun h' => sm (dimat A 2) (fun y' => nsum (repeat D (length ms)) (fun us => ((entry A [y; u; y'] * f h u h' (hd0 vs)) * (mval ms us y' * rowv fs us (tl vs) h'))%C)))).
    + apply sm_ext. intros h' _. apply sm_ext. intros y' _. rewrite IH by exact L. rewrite nsum_scal. reflexivity.
    + transitivity (sm D (fun h' => nsum (repeat D (length ms)) (fun us => sm (dimat A 2) (fun y' => ((entry A [y; u; y'] * f h u h' (hd0 vs)) * (mval ms us y' * rowv fs us (tl vs) h'))%C)))).
      * apply sm_ext. intros h' _. symmetry. apply nsum_sm.
      * rewrite <- (nsum_sm (repeat D (length ms)) D (fun h' us => sm (dimat A 2) (fun y' => ((entry A [y; u; y'] * f h u h' (hd0 vs)) * (mval ms us y' * rowv fs us (tl vs) h'))%C))).
        apply nsum_ext. intros us _ _. unfold mval. cbn [mvalk rowv hd0 tl]. fold mval.
        transitivity (sm D (fun h' => (sm (dimat A 2) (fun y' => (entry A [y; u; y'] * mval ms us y')%C) * (f h u h' (hd0 vs) * rowv fs us (tl vs) h'))%C)).
        -- apply sm_ext. intros h' _. rewrite <- sm_scal_r. apply sm_ext. intros y' _. ring.
        -- apply sm_scal.
Qed.

(** *** MultiplyMPO *)
Section Multiply.
Context (qr : tensor -> tensor * tensor) (svd : tensor -> tensor * list R * tensor) (m : nat).
Context (QR : exact_qr qr) (SV : svd_keeps m svd).
Definition mid (p : pos) (A r : tensor) (t : list nat -> C) : tensor := transpose [1; 3; 2; 0] (cyc (cyc A 0 r 2 1) 3 (site_tensor D t) (leg_no (pre_of p)) 2).
Lemma mid_shape p A r t k H y0 y1 P : shape A = [y0; P; y1] -> shape r = [k; H; y0] -> shape (mid p A r t) = [k; D; D; y1].
Proof. destruct A as [sa ea], r as [sr er]. cbn [shape]. intros -> ->. destruct p; reflexivity. Qed.
Lemma mid_entry p A r t k H y0 y1 P x v h' y' : shape A = [y0; P; y1] -> shape r = [k; H; y0] -> padded D A ->
  entry (mid p A r t) [x; v; h'; y'] = sm H (fun h => sm D (fun u => (sm y0 (fun y => (entry A [y; u; y'] * entry r [x; h; y])%C) * local p t h u h' v)%C)).
Proof.
  destruct A as [sa ea], r as [sr er]. cbn [shape]. intros -> -> [P1 P2]. cbn [dimat shape nth entry] in *.
  transitivity (sm H (fun h => sm P (fun u => (sm y0 (fun y => (ea [y; u; y'] * er [x; h; y])%C) * local p t h u h' v)%C))); [destruct p; reflexivity|].
  apply sm_ext. intros h _. apply sm_extend; [exact P1|]. intros u Hu. rewrite (sm_zero y0); [ring|]. intros y _. rewrite P2 by exact Hu. ring.
Qed.
Lemma last_shape p A r t k H y0 P : shape A = [y0; P; 1] -> shape r = [k; H; y0] ->
  shape (contract (cyc (cyc A 0 r 2 1) 3 (site_tensor D t) (leg_no (pre_of p)) 2) [0; 2] (index_combine (dimat A 2) 1) [0; 1]) = [k; D; 1].
Proof. destruct A as [sa ea], r as [sr er]. cbn [shape]. intros -> ->. destruct p; reflexivity. Qed.
Lemma last_entry p A r t k H y0 P x v : shape A = [y0; P; 1] -> shape r = [k; H; y0] ->
  entry (contract (cyc (cyc A 0 r 2 1) 3 (site_tensor D t) (leg_no (pre_of p)) 2) [0; 2] (index_combine (dimat A 2) 1) [0; 1]) [x; v; 0] = entry (mid p A r t) [x; v; 0; 0].
Proof.
  destruct A as [sa ea], r as [sr er]. cbn [shape]. intros -> ->.
  transitivity (sm 1 (fun y' => sm D (fun h' => (entry (mid p (Tn [y0; P; 1%nat] ea) (Tn [k; H; y0] er) t) [x; v; h'; y'] * entry (index_combine 1%nat 1%nat) [y'; h'; 0%nat])%C))); [destruct p; reflexivity|].
  rewrite sm_1. rewrite sm_first; [cbn; ring|exact D1|]. intros i Hi. cbn [index_combine entry nth]. destruct (i <? 1) eqn:E; [apply Nat.ltb_lt in E; lia|]. cbn. ring.
Qed.
Lemma weight_step p A r t x v H y0 y1 (G : nat -> nat -> C) :
  sm D (fun h' => sm y1 (fun y' => (sm H (fun h => sm D (fun u => (sm y0 (fun y => (entry A [y; u; y'] * entry r [x; h; y])%C) * local p t h u h' v)%C)) * G h' y')%C)) =
  sm H (fun h => sm y0 (fun y => (entry r [x; h; y] * sm D (fun u => sm D (fun h' => sm y1 (fun y' => ((entry A [y; u; y'] * local p t h u h' v) * G h' y')%C))))%C)).
Proof.
  ein [entry A; (fun l => entry r (x :: l)); (fun l => local p t (nth 0 l 0) (nth 1 l 0) (nth 2 l 0) v); (fun l => G (nth 0 l 0) (nth 1 l 0))] [D; y1; H; D; y0]
    (Sum 0 (Sum 1 (Mul (Sum 2 (Sum 3 (Mul (Sum 4 (Mul (At 0 [4; 3; 1]) (At 1 [2; 4]))) (At 2 [2; 3; 0])))) (At 3 [0; 1]))))
    (Sum 2 (Sum 4 (Mul (At 1 [2; 4]) (Sum 3 (Sum 0 (Sum 1 (Mul (Mul (At 0 [4; 3; 1]) (At 2 [2; 3; 0])) (At 3 [0; 1])))))))).
Qed.
Lemma sweep_spec p P c : 1 <= c -> forall ms ts r k H x0, length ms = length ts -> ms <> [] -> shape r = [k; H; x0] -> linked P c ms x0 1 ->
  let res := mpo_sweep D qr p r ms ts in
  length res = length ms /\ linked D (D * c) res k 1 /\
  forall vs x, x < k -> length vs = length ms -> Forall (fun v => v < D) vs ->
    mval res vs x = sm H (fun h => sm x0 (fun y => (entry r [x; h; y] * joint ms (map (local p) ts) vs h y)%C)).
Proof.
  intros C1. induction ms as [|A ms IH]; intros [|t ts] r k H x0 L N Sr Lk; try discriminate L; [contradiction|]. injection L as L.
  cbn [linked] in Lk. destruct Lk as (y1 & SA & B & PA & Lk). destruct ms as [|A' ms].
  - cbn [linked] in Lk. subst y1. destruct ts; [|discriminate L]. cbn [mpo_sweep]. cbn zeta. split; [reflexivity|]. split.
    + cbn [linked]. exists 1. split; [eapply last_shape; eassumption|]. split; [nia|]. split; [|reflexivity]. eapply padded_full. eapply last_shape; eassumption.
    + intros [|v [|]] x Hx Lv Fv; try discriminate Lv. unfold mval. cbn [mvalk hd0].
      replace (dimat _ 2) with 1 by (symmetry; unfold dimat; erewrite last_shape by eassumption; reflexivity). rewrite sm_1.
      rewrite (last_entry p A r t k H x0 P x v SA Sr). rewrite (mid_entry p A r t k H x0 1 P x v 0 0 SA Sr PA).
      transitivity (sm D (fun h' => sm 1 (fun y' => (sm H (fun h => sm D (fun u => (sm x0 (fun y => (entry A [y; u; y'] * entry r [x; h; y])%C) * local p t h u h' v)%C)) * (delta0 h' * delta0 y'))%C))).
      * rewrite (sm_first D); [rewrite sm_1; cbn; ring|exact D1|]. intros i Hi. rewrite sm_1. unfold delta0. destruct (i =? 0) eqn:E; [apply Nat.eqb_eq in E; lia|]. ring.
      * rewrite (weight_step p A r t x v H x0 1 (fun h' y' => (delta0 h' * delta0 y')%C)). apply sm_ext. intros h _. apply sm_ext. intros y _. f_equal. cbn [map joint hd0].
        replace (dimat A 2) with 1 by (unfold dimat; rewrite SA; reflexivity). reflexivity.
  - remember (A' :: ms) as ms' eqn:Em. assert (Ne : ms' <> []) by (subst; discriminate).
    replace (mpo_sweep D qr p r (A :: ms') (t :: ts)) with (let '(q, r') := qr (mid p A r t) in q :: mpo_sweep D qr p r' ms' ts) by (subst; reflexivity).
    pose proof (mid_shape p A r t k H x0 y1 P SA Sr) as Sm.
    specialize (QR (mid p A r t)). rewrite Sm in QR. specialize (QR eq_refl). unfold dimat in QR. rewrite Sm in QR. cbn [nth] in QR.
    destruct (qr (mid p A r t)) as [q r']. destruct QR as (k' & Sq & Sr' & Bk & E). destruct (IH ts r' k' D y1 L Ne Sr' Lk) as (IL & IK & IV). cbn zeta.
    split; [cbn [length]; rewrite IL; reflexivity|]. split.
    + cbn [linked]. exists k'. split; [exact Sq|]. split; [nia|]. split; [eapply padded_full; exact Sq|exact IK].
    + intros [|v vs] x Hx Lv Fv; [discriminate Lv|]. injection Lv as Lv. pose proof (Forall_inv Fv) as Hv. pose proof (Forall_inv_tail Fv) as Fv'. cbv beta in Hv. unfold mval. cbn [mvalk hd0 tl]. fold mval.
      replace (dimat q 2) with k' by (unfold dimat; rewrite Sq; reflexivity).
      transitivity (sm k' (fun z => sm D (fun h' => sm y1 (fun y' => ((entry q [x; v; z] * entry r' [z; h'; y']) * joint ms' (map (local p) ts) vs h' y')%C)))).
      * apply sm_ext. intros z Hz. rewrite (IV vs z Hz Lv Fv'). rewrite <- sm_scal. apply sm_ext. intros h' _. rewrite <- sm_scal. apply sm_ext. intros y' _. ring.
      * transitivity (sm D (fun h' => sm y1 (fun y' => (entry (mid p A r t) [x; v; h'; y'] * joint ms' (map (local p) ts) vs h' y')%C))).
        -- rewrite sm_swap. apply sm_ext. intros h' Hh. rewrite sm_swap. apply sm_ext. intros y' Hy. rewrite sm_scal_r. f_equal. symmetry. apply E; lia.
        -- transitivity (sm D (fun h' => sm y1 (fun y' => (sm H (fun h => sm D (fun u => (sm x0 (fun y => (entry A [y; u; y'] * entry r [x; h; y])%C) * local p t h u h' v)%C)) * joint ms' (map (local p) ts) vs h' y')%C))).
           ++ apply sm_ext. intros h' _. apply sm_ext. intros y' _. f_equal. apply (mid_entry p A r t k H x0 y1 P x v h' y' SA Sr PA).
           ++ rewrite (weight_step p A r t x v H x0 y1 (fun h' y' => joint ms' (map (local p) ts) vs h' y')). apply sm_ext. intros h _. apply sm_ext. intros y _. f_equal. cbn [map joint hd0 tl].
              replace (dimat A 2) with y1 by (unfold dimat; rewrite SA; reflexivity). reflexivity.
Qed.
(** moving a factor across a bond *)
Lemma pass_shape B u s (b0 b1 : nat) : shape B = [b0; D; b1] -> shape u = [b1; length s] -> shape (contract B [2] (contract u [1] (diag s) [0]) [0]) = [b0; D; length s].
Proof. destruct B as [sb eb], u as [su eu]. cbn [shape]. intros -> ->. reflexivity. Qed.
Lemma pass_entry B u s (b0 b1 : nat) x v z : shape B = [b0; D; b1] -> shape u = [b1; length s] -> z < length s ->
  entry (contract B [2] (contract u [1] (diag s) [0]) [0]) [x; v; z] = sm b1 (fun y => (entry B [x; v; y] * (entry u [y; z] * RtoC (nth z s 0%R)))%C).
Proof.
  destruct B as [sb eb], u as [su eu]. cbn [shape]. intros -> -> Hz.
  transitivity (sm b1 (fun y => (eb [x; v; y] * sm (length s) (fun w => (eu [y; w] * (if w =? z then RtoC (nth w s 0%R) else RtoC 0))%C))%C)); [reflexivity|].
  apply sm_ext. intros y _. f_equal. cbn [entry].
  transitivity (sm (length s) (fun w => if w =? z then (eu [y; z] * RtoC (nth z s 0%R))%C else RtoC 0)).
  - apply sm_ext. intros w _. destruct (w =? z) eqn:E; [apply Nat.eqb_eq in E; subst; reflexivity|ring].
  - clear -Hz. revert Hz. generalize (length s). intros n Hz. generalize (eu [y; z] * RtoC (nth z s 0%R))%C. intros c. induction n as [|n IH]; [lia|]. rewrite sm_S. destruct (Nat.eq_dec z n) as [->|Ne].
    + rewrite Nat.eqb_refl. rewrite sm_zero; [ring|]. intros i Hi. destruct (i =? n) eqn:E; [apply Nat.eqb_eq in E; lia|reflexivity].
    + rewrite IH by lia. destruct (n =? z) eqn:E; [apply Nat.eqb_eq in E; lia|ring].
Qed.
Lemma right_spec b : b <= m -> forall rest cur done x z, linked D b (rev rest ++ cur :: done) x z ->
  let res := right_sweep svd cur rest done in
  length res = length rest + S (length done) /\ linked D b res x z /\
  forall us, length us = length res -> Forall (fun v => v < D) us -> forall w, mval res us w = mval (rev rest ++ cur :: done) us w.
Proof.
  intros Bm. induction rest as [|B rest IH]; intros cur done x z Lk.
  - cbn [right_sweep rev app]. cbn zeta. split; [reflexivity|]. split; [exact Lk|]. reflexivity.
  - cbn [right_sweep]. cbn [rev] in Lk. rewrite <- app_assoc in Lk. cbn [app] in Lk. pose proof Lk as Lk0.
    apply linked_app in Lk. destruct Lk as (b0 & LR & b1 & SB & Bb1 & PB & b2 & SC & Bb2 & PC & LD).
    specialize (SV cur). unfold dimat in SV. rewrite SC in SV. cbn [nth length] in SV. specialize (SV eq_refl ltac:(lia)).
    destruct (svd cur) as [[u s] vt]. destruct SV as (Su & Sv & Bs & E).
    set (B' := contract B [2] (contract u [1] (diag s) [0]) [0]).
    assert (SB' : shape B' = [b0; D; length s]) by (apply (pass_shape B u s b0 b1 SB Su)).
    destruct (IH B' (vt :: done) x z) as (I1 & I2 & I3).
    { apply linked_app. exists b0. split; [exact LR|]. exists (length s). split; [exact SB'|]. split; [lia|]. split; [eapply padded_full; exact SB'|].
      exists b2. split; [exact Sv|]. split; [exact Bb2|]. split; [eapply padded_full; exact Sv|exact LD]. }
    cbn zeta. split; [rewrite I1; cbn [length]; lia|]. split; [exact I2|]. intros us Lu Fu w. rewrite (I3 us Lu Fu w). cbn [rev]. rewrite <- app_assoc. cbn [app].
    unfold mval. rewrite !mvalk_app. apply mvalk_ext. intros y. set (us' := skipn (length (rev rest)) us).
    assert (Hv : hd0 (tl us') < D).
    { assert (Lu' : length us' = S (S (length done))) by (unfold us'; rewrite skipn_length, Lu, I1, rev_length; cbn [length]; lia).
      assert (Fu' : Forall (fun v => v < D) us') by (unfold us'; clear -Fu; revert us Fu; induction (length (rev rest)) as [|n IHn]; intros us Fu; [exact Fu|]; destruct us as [|v us]; [constructor|]; cbn [skipn]; apply IHn; exact (Forall_inv_tail Fu)).
      destruct us' as [|a [|a' us']]; try discriminate Lu'. cbn. exact (Forall_inv (Forall_inv_tail Fu')). }
    cbn [mvalk]. replace (dimat B' 2) with (length s) by (unfold dimat; rewrite SB'; reflexivity).
    replace (dimat B 2) with b1 by (unfold dimat; rewrite SB; reflexivity). replace (dimat vt 2) with b2 by (unfold dimat; rewrite Sv; reflexivity). replace (dimat cur 2) with b2 by (unfold dimat; rewrite SC; reflexivity).
    set (G := mvalk delta0 done (tl (tl us'))). set (v := hd0 (tl us')) in *. set (u0 := hd0 us').
    transitivity (sm (length s) (fun z0 => (sm b1 (fun a => (entry B [y; u0; a] * (entry u [a; z0] * RtoC (nth z0 s 0%R)))%C) * sm b2 (fun c => (entry vt [z0; v; c] * G c)%C))%C)).
    { apply sm_ext. intros z0 Hz0. f_equal. apply (pass_entry B u s b0 b1 y u0 z0 SB Su Hz0). }
    transitivity (sm b1 (fun a => (entry B [y; u0; a] * sm b2 (fun c => (sm (length s) (fun z0 => (entry u [a; z0] * RtoC (nth z0 s 0%R) * entry vt [z0; v; c])%C) * G c)%C))%C)).
    { ein [(fun l => entry B (y :: u0 :: l)); entry u; (fun l => RtoC (nth (nth 0 l 0) s 0%R)); (fun l => entry vt [nth 0 l 0; v; nth 1 l 0]); (fun l => G (nth 0 l 0))] [length s; b1; b2]
        (Sum 0 (Mul (Sum 1 (Mul (At 0 [1]) (Mul (At 1 [1; 0]) (At 2 [0])))) (Sum 2 (Mul (At 3 [0; 2]) (At 4 [2])))))
        (Sum 1 (Mul (At 0 [1]) (Sum 2 (Mul (Sum 0 (Mul (Mul (At 1 [1; 0]) (At 2 [0])) (At 3 [0; 2]))) (At 4 [2]))))). }
    apply sm_ext. intros a Ha. f_equal. apply sm_ext. intros c Hc. f_equal. symmetry. apply E; assumption.
Qed.
(** MultiplyMPO: the outer indices of the new boundary MPS are the inner legs of the row *)
Lemma multiply_spec p P c ms ts : 1 <= c -> D * c <= m -> length ms = length ts -> linked P c ms 1 1 ->
  let res := multiply_svd D qr svd p ms ts in
  length res = length ms /\ linked D (D * c) res 1 1 /\
  forall vs, length vs = length ms -> Forall (fun v => v < D) vs ->
    mval res vs 0 = nsum (repeat D (length ms)) (fun us => (mval ms us 0 * rowv (map (local p) ts) us vs 0)%C).
Proof.
  intros C1 Bm L Lk. destruct ms as [|A ms].
  - destruct ts; [|discriminate L]. cbn. split; [reflexivity|]. split; [reflexivity|]. intros. unfold mval. cbn. ring.
  - assert (Ne : A :: ms <> []) by discriminate. assert (S0 : exists y P', shape A = [1; P'; y]) by (cbn [linked] in Lk; destruct Lk as (y & SA & _); exists y, P; exact SA). destruct S0 as (y0 & P' & SA).
    set (r := transpose [2; 0; 1] (index_combine 1 (dimat A 0))).
    assert (Sr : shape r = [1; 1; 1]) by (unfold r, dimat; rewrite SA; reflexivity).
    assert (Er : entry r [0; 0; 0] = RtoC 1) by (unfold r, dimat; rewrite SA; reflexivity).
    destruct (sweep_spec p P c C1 (A :: ms) ts r 1 1 1 L Ne Sr Lk) as (W1 & W2 & W3).
    unfold multiply_svd. fold r. remember (mpo_sweep D qr p r (A :: ms) ts) as w eqn:Ew. cbn zeta in *. destruct (rev w) as [|cur rest] eqn:Er'.
    { apply (f_equal (@length _)) in Er'. rewrite rev_length, W1 in Er'. discriminate. }
    assert (Ew' : w = rev rest ++ [cur]) by (rewrite <- (rev_involutive w), Er'; reflexivity).
    destruct (right_spec (D * c) Bm rest cur [] 1 1) as (R1 & R2 & R3); [rewrite <- Ew'; exact W2|]. cbn zeta in *.
    assert (RL : length (right_sweep svd cur rest []) = length (A :: ms)) by (rewrite R1, <- W1, Ew', app_length, rev_length; reflexivity).
    split; [exact RL|]. split; [exact R2|]. intros vs Lv Fv. rewrite R3 by (try exact Fv; congruence). rewrite <- Ew'. rewrite (W3 vs 0 ltac:(lia) Lv Fv). rewrite !sm_1, Er, joint_split by (rewrite map_length; exact L). ring.
Qed.
End Multiply.
End Chain.
