(** The laws of split-index TPS arithmetic. *)
From Coq Require Import List Arith Bool Reals Lia Lra.
From Verif Require Import Base Cplx Rsum OptModel OptProofs MsgModel TpsModel TpsSpec TpsProofs.
Import ListNotations.
Local Open Scope nat_scope.
Arguments sumC : simpl never. Arguments rsum : simpl never. Arguments Cmul : simpl never. Arguments Cadd : simpl never.
Arguments Copp : simpl never. Arguments Cconj : simpl never.

Lemma shaped_pos L v : shaped L v -> 0 < l_rows L /\ 0 < l_cols L.
Proof. intros H. split; apply H. Qed.
Lemma vector_of L bc f h : 0 < l_rows L -> 0 < l_cols L -> fits L f ->
  (forall r c i k, inside L r c i -> k < l_len L r c i -> ent (f r c i) k = h (r, c, i, k)) -> is_vector L (tab L bc f) h.
Proof.
  intros Hr Hc F H. split; [apply tab_shaped; assumption|]. intros [[[r c] i] k] Hp. apply places_in in Hp as (I & Hk). unfold at_place.
  rewrite entry_tab by exact I. apply H; assumption.
Qed.
Lemma at_place_tab L bc f r c i k : inside L r c i -> at_place (tab L bc f) (r, c, i, k) = ent (f r c i) k.
Proof. intros I. unfold at_place. apply entry_tab, I. Qed.

Ltac tabs := repeat match goal with
  | [ H : shaped ?L ?v |- _ ] => let f := fresh "f" in let E := fresh "E" in let F := fresh "F" in
      destruct (shaped_tab L v H) as (f & E & F); destruct (shaped_pos L v H); clear H; revert E; generalize (p_bc v); intros ? ->
  end.
Ltac fitting := repeat first [assumption | apply fits_plus | apply fits_map].
Ltac ops := repeat first
  [ rewrite add_tab by fitting | rewrite add_to_tab by fitting | rewrite scale_tab by fitting | rewrite scale_by_tab by fitting | rewrite neg_tab by fitting | progress (cbn [bind]) ].

Lemma elementwise L a b x : shaped L a -> shaped L b -> exists s m n d s' m' d',
  add a b = Ok s /\ scale x a = Ok m /\ neg a = Ok n /\ sub a b = Ok d /\ add_to a b = Ok s' /\ scale_by x a = Ok m' /\ sub_from a b = Ok d' /\
  is_vector L s (fun p => at_place a p + at_place b p)%C /\ is_vector L s' (fun p => at_place a p + at_place b p)%C /\
  is_vector L m (fun p => x * at_place a p)%C /\ is_vector L m' (fun p => x * at_place a p)%C /\
  is_vector L n (fun p => - at_place a p)%C /\
  is_vector L d (fun p => at_place a p - at_place b p)%C /\ is_vector L d' (fun p => at_place a p - at_place b p)%C.
Proof.
  intros A B. tabs. unfold sub, sub_from. ops.
  do 7 eexists. do 7 (split; [reflexivity|]).
  assert (P : forall r c i k, inside L r c i -> ent (plus_o (f0 r c i) (f r c i)) k = (ent (f0 r c i) k + ent (f r c i) k)%C)
    by (intros; eapply ent_plus; [apply F0|apply F]; assumption).
  assert (Q : forall r c i k, inside L r c i -> ent (plus_o (f0 r c i) (option_map (map Copp) (f r c i))) k = (ent (f0 r c i) k - ent (f r c i) k)%C).
  { intros r c i k I. rewrite (ent_plus (l_len L r c i)), ent_map; [reflexivity|apply C_ext; unfold Copp, RtoC; simpl; ring|apply F0, I|apply (fits_map L Copp f F), I]. }
  repeat match goal with |- _ /\ _ => split end; (apply vector_of; [assumption|assumption|fitting|]);
    intros r c i k I Hk; rewrite !at_place_tab by exact I; try (apply P; assumption); try (apply Q; assumption);
    rewrite ent_map; try ring; apply C_ext; unfold Copp, RtoC, Cmul; simpl; ring.
Qed.

Lemma plus_comm x y : plus_o x y = plus_o y x.
Proof.
  destruct x as [a|], y as [b|]; try reflexivity. simpl. f_equal. revert b. induction a as [|x a IH]; intros [|y b]; try reflexivity. simpl.
  rewrite IH. f_equal. ring.
Qed.
Lemma plus_assoc n x y z : match x with Some l => length l = n | None => True end -> match y with Some l => length l = n | None => True end ->
  match z with Some l => length l = n | None => True end -> plus_o (plus_o x y) z = plus_o x (plus_o y z).
Proof.
  intros Hx Hy Hz. destruct x as [a|], y as [b|], z as [c|]; try reflexivity. simpl. f_equal.
  clear. revert b c. induction a as [|x a IH]; intros [|y b] [|z c]; try reflexivity. simpl. rewrite IH. f_equal. ring.
Qed.
Lemma plus_scale x t u : option_map (map (fun e => e * x)%C) (plus_o t u) = plus_o (option_map (map (fun e => e * x)%C) t) (option_map (map (fun e => e * x)%C) u).
Proof.
  destruct t as [a|], u as [b|]; try reflexivity. simpl. f_equal. revert b. induction a as [|y a IH]; intros [|z b]; try reflexivity.
  simpl. rewrite IH. f_equal. ring.
Qed.
Lemma scale_plus x y t : option_map (map (fun e => e * (x + y))%C) t = plus_o (option_map (map (fun e => e * x)%C) t) (option_map (map (fun e => e * y)%C) t).
Proof. destruct t as [a|]; try reflexivity. simpl. f_equal. induction a as [|e a IH]; [reflexivity|]. simpl. rewrite IH. f_equal. ring. Qed.
Lemma scale_mul x y t : option_map (map (fun e => e * (x * y))%C) t = option_map (map (fun e => e * x)%C) (option_map (map (fun e => e * y)%C) t).
Proof. destruct t as [a|]; try reflexivity. simpl. f_equal. rewrite map_map. apply map_ext. intros e. ring. Qed.
Lemma scale_one t : option_map (map (fun e => e * RtoC 1)%C) t = t.
Proof. destruct t as [a|]; try reflexivity. simpl. f_equal. rewrite <- (map_id a) at 2. apply map_ext. intros e. ring. Qed.
Lemma blank_tab L : blank (l_rows L) (l_cols L) (l_dim L) = tab L false (fun _ _ _ => None).
Proof.
  unfold blank, tab. f_equal. rewrite <- sites_length. generalize (sites_of (l_rows L) (l_cols L)). intros l.
  assert (E : map (fun _ : nat => @None (list C)) (seq 0 (l_dim L)) = repeat None (l_dim L)).
  { generalize 0. induction (l_dim L) as [|n IH]; intros s; [reflexivity|]. simpl. now rewrite IH. }
  rewrite E. induction l as [|x l IH]; [reflexivity|]. simpl. now rewrite IH.
Qed.
Lemma with_bc_tab {T} L b bc (f : nat -> nat -> nat -> T) : with_bc b (tab L bc f) = tab L b f.
Proof. reflexivity. Qed.
Ltac tab_eq := f_equal; apply tab_ext; let r := fresh "r" in let c := fresh "c" in let i := fresh "i" in let I := fresh "I" in intros r c i I.

Lemma vector_space L a b c x y : shaped L a -> shaped L b -> shaped L c ->
  add a b = add b a /\
  (ab <- add a b;; add ab c) = (bc <- add b c;; add a bc) /\
  (s <- add a b;; scale x s) = (u <- scale x a;; v <- scale x b;; add u v) /\
  scale (x + y)%C a = (u <- scale x a;; v <- scale y a;; add u v) /\
  scale (x * y)%C a = (u <- scale y a;; scale x u) /\
  scale (RtoC 1) a = Ok (with_bc false a) /\
  add a (blank (l_rows L) (l_cols L) (l_dim L)) = Ok (with_bc false a) /\
  sub a b = (u <- scale (RtoC (-1)) b;; add a u) /\
  (exists z, sub a a = Ok z /\ is_vector L z (fun _ => RtoC 0)).
Proof.
  intros A B D. rewrite blank_tab. tabs. unfold sub. assert (N : fits L (fun _ _ _ => None)) by (intros ? ? ? ?; exact I).
  repeat match goal with |- _ /\ _ => split end; ops; rewrite ?with_bc_tab; try tab_eq.
  - apply plus_comm.
  - apply (plus_assoc (l_len L r c i)); [apply F1|apply F0|apply F]; assumption.
  - apply plus_scale.
  - apply scale_plus.
  - apply scale_mul.
  - apply scale_one.
  - destruct (f1 r c i); reflexivity.
  - f_equal. destruct (f0 r c i) as [l|]; [|reflexivity]. simpl. f_equal. apply map_ext. intros e. apply C_ext; unfold Copp, Cmul, RtoC; simpl; ring.
  - eexists. split; [reflexivity|]. apply vector_of; fitting. intros r c i k I Hk. rewrite (ent_plus (l_len L r c i)), ent_map.
    + ring.
    + apply C_ext; unfold Copp, RtoC; simpl; ring.
    + apply F1, I.
    + apply (fits_map L Copp f1 F1), I.
Qed.
Lemma compound_forms L a b x : shaped L a -> shaped L b ->
  add_to a b = (s <- add a b;; Ok (with_bc (p_bc a) s)) /\
  scale_by x a = (m <- scale x a;; Ok (with_bc (p_bc a) m)) /\
  sub_from a b = sub a b.
Proof.
  intros A B. destruct (shaped_tab L a A) as (f & Ea & F), (shaped_tab L b B) as (g & Eb & G), (shaped_pos L a A).
  rewrite Ea, Eb. cbn [p_bc tab]. ops. repeat split; reflexivity.
Qed.
Lemma bc_of_results a b x s m n d s' m' d' :
  add a b = Ok s -> scale x a = Ok m -> neg a = Ok n -> sub a b = Ok d -> add_to a b = Ok s' -> scale_by x a = Ok m' -> sub_from a b = Ok d' ->
  p_bc s = false /\ p_bc m = false /\ p_bc n = false /\ p_bc d = false /\ p_bc s' = p_bc a /\ p_bc m' = p_bc a /\ p_bc d' = false.
Proof.
  assert (U : forall h v w, apply_unary h v = Ok w -> p_bc w = false).
  { intros h v w. unfold apply_unary. destruct (phys_dim v); [|discriminate]. cbn [bind].
    match goal with |- context [bind ?e _] => destruct e end; [|discriminate]. cbn [bind]. intros E. injection E as <-. reflexivity. }
  assert (Bn : forall h v u w, apply_binary h v u = Ok w -> p_bc w = false).
  { intros h v u w. unfold apply_binary. destruct (phys_dim v); [|discriminate]. cbn [bind].
    match goal with |- context [bind ?e _] => destruct e end; [|discriminate]. cbn [bind]. intros E. injection E as <-. reflexivity. }
  assert (P : forall h v w, apply_inplace h v = Ok w -> p_bc w = p_bc v).
  { intros h v w. unfold apply_inplace. destruct (phys_dim v); [|discriminate]. cbn [bind].
    match goal with |- context [bind ?e _] => destruct e end; [|discriminate]. cbn [bind]. intros E. injection E as <-. reflexivity. }
  intros E1 E2 E3 E4 E5 E6 E7. unfold sub in E4. unfold sub_from in E7. destruct (neg b); [|discriminate]. cbn [bind] in E4, E7.
  repeat split; eauto.
Qed.
Lemma inner_norm L a b : shaped L a -> shaped L b ->
  inner a b = Ok (sumC (fun p => Cconj (at_place a p) * at_place b p)%C (places L)) /\
  norm_square a = Ok (rsum (fun p => Cnorm2 (at_place a p)) (places L)).
Proof.
  intros A B. tabs. split.
  - rewrite inner_tab by fitting. f_equal. apply sumC_ext. intros [[[r c] i] k] Hp. apply places_in in Hp as (I & Hk).
    rewrite !at_place_tab by exact I. reflexivity.
  - rewrite norm_tab by fitting. f_equal. apply rsum_ext. intros [[[r c] i] k] Hp. apply places_in in Hp as (I & Hk).
    rewrite !at_place_tab by exact I. reflexivity.
Qed.

(** *** Clipping *)
Lemma Cnorm2_scal e (x : R) : Cnorm2 (e * RtoC x)%C = (x * x * Cnorm2 e)%R.
Proof. unfold Cnorm2, Cmul, RtoC. simpl. ring. Qed.
Lemma clip_elem_le c e : (0 <= c)%R -> (sqrt (Cnorm2 (clip_elem c e)) <= c)%R.
Proof.
  intros Hc. unfold clip_elem. destruct (Rlt_dec c (sqrt (Cnorm2 e))) as [H|H]; [|lra].
  rewrite Cnorm2_scal. assert (P : (0 < sqrt (Cnorm2 e))%R) by lra. pose proof (Cnorm2_nonneg e).
  replace (c / sqrt (Cnorm2 e) * (c / sqrt (Cnorm2 e)) * Cnorm2 e)%R with (c * c)%R.
  - rewrite sqrt_square; lra.
  - rewrite <- (sqrt_sqrt (Cnorm2 e)) at 3 by lra. field. lra.
Qed.
Lemma clip_elem_phase c e : (0 <= c)%R -> exists x, (0 <= x <= 1)%R /\ clip_elem c e = (RtoC x * e)%C.
Proof.
  intros Hc. unfold clip_elem. destruct (Rlt_dec c (sqrt (Cnorm2 e))) as [H|H].
  - exists (c / sqrt (Cnorm2 e))%R. split; [|ring]. split.
    + apply Rmult_le_pos; [lra|]. left. apply Rinv_0_lt_compat. lra.
    + apply Rmult_le_reg_r with (sqrt (Cnorm2 e)); [lra|]. unfold Rdiv. rewrite Rmult_assoc, Rinv_l; lra.
  - exists 1%R. split; [lra|ring].
Qed.
Lemma clip_elem_small c e : (sqrt (Cnorm2 e) <= c)%R -> clip_elem c e = e.
Proof. intros H. unfold clip_elem. destruct (Rlt_dec c (sqrt (Cnorm2 e))); [lra|reflexivity]. Qed.
Lemma clip_elem_zero c : clip_elem c (RtoC 0) = RtoC 0.
Proof. unfold clip_elem. destruct (Rlt_dec _ _); [ring|reflexivity]. Qed.
Lemma clip_value_spec L c a : (0 <= c)%R -> shaped L a ->
  exists v, clip_value c a = Ok v /\ is_vector L v (fun p => clip_elem c (at_place a p)) /\ p_bc v = p_bc a.
Proof.
  intros Hc A. destruct (shaped_tab L a A) as (f & Ea & F), (shaped_pos L a A). rewrite Ea. cbn [p_bc tab].
  unfold clip_value. rewrite (inplace_tab L H H0 _ (fun _ _ _ t => option_map (map (clip_elem c)) t)) by reflexivity.
  eexists. split; [reflexivity|]. split; [|reflexivity]. apply vector_of; fitting. intros r k i j I Hj. rewrite at_place_tab by exact I.
  apply ent_map, clip_elem_zero.
Qed.
Lemma clip_norm_spec L c a : (0 <= c)%R -> shaped L a ->
  let n := sqrt (rsum (fun p => Cnorm2 (at_place a p)) (places L)) in
  exists v x, clip_norm c a = Ok v /\ (0 <= x <= 1)%R /\ is_vector L v (fun p => RtoC x * at_place a p)%C /\ p_bc v = p_bc a /\
    sqrt (rsum (fun p => Cnorm2 (at_place v p)) (places L)) = Rmin n c /\ ((n <= c)%R -> v = a).
Proof.
  intros Hc A n. destruct (inner_norm L a a A A) as (_ & EN).
  assert (P : (0 <= rsum (fun p => Cnorm2 (at_place a p)) (places L))%R) by (apply rsum_nonneg; intros; apply Cnorm2_nonneg).
  assert (Pn : (0 <= n)%R) by apply sqrt_pos.
  unfold clip_norm. rewrite EN. cbn [bind]. fold n. unfold rlt. destruct (Rlt_dec 0 n) as [H0|H0]; [destruct (Rlt_dec c n) as [H1|H1]|].
  - cbn [andb]. destruct (elementwise L a a (RtoC (c / n)) A A) as (s & m & m0 & d & s' & m' & d' & E1 & E2 & E3 & E4 & E5 & E6 & E7 & _ & _ & _ & V & _).
    exists m', (c / n)%R. split; [exact E6|]. split.
    { split; [apply Rmult_le_pos; [lra|left; apply Rinv_0_lt_compat; lra]|].
      apply Rmult_le_reg_r with n; [lra|]. unfold Rdiv. rewrite Rmult_assoc, Rinv_l; lra. }
    split; [exact V|]. split; [apply (bc_of_results a a (RtoC (c / n)) s m m0 d s' m' d'); assumption|]. split.
    + rewrite Rmin_right by lra. transitivity (sqrt (c * c)); [|apply sqrt_square; lra]. f_equal.
      transitivity (rsum (fun p => (c / n * (c / n)) * Cnorm2 (at_place a p))%R (places L)).
      { apply rsum_ext. intros p Hp. rewrite (proj2 V p Hp). rewrite <- (Cnorm2_scal (at_place a p) (c / n)%R). f_equal. ring. }
      rewrite rsum_scal. assert (E : (n * n)%R = rsum (fun p => Cnorm2 (at_place a p)) (places L)) by (apply sqrt_sqrt; exact P).
      rewrite <- E. field. lra.
    + intros; lra.
  - cbn [andb]. exists a, 1%R. split; [reflexivity|]. split; [lra|]. split; [split; [exact A|intros; ring]|]. split; [reflexivity|].
    split; [rewrite Rmin_left by lra; reflexivity|reflexivity].
  - cbn [andb]. exists a, 1%R. split; [reflexivity|]. split; [lra|]. split; [split; [exact A|intros; ring]|]. split; [reflexivity|].
    split; [rewrite Rmin_left by lra; reflexivity|reflexivity].
Qed.

(** *** Witnesses *)
Definition one_site (bc : bool) (ts : list ten) : state := mkS 1 1 bc [ts].
Definition unit_layout : layout := mkL 1 1 1 (fun _ _ _ => 1).
Lemma one_site_shaped bc x : shaped unit_layout (one_site bc [Some [x]]).
Proof.
  unfold shaped, unit_layout, one_site. cbn [l_rows l_cols l_dim l_len p_rows p_cols p_sites]. repeat split; auto.
  - intros s [<-|[]]. reflexivity.
  - intros r c i (Hr & Hc & Hi). cbn in Hr, Hc, Hi. replace r with 0 by lia. replace c with 0 by lia. replace i with 0 by lia.
    exists (Some [x]). split; reflexivity.
Qed.
Lemma boundary_lost : exists a, shaped unit_layout a /\ p_bc a = true /\
  (exists s, add a a = Ok s /\ p_bc s = false) /\ (exists m, scale (RtoC 1) a = Ok m /\ p_bc m = false) /\
  (exists d, sub_from a a = Ok d /\ p_bc d = false).
Proof.
  exists (one_site true [Some [RtoC 1]]). split; [apply one_site_shaped|]. repeat split; eexists; split; reflexivity.
Qed.
(** A lattice whose second site has one component more than the first. *)
Definition uneven (t : ten) : state := mkS 1 2 false [[Some [RtoC 1]]; [Some [RtoC 1]; t]].
Lemma components_dropped : exists a b s s' x, add a b = Ok s /\ add_to a b = Ok s' /\
  comp s' 0 1 1 = Ok (Some [x]) /\ comp s 0 1 1 = Fail UB /\ comp a 0 1 1 = Ok (Some [x]) /\ comp b 0 1 1 = Ok (Some [x]) /\ x <> RtoC 0.
Proof.
  exists (uneven (Some [RtoC 1])), (uneven (Some [RtoC 1])). eexists. eexists. exists (RtoC 1).
  split; [reflexivity|]. split; [reflexivity|]. repeat split. apply C1_neq_0.
Qed.
