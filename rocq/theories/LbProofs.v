(** L-BFGS directions. *)
From Coq Require Import List Arith Bool Reals Lia Lra.
From Verif Require Import Base Cplx Rsum OptModel OptProofs MsgModel TpsModel TpsSpec TpsProofs TpsMain AlgModel AlgSpec AlgProofs ExactProofs LbModel LbSpec.
Import ListNotations.
Local Open Scope R_scope.
Arguments sumC : simpl never. Arguments rsum : simpl never. Arguments Cmul : simpl never. Arguments Cadd : simpl never.
Arguments Copp : simpl never. Arguments Cconj : simpl never.

Lemma rle_true a b : rle a b = true <-> a <= b.
Proof. destruct (rle_spec a b); split; intros H; congruence || lra. Qed.
Lemma rle_false a b : rle a b = false <-> b < a.
Proof. destruct (rle_spec a b); split; intros H; congruence || lra. Qed.

Section D.
Context (L : layout).
Notation vec := (nat * nat * nat * nat -> C).
Notation dot := (dot L).
Lemma dot_ext f f' g g' : (forall q, In q (places L) -> f q = f' q) -> (forall q, In q (places L) -> g q = g' q) -> dot f g = dot f' g'.
Proof. intros H H'. apply rsum_ext. intros q Hq. now rewrite H, H'. Qed.
Lemma dot_sym f g : dot f g = dot g f.
Proof. apply rsum_ext. intros q _. unfold Cmul, Cconj. simpl. ring. Qed.
Lemma dot_add_r f g h : dot f (fun q => g q + h q)%C = dot f g + dot f h.
Proof. unfold LbSpec.dot. rewrite <- rsum_add. apply rsum_ext. intros q _. unfold Cmul, Cadd, Cconj. simpl. ring. Qed.
Lemma dot_scal_r f x g : dot f (fun q => RtoC x * g q)%C = x * dot f g.
Proof. unfold LbSpec.dot. rewrite <- rsum_scal. apply rsum_ext. intros q _. unfold Cmul, RtoC, Cconj. simpl. ring. Qed.
Lemma dot_add_l f g h : dot (fun q => g q + h q)%C f = dot g f + dot h f.
Proof. rewrite !(dot_sym _ f). apply dot_add_r. Qed.
Lemma dot_scal_l f x g : dot (fun q => RtoC x * g q)%C f = x * dot g f.
Proof. rewrite !(dot_sym _ f). apply dot_scal_r. Qed.
Lemma dot_self f : dot f f = rsum (fun q => Cnorm2 (f q)) (places L).
Proof. apply rsum_ext. intros q _. unfold Cmul, Cconj, Cnorm2. simpl. ring. Qed.
Lemma dot_nonneg f : 0 <= dot f f.
Proof. rewrite dot_self. apply rsum_nonneg. intros; apply Cnorm2_nonneg. Qed.
Lemma dot_pos f q : In q (places L) -> f q <> RtoC 0 -> 0 < dot f f.
Proof.
  intros Hq Hn. rewrite dot_self. apply in_split in Hq as (l1 & l2 & ->). rewrite rsum_app, rsum_cons.
  assert (0 <= rsum (fun q => Cnorm2 (f q)) l1) by (apply rsum_nonneg; intros; apply Cnorm2_nonneg).
  assert (0 <= rsum (fun q => Cnorm2 (f q)) l2) by (apply rsum_nonneg; intros; apply Cnorm2_nonneg).
  assert (0 < Cnorm2 (f q)); [|lra]. destruct (Rle_lt_or_eq_dec 0 (Cnorm2 (f q)) (Cnorm2_nonneg _)) as [|E]; [assumption|]. exfalso. apply Hn.
  symmetry in E. unfold Cnorm2 in E. apply C_ext; simpl; nra.
Qed.
Lemma inner_vec a b f g : is_vector L a f -> is_vector L b g -> real_inner a b = Ok (dot f g).
Proof.
  intros [A Ha] [B Hb]. unfold real_inner. destruct (inner_norm L a b A B) as [-> _]. cbn [bind]. f_equal. unfold LbSpec.dot.
  rewrite sumC_fst. apply rsum_ext. intros q Hq. now rewrite Ha, Hb.
Qed.
Lemma vec_sub a b f g : is_vector L a f -> is_vector L b g -> exists s, sub a b = Ok s /\ is_vector L s (fun q => f q - g q)%C.
Proof.
  intros A B. destruct (vector_space L a b a (RtoC 0) (RtoC 0) (vec_shaped L _ _ A) (vec_shaped L _ _ B) (vec_shaped L _ _ A)) as (_ & _ & _ & _ & _ & _ & _ & -> & _).
  destruct (vec_scale L (RtoC (-1)) b g B) as (u & -> & U). cbn [bind]. destruct (vec_add L a u _ _ A U) as (s & -> & S). exists s. split; [reflexivity|].
  eapply vec_ext; [exact S|]. intros q _. cbn beta. apply C_ext; unfold Cadd, Csub, Cmul, RtoC, Copp; simpl; ring.
Qed.

(** The two loops as a recursion over the pairs, newest first. *)
Fixpoint twoloop (gamma : R) (l : list pair) (q : vec) : vec :=
  match l with
  | [] => fun x => (RtoC gamma * q x)%C
  | h :: t =>
      let s := at_place (h_s h) in let y := at_place (h_y h) in
      let al := h_rho h * dot s q in
      let r := twoloop gamma t (fun x => q x + RtoC (- al) * y x)%C in
      fun x => (r x + RtoC (al - h_rho h * dot y r) * s x)%C
  end.
Fixpoint twoloop_q (l : list pair) (q : vec) : vec :=
  match l with [] => q | h :: t => twoloop_q t (fun x => q x + RtoC (- (h_rho h * dot (at_place (h_s h)) q)) * at_place (h_y h) x)%C end.
Lemma twoloop_ext gamma l : forall q q', (forall x, In x (places L) -> q x = q' x) -> forall x, In x (places L) -> twoloop gamma l q x = twoloop gamma l q' x.
Proof.
  induction l as [|h t IH]; intros q q' H x Hx; cbn [twoloop]; [now rewrite H|].
  assert (E : dot (at_place (h_s h)) q = dot (at_place (h_s h)) q') by (apply dot_ext; auto). rewrite E.
  set (f := fun x => (q x + RtoC (- (h_rho h * dot (at_place (h_s h)) q')) * at_place (h_y h) x)%C).
  set (f' := fun x => (q' x + RtoC (- (h_rho h * dot (at_place (h_s h)) q')) * at_place (h_y h) x)%C).
  assert (Hf : forall x, In x (places L) -> f x = f' x) by (intros z Hz; unfold f, f'; now rewrite H).
  rewrite (IH f f' Hf x Hx). rewrite (dot_ext (at_place (h_y h)) (at_place (h_y h)) (twoloop gamma t f) (twoloop gamma t f')); auto.
Qed.
Lemma lb_up_app l l' r : lb_up (l ++ l') r = (r' <- lb_up l r;; lb_up l' r').
Proof.
  revert r; induction l as [|[h al] l IH]; intros r; [reflexivity|]. cbn [app lb_up]. destruct (real_inner (h_y h) r) as [x|]; [|reflexivity]. cbn [bind].
  destruct (scale _ (h_s h)) as [u|]; [|reflexivity]. cbn [bind]. destruct (add_to r u) as [r'|]; [|reflexivity]. cbn [bind]. apply IH.
Qed.
Lemma combine_app' {X Y} (a a' : list X) (b b' : list Y) : length a = length b -> combine (a ++ a') (b ++ b') = combine a b ++ combine a' b'.
Proof. revert b; induction a as [|x a IH]; intros [|y b] H; try discriminate; [reflexivity|]. cbn. f_equal. apply IH. simpl in H. lia. Qed.
Definition shapes (h : pair) : Prop := shaped L (h_s h) /\ shaped L (h_y h).
Lemma loops gamma l : Forall shapes l -> forall a q, is_vector L a q ->
  exists a0 als, lb_down l a = Ok (a0, als) /\ length als = length l /\ is_vector L a0 (twoloop_q l q) /\
    forall r, is_vector L r (fun x => RtoC gamma * twoloop_q l q x)%C ->
      exists r', lb_up (combine (rev l) (rev als)) r = Ok r' /\ is_vector L r' (twoloop gamma l q).
Proof.
  induction l as [|h t IH]; intros F a q A.
  - exists a, []. repeat split; try apply A. intros r Hr. exists r. split; [reflexivity|exact Hr].
  - inversion F as [|? ? [Hs Hy] Ft]; subst. cbn [lb_down]. rewrite (inner_vec (h_s h) a (at_place (h_s h)) q) by (auto; now apply shaped_vec). cbn [bind].
    set (al := h_rho h * dot (at_place (h_s h)) q).
    destruct (vec_scale L (RtoC (- al)) (h_y h) (at_place (h_y h)) (shaped_vec L _ Hy)) as (u & -> & U). cbn [bind].
    destruct (vec_add_to L a u _ _ A U) as (a' & -> & A' & _). cbn [bind].
    destruct (IH Ft a' _ A') as (a0 & als & E & Hl & V & Hup). rewrite E. cbn [bind fst snd].
    exists a0, (al :: als). split; [reflexivity|]. split; [simpl; lia|]. split; [exact V|].
    intros r Hr. destruct (Hup r Hr) as (r' & Er & Vr). cbn [rev]. rewrite combine_app' by (rewrite !rev_length; lia). rewrite lb_up_app, Er. cbn [bind combine lb_up].
    rewrite (inner_vec (h_y h) r' (at_place (h_y h)) _ (shaped_vec L _ Hy) Vr). cbn [bind].
    destruct (vec_scale L (RtoC (al - h_rho h * dot (at_place (h_y h)) (twoloop gamma t (fun x => q x + RtoC (- al) * at_place (h_y h) x)%C))) (h_s h) (at_place (h_s h)) (shaped_vec L _ Hs)) as (u2 & -> & U2).
    cbn [bind]. destruct (vec_add_to L r' u2 _ _ Vr U2) as (r2 & -> & V2 & _). cbn [bind]. exists r2. split; [reflexivity|]. exact V2.
Qed.
(** Descent: <q, H q> is a sum of squares. *)
Lemma twoloop_pos gamma l : 0 < gamma -> Forall (fun h => 0 < h_rho h) l -> forall q, 0 <= dot q (twoloop gamma l q) /\ (0 < dot q q -> 0 < dot q (twoloop gamma l q)).
Proof.
  intros Hg. induction l as [|h t IH]; intros F q; cbn [twoloop].
  - rewrite dot_scal_r. pose proof (dot_nonneg q). split; [nra|]. intros. nra.
  - inversion F as [|? ? Hr Ft]; subst. set (s := at_place (h_s h)). set (y := at_place (h_y h)). set (al := h_rho h * dot s q).
    set (q' := fun x => (q x + RtoC (- al) * y x)%C). set (r := twoloop gamma t q').
    destruct (IH Ft q') as (I1 & I2). fold r in I1, I2.
    assert (E : dot q (fun x => r x + RtoC (al - h_rho h * dot y r) * s x)%C = dot q' r + al * al / h_rho h).
    { rewrite dot_add_r, dot_scal_r. unfold q'. rewrite dot_add_l, dot_scal_l. rewrite (dot_sym q s).
      assert (Hs : dot s q = al / h_rho h) by (unfold al; field; lra). rewrite Hs. field. lra. }
    rewrite E. assert (Sq : 0 <= al * al / h_rho h) by (apply Rmult_le_pos; [nra|left; apply Rinv_0_lt_compat; lra]).
    split; [lra|]. intros Hq. destruct (Req_dec al 0) as [Z|NZ].
    + assert (0 < dot q' r); [|lra]. apply I2. replace (dot q' q') with (dot q q); [exact Hq|]. apply dot_ext; intros x _; unfold q'; rewrite Z, Ropp_0; ring.
    + assert (0 < al * al / h_rho h); [|lra]. apply Rmult_lt_0_compat; [nra|apply Rinv_0_lt_compat; lra].
Qed.
(** The newest pair satisfies the secant equation. *)
Lemma twoloop_zero gamma l x : In x (places L) -> twoloop gamma l (fun _ => RtoC 0) x = RtoC 0.
Proof.
  revert x. induction l as [|h t IH]; intros x Hx; cbn [twoloop]; [ring|].
  assert (Z : dot (at_place (h_s h)) (fun _ => RtoC 0) = 0).
  { unfold LbSpec.dot. apply rsum_zero. intros q _. unfold Cmul, RtoC, Cconj. simpl. ring. }
  rewrite Z.
  assert (E : forall z, In z (places L) -> twoloop gamma t (fun x => RtoC 0 + RtoC (- (h_rho h * 0)) * at_place (h_y h) x)%C z = RtoC 0).
  { intros z Hz. rewrite (twoloop_ext gamma t _ (fun _ => RtoC 0)); [now apply IH| |exact Hz]. intros u _. rewrite Rmult_0_r, Ropp_0. ring. }
  rewrite (E x Hx). rewrite (dot_ext _ (at_place (h_y h)) _ (fun _ => RtoC 0)); [|reflexivity|exact E].
  replace (dot (at_place (h_y h)) (fun _ => RtoC 0)) with 0. 2:{ symmetry. unfold LbSpec.dot. apply rsum_zero. intros q _. unfold Cmul, RtoC, Cconj. simpl. ring. }
  rewrite !Rmult_0_r, Rminus_0_r. ring.
Qed.
Lemma twoloop_secant gamma h t x : dot (at_place (h_s h)) (at_place (h_y h)) <> 0 -> h_rho h = 1 / dot (at_place (h_s h)) (at_place (h_y h)) -> In x (places L) ->
  twoloop gamma (h :: t) (at_place (h_y h)) x = at_place (h_s h) x.
Proof.
  intros Hn Hr Hx. cbn [twoloop]. replace (h_rho h * dot (at_place (h_s h)) (at_place (h_y h))) with 1 by (rewrite Hr; field; exact Hn).
  assert (E : forall z, In z (places L) -> twoloop gamma t (fun x => at_place (h_y h) x + RtoC (- (1)) * at_place (h_y h) x)%C z = RtoC 0).
  { intros z Hz. rewrite (twoloop_ext gamma t _ (fun _ => RtoC 0)); [now apply twoloop_zero| |exact Hz]. intros u _. apply C_ext; unfold Cadd, Cmul, RtoC; simpl; ring. }
  rewrite (E x Hx). rewrite (dot_ext _ (at_place (h_y h)) _ (fun _ => RtoC 0)); [|reflexivity|exact E].
  replace (dot (at_place (h_y h)) (fun _ => RtoC 0)) with 0. 2:{ symmetry. unfold LbSpec.dot. apply rsum_zero. intros q _. unfold Cmul, RtoC, Cconj. simpl. ring. }
  rewrite Rmult_0_r, Rminus_0_r. apply C_ext; unfold Cadd, Cmul, RtoC; simpl; ring.
Qed.

(** The direction as computed. *)
Lemma gamma_value p h : usable L p h -> exists gamma, lb_gamma p h = Ok gamma /\ (0 <= l_min_curv p -> 0 < gamma).
Proof.
  intros (S & Y & C & Rh). unfold lb_gamma. rewrite (inner_vec (h_y h) (h_y h) _ _ (shaped_vec L _ Y) (shaped_vec L _ Y)). cbn [bind].
  rewrite (inner_vec (h_s h) (h_y h) _ _ (shaped_vec L _ S) (shaped_vec L _ Y)). cbn [bind]. eexists. split; [reflexivity|]. intros H0.
  destruct (rlt dbl_eps _ && rlt _ _) eqn:B; [|lra]. apply andb_prop in B as [B1 B2]. apply rlt_true in B1, B2.
  apply Rdiv_lt_0_compat; [lra|]. assert (0 < dbl_eps); [|lra]. unfold dbl_eps. apply Rinv_0_lt_compat, pow_lt. lra.
Qed.
Lemma cap_value p a f : is_vector L a f -> exists d x, lb_cap p a = Ok d /\ 0 < x <= 1 /\ is_vector L d (fun q => RtoC x * f q)%C /\
  (l_max_norm p <= 0 \/ dot f f <= l_max_norm p * l_max_norm p -> x = 1) /\ (0 < l_max_norm p -> sqrt (dot (at_place d) (at_place d)) <= l_max_norm p).
Proof.
  intros A. unfold lb_cap. destruct (inner_norm L a a (vec_shaped L _ _ A) (vec_shaped L _ _ A)) as [_ N].
  assert (N' : norm_square a = Ok (dot f f)).
  { rewrite N, dot_self. f_equal. apply rsum_ext. intros q Hq. now rewrite (proj2 A q Hq). }
  assert (K : rlt 0 (l_max_norm p) = false \/ rlt (l_max_norm p) (sqrt (dot f f)) = false \/ (0 < l_max_norm p /\ l_max_norm p < sqrt (dot f f))).
  { destruct (rlt 0 (l_max_norm p)) eqn:B; [|auto]. destruct (rlt (l_max_norm p) (sqrt (dot f f))) eqn:B'; [|auto]. apply rlt_true in B, B'. auto. }
  assert (Same : exists d x, Ok a = Ok d /\ 0 < x <= 1 /\ is_vector L d (fun q => RtoC x * f q)%C /\ (l_max_norm p <= 0 \/ dot f f <= l_max_norm p * l_max_norm p -> x = 1) /\ d = a).
  { exists a, 1. split; [reflexivity|]. split; [lra|]. split; [eapply vec_ext; [exact A|]; intros; ring|]. auto. }
  destruct (rlt 0 (l_max_norm p)) eqn:B0.
  - apply rlt_true in B0. rewrite N'. cbn [bind]. destruct (rlt (l_max_norm p) (sqrt (dot f f))) eqn:B1; cbn [andb].
    + apply rlt_true in B1. assert (P0 : 0 < sqrt (dot f f)) by lra. rewrite (proj2 (rlt_true 0 _) P0).
      destruct (vec_scale_by L (RtoC (l_max_norm p / sqrt (dot f f))) a f A) as (d & -> & D & _). exists d, (l_max_norm p / sqrt (dot f f)).
      assert (Q : 0 < l_max_norm p / sqrt (dot f f) <= 1).
      { split; [apply Rdiv_lt_0_compat; lra|]. apply Rmult_le_reg_r with (sqrt (dot f f)); [lra|]. unfold Rdiv. rewrite Rmult_assoc, Rinv_l by lra. lra. }
      split; [reflexivity|]. split; [exact Q|]. split; [exact D|]. split.
      * intros [H|H]; [lra|]. exfalso. assert (sqrt (dot f f) <= l_max_norm p); [|lra]. rewrite <- (sqrt_square (l_max_norm p)) by lra. apply sqrt_le_1_alt. exact H.
      * intros _. rewrite (dot_ext _ (fun q => RtoC (l_max_norm p / sqrt (dot f f)) * f q)%C _ (fun q => RtoC (l_max_norm p / sqrt (dot f f)) * f q)%C) by (apply D).
        rewrite dot_scal_l, dot_scal_r. set (x := l_max_norm p / sqrt (dot f f)) in *. rewrite <- Rmult_assoc, sqrt_mult by (try apply dot_nonneg; nra).
        rewrite sqrt_square by lra. unfold x, Rdiv. rewrite Rmult_assoc, Rinv_l by lra. lra.
    + apply rlt_false in B1. destruct Same as (d & x & E & X & V & Z & ->). exists a, x. split; [reflexivity|]. split; [exact X|]. split; [exact V|]. split; [exact Z|].
      intros _. rewrite (dot_ext _ f _ f) by (apply A). exact B1.
  - apply rlt_false in B0. destruct Same as (d & x & E & X & V & Z & ->). exists a, x. split; [reflexivity|]. split; [exact X|]. split; [exact V|]. split; [exact Z|]. intros; lra.
Qed.
Lemma usable_shapes p h : usable L p h -> shapes h.
Proof. intros (S & Y & _). split; assumption. Qed.
Lemma direction_value p hist g : (0 < l_size p)%nat -> Forall (usable L p) hist -> shaped L g ->
  exists d gamma x, lb_direction p hist g = Ok d /\ (0 <= l_min_curv p -> 0 < gamma) /\ 0 < x <= 1 /\
    is_vector L d (fun q => RtoC (- x) * twoloop gamma (rev hist) (at_place g) q)%C /\
    (hist = [] -> gamma = 1) /\
    (l_max_norm p <= 0 \/ dot (twoloop gamma (rev hist) (at_place g)) (twoloop gamma (rev hist) (at_place g)) <= l_max_norm p * l_max_norm p -> x = 1) /\
    (0 < l_max_norm p -> sqrt (dot (at_place d) (at_place d)) <= l_max_norm p).
Proof.
  intros Hn F G. unfold lb_direction. destruct (vec_scale L (RtoC (-1)) g _ (shaped_vec L _ G)) as (d0 & -> & D0). cbn [bind].
  destruct (Nat.eqb_spec (l_size p) 0) as [E|_]; [lia|].
  assert (Fr : Forall (usable L p) (rev hist)) by (now apply Forall_rev).
  assert (K : exists d1 gamma, match rev hist with
         | [] => Ok d0
         | last :: _ => qa <- lb_down (rev hist) g;; gamma <- lb_gamma p last;; r <- scale (RtoC gamma) (fst qa);; r' <- lb_up (combine hist (rev (snd qa))) r;; scale (RtoC (-1)) r'
         end = Ok d1 /\ (0 <= l_min_curv p -> 0 < gamma) /\ (hist = [] -> gamma = 1) /\ is_vector L d1 (fun q => RtoC (-1) * twoloop gamma (rev hist) (at_place g) q)%C).
  { destruct (rev hist) as [|last t] eqn:Er.
    - exists d0, 1. split; [reflexivity|]. split; [lra|]. split; [auto|]. eapply vec_ext; [exact D0|]. intros q _. cbn [twoloop]. ring.
    - destruct (gamma_value p last) as (gamma & Eg & Pg); [now inversion Fr|].
      destruct (loops gamma (last :: t)) with (a := g) (q := at_place g) as (a0 & als & E & Hl & V & Hup).
      { eapply Forall_impl; [|exact Fr]. apply usable_shapes. }
      { now apply shaped_vec. }
      rewrite E. cbn [bind fst snd]. rewrite Eg. cbn [bind]. destruct (vec_scale L (RtoC gamma) a0 _ V) as (r & -> & Hr). cbn [bind].
      destruct (Hup r Hr) as (r' & Er' & Vr). replace hist with (rev (last :: t)) by (rewrite <- Er; apply rev_involutive). rewrite Er'. cbn [bind].
      destruct (vec_scale L (RtoC (-1)) r' _ Vr) as (d1 & -> & D1). exists d1, gamma. split; [reflexivity|]. split; [exact Pg|]. split; [|exact D1].
      intros Hh. apply (f_equal (@length _)) in Hh. rewrite rev_length in Hh. discriminate. }
  destruct K as (d1 & gamma & -> & Pg & Pe & D1). cbn [bind].
  destruct (cap_value p d1 _ D1) as (d & x & Ed & Px & Vd & Hx & Hc). exists d, gamma, x. split; [exact Ed|]. split; [exact Pg|]. split; [exact Px|]. split.
  { eapply vec_ext; [exact Vd|]. intros q _. cbn beta. apply C_ext; unfold Cmul, RtoC; simpl; ring. }
  split; [exact Pe|]. split; [|exact Hc]. intros H. apply Hx. destruct H as [H|H]; [left; exact H|right]. rewrite dot_scal_l, dot_scal_r. lra.
Qed.
Lemma direction_descends p hist g : (0 < l_size p)%nat -> 0 <= l_min_curv p -> Forall (usable L p) hist -> shaped L g -> nonzero L g ->
  exists d, lb_direction p hist g = Ok d /\ shaped L d /\ dot (at_place g) (at_place d) < 0 /\ (0 < l_max_norm p -> sqrt (dot (at_place d) (at_place d)) <= l_max_norm p).
Proof.
  intros Hn Hc F G (q & Hq & Nz). destruct (direction_value p hist g Hn F G) as (d & gamma & x & E & Pg & Px & V & _ & _ & Hcap).
  exists d. split; [exact E|]. split; [eapply vec_shaped; exact V|]. split; [|exact Hcap].
  rewrite (dot_ext _ (at_place g) _ (fun q => RtoC (- x) * twoloop gamma (rev hist) (at_place g) q)%C) by (auto; apply V).
  rewrite dot_scal_r. assert (0 < dot (at_place g) (twoloop gamma (rev hist) (at_place g))); [|nra].
  apply twoloop_pos; [auto| |now apply dot_pos with q]. apply Forall_rev. eapply Forall_impl; [|exact F]. intros h (_ & _ & C & ->).
  unfold Rdiv. rewrite Rmult_1_l. apply Rinv_0_lt_compat. lra.
Qed.
Lemma direction_secant p hist h : (0 < l_size p)%nat -> 0 <= l_min_curv p -> l_max_norm p <= 0 -> Forall (usable L p) (hist ++ [h]) ->
  exists d, lb_direction p (hist ++ [h]) (h_y h) = Ok d /\ is_vector L d (fun q => - at_place (h_s h) q)%C.
Proof.
  intros Hn Hc Hm F. pose proof F as F'. apply Forall_app in F' as [_ Fh]. inversion Fh as [|? ? (S & Y & C & Rh) _]; subst.
  destruct (direction_value p (hist ++ [h]) (h_y h) Hn F Y) as (d & gamma & x & E & _ & _ & V & _ & Hx & _). rewrite rev_app_distr in V, Hx. cbn [rev app] in V, Hx.
  exists d. split; [exact E|]. rewrite Hx in V by (left; exact Hm). eapply vec_ext; [exact V|]. intros q Hq. cbn beta.
  rewrite twoloop_secant by (auto; lra). apply C_ext; unfold Cmul, Copp, RtoC; simpl; ring.
Qed.
End D.
