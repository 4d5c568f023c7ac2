(** L-BFGS in the loop, strong-Wolfe search. *)
From Coq Require Import List Arith Bool Reals Lia Lra.
From Verif Require Import Base Cplx Rsum OptModel OptSpec OptProofs OptMain MsgModel TpsModel TpsSpec TpsProofs TpsMain AlgModel AlgSpec AlgProofs AlgLoop LbModel LbSpec LbProofs.
Import ListNotations.
Local Open Scope R_scope.
Arguments sumC : simpl never. Arguments rsum : simpl never. Arguments Cmul : simpl never. Arguments Cadd : simpl never.

(** *** Strong Wolfe *)
Section Wolfe.
Context {W : Type} (p : lb_params) (probe : nat -> R -> res (R * R * W)) (phi0 dphi0 : R).
Notation thr := (threshold p dphi0).
Definition acceptable (m : nat) (w : W) (al : R) : Prop :=
  exists phi dphi, probe (m - 1) al = Ok (phi, dphi, w) /\ phi <= phi0 + l_c1 p * al * dphi0 /\ Rabs dphi <= thr.
Definition fine (k n : nat) (top : R) (r : wolfe (W:=W)) : Prop :=
  match r with
  | Accepted w al m => (k < m <= k + n)%nat /\ acceptable m w al /\ 0 < al <= top
  | Failed m => (k <= m <= k + n)%nat
  end.
Lemma fine_more k n k' n' top r : fine k n top r -> (k' <= k)%nat -> (k + n <= k' + n')%nat -> fine k' n' top r.
Proof. destruct r; simpl; intros H H1 H2; [destruct H as (H3 & H4 & H5); split; [lia|auto]|lia]. Qed.
Lemma zoom_fine n : forall k alo phi_alo ahi top r, zoom p probe phi0 dphi0 n k alo phi_alo ahi = Ok r ->
  0 <= alo <= top -> 0 <= ahi <= top -> 0 < alo + ahi -> fine k n top r.
Proof.
  induction n as [|n IH]; intros k alo pa ahi top r E Ha Hh Hs; cbn [zoom] in E.
  - injection E as <-. simpl. lia.
  - set (al := 1 / 2 * (alo + ahi)) in *. assert (Hal : 0 < al <= top) by (unfold al; lra).
    destruct (probe k al) as [[[phi dphi] w]|] eqn:Pr; [|discriminate]. cbn [bind] in E.
    destruct (rlt _ phi || rle pa phi) eqn:B.
    + destruct (rle (Rabs (al - alo)) _); [injection E as <-; simpl; lia|]. apply IH with (top := top) in E; try lra. eapply fine_more; [exact E|lia|lia].
    + apply orb_false_iff in B as [B1 B2]. apply rlt_false in B1. destruct (rle (Rabs dphi) thr) eqn:B3.
      * injection E as <-. apply rle_true in B3. simpl. split; [lia|]. split; [|exact Hal]. exists phi, dphi. replace (S k - 1)%nat with k by lia. auto.
      * destruct (rle (Rabs _) (l_tol_change p)); [injection E as <-; simpl; lia|]. apply IH with (top := top) in E; try (destruct (rle 0 _); lra).
        eapply fine_more; [exact E|lia|lia].
Qed.
Lemma bracket_fine n : forall k first al ap pp r, bracket p probe phi0 dphi0 n k first al ap pp = Ok r -> 0 < l_max_step p ->
  0 < al <= l_max_step p -> 0 <= ap <= l_max_step p -> fine k n (l_max_step p) r.
Proof.
  induction n as [|n IH]; intros k first al ap pp r E Ht Ha Hp; cbn [bracket] in E.
  - injection E as <-. simpl. lia.
  - destruct (probe k al) as [[[phi dphi] w]|] eqn:Pr; [|discriminate]. cbn [bind] in E.
    destruct (rlt _ phi || _) eqn:B.
    + apply zoom_fine with (top := l_max_step p) in E; try lra. eapply fine_more; [exact E|lia|lia].
    + apply orb_false_iff in B as [B1 B2]. apply rlt_false in B1. destruct (rle (Rabs dphi) thr) eqn:B3.
      * injection E as <-. apply rle_true in B3. simpl. split; [lia|]. split; [|lra]. exists phi, dphi. replace (S k - 1)%nat with k by lia. auto.
      * destruct (rle 0 dphi).
        -- apply zoom_fine with (top := l_max_step p) in E; try lra. eapply fine_more; [exact E|lia|lia].
        -- destruct (rle (_ - _) _); [injection E as <-; simpl; lia|]. apply IH in E; try lra.
           ++ eapply fine_more; [exact E|lia|lia].
           ++ split; [apply Rmin_glb_lt; lra|apply Rmin_r].
Qed.
Lemma wolfe_fine lr r : 0 < l_min_step p -> strong_wolfe p probe phi0 dphi0 lr = Ok r -> fine 0 (l_max_eval p) (l_max_step p) r.
Proof.
  intros Hm. unfold strong_wolfe. destruct (rle (l_c1 p) 0 || _ || _ || _); [discriminate|]. destruct (l_max_eval p =? 0)%nat; [discriminate|].
  destruct (rlt (l_tol_grad p) 0); [discriminate|]. destruct (rle 0 dphi0); [intros E; injection E as <-; simpl; lia|].
  unfold first_step. destruct (rlt (l_max_step p) (l_min_step p)) eqn:B; [discriminate|]. apply rlt_false in B. cbn [bind].
  set (c := Rmin _ _). assert (Hc : l_min_step p <= c <= l_max_step p).
  { unfold c. split; [|apply Rmin_r]. apply Rmin_glb; [apply Rmax_r|exact B]. }
  destruct (rle c 0) eqn:B0; [apply rle_true in B0; lra|]. intros E. apply bracket_fine in E; lra || exact E.
Qed.
Lemma wolfe_decreases lr w al m : 0 < l_min_step p -> strong_wolfe p probe phi0 dphi0 lr = Ok (Accepted w al m) ->
  (0 < m <= l_max_eval p)%nat /\ 0 < al <= l_max_step p /\ exists phi dphi, probe (m - 1) al = Ok (phi, dphi, w) /\
    phi <= phi0 + l_c1 p * al * dphi0 /\ phi < phi0 /\ Rabs dphi <= Rmax (l_c2 p * Rabs dphi0) (l_tol_grad p).
Proof.
  intros Hm E. pose proof (wolfe_fine lr _ Hm E) as (Hk & (phi & dphi & Pr & Ar & Cu) & Ha). cbn [Nat.add] in Hk.
  revert E. unfold strong_wolfe. destruct (rle (l_c1 p) 0) eqn:C1; [discriminate|]. cbn [orb]. destruct (rle 1 (l_c1 p) || _ || _); [discriminate|].
  destruct (l_max_eval p =? 0)%nat; [discriminate|]. destruct (rlt (l_tol_grad p) 0); [discriminate|]. destruct (rle 0 dphi0) eqn:D0; [discriminate|]. intros _.
  apply rle_false in C1, D0. split; [exact Hk|]. split; [exact Ha|]. exists phi, dphi. split; [exact Pr|]. split; [exact Ar|].
  assert (0 < l_c1 p * al) by (apply Rmult_lt_0_compat; lra). split; [nra|]. rewrite (Rabs_left dphi0) by exact D0. unfold threshold in Cu.
  replace (l_c2 p * - dphi0) with (- l_c2 p * dphi0) by ring. exact Cu.
Qed.
End Wolfe.
(** A smooth function whose accepted step is half of min_step. *)
Definition valley (_ : nat) (a : R) : res (R * R * unit) := Ok (a * a - a, 2 * a - 1, tt).
Definition valley_params : lb_params := mkLbP 5 0 (1 / 100) 2 true (1 / 10) (1 / 2) 1 2 0 true 0 false 0.
Lemma below_min_step : strong_wolfe valley_params valley 0 (-1) 1 = Ok (Accepted tt (1 / 2) 2) /\ 1 / 2 < l_min_step valley_params.
Proof.
  split; [|simpl; lra]. unfold strong_wolfe. cbn [l_c1 l_c2 l_max_eval l_tol_grad valley_params Nat.eqb].
  rewrite (proj2 (rle_false (1 / 10) 0)) by lra. rewrite (proj2 (rle_false 1 (1 / 10))) by lra. rewrite (proj2 (rle_false (1 / 2) (1 / 10))) by lra.
  rewrite (proj2 (rle_false 1 (1 / 2))) by lra. cbn [orb]. rewrite (proj2 (rlt_false 0 0)) by lra. rewrite (proj2 (rle_false 0 (-1))) by lra.
  unfold first_step. cbn [l_min_step l_max_step valley_params]. rewrite (proj2 (rlt_false 2 1)) by lra.
  replace (Rmin (Rmax (Rmax 1 1) 1) 2) with 1 by (rewrite (Rmax_left 1 1), (Rmax_left 1 1), Rmin_left by lra; reflexivity).
  rewrite (proj2 (rle_false 1 0)) by lra. cbn [bind bracket valley l_c1 valley_params].
  rewrite (proj2 (rlt_true (0 + 1 / 10 * 1 * -1) (1 * 1 - 1))) by lra. cbn [orb zoom valley bind l_c1 valley_params].
  rewrite (proj2 (rlt_false _ _)) by lra. rewrite (proj2 (rle_false 0 _)) by lra. cbn [orb].
  unfold threshold. cbn [l_c2 l_tol_grad valley_params]. replace (2 * (1 / 2 * (0 + 1)) - 1) with 0 by lra. rewrite Rabs_R0.
  rewrite (proj2 (rle_true 0 _)) by (apply Rle_trans with (- (1 / 2) * -1); [lra|apply Rmax_l]).
  replace (1 / 2 * (0 + 1)) with (1 / 2) by lra. reflexivity.
Qed.

(** *** History *)
Section H.
Context (L : layout) (p : lb_params).
Definition anchored (a : option (state * state)) : Prop := match a with Some (w, g) => shaped L w /\ shaped L g | None => True end.
Definition lb_ok (a : lb) : Prop :=
  good_history L p (h_hist a) /\ anchored (h_anchor a) /\
  match h_snap a with Some (h, an) => good_history L p h /\ anchored an | None => True end /\
  good_history L p (fst (h_start a)) /\ anchored (snd (h_start a)).
Lemma keep_last_in {X} n (l : list X) x : In x (keep_last n l) -> In x l.
Proof. unfold keep_last. intros H. rewrite <- (firstn_skipn (length l - n) l). apply in_or_app. now right. Qed.
Lemma keep_last_length {X} n (l : list X) : (length (keep_last n l) <= n)%nat.
Proof. unfold keep_last. rewrite skipn_length. lia. Qed.
Lemma good_keep hist h : Forall (usable L p) hist -> usable L p h -> good_history L p (keep_last (l_size p) (hist ++ [h])).
Proof.
  intros F U. split; [apply keep_last_length|]. apply Forall_forall. intros x Hx. apply keep_last_in in Hx. revert x Hx. apply Forall_forall. apply Forall_app; auto.
Qed.
Lemma pair_value s y fs fy : is_vector L s fs -> is_vector L y fy -> exists y' c dm, lb_pair p s y = Ok (y', c, dm) /\ shaped L y' /\ c = dot L fs (at_place y').
Proof.
  intros S Y. unfold lb_pair. rewrite (inner_vec L s y fs fy S Y). cbn [bind].
  assert (N : exists y' c dm, Ok (y, dot L fs fy, false) = Ok (y', c, dm) /\ shaped L y' /\ c = dot L fs (at_place y')).
  { do 3 eexists. split; [reflexivity|]. split; [apply Y|]. apply dot_ext; auto. symmetry. now apply Y. }
  destruct (rle _ _ && l_damping p); [|exact N]. rewrite (inner_vec L y y fy fy Y Y). cbn [bind]. destruct (rlt dbl_eps _); [|exact N].
  match goal with |- context [scale (RtoC ?x) s] => destruct (vec_scale L (RtoC x) s fs S) as (u & -> & U) end. cbn [bind].
  destruct (vec_add_to L y u _ _ Y U) as (y' & -> & Y' & _). cbn [bind]. rewrite (inner_vec L s y' fs _ S Y'). cbn [bind].
  do 3 eexists. split; [reflexivity|]. split; [apply Y'|]. apply dot_ext; auto. intros q Hq. symmetry. now apply Y'.
Qed.
Lemma update_ok a w g b : lb_ok a -> shaped L w -> shaped L g -> lb_update p a w g = Ok b -> lb_ok b /\ h_updated b = h_updated a.
Proof.
  intros (H1 & H2 & H3 & H4 & H5) Hw Hg. unfold lb_update. destruct (h_anchor a) as [[w0 g0]|] eqn:An; [|intros E; injection E as <-; split; [|reflexivity]; unfold lb_ok; rewrite An; auto 10].
  destruct (l_size p =? 0)%nat; [discriminate|]. destruct H2 as [W0 G0].
  destruct (vec_sub L w w0 _ _ (shaped_vec L _ Hw) (shaped_vec L _ W0)) as (s & -> & S). cbn [bind].
  destruct (vec_sub L g g0 _ _ (shaped_vec L _ Hg) (shaped_vec L _ G0)) as (y & -> & Y). cbn [bind].
  destruct (pair_value s y _ _ S Y) as (y' & c & dm & -> & Sy & Ec). cbn [bind].
  destruct (rle c (l_min_curv p)) eqn:B; intros E; injection E as <-; (split; [|reflexivity]); unfold lb_ok; cbn; auto 10.
  split; [|auto 10]. apply good_keep; [apply H1|]. apply rle_false in B.
  assert (Ed : dot L (at_place s) (at_place y') = c) by (rewrite Ec; apply dot_ext; auto; apply S).
  split; [eapply vec_shaped; exact S|]. split; [exact Sy|]. cbn [h_s h_y h_rho]. rewrite Ed. auto.
Qed.
Lemma seen_ok a w g b : lb_ok a -> shaped L w -> shaped L g -> lb_seen p a w g = Ok b -> lb_ok b.
Proof.
  intros Ha Hw Hg. unfold lb_seen. destruct (h_updated a); [intros E; injection E as <-; exact Ha|].
  destruct (lb_update p a w g) as [c|] eqn:U; [|discriminate]. cbn [bind]. intros E. injection E as <-. apply (update_ok a w g c Ha Hw Hg U).
Qed.
Lemma good_nil : good_history L p [].
Proof. split; [simpl; lia|constructor]. Qed.
Lemma reset_ok a : lb_ok a -> lb_ok (lb_reset a).
Proof. intros (H1 & H2 & H3 & H4 & H5). unfold lb_ok, lb_reset. cbn. repeat match goal with |- _ /\ _ => split end; auto using good_nil. Qed.
Lemma begin_ok a : lb_ok a -> lb_ok (lb_begin a).
Proof. intros (H1 & H2 & H3 & H4 & H5). unfold lb_ok, lb_begin. cbn. auto 10. Qed.
Lemma save_ok a : lb_ok a -> lb_ok (lb_save a).
Proof. intros (H1 & H2 & H3 & H4 & H5). unfold lb_ok, lb_save. cbn. auto 10. Qed.
Lemma resample_ok a : lb_ok a -> lb_ok (lb_resample a).
Proof. intros (H1 & H2 & H3 & H4 & H5). unfold lb_ok, lb_resample. cbn. auto 10. Qed.
Lemma restore_ok a : lb_ok a -> lb_ok (lb_restore a).
Proof.
  intros (H1 & H2 & H3 & H4 & H5). unfold lb_ok, lb_restore. destruct (h_snap a) as [[h an]|]; cbn.
  - destruct H3. auto 10.
  - repeat match goal with |- _ /\ _ => split end; auto using good_nil.
Qed.
Lemma fixed_ok w d lr w' al : shaped L w -> shaped L d -> fixed_step w d lr = Ok (w', al) -> shaped L w'.
Proof.
  intros Hw Hd. unfold fixed_step. destruct (vec_scale L (RtoC (Rmax 0 lr)) d _ (shaped_vec L _ Hd)) as (u & -> & U). cbn [bind].
  destruct (vec_add_to L w u _ _ (shaped_vec L _ Hw) U) as (v & -> & V & _). cbn [bind]. intros E. injection E as <- _. apply V.
Qed.
Lemma probe_shaped ev k0 w d n al phi dphi w' : shaped L w -> shaped L d -> lb_probe ev k0 w d n al = Ok (phi, dphi, w') -> is_vector L w' (fun q => at_place w q + RtoC al * at_place d q)%C.
Proof.
  intros Hw Hd. unfold lb_probe. destruct (vec_scale L (RtoC al) d _ (shaped_vec L _ Hd)) as (u & -> & U). cbn [bind].
  destruct (vec_add_to L w u _ _ (shaped_vec L _ Hw) U) as (v & -> & V & _). cbn [bind]. destruct (ev (k0 + n)%nat v) as [[e g] err].
  destruct (real_inner g d); [|discriminate]. cbn [bind]. intros E. injection E as _ _ <-. exact V.
Qed.
(** The accepted trial is a probed one whatever the parameters. *)
Lemma zoom_probed {W} (probe : nat -> R -> res (R * R * W)) phi0 dphi0 n : forall k alo pa ahi w al m, zoom p probe phi0 dphi0 n k alo pa ahi = Ok (Accepted w al m) -> exists j a b, probe j al = Ok (a, b, w).
Proof.
  induction n as [|n IH]; intros k alo pa ahi w al m E; cbn [zoom] in E; [discriminate|].
  destruct (probe k _) as [[[phi dphi] w']|] eqn:Pr; [|discriminate]. cbn [bind] in E. destruct (_ || _).
  - destruct (rle _ (l_tol_change p)); [discriminate|eauto].
  - destruct (rle (Rabs dphi) _); [injection E as <- <- _; eauto|]. destruct (rle _ (l_tol_change p)); [discriminate|eauto].
Qed.
Lemma bracket_probed {W} (probe : nat -> R -> res (R * R * W)) phi0 dphi0 n : forall k f al ap pp w al' m, bracket p probe phi0 dphi0 n k f al ap pp = Ok (Accepted w al' m) -> exists j a b, probe j al' = Ok (a, b, w).
Proof.
  induction n as [|n IH]; intros k f al ap pp w al' m E; cbn [bracket] in E; [discriminate|].
  destruct (probe k _) as [[[phi dphi] w']|] eqn:Pr; [|discriminate]. cbn [bind] in E. destruct (_ || _); [eapply zoom_probed; eauto|].
  destruct (rle (Rabs dphi) _); [injection E as <- <- _; eauto|]. destruct (rle 0 dphi); [eapply zoom_probed; eauto|].
  destruct (rle _ (l_tol_change p)); [discriminate|eauto].
Qed.
Lemma wolfe_probed {W} (probe : nat -> R -> res (R * R * W)) phi0 dphi0 lr w al m : strong_wolfe p probe phi0 dphi0 lr = Ok (Accepted w al m) -> exists j a b, probe j al = Ok (a, b, w).
Proof.
  unfold strong_wolfe. repeat match goal with |- context [if ?b then _ else _] => destruct b; try discriminate end. destruct (first_step p lr); [|discriminate]. cbn [bind]. apply bracket_probed.
Qed.
Lemma step_ok ev e k a w g lr a' next eff more : (0 < l_size p)%nat -> lb_ok a -> shaped L w -> shaped L g -> lb_step p ev e k a w g lr = Ok (a', (next, eff), more) -> lb_ok a' /\ shaped L next.
Proof.
  intros Hn Ha Hw Hg. unfold lb_step. destruct (direction_value L p (h_hist a) g Hn (proj2 (proj1 Ha)) Hg) as (d & gamma & x & -> & _ & _ & V & _). cbn [bind].
  rewrite (inner_vec L g d _ _ (shaped_vec L _ Hg) V). cbn [bind].
  assert (K : exists a2 d2 s2, (if rle 0 (dot L (at_place g) (fun q => RtoC (- x) * twoloop L gamma (rev (h_hist a)) (at_place g) q)%C) then
            d' <- scale (RtoC (-1)) g;; s' <- real_inner g d';;
            Ok (lb_reset (mkLb (h_hist a) (h_anchor a) (h_skips a) (h_damps a) (S (h_resets a)) (h_snap a) (h_start a) (h_updated a)), d', s')
          else Ok (a, d, dot L (at_place g) (fun q => RtoC (- x) * twoloop L gamma (rev (h_hist a)) (at_place g) q)%C)) = Ok (a2, d2, s2) /\ lb_ok a2 /\ shaped L d2).
  { destruct (rle 0 _).
    - destruct (vec_scale L (RtoC (-1)) g _ (shaped_vec L _ Hg)) as (d' & -> & D'). cbn [bind]. rewrite (inner_vec L g d' _ _ (shaped_vec L _ Hg) D'). cbn [bind].
      do 3 eexists. split; [reflexivity|]. split; [apply reset_ok; exact Ha|apply D'].
    - do 3 eexists. split; [reflexivity|]. split; [exact Ha|apply V]. }
  destruct K as (a2 & d2 & s2 & -> & Ha2 & Hd2). cbn [bind]. destruct (negb (l_wolfe p)).
  - destruct (fixed_step w d2 lr) as [[w' al]|] eqn:F; [|discriminate]. cbn [bind]. intros E. injection E as <- <- _ _. split; [exact Ha2|]. eapply fixed_ok; [exact Hw|exact Hd2|exact F].
  - destruct (strong_wolfe _ _ _ _ _) as [[w' al m|m]|] eqn:Wf; [| |discriminate]; cbn [bind].
    + intros E. injection E as <- <- _ _. split; [exact Ha2|]. apply wolfe_probed in Wf as (j & x1 & x2 & Pr). apply (probe_shaped ev k w d2 j al x1 x2 w') in Pr; auto. apply Pr.
    + destruct (l_fallback p); [|discriminate]. destruct (fixed_step w d2 _) as [[w' al]|] eqn:F; [|discriminate]. cbn [bind]. intros E. injection E as <- <- _ _. split; [exact Ha2|]. eapply fixed_ok; [exact Hw|exact Hd2|exact F].
Qed.
End H.

(** *** Invariants of accumulators and states over runs *)
Section Inv.
Context {W G A P Sc : Type} (p : params) (alg : algorithm (W:=W) (G:=G) (A:=A) (P:=P)) (eval : nat -> W -> R * G * R) (trial : nat -> W -> R * R) (gnorm : G -> R)
  (scheduled : bool) (rate : Sc -> nat -> R -> R * Sc) (user_stop : nat -> R -> R -> bool).
Notation st := (st (W:=W) (A:=A) (Sc:=Sc)).
Notation pass := (pass p alg eval trial gnorm rate user_stop).
Notation run := (run p alg eval trial gnorm rate user_stop).
Context (IW : W -> Prop) (IG : G -> Prop) (IA : A -> Prop).
Hypothesis Heval : forall n w, IW w -> IG (snd (fst (eval n w))).
Hypothesis Hbegin : forall a, IA a -> IA (a_begin alg a).
Hypothesis Hseen : forall a w g b, IA a -> IW w -> IG g -> a_seen alg a w g = Ok b -> IA b.
Hypothesis Hresample : forall a, IA a -> IA (a_resample alg a).
Hypothesis Hrollback : forall a, IA a -> IA (a_rollback alg a).
Hypothesis Hsave : forall a, IA a -> IA (a_save alg a).
Hypothesis Haccept : forall a w g, IA a -> IW w -> IG g -> IA (a_accept alg a w g).
Hypothesis Hstep : forall k a d w g lr a' next eff ng it more, IA a -> IW w -> IG g -> a_step alg k a d w g lr = Ok (a', (next, eff), (ng, it), more) -> IA a' /\ IW next.
Definition holds (s : st) : Prop := IA (s_A s) /\ IW (s_cur s) /\ match s_prev s with Some w => IW w | None => True end.
Lemma holds_log x act v th (s : st) : holds s -> holds (log x act v th s).
Proof. unfold holds. destruct (log_keeps x act v th s) as (-> & -> & ->). auto. Qed.
Lemma holds_recover act (s : st) : holds s -> holds (recover alg act s).
Proof.
  intros (H1 & H2 & H3). destruct act; cbn; try (repeat split; assumption).
  - unfold holds. cbn. auto.
  - unfold back_to_prev. destruct (s_prev s) eqn:E; unfold holds; cbn; [auto|rewrite E; auto].
Qed.
Lemma holds_check sig act v th (s : st) : holds s -> match check alg sig act v th s with inl t => holds t | inr t => holds t end.
Proof. intros H. unfold check. destruct sig as [x|]; [|exact H]. destruct (discards (act x)); [apply holds_recover|]; apply holds_log; exact H. Qed.
Lemma pass_holds (s s' : st) : holds s -> pass s = Ok s' -> holds s'.
Proof.
  intros (H1 & H2 & H3) E. unfold OptModel.pass in E. pose proof (Heval (s_calls s) (s_cur s) H2) as Hg. destruct (eval (s_calls s) (s_cur s)) as [[e g] err] eqn:Ev. cbn [fst snd] in Hg.
  set (t0 := saw _ _) in E. destruct (a_seen alg (s_A t0) (s_cur t0) g) as [acc0|] eqn:Se; [|discriminate]. cbn [bind] in E.
  change (s_A t0) with (s_A s) in Se. change (s_cur t0) with (s_cur s) in Se. apply (Hseen _ _ _ _ H1 H2 Hg) in Se.
  set (t1 := set_A acc0 t0) in E. assert (K1 : holds t1) by (unfold holds; cbn; auto). clearbody t0 t1.
  match type of E with context [check alg ?a ?b ?c ?d t1] => pose proof (holds_check a b c d t1 K1) as K2; destruct (check alg a b c d t1) as [u1|u1] end.
  2:{ injection E as <-. exact K2. }
  destruct (if any_selector p then _ else _) as [lr0 sc]. set (u2 := set_sched sc u1) in E.
  destruct (select p alg trial u2 g err) as [sel|]; [|discriminate]. cbn [bind] in E.
  destruct (match sel with Some (r, d, k) => (r, Some d, k) | None => (lr0, None, 0%nat) end) as [[lr d] extra].
  set (u3 := set_calls _ _) in E. assert (K3 : holds u3) by (unfold u3, u2; destruct sel; exact K2). clearbody u3.
  destruct (a_step alg (s_calls u3) (s_A u3) d (s_cur u3) g lr) as [[[[acc [next eff]] [ng iters]] more]|] eqn:Stp; [|discriminate]. cbn [bind] in E.
  destruct K3 as (J1 & J2 & J3). apply (Hstep _ _ _ _ _ _ _ _ _ _ _ _ J1 J2 Hg) in Stp as (Ka & Kn).
  set (u4 := set_calls (s_calls u3 + more) (set_A acc u3)) in E. assert (K4 : holds u4) by (unfold holds; cbn; auto). clearbody u4.
  match type of E with context [check alg ?a ?b ?c ?d u4] => pose proof (holds_check a b c d u4 K4) as K5; destruct (check alg a b c d u4) as [u5|u5] end.
  2:{ injection E as <-. exact K5. }
  match type of E with context [check alg ?a ?b ?c ?d u5] => pose proof (holds_check a b c d u5 K5) as K6; destruct (check alg a b c d u5) as [u6|u6] end.
  2:{ injection E as <-. exact K6. }
  injection E as <-. destruct K6 as (M1 & M2 & M3). unfold holds, accept. cbn [s_A s_cur s_prev].
  set (stop := (0 <? s_iter u6)%nat && _). destruct stop; cbn [orb]; [auto|].
  assert (Q : IA (a_accept alg (if p_rollback p then a_save alg (s_A u6) else s_A u6) (s_cur u6) g)) by (apply Haccept; auto; destruct (p_rollback p); auto).
  split; [destruct (user_stop _ _ _); auto|]. split; [exact Kn|]. destruct (p_rollback p); auto.
Qed.
Lemma run_holds fuel : forall s, holds s -> match run fuel s with Ok (Finished s') | Ok (Running s') => holds s' | Fail _ => True end.
Proof.
  induction fuel as [|f IH]; intros s H; cbn [OptModel.run]; destruct (s_done s || _); auto.
  destruct (pass s) as [s1|] eqn:E; [|exact I]. cbn [bind]. apply IH. now apply (pass_holds s).
Qed.
Lemma optimize_holds fuel k w s : IA (k_A k) -> IW w -> k_prev k = None ->
  optimize p alg eval trial gnorm scheduled rate user_stop fuel k w = Ok (Finished s) \/ optimize p alg eval trial gnorm scheduled rate user_stop fuel k w = Ok (Running s) -> holds s.
Proof.
  intros Ha Hw Hp. unfold optimize. destruct (checks p alg scheduled); cbn [bind]; [|intros [E|E]; discriminate].
  assert (K : holds (start p alg k w)) by (unfold holds, start; cbn; rewrite Hp; auto).
  pose proof (run_holds fuel _ K) as Hr. intros [E|E]; rewrite E in Hr; exact Hr.
Qed.
End Inv.

Lemma lb_run {Sc} L q p eval trial gnorm scheduled (rate : Sc -> nat -> R -> R * Sc) user_stop fuel sc w0 s : (0 < l_size q)%nat -> shaped L w0 ->
  (forall n w, shaped L w -> shaped L (snd (fst (eval n w)))) ->
  optimize p (lb_algorithm q eval) eval trial gnorm scheduled rate user_stop fuel (new_members lb_fresh sc) w0 = Ok (Finished s) \/
  optimize p (lb_algorithm q eval) eval trial gnorm scheduled rate user_stop fuel (new_members lb_fresh sc) w0 = Ok (Running s) ->
  good_history L q (h_hist (s_A s)) /\ shaped L (s_cur s).
Proof.
  intros Hn W0 Hg E.
  assert (K : holds (shaped L) (lb_ok L q) s).
  { apply (optimize_holds p (lb_algorithm q eval) eval trial gnorm scheduled rate user_stop (shaped L) (shaped L) (lb_ok L q)) with (fuel := fuel) (k := new_members lb_fresh sc) (w := w0); auto; cbn [a_begin a_seen a_resample a_rollback a_save a_accept a_step lb_algorithm].
    - apply begin_ok.
    - intros a w g b Ha Hw Hgr. exact (seen_ok L q a w g b Ha Hw Hgr).
    - apply resample_ok.
    - apply restore_ok.
    - apply save_ok.
    - intros a w g (H1 & H2 & H3 & H4 & H5) Hw Hgr. unfold lb_ok. cbn. auto 10.
    - intros k a d w g lr a' next eff ng it more Ha Hw Hgr Es. match type of Es with (bind ?x _) = _ => destruct x as [[[a2 [n2 e2]] m2]|] eqn:Ls; [|discriminate] end.
      cbn [bind fst snd] in Es. injection Es as <- <- _ _ _ _. exact (step_ok L q _ _ _ _ _ _ _ _ _ _ _ Hn Ha Hw Hgr Ls).
    - cbn. unfold lb_ok, lb_fresh. cbn. repeat match goal with |- _ /\ _ => split end; auto using good_nil. }
  destruct K as ((H1 & _) & H2 & _). auto.
Qed.
(** After a rollback the step that led to the restored state is recorded a second time. *)
Lemma duplicated q a0 w g a h a' : h_updated a0 = false -> lb_seen q a0 w g = Ok a -> h_hist a = keep_last (l_size q) (h_hist a0 ++ [h]) -> h_hist a <> h_hist a0 ->
  h_snap a' = Some (h_hist a, h_anchor a) -> exists b h', lb_seen q (lb_restore a') w g = Ok b /\ (exists l, h_hist a = l ++ [h']) /\ h_hist b = keep_last (l_size q) (h_hist a ++ [h']).
Proof.
  intros Hu E Hh Hd Sn. unfold lb_seen in *. rewrite Hu in E. unfold lb_restore. rewrite Sn. cbn [h_updated].
  unfold lb_update in *. cbn [h_anchor h_hist]. destruct (h_anchor a0) as [[w1 g1]|] eqn:An; cbn [bind] in E.
  2:{ injection E as <-. cbn in *. congruence. }
  destruct (l_size q =? 0)%nat eqn:Z; [discriminate|]. destruct (sub w w1) as [s|] eqn:Es; [|discriminate]. cbn [bind] in E. destruct (sub g g1) as [y|] eqn:Ey; [|discriminate]. cbn [bind] in E.
  destruct (lb_pair q s y) as [[[y' c] dm]|] eqn:Ep; [|discriminate]. cbn [bind] in E. destruct (rle c (l_min_curv q)) eqn:B; cbn [bind] in E; injection E as <-; cbn in *; [congruence|].
  rewrite Es. cbn [bind]. rewrite Ey. cbn [bind]. rewrite Ep. cbn [bind]. rewrite B. cbn [bind]. do 2 eexists. split; [reflexivity|]. cbn. split; [|reflexivity].
  unfold keep_last. rewrite app_length. cbn [length]. apply Nat.eqb_neq in Z. exists (skipn (length (h_hist a0) + 1 - l_size q) (h_hist a0)).
  rewrite skipn_app. f_equal. replace (length (h_hist a0) + 1 - l_size q - length (h_hist a0))%nat with 0%nat by lia. reflexivity.
Qed.
Lemma wolfe_budget {W} p (probe : nat -> R -> res (R * R * W)) phi0 dphi0 lr m : 0 < l_min_step p -> strong_wolfe p probe phi0 dphi0 lr = Ok (Failed m) -> (m <= l_max_eval p)%nat.
Proof. intros Hm E. apply wolfe_fine in E; [unfold fine in E; cbn in E; lia|exact Hm]. Qed.
Lemma duplicated_example : exists q a0 w g a b h, h_hist a0 = [] /\
  lb_seen q (lb_begin a0) w g = Ok a /\ h_hist a = [h] /\ lb_seen q (lb_restore (lb_save a)) w g = Ok b /\ h_hist b = [h; h].
Proof.
  set (q := mkLbP 5 0 (1 / 100) 20 true (1 / 10) (1 / 2) 0 2 0 false 0 false 0). set (x := fun r : R => one_site false [Some [RtoC r]]).
  set (a0 := mkLb [] (Some (x 0, x 0)) 0 0 0 None ([], None) false).
  assert (Es : exists s y, sub (x 1) (x 0) = Ok s /\ sub (x 2) (x 0) = Ok y /\ real_inner s y = Ok 2).
  { destruct (vec_sub unit_layout (x 1) (x 0) _ _ (shaped_vec _ _ (one_site_shaped _ _)) (shaped_vec _ _ (one_site_shaped _ _))) as (s & E1 & V1).
    destruct (vec_sub unit_layout (x 2) (x 0) _ _ (shaped_vec _ _ (one_site_shaped _ _)) (shaped_vec _ _ (one_site_shaped _ _))) as (y & E2 & V2).
    exists s, y. split; [exact E1|]. split; [exact E2|]. rewrite (inner_vec _ _ _ _ _ V1 V2). f_equal. unfold dot, rsum, x. cbn. unfold Csub, Cadd, Copp, Cmul, Cconj, RtoC. simpl. lra. }
  destruct Es as (s & y & Es & Ey & Ei).
  assert (U : forall h1 n1 n2 n3 sn st, lb_seen q (mkLb h1 (Some (x 0, x 0)) n1 n2 n3 sn st false) (x 1) (x 2) = Ok (mkLb (keep_last 5 (h1 ++ [mkPair s y (1 / 2)])) (Some (x 0, x 0)) n1 n2 n3 sn st true)).
  { intros. unfold lb_seen. cbn [h_updated]. unfold lb_update. cbn [h_anchor]. change (l_size q =? 0)%nat with false. cbv iota. rewrite Es. cbn [bind]. rewrite Ey. cbn [bind].
    unfold lb_pair. rewrite Ei. cbn [bind]. change (l_damping q) with false. rewrite andb_false_r. cbn [bind]. change (l_min_curv q) with 0. rewrite (proj2 (rle_false 2 0)) by lra. reflexivity. }
  exists q, a0, (x 1), (x 2). do 3 eexists. split; [reflexivity|]. split; [apply U|]. split; [reflexivity|]. split; [apply U|reflexivity].
Qed.
