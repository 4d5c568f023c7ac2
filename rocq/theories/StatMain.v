(** The Monte-Carlo gradient, rescue and normalisation. *)
From Coq Require Import List Arith Lia Lra Bool Reals Permutation.
From Verif Require Import Base Cplx Rsum StatModel StatSpec StatProofs.
Import ListNotations.
Local Open Scope nat_scope.
Arguments sumC : simpl never.
Arguments rsum : simpl never.

Section Evaluate.
Context {Site Elem : Type}.
Notation sample := (@sample Site Elem).
Notation param := (@param Site Elem).
Lemma fold_sumC {X} (f : X -> C) l a : fold_left (fun a s => (a + f s)%C) l a = (a + sumC f l)%C.
Proof. revert a. induction l as [|x l IH]; intros a; cbn [fold_left]; [rewrite sumC_nil; ring|]. rewrite IH, sumC_cons. ring. Qed.
Lemma rank_o_sum (l : list sample) p : rank_o l p = sumC (fun s => o_star s p) l.
Proof. unfold rank_o. rewrite fold_sumC. ring. Qed.
Lemma rank_eo_sum (l : list sample) p : rank_eo l p = sumC (fun s => Cconj (s_energy s) * o_star s p)%C l.
Proof. unfold rank_eo. rewrite fold_sumC. ring. Qed.
Lemma pooled {X} (f : X -> C) (ranks : list (list X)) n : n <> 0 -> ranks <> [] -> Forall (fun l => length l = n) ranks ->
  mpi_mean (map (fun l => sumC f l * RtoC (1 / INR n))%C ranks) = average f (concat ranks).
Proof.
  intros Hn Hr F. unfold mpi_mean, average. rewrite csum_sumC, map_length, sumC_map.
  assert (G : sumC (fun l => sumC f l * RtoC (1 / INR n))%C ranks = (sumC f (concat ranks) * RtoC (1 / INR n))%C /\ length (concat ranks) = length ranks * n).
  { clear Hr. induction F as [|l ranks L F IH]; [cbn [concat]; rewrite !sumC_nil; split; [ring|reflexivity]|]. destruct IH as [A B]. cbn [concat]. rewrite sumC_cons, A, sumC_app, app_length, B, L. split; [ring|simpl; lia]. }
  destruct G as [G1 G2]. rewrite G1, G2, mult_INR.
  assert (N : INR n <> 0%R) by (apply not_0_INR; exact Hn). assert (M : INR (length ranks) <> 0%R) by (apply not_0_INR; destruct ranks; [congruence|discriminate]).
  replace (/ (INR (length ranks) * INR n))%R with ((1 / INR n) * (1 / INR (length ranks)))%R by (field; auto). rewrite RtoC_mul. ring.
Qed.
Lemma average_add {X} (f g : X -> C) l : average (fun x => f x + g x)%C l = (average f l + average g l)%C.
Proof. unfold average. rewrite sumC_add. ring. Qed.
Lemma average_scal {X} (c : C) (f : X -> C) l : average (fun x => c * f x)%C l = (c * average f l)%C.
Proof. unfold average. rewrite sumC_scal. ring. Qed.
Lemma average_ext {X} (f g : X -> C) l : (forall x, In x l -> f x = g x) -> average f l = average g l.
Proof. intros H. unfold average. rewrite (sumC_ext f g l H). reflexivity. Qed.
Lemma evaluate_value n (ranks : list (list sample)) r : evaluate n ranks = Ok r -> ranks <> [] -> Forall (fun l => length l = n) ranks ->
  g_energy r = fst (binned (map (map s_energy) ranks) 0) /\ g_error r = snd (binned (map (map s_energy) ranks) 0) /\
  (forall p, g_o_mean r p = average (fun s => o_star s p) (concat ranks)) /\
  (forall p, g_gradient r p = average (fun s => (Cconj (s_energy s) - Cconj (g_energy r)) * o_star s p)%C (concat ranks)).
Proof.
  intros E Hr F. unfold evaluate in E. destruct (Nat.eqb_spec n 0) as [Z|Z]; [discriminate|]. cbn [orb] in E. destruct (existsb _ ranks); [discriminate|].
  destruct (binned (map (map s_energy) ranks) 0) as [en er]. injection E as <-. cbn [g_energy g_error g_o_mean g_gradient fst snd].
  split; [reflexivity|]. split; [reflexivity|]. split; intros p.
  - rewrite (map_ext _ (fun l => sumC (fun s => o_star s p) l * RtoC (1 / INR n))%C) by (intros l; rewrite rank_o_sum; reflexivity). apply pooled; assumption.
  - rewrite (map_ext _ (fun l => sumC (fun s => (Cconj (s_energy s) - Cconj en) * o_star s p) l * RtoC (1 / INR n))%C).
    + apply pooled; assumption.
    + intros l. unfold rank_grad. rewrite rank_o_sum, rank_eo_sum.
      rewrite (sumC_ext (fun s => (Cconj (s_energy s) - Cconj en) * o_star s p)%C (fun s => Cconj (s_energy s) * o_star s p + (- Cconj en) * o_star s p)%C) by (intros; ring).
      rewrite sumC_add, sumC_scal, Cconj_opp. ring.
Qed.
Lemma evaluate_defined n (ranks : list (list sample)) : (exists r, evaluate n ranks = Ok r) <->
  n <> 0 /\ forall l s, In l ranks -> In s l -> s_amp s <> RtoC 0.
Proof.
  unfold evaluate. destruct (Nat.eqb_spec n 0) as [Z|Z]; cbn [orb]; [split; [intros [r H]; discriminate|intros [H _]; congruence]|].
  destruct (existsb _ ranks) eqn:X.
  - split; [intros [r H]; discriminate|]. intros [_ H]. exfalso. apply existsb_exists in X. destruct X as (l & Hl & X). apply existsb_exists in X. destruct X as (s & Hs & X).
    destruct (Ceq_dec (s_amp s) (RtoC 0)) as [Q|Q]; [exact (H l s Hl Hs Q)|discriminate].
  - destruct (binned _ 0) as [en er]. split; [|eauto]. intros _. split; [exact Z|]. intros l s Hl Hs Q.
    assert (T : existsb (fun l => existsb (fun s => if Ceq_dec (s_amp s) (RtoC 0) then true else false) l) ranks = true); [|congruence].
    apply existsb_exists. exists l. split; [exact Hl|]. apply existsb_exists. exists s. split; [exact Hs|]. destruct (Ceq_dec (s_amp s) (RtoC 0)); [reflexivity|contradiction].
Qed.
(** The solver returns the conjugated derivatives as holes. *)
Definition O_star (s : sample) (p : param) : C :=
  Cconj (log_derivative (s_conf s) (s_amp s) (fun site e => Cconj (s_hole s site e)) p).
Lemma o_star_value s p : o_star s p = O_star s p.
Proof.
  unfold o_star, O_star, log_derivative. destruct p as [[si ba] el]. destruct (s_conf s si =? ba); [|rewrite Cconj_R; reflexivity].
  unfold Cdiv. rewrite !Cconj_mul, Cconj_R, Cconj_invol. ring.
Qed.
(** Covariance plus the error of the energy times the mean of O*. *)
Lemma gradient_covariance n (ranks : list (list sample)) r : evaluate n ranks = Ok r -> ranks <> [] -> Forall (fun l => length l = n) ranks -> forall p,
  let E := average s_energy (concat ranks) in
  g_gradient r p =
    (average (fun s => Cconj (s_energy s) * o_star s p) (concat ranks) - Cconj E * average (fun s => o_star s p) (concat ranks)
     + Cconj (E - g_energy r) * average (fun s => o_star s p) (concat ranks))%C.
Proof.
  intros E Hr F p. cbv zeta. destruct (evaluate_value n ranks r E Hr F) as (_ & _ & _ & G). rewrite G.
  rewrite (average_ext _ (fun s => Cconj (s_energy s) * o_star s p + (- Cconj (g_energy r)) * o_star s p)%C) by (intros; ring).
  rewrite average_add, average_scal. unfold Csub. rewrite Cconj_add, Cconj_opp. ring.
Qed.
(** All samples are kept when whole bins fill the ranks. *)
Lemma average_map {X Y} (f : Y -> C) (g : X -> Y) l : average f (map g l) = average (fun x => f (g x)) l.
Proof. unfold average. rewrite sumC_map, map_length. reflexivity. Qed.
Lemma whole_bins n b (ranks : list (list C)) : 1 <= b -> b * b <= n < S b * S b -> Nat.divide b n -> ranks <> [] -> Forall (fun l => length l = n) ranks ->
  fst (binned ranks 0) = average (fun x => x) (concat ranks).
Proof.
  intros Hb HN [q D] Hr F.
  assert (B : exists bss, Forall2 (blocks b) ranks bss /\ concat (concat bss) = concat ranks).
  { clear Hr. induction F as [|l ranks L F IH]; [exists []; split; [constructor|reflexivity]|]. destruct IH as (bss & A & B).
    destruct (blocks_exist b l ltac:(lia)) as [bs Hbs]. exists (bs :: bss). split; [constructor; assumption|]. cbn [concat]. rewrite concat_app, B. f_equal.
    destruct (blocks_prefix _ _ _ Hbs) as (rest & E & Lr). assert (LB : length (concat bs) = length bs * b).
    { pose proof (blocks_length _ _ _ Hbs) as FB. clear - FB. induction FB as [|x bs H FB IH]; [reflexivity|]. simpl. rewrite app_length, IH, H. reflexivity. }
    assert (rest = []); [|subst rest; rewrite E, app_nil_r; reflexivity]. apply (f_equal (@length C)) in E. rewrite app_length, LB, L in E.
    destruct rest as [|y rest]; [reflexivity|exfalso]. simpl length in *. assert (E' : q * b = length bs * b + S (length rest)) by lia. clear - E' Lr Hb. assert (q > length bs) by nia. nia. }
  destruct B as (bss & A & B). destruct (binned_value n b ranks bss Hb HN Hr F A) as [-> _]. rewrite B. reflexivity.
Qed.
Lemma concat_map_map {X Y} (f : X -> Y) (l : list (list X)) : concat (map (map f) l) = map f (concat l).
Proof. induction l as [|x l IH]; [reflexivity|]. simpl. rewrite IH, map_app. reflexivity. Qed.
Lemma gradient_exact n b (ranks : list (list sample)) r : evaluate n ranks = Ok r -> ranks <> [] -> Forall (fun l => length l = n) ranks ->
  1 <= b -> b * b <= n < S b * S b -> Nat.divide b n -> forall p,
  g_gradient r p = (average (fun s => Cconj (s_energy s) * o_star s p) (concat ranks)
                    - Cconj (average s_energy (concat ranks)) * average (fun s => o_star s p) (concat ranks))%C.
Proof.
  intros E Hr F Hb HN D p. rewrite (gradient_covariance n ranks r E Hr F p). cbv zeta.
  destruct (evaluate_value n ranks r E Hr F) as (-> & _). rewrite (whole_bins n b (map (map s_energy) ranks) Hb HN D).
  - rewrite concat_map_map, average_map. change (average (fun x => s_energy x) (concat ranks)) with (average s_energy (concat ranks)). set (e := average s_energy (concat ranks)). replace (e - e)%C with (RtoC 0) by ring. rewrite Cconj_R. ring.
  - destruct ranks; [congruence|discriminate].
  - apply Forall_map. apply Forall_forall. intros l Hl. rewrite map_length. rewrite Forall_forall in F. apply F. exact Hl.
Qed.
Lemma o_mean_claim n (ranks : list (list sample)) r : evaluate n ranks = Ok r -> ranks <> [] -> Forall (fun l => length l = n) ranks ->
  forall p, g_o_mean r p = average (fun s => O_star s p) (concat ranks).
Proof. intros E Hr F p. destruct (evaluate_value n ranks r E Hr F) as (_ & _ & M & _). rewrite M. apply average_ext. intros s _. apply o_star_value. Qed.
Lemma gradient_covariance_claim n (ranks : list (list sample)) r : evaluate n ranks = Ok r -> ranks <> [] -> Forall (fun l => length l = n) ranks -> forall p,
  let E := average s_energy (concat ranks) in
  g_o_mean r p = average (fun s => O_star s p) (concat ranks) /\
  g_gradient r p =
    (average (fun s => Cconj (s_energy s) * O_star s p) (concat ranks) - Cconj E * average (fun s => O_star s p) (concat ranks)
     + Cconj (E - g_energy r) * average (fun s => O_star s p) (concat ranks))%C.
Proof.
  intros E Hr F p. cbv zeta. split; [exact (o_mean_claim n ranks r E Hr F p)|]. rewrite (gradient_covariance n ranks r E Hr F p). cbv zeta.
  rewrite !(average_ext (fun s => O_star s p) (fun s => o_star s p)) by (intros; symmetry; apply o_star_value).
  rewrite (average_ext (fun s => Cconj (s_energy s) * O_star s p)%C (fun s => Cconj (s_energy s) * o_star s p)%C) by (intros; rewrite o_star_value; reflexivity). reflexivity.
Qed.
Lemma gradient_exact_claim n b (ranks : list (list sample)) r : evaluate n ranks = Ok r -> ranks <> [] -> Forall (fun l => length l = n) ranks ->
  1 <= b -> b * b <= n < S b * S b -> Nat.divide b n -> forall p,
  g_gradient r p = (average (fun s => Cconj (s_energy s) * O_star s p) (concat ranks)
                    - Cconj (average s_energy (concat ranks)) * average (fun s => O_star s p) (concat ranks))%C.
Proof.
  intros E Hr F Hb HN D p. rewrite (gradient_exact n b ranks r E Hr F Hb HN D p).
  rewrite !(average_ext (fun s => O_star s p) (fun s => o_star s p)) by (intros; symmetry; apply o_star_value).
  rewrite (average_ext (fun s => Cconj (s_energy s) * O_star s p)%C (fun s => Cconj (s_energy s) * o_star s p)%C) by (intros; rewrite o_star_value; reflexivity). reflexivity.
Qed.
Definition shift_sample (c : C) (s : sample) : sample := mkSample (s_energy s + c)%C (s_amp s) (s_conf s) (s_hole s).
Lemma gradient_shift n c (ranks : list (list sample)) r : evaluate n ranks = Ok r -> ranks <> [] -> Forall (fun l => length l = n) ranks ->
  exists r', evaluate n (map (map (shift_sample c)) ranks) = Ok r' /\ g_energy r' = (g_energy r + c)%C /\ g_error r' = g_error r /\ forall p, g_gradient r' p = g_gradient r p.
Proof.
  intros E Hr F. destruct (proj1 (evaluate_defined n ranks) (ex_intro _ r E)) as [Hn HA].
  destruct (proj2 (evaluate_defined n (map (map (shift_sample c)) ranks))) as [r' E'].
  { split; [exact Hn|]. intros l s Hl Hs. apply in_map_iff in Hl. destruct Hl as (l0 & <- & Hl). apply in_map_iff in Hs. destruct Hs as (s0 & <- & Hs). exact (HA l0 s0 Hl Hs). }
  exists r'. split; [exact E'|].
  assert (Hr' : map (map (shift_sample c)) ranks <> []) by (destruct ranks; [congruence|discriminate]).
  assert (F' : Forall (fun l : list sample => length l = n) (map (map (shift_sample c)) ranks)).
  { apply Forall_map. apply Forall_forall. intros l Hl. rewrite map_length. rewrite Forall_forall in F. apply F. exact Hl. }
  destruct (evaluate_value n ranks r E Hr F) as (A1 & A2 & _ & A4). destruct (evaluate_value n _ r' E' Hr' F') as (B1 & B2 & _ & B4).
  assert (SH : map (map s_energy) (map (map (shift_sample c)) ranks) = map (shift c) (map (map s_energy) ranks)).
  { rewrite !map_map. apply map_ext. intros l. unfold shift. rewrite !map_map. reflexivity. }
  rewrite SH, binned_shift in B1, B2.
  2,3: destruct ranks as [|l ranks]; [congruence|]; inversion F; subst; destruct l; [simpl in Hn; congruence|discriminate].
  cbn [fst snd] in B1, B2. rewrite <- A1 in B1. rewrite <- A2 in B2. split; [exact B1|]. split; [exact B2|]. intros p. rewrite A4, B4, concat_map_map, average_map, B1.
  apply average_ext. intros s _. unfold o_star. cbn [s_energy s_conf s_amp s_hole shift_sample]. destruct p as [[si ba] el]. rewrite !Cconj_add. destruct (s_conf s si =? ba); ring.
Qed.
Lemma norm_squared (params : list param) (g : param -> C) : gradient_norm params g = ((sqrt (rsum (fun p => Cnorm2 (g p)) params)) * (sqrt (rsum (fun p => Cnorm2 (g p)) params)))%R.
Proof. unfold gradient_norm. rewrite sqrt_sqrt; [reflexivity|]. apply rsum_nonneg. intros. apply Cnorm2_nonneg. Qed.
End Evaluate.
(** Five samples, one dropped by the binning. *)
Lemma dropped_sample : exists (ranks : list (list (@sample unit unit))) r p,
  evaluate 5 ranks = Ok r /\ ranks <> [] /\ Forall (fun l => length l = 5) ranks /\
  g_gradient r p <> (average (fun s => Cconj (s_energy s) * o_star s p) (concat ranks)
                     - Cconj (average s_energy (concat ranks)) * average (fun s => o_star s p) (concat ranks))%C.
Proof.
  set (mk := fun e : R => @mkSample unit unit (RtoC e) (RtoC 1) (fun _ => 0) (fun _ _ => RtoC 1)).
  set (l := [mk 0%R; mk 0%R; mk 0%R; mk 0%R; mk 5%R]).
  destruct (proj2 (evaluate_defined 5 [l])) as [r E].
  { split; [discriminate|]. intros k s [<-|[]] Hs. repeat (destruct Hs as [<-|Hs]; [exact C1_neq_0|]). destruct Hs. }
  assert (NEl : [l] <> []) by (intros Q; discriminate).
  exists [l], r, (tt, 0, tt). assert (F : Forall (fun k => length k = 5) [l]) by (constructor; [reflexivity|constructor]).
  split; [exact E|]. split; [exact NEl|]. split; [exact F|]. rewrite (gradient_covariance 5 [l] r E NEl F). cbv zeta.
  destruct (evaluate_value 5 [l] r E NEl F) as (-> & _).
  assert (B : fst (binned (map (map s_energy) [l]) 0) = RtoC 0).
  { assert (BL : Forall2 (blocks 2) (map (map s_energy) [l]) [[[RtoC 0; RtoC 0]; [RtoC 0; RtoC 0]]]).
    { constructor; [|constructor]. cbn [map l s_energy mk]. apply (blocks_cons 2 [RtoC 0; RtoC 0] [RtoC 0; RtoC 0; RtoC 5]); [reflexivity|].
      apply (blocks_cons 2 [RtoC 0; RtoC 0] [RtoC 5]); [reflexivity|]. constructor. simpl. lia. }
    destruct (binned_value 5 2 (map (map s_energy) [l]) _ ltac:(lia) ltac:(lia) ltac:(discriminate) ltac:(constructor; [reflexivity|constructor]) BL) as [-> _].
    unfold average. cbn [concat app]. rewrite !sumC_cons, sumC_nil. apply C_ext; simpl; ring. }
  rewrite B. unfold l. cbn [concat app]. unfold average. rewrite !sumC_cons, !sumC_nil. cbn [mk s_energy o_star s_conf s_amp s_hole Nat.eqb].
  intros Q. apply (f_equal fst) in Q. revert Q. cbn [length INR]. unfold Cdiv, Cinv, Cnorm2. simpl. intros Q. field_simplify in Q. lra.
Qed.

Lemma dropped_sample_claim : exists (ranks : list (list (@sample unit unit))) r p,
  evaluate 5 ranks = Ok r /\ ranks <> [] /\ Forall (fun l => length l = 5) ranks /\
  g_gradient r p <> (average (fun s => Cconj (s_energy s) * O_star s p) (concat ranks)
                     - Cconj (average s_energy (concat ranks)) * average (fun s => O_star s p) (concat ranks))%C.
Proof.
  destruct dropped_sample as (ranks & r & p & A & B & D & E). exists ranks, r, p. do 3 (split; [assumption|]). intros Q. apply E. rewrite Q.
  rewrite !(average_ext (fun s => O_star s p) (fun s => o_star s p)) by (intros; symmetry; apply o_star_value).
  rewrite (average_ext (fun s => Cconj (s_energy s) * O_star s p)%C (fun s => Cconj (s_energy s) * o_star s p)%C) by (intros; rewrite o_star_value; reflexivity). reflexivity.
Qed.
(** *** Rescue *)
Section Rescue.
Context {Conf : Type} (amp : nat -> Conf -> option R) (lo hi : R).
Notation rank_state := (@rank_state Conf).
Notation ensure := (ensure_valid amp lo hi).
Notation valid := (local_valid lo hi).
Lemma find_valid_spec vs : forall i j, find_valid vs i = Some j -> i <= j < i + length vs /\ nth (j - i) vs false = true /\ forall k, k < j - i -> nth k vs false = false.
Proof.
  induction vs as [|v vs IH]; intros i j H; [discriminate|]. simpl in H. destruct v.
  - injection H as <-. rewrite Nat.sub_diag. simpl. split; [lia|]. split; [reflexivity|]. intros; lia.
  - destruct (IH _ _ H) as (A & B & D). replace (j - i) with (S (j - S i)) by lia. simpl. split; [lia|]. split; [exact B|]. intros [|k] Hk; [reflexivity|apply D; lia].
Qed.
Lemma find_valid_none vs : forall i, find_valid vs i = None -> forall v, In v vs -> v = false.
Proof.
  induction vs as [|v vs IH]; intros i H w Hw; [destruct Hw|]. simpl in H. destruct v; [discriminate|]. destruct Hw as [<-|Hw]; [reflexivity|eapply IH; eauto].
Qed.
Lemma all_valid_count vs : (length (filter (fun v : bool => v) vs) =? length vs) = true <-> forall v, In v vs -> v = true.
Proof.
  rewrite Nat.eqb_eq. induction vs as [|v vs IH]; simpl; [split; [intros _ w []|reflexivity]|].
  assert (L : length (filter (fun v : bool => v) vs) <= length vs) by (clear; induction vs as [|[|] vs IH]; simpl; lia).
  destruct v; simpl.
  - split; [intros H w [<-|Hw]; [reflexivity|apply IH; [lia|exact Hw]]|]. intros H. f_equal. apply IH. intros w Hw. apply H. right. exact Hw.
  - split; [lia|]. intros H. specialize (H false ltac:(left; reflexivity)). discriminate.
Qed.
Lemma fold_step_ok (step : nat * rank_state -> res rank_state) l : (forall x, In x l -> exists k, step x = Ok k) ->
  exists r, fold_right (fun rk acc => k <- step rk;; l <- acc;; Ok (k :: l)) (Ok []) l = Ok r /\ Forall2 (fun x k => step x = Ok k) l r.
Proof.
  induction l as [|x l IH]; intros H; [exists []; split; [reflexivity|constructor]|]. destruct (H x ltac:(left; reflexivity)) as [k K].
  destruct IH as (r & E & F); [intros; apply H; right; assumption|]. exists (k :: r). simpl. rewrite K. cbn [bind]. rewrite E. split; [reflexivity|constructor; assumption].
Qed.
Lemma fold_step_inv (step : nat * rank_state -> res rank_state) l r :
  fold_right (fun rk acc => k <- step rk;; l <- acc;; Ok (k :: l)) (Ok []) l = Ok r -> Forall2 (fun x k => step x = Ok k) l r.
Proof.
  revert r. induction l as [|x l IH]; intros r H; simpl in H; [injection H as <-; constructor|]. destruct (step x) as [k|] eqn:K; [|discriminate]. cbn [bind] in H.
  destruct (fold_right _ _ l) as [r'|]; [|discriminate]. cbn [bind] in H. injection H as <-. constructor; [exact K|apply IH; reflexivity].
Qed.
Lemma combine_nth_seq (l : list rank_state) i d : i < length l -> nth i (combine (seq 0 (length l)) l) (0, d) = (i, nth i l d).
Proof. intros H. rewrite combine_nth by apply seq_length. rewrite seq_nth by exact H. reflexivity. Qed.
Lemma Forall2_nth' {X Y} (P : X -> Y -> Prop) l m dx dy : Forall2 P l m -> forall i, i < length l -> P (nth i l dx) (nth i m dy).
Proof. induction 1 as [|x y l m H F IH]; intros i Hi; [simpl in Hi; lia|]. destruct i; [exact H|apply IH; simpl in Hi; lia]. Qed.
Lemma Forall2_len {X Y} (P : X -> Y -> Prop) l m : Forall2 P l m -> length l = length m.
Proof. induction 1; simpl; congruence. Qed.
Theorem rescue_result enabled (ranks ranks' : list rank_state) : ensure enabled ranks = Ok ranks' ->
  length ranks' = length ranks /\
  (forall i d, i < length ranks -> valid (nth i ranks d) = true -> nth i ranks' d = nth i ranks d) /\
  (forall i d, i < length ranks -> valid (nth i ranks d) = false ->
     exists s a, s < length ranks /\ valid (nth s ranks d) = true /\ (forall t, t < s -> valid (nth t ranks d) = false) /\
       amp i (k_conf (nth s ranks d)) = Some a /\
       nth i ranks' d = mkRank (k_conf (nth s ranks d)) a true false).
Proof.
  unfold ensure_valid. intros H. destruct (length (filter (fun v => v) (map valid ranks)) =? length ranks) eqn:A.
  - injection H as <-. split; [reflexivity|]. split; [reflexivity|]. intros i d Hi Hv. exfalso. rewrite <- (map_length valid) in A. rewrite all_valid_count in A.
    rewrite (A (valid (nth i ranks d))) in Hv; [discriminate|]. apply in_map. apply nth_In. exact Hi.
  - destruct enabled; [|discriminate]. cbn [negb] in H. destruct (find_valid (map valid ranks) 0) as [s|] eqn:FV; [|discriminate].
    destruct (find_valid_spec _ _ _ FV) as (S1 & S2 & S3). rewrite Nat.sub_0_r, map_length in *. simpl in S1.
    destruct (nth_error ranks s) as [ks|] eqn:NS; [|discriminate].
    apply fold_step_inv in H. pose proof (Forall2_len _ _ _ H) as L. rewrite combine_length, seq_length, Nat.min_id in L. split; [lia|].
    assert (VN : forall d j, j < length ranks -> nth j (map valid ranks) false = valid (nth j ranks d)).
    { intros d j Hj. rewrite (nth_indep _ _ (valid d)) by (rewrite map_length; exact Hj). rewrite (map_nth valid). reflexivity. }
    split; intros i d Hi Hv.
    + pose proof (Forall2_nth' _ _ _ (0, d) d H i ltac:(rewrite combine_length, seq_length, Nat.min_id; exact Hi)) as Q. rewrite combine_nth_seq in Q by exact Hi. cbv beta iota in Q. rewrite Hv in Q. congruence.
    + pose proof (Forall2_nth' _ _ _ (0, d) d H i ltac:(rewrite combine_length, seq_length, Nat.min_id; exact Hi)) as Q. rewrite combine_nth_seq in Q by exact Hi. cbv beta iota in Q. rewrite Hv in Q.
      assert (KS : nth s ranks d = ks) by (apply nth_error_nth; exact NS). unfold try_construct in Q. destruct (amp i (k_conf ks)) as [a|] eqn:AM; [|discriminate].
      exists s, a. split; [lia|]. split; [rewrite <- VN by lia; exact S2|]. split; [intros t Ht; rewrite <- VN by lia; apply S3; exact Ht|]. rewrite KS. split; [exact AM|]. cbn [k_conf k_amp] in Q. congruence.
Qed.
Theorem rescue_abort enabled (ranks : list rank_state) : ranks <> [] ->
  (forall k, In k ranks -> valid k = false) \/ (enabled = false /\ exists k, In k ranks /\ valid k = false) -> ensure enabled ranks = Fail Throw.
Proof.
  intros NE H. unfold ensure_valid. destruct (length (filter (fun v => v) (map valid ranks)) =? length ranks) eqn:A.
  - exfalso. rewrite <- (map_length valid) in A. rewrite all_valid_count in A. destruct H as [H|[_ (k & Hk & Hv)]].
    + destruct ranks as [|k ranks]; [congruence|]. specialize (H k ltac:(left; reflexivity)). rewrite (A (valid k)) in H; [discriminate|left; reflexivity].
    + rewrite (A (valid k)) in Hv; [discriminate|]. apply in_map. exact Hk.
  - destruct H as [H|[-> _]]; [|reflexivity]. destruct enabled; [|reflexivity]. cbn [negb]. destruct (find_valid (map valid ranks) 0) as [s|] eqn:FV; [|reflexivity].
    exfalso. destruct (find_valid_spec _ _ _ FV) as (S1 & S2 & _). rewrite Nat.sub_0_r in S2. rewrite map_length in S1. simpl in S1.
    destruct ranks as [|k0 ranks]; [congruence|]. rewrite (nth_indep _ _ (valid k0)) in S2 by (rewrite map_length; lia). rewrite (map_nth valid) in S2.
    rewrite H in S2; [discriminate|]. apply nth_In. lia.
Qed.
(** When all ranks hold the same state, every rank is valid afterwards. *)
Theorem rescue_valid enabled (ranks ranks' : list rank_state) :
  (forall i j c, amp i c = amp j c) ->
  (forall i k, nth_error ranks i = Some k -> k_init k = true -> amp i (k_conf k) = Some (k_amp k)) ->
  ensure enabled ranks = Ok ranks' -> forall k, In k ranks' -> valid k = true.
Proof.
  intros HA HK H k Hk. destruct (rescue_result _ _ _ H) as (L & V & I). destruct (In_nth _ _ k Hk) as (i & Hi & <-). rewrite L in Hi.
  destruct (valid (nth i ranks k)) eqn:E; [rewrite (V i k Hi E); exact E|]. destruct (I i k Hi E) as (s & a & Hs & Vs & _ & AM & ->).
  unfold local_valid in *. cbn [k_init k_amp andb]. apply andb_prop in Vs. destruct Vs as [Vi Vl].
  rewrite (HA i s), (HK s (nth s ranks k)) in AM; [injection AM as <-; exact Vl|apply nth_error_nth'; exact Hs|exact Vi].
Qed.
End Rescue.

(** *** Normalisation *)
Local Open Scope R_scope.
Lemma fold_max l : forall a, a <= fold_left Rmax l a /\ (forall x, In x l -> x <= fold_left Rmax l a) /\ (fold_left Rmax l a = a \/ In (fold_left Rmax l a) l).
Proof.
  induction l as [|x l IH]; intros a; simpl; [split; [lra|]; split; [intros x []|left; reflexivity]|].
  destruct (IH (Rmax a x)) as (A & B & D). pose proof (Rmax_l a x). pose proof (Rmax_r a x). split; [lra|]. split.
  - intros y [<-|Hy]; [lra|apply B; exact Hy].
  - destruct D as [D|D]; [|right; right; exact D]. rewrite D. unfold Rmax. destruct (Rle_dec a x); [right; left; reflexivity|left; reflexivity].
Qed.
Theorem normalisation amps sites : (0 < sites)%nat -> (exists a, In a amps /\ a <> RtoC 0) ->
  exists s, site_scale amps sites = Ok s /\ 0 < s /\
    (forall a, In a amps -> sqrt (Cnorm2 (RtoC (s ^ sites) * a)%C) <= 1) /\
    (exists a, In a amps /\ sqrt (Cnorm2 (RtoC (s ^ sites) * a)%C) = 1).
Proof.
  intros Hs (a0 & Ha0 & N0). unfold site_scale. set (mags := map (fun a => sqrt (Cnorm2 a)) amps). destruct (fold_max mags 0) as (A & B & D). set (m := fold_left Rmax mags 0) in *.
  assert (P0 : 0 < sqrt (Cnorm2 a0)) by (apply sqrt_lt_R0, Cnorm2_pos; exact N0).
  assert (Pm : 0 < m) by (eapply Rlt_le_trans; [exact P0|apply B; unfold mags; apply in_map_iff; eauto]).
  destruct (Req_EM_T m 0) as [Z|Z]; [lra|]. destruct (Nat.eqb_spec sites 0) as [E|E]; [lia|].
  exists (Rpower (1 / m) (1 / INR sites)). split; [reflexivity|]. assert (SP : 0 < Rpower (1 / m) (1 / INR sites)) by apply exp_pos. split; [exact SP|].
  assert (PW : Rpower (1 / m) (1 / INR sites) ^ sites = / m).
  { rewrite <- Rpower_pow by exact SP. rewrite Rpower_mult. replace (1 / INR sites * INR sites) with 1 by (field; apply not_0_INR; exact E).
    rewrite Rpower_1; [field; exact Z|]. apply Rmult_lt_0_compat; [lra|apply Rinv_0_lt_compat; exact Pm]. }
  assert (SC : forall a, sqrt (Cnorm2 (RtoC (/ m) * a)%C) = / m * sqrt (Cnorm2 a)).
  { intros a. replace (Cnorm2 (RtoC (/ m) * a)%C) with ((/ m * / m) * Cnorm2 a) by (unfold Cnorm2; simpl; ring). pose proof (Rinv_0_lt_compat m Pm).
    rewrite sqrt_mult_alt by nra. rewrite sqrt_square by lra. reflexivity. }
  rewrite PW. split.
  - intros a Ha. rewrite SC. specialize (B (sqrt (Cnorm2 a)) ltac:(unfold mags; apply in_map_iff; eauto)). apply (Rmult_le_reg_l m); [exact Pm|]. rewrite <- Rmult_assoc, Rinv_r by exact Z. lra.
  - destruct D as [D|D]; [lra|]. unfold mags in D. apply in_map_iff in D. destruct D as (a & Ea & Ha). exists a. split; [exact Ha|]. rewrite SC, Ea. field. exact Z.
Qed.
Lemma binned_other ranks r : r <> 0%nat -> binned ranks r = (RtoC 0, Err 0).
Proof. intros H. unfold binned. rewrite (proj2 (Nat.eqb_neq _ _) H). reflexivity. Qed.
Lemma single_value l : (2 <= length l)%nat -> exists e, gather_single l = (average (fun x => x) l, Err e) /\ 0 <= e /\ e * e = error2 l.
Proof. intros H. rewrite gather_single_ok by exact H. destruct (standard_error2 l H) as (e & -> & A & B). exists e. rewrite mean_average. auto. Qed.
Lemma lists_value (data : list (list C)) size : (2 <= length data)%nat -> Forall (fun d => length d = size) data ->
  length (fst (gather_list data)) = size /\ length (snd (gather_list data)) = size /\
  forall j, (j < size)%nat -> let column := map (fun d => nth j d (RtoC 0)) data in
    nth j (fst (gather_list data)) (RtoC 0) = average (fun x => x) column /\
    exists e, nth j (snd (gather_list data)) ErrNaN = Err e /\ 0 <= e /\ e * e = error2 column.
Proof.
  intros H F. rewrite (gather_list_ok data size H F). cbn [fst snd]. rewrite !map_length, seq_length. split; [reflexivity|]. split; [reflexivity|]. intros j Hj. split.
  - rewrite (nth_indep _ _ (mean (map (fun d => nth 0 d (RtoC 0)) data))) by (rewrite map_length, seq_length; exact Hj).
    rewrite (map_nth (fun j => mean (map (fun d => nth j d (RtoC 0)) data))), seq_nth by exact Hj. apply mean_average.
  - set (f := fun j => standard_error (map (fun d => nth j d (RtoC 0)) data) (mean (map (fun d => nth j d (RtoC 0)) data))).
    rewrite (nth_indep _ _ (f 0%nat)) by (rewrite map_length, seq_length; exact Hj). rewrite (map_nth f), seq_nth by exact Hj. unfold f. cbn [Nat.add].
    apply standard_error2. rewrite map_length. exact H.
Qed.
Lemma rescue_unchecked : exists (amp : nat -> bool -> option R) ranks ranks' k,
  ensure_valid amp 0 1 true ranks = Ok ranks' /\ In k ranks' /\ local_valid 0 1 k = false /\
  (forall i k, nth_error ranks i = Some k -> k_init k = true -> amp i (k_conf k) = Some (k_amp k)).
Proof.
  assert (L : legal 0 1 (/ 2) = true).
  { unfold legal. rewrite Rabs_right by lra. destruct (Rlt_dec 0 (/ 2)); [|lra]. destruct (Rlt_dec (/ 2) 1); [reflexivity|lra]. }
  assert (I : legal 0 1 7 = false).
  { unfold legal. rewrite Rabs_right by lra. destruct (Rlt_dec 0 7); [|reflexivity]. destruct (Rlt_dec 7 1); [lra|reflexivity]. }
  exists (fun i c => if (i =? 0)%nat then Some (/ 2) else Some 7).
  exists [mkRank true (/ 2) true true; mkRank false 7 true true].
  exists [mkRank true (/ 2) true true; mkRank true 7 true false], (mkRank true 7 true false). split; [|split; [|split]].
  - unfold ensure_valid. cbn [map]. unfold local_valid. cbn [k_init k_amp andb]. rewrite L, I. cbn. rewrite L, I. reflexivity.
  - right. left. reflexivity.
  - unfold local_valid. cbn [k_init k_amp andb]. exact I.
  - intros [|[|i]] k E; simpl in E; try (injection E as <-; reflexivity). destruct i; discriminate.
Qed.
