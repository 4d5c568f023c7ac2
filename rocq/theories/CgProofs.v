(** Conjugate gradients: residuals, definiteness and the number of iterations. *)
From Coq Require Import List Arith Bool Reals Lia Lra Permutation.
From Verif Require Import Base Cplx Rsum OptModel OptProofs LbModel LbProofs CgModel CgSpec.
Import ListNotations.
Local Open Scope R_scope.
Arguments Cadd : simpl never. Arguments Cmul : simpl never. Arguments Cconj : simpl never. Arguments sumC : simpl never. Arguments RtoC : simpl never. Arguments Csub : simpl never. Arguments Copp : simpl never.
Arguments Cdiv : simpl never. Arguments Cnorm2 : simpl never.

Section V.
Variable dim : nat.
Notation dot := (vdot dim).
Notation nsq := (vnsq dim).
Notation veq := (veq dim).
Lemma veq_refl u : veq u u. Proof. intros i _. reflexivity. Qed.
Lemma veq_sym u v : veq u v -> veq v u. Proof. intros H i Hi. symmetry. auto. Qed.
Lemma veq_trans u v w : veq u v -> veq v w -> veq u w. Proof. intros H K i Hi. rewrite H, K; auto. Qed.
Lemma dot_ext u u' v v' : veq u u' -> veq v v' -> dot u v = dot u' v'.
Proof. intros H K. unfold vdot. apply sumC_ext. intros i Hi. apply in_seq in Hi. rewrite H, K by lia. reflexivity. Qed.
Lemma nsq_ext u v : veq u v -> nsq u = nsq v.
Proof. intros H. unfold vnsq. now rewrite (dot_ext u v u v). Qed.
Lemma dot_add_r u v w : dot u (vadd v w) = (dot u v + dot u w)%C.
Proof. unfold vdot, vadd. rewrite <- sumC_add. apply sumC_ext. intros. ring. Qed.
Lemma dot_scale_r u c v : dot u (vscale c v) = (c * dot u v)%C.
Proof. unfold vdot, vscale. rewrite <- sumC_scal. apply sumC_ext. intros. ring. Qed.
Lemma dot_conj u v : dot v u = Cconj (dot u v).
Proof.
  unfold vdot. generalize (seq 0 dim). induction l as [|i l IH]; [rewrite !sumC_nil, Cconj_R; reflexivity|]. rewrite !sumC_cons, Cconj_add, IH, Cconj_mul, Cconj_invol. f_equal. ring.
Qed.
Lemma dot_add_l u v w : dot (vadd u v) w = (dot u w + dot v w)%C.
Proof. rewrite dot_conj, dot_add_r, Cconj_add, <- !dot_conj. reflexivity. Qed.
Lemma dot_scale_l u c v : dot (vscale c u) v = (Cconj c * dot u v)%C.
Proof. rewrite dot_conj, dot_scale_r, Cconj_mul, <- dot_conj. reflexivity. Qed.
Lemma vsub_as u v : vsub u v = vadd u (vscale (RtoC (-1)) v).
Proof. apply FunctionalExtensionality.functional_extensionality. intros i. unfold vsub, vadd, vscale. apply C_ext; unfold Csub, Cadd, Copp, Cmul, RtoC; simpl; ring. Qed.
Lemma dot_sub_r u v w : dot u (vsub v w) = (dot u v - dot u w)%C.
Proof. rewrite vsub_as, dot_add_r, dot_scale_r. apply C_ext; unfold Csub, Cadd, Copp, Cmul, RtoC; simpl; ring. Qed.
Lemma dot_sub_l u v w : dot (vsub u v) w = (dot u w - dot v w)%C.
Proof. rewrite vsub_as, dot_add_l, dot_scale_l, Cconj_R. apply C_ext; unfold Csub, Cadd, Copp, Cmul, RtoC; simpl; ring. Qed.
Lemma dot_self u : dot u u = RtoC (nsq u).
Proof.
  apply C_ext; [reflexivity|]. pose proof (f_equal snd (dot_conj u u)) as E. unfold Cconj in E. simpl in E. unfold RtoC. simpl. lra.
Qed.
Lemma nsq_sum u : nsq u = rsum (fun i => Cnorm2 (u i)) (seq 0 dim).
Proof.
  unfold vnsq, vdot. generalize (seq 0 dim). induction l as [|i l IH]; [reflexivity|]. rewrite sumC_cons, rsum_cons, <- IH. unfold Cadd, Cnorm2, Cmul, Cconj. simpl. ring.
Qed.
Lemma nsq_nonneg u : 0 <= nsq u.
Proof. rewrite nsq_sum. apply rsum_nonneg. intros. apply Cnorm2_nonneg. Qed.
Lemma nsq_zero u : nsq u = 0 -> veq u vzero.
Proof.
  rewrite nsq_sum. intros H i Hi. unfold vzero. apply Cnorm2_zero. pose proof (Cnorm2_nonneg (u i)).
  assert (Cnorm2 (u i) <= rsum (fun i => Cnorm2 (u i)) (seq 0 dim)); [|lra]. assert (Hin : In i (seq 0 dim)) by (apply in_seq; lia). revert Hin. generalize (seq 0 dim).
  induction l as [|j l IH]; intros Hin; [destruct Hin|]. rewrite rsum_cons. assert (0 <= rsum (fun i => Cnorm2 (u i)) l) by (apply rsum_nonneg; intros; apply Cnorm2_nonneg).
  pose proof (Cnorm2_nonneg (u j)). destruct Hin as [->|Hin]; [lra|specialize (IH Hin); lra].
Qed.
Lemma dot_zero_l u v : veq u vzero -> dot u v = RtoC 0.
Proof. intros H. unfold vdot. apply sumC_zero. intros i Hi. apply in_seq in Hi. rewrite H by lia. unfold vzero. rewrite Cconj_R. ring. Qed.
Lemma cauchy_zero u v : nsq u = 0 -> dot u v = RtoC 0.
Proof. intros H. apply dot_zero_l, nsq_zero, H. Qed.

(** *** Orthogonal families are no larger than the dimension *)
Lemma bessel us : (forall u, In u us -> 0 < nsq u) -> ForallOrdPairs (fun u v => dot u v = RtoC 0) us -> forall v,
  rsum (fun u => Cnorm2 (dot u v) / nsq u) us <= nsq v.
Proof.
  induction us as [|u us IH]; intros Hp Ho v; [rewrite rsum_nil; apply nsq_nonneg|]. inversion Ho as [|? ? Hu Hus]; subst. rewrite Forall_forall in Hu.
  assert (Pu : 0 < nsq u) by (apply Hp; left; reflexivity). set (c := Cmul (RtoC (/ nsq u)) (dot u v)). set (v' := vsub v (vscale c u)).
  assert (E : nsq v' = nsq v - Cnorm2 (dot u v) / nsq u).
  { unfold vnsq at 1. unfold v'. rewrite dot_sub_r, !dot_sub_l, !dot_scale_r, !dot_scale_l, !dot_self, (dot_conj u v). unfold c.
    unfold Cnorm2, Csub, Cadd, Copp, Cmul, Cconj, RtoC. cbn [fst snd]. field. lra. }
  specialize (IH (fun w Hw => Hp w (or_intror Hw)) Hus v'). rewrite rsum_cons.
  rewrite (rsum_ext (fun u0 => Cnorm2 (dot u0 v) / nsq u0) (fun u0 => Cnorm2 (dot u0 v') / nsq u0)); [lra|].
  intros w Hw. unfold v'. rewrite dot_sub_r, dot_scale_r, (dot_conj u w), (Hu w Hw), Cconj_R. f_equal. f_equal. ring.
Qed.
Definition unit_vec (i : nat) : vec := fun j => if (i =? j)%nat then RtoC 1 else RtoC 0.
Lemma dot_unit u i : (i < dim)%nat -> dot u (unit_vec i) = Cconj (u i).
Proof.
  intros Hi. unfold vdot. assert (Hin : In i (seq 0 dim)) by (apply in_seq; lia). pose proof (seq_NoDup dim 0) as Nd. revert Hin Nd. generalize (seq 0 dim).
  induction l as [|j l IH]; intros Hin Nd; [destruct Hin|]. inversion Nd; subst. rewrite sumC_cons. unfold unit_vec at 1. destruct (Nat.eqb_spec i j) as [->|Hn].
  - rewrite sumC_zero; [ring|]. intros k Hk. unfold unit_vec. destruct (Nat.eqb_spec j k) as [->|]; [contradiction|ring].
  - destruct Hin as [->|Hin]; [congruence|]. rewrite (IH Hin) by assumption. ring.
Qed.
Lemma orthogonal_bound us : (forall u, In u us -> 0 < nsq u) -> ForallOrdPairs (fun u v => dot u v = RtoC 0) us -> (length us <= dim)%nat.
Proof.
  intros Hp Ho. apply INR_le. rewrite <- (Rmult_1_r (INR (length us))), <- (rsum_const (X := vec) 1 us). rewrite (rsum_ext (fun _ : vec => 1) (fun u => rsum (fun i => Cnorm2 (dot u (unit_vec i)) / nsq u) (seq 0 dim))).
  - rewrite rsum_swap. rewrite <- (Rmult_1_r (INR dim)). rewrite <- (seq_length dim 0) at 2. rewrite <- (rsum_const 1 (seq 0 dim)). apply rsum_le. intros i Hi.
    eapply Rle_trans; [apply bessel; assumption|]. apply in_seq in Hi. unfold vnsq. rewrite dot_unit by lia. unfold unit_vec. rewrite Nat.eqb_refl. unfold Cconj, RtoC. simpl. lra.
  - intros u Hu. specialize (Hp u Hu). rewrite (rsum_ext _ (fun i => / nsq u * Cnorm2 (u i))).
    + rewrite rsum_scal, <- nsq_sum. field. lra.
    + intros i Hi. apply in_seq in Hi. rewrite dot_unit by lia. unfold Cnorm2, Cconj, Rdiv. simpl. ring.
Qed.

(** *** One run *)
Section A.
Variables (A : vec -> vec) (p : cg_params) (b : vec).
Hypothesis Hlin : linear dim A.
Notation tol := (tol_sq dim p b).
Notation resid x := (vsub b (A x)).
Lemma tol_nonneg : 0 <= tol.
Proof. unfold tol_sq. eapply Rle_trans; [|apply Rmax_r]. apply Rle_0_sqr. Qed.
Lemma next_residual x d c : veq (vsub (resid x) (vscale c (A d))) (resid (vadd x (vscale c d))).
Proof. destruct Hlin as [_ Hl]. intros i Hi. change ((b i - A x i) - c * A d i = b i - A (vadd x (vscale c d)) i)%C. rewrite (Hl x d c i Hi). unfold vadd, vscale. ring. Qed.
(** Facts that hold at the start of every iteration. *)
Definition tracked (init : R) (x r best : vec) (bn rn : R) : Prop :=
  veq r (resid x) /\ rn = nsq r /\ bn = nsq (resid best) /\ bn <= init /\ tol < bn /\ tol < rn.
(** What holds of a result. *)
Definition honest (init : R) (res : cg_result) : Prop :=
  g_norm res = residual dim A b (g_x res) /\ g_norm res <= sqrt init /\ (g_iter res <= c_max p)%nat /\
  (g_reason res = Converged <-> residual dim A b (g_x res) * residual dim A b (g_x res) <= tol).
Lemma sqrt_sq u : sqrt (nsq u) * sqrt (nsq u) = nsq u.
Proof. apply sqrt_sqrt, nsq_nonneg. Qed.
Lemma loop_honest init n : forall k x r d best bn r_prev rn stag, (k + n = c_max p)%nat -> tracked init x r best bn rn ->
  honest init (run_prog A (cg_loop dim p b n k x r d best bn r_prev rn stag)).
Proof.
  assert (Stop : forall x r best bn rn k why, tracked init x r best bn rn -> (k <= c_max p)%nat -> why <> Converged -> honest init (mkRes best (sqrt bn) k why)).
  { intros x r best bn rn k why (T1 & T2 & T3 & T4 & T5 & T6) Hk Hw. unfold honest, residual. cbn. rewrite T3, sqrt_sq. split; [reflexivity|]. split; [apply sqrt_le_1_alt; lra|]. split; [exact Hk|].
    split; [congruence|lra]. }
  induction n as [|n IH]; intros k x r d best bn r_prev rn stag Hk Ht; cbn [cg_loop run_prog]; [eapply Stop; eauto; discriminate|].
  destruct (pap_is_valid (dot d (A d))); cbn [negb run_prog]; [|eapply Stop; eauto; [lia|discriminate]].
  set (alpha := Cdiv (RtoC rn) (dot d (A d))). set (x' := vadd x (vscale alpha d)). destruct (rlt _ _ && _)%bool; cbn [run_prog]; [eapply Stop; eauto; [lia|discriminate]|].
  destruct Ht as (T1 & T2 & T3 & T4 & T5 & T6).
  assert (Go : forall r', veq r' (resid x') -> honest init (run_prog A
     (if rle (nsq r') tol then Ret (mkRes x' (sqrt (nsq r')) (k + 1) Converged)
      else if (0 <? k)%nat && rlt (c_ortho p * nsq r') (Rabs (fst (dot r_prev r'))) then
        cg_loop dim p b n (S k) x' r' r' (if rlt (nsq r') bn then x' else best) (if rlt (nsq r') bn then nsq r' else bn) r' (nsq r') (if rlt (Cnorm2 alpha * nsq d) (dbl_eps * dbl_eps * nsq x') then S stag else 0%nat)
      else cg_loop dim p b n (S k) x' r' (vadd r' (vscale (RtoC (nsq r' / rn)) d)) (if rlt (nsq r') bn then x' else best) (if rlt (nsq r') bn then nsq r' else bn) r' (nsq r') (if rlt (Cnorm2 alpha * nsq d) (dbl_eps * dbl_eps * nsq x') then S stag else 0%nat)))).
  { intros r' Hr'. pose proof (nsq_ext _ _ Hr') as En. destruct (rle (nsq r') tol) eqn:Bt; cbn [run_prog].
    - apply rle_true in Bt. unfold honest, residual. cbn. rewrite <- En, sqrt_sq. split; [reflexivity|]. split; [apply sqrt_le_1_alt; lra|]. split; [lia|]. tauto.
    - apply rle_false in Bt.
      assert (T' : tracked init x' r' (if rlt (nsq r') bn then x' else best) (if rlt (nsq r') bn then nsq r' else bn) (nsq r')).
      { unfold tracked. split; [exact Hr'|]. split; [reflexivity|]. destruct (rlt (nsq r') bn) eqn:Bb; [apply rlt_true in Bb|apply rlt_false in Bb]; repeat match goal with |- _ /\ _ => split end; auto; lra. }
      destruct (_ && _)%bool; apply IH; auto; lia. }
  destruct (recompute p k); cbn [run_prog].
  - apply Go. apply veq_refl.
  - apply Go. eapply veq_trans; [|apply next_residual]. intros i Hi. unfold vsub at 1. rewrite (T1 i Hi). reflexivity.
Qed.
Lemma cg_honest x0 : honest (nsq (resid x0)) (run_prog A (cg dim p b x0)).
Proof.
  unfold cg. cbn [run_prog]. destruct (rle _ tol) eqn:B; cbn [run_prog].
  - apply rle_true in B. unfold honest, residual. cbn. rewrite sqrt_sq. split; [reflexivity|]. split; [lra|]. split; [lia|]. tauto.
  - apply rle_false in B. apply loop_honest; [lia|]. unfold tracked. repeat match goal with |- _ /\ _ => split end; auto using veq_refl; lra.
Qed.
Lemma loop_products n : forall k x r d best bn r_prev rn stag, (products A (cg_loop dim p b n k x r d best bn r_prev rn stag) <= 2 * n)%nat.
Proof.
  induction n as [|n IH]; intros k x r d best bn r_prev rn stag; cbn [cg_loop products]; [lia|]. destruct (pap_is_valid _); cbn [negb products]; [|lia].
  destruct (rlt _ _ && _)%bool; cbn [products]; [lia|].
  destruct (recompute p k); cbn [products]; (destruct (rle _ tol); cbn [products]; [lia|]); (destruct ((0 <? k)%nat && _)%bool; [pose proof (IH (S k)) as H; specialize (H (vadd x (vscale (Cdiv (RtoC rn) (dot d (A d))) d)))|pose proof (IH (S k)) as H; specialize (H (vadd x (vscale (Cdiv (RtoC rn) (dot d (A d))) d)))]);
  (etransitivity; [apply le_n_S; try apply le_n_S; apply H|]; lia) || (etransitivity; [apply le_n_S; apply H|]; lia).
Qed.
Lemma cg_products x0 : (products A (cg dim p b x0) <= 1 + 2 * c_max p)%nat.
Proof. unfold cg. cbn [products]. destruct (rle _ tol); cbn [products]; [lia|]. pose proof (loop_products (c_max p) 0 x0 (resid x0) (resid x0) x0 (nsq (resid x0)) (resid x0) (nsq (resid x0)) 0). lia. Qed.

(** *** Positive definite operators *)
Hypothesis Hsym : self_adjoint dim A.
Hypothesis Hpos : positive_definite dim A.
Lemma pap_real d : dot d (A d) = RtoC (fst (dot d (A d))).
Proof.
  apply C_ext; [reflexivity|]. pose proof (Hsym d d) as E. rewrite (dot_conj d (A d)) in E. apply (f_equal snd) in E. unfold Cconj in E. simpl in E. unfold RtoC. simpl. lra.
Qed.
Lemma pap_ok d : 0 < nsq d -> pap_is_valid (dot d (A d)) = true.
Proof.
  intros H. unfold pap_is_valid. rewrite (pap_real d). unfold RtoC. cbn [fst snd]. rewrite (proj2 (rlt_true 0 _) (Hpos d H)). rewrite Rabs_R0. cbn [andb]. apply rlt_true. apply Rinv_0_lt_compat, pow_lt. lra.
Qed.
Lemma alpha_real rn d : 0 < nsq d -> Cdiv (RtoC rn) (dot d (A d)) = RtoC (rn / fst (dot d (A d))).
Proof.
  intros H. specialize (Hpos d H). rewrite (pap_real d). set (y := fst _) in *. unfold Cdiv, Cinv, Cmul, Cnorm2, RtoC. simpl. apply C_ext; simpl; field; lra.
Qed.
(** The search direction sees the whole residual. *)
Definition aimed (r d : vec) : Prop := dot d r = RtoC (nsq r).
Lemma aimed_nonzero r d : aimed r d -> 0 < nsq r -> 0 < nsq d.
Proof.
  intros H Hr. destruct (Rle_lt_or_eq_dec _ _ (nsq_nonneg d)) as [|E]; [assumption|]. symmetry in E. pose proof (cauchy_zero d r E) as Z. rewrite H in Z. injection Z. lra.
Qed.
Lemma loop_definite n : forall k x r d best bn r_prev rn stag, veq r (resid x) -> rn = nsq r -> tol < rn -> aimed r d ->
  g_reason (run_prog A (cg_loop dim p b n k x r d best bn r_prev rn stag)) <> Indefinite.
Proof.
  induction n as [|n IH]; intros k x r d best bn r_prev rn stag Hr Hrn Ht Ha; cbn [cg_loop run_prog]; [discriminate|].
  pose proof tol_nonneg as T0. assert (Pd : 0 < nsq d) by (apply (aimed_nonzero r d Ha); lra). rewrite (pap_ok d Pd). cbn [negb run_prog].
  rewrite (alpha_real rn d Pd). set (al := RtoC (rn / fst (dot d (A d)))). set (x' := vadd x (vscale al d)).
  destruct (rlt _ _ && _)%bool; cbn [run_prog]; [discriminate|].
  assert (Pp := Hpos d Pd).
  assert (Next : forall r', veq r' (resid x') -> dot d r' = RtoC 0).
  { intros r' Hr'. rewrite (dot_ext d d r' (vsub r (vscale al (A d)))); [|apply veq_refl|].
    - rewrite dot_sub_r, dot_scale_r, Ha, (pap_real d). unfold al. rewrite Hrn. set (y := fst _) in *. apply C_ext; unfold Csub, Cadd, Copp, Cmul, RtoC; simpl; field; lra.
    - eapply veq_trans; [exact Hr'|]. apply veq_sym. eapply veq_trans; [|apply next_residual]. intros i Hi. unfold vsub at 1. rewrite (Hr i Hi). reflexivity. }
  assert (Go : forall r', veq r' (resid x') -> forall best' bn' st', g_reason (run_prog A
     (if rle (nsq r') tol then Ret (mkRes x' (sqrt (nsq r')) (k + 1) Converged)
      else if (0 <? k)%nat && rlt (c_ortho p * nsq r') (Rabs (fst (dot r_prev r'))) then cg_loop dim p b n (S k) x' r' r' best' bn' r' (nsq r') st'
      else cg_loop dim p b n (S k) x' r' (vadd r' (vscale (RtoC (nsq r' / rn)) d)) best' bn' r' (nsq r') st')) <> Indefinite).
  { intros r' Hr' best' bn' st'. destruct (rle (nsq r') tol) eqn:Bt; cbn [run_prog]; [discriminate|]. apply rle_false in Bt. destruct (_ && _)%bool; apply IH; auto; unfold aimed.
    - apply dot_self.
    - rewrite dot_add_l, dot_scale_l, (Next r' Hr'), dot_self. ring. }
  destruct (recompute p k); cbn [run_prog]; apply Go; [apply veq_refl|].
  eapply veq_trans; [|apply next_residual]. intros i Hi. unfold vsub at 1. rewrite (Hr i Hi). reflexivity.
Qed.
Lemma cg_definite x0 : g_reason (run_prog A (cg dim p b x0)) <> Indefinite.
Proof.
  unfold cg. cbn [run_prog]. destruct (rle _ tol) eqn:B; cbn [run_prog]; [discriminate|]. apply rle_false in B. apply loop_definite; auto using veq_refl. apply dot_self.
Qed.

(** *** Termination within the dimension *)
Hypothesis Hortho : 0 <= c_ortho p.
Lemma dot_zero_r u v : veq v vzero -> dot u v = RtoC 0.
Proof. intros H. rewrite dot_conj, dot_zero_l by exact H. apply Cconj_R. Qed.
(** The earlier residuals and directions, newest first, with the current ones. *)
Record krylov (hs : list (vec * vec)) (r d : vec) : Prop := {
  k_pos : forall h, In h hs -> 0 < nsq (fst h);
  k_ort : ForallOrdPairs (fun u v => dot u v = RtoC 0) (map fst hs);
  k_new : forall h, In h hs -> dot (fst h) r = RtoC 0;
  k_conj : forall h, In h hs -> dot (snd h) (A d) = RtoC 0;
  k_span : forall h, In h ((r, d) :: hs) -> exists c u, (u = vzero \/ In u (map snd hs)) /\ veq (fst h) (vadd (snd h) (vscale c u));
  k_img : forall h, In h hs -> exists c s, In s (r :: map fst hs) /\ veq (A (snd h)) (vscale c (vsub (fst h) s)) }.
Lemma krylov_start r : krylov [] r r.
Proof.
  constructor; cbn [map In]; try (intros ? []; fail). { constructor. } intros h [<-|[]]. exists (RtoC 0), vzero. split; [left; reflexivity|]. intros i _. unfold vadd, vscale, vzero. cbn [fst snd]. ring.
Qed.
Lemma krylov_bound hs r d : krylov hs r d -> 0 < nsq r -> (S (length hs) <= dim)%nat.
Proof.
  intros K Hr. replace (S (length hs)) with (length (r :: map fst hs)) by (cbn; now rewrite map_length). apply orthogonal_bound.
  - intros u [<-|Hu]; [exact Hr|]. apply in_map_iff in Hu as (h & <- & Hh). exact (k_pos _ _ _ K h Hh).
  - constructor; [|exact (k_ort _ _ _ K)]. apply Forall_forall. intros u Hu. apply in_map_iff in Hu as (h & <- & Hh). rewrite dot_conj, (k_new _ _ _ K h Hh). apply Cconj_R.
Qed.
Lemma krylov_res_dir hs r d h : krylov hs r d -> In h hs -> dot (fst h) (A d) = RtoC 0.
Proof.
  intros K Hh. destruct (k_span _ _ _ K h (or_intror Hh)) as (c & u & Hu & E). rewrite (dot_ext _ _ _ _ E (veq_refl _)), dot_add_l, dot_scale_l, (k_conj _ _ _ K h Hh).
  destruct Hu as [->|Hu]; [rewrite dot_zero_l by apply veq_refl; ring|]. apply in_map_iff in Hu as (h' & <- & Hh'). rewrite (k_conj _ _ _ K h' Hh'). ring.
Qed.
Lemma krylov_cur_dir hs r d : krylov hs r d -> dot r (A d) = dot d (A d).
Proof.
  intros K. destruct (k_span _ _ _ K (r, d) (or_introl eq_refl)) as (c & u & Hu & E). cbn [fst snd] in E. rewrite (dot_ext _ _ _ _ E (veq_refl _)), dot_add_l, dot_scale_l.
  destruct Hu as [->|Hu]; [rewrite (dot_zero_l vzero) by apply veq_refl; ring|]. apply in_map_iff in Hu as (h' & <- & Hh'). rewrite (k_conj _ _ _ K h' Hh'). ring.
Qed.
Lemma krylov_step hs r d r' : krylov hs r d -> 0 < nsq r -> 0 < nsq d ->
  let al := nsq r / fst (dot d (A d)) in veq r' (vsub r (vscale (RtoC al) (A d))) ->
  dot r r' = RtoC 0 /\ krylov ((r, d) :: hs) r' (vadd r' (vscale (RtoC (nsq r' / nsq r)) d)).
Proof.
  intros K Hr Hd al Hr'. assert (Pp := Hpos d Hd). pose proof (pap_real d) as Rp. set (y := fst (dot d (A d))) in *.
  assert (N : dot r r' = RtoC 0).
  { rewrite (dot_ext _ _ _ _ (veq_refl r) Hr'), dot_sub_r, dot_scale_r, dot_self, (krylov_cur_dir _ _ _ K), Rp. unfold al. apply C_ext; unfold Csub, Cadd, Copp, Cmul, RtoC; simpl; field; lra. }
  assert (Old : forall h, In h hs -> dot (fst h) r' = RtoC 0).
  { intros h Hh. rewrite (dot_ext _ _ _ _ (veq_refl _) Hr'), dot_sub_r, dot_scale_r, (k_new _ _ _ K h Hh), (krylov_res_dir _ _ _ h K Hh). ring. }
  assert (Al : al <> 0). { unfold al. assert (0 < nsq r / y) by (apply Rdiv_lt_0_compat; lra). lra. }
  assert (Img : veq (A d) (vscale (RtoC (/ al)) (vsub r r'))).
  { intros i Hi. unfold vscale, vsub at 1. rewrite (Hr' i Hi). unfold vsub, vscale. apply C_ext; unfold Csub, Cadd, Copp, Cmul, RtoC; simpl; field; exact Al. }
  split; [exact N|]. constructor.
  - intros h [<-|Hh]; [exact Hr|exact (k_pos _ _ _ K h Hh)].
  - cbn [map fst]. constructor; [|exact (k_ort _ _ _ K)]. apply Forall_forall. intros u Hu. apply in_map_iff in Hu as (h & <- & Hh). rewrite dot_conj, (k_new _ _ _ K h Hh). apply Cconj_R.
  - intros h [<-|Hh]; [exact N|exact (Old h Hh)].
  - intros h Hh. rewrite Hsym, dot_add_r, dot_scale_r. destruct Hh as [<-|Hh]; cbn [fst snd].
    + rewrite (dot_ext _ _ _ _ Img (veq_refl r')), dot_scale_l, dot_sub_l, N, dot_self, <- Hsym, Rp, Cconj_R. unfold al. apply C_ext; unfold Csub, Cadd, Copp, Cmul, RtoC; simpl; field; lra.
    + rewrite <- (Hsym (snd h) d), (k_conj _ _ _ K h Hh). destruct (k_img _ _ _ K h Hh) as (c & s & Hs & E). rewrite (dot_ext _ _ _ _ E (veq_refl r')), dot_scale_l, dot_sub_l, (Old h Hh).
      assert (Zs : dot s r' = RtoC 0). { destruct Hs as [<-|Hs]; [exact N|]. apply in_map_iff in Hs as (h' & <- & Hh'). exact (Old h' Hh'). } rewrite Zs. ring.
  - intros h [<-|[<-|Hh]]; cbn [fst snd].
    + exists (RtoC (- (nsq r' / nsq r))), d. split; [right; left; reflexivity|]. intros i _. unfold vadd, vscale. rewrite RtoC_opp. ring.
    + destruct (k_span _ _ _ K (r, d) (or_introl eq_refl)) as (c & u & Hu & E). exists c, u. split; [destruct Hu as [->|Hu]; [left; reflexivity|right; right; exact Hu]|exact E].
    + destruct (k_span _ _ _ K h (or_intror Hh)) as (c & u & Hu & E). exists c, u. split; [destruct Hu as [->|Hu]; [left; reflexivity|right; right; exact Hu]|exact E].
  - intros h [<-|Hh]; cbn [fst snd].
    + exists (RtoC (/ al)), r'. split; [left; reflexivity|exact Img].
    + destruct (k_img _ _ _ K h Hh) as (c & s & Hs & E). exists c, s. split; [right; exact Hs|exact E].
Qed.
Lemma loop_short n : forall k x r d best bn rn stag hs, (dim <= k + n)%nat -> veq r (resid x) -> rn = nsq r -> tol < rn -> aimed r d -> krylov hs r d -> length hs = k ->
  let res := run_prog A (cg_loop dim p b n k x r d best bn r rn stag) in (g_reason res = Converged \/ g_reason res = Stagnated) /\ (g_iter res <= dim)%nat.
Proof.
  pose proof tol_nonneg as T0.
  induction n as [|n IH]; intros k x r d best bn rn stag hs Hk Hr Hrn Ht Ha K Hl; (assert (B := krylov_bound hs r d K ltac:(lra))); cbn [cg_loop run_prog]; [lia|].
  assert (Pd : 0 < nsq d) by (apply (aimed_nonzero r d Ha); lra). rewrite (pap_ok d Pd). cbn [negb run_prog].
  rewrite (alpha_real rn d Pd). set (al := RtoC (rn / fst (dot d (A d)))). set (x' := vadd x (vscale al d)).
  destruct (rlt _ _ && _)%bool; cbn [run_prog]; [cbn; split; [auto|lia]|].
  assert (Go : forall r', veq r' (resid x') -> forall best' bn' st', let res := run_prog A
     (if rle (nsq r') tol then Ret (mkRes x' (sqrt (nsq r')) (k + 1) Converged)
      else if (0 <? k)%nat && rlt (c_ortho p * nsq r') (Rabs (fst (dot r r'))) then cg_loop dim p b n (S k) x' r' r' best' bn' r' (nsq r') st'
      else cg_loop dim p b n (S k) x' r' (vadd r' (vscale (RtoC (nsq r' / rn)) d)) best' bn' r' (nsq r') st') in (g_reason res = Converged \/ g_reason res = Stagnated) /\ (g_iter res <= dim)%nat).
  { intros r' Hr' best' bn' st'. destruct (rle (nsq r') tol) eqn:Bt; cbn [run_prog]; [cbn; split; [auto|lia]|]. apply rle_false in Bt.
    assert (E : veq r' (vsub r (vscale al (A d)))).
    { eapply veq_trans; [exact Hr'|]. apply veq_sym. eapply veq_trans; [|apply next_residual]. intros i Hi. unfold vsub at 1. rewrite (Hr i Hi). reflexivity. }
    unfold al in E. rewrite Hrn in E. destruct (krylov_step hs r d r' K ltac:(lra) Pd E) as (N & K'). rewrite N. change (fst (RtoC 0)) with 0. rewrite Rabs_R0.
    rewrite (proj2 (rlt_false (c_ortho p * nsq r') 0)) by (pose proof (nsq_nonneg r'); nra). rewrite andb_false_r. rewrite Hrn.
    apply (IH (S k)) with (hs := (r, d) :: hs); auto; [lia| |cbn; lia].
    unfold aimed. rewrite dot_add_l, dot_scale_l, dot_self. rewrite (dot_ext d d r' _ (veq_refl d) E), dot_sub_r, dot_scale_r, Ha, (pap_real d).
    assert (Pp := Hpos d Pd). set (y := fst (dot d (A d))) in *. rewrite Cconj_R. apply C_ext; unfold Csub, Cadd, Copp, Cmul, RtoC; simpl; field; split; lra. }
  destruct (recompute p k); cbn [run_prog]; apply Go; [apply veq_refl|].
  eapply veq_trans; [|apply next_residual]. intros i Hi. unfold vsub at 1. rewrite (Hr i Hi). reflexivity.
Qed.
Lemma cg_short x0 : (dim <= c_max p)%nat -> let res := run_prog A (cg dim p b x0) in (g_reason res = Converged \/ g_reason res = Stagnated) /\ (g_iter res <= dim)%nat.
Proof.
  intros H. unfold cg. cbn [run_prog]. destruct (rle _ tol) eqn:B; cbn [run_prog]; [cbn; split; [auto|lia]|]. apply rle_false in B. apply loop_short with (hs := []); auto using veq_refl, krylov_start. apply dot_self.
Qed.
End A.
End V.
