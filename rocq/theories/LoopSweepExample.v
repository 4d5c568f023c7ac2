(** A case that meets the hypotheses: a sweep over two rows and two columns. *)
From Coq Require Import List Arith Bool Reals Lia Lra.
From Verif Require Import Base Cplx Rsum SumModel SumSpec SumProofs TrgTensor ContractorModel BmpsModel BmpsMain OptModel CgModel SuModel SuSpec ProjModel ProjSpec ProjGrid ProjExample LoopModel LoopSpec LoopGauge LoopDone LoopEnd LoopExample LoopSweepModel LoopSweepSpec.
Import ListNotations.
Local Open Scope nat_scope.

(** all singular values are one *)
Lemma small_svd_square T n : shape T = [n; n] -> let '(u, s, vt) := small_svd 1 T in shape u = [n; n] /\ s = repeat 1%R n /\ shape vt = [n; n].
Proof. intros S. unfold small_svd, plain_svd, left_svd. rewrite S. cbn [firstn skipn size fold_right]. rewrite Nat.mul_1_r. rewrite Nat.leb_refl. split; [reflexivity|]. split; reflexivity. Qed.
Lemma tr_shape T a b : shape T = [a; b] -> shape (transpose [1; 0] T) = [b; a].
Proof. destruct T as [sh f]. cbn [shape]. intros ->. reflexivity. Qed.
Lemma c2_shape A B x y a b c d : shape A = [a; b] -> shape B = [c; d] -> x < 2 -> y < 2 -> shape (contract A [x] B [y]) = [nth (1 - x) [a; b] 0; nth (1 - y) [c; d] 0].
Proof. destruct A as [sa fa], B as [sb fb]. cbn [shape]. intros -> ->. destruct x as [|[|x]], y as [|[|y]]; intros; try lia; reflexivity. Qed.
Lemma fet_ones pr U SU n : forall N u s vd old u' s' vd', shape u = [n; n] -> length s = n -> s = repeat 1%R n -> shape vd = [n; n] ->
  fet_loop small_svd pr N U SU u s vd old = Ok (u', s', vd') -> s' = repeat 1%R n.
Proof.
  induction N as [|N IH]; intros u s vd old u' s' vd' Su Ls Hs Sv E; [cbn in E; congruence|]. cbn [fet_loop] in E.
  destruct (solve (l_cg pr) _ _ _) as [Y|] eqn:EY; cbn [bind] in E; [|discriminate].
  assert (SX : shape (transpose [1; 0] (contract vd [1] (diag s) [0])) = [n; n]) by (apply tr_shape; rewrite (c2_shape vd (diag s) 1 0 n n n n); [reflexivity|exact Sv|cbn [diag shape]; rewrite Ls; reflexivity|lia|lia]).
  assert (SY : forall p B P X Y, shape X = [n; n] -> solve p B P X = Ok Y -> shape Y = [n; n]).
  { clear. intros p B P X Y S E. unfold solve in E. unfold dimat in E. rewrite S in E. cbn [nth] in E. destruct (g_reason _); try discriminate. assert (Q : forall (x y : tensor), Ok x = Ok y -> y = x) by congruence. apply Q in E. subst Y. reflexivity. }
  pose proof (SY _ _ _ _ _ SX EY) as SHY. pose proof (small_svd_square (contract Y [0] u [0]) n ltac:(rewrite (c2_shape Y u 0 0 n n n n) by (assumption || lia); reflexivity)) as Q1.
  destruct (small_svd 1 (contract Y [0] u [0])) as [[vd1 s1] u1]. destruct Q1 as (A1 & A2 & A3).
  match type of E with context [solve ?p ?b ?q ?x] => destruct (solve p b q x) as [Y'|] eqn:EY' end; cbn [bind] in E; [|discriminate].
  assert (SX' : shape (transpose [1; 0] (contract (diag s1) [1] u1 [0])) = [n; n]) by (apply tr_shape; rewrite (c2_shape (diag s1) u1 1 0 n n n n); [reflexivity|cbn [diag shape]; rewrite A2, repeat_length; reflexivity|exact A3|lia|lia]).
  pose proof (SY _ _ _ _ _ SX' EY') as SHY'. pose proof (small_svd_square (contract vd1 [1] Y' [1]) n ltac:(rewrite (c2_shape vd1 Y' 1 1 n n n n) by (assumption || lia); reflexivity)) as Q2.
  destruct (small_svd 1 (contract vd1 [1] Y' [1])) as [[vd2 s2] u2]. destruct Q2 as (B1 & B2 & B3).
  destruct (below_tol _ _); [assert (s' = s2) by congruence; subst; reflexivity|]. apply (IH u2 s2 vd2 s2 u' s' vd'); try assumption. rewrite B2. apply repeat_length.
Qed.
Lemma fet_all_ones pr U sigma u s vd : fet small_svd pr U sigma = Ok (u, s, vd) -> s = repeat 1%R (length sigma).
Proof.
  unfold fet. pose proof (small_svd_square (diag sigma) (length sigma) eq_refl) as Q. destruct (small_svd 1 (diag sigma)) as [[vd0 s0] u0]. destruct Q as (Q1 & Q2 & Q3). intros E.
  assert (L : length s0 = length sigma) by (rewrite Q2; apply repeat_length). exact (fet_ones _ _ _ _ _ _ _ _ _ _ _ _ Q3 L Q2 Q1 E).
Qed.
Lemma fet_steps_ones pr : forall l k k', fold_left (fet_step small_svd pr) l (Ok k) = Ok k' -> (forall i, length (k_ls k' i) = length (k_ls k i)) /\ forall i, (exists j, In j l /\ i = (j + 3) mod 4) -> k_ls k' i = repeat 1%R (length (k_ls k i)).
Proof.
  induction l as [|j l IH]; intros k k' E; [cbn in E; assert (k' = k) by congruence; subst; split; [reflexivity|intros i (j & [] & _)]|]. cbn [fold_left] in E.
  remember (fet_step small_svd pr (Ok k) j) as w eqn:Ew. unfold fet_step in Ew. cbn [bind] in Ew. destruct (fet small_svd pr (k_us k j) (k_ls k ((j + 3) mod 4))) as [[[u s] vd]|] eqn:EF; cbn [bind] in Ew.
  2: { subst w. exfalso. clear -E. induction l as [|a l IH]; [discriminate|apply IH; exact E]. }
  subst w. apply fet_all_ones in EF. destruct (IH _ _ E) as [H1 H2]. cbn [k_ls] in H1, H2.
  assert (LN : forall i, length (set_nth (k_ls k) ((j + 3) mod 4) s i) = length (k_ls k i)). { intros i. unfold set_nth. destruct (Nat.eqb_spec i ((j + 3) mod 4)) as [->|]; [rewrite EF; apply repeat_length|reflexivity]. }
  split; [intros i; rewrite H1; apply LN|]. intros i (j' & Hj & ->). destruct (in_dec Nat.eq_dec ((j' + 3) mod 4) (map (fun q => (q + 3) mod 4) l)) as [In1|NI].
  - apply in_map_iff in In1. destruct In1 as (q & Q1 & Q2). rewrite H2 by (exists q; split; [exact Q2|symmetry; exact Q1]). rewrite LN. reflexivity.
  - destruct Hj as [->|Hj]; [|exfalso; apply NI; apply in_map_iff; exists j'; split; [reflexivity|exact Hj]].
    assert (K : forall l k k', fold_left (fet_step small_svd pr) l (Ok k) = Ok k' -> forall i, ~ In i (map (fun q => (q + 3) mod 4) l) -> k_ls k' i = k_ls k i).
    { clear. induction l as [|j l IH]; intros k k' E i Hi; [cbn in E; assert (k' = k) by congruence; subst; reflexivity|]. cbn [fold_left] in E. remember (fet_step small_svd pr (Ok k) j) as w eqn:Ew. unfold fet_step in Ew. cbn [bind] in Ew. destruct (fet _ _ _ _) as [[[u s] vd]|]; cbn [bind] in Ew.
      2: { subst w. exfalso. clear -E. induction l as [|a l IH]; [discriminate|apply IH; exact E]. }
      subst w. cbn [map In] in Hi. rewrite (IH _ _ E) by tauto. cbn [k_ls]. unfold set_nth. destruct (Nat.eqb_spec i ((j + 3) mod 4)) as [->|]; [tauto|reflexivity]. }
    rewrite (K _ _ _ E _ NI). cbn [k_ls]. unfold set_nth. rewrite Nat.eqb_refl. exact EF.
Qed.
(** the gauge keeps the dimensions *)
Lemma gauge_dims pr U sigma head tail h : gauge small_svd small_evd small_vec pr U sigma head tail = Ok h -> length (h_sigma h) = length sigma.
Proof.
  unfold gauge. unfold small_evd at 1 2. unfold small_vec. cbn [eye dimat shape nth].
  match goal with |- context [small_svd 1 ?t] => set (t3 := t) end. assert (S3 : shape t3 = [length sigma; length sigma]).
  { unfold t3. rewrite (c2_shape _ _ 1 0 (length sigma) (length sigma) (length sigma) (length sigma)); [reflexivity| | |lia|lia].
    - rewrite (c2_shape _ _ 1 0 (length sigma) (length sigma) (length sigma) (length sigma)); [reflexivity| |reflexivity|lia|lia]. rewrite (c2_shape _ _ 1 0 (length sigma) (length sigma) (length sigma) (length sigma)); [reflexivity| |reflexivity|lia|lia].
      match goal with |- shape (cyc (diag ?l) _ _ _ _) = _ => transitivity [length l; length sigma]; [reflexivity|] end. rewrite roots_length, unit_length_length, fix_sign_length, repeat_length. reflexivity.
    - cbn [diag shape]. rewrite roots_length, unit_length_length, fix_sign_length, repeat_length. reflexivity. }
  pose proof (small_svd_square t3 _ S3) as Q. destruct (small_svd 1 t3) as [[vl s] vr]. destruct Q as (_ & Q & _). intros E. cbv zeta in E.
  destruct (below_tol _ _); [|discriminate]. destruct (above_tol _ _); [destruct (below_tol _ _); [|discriminate]|]; apply Ok_same in E; subst h; cbn [h_sigma]; rewrite Q; apply repeat_length.
Qed.
Lemma gauge_steps_dims pr : forall l k k', fold_left (gauge_step small_svd small_evd small_vec pr) l (Ok k) = Ok k' -> forall i, length (k_ls k' i) = length (k_ls k i).
Proof.
  induction l as [|j l IH]; intros k k' E i; [cbn in E; assert (k' = k) by congruence; subst; reflexivity|]. cbn [fold_left] in E. remember (gauge_step small_svd small_evd small_vec pr (Ok k) j) as w eqn:Ew. unfold gauge_step in Ew. cbn [bind] in Ew. destruct (gauge _ _ _ _ _ _ _ _) as [h|] eqn:EG; cbn [bind] in Ew.
  2: { subst w. exfalso. clear -E. induction l as [|a l IH]; [discriminate|apply IH; exact E]. }
  subst w. rewrite (IH _ _ E). cbn [k_ls]. unfold set_nth. destruct (Nat.eqb_spec i ((j + 3) mod 4)) as [->|]; [exact (gauge_dims _ _ _ _ _ _ EG)|reflexivity].
Qed.
Lemma ones_kept n : 1 <= n <= 4 -> kept (1/4) (unit_length (repeat 1%R n)).
Proof.
  intros Hn x Hx. right. unfold unit_length in Hx. apply in_map_iff in Hx. destruct Hx as (y & <- & Hy). apply repeat_spec in Hy. subst y. rewrite Rmult_1_r.
  assert (Q : forall k, fold_right (fun x a => x * x + a)%R 0%R (repeat 1%R k) = INR k) by (induction k as [|k IH]; [reflexivity|]; cbn [repeat fold_right]; rewrite IH, S_INR; ring). unfold norm_of. rewrite Q.
  assert (P : (0 < sqrt (INR n))%R) by (apply sqrt_lt_R0; apply lt_0_INR; lia).
  assert (B : (sqrt (INR n) <= 2)%R). { replace 2%R with (sqrt (2 * 2)) by (apply sqrt_square; lra). apply sqrt_le_1_alt. replace (2 * 2)%R with (INR 4) by (cbn; lra). apply le_INR. lia. }
  rewrite Rabs_pos_eq by (left; apply Rinv_0_lt_compat; exact P). apply Rlt_le_trans with (/ 2)%R; [lra|]. apply Rinv_le_contravar; assumption.
Qed.

(** with this tolerance the new weights can be inverted *)
Definition sweep_para : loop_params := mkLoop (1/2) (1/4) (1/1000000) (1/1000000000) (1/100000000) 10 (mkCg 10 (1/100000000) (1/100000000) 10 (1/2)).
Definition all_flips (r c : nat) : nat -> tensor := flips.
Lemma two_sound4 : sound (l_env_tol sweep_para) two.
Proof.
  cbn [l_env_tol sweep_para]. destruct two_sound as (_ & H2 & H3). split; [lra|]. split; [|exact H3]. intros r c Hr Hc. destruct (H2 r c Hr Hc) as (S & K1 & K2 & K3 & K4). split; [exact S|].
  assert (W : forall s, kept (1/2) s -> kept (1/4) s) by (intros s K x Hx; destruct (K x Hx) as [|]; [left; assumption|right; lra]). repeat split; apply W; assumption.
Qed.
Lemma two_construct : loop_construct (p_rows two) (p_cols two) (p_per two) 1 1 = Ok tt.
Proof. reflexivity. Qed.
Lemma two_gates : gates_fit two all_flips.
Proof. intros [r c] Hp. cbn in Hp. destruct Hp as [E|[]]. injection E as <- <-. exact two_fits. Qed.
Lemma weights_ones qr pr gate P r c out : loop_project qr small_svd small_svd small_evd small_vec pr gate P r c = Ok out ->
  exists gs ws, lr_peps out = store (pat qr small_svd gate P r c) r c gs (fun i => unit_length (ws i)) /\ forall i, i < 4 -> ws i = repeat 1%R (length (loop_lambdas (pat qr small_svd gate P r c) r c i)).
Proof.
  unfold loop_project. destruct (negb (p_per P) && _); [discriminate|]. cbv zeta. generalize (pat qr small_svd gate P r c). intros P1.
  match goal with |- context [gauge_all _ _ _ _ ?g ?l] => destruct (gauge_all small_svd small_evd small_vec pr g l) as [k1|] eqn:EG end; cbn [bind]; [|discriminate].
  destruct (fet_all small_svd pr k1) as [k2|] eqn:EF; cbn [bind]; [|discriminate]. intros E. apply Ok_same in E. subst out. cbn [lr_peps].
  eexists. exists (k_ls k2). split; [reflexivity|]. intros i Hi. pose proof (gauge_steps_dims _ _ _ _ EG i) as D1. destruct (fet_steps_ones _ _ _ _ EF) as [D2 D3]. cbn [k_ls] in D1.
  rewrite D3; [rewrite D1; reflexivity|]. exists ((i + 1) mod 4). destruct i as [|[|[|[|i]]]]; cbn; try lia; split; auto.
Qed.
Lemma store_lam P gs ws i : p_rows P = 2 -> p_cols P = 2 -> i < 4 -> lam_of (store P 0 0 gs ws) (side 2 2 0 0 i) = ws i.
Proof.
  destruct P as [R K per g v h]. cbn [p_rows p_cols]. intros -> -> Hi. destruct i as [|[|[|[|i]]]]; try lia; reflexivity.
Qed.
Lemma two_dims : p_rows (pat small_qr small_svd flips two 0 0) = 2 /\ p_cols (pat small_qr small_svd flips two 0 0) = 2 /\ map (fun i => length (loop_lambdas (pat small_qr small_svd flips two 0 0) 0 0 i)) [0; 1; 2; 3] = [4; 2; 2; 2].
Proof. split; [reflexivity|]. split; [reflexivity|]. vm_compute. reflexivity. Qed.
Lemma two_weights out : loop_project small_qr small_svd small_svd small_evd small_vec sweep_para flips two 0 0 = Ok out ->
  forall i, i < 4 -> kept (1/4) (lam_of (lr_peps out) (side 2 2 0 0 i)).
Proof.
  intros E i Hi. destruct (weights_ones _ _ _ _ _ _ _ E) as (gs & ws & -> & W). destruct two_dims as (D1 & D2 & D3). generalize dependent (pat small_qr small_svd flips two 0 0). intros P1 W D1 D2 D3.
  rewrite (store_lam P1 gs _ i D1 D2 Hi), (W i Hi). apply ones_kept. clear W. set (f := fun i => length (loop_lambdas P1 0 0 i)) in *. change (1 <= f i <= 4). clearbody f. cbn [map] in D3. injection D3 as E0 E1 E2 E3. destruct i as [|[|[|[|i]]]]; lia.
Qed.
Lemma two_starts : starts_well small_qr small_svd small_svd small_evd small_vec sweep_para 4 all_flips two (plaquette_order 2 2 false).
Proof.
  change (plaquette_order 2 2 false) with [(0, 0)]. cbn [starts_well]. split; [exact two_room|]. split; [exact two_conditioned|]. split.
  - exists up. destruct two_old as (H1 & _ & H2). split; [exact H1|]. cbn [p_rows p_cols two]. unfold all_flips. rewrite H2. apply one_nonzero. reflexivity.
  - intros out E. split; [|exact I]. exact (two_weights out E).
Qed.
