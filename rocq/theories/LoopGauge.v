(** Gauge fixing and full-environment truncation are changes of basis on a bond. *)
From Coq Require Import List Arith Lia Bool Reals Lra.
From Verif Require Import Base Cplx SumModel SumSpec SumProofs NetSum NetEx ContractorModel TrgTensor TrgHoleAlg BmpsModel BmpsAlg OptModel CgModel ProjModel ProjSpec ProjAlg ProjCore ProjTwo ProjPatch ProjGrid LoopModel LoopSpec LoopAlg.
Import NetEx ListNotations.
Local Open Scope nat_scope.

Lemma inside1 a i : i < a -> inside [a] [i].
Proof. intros H. constructor; [exact H|constructor]. Qed.
Lemma Ok_same {A} (x y : A) : Ok x = Ok y -> x = y.
Proof. congruence. Qed.
Lemma unflat_shape a b v : shape (unflat a b v) = [a; b].
Proof. reflexivity. Qed.
Lemma roots_length s : length (roots s) = length s.
Proof. apply map_length. Qed.
Lemma unit_length_length s : length (unit_length s) = length s.
Proof. apply map_length. Qed.
Lemma fix_sign_length s : length (fix_sign s) = length s.
Proof. unfold fix_sign. destruct (rlt _ _); [apply map_length|reflexivity]. Qed.
Lemma inv_good tol s i : (0 < tol)%R -> Forall (fun x => (tol <= x)%R) s -> i < length s -> (el (inv_elements tol s) i * el s i = RtoC 1)%C.
Proof.
  intros T F H. rewrite inv_el by exact H. rewrite Forall_forall in F. pose proof (F (nth i s 0%R) (nth_In _ _ H)) as G. unfold el.
  destruct (Rlt_dec _ _) as [L|L]; [rewrite Rabs_right in L by lra; lra|]. unfold Cmul, RtoC. cbn [fst snd]. f_equal; field; lra.
Qed.
Lemma conj_sum n f : Cconj (sm n f) = sm n (fun i => Cconj (f i)).
Proof.
  unfold sm. induction (seq 0 n) as [|x l IH]; [unfold sumC, Cconj, RtoC; cbn; f_equal; ring|]. cbn [sumC fold_right] in *. unfold sumC in *. rewrite <- IH. unfold Cconj, Cadd. cbn [fst snd]. f_equal; ring.
Qed.
Lemma conj_mul a b : Cconj (a * b)%C = (Cconj a * Cconj b)%C.
Proof. destruct a, b. unfold Cconj, Cmul. cbn [fst snd]. f_equal; ring. Qed.
Lemma conj_real x : Cconj (RtoC x) = RtoC x.
Proof. unfold Cconj, RtoC. cbn [fst snd]. f_equal; ring. Qed.
Lemma conj_conj a : Cconj (Cconj a) = a.
Proof. destruct a. unfold Cconj. cbn [fst snd]. f_equal; ring. Qed.

Section Gauge.
Context (svd : nat -> tensor -> tensor * list R * tensor) (evd : tensor -> tensor * list R) (eigvec : bool -> tensor -> list R -> tensor) (pr : loop_params).
Context (SV : svd_any svd) (EV : evd_unitary evd) (EG : eig_shape eigvec) (T0 : (0 < l_inv_tol pr)%R).
(** from the matrices on both sides on *)
Definition finish (U : tensor) (s' : list R) (x y : tensor) (rs : list R) (head tail : tensor) : res gauged :=
  let t6 := cyc (contract U [3] (dag x) [0]) 2 x 0 1 in
  if below_tol (asymmetry t6 [3; 2; 1; 0]) (l_correct pr) then
    let U' := transpose [0; 1; 3; 2] (contract (contract y [] (dag y) []) [1; 3] (symmetrized t6 [3; 2; 1; 0]) [1; 2]) in
    let out U := Ok (Gauged U s' (contract y [1] head [0]) (contract tail [4] x [0]) rs) in
    if above_tol (asymmetry U' [1; 0; 3; 2]) (l_warn pr) then
      if below_tol (asymmetry U' [1; 0; 3; 2]) (l_correct pr) then out (symmetrized U' [1; 0; 3; 2]) else Fail Throw
    else out U'
  else Fail Throw.
(** the square roots that are inverted *)
Definition side_roots (left : bool) (U : tensor) (sigma : list R) : list R := roots (unit_length (fix_sign (snd (evd (eigvec left U sigma))))).
Lemma gauge_parts U sigma n : length sigma = n -> exists s' x y, let rs := side_roots true U sigma ++ side_roots false U sigma in
  (forall head tail, gauge svd evd eigvec pr U sigma head tail = finish U s' x y rs head tail) /\ length s' <= n /\ shape x = [n; length s'] /\ shape y = [length s'; n] /\
  (Forall (fun x => (l_inv_tol pr <= x)%R) rs -> rebond n (length s') (el sigma) (el s') (fun i z => entry x [i; z]) (fun z j => entry y [z; j])).
Proof.
  intros Ls. unfold gauge.
  pose proof (EV (eigvec true U sigma) n ltac:(rewrite EG, Ls; reflexivity)) as V1. pose proof (EV (eigvec false U sigma) n ltac:(rewrite EG, Ls; reflexivity)) as V2.
  unfold side_roots. destruct (evd (eigvec true U sigma)) as [ul dl_]. destruct (evd (eigvec false U sigma)) as [ur dr_]. destruct V1 as (Sul & Ll & Ol), V2 as (Sur & Lr & Or). cbn [snd].
  set (rl := roots (unit_length (fix_sign dl_))). set (rr := roots (unit_length (fix_sign dr_))).
  assert (Lrl : length rl = n) by (unfold rl; rewrite roots_length, unit_length_length, fix_sign_length; exact Ll).
  assert (Lrr : length rr = n) by (unfold rr; rewrite roots_length, unit_length_length, fix_sign_length; exact Lr). 
  set (t3 := contract (contract (contract (cyc (diag rl) 0 ul 1 1) [1] (diag sigma) [0]) [1] ur [0]) [1] (diag rr) [0]).
  assert (E3 : shape t3 = [n; n] /\ forall i j, i < n -> j < n -> entry t3 [i; j] = (el rl i * sm n (fun y => (entry ul [y; i] * el sigma y * entry ur [y; j])%C) * el rr j)%C).
  { assert (Q : shape t3 = [length rl; length rr] /\ forall i j, entry t3 [i; j] = sm n (fun k => (sm n (fun y => (sm n (fun y' => (sm (length rl) (fun m => (dl rl m i * entry ul [y'; m])%C) * dl sigma y' y)%C) * entry ur [y; k])%C) * dl rr k j)%C)).
    { unfold t3. revert Sul Sur Ls. clear. intros A B <-. revert A B. destruct ul as [sh0 f0], ur as [sh1 f1]. cbn [shape]. intros -> ->. split; reflexivity. }
    destruct Q as [Q1 Q2]. split; [rewrite Q1, Lrl, Lrr; reflexivity|]. intros i j Hi Hj. rewrite Q2. rewrite sm_at by exact Hj. f_equal. rewrite <- sm_scal. apply sm_ext. intros y Hy.
    rewrite sm_at by exact Hy. rewrite at_sm by (rewrite Lrl; exact Hi). ring. }
  destruct E3 as [S3 E3]. pose proof (SV 1 t3 ltac:(rewrite S3; cbn; lia)) as V. destruct (svd 1 t3) as [[vl s'] vr]. rewrite S3 in V. cbn [firstn skipn app size fold_right] in V. destruct V as (Svl & Svr & Len & _ & EV3). rewrite Nat.mul_1_r in Len.
  set (x := contract (cyc (dag ul) 1 (diag (inv_elements (l_inv_tol pr) rl)) 1 1) [1] vl [0]).
  set (y := contract (contract vr [1] (diag (inv_elements (l_inv_tol pr) rr)) [0]) [1] (dag ur) [1]).
  assert (Ex : shape x = [n; length s'] /\ forall i z, entry x [i; z] = sm n (fun m => (Cconj (entry ul [i; m]) * el (inv_elements (l_inv_tol pr) rl) m * entry vl [m; z])%C)).
  { assert (Q : shape x = [n; length s'] /\ forall i z, entry x [i; z] = sm (length (inv_elements (l_inv_tol pr) rl)) (fun m => (sm n (fun k => (Cconj (entry ul [i; k]) * dl (inv_elements (l_inv_tol pr) rl) m k)%C) * entry vl [m; z])%C)).
    { unfold x. revert Sul Svl. clear. destruct ul as [sh0 f0], vl as [sh1 f1]. cbn [shape]. intros -> ->. split; reflexivity. }
    destruct Q as [Q1 Q2]. split; [exact Q1|]. intros i z. rewrite Q2. rewrite inv_length, Lrl. apply sm_ext. intros m Hm. rewrite sm_at' by exact Hm. reflexivity. }
  assert (Ey : shape y = [length s'; n] /\ forall z j, entry y [z; j] = sm n (fun k => (entry vr [z; k] * el (inv_elements (l_inv_tol pr) rr) k * Cconj (entry ur [j; k]))%C)).
  { assert (Q : shape y = [length s'; n] /\ forall z j, entry y [z; j] = sm (length (inv_elements (l_inv_tol pr) rr)) (fun k => (sm n (fun k' => (entry vr [z; k'] * dl (inv_elements (l_inv_tol pr) rr) k' k)%C) * Cconj (entry ur [j; k]))%C)).
    { unfold y. revert Sur Svr. clear. destruct ur as [sh0 f0], vr as [sh1 f1]. cbn [shape]. intros -> ->. split; reflexivity. }
    destruct Q as [Q1 Q2]. split; [exact Q1|]. intros i z. rewrite Q2. rewrite inv_length, Lrr. apply sm_ext. intros m Hm. rewrite sm_at by exact Hm. reflexivity. }
  destruct Ex as [Sx Ex], Ey as [Sy Ey].
  exists s', x, y. cbv zeta. split; [reflexivity|]. split; [exact Len|]. split; [exact Sx|]. split; [exact Sy|]. clearbody rl rr. intros Fr. apply Forall_app in Fr. destruct Fr as [Fl Fr].
  intros i j Hi Hj.
  transitivity (sm (length s') (fun z => (sm n (fun m => (Cconj (entry ul [i; m]) * el (inv_elements (l_inv_tol pr) rl) m * entry vl [m; z])%C) * el s' z * sm n (fun k => (entry vr [z; k] * el (inv_elements (l_inv_tol pr) rr) k * Cconj (entry ur [j; k]))%C))%C)).
  { apply sm_ext. intros z _. rewrite Ex, Ey. reflexivity. }
  transitivity (sm n (fun m => sm n (fun k => (Cconj (entry ul [i; m]) * el (inv_elements (l_inv_tol pr) rl) m * el (inv_elements (l_inv_tol pr) rr) k * Cconj (entry ur [j; k]) * sm (length s') (fun z => (entry vl [m; z] * el s' z * entry vr [z; k])%C))%C))).
  { set (T := [one (fun m => Cconj (entry ul [i; m])); one (el (inv_elements (l_inv_tol pr) rl)); two (fun m z => entry vl [m; z]); one (el s'); two (fun z k => entry vr [z; k]); one (el (inv_elements (l_inv_tol pr) rr)); one (fun k => Cconj (entry ur [j; k]))]). set (ds := [length s'; n; n]).
    ein T ds (Sum 0 (Mul (Mul (Sum 1 (Mul (Mul (At 0 [1]) (At 1 [1])) (At 2 [1; 0]))) (At 3 [0])) (Sum 2 (Mul (Mul (At 4 [0; 2]) (At 5 [2])) (At 6 [2])))))
      (Sum 1 (Sum 2 (Mul (Mul (Mul (Mul (At 0 [1]) (At 1 [1])) (At 5 [2])) (At 6 [2])) (Sum 0 (Mul (Mul (At 2 [1; 0]) (At 3 [0])) (At 4 [0; 2])))))). }
  transitivity (sm n (fun m => sm n (fun k => (Cconj (entry ul [i; m]) * Cconj (entry ur [j; k]) * sm n (fun y => (entry ul [y; m] * el sigma y * entry ur [y; k])%C))%C))).
  { apply sm_ext. intros m Hm. apply sm_ext. intros k Hk. pose proof (EV3 [m] [k] (inside1 _ _ Hm) (inside1 _ _ Hk)) as Q. cbn [app] in Q.
    change (sm (length s') (fun z => (entry vl [m; z] * el s' z * entry vr [z; k])%C)) with (sumC (fun z => (entry vl [m; z] * RtoC (nth z s' 0%R) * entry vr [z; k])%C) (seq 0 (length s'))). rewrite <- Q, (E3 m k Hm Hk).
    pose proof (inv_good (l_inv_tol pr) rl m T0 Fl ltac:(rewrite Lrl; exact Hm)) as A. pose proof (inv_good (l_inv_tol pr) rr k T0 Fr ltac:(rewrite Lrr; exact Hk)) as B.
    set (ZZ := sm n _). transitivity (Cconj (entry ul [i; m]) * Cconj (entry ur [j; k]) * ZZ * ((el (inv_elements (l_inv_tol pr) rl) m * el rl m) * (el (inv_elements (l_inv_tol pr) rr) k * el rr k)))%C; [ring|]. rewrite A, B. ring. }
  transitivity (sm n (fun y => (el sigma y * (sm n (fun m => (entry ul [y; m] * Cconj (entry ul [i; m]))%C) * sm n (fun k => (entry ur [y; k] * Cconj (entry ur [j; k]))%C)))%C)).
  { set (T := [one (fun m => Cconj (entry ul [i; m])); one (fun k => Cconj (entry ur [j; k])); two (fun y m => entry ul [y; m]); one (el sigma); two (fun y m => entry ur [y; m])]). set (ds := [n; n; n]).
    ein T ds (Sum 0 (Sum 1 (Mul (Mul (At 0 [0]) (At 1 [1])) (Sum 2 (Mul (Mul (At 2 [2; 0]) (At 3 [2])) (At 4 [2; 1]))))))
      (Sum 2 (Mul (At 3 [2]) (Mul (Sum 0 (Mul (At 2 [2; 0]) (At 0 [0]))) (Sum 1 (Mul (At 4 [2; 1]) (At 1 [1])))))). }
  transitivity (sm n (fun y => ((el sigma y * (if y =? i then RtoC 1 else RtoC 0)) * (if y =? j then RtoC 1 else RtoC 0))%C)).
  { apply sm_ext. intros y0 Hy0. unfold sm. rewrite (Ol y0 i Hy0 Hi), (Or y0 j Hy0 Hj). ring. }
  rewrite (pick_sum n (fun y => el sigma y * (if y =? i then RtoC 1 else RtoC 0))%C j Hj). rewrite (Nat.eqb_sym j i). destruct (Nat.eqb_spec i j) as [->|]; ring.
Qed.
Lemma gauge_ok U sigma head tail h n a b c d a' b' c' d' : length sigma = n -> shape head = [n; a; b; c; d] -> shape tail = [a'; b'; c'; d'; n] ->
  gauge svd evd eigvec pr U sigma head tail = Ok h -> Forall (fun x => (l_inv_tol pr <= x)%R) (h_roots h) ->
  exists X Y, let n' := length (h_sigma h) in n' <= n /\ shape (h_head h) = [n'; a; b; c; d] /\ shape (h_tail h) = [a'; b'; c'; d'; n'] /\
    (shape U = [n; n; n; n] -> shape (h_upsilon h) = [n'; n'; n'; n']) /\ rebond n n' (el sigma) (el (h_sigma h)) X Y /\
    (forall z i j k l, entry (h_head h) [z; i; j; k; l] = sm n (fun y => (Y z y * entry head [y; i; j; k; l])%C)) /\
    (forall z i j k l, entry (h_tail h) [i; j; k; l; z] = sm n (fun x => (entry tail [i; j; k; l; x] * X x z)%C)).
Proof.
  intros Ls Sh St. destruct (gauge_parts U sigma n Ls) as (s' & x & y & GP & Len & Sx & Sy & RB). rewrite GP. unfold finish. cbv zeta. set (rs := side_roots true U sigma ++ side_roots false U sigma) in *. clearbody rs. clear GP.
  set (t6 := cyc (contract U [3] (dag x) [0]) 2 x 0 1). set (U' := transpose [0; 1; 3; 2] (contract (contract y [] (dag y) []) [1; 3] (symmetrized t6 [3; 2; 1; 0]) [1; 2])).
  assert (SU : shape U = [n; n; n; n] -> shape U' = [length s'; length s'; length s'; length s']).
  { intros Q. unfold U', t6. revert Q Sx Sy. clear. generalize (length s'). intros n'. destruct U as [sh0 f0], x as [sh1 f1], y as [sh2 f2]. cbn [shape]. intros -> -> ->. reflexivity. }
  assert (SU' : shape U = [n; n; n; n] -> shape (symmetrized U' [1; 0; 3; 2]) = [length s'; length s'; length s'; length s']).
  { intros Q. specialize (SU Q). revert SU. clear. generalize (length s'). intros n'. unfold symmetrized. cbn [shape transpose]. unfold dimat. cbn [dag shape]. intros ->. reflexivity. }
  intros E Fr.
  assert (W : exists U2, h = Gauged U2 s' (contract y [1] head [0]) (contract tail [4] x [0]) rs /\ (shape U = [n; n; n; n] -> shape U2 = [length s'; length s'; length s'; length s'])).
  { fold t6 in E. fold U' in E. destruct (below_tol (asymmetry t6 [3; 2; 1; 0]) (l_correct pr)); [|discriminate].
    destruct (above_tol (asymmetry U' [1; 0; 3; 2]) (l_warn pr)).
    - destruct (below_tol (asymmetry U' [1; 0; 3; 2]) (l_correct pr)); [|discriminate]. apply Ok_same in E. exists (symmetrized U' [1; 0; 3; 2]). split; [symmetry; exact E|exact SU'].
    - apply Ok_same in E. exists U'. split; [symmetry; exact E|exact SU]. }
  clearbody t6 U'. clear E SU SU'. destruct W as (U2 & -> & SU2). cbn [h_sigma h_head h_tail h_upsilon h_roots] in *. 
  exists (fun i z => entry x [i; z]), (fun z j => entry y [z; j]). cbv zeta. split; [exact Len|].
  assert (H1 : shape (contract y [1] head [0]) = [length s'; a; b; c; d] /\ forall z i j k l, entry (contract y [1] head [0]) [z; i; j; k; l] = sm n (fun y' => (entry y [z; y'] * entry head [y'; i; j; k; l])%C)).
  { revert Sy Sh. clear. generalize (length s'). intros n'. destruct y as [sh0 f0], head as [sh1 f1]. cbn [shape]. intros -> ->. split; reflexivity. }
  assert (H2 : shape (contract tail [4] x [0]) = [a'; b'; c'; d'; length s'] /\ forall z i j k l, entry (contract tail [4] x [0]) [i; j; k; l; z] = sm n (fun x' => (entry tail [i; j; k; l; x'] * entry x [x'; z])%C)).
  { revert Sx St. clear. generalize (length s'). intros n'. destruct x as [sh0 f0], tail as [sh1 f1]. cbn [shape]. intros -> ->. split; reflexivity. }
  destruct H1 as [H1 H1'], H2 as [H2 H2']. split; [exact H1|]. split; [exact H2|]. split; [exact SU2|]. split; [exact (RB Fr)|split; [exact H1'|exact H2']].
Qed.
End Gauge.

(** *** A linear system whose solution is known *)
Lemma zero_residual dim p A b x0 : (forall k, k < dim -> A x0 k = b k) -> g_reason (cg_serial dim p A b x0) = Converged /\ g_x (cg_serial dim p A b x0) = x0.
Proof.
  intros H. unfold cg_serial, cg. cbn [run_prog]. cbv zeta.
  assert (Z : vnsq dim (vsub b (A x0)) = 0%R).
  { unfold vnsq, vdot. change (fst (sm dim (fun i => (Cconj (vsub b (A x0) i) * vsub b (A x0) i)%C)) = 0%R). rewrite sm_zero; [reflexivity|]. intros i Hi. unfold vsub. rewrite (H i Hi). ring. }
  rewrite Z. assert (L : rle 0 (tol_sq dim p b) = true).
  { unfold rle. destruct (Rle_dec 0 (tol_sq dim p b)) as [|N]; [reflexivity|]. exfalso. apply N. unfold tol_sq. eapply Rle_trans; [|apply Rmax_r]. nra. }
  rewrite L. cbn [run_prog g_reason g_x]. split; reflexivity.
Qed.
Lemma cell a b i j : i < a -> j < b -> i * b + j < a * b /\ (i * b + j) / b = i /\ (i * b + j) mod b = j.
Proof.
  intros Hi Hj. split; [nia|]. replace (i * b + j) with (b * i + j) by lia. split; symmetry; [apply (Nat.div_unique _ b i j)|apply (Nat.mod_unique _ b i j)]; lia.
Qed.
Lemma uncell a b k : k < a * b -> k / b < a /\ k mod b < b.
Proof. intros H. assert (b <> 0) by nia. split; [apply Nat.div_lt_upper_bound; lia|apply Nat.mod_upper_bound; assumption]. Qed.
Lemma solve_known p B P X a b : shape X = [a; b] -> shape P = [a; b] -> shape B = [a; b; a; b] ->
  (forall i j, i < a -> j < b -> sm a (fun k => sm b (fun c => (entry X [k; c] * entry B [k; c; i; j])%C)) = entry P [i; j]) ->
  exists Y, solve p B P X = Ok Y /\ shape Y = [a; b] /\ forall i j, i < a -> j < b -> entry Y [i; j] = entry X [i; j].
Proof.
  intros SX SP SB E. unfold solve. replace (dimat X 0) with a by (unfold dimat; rewrite SX; reflexivity). replace (dimat X 1) with b by (unfold dimat; rewrite SX; reflexivity). cbv zeta.
  assert (EX : forall k c, k < a -> c < b -> LoopModel.flat X (k * b + c) = entry X [k; c]).
  { intros k c Hk Hc. unfold LoopModel.flat, dimat. rewrite SX. cbn [nth]. destruct (cell a b k c Hk Hc) as (_ & -> & ->). reflexivity. }
  destruct (zero_residual (a * b) p (fun v => LoopModel.flat (contract (unflat a b v) [0; 1] B [0; 1])) (LoopModel.flat P) (LoopModel.flat X)) as [R1 R2].
  { intros k Hk. destruct (uncell a b k Hk) as [Hi Hj]. unfold LoopModel.flat at 3. unfold dimat. rewrite SP. cbn [nth]. rewrite <- (E _ _ Hi Hj).
    transitivity (sm a (fun i => sm b (fun c => (LoopModel.flat X (i * b + c)%nat * entry B [i; c; (k / b)%nat; (k mod b)%nat])%C))).
    - revert SB. clear. generalize (LoopModel.flat X). intros v. destruct B as [sh f]. cbn [shape]. intros ->. reflexivity.
    - apply sm_ext. intros i Hi'. apply sm_ext. intros c Hc. rewrite EX by assumption. reflexivity. }
  rewrite R1, R2. exists (unflat a b (LoopModel.flat X)). split; [reflexivity|]. split; [reflexivity|]. intros i j Hi Hj. cbn [unflat entry nth]. apply EX; assumption.
Qed.

(** *** Full-environment truncation without truncation *)
Section Fet.
Context (svdt : nat -> tensor -> tensor * list R * tensor) (pr : loop_params) (m : nat) (SV : svd_up_to m svdt).
Context (U : tensor) (sigma : list R) (n : nat) (Ls : length sigma = n) (Hn : n <= m) (SU : shape U = [n; n; n; n]).
Definition factored (u : tensor) (s : list R) (vd : tensor) : Prop :=
  shape vd = [n; length s] /\ shape u = [length s; n] /\ rebond n (length s) (el sigma) (el s) (fun x z => entry vd [x; z]) (fun z y => entry u [z; y]).
Let S_ := contract U [0; 2] (diag sigma) [1; 0].
Lemma SU_entry : shape S_ = [n; n] /\ forall b d, entry S_ [b; d] = sm n (fun a => (entry U [a; b; a; d] * el sigma a)%C).
Proof.
  assert (Q : shape S_ = [n; n] /\ forall b d, entry S_ [b; d] = sm n (fun a => sm n (fun c => (entry U [a; b; c; d] * dl sigma c a)%C))).
  { unfold S_. revert SU. clear. destruct U as [sh f]. cbn [shape]. intros ->. split; reflexivity. }
  destruct Q as [Q1 Q2]. split; [exact Q1|]. intros b d. rewrite Q2. apply sm_ext. intros a Ha. apply sm_at. exact Ha.
Qed.
Lemma factor T : shape T = [n; n] -> (forall x y, x < n -> y < n -> entry T [x; y] = if x =? y then el sigma x else RtoC 0) ->
  let '(vd, s, u) := svdt 1 T in factored u s vd.
Proof.
  intros ST E. pose proof (SV 1 T ltac:(rewrite ST; cbn; lia) ltac:(rewrite ST; left; cbn; lia)) as V. destruct (svdt 1 T) as [[vd s] u]. rewrite ST in V. cbn [firstn skipn app] in V. destruct V as (S1 & S2 & V).
  split; [exact S1|]. split; [exact S2|]. intros x y Hx Hy. rewrite <- (E x y Hx Hy). symmetry. exact (V [x] [y] (inside1 _ _ Hx) (inside1 _ _ Hy)).
Qed.
(** the sum that stands on both sides of the equations *)
Lemma meet u s vd F : factored u s vd -> sm n (fun a => sm n (fun c => (sm (length s) (fun z => (entry vd [c; z] * el s z * entry u [z; a])%C) * F a c)%C)) = sm n (fun a => (el sigma a * F a a)%C).
Proof.
  intros (_ & _ & B). apply sm_ext. intros a Ha. transitivity (sm n (fun c => ((F a c * el sigma c) * (if c =? a then RtoC 1 else RtoC 0))%C)).
  - apply sm_ext. intros c Hc. rewrite (B c a Hc Ha). destruct (c =? a); ring.
  - rewrite (pick_sum n (fun c => F a c * el sigma c)%C a Ha). ring.
Qed.
Lemma fet_loop_ok N : forall u s vd old res, factored u s vd -> fet_loop svdt pr N U S_ u s vd old = res -> exists u' s' vd', res = Ok (u', s', vd') /\ factored u' s' vd'.
Proof.
  induction N as [|N IH]; intros u s vd old res Fa E; cbn [fet_loop] in E; [exists u, s, vd; split; [symmetry; exact E|exact Fa]|].
  destruct SU_entry as [SS ES]. pose proof Fa as (Svd & Su & B).
  set (k := length s) in *.
  set (P := contract (dag u) [1] S_ [0]) in E. set (X := transpose [1; 0] (contract vd [1] (diag s) [0])) in E. set (Bm := transpose [0; 1; 3; 2] (contract (contract u [1] U [0]) [1] (dag u) [1])) in E.
  assert (EP : shape P = [k; n] /\ forall i j, entry P [i; j] = sm n (fun b => (Cconj (entry u [i; b]) * entry S_ [b; j])%C)).
  { unfold P. revert Su SS. clearbody S_. clear. generalize k. intros kk. destruct u as [sh f], S_ as [sh' f']. cbn [shape]. intros -> ->. split; reflexivity. }
  assert (EXX : shape X = [k; n] /\ forall z c, z < k -> entry X [z; c] = (entry vd [c; z] * el s z)%C).
  { assert (Q : shape X = [k; n] /\ forall z c, entry X [z; c] = sm k (fun z' => (entry vd [c; z'] * dl s z' z)%C)).
    { unfold X, k. unfold k in Svd. revert Svd. clear. destruct vd as [sh f]. cbn [shape]. intros ->. split; reflexivity. }
    destruct Q as [Q1 Q2]. split; [exact Q1|]. intros z c Hz. rewrite Q2. apply sm_at. exact Hz. }
  assert (EB : shape Bm = [k; n; k; n] /\ forall z c i j, entry Bm [z; c; i; j] = sm n (fun b => (sm n (fun a => (entry u [z; a] * entry U [a; b; c; j])%C) * Cconj (entry u [i; b]))%C)).
  { unfold Bm. revert Su SU. clear. generalize k. intros kk. destruct u as [sh f], U as [sh' f']. cbn [shape]. intros -> ->. split; reflexivity. }
  destruct EP as [SP EP], EXX as [SX EXX], EB as [SB EB].
  destruct (solve_known (l_cg pr) Bm P X k n SX SP SB) as (Y & EY & SY & VY).
  { intros i j Hi Hj. rewrite EP.
    transitivity (sm n (fun a => sm n (fun c => (sm k (fun z => (entry vd [c; z] * el s z * entry u [z; a])%C) * sm n (fun b => (entry U [a; b; c; j] * Cconj (entry u [i; b]))%C))%C))).
    - transitivity (sm k (fun z => sm n (fun c => (entry vd [c; z] * el s z * sm n (fun b => (sm n (fun a => (entry u [z; a] * entry U [a; b; c; j])%C) * Cconj (entry u [i; b]))%C))%C))).
      { apply sm_ext. intros z Hz. apply sm_ext. intros c Hc. rewrite EXX, EB by exact Hz. reflexivity. }
      set (T := [two (fun c z => entry vd [c; z]); one (el s); two (fun z a => entry u [z; a]); three (fun a b c => entry U [a; b; c; j]); one (fun b => Cconj (entry u [i; b]))]). set (ds := [k; n; n; n]).
      ein T ds (Sum 0 (Sum 1 (Mul (Mul (At 0 [1; 0]) (At 1 [0])) (Sum 2 (Mul (Sum 3 (Mul (At 2 [0; 3]) (At 3 [3; 2; 1]))) (At 4 [2]))))))
        (Sum 3 (Sum 1 (Mul (Sum 0 (Mul (Mul (At 0 [1; 0]) (At 1 [0])) (At 2 [0; 3]))) (Sum 2 (Mul (At 3 [3; 2; 1]) (At 4 [2])))))).
    - unfold k. rewrite (meet u s vd (fun a c => sm n (fun b => (entry U [a; b; c; j] * Cconj (entry u [i; b]))%C)) Fa).
      rewrite (sm_ext n (fun b => (Cconj (entry u [i; b]) * entry S_ [b; j])%C) (fun b => (Cconj (entry u [i; b]) * sm n (fun a => (entry U [a; b; a; j] * el sigma a)%C))%C)) by (intros; rewrite ES; reflexivity).
      set (T := [one (el sigma); two (fun a b => entry U [a; b; a; j]); one (fun b => Cconj (entry u [i; b]))]). set (ds := [n; n]).
      ein T ds (Sum 0 (Mul (At 0 [0]) (Sum 1 (Mul (At 1 [0; 1]) (At 2 [1]))))) (Sum 1 (Mul (At 2 [1]) (Sum 0 (Mul (At 1 [0; 1]) (At 0 [0]))))). }
  rewrite EY in E. cbn [bind] in E.
  assert (FT : shape (contract Y [0] u [0]) = [n; n] /\ forall x y, entry (contract Y [0] u [0]) [x; y] = sm k (fun z => (entry Y [z; x] * entry u [z; y])%C)).
  { revert SY Su. clear. generalize k. intros kk. destruct Y as [sh f], u as [sh' f']. cbn [shape]. intros -> ->. split; reflexivity. }
  destruct FT as [FT1 FT2]. pose proof (factor (contract Y [0] u [0]) FT1) as F1. destruct (svdt 1 (contract Y [0] u [0])) as [[vd1 s1] u1].
  assert (Fa1 : factored u1 s1 vd1).
  { apply F1. intros x y Hx Hy. rewrite FT2. rewrite <- (B x y Hx Hy). apply sm_ext. intros z Hz. rewrite (VY z x Hz Hx), (EXX z x Hz). reflexivity. }
  clear F1 FT1 FT2 EY VY SY Y EP SP P EXX SX X EB SB Bm. pose proof Fa1 as (Svd1 & Su1 & B1). set (k1 := length s1) in *.
  set (P := contract S_ [1] (dag vd1) [0]) in E. set (X := transpose [1; 0] (contract (diag s1) [1] u1 [0])) in E. set (Bm := transpose [0; 2; 1; 3] (contract (contract U [2] vd1 [0]) [2] (dag vd1) [0])) in E.
  assert (EP : shape P = [n; k1] /\ forall i j, entry P [i; j] = sm n (fun d => (entry S_ [i; d] * Cconj (entry vd1 [d; j]))%C)).
  { unfold P. revert Svd1 SS. clearbody S_. clear. generalize k1. intros kk. destruct vd1 as [sh f], S_ as [sh' f']. cbn [shape]. intros -> ->. split; reflexivity. }
  assert (EXX : shape X = [n; k1] /\ forall a z, z < k1 -> entry X [a; z] = (entry u1 [z; a] * el s1 z)%C).
  { assert (Q : shape X = [n; k1] /\ forall a z, entry X [a; z] = sm k1 (fun z' => (dl s1 z z' * entry u1 [z'; a])%C)).
    { unfold X, k1. unfold k1 in Su1. revert Su1. clear. destruct u1 as [sh f]. cbn [shape]. intros ->. split; reflexivity. }
    destruct Q as [Q1 Q2]. split; [exact Q1|]. intros a z Hz. rewrite Q2. apply at_sm'. exact Hz. }
  assert (EB : shape Bm = [n; k1; n; k1] /\ forall a z i j, entry Bm [a; z; i; j] = sm n (fun d => (sm n (fun c => (entry U [a; i; c; d] * entry vd1 [c; z])%C) * Cconj (entry vd1 [d; j]))%C)).
  { unfold Bm. revert Svd1 SU. clear. generalize k1. intros kk. destruct vd1 as [sh f], U as [sh' f']. cbn [shape]. intros -> ->. split; reflexivity. }
  destruct EP as [SP EP], EXX as [SX EXX], EB as [SB EB].
  destruct (solve_known (l_cg pr) Bm P X n k1 SX SP SB) as (Y & EY & SY & VY).
  { intros i j Hi Hj. rewrite EP.
    transitivity (sm n (fun a => sm n (fun c => (sm k1 (fun z => (entry vd1 [c; z] * el s1 z * entry u1 [z; a])%C) * sm n (fun d => (entry U [a; i; c; d] * Cconj (entry vd1 [d; j]))%C))%C))).
    - transitivity (sm n (fun a => sm k1 (fun z => (entry u1 [z; a] * el s1 z * sm n (fun d => (sm n (fun c => (entry U [a; i; c; d] * entry vd1 [c; z])%C) * Cconj (entry vd1 [d; j]))%C))%C))).
      { apply sm_ext. intros a Ha. apply sm_ext. intros z Hz. rewrite EXX, EB by exact Hz. reflexivity. }
      set (T := [two (fun c z => entry vd1 [c; z]); one (el s1); two (fun z a => entry u1 [z; a]); three (fun a c d => entry U [a; i; c; d]); one (fun d => Cconj (entry vd1 [d; j]))]). set (ds := [k1; n; n; n]).
      ein T ds (Sum 3 (Sum 0 (Mul (Mul (At 2 [0; 3]) (At 1 [0])) (Sum 2 (Mul (Sum 1 (Mul (At 3 [3; 1; 2]) (At 0 [1; 0]))) (At 4 [2]))))))
        (Sum 3 (Sum 1 (Mul (Sum 0 (Mul (Mul (At 0 [1; 0]) (At 1 [0])) (At 2 [0; 3]))) (Sum 2 (Mul (At 3 [3; 1; 2]) (At 4 [2])))))).
    - unfold k1. rewrite (meet u1 s1 vd1 (fun a c => sm n (fun d => (entry U [a; i; c; d] * Cconj (entry vd1 [d; j]))%C)) Fa1).
      rewrite (sm_ext n (fun d => (entry S_ [i; d] * Cconj (entry vd1 [d; j]))%C) (fun d => (sm n (fun a => (entry U [a; i; a; d] * el sigma a)%C) * Cconj (entry vd1 [d; j]))%C)) by (intros; rewrite ES; reflexivity).
      set (T := [one (el sigma); two (fun a d => entry U [a; i; a; d]); one (fun d => Cconj (entry vd1 [d; j]))]). set (ds := [n; n]).
      ein T ds (Sum 0 (Mul (At 0 [0]) (Sum 1 (Mul (At 1 [0; 1]) (At 2 [1]))))) (Sum 1 (Mul (Sum 0 (Mul (At 1 [0; 1]) (At 0 [0]))) (At 2 [1]))). }
  rewrite EY in E. cbn [bind] in E.
  assert (FT : shape (contract vd1 [1] Y [1]) = [n; n] /\ forall x y, entry (contract vd1 [1] Y [1]) [x; y] = sm k1 (fun z => (entry vd1 [x; z] * entry Y [y; z])%C)).
  { revert SY Svd1. clear. generalize k1. intros kk. destruct Y as [sh f], vd1 as [sh' f']. cbn [shape]. intros -> ->. split; reflexivity. }
  destruct FT as [FT1 FT2]. pose proof (factor (contract vd1 [1] Y [1]) FT1) as F1. destruct (svdt 1 (contract vd1 [1] Y [1])) as [[vd2 s2] u2].
  assert (Fa2 : factored u2 s2 vd2).
  { apply F1. intros x y Hx Hy. rewrite FT2. rewrite <- (B1 x y Hx Hy). apply sm_ext. intros z Hz. rewrite (VY y z Hy Hz), (EXX y z Hz). ring. }
  destruct (below_tol (weight_change s2 old) (l_tol pr)); [exists u2, s2, vd2; split; [symmetry; exact E|exact Fa2]|]. exact (IH u2 s2 vd2 s2 res Fa2 E).
Qed.
Lemma fet_ok : exists u s vd, fet svdt pr U sigma = Ok (u, s, vd) /\ factored u s vd.
Proof.
  unfold fet. fold S_. pose proof (factor (diag sigma)) as F1. destruct (svdt 1 (diag sigma)) as [[vd1 s1] u1]. refine (fet_loop_ok _ _ _ _ _ _ _ eq_refl). apply F1.
  - cbn [diag shape]. rewrite Ls. reflexivity.
  - intros x y Hx Hy. reflexivity.
Qed.
End Fet.
