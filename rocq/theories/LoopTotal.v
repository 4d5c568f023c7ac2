(** When the gauge of a loop can be fixed: its Upsilons are Hermitian, and positive on the bond. *)
From Coq Require Import List Arith Lia Bool Reals Lra.
From Verif Require Import Base Cplx SumModel SumSpec SumProofs NetSum NetEx ContractorModel TrgTensor TrgHoleAlg BmpsModel BmpsAlg OptModel CgModel ProjModel ProjSpec ProjAlg ProjCore ProjTwo ProjPatch ProjGrid ProjExample LoopModel LoopSpec LoopAlg LoopGauge LoopRing LoopPat LoopWave LoopMain LoopRatio.
Import NetEx ListNotations.
Local Open Scope nat_scope.

Definition herm (U : tensor) : Prop := forall x X y Y, entry U [x; X; y; Y] = Cconj (entry U [X; x; Y; y]).
Lemma herm_transfer T l a b c r : shape T = [l; a; b; c; r] -> herm (transfer T T).
Proof.
  intros S x X y Y. destruct (transfer_ok T T _ _ _ _ _ _ _ S S) as [_ E]. rewrite !E. rewrite conj_sum. apply sm_ext. intros p _. rewrite conj_sum. apply sm_ext. intros i _. rewrite conj_sum. apply sm_ext. intros j _.
  rewrite conj_mul, conj_conj. ring.
Qed.
Lemma herm_step T V s a a' n r r' : shape T = [a; a'; n; n] -> length s = n -> shape V = [n; n; r; r'] -> herm T -> herm V ->
  herm (contract (contract (contract T [2] (diag s) [0]) [2] (dag (diag s)) [0]) [2; 3] V [0; 1]).
Proof.
  intros ST L SV HT HV x X y Y. destruct (step_raw T V s _ _ _ _ _ ST L SV) as [_ E]. rewrite !E. rewrite sm_swap, conj_sum. apply sm_ext. intros z _. rewrite conj_sum. apply sm_ext. intros z' _.
  rewrite !conj_mul, !conj_el, <- HT, <- HV. ring.
Qed.
Lemma herm_upsilon d e f gs ls i : shaped d e f gs ls -> i < 4 -> herm (upsilon gs ls i).
Proof.
  intros S Hi. unfold upsilon. cbn [fold_left]. set (A := fun i => transfer (gs i) (gs i)).
  assert (AO : forall q, q < 4 -> shape (A q) = [length (ls (before q)); length (ls (before q)); length (ls q); length (ls q)]) by (intros q Hq; exact (proj1 (transfer_ok _ _ _ _ _ _ _ _ _ (S q Hq) (S q Hq)))).
  assert (HA : forall q, q < 4 -> herm (A q)) by (intros q Hq; exact (herm_transfer _ _ _ _ _ _ (S q Hq))).
  assert (G : forall T q a a', q < 4 -> shape T = [a; a'; length (ls (before q)); length (ls (before q))] -> herm T ->
    let U := contract (contract (contract T [2] (diag (ls (before q))) [0]) [2] (dag (diag (ls (before q)))) [0]) [2; 3] (A q) [0; 1] in shape U = [a; a'; length (ls q); length (ls q)] /\ herm U).
  { intros T q a a' Hq ST HT U. split; [exact (proj1 (step_raw T (A q) _ _ _ _ _ _ ST eq_refl (AO q Hq)))|exact (herm_step T (A q) _ _ _ _ _ _ ST eq_refl (AO q Hq) HT (HA q Hq))]. }
  destruct (four_cases i Hi) as [E|[E|[E|E]]]; subst i.
  - destruct (G (A 0) 1 _ _ ltac:(lia) (AO 0 ltac:(lia)) (HA 0 ltac:(lia))) as [S1 H1]. destruct (G _ 2 _ _ ltac:(lia) S1 H1) as [S2 H2]. exact (proj2 (G _ 3 _ _ ltac:(lia) S2 H2)).
  - destruct (G (A 1) 2 _ _ ltac:(lia) (AO 1 ltac:(lia)) (HA 1 ltac:(lia))) as [S1 H1]. destruct (G _ 3 _ _ ltac:(lia) S1 H1) as [S2 H2]. exact (proj2 (G _ 0 _ _ ltac:(lia) S2 H2)).
  - destruct (G (A 2) 3 _ _ ltac:(lia) (AO 2 ltac:(lia)) (HA 2 ltac:(lia))) as [S1 H1]. destruct (G _ 0 _ _ ltac:(lia) S1 H1) as [S2 H2]. exact (proj2 (G _ 1 _ _ ltac:(lia) S2 H2)).
  - destruct (G (A 3) 0 _ _ ltac:(lia) (AO 3 ltac:(lia)) (HA 3 ltac:(lia))) as [S1 H1]. destruct (G _ 1 _ _ ltac:(lia) S1 H1) as [S2 H2]. exact (proj2 (G _ 2 _ _ ltac:(lia) S2 H2)).
Qed.

(** sums of squares *)
Lemma nsum_nil_zero sh f : (forall ix, inside sh ix -> f ix = RtoC 0) -> nsum sh f = RtoC 0.
Proof.
  revert f. induction sh as [|n sh IH]; intros f H; cbn [nsum]; [apply H; constructor|].
  transitivity (sumC (fun _ => RtoC 0) (seq 0 n)); [apply sumC_ext; intros i Hi; apply IH; intros ix Hx; apply H; constructor; [apply in_seq in Hi; lia|exact Hx]|]. exact (sm_zero n _ (fun _ _ => eq_refl)).
Qed.
Lemma tnorm_null T : (forall ix, inside (shape T) ix -> entry T ix = RtoC 0) -> tnorm T = 0%R.
Proof.
  intros H. unfold tnorm. rewrite nsum_nil_zero; [cbn; apply sqrt_0|]. intros ix Hx. rewrite (H ix Hx). unfold Cnorm2. cbn. f_equal. ring.
Qed.
Lemma over_null d e f F : over d e f (fun p u v => (Cconj (F p u v) * F p u v)%C) = RtoC 0 -> forall p u v, inside (map d [0; 1; 2; 3]) p -> inside (map e [0; 1; 2; 3]) u -> inside (map f [0; 1; 2; 3]) v ->
  F (fun i => nth i p 0) (fun i => nth i u 0) (fun i => nth i v 0) = RtoC 0.
Proof.
  intros H p u v Hp Hu Hv. unfold over in H.
  set (g := fun p u v => F (fun i => nth i p 0) (fun i => nth i u 0) (fun i => nth i v 0)) in *.
  assert (Q : forall z, re_nonneg (Cconj z * z)%C) by (intros [a b]; unfold re_nonneg, Cconj; cbn; nra).
  assert (N1 : forall p u, re_nonneg (nsum (map f [0; 1; 2; 3]) (fun v => (Cconj (g p u v) * g p u v)%C))) by (intros p' u'; apply nsum_nonneg; intros; apply Q).
  assert (N2 : forall p, re_nonneg (nsum (map e [0; 1; 2; 3]) (fun u => nsum (map f [0; 1; 2; 3]) (fun v => (Cconj (g p u v) * g p u v)%C)))) by (intros p'; apply nsum_nonneg; intros; apply N1).
  pose proof (proj2 (nsum_nonneg (map d [0; 1; 2; 3]) _ N2) p Hp) as B1. pose proof (proj2 (nsum_nonneg (map e [0; 1; 2; 3]) _ (N1 p)) u Hu) as B2.
  pose proof (proj2 (nsum_nonneg (map f [0; 1; 2; 3]) (fun v => (Cconj (g p u v) * g p u v)%C) (fun v => Q _)) v Hv) as B3. cbv beta in B1, B2, B3.
  assert (Z : (fst (Cconj (g p u v) * g p u v)%C <= 0)%R).
  { apply (Rle_trans _ _ _ B3). apply (Rle_trans _ _ _ B2). apply (Rle_trans _ _ _ B1). unfold g. rewrite H. cbn. lra. }
  change (g p u v = RtoC 0). destruct (g p u v) as [a b]. unfold Cconj in Z. cbn in Z. assert (a = 0%R /\ b = 0%R) as [-> ->] by (split; nra). reflexivity.
Qed.

(** an asymmetry that is exactly zero *)
Lemma exact_symmetry T p : (forall ix, inside (shape (transpose p (dag T))) ix -> entry (transpose p (dag T)) ix = entry T ix) -> asymmetry T p = None /\ tnorm T = 0%R \/ asymmetry T p = Some 0%R /\ tnorm T <> 0%R.
Proof.
  intros H. unfold asymmetry. destruct (Req_EM_T (tnorm T) 0) as [Z|Z]; [left; split; [reflexivity|exact Z]|right]. split; [|exact Z]. f_equal. rewrite tnorm_null; [unfold Rdiv; ring|]. intros ix Hx. cbn [entry]. rewrite (H ix Hx). ring.
Qed.
Lemma tnorm_all_zero T : tnorm T = 0%R -> forall ix, inside (shape T) ix -> entry T ix = RtoC 0.
Proof.
  intros H ix Hx. destruct (Req_EM_T (fst (entry T ix)) 0) as [A|A]; [destruct (Req_EM_T (snd (entry T ix)) 0) as [B|B]|].
  - apply injective_projections; assumption.
  - exfalso. apply (tnorm_nonzero T ix Hx); [intros E; apply B; rewrite E; reflexivity|exact H].
  - exfalso. apply (tnorm_nonzero T ix Hx); [intros E; apply A; rewrite E; reflexivity|exact H].
Qed.
Lemma inside4 a b c d i j k l : i < a -> j < b -> k < c -> l < d -> inside [a; b; c; d] [i; j; k; l].
Proof. intros. repeat constructor; assumption. Qed.
Lemma inside4_inv a b c d ix : inside [a; b; c; d] ix -> exists i j k l, ix = [i; j; k; l] /\ i < a /\ j < b /\ k < c /\ l < d.
Proof. intros H. inversion H as [|i ? ix1 ? Hi H1]; subst. inversion H1 as [|j ? ix2 ? Hj H2]; subst. inversion H2 as [|k ? ix3 ? Hk H3]; subst. inversion H3 as [|l ? ix4 ? Hl H4]; subst. inversion H4; subst. exists i, j, k, l. repeat split; assumption. Qed.

Section Gauge.
Context (svd : nat -> tensor -> tensor * list R * tensor) (evd : tensor -> tensor * list R) (eigvec : bool -> tensor -> list R -> tensor) (pr : loop_params).
Context (SV : svd_any svd) (EV : evd_unitary evd) (EG : eig_shape eigvec) (T0 : (0 < l_inv_tol pr)%R) (C0 : (0 < l_correct pr)%R) (W0 : (0 <= l_warn pr)%R).
Definition well (left : bool) (U : tensor) (sigma : list R) : Prop := Forall (fun x => (l_inv_tol pr <= x)%R) (side_roots evd eigvec left U sigma).
Lemma gauge_total U sigma head tail n : length sigma = n -> shape U = [n; n; n; n] -> herm U -> loop_trace U sigma <> RtoC 0 -> well true U sigma -> well false U sigma ->
  exists h, gauge svd evd eigvec pr U sigma head tail = Ok h /\ h_roots h = side_roots evd eigvec true U sigma ++ side_roots evd eigvec false U sigma.
Proof.
  intros Ls SU HU NZ W1 W2. destruct (gauge_parts svd evd eigvec pr SV EV EG T0 U sigma n Ls) as (s' & x & y & GP & Len & Sx & Sy & RB).
  specialize (RB (proj2 (Forall_app _ _ _) (conj W1 W2))). rewrite GP. clear GP. set (rs := _ ++ _). clearbody rs. unfold finish.
  set (n' := length s') in *. 
  assert (Q6 : let t6 := cyc (contract U [3] (dag x) [0]) 2 x 0 1 in shape t6 = [n'; n; n; n'] /\ forall w a b z, entry t6 [w; a; b; z] = sm n (fun k => (sm n (fun l => (entry U [a; b; k; l] * Cconj (entry x [l; w]))%C) * entry x [k; z])%C)).
  { clear - SU Sx. clearbody n'. destruct U as [sh0 f0], x as [sh1 f1]. cbn [shape] in *. subst sh0 sh1. split; reflexivity. }
  set (t6 := cyc (contract U [3] (dag x) [0]) 2 x 0 1) in *. cbv zeta in Q6. clearbody t6. destruct Q6 as [S6 E6].
  assert (H6 : forall w a b z, Cconj (entry t6 [z; b; a; w]) = entry t6 [w; a; b; z]).
  { intros w a b z. rewrite !E6. rewrite conj_sum.
    transitivity (sm n (fun k => sm n (fun l => (entry U [a; b; l; k] * Cconj (entry x [k; w]) * entry x [l; z])%C))).
    - apply sm_ext. intros k _. rewrite conj_mul, conj_sum. rewrite <- sm_scal_r. apply sm_ext. intros l _. rewrite conj_mul, conj_conj, <- HU. ring.
    - rewrite sm_swap. apply sm_ext. intros k _. rewrite <- sm_scal_r. reflexivity. }
  assert (X6 : asymmetry t6 [3; 2; 1; 0] = None /\ tnorm t6 = 0%R \/ asymmetry t6 [3; 2; 1; 0] = Some 0%R /\ tnorm t6 <> 0%R).
  { apply exact_symmetry. destruct t6 as [sh f]. cbn [shape] in S6. subst sh. intros ix Hx. destruct (inside4_inv _ _ _ _ ix Hx) as (w & a & b & z & -> & _). exact (H6 w a b z). }
  destruct X6 as [[_ X6]|[X6 _]].
  { exfalso. apply NZ. rewrite (trace_raw U sigma n SU Ls).
    assert (Z6 : forall w a b z, w < n' -> a < n -> b < n -> z < n' -> entry t6 [w; a; b; z] = RtoC 0).
    { intros w a b z Hw Ha Hb Hz. apply (tnorm_all_zero t6 X6). rewrite S6. apply inside4; assumption. }
    transitivity (sm n (fun l => sm n (fun b => sm n (fun k => sm n (fun a => (entry U [a; b; k; l] * (if k =? a then el sigma k else RtoC 0) * (if l =? b then el sigma l else RtoC 0))%C))))).
    { apply sm_ext. intros l Hl. etransitivity; [|symmetry; apply sm_swap]. symmetry. transitivity (sm n (fun k => sm n (fun b => ((entry U [k; b; k; l] * el sigma k) * (if l =? b then el sigma l else RtoC 0))%C))).
      - apply sm_ext. intros k Hk. apply sm_ext. intros b Hb. rewrite sm_scal_r. f_equal. exact (pick_sum' n (fun a => entry U [a; b; k; l]) (el sigma) k Hk).
      - apply sm_ext. intros k Hk. exact (pick_sum' n (fun b => (entry U [k; b; k; l] * el sigma k)%C) (el sigma) l Hl). }
    transitivity (sm n (fun l => sm n (fun b => sm n (fun k => sm n (fun a => (entry U [a; b; k; l] * sm n' (fun z => (entry x [k; z] * el s' z * entry y [z; a])%C) * sm n' (fun w => (Cconj (entry x [l; w]) * el s' w * Cconj (entry y [w; b]))%C))%C))))).
    { apply sm_ext. intros l Hl. apply sm_ext. intros b Hb. apply sm_ext. intros k Hk. apply sm_ext. intros a Ha. rewrite (RB k a Hk Ha). f_equal.
      pose proof (f_equal Cconj (RB l b Hl Hb)) as Q. rewrite conj_sum in Q. transitivity (Cconj (if l =? b then el sigma l else RtoC 0)); [destruct (l =? b); [rewrite conj_el; reflexivity|rewrite conj_real; reflexivity]|]. rewrite <- Q. apply sm_ext. intros w _. rewrite !conj_mul, conj_el. reflexivity. }
    transitivity (sm n' (fun w => sm n (fun a => sm n (fun b => sm n' (fun z => (sm n (fun k => (sm n (fun l => (entry U [a; b; k; l] * Cconj (entry x [l; w]))%C) * entry x [k; z])%C) * (el s' z * entry y [z; a] * el s' w * Cconj (entry y [w; b])))%C))))).
    { set (T := [quad (fun a b k l => entry U [a; b; k; l]); ProjCore.two (fun k z => entry x [k; z]); ProjCore.two (fun k z => Cconj (entry x [k; z])); one (el s'); ProjCore.two (fun z a => entry y [z; a]); ProjCore.two (fun z a => Cconj (entry y [z; a]))]). set (ds := [n; n; n; n; n'; n']).
      ein T ds (Sum 0 (Sum 1 (Sum 2 (Sum 3 (Mul (Mul (At 0 [3; 1; 2; 0]) (Sum 4 (Mul (Mul (At 1 [2; 4]) (At 3 [4])) (At 4 [4; 3])))) (Sum 5 (Mul (Mul (At 2 [0; 5]) (At 3 [5])) (At 5 [5; 1]))))))))
        (Sum 5 (Sum 3 (Sum 1 (Sum 4 (Mul (Sum 2 (Mul (Sum 0 (Mul (At 0 [3; 1; 2; 0]) (At 2 [0; 5]))) (At 1 [2; 4]))) (Mul (Mul (Mul (At 3 [4]) (At 4 [4; 3])) (At 3 [5])) (At 5 [5; 1]))))))). }
    apply sm_zero. intros w Hw. apply sm_zero. intros a Ha. apply sm_zero. intros b Hb. apply sm_zero. intros z Hz. rewrite <- E6, Z6 by assumption. ring. }
  rewrite X6. cbn [below_tol]. unfold rlt. destruct (Rlt_dec 0 (l_correct pr)) as [_|N]; [|contradiction].
  set (t6' := symmetrized t6 [3; 2; 1; 0]).
  assert (Q6 : shape t6' = [n'; n; n; n'] /\ forall w a b z, entry t6' [w; a; b; z] = entry t6 [w; a; b; z]).
  { unfold t6'. clear t6'. destruct t6 as [sh f]. cbn [shape] in S6. subst sh. split; [reflexivity|]. intros w a b z. transitivity ((Cconj (f [z; b; a; w]) + f [w; a; b; z]) * RtoC (1 / 2))%C; [reflexivity|]. cbn [entry].
    pose proof (H6 w a b z) as Q. cbn [entry] in Q. rewrite Q. destruct (f [w; a; b; z]) as [u v]. apply injective_projections; cbn; field. }
  clearbody t6'. destruct Q6 as [S6' E6'].
  set (U' := transpose [0; 1; 3; 2] (contract (contract y [] (dag y) []) [1; 3] t6' [1; 2])).
  assert (QU : shape U' = [n'; n'; n'; n'] /\ forall p q z w, entry U' [p; q; z; w] = sm n (fun i => sm n (fun j => (entry y [p; i] * Cconj (entry y [q; j]) * entry t6' [w; i; j; z])%C))).
  { unfold U'. clear - S6' Sy. clearbody n'. destruct t6' as [sh0 f0], y as [sh1 f1]. cbn [shape] in *. subst sh0 sh1. split; reflexivity. }
  clearbody U'. destruct QU as [SU' EU'].
  assert (HU' : asymmetry U' [1; 0; 3; 2] = None /\ tnorm U' = 0%R \/ asymmetry U' [1; 0; 3; 2] = Some 0%R /\ tnorm U' <> 0%R).
  { assert (HH : forall p q z w, Cconj (entry U' [q; p; w; z]) = entry U' [p; q; z; w]).
    { intros p q z w. rewrite !EU'. rewrite conj_sum. etransitivity; [apply sm_ext; intros i _; rewrite conj_sum; reflexivity|]. rewrite sm_swap. apply sm_ext. intros i _. apply sm_ext. intros j _. rewrite !conj_mul, conj_conj, !E6', H6. ring. }
    apply exact_symmetry. destruct U' as [sh f]. cbn [shape] in SU'. subst sh. intros ix Hx. destruct (inside4_inv _ _ _ _ ix Hx) as (p & q & z & w & -> & _). exact (HH p q z w). }
  assert (AB : above_tol (asymmetry U' [1; 0; 3; 2]) (l_warn pr) = false).
  { destruct HU' as [[-> _]|[-> _]]; cbn [above_tol]; [reflexivity|]. unfold rlt. destruct (Rlt_dec (l_warn pr) 0); [lra|reflexivity]. }
  rewrite AB. eexists. split; reflexivity.
Qed.
End Gauge.
Lemma in_map4 (h p : nat -> nat) : (forall q, q < 4 -> p q < h q) -> inside (map h [0; 1; 2; 3]) [p 0; p 1; p 2; p 3].
Proof. intros H. apply inside4; apply H; lia. Qed.
Lemma trace_null0 d e f gs ls : shaped d e f gs ls -> loop_trace (upsilon gs ls 0) (ls 3) = RtoC 0 ->
  forall p u v, (forall q, q < 4 -> p q < d q) -> (forall q, q < 4 -> u q < e q) -> (forall q, q < 4 -> v q < f q) -> around gs ls p u v = RtoC 0.
Proof.
  intros S H p u v Hp Hu Hv. rewrite (trace_ok d e f gs ls S), rings_apart in H. exact (over_null d e f (around gs ls) H _ _ _ (in_map4 d p Hp) (in_map4 e u Hu) (in_map4 f v Hv)).
Qed.
Lemma trace_null d e f gs ls i : i < 4 -> shaped d e f gs ls -> loop_trace (upsilon gs ls i) (ls (before i)) = RtoC 0 ->
  forall p u v, (forall q, q < 4 -> p q < d q) -> (forall q, q < 4 -> u q < e q) -> (forall q, q < 4 -> v q < f q) -> around gs ls p u v = RtoC 0.
Proof.
  intros Hi S H p u v Hp Hu Hv. set (rot := fun (X : Type) (h : nat -> X) q => h ((i + q) mod 4)).
  assert (B : forall q, (i + q) mod 4 < 4) by (intros q; apply Nat.mod_upper_bound; lia).
  assert (S' : shaped (rot _ d) (rot _ e) (rot _ f) (rot _ gs) (rot _ ls)).
  { intros q Hq. unfold rot. rewrite (S _ (B q)). f_equal. f_equal. f_equal. destruct (four_cases i Hi) as [E|[E|[E|E]]], (four_cases q Hq) as [F|[F|[F|F]]]; subst i q; reflexivity. }
  assert (H' : loop_trace (upsilon (rot _ gs) (rot _ ls) 0) (rot _ ls 3) = RtoC 0).
  { rewrite <- H. unfold rot. destruct (four_cases i Hi) as [E|[E|[E|E]]]; subst i; reflexivity. }
  pose proof (trace_null0 _ _ _ _ _ S' H' (rot _ p) (rot _ u) (rot _ v) (fun q _ => Hp _ (B q)) (fun q _ => Hu _ (B q)) (fun q _ => Hv _ (B q))) as Z.
  rewrite <- Z. unfold around. destruct (four_cases i Hi) as [E|[E|[E|E]]]; subst i; unfold rot; cbn [Nat.add Nat.modulo Nat.divmod fst snd Nat.sub].
  - reflexivity.
  - apply ring4_rot.
  - rewrite ring4_rot. apply ring4_rot.
  - rewrite ring4_rot, ring4_rot. apply ring4_rot.
Qed.

Section All.
Context (d e f : nat -> nat) (svd : nat -> tensor -> tensor * list R * tensor) (evd : tensor -> tensor * list R) (eigvec : bool -> tensor -> list R -> tensor) (pr : loop_params) (m : nat).
Context (SV : svd_any svd) (EV : evd_unitary evd) (EG : eig_shape eigvec) (T0 : (0 < l_inv_tol pr)%R) (C0 : (0 < l_correct pr)%R) (W0 : (0 <= l_warn pr)%R).
Lemma gauge_step_total k i : i < 4 -> ringed d e f m k -> inverted pr (k_roots k) -> herm (k_us k i) -> loop_trace (k_us k i) (k_ls k (before i)) <> RtoC 0 ->
  well evd eigvec pr true (k_us k i) (k_ls k (before i)) -> well evd eigvec pr false (k_us k i) (k_ls k (before i)) ->
  exists k', gauge_step svd evd eigvec pr (Ok k) i = Ok k' /\ ringed d e f m k' /\ inverted pr (k_roots k') /\ (forall q, q <> i -> k_us k' q = k_us k q) /\ (forall q, q <> before i -> k_ls k' q = k_ls k q).
Proof.
  intros Hi Rk I HU NZ W1 W2. pose proof Rk as (Sh & SU & Bo).
  destruct (gauge_total svd evd eigvec pr SV EV EG T0 C0 W0 (k_us k i) (k_ls k (before i)) (k_gs k i) (k_gs k (before i)) _ eq_refl (SU i Hi) HU NZ W1 W2) as (h & G & RH).
  assert (GS : exists k', gauge_step svd evd eigvec pr (Ok k) i = Ok k' /\ inverted pr (k_roots k') /\ (forall q, q <> i -> k_us k' q = k_us k q) /\ (forall q, q <> before i -> k_ls k' q = k_ls k q)).
  { unfold gauge_step. cbn [bind]. rewrite G. cbn [bind]. eexists. split; [reflexivity|]. cbn [k_roots k_us k_ls]. split; [|split; intros q N; apply set_other; exact N].
    unfold inverted. apply Forall_app. split; [exact I|]. rewrite RH. apply Forall_app. split; assumption. }
  destruct GS as (k' & GS & I' & U' & L'). exists k'. split; [exact GS|]. split; [|split; [exact I'|split; assumption]].
  exact (proj1 (gauge_step_ok d e f svd evd eigvec pr m SV EV EG T0 k i k' Hi Rk GS I')).
Qed.
Lemma gauge_all_total gs ls : ringed d e f m (Ring gs ls (upsilon gs ls) []) -> (forall i, i < 4 -> loop_trace (upsilon gs ls i) (ls (before i)) <> RtoC 0) ->
  (forall left i, i < 4 -> well evd eigvec pr left (upsilon gs ls i) (ls (before i))) -> exists k, gauge_all svd evd eigvec pr gs ls = Ok k /\ inverted pr (k_roots k).
Proof.
  intros R0 NZ WE. unfold gauge_all. cbn [fold_left]. set (k := Ring gs ls (upsilon gs ls) []) in *.
  assert (HU : forall i, i < 4 -> herm (upsilon gs ls i)) by (intros i Hi; apply (herm_upsilon d e f); [exact (proj1 R0)|exact Hi]).
  destruct (gauge_step_total k 0 ltac:(lia) R0 (Forall_nil _)) as (k0 & -> & R1 & I0 & U0 & L0); [apply HU; lia|apply NZ; lia|apply WE; lia|apply WE; lia|].
  destruct (gauge_step_total k0 1 ltac:(lia) R1 I0) as (k1 & -> & R2 & I1 & U1 & L1).
  1-4: rewrite ?U0, ?L0 by (cbn; lia); unfold k; cbn [k_us k_ls]; first [apply HU; lia|apply NZ; lia|apply WE; lia].
  destruct (gauge_step_total k1 2 ltac:(lia) R2 I1) as (k2 & -> & R3 & I2 & U2 & L2).
  1-4: rewrite ?U1, ?L1 by (cbn; lia); rewrite ?U0, ?L0 by (cbn; lia); unfold k; cbn [k_us k_ls]; first [apply HU; lia|apply NZ; lia|apply WE; lia].
  destruct (gauge_step_total k2 3 ltac:(lia) R3 I2) as (k3 & -> & R4 & I3 & U3 & L3).
  1-4: rewrite ?U2, ?L2 by (cbn; lia); rewrite ?U1, ?L1 by (cbn; lia); rewrite ?U0, ?L0 by (cbn; lia); unfold k; cbn [k_us k_ls]; first [apply HU; lia|apply NZ; lia|apply WE; lia].
  exists k3. split; [reflexivity|exact I3].
Qed.
End All.
