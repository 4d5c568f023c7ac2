(** Sweeps of the loop update. *)
From Coq Require Import List Arith Lia Bool Reals Lra Permutation.
From Verif Require Import Base Cplx SumModel SumSpec SumProofs TrgTensor BmpsAlg BmpsChain OptModel Rsum SuModel SuSpec SuProofs SuRun ProjModel ProjSpec ProjGrid ProjTri ProjSteps LoopModel LoopSpec LoopMain LoopRatio LoopDone LoopEnd LoopSweepModel LoopSweepSpec.
Import ListNotations.
Local Open Scope nat_scope.

(** *** the order *)
Lemma evens_filter s : s < 2 -> forall n, evens s n = filter (fun x => Bool.eqb (Nat.odd x) (s =? 1)) (seq 0 n).
Proof.
  intros Hs. assert (S2 : forall n, evens s (S (S n)) = evens s n ++ [if Bool.eqb (Nat.odd n) (s =? 1) then n else S n]).
  { intros n. unfold evens. replace ((S (S n) + 1 - s) / 2) with (S ((n + 1 - s) / 2)).
    2: { replace (S (S n) + 1 - s) with (n + 1 - s + 1 * 2) by lia. rewrite Nat.div_add by lia. lia. }
    rewrite seq_S, map_app. f_equal. cbn [map]. f_equal. cbn [Nat.add]. destruct (Nat.Even_or_Odd n) as [[k ->]|[k ->]]; destruct s as [|[|s]]; try lia.
    - replace (Nat.odd (2 * k)) with false by (symmetry; rewrite Nat.odd_mul; reflexivity). cbn [Nat.eqb Bool.eqb]. replace (2 * k + 1 - 0) with (1 + k * 2) by lia. rewrite Nat.div_add by lia. cbn [Nat.div Nat.divmod fst]. change (1 / 2) with 0. lia.
    - replace (Nat.odd (2 * k)) with false by (symmetry; rewrite Nat.odd_mul; reflexivity). cbn [Nat.eqb Bool.eqb]. replace (2 * k + 1 - 1) with (0 + k * 2) by lia. rewrite Nat.div_add by lia. change (0 / 2) with 0. lia.
    - replace (Nat.odd (2 * k + 1)) with true by (symmetry; rewrite Nat.odd_add, Nat.odd_mul; reflexivity). cbn [Nat.eqb Bool.eqb]. replace (2 * k + 1 + 1 - 0) with (0 + (k + 1) * 2) by lia. rewrite Nat.div_add by lia. change (0 / 2) with 0. lia.
    - replace (Nat.odd (2 * k + 1)) with true by (symmetry; rewrite Nat.odd_add, Nat.odd_mul; reflexivity). cbn [Nat.eqb Bool.eqb]. replace (2 * k + 1 + 1 - 1) with (1 + k * 2) by lia. rewrite Nat.div_add by lia. change (1 / 2) with 0. lia. }
  assert (Two : forall n, evens s n = filter (fun x => Bool.eqb (Nat.odd x) (s =? 1)) (seq 0 n) /\ evens s (S n) = filter (fun x => Bool.eqb (Nat.odd x) (s =? 1)) (seq 0 (S n))).
  { induction n as [|n [I1 I2]]. - destruct s as [|[|s]]; try lia; split; reflexivity.
    - split; [exact I2|]. rewrite S2, I1. rewrite !seq_S, !filter_app. rewrite <- app_assoc. f_equal. cbn [filter Nat.add app]. rewrite Nat.odd_succ, <- Nat.negb_odd. destruct (Nat.odd n), (s =? 1); reflexivity. }
  intros n. apply Two.
Qed.
Lemma filter_flat {X Y} (f : Y -> bool) (g : X -> list Y) l : filter f (flat_map g l) = flat_map (fun x => filter f (g x)) l.
Proof. induction l as [|x l IH]; [reflexivity|]. cbn. rewrite filter_app, IH. reflexivity. Qed.
Lemma filter_pairs (f : nat -> bool) (g : nat -> bool) c : forall l, filter (fun p => g (snd p) && f (fst p)) (map (fun r => (r, c)) l) = if g c then map (fun r => (r, c)) (filter f l) else [].
Proof. induction l as [|r l IH]; cbn; [destruct (g c); reflexivity|]. rewrite IH. destruct (g c), (f r); reflexivity. Qed.
Lemma flat_filter {X} (g : nat -> bool) (h : nat -> list X) : forall l, flat_map (fun c => if g c then h c else []) l = flat_map h (filter g l).
Proof. induction l as [|c l IH]; [reflexivity|]. cbn. rewrite IH. destruct (g c); reflexivity. Qed.
Lemma pass_filter R K per sc sr : sc < 2 -> sr < 2 -> loop_pass R K per sc sr = filter (of_parity (sc =? 1) (sr =? 1)) (by_columns R K per).
Proof.
  intros H1 H2. unfold loop_pass, by_columns. rewrite filter_flat. unfold of_parity. fold (ver_limit R per) (hor_limit K per).
  transitivity (flat_map (fun c => if Bool.eqb (Nat.odd c) (sc =? 1) then map (fun r => (r, c)) (filter (fun x => Bool.eqb (Nat.odd x) (sr =? 1)) (seq 0 (ver_limit R per))) else []) (seq 0 (hor_limit K per))).
  2: { apply flat_map_ext. intros c. symmetry. exact (filter_pairs (fun x => Bool.eqb (Nat.odd x) (sr =? 1)) (fun x => Bool.eqb (Nat.odd x) (sc =? 1)) c _). }
  rewrite flat_filter, <- (evens_filter sc H1), <- (evens_filter sr H2). reflexivity.
Qed.
Lemma order_passes R K per : concat (loop_passes R K per) = plaquette_order R K per.
Proof. unfold loop_passes, plaquette_order. cbn [concat]. rewrite !pass_filter by lia. rewrite app_nil_r. reflexivity. Qed.
Lemma order_covers R K per : Permutation (plaquette_order R K per) (plaquettes R K per).
Proof. rewrite <- order_passes. apply passes_cover. Qed.

(** *** loops of the lattice *)
Lemma constructed_valid P gr gc : loop_construct (p_rows P) (p_cols P) (p_per P) gr gc = Ok tt -> forall p, In p (plaquettes (p_rows P) (p_cols P) (p_per P)) -> loop_valid P (fst p) (snd p).
Proof.
  intros C [r c] Hp. pose proof (construct_even _ _ _ _ _ C) as E. unfold plaquettes in Hp. apply in_prod_iff in Hp. destruct Hp as [Hr Hc]. apply in_seq in Hr, Hc. cbn [fst snd].
  assert (B : forall n k, k < (if p_per P then n else n - 1) -> (p_per P = true -> n mod 2 = 0) -> 2 <= n /\ k < n /\ (k + 1) mod n < n /\ (k + 1) mod n <> k /\ (p_per P = true \/ (k + 1) mod n = k + 1)).
  { intros n k H Ev. assert (2 <= n). { destruct (p_per P); [|lia]. specialize (Ev eq_refl). destruct n as [|[|n]]; [lia| |lia]. cbn in Ev. discriminate. }
    split; [assumption|]. split; [destruct (p_per P); lia|]. split; [apply Nat.mod_upper_bound; lia|]. destruct (Nat.eq_dec (k + 1) n) as [Q|Q].
    - rewrite Q, Nat.mod_same by lia. split; [lia|]. destruct (p_per P); [left; reflexivity|lia].
    - rewrite Nat.mod_small by (destruct (p_per P); lia). split; [lia|]. right. reflexivity. }
  destruct (B (p_rows P) r ltac:(lia) (fun h => proj1 (E h))) as (R2 & R3 & R4 & R5 & R6). destruct (B (p_cols P) c ltac:(lia) (fun h => proj2 (E h))) as (K2 & K3 & K4 & K5 & K6).
  unfold loop_valid. unfold corner, side, next. cbn [map]. split.
  - intros b [<-|[<-|[<-|[<-|[]]]]]; apply bonds_in; cbn; destruct (p_per P); lia.
  - repeat constructor; cbn; intuition congruence.
Qed.

(** *** gates see only basis states of the sites *)
Lemma gate4_agree P r c g f h : loop_fits P r c g -> agree P f h -> agree P (gate4 g (corner (p_rows P) (p_cols P) r c) f) (gate4 g (corner (p_rows P) (p_cols P) r c) h).
Proof.
  intros [b F] A s Hs. unfold gate4. apply nsum_ext. intros p L B. f_equal. apply A. unfold at_sites.
  assert (Q : forall i, i < 4 -> let x := corner (p_rows P) (p_cols P) r c i in nth i p 0 < phys P (fst x) (snd x)).
  { intros i Hi x. cbn [map length] in L, B. assert (D : dimat (g i) 1 = phys P (fst x) (snd x)) by (unfold dimat; rewrite F by exact Hi; reflexivity). rewrite <- D.
    destruct p as [|p0 [|p1 [|p2 [|p3 [|]]]]]; try discriminate. inversion B as [|? ? ? ? B0 B1]; subst. inversion B1 as [|? ? ? ? B2 B3]; subst. inversion B3 as [|? ? ? ? B4 B5]; subst. inversion B5; subst.
    destruct i as [|[|[|[|]]]]; cbn [nth]; try assumption; lia. }
  repeat apply proper_at; try assumption; apply Q; lia.
Qed.
Lemma gate4_scal g x k f s : gate4 g x (fun s => (k * f s)%C) s = (k * gate4 g x f s)%C.
Proof. unfold gate4. rewrite <- nsum_scal. apply nsum_ext. intros p _ _. ring. Qed.
Lemma fits_same P P' r c g : same_sites P P' -> loop_valid P r c -> loop_fits P r c g -> loop_fits P' r c g.
Proof.
  intros (A1 & A2 & A3 & A4) [V _] [b F]. exists b. intros i Hi. rewrite A1, A2. cbn zeta. rewrite (F i Hi). cbn zeta.
  assert (B0 : In (Hor r c) (bonds (p_rows P) (p_cols P) (p_per P))) by (apply V; cbn; auto). assert (B1 : In (Ver r c) (bonds (p_rows P) (p_cols P) (p_per P))) by (apply V; cbn; auto).
  apply bonds_in in B0, B1. cbn in B0, B1. assert (next (p_rows P) r < p_rows P) by (apply Nat.mod_upper_bound; lia). assert (next (p_cols P) c < p_cols P) by (apply Nat.mod_upper_bound; lia).
  rewrite A4; [reflexivity| |]; destruct i as [|[|[|[|]]]]; cbn [corner fst snd]; destruct (p_per P); try assumption; lia.
Qed.
Lemma valid_same P P' r c : same_sites P P' -> loop_valid P r c -> loop_valid P' r c.
Proof. intros (A1 & A2 & A3 & A4) V. unfold loop_valid. rewrite A1, A2, A3. exact V. Qed.
Lemma gates_agree P gates : forall l f h, (forall p, In p l -> loop_fits P (fst p) (snd p) (gates (fst p) (snd p))) -> agree P f h -> agree P (loop_gates (p_rows P) (p_cols P) gates l f) (loop_gates (p_rows P) (p_cols P) gates l h).
Proof. induction l as [|p l IH]; intros f h F A; [exact A|]. unfold loop_gates in *. cbn [fold_left]. apply IH; [intros q Hq; apply F; right; exact Hq|]. apply gate4_agree; [apply F; left; reflexivity|exact A]. Qed.
Lemma gates_scal P gates k : forall l f, (forall p, In p l -> loop_fits P (fst p) (snd p) (gates (fst p) (snd p))) ->
  agree P (loop_gates (p_rows P) (p_cols P) gates l (fun s => (k * f s)%C)) (fun s => (k * loop_gates (p_rows P) (p_cols P) gates l f s)%C).
Proof.
  induction l as [|p l IH]; intros f F s Hs; [reflexivity|]. unfold loop_gates in *. cbn [fold_left]. rewrite <- (IH _ (fun q Hq => F q (or_intror Hq)) s Hs).
  apply (gates_agree P gates l); [intros q Hq; apply F; right; exact Hq| |exact Hs]. intros t Ht. apply gate4_scal.
Qed.

Lemma norm_ge qr svd svdt evd eigvec pr gate P r c out : loop_project qr svd svdt evd eigvec pr gate P r c = Ok out -> (0 <= lr_norm out)%R.
Proof.
  unfold loop_project. destruct (negb (p_per P) && _); [discriminate|]. destruct (gauge_all _ _ _ _ _) as [k1|]; [|discriminate]. cbn [bind]. destruct (fet_all _ _ k1) as [k2|]; [|discriminate]. cbn [bind]. intros E. assert (Q : forall (x y : loop_result), Ok x = Ok y -> y = x) by congruence. apply Q in E. subst out. cbn [lr_norm fold_left].
  assert (H1 : forall l, (0 <= norm_of l)%R) by (intros l; apply sqrt_pos). assert (H2 : forall T, (0 <= tnorm T)%R) by (intros T; apply sqrt_pos).
  repeat (apply Rmult_le_pos; [|first [apply H1|apply H2]]). lra.
Qed.

Section Run.
Context (qr : nat -> tensor -> tensor * tensor) (svd svdt : nat -> tensor -> tensor * list R * tensor) (evd : tensor -> tensor * list R) (eigvec : bool -> tensor -> list R -> tensor) (m : nat).
Context (QR : qr_any qr) (SV : svd_any svd) (SVT : svd_up_to m svdt) (EV : evd_unitary evd) (EG : eig_shape eigvec).
Context (pr : loop_params) (PT : (0 < l_inv_tol pr)%R) (kind : gate_kind) (tau : R) (gates : nat -> nat -> nat -> tensor).
Notation step := (sweep_step qr svd svdt evd eigvec pr kind tau gates).
Notation lost := (lost_nothing pr m gates).
Definition ready (P : peps) (l : list (nat * nat)) : Prop := forall p, In p l -> loop_valid P (fst p) (snd p) /\ loop_fits P (fst p) (snd p) (gates (fst p) (snd p)).
Lemma ready_same P P' l : same_sites P P' -> ready P l -> ready P' l.
Proof. intros S H p Hp. destruct (H p Hp) as [V F]. split; [apply (valid_same P)|apply (fits_same P)]; assumption. Qed.
Lemma ready_tail P p l : ready P (p :: l) -> ready P l.
Proof. intros H q Hq. apply H. right. exact Hq. Qed.
Lemma run_fail f l : fold_left step l (Fail f) = Fail f.
Proof. induction l as [|p l IH]; [reflexivity|exact IH]. Qed.
Lemma same_refl P : same_sites P P.
Proof. repeat split; intros; reflexivity. Qed.

(** the sum of the shares, one state for each plaquette *)
Definition shares (l : list (nat * nat)) (states : list peps) : list R := map (fun x => expectation (gates (fst (fst x)) (snd (fst x))) (snd x) (fst x)) (combine l states).
Fixpoint total (e : option R) (rs : list R) : option R := match rs with [] => e | r :: rs' => total (add_share e (energy_share kind tau r)) rs' end.
Notation reached := (reached gates).
Lemma run_main : forall l v v', fold_left step l (Ok v) = Ok v' -> sound (l_env_tol pr) (v_peps v) -> ready (v_peps v) l -> (0 < v_norm v)%R ->
  exists new, v_seen v' = v_seen v ++ new /\ map (fun x => fst (fst x)) new = l /\ (0 <= v_norm v')%R /\
  (Forall lost new -> (0 < v_norm v')%R ->
    sound (l_env_tol pr) (v_peps v') /\ same_sites (v_peps v) (v_peps v') /\
    exists k, v_norm v' = (v_norm v * k)%R /\ (0 < k)%R /\ (forall s, proper (v_peps v) s -> (RtoC k * wave (v_peps v') s)%C = loop_gates (p_rows (v_peps v)) (p_cols (v_peps v)) gates l (wave (v_peps v)) s) /\
    exists states, length states = length l /\ (forall i, i < length l -> reached (v_peps v) (nth i states (v_peps v)) (firstn i l)) /\ v_e0 v' = total (v_e0 v) (shares l states)).
Proof.
  induction l as [|p l IH]; intros v v' E S RD NV.
  - cbn in E. assert (v' = v) by congruence. subst v'. exists []. rewrite app_nil_r. split; [reflexivity|]. split; [reflexivity|]. split; [lra|]. intros _ _. split; [exact S|]. split; [apply same_refl|]. exists 1%R. split; [ring|]. split; [lra|]. split; [intros s _; cbn; apply Cmult_1_l || ring|].
    exists []. split; [reflexivity|]. split; [intros i Hi; cbn in Hi; lia|reflexivity].
  - cbn [fold_left] in E. remember (step (Ok v) p) as w eqn:Ew. unfold sweep_step in Ew. cbn [bind] in Ew. destruct (loop_project _ _ _ _ _ _ _ _ _ _) as [out|] eqn:EO; cbn [bind] in Ew; [|subst w; rewrite run_fail in E; discriminate]. subst w.
    destruct (RD p (or_introl eq_refl)) as [V F]. pose proof (norm_ge _ _ _ _ _ _ _ _ _ _ _ EO) as NG.
    destruct (Req_dec (lr_norm out) 0) as [Z|NZ].
    + (* a vanishing norm stays *)
      assert (G : forall l v v', fold_left step l (Ok v) = Ok v' -> v_norm v = 0%R -> v_norm v' = 0%R /\ exists new, v_seen v' = v_seen v ++ new /\ map (fun x => fst (fst x)) new = l).
      { clear. induction l as [|p l IH]; intros v v' E Z.
        - cbn in E. assert (v' = v) by congruence. subst. split; [exact Z|]. exists []. rewrite app_nil_r. split; reflexivity.
        - cbn [fold_left] in E. remember (step (Ok v) p) as w eqn:Ew. unfold sweep_step in Ew. cbn [bind] in Ew. destruct (loop_project _ _ _ _ _ _ _ _ _ _) as [out|]; cbn [bind] in Ew; [|subst w; rewrite run_fail in E; discriminate]. subst w.
          destruct (IH _ _ E) as (Z' & new & N1 & N2); [cbn [v_norm]; rewrite Z; ring|]. split; [exact Z'|]. cbn [v_seen] in N1. eexists. rewrite N1, <- app_assoc. split; [reflexivity|]. cbn. rewrite N2. reflexivity. }
      destruct (G _ _ _ E) as (Z' & new & N1 & N2); [cbn [v_norm]; rewrite Z; ring|]. cbn [v_seen] in N1. exists ((p, v_peps v, out) :: new). rewrite N1, <- app_assoc. split; [reflexivity|]. split; [cbn; rewrite N2; reflexivity|]. split; [lra|]. intros _ ?. lra.
    + assert (NP : (0 < v_norm v * lr_norm out)%R) by (apply Rmult_lt_0_compat; lra).
      (* the next state is only known to be sound when nothing was lost *)
      assert (G : forall l v v', fold_left step l (Ok v) = Ok v' -> (0 <= v_norm v)%R -> (0 <= v_norm v')%R /\ exists new, v_seen v' = v_seen v ++ new /\ map (fun x => fst (fst x)) new = l).
      { clear. induction l as [|p l IH]; intros v v' E Z.
        - cbn in E. assert (v' = v) by congruence. subst. split; [exact Z|]. exists []. rewrite app_nil_r. split; reflexivity.
        - cbn [fold_left] in E. remember (step (Ok v) p) as w eqn:Ew. unfold sweep_step in Ew. cbn [bind] in Ew. destruct (loop_project _ _ _ _ _ _ _ _ _ _) as [out|] eqn:EO; cbn [bind] in Ew; [|subst w; rewrite run_fail in E; discriminate]. subst w.
          destruct (IH _ _ E) as (Z' & new & N1 & N2); [cbn [v_norm]; apply Rmult_le_pos; [exact Z|exact (norm_ge _ _ _ _ _ _ _ _ _ _ _ EO)]|]. split; [exact Z'|]. cbn [v_seen] in N1. eexists. rewrite N1, <- app_assoc. split; [reflexivity|]. cbn. rewrite N2. reflexivity. }
      destruct (G _ _ _ E) as (Z' & new & N1 & N2); [cbn [v_norm]; lra|]. cbn [v_seen] in N1. exists ((p, v_peps v, out) :: new). rewrite N1, <- app_assoc. split; [reflexivity|]. split; [cbn; rewrite N2; reflexivity|]. split; [exact Z'|].
      intros LO NP'. apply Forall_cons_iff in LO. destruct LO as [L0 LO]. destruct p as [r c]. cbn [fst snd] in *. destruct L0 as (RM & RT & KP).
      destruct (loop_sound _ _ _ _ _ m QR SV SVT EV EG pr _ _ _ _ PT S V F RM out EO RT NZ KP) as [S1 S2]. pose proof (loop_applies _ _ _ _ _ m QR SV SVT EV EG pr _ _ _ _ PT S V F RM out EO RT NZ) as AP. pose proof (loop_ratio _ _ _ _ _ QR SV pr _ _ _ _ S V F out EO) as RA.
      set (w := Sweeping (lr_peps out) (v_norm v * lr_norm out) (add_share (v_e0 v) (energy_share kind tau (lr_ratio out))) (v_seen v ++ [((r, c), v_peps v, out)])) in *.
      pose proof (ready_tail _ _ _ RD) as RT'. pose proof (ready_same _ _ _ S2 RT') as RD'. destruct (IH w v' E S1 RD' NP) as (new' & N1' & N2' & _ & H).
      assert (new' = new). { rewrite N1 in N1'. cbn [v_seen w] in N1'. unfold w in N1'. cbn [v_seen] in N1'. rewrite <- !app_assoc in N1'. apply app_inv_head in N1'. cbn in N1'. congruence. } subst new'.
      destruct (H LO NP') as (T1 & T2 & k & T3 & T4 & T5 & states & T6 & T7 & T8). cbn [v_peps v_norm v_e0] in *. pose proof S2 as (A1 & A2 & A3 & A4).
      assert (FT : forall p, In p l -> loop_fits (v_peps v) (fst p) (snd p) (gates (fst p) (snd p))) by (intros q Hq; apply (RT' q Hq)).
      (* going on from what the first gate has made *)
      assert (GO : forall k' l' Q, (forall p, In p l' -> loop_fits (v_peps v) (fst p) (snd p) (gates (fst p) (snd p))) -> (forall s, proper (lr_peps out) s -> (RtoC k' * wave Q s)%C = loop_gates (p_rows (lr_peps out)) (p_cols (lr_peps out)) gates l' (wave (lr_peps out)) s) ->
        forall s, proper (v_peps v) s -> (RtoC (lr_norm out * k') * wave Q s)%C = loop_gates (p_rows (v_peps v)) (p_cols (v_peps v)) gates ((r, c) :: l') (wave (v_peps v)) s).
      { intros k' l' Q FT' HQ s Hs. rewrite RtoC_mul. transitivity (RtoC (lr_norm out) * (RtoC k' * wave Q s))%C; [ring|]. rewrite HQ by (apply (proper_same _ _ _ S2); exact Hs). rewrite A1, A2.
        rewrite <- (gates_scal (v_peps v) gates (RtoC (lr_norm out)) l' (wave (lr_peps out)) FT' s Hs). unfold loop_gates at 2. cbn [fold_left fst snd]. apply (gates_agree (v_peps v) gates l' _ _ FT'); [|exact Hs]. exact AP. }
      split; [exact T1|]. split; [exact (same_trans _ _ _ S2 T2)|]. exists (lr_norm out * k)%R. split; [rewrite T3; unfold w; cbn [v_norm]; ring|]. assert (0 < lr_norm out)%R by lra. split; [apply Rmult_lt_0_compat; assumption|].
      split; [apply GO; assumption|].
      exists (v_peps v :: states). split; [cbn; rewrite T6; reflexivity|]. split.
      * intros [|i] Hi; cbn [nth firstn length] in *.
        -- split; [apply same_refl|]. exists 1%R. split; [lra|]. intros s _. cbn. ring.
        -- assert (Hi' : i < length l) by lia. destruct (T7 i Hi') as (U1 & k' & U2 & U3). rewrite (nth_indep states _ (lr_peps out)) by lia. split; [exact (same_trans _ _ _ S2 U1)|]. exists (lr_norm out * k')%R. split; [apply Rmult_lt_0_compat; assumption|].
           apply GO; [|exact U3]. intros q Hq. apply FT. revert Hq. rewrite <- (firstn_skipn i l) at 2. intros Hq. apply in_or_app. left. exact Hq.
      * rewrite T8. unfold w. cbn [v_e0]. unfold shares. cbn [combine map total fst snd]. unfold expectation at 2. cbn [fst snd]. rewrite <- RA. reflexivity.
Qed.

Lemma total_none rs : total None rs = None.
Proof. induction rs as [|r rs IH]; [reflexivity|exact IH]. Qed.
Lemma total_all (f : R -> R) : forall rs e, (forall r, In r rs -> energy_share kind tau r = Some (f r)) -> total (Some e) rs = Some (e + rsum f rs)%R.
Proof.
  induction rs as [|r rs IH]; intros e H; [cbn; unfold rsum; cbn; f_equal; ring|]. cbn [total]. rewrite (H r (or_introl eq_refl)). cbn [add_share]. rewrite IH by (intros q Hq; apply H; right; exact Hq). f_equal. unfold rsum. cbn [fold_right]. ring.
Qed.
Lemma total_some_none : forall rs e r, In r rs -> energy_share kind tau r = None -> total e rs = None.
Proof.
  induction rs as [|r0 rs IH]; intros e r Hr N; [destruct Hr|]. cbn [total]. destruct Hr as [->|Hr]; [rewrite N; replace (add_share e None) with (@None R) by (destruct e; reflexivity); apply total_none|exact (IH _ r Hr N)].
Qed.

Lemma gates_ready P gr gc : loop_construct (p_rows P) (p_cols P) (p_per P) gr gc = Ok tt -> gates_fit P gates -> ready P (plaquette_order (p_rows P) (p_cols P) (p_per P)).
Proof. intros C G p Hp. apply (Permutation_in _ (order_covers _ _ _)) in Hp. split; [exact (constructed_valid P gr gc C p Hp)|exact (G p Hp)]. Qed.
Lemma sweep_all P gr gc w : sound (l_env_tol pr) P -> loop_construct (p_rows P) (p_cols P) (p_per P) gr gc = Ok tt -> gates_fit P gates -> tau <> 0%R ->
  loop_sweep qr svd svdt evd eigvec pr kind tau gates P = Ok w -> Forall lost (w_seen w) ->
  let order := plaquette_order (p_rows P) (p_cols P) (p_per P) in
  (sound (l_env_tol pr) (w_peps w) /\ same_sites P (w_peps w)) /\
  (forall s, proper P s -> (RtoC (exp (- tau * w_en w)) * wave (w_peps w) s)%C = loop_gates (p_rows P) (p_cols P) gates order (wave P) s) /\
  exists states, length states = length order /\ (forall i, i < length order -> reached P (nth i states P) (firstn i order)) /\ w_e0 w = total (Some 0%R) (shares order states).
Proof.
  intros S C G T E L order. unfold loop_sweep in E. rewrite order_passes in E. fold order in E. destruct (sweep_run _ _ _ _ _ _ _ _ _ P order) as [v|] eqn:ER; [|discriminate]. cbn [bind] in E. unfold rle in E. destruct (Rle_dec (v_norm v) 0) as [|NP]; [discriminate|]. assert (w = Swept (v_peps v) (v_e0 v) (- ln (v_norm v) / tau) (v_seen v)) by congruence. subst w. cbn [w_peps w_e0 w_en w_seen] in *.
  destruct (run_main _ _ _ ER S (gates_ready P gr gc C G) Rlt_0_1) as (new & N1 & N2 & _ & H). cbn [v_seen app] in N1. rewrite N1 in L. destruct (H L ltac:(lra)) as (T1 & T2 & k & T3 & T4 & T5 & states & T6 & T7 & T8). cbn [v_norm v_peps v_e0] in *.
  split; [split; assumption|]. split; [|exists states; split; [exact T6|]; split; [exact T7|exact T8]].
  intros s Hs. rewrite <- T5 by exact Hs. f_equal. f_equal. rewrite T3. replace (- tau * (- ln (1 * k) / tau))%R with (ln (1 * k)) by (field; exact T). rewrite Rmult_1_l. apply exp_ln. exact T4.
Qed.

Lemma run_well : (0 < l_correct pr)%R -> (0 <= l_warn pr)%R -> forall l v, sound (l_env_tol pr) (v_peps v) -> ready (v_peps v) l -> (0 < v_norm v)%R -> starts_well qr svd svdt evd eigvec pr m gates (v_peps v) l ->
  exists v' new, fold_left step l (Ok v) = Ok v' /\ (0 < v_norm v')%R /\ v_seen v' = v_seen v ++ new /\ Forall lost new.
Proof.
  intros CT WT. induction l as [|[r c] l IH]; intros v S RD NV SW.
  - exists v, []. rewrite app_nil_r. split; [reflexivity|]. split; [exact NV|]. split; [reflexivity|constructor].
  - cbn [starts_well] in SW. destruct SW as (RM & CD & NZ & GO). destruct (RD _ (or_introl eq_refl)) as [V F]. cbn [fst snd] in V, F.
    destruct (loop_succeeds _ _ _ _ _ m QR SV SVT EV EG pr _ _ _ _ PT CT WT S V F RM CD NZ) as (out & EO & NN & RT). destruct (GO out EO) as [KP SW'].
    destruct (loop_sound _ _ _ _ _ m QR SV SVT EV EG pr _ _ _ _ PT S V F RM out EO RT NN KP) as [S1 S2]. pose proof (norm_ge _ _ _ _ _ _ _ _ _ _ _ EO).
    cbn [fold_left]. unfold sweep_step at 2. cbn [bind fst snd]. rewrite EO. cbn [bind].
    destruct (IH (Sweeping (lr_peps out) (v_norm v * lr_norm out) (add_share (v_e0 v) (energy_share kind tau (lr_ratio out))) (v_seen v ++ [((r, c), v_peps v, out)])) S1 (ready_same _ _ _ S2 (ready_tail _ _ _ RD)) ltac:(cbn [v_norm]; apply Rmult_lt_0_compat; lra) SW') as (v' & new & E & N1 & N2 & N3).
    exists v', (((r, c), v_peps v, out) :: new). split; [exact E|]. split; [exact N1|]. split; [rewrite N2; cbn [v_seen]; rewrite <- app_assoc; reflexivity|]. constructor; [|exact N3]. split; [exact RM|]. split; [exact RT|exact KP].
Qed.
End Run.

Lemma sweep_applies qr svd svdt evd eigvec m : qr_any qr -> svd_any svd -> svd_up_to m svdt -> evd_unitary evd -> eig_shape eigvec ->
  forall pr kind tau gates P gr gc, (0 < l_inv_tol pr)%R -> tau <> 0%R -> sound (l_env_tol pr) P -> loop_construct (p_rows P) (p_cols P) (p_per P) gr gc = Ok tt -> gates_fit P gates ->
  forall w, loop_sweep qr svd svdt evd eigvec pr kind tau gates P = Ok w -> Forall (lost_nothing pr m gates) (w_seen w) ->
  forall s, proper P s -> (RtoC (exp (- tau * w_en w)) * wave (w_peps w) s)%C = loop_gates (p_rows P) (p_cols P) gates (plaquette_order (p_rows P) (p_cols P) (p_per P)) (wave P) s.
Proof. intros QR SV SVT EV EG pr kind tau gates P gr gc PT T S C G w E L. exact (proj1 (proj2 (sweep_all _ _ _ _ _ m QR SV SVT EV EG pr PT kind tau gates P gr gc w S C G T E L))). Qed.
Lemma combine_shares gates f : forall l states, rsum f (shares gates l states) = rsum (fun x => f (expectation (gates (fst (fst x)) (snd (fst x))) (snd x) (fst x))) (combine l states).
Proof. intros l states. unfold shares, rsum. generalize (combine l states). induction l0 as [|x l0 IH]; [reflexivity|]. cbn. rewrite IH. reflexivity. Qed.
Lemma sweep_energy qr svd svdt evd eigvec m : qr_any qr -> svd_any svd -> svd_up_to m svdt -> evd_unitary evd -> eig_shape eigvec ->
  forall pr kind tau gates P gr gc, (0 < l_inv_tol pr)%R -> tau <> 0%R -> sound (l_env_tol pr) P -> loop_construct (p_rows P) (p_cols P) (p_per P) gr gc = Ok tt -> gates_fit P gates ->
  forall w, loop_sweep qr svd svdt evd eigvec pr kind tau gates P = Ok w -> Forall (lost_nothing pr m gates) (w_seen w) ->
  let order := plaquette_order (p_rows P) (p_cols P) (p_per P) in
  exists states, length states = length order /\ (forall i, i < length order -> reached gates P (nth i states P) (firstn i order)) /\
  let value x := expectation (gates (fst (fst x)) (snd (fst x))) (snd x) (fst x) in
  match kind with
  | FirstOrder => w_e0 w = Some (rsum (fun x => (1 - value x) / tau)%R (combine order states))
  | Exponential => ((forall x, In x (combine order states) -> (0 < value x)%R) -> w_e0 w = Some (rsum (fun x => - ln (value x) / tau)%R (combine order states))) /\
                   ((exists x, In x (combine order states) /\ (value x <= 0)%R) -> w_e0 w = None)
  end.
Proof.
  intros QR SV SVT EV EG pr kind tau gates P gr gc PT T S C G w E L order. destruct (proj2 (proj2 (sweep_all _ _ _ _ _ m QR SV SVT EV EG pr PT kind tau gates P gr gc w S C G T E L))) as (states & H1 & H2 & H3). fold order in H1, H2, H3.
  exists states. split; [exact H1|]. split; [exact H2|]. cbn zeta. destruct kind.
  - rewrite H3, (total_all FirstOrder tau (fun r => (1 - r) / tau)%R) by (intros; reflexivity). rewrite Rplus_0_l. f_equal. apply (combine_shares gates (fun r => (1 - r) / tau)%R).
  - split.
    + intros PO. rewrite H3, (total_all Exponential tau (fun r => - ln r / tau)%R).
      * rewrite Rplus_0_l. f_equal. apply (combine_shares gates (fun r => - ln r / tau)%R).
      * intros r Hr. unfold shares in Hr. apply in_map_iff in Hr. destruct Hr as (x & <- & Hx). unfold energy_share, rlt. destruct (Rlt_dec 0 _) as [|N]; [reflexivity|]. exfalso. exact (N (PO x Hx)).
    + intros (x & Hx & Hv). rewrite H3. apply (total_some_none Exponential tau _ _ (expectation (gates (fst (fst x)) (snd (fst x))) (snd x) (fst x))).
      * unfold shares. apply in_map_iff. exists x. split; [reflexivity|exact Hx].
      * unfold energy_share, rlt. destruct (Rlt_dec 0 _) as [Q|]; [|reflexivity]. exfalso. lra.
Qed.
Lemma sweep_succeeds qr svd svdt evd eigvec m : qr_any qr -> svd_any svd -> svd_up_to m svdt -> evd_unitary evd -> eig_shape eigvec ->
  forall pr kind tau gates P gr gc, (0 < l_inv_tol pr)%R -> (0 < l_correct pr)%R -> (0 <= l_warn pr)%R -> sound (l_env_tol pr) P -> loop_construct (p_rows P) (p_cols P) (p_per P) gr gc = Ok tt -> gates_fit P gates ->
  starts_well qr svd svdt evd eigvec pr m gates P (plaquette_order (p_rows P) (p_cols P) (p_per P)) ->
  exists w, loop_sweep qr svd svdt evd eigvec pr kind tau gates P = Ok w /\ Forall (lost_nothing pr m gates) (w_seen w).
Proof.
  intros QR SV SVT EV EG pr kind tau gates P gr gc PT CT WT S C G SW.
  destruct (run_well _ _ _ _ _ m QR SV SVT EV EG pr PT kind tau gates CT WT _ (Sweeping P 1%R (Some 0%R) []) S (gates_ready gates P gr gc C G) Rlt_0_1 SW) as (v & new & E & N1 & N2 & N3).
  unfold loop_sweep. rewrite order_passes. unfold sweep_run. rewrite E. cbn [bind]. unfold rle. destruct (Rle_dec (v_norm v) 0); [lra|]. eexists. split; [reflexivity|]. cbn [w_seen]. rewrite N2. exact N3.
Qed.
Lemma exp_sum tau x y : (exp (- tau * (x + y)) = exp (- tau * x) * exp (- tau * y))%R.
Proof. rewrite <- exp_plus. f_equal. ring. Qed.
Lemma sweeps_apply qr svd svdt evd eigvec m : qr_any qr -> svd_any svd -> svd_up_to m svdt -> evd_unitary evd -> eig_shape eigvec ->
  forall pr kind tau gates gr gc, (0 < l_inv_tol pr)%R -> tau <> 0%R -> forall n P, sound (l_env_tol pr) P -> loop_construct (p_rows P) (p_cols P) (p_per P) gr gc = Ok tt -> gates_fit P gates ->
  forall Q ens, loop_sweeps qr svd svdt evd eigvec pr kind tau gates n P = Ok (Q, ens) -> lossless_loop_sweeps qr svd svdt evd eigvec pr kind tau m gates n P ->
  length ens = n /\ forall s, proper P s ->
  (RtoC (exp (- tau * rsum (fun e => e) ens)) * wave Q s)%C = Nat.iter n (loop_gates (p_rows P) (p_cols P) gates (plaquette_order (p_rows P) (p_cols P) (p_per P))) (wave P) s.
Proof.
  intros QR SV SVT EV EG pr kind tau gates gr gc PT T. induction n as [|n IH]; intros P S C G Q ens E L.
  - cbn in E. assert (P = Q /\ [] = ens) as [<- <-] by (split; congruence). split; [reflexivity|]. intros s _. unfold rsum. cbn [fold_right Nat.iter nat_rect]. rewrite Rmult_0_r, exp_0. cbn. ring.
  - cbn [loop_sweeps lossless_loop_sweeps] in E, L. destruct (loop_sweep _ _ _ _ _ _ _ _ _ P) as [w|] eqn:EW; [|discriminate]. cbn [bind] in E. destruct (L w eq_refl) as [L1 L2]. destruct (loop_sweeps _ _ _ _ _ _ _ _ _ n (w_peps w)) as [[Q' l]|] eqn:EN; [|discriminate]. cbn [bind] in E. assert (Q' = Q /\ w_en w :: l = ens) as [-> <-] by (split; congruence).
    destruct (sweep_all _ _ _ _ _ m QR SV SVT EV EG pr PT kind tau gates P gr gc w S C G T EW L1) as ((S1 & S2) & W & _). pose proof S2 as (A1 & A2 & A3 & A4).
    assert (RD := gates_ready gates P gr gc C G).
    assert (G' : gates_fit (w_peps w) gates). { intros p Hp. rewrite A1, A2, A3 in Hp. apply (fits_same P); [exact S2|exact (constructed_valid P gr gc C p Hp)|exact (G p Hp)]. }
    destruct (IH (w_peps w) S1 ltac:(rewrite A1, A2, A3; exact C) G' Q l EN L2) as [LE H]. split; [cbn; rewrite LE; reflexivity|]. intros s Hs.
    replace (rsum (fun e => e) (w_en w :: l)) with (w_en w + rsum (fun e => e) l)%R by reflexivity. rewrite exp_sum, RtoC_mul. transitivity (RtoC (exp (- tau * w_en w)) * (RtoC (exp (- tau * rsum (fun e => e) l)) * wave Q s))%C; [ring|].
    rewrite H by (apply (proper_same _ _ _ S2); exact Hs). rewrite A1, A2, A3. set (order := plaquette_order (p_rows P) (p_cols P) (p_per P)) in *. set (GG := loop_gates (p_rows P) (p_cols P) gates order) in *.
    assert (FT : forall p, In p order -> loop_fits P (fst p) (snd p) (gates (fst p) (snd p))) by (intros q Hq; apply (RD q Hq)).
    assert (IA : forall j f h, agree P f h -> agree P (Nat.iter j GG f) (Nat.iter j GG h)) by (induction j as [|j IJ]; intros f h A; [exact A|]; cbn [Nat.iter nat_rect]; apply gates_agree; [exact FT|]; apply IJ; exact A).
    assert (IS : forall j k f, agree P (fun s => (k * Nat.iter j GG f s)%C) (Nat.iter j GG (fun s => (k * f s)%C))).
    { induction j as [|j IJ]; intros k f t Ht; [reflexivity|]. cbn [Nat.iter nat_rect]. change (nat_rect (fun _ => basis -> Cplx.C) ?a (fun _ => GG) j) with (Nat.iter j GG a). rewrite <- (gates_scal P gates k order _ FT t Ht). apply gates_agree; [exact FT| |exact Ht]. apply IJ. }
    rewrite (IS n _ _ s Hs). replace (Nat.iter (Datatypes.S n) GG (wave P)) with (Nat.iter n GG (GG (wave P))) by (clear; induction n as [|n IN]; [reflexivity|]; cbn; f_equal; exact IN). apply IA; [|exact Hs]. exact W.
Qed.
