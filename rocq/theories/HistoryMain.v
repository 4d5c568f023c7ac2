(** Whole Monte-Carlo histories, boundary tensors that outlive an update, and a concrete
    exact contraction (bond dimension one) for which the amplitude hypotheses hold. *)
From Coq Require Import List Arith Lia Bool ZArith.
From Verif Require Import Base ContractorModel ContractorSpec ContractorProofs SweepModel SweepSpec SweepProofs HistoryProofs SweepMain.
Import ListNotations.

Section Acts.
Context (o : ops) (Rng : Type) (rows cols : nat) (tps : sitps o) (ker : kernel o Rng).

Lemma routine_run r (J : wst o Rng -> Prop) :
  fits rows cols (Do r) ->
  (forall w w' : wst o Rng, cfg w' = cfg w -> amp w' = amp w -> tn w' = tn w -> J w -> J w') ->
  (forall w d x k ns a g ms e1 e2, 1 <= k -> window_in rows cols d x k -> J w ->
     window1_spec o rows cols (tn w) d x k = (ms, e1, e2) ->
     ker (map (fun y => cfg w (fst y) (snd y)) (chain d x k)) (amp w)
       (fun ns => tr1 o d ms (chain_tensors o tps (chain d x k) ns) e1 e2) (rng w) = (Some (ns, a), g) ->
     J (update_local o tps a (combine (chain d x k) ns) w)) ->
  (forall w d x k ms e1 e2 c, 1 <= k -> window_in rows cols d x k -> J w ->
     window1_spec o rows cols (tn w) d x k = (ms, e1, e2) ->
     J (mkW (cfg w) (tr1 o d ms (map (fun y => tn w (fst y) (snd y)) (chain d x k)) e1 e2) (tn w) c (rng w)) /\
     J (mkW (cfg w) (tr1 o d ms (chain_tensors o tps (chain d x k)
       (map (fun y => cfg w (fst y) (snd y)) (chain d x k))) e1 e2) (tn w) c (rng w))) ->
  forall w, ready o rows cols w -> J w ->
    exists w' lg, run o tps ker (program rows cols r) w = Ok (w', lg) /\ ready o rows cols w' /\ J w' /\
      log_fresh o rows cols lg.
Proof.
  intros F J1 J2 J3 w Hw HJ.
  destruct r; simpl in F; cbn [program].
  - apply triple_ready; auto. apply t_sweep_nn; auto; lia.
  - apply triple_ready; auto. apply t_sweep_tnn; auto; lia.
  - destruct (evaluate_ready o Rng rows cols tps ker w ltac:(lia) ltac:(lia) Hw) as (w' & lg & E & R & A & B & D & M & L).
    exists w', lg. split; [exact E|]. split; [exact R|]. split; [|exact L].
    destruct (window1_spec o rows cols (tn w) HORIZONTAL (0, 0) 2) as [[ms e1] e2] eqn:EW.
    destruct (J3 w HORIZONTAL (0, 0) 2 ms e1 e2 (ctr w) ltac:(lia) ltac:(simpl; lia) HJ EW) as [X _].
    eapply J1; [| | |exact X]; simpl; auto. rewrite M. unfold trace_at. rewrite EW. reflexivity.
  - apply triple_ready; auto. apply t_traverse_all; auto; lia.
  - apply triple_ready; auto. apply t_cal_energy; auto; lia.
Qed.

Lemma act_ok a (w : wst o Rng) : fits rows cols a -> ready o rows cols w ->
  exists w' lg, act rows cols tps ker a w = Ok (w', lg) /\ ready o rows cols w' /\ log_fresh o rows cols lg.
Proof.
  intros F Hw. destruct a as [r|c]; cbn [act].
  - destruct (routine_run r (fun _ => True) F) with (w := w) as (w' & lg & E & R & _ & L); auto. eauto.
  - destruct (evaluate_ready o Rng rows cols tps ker (replace_config tps c w)) as (w' & lg & E & R & A & B & D & M & L).
    + simpl in F. lia.
    + simpl in F. lia.
    + destruct Hw as (R1 & C1 & _). simpl in F.
      eapply (init_ready o Rng rows cols _ (ctr w)); try reflexivity; auto; lia.
    + eauto.
Qed.
Lemma acts_ok l : forall w : wst o Rng, Forall (fits rows cols) l -> ready o rows cols w ->
  exists w' lg, acts rows cols tps ker l w = Ok (w', lg) /\ ready o rows cols w' /\ log_fresh o rows cols lg.
Proof.
  induction l as [|a l IH]; intros w F Hw; cbn [acts].
  - exists w, []. split; [reflexivity|]. split; [exact Hw|]. intros n q x [].
  - inversion F; subst. destruct (act_ok a w) as (w1 & g1 & E1 & R1 & L1); auto.
    destruct (IH w1) as (w2 & g2 & E2 & R2 & L2); auto. rewrite E1. cbn [bind fst snd]. rewrite E2. cbn [bind fst snd].
    exists w2, (g1 ++ g2). split; [reflexivity|]. split; [exact R2|].
    intros n q x Hi. apply in_app_or in Hi. destruct Hi; eauto.
Qed.

Lemma component_life c a0 g l : 1 <= rows -> 2 <= cols -> Forall (fits rows cols) l ->
  exists w lg, (r <- construct tps ker rows cols c a0 g ;; acts rows cols tps ker l (fst r)) = Ok (w, lg) /\
    ready o rows cols w /\ log_fresh o rows cols lg.
Proof.
  intros Hr Hc F. destruct (construct_ok o Rng rows cols tps ker c a0 g Hr Hc) as (w & lg & E & R & _).
  rewrite E. cbn [bind fst]. apply acts_ok; auto.
Qed.

Section Coh.
Context (psi : net o -> Amp o).
Hypothesis Hpsi : contraction_consistent o rows cols psi.
Hypothesis Hker : honest ker.

Lemma act_coh a (w : wst o Rng) : fits rows cols a -> ready o rows cols w -> coh o Rng rows cols tps psi w ->
  exists w' lg, act rows cols tps ker a w = Ok (w', lg) /\ ready o rows cols w' /\ coh o Rng rows cols tps psi w'.
Proof.
  intros F Hw HJ. destruct a as [r|c]; cbn [act].
  - destruct (routine_run r (coh o Rng rows cols tps psi) F) with (w := w) as (w' & lg & E & R & J' & L); auto.
    + intros w0 w1. apply coh_ext.
    + intros. eapply coh_update; eauto.
    + intros. eapply coh_setamp; eauto.
    + eauto.
  - destruct (evaluate_ready o Rng rows cols tps ker (replace_config tps c w)) as (w' & lg & E & R & A & B & D & M & L).
    + simpl in F. lia.
    + simpl in F. lia.
    + destruct Hw as (R1 & C1 & _). simpl in F.
      eapply (init_ready o Rng rows cols _ (ctr w)); try reflexivity; auto; lia.
    + exists w', lg. split; [exact E|]. split; [exact R|]. unfold coh. rewrite A, B, M.
      split; [intros r k _ _; reflexivity|]. apply Hpsi; [lia|]. simpl in *. lia.
Qed.
Lemma acts_coh l : forall w : wst o Rng, Forall (fits rows cols) l -> ready o rows cols w ->
  coh o Rng rows cols tps psi w ->
  exists w' lg, acts rows cols tps ker l w = Ok (w', lg) /\ ready o rows cols w' /\ coh o Rng rows cols tps psi w'.
Proof.
  induction l as [|a l IH]; intros w F Hw HJ; cbn [acts].
  - exists w, []. auto.
  - inversion F; subst. destruct (act_coh a w) as (w1 & g1 & E1 & R1 & L1); auto.
    destruct (IH w1) as (w2 & g2 & E2 & R2 & L2); auto. rewrite E1. cbn [bind fst snd]. rewrite E2. cbn [bind fst snd].
    exists w2, (g1 ++ g2). auto.
Qed.
Lemma component_life_coh c a0 g l : 1 <= rows -> 2 <= cols -> Forall (fits rows cols) l ->
  exists w lg, (r <- construct tps ker rows cols c a0 g ;; acts rows cols tps ker l (fst r)) = Ok (w, lg) /\
    projected o rows cols tps (cfg w) (tn w) /\ amp w = psi (tn w).
Proof.
  intros Hr Hc F. destruct (construct_ok o Rng rows cols tps ker c a0 g Hr Hc) as (w & lg & E & R & A & B & D & M & L).
  rewrite E. cbn [bind fst]. destruct (acts_coh l w F R) as (w' & lg' & E' & R' & C').
  - unfold coh. split; [intros r k _ _; rewrite A; apply B|]. rewrite M.
    rewrite (Hpsi _ HORIZONTAL (0, 0) 2) by (simpl; lia).
    rewrite <- (Hpsi _ HORIZONTAL (0, 0) 2) by (simpl; lia).
    rewrite <- (Hpsi (tn w) HORIZONTAL (0, 0) 2) by (simpl; lia). unfold trace_at.
    rewrite (window_ext o rows cols (fun r k => tps r k (c r k)) (tn w) HORIZONTAL (0, 0) 2) by (simpl; auto; lia).
    destruct (window1_spec _ _ _ _ _ _ _) as [[ms e1] e2]. f_equal. apply map_ext. intros y. now rewrite B.
  - exists w', lg'. split; [exact E'|exact C'].
Qed.
End Coh.
End Acts.

(** *** Boundary tensors after an update *)
Section Kept.
Context (o : ops).
Lemma nth_firstn {X} (l : list X) n k x : nth_error (firstn n l) k = Some x -> nth_error l k = Some x /\ k < n.
Proof.
  revert l k. induction n as [|n IH]; intros l k; simpl; [destruct k; discriminate|].
  destruct l as [|a l]; [destruct k; discriminate|]. destruct k as [|k]; simpl; [intros E; split; [exact E|lia]|].
  intros E. apply IH in E. split; [tauto|lia].
Qed.
Lemma bt_kept tn (c : con o) p s (x : site) (t : Ten o) :
  fst x < rows_ c -> snd x < cols_ c -> s = across (match p with LEFT | RIGHT => HORIZONTAL | _ => VERTICAL end) x ->
  bt_fresh o tn c p s -> bt_fresh o (upd2 tn x t) (erase_envs_after_update o x c) p s.
Proof.
  intros Hr Hc Hs F k e E. cbn [bt erase_envs_after_update rows_ cols_] in *.
  apply nth_firstn in E. destruct E as [E Hk]. rewrite (F k e E).
  apply env_from_update with x; auto.
  - intros r q _ _ Hne. symmetry. apply upd2_other. exact Hne.
  - destruct p; exact Hs.
Qed.
End Kept.

(** Uninterpreted contraction: every object records what it was built from, so two objects
    are equal exactly when they were built in the same way from the same tensors. *)
Inductive term := TVac (n : nat) (l : list term) | TTen (n : nat) | TNode (n : nat) (l : list term).
Definition pos_num (p : pos) : nat := match p with LEFT => 0 | DOWN => 1 | RIGHT => 2 | UP => 3 end.
Definition free_ops : ops :=
  mkOps nat term term term term term term
    (fun p => TVac (pos_num p) [])
    (fun p ts m => TNode (pos_num p) (m :: map TTen ts))
    (fun m i => TNode i [m])
    (fun p a b => TVac (pos_num p) [a; b])
    (fun p e a t b => TNode (pos_num p) [e; a; TTen t; b])
    (fun p a b => TVac (pos_num p) [a; b])
    (fun p e a t1 t2 b => TNode (pos_num p) [e; a; TTen t1; TTen t2; b])
    (fun d ms ts e1 e2 => TNode 4 (e1 :: e2 :: map TTen ts ++ flat_map (fun x => [fst x; snd x]) ms))
    (fun d ms ts e1 e2 => TNode 5 (e1 :: e2 :: flat_map (fun x => [TTen (fst x); TTen (snd x)]) ts))
    (fun d a b e1 e2 => TNode 6 [a; b; e1; e2]).
Definition no_kernel {o} : kernel o unit := fun _ _ _ g => (None, g).

(** One stale read: environments of row 1 of a 2 x 3 lattice, then an update of site (0,1). *)
Definition stale_history : list cmd :=
  [GrowRow 1; GrowE LEFT 1 1 true; GrowE RIGHT 1 1 true; SetSite (0, 1) 7; GrowRow 1; Query (Q1 HORIZONTAL (1, 1) 1)].
Definition free_tps : sitps free_ops := fun r c n => 100 * r + 10 * c + n.
Definition free_start : wst free_ops unit :=
  new_component free_ops free_tps 2 3 (fun _ _ => 0) (TTen 0) tt.
Lemma stale_read : exists w lg, run free_ops free_tps no_kernel stale_history free_start = Ok (w, lg) /\
  ~ log_fresh free_ops 2 3 lg.
Proof.
  eexists; eexists. split; [vm_compute; reflexivity|].
  intros F. specialize (F _ _ _ (or_introl eq_refl)). vm_compute in F.
  discriminate F.
Qed.

Lemma stale_read_exists :
  exists (o : ops) (Rng : Type) (tps : sitps o) (ker : kernel o Rng) (rows cols : nat) (l : list cmd)
    (c : nat -> nat -> nat) (a0 : Amp o) (g : Rng) w lg,
  run o tps ker l (new_component o tps rows cols c a0 g) = Ok (w, lg) /\ ~ log_fresh o rows cols lg.
Proof.
  destruct stale_read as (w & lg & E & N).
  exists free_ops, unit, free_tps, no_kernel, 2, 3, stale_history, (fun _ _ => 0), (TTen 0), tt, w, lg. auto.
Qed.

Lemma new_component_fresh (o : ops) (Rng : Type) (tps : sitps o) (ker : kernel o Rng) (rows cols : nat) (l : list cmd)
         (c : nat -> nat -> nat) (a0 : Amp o) (g : Rng) (w : wst o Rng) (lg : list (event o)) :
  run o tps ker l (new_component o tps rows cols c a0 g) = Ok (w, lg) -> bm_fresh o (tn w) (ctr w).
Proof.
  intros E. apply (run_fresh o Rng tps ker rows cols) in E; [apply E|].
  apply (init_fresh o _ (new_con o rows cols)); reflexivity.
Qed.
Lemma sweep_nn_fresh (o : ops) (Rng : Type) (rows cols : nat) (tps : sitps o) (ker : kernel o Rng) (w : wst o Rng) :
  2 <= rows -> 2 <= cols -> ready o rows cols w ->
  exists w' lg, run o tps ker (sweep_nn_obc rows cols) w = Ok (w', lg) /\
    ready o rows cols w' /\ log_fresh o rows cols lg.
Proof. intros Hr Hc. apply sweep_nn_ok; auto. Qed.
Lemma sweep_tnn_fresh (o : ops) (Rng : Type) (rows cols : nat) (tps : sitps o) (ker : kernel o Rng) (w : wst o Rng) :
  3 <= rows -> 3 <= cols -> ready o rows cols w ->
  exists w' lg, run o tps ker (sweep_tnn_obc rows cols) w = Ok (w', lg) /\
    ready o rows cols w' /\ log_fresh o rows cols lg.
Proof. intros Hr Hc. apply sweep_tnn_ok; auto. Qed.
