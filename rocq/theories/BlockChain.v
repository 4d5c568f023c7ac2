(** Stationarity of updates that choose among local alternatives. *)
From Coq Require Import List Arith Lia Bool Permutation Reals Lra.
From Verif Require Import Base ContractorModel SweepModel SweepSpec UpdaterModel UpdaterSpec SuwaTodoProofs UpdaterProofs UpdaterChain.
Import ListNotations.
Local Open Scope nat_scope.

Lemma list_sum_sub {A} (dec : forall x y : A, {x = y} + {x <> y}) (f : A -> nat) l ss :
  NoDup l -> NoDup ss -> (forall s, In s ss -> In s l) -> (forall s, In s l -> ~ In s ss -> f s = 0) ->
  list_sum (map f l) = list_sum (map f ss).
Proof.
  intros Hl Hs Hin Hz. destruct (total_split dec l ss Hl Hs Hin) as (rest & HP & Hr).
  rewrite (list_sum_map_perm f _ _ HP), map_app, list_sum_app.
  assert (Z : list_sum (map f rest) = 0).
  { assert (forall s, In s rest -> f s = 0).
    { intros s H. apply Hz; [|apply Hr, H]. apply (Permutation_in s (Permutation_sym HP)), in_or_app. right. exact H. }
    clear -H. induction rest; simpl; [reflexivity|]. rewrite (H a) by (left; reflexivity).
    rewrite IHrest; [reflexivity|]. intros; apply H; right; assumption. }
  lia.
Qed.
Definition ldec : forall x y : list nat, {x = y} + {x <> y} := list_eq_dec Nat.eq_dec.

Lemma map_nth_W (W : list nat -> nat) A i : i < length A -> nth i (map W A) 0 = W (nth i A []).
Proof.
  intros H. rewrite (nth_indep _ 0 (W [])) by (rewrite map_length; exact H). apply map_nth.
Qed.
Lemma block_next_in W A s u : In s A -> u < W s -> In (block_next W A s u) A /\ 0 < W (block_next W A s u).
Proof.
  intros Hs Hu. destruct (index_of_in _ _ Hs) as [Hi Hn].
  destruct (suwa_range (map W A) (index_of s A) u) as [H1 H2].
  - rewrite map_length. exact Hi.
  - rewrite map_nth_W, Hn by exact Hi. exact Hu.
  - rewrite map_length in H1. rewrite map_nth_W in H2 by exact H1. unfold block_next.
    rewrite (nth_indep _ s []) by exact H1. split; [apply nth_In, H1|exact H2].
Qed.
Lemma flow_filter W A i j : NoDup A -> i < length A -> j < length A ->
  block_flow W A (nth i A []) (nth j A []) = flow (map W A) i j.
Proof.
  intros Hd Hi Hj. unfold block_flow, flow. rewrite map_nth_W by exact Hi.
  assert (G : forall l, (forall u, In u l -> u < W (nth i A [])) ->
     length (filter (fun u => list_eqb (block_next W A (nth i A []) u) (nth j A [])) l)
     = count_occ Nat.eq_dec (map (suwa_todo (map W A) i) l) j).
  { induction l as [|u l IH]; intros Hl; [reflexivity|]. simpl.
    assert (Hu : u < W (nth i A [])) by (apply Hl; left; reflexivity).
    destruct (suwa_range (map W A) i u) as [H1 _]; [rewrite map_length; exact Hi|rewrite map_nth_W by exact Hi; exact Hu|].
    rewrite map_length in H1.
    assert (E : block_next W A (nth i A []) u = nth (suwa_todo (map W A) i u) A []).
    { unfold block_next. rewrite index_of_nth by auto. apply nth_indep, H1. }
    rewrite E. destruct (Nat.eq_dec (suwa_todo (map W A) i u) j) as [Ej|Ej].
    - rewrite Ej. replace (list_eqb (nth j A []) (nth j A [])) with true by (symmetry; apply list_eqb_true; reflexivity).
      simpl. f_equal. apply IH. intros; apply Hl; right; assumption.
    - destruct (list_eqb (nth (suwa_todo (map W A) i u) A []) (nth j A [])) eqn:El.
      + apply list_eqb_true in El. exfalso. apply Ej. apply (proj1 (NoDup_nth A []) Hd); auto.
      + apply IH. intros; apply Hl; right; assumption. }
  apply G. intros u Hu. apply in_seq in Hu. lia.
Qed.

Section Blocks.
Context (W : list nat -> nat) (states : list (list nat)) (alts : list nat -> list (list nat)).
Context (Hnd : NoDup states).
Context (Hself : forall s, In s states -> In s (alts s)).
Context (Hdup : forall s, In s states -> NoDup (alts s)).
Context (Hcl : forall s t, In s states -> In t (alts s) -> In t states /\ alts t = alts s).
Lemma block_balance s' : In s' states ->
  list_sum (map (fun s => block_flow W (alts s) s s') states) = W s'.
Proof.
  intros Hs'. set (A := alts s').
  rewrite (list_sum_sub ldec _ states A Hnd).
  - pose proof (f_equal (fun z => list_sum (map (fun s => block_flow W (alts s) s s') z)) (list_as_map A [])) as EA.
    cbv beta in EA. rewrite map_map in EA. rewrite EA. clear EA.
    destruct (index_of_in s' A (Hself s' Hs')) as [Hj Ej].
    rewrite (map_ext_in _ (fun i => flow (map W A) i (index_of s' A))).
    + pose proof (suwa_balance (map W A) (index_of s' A)) as B. rewrite map_length in B.
      rewrite B by exact Hj. rewrite map_nth_W, Ej by exact Hj. reflexivity.
    + intros i Hi. apply in_seq in Hi. rewrite <- Ej at 1.
      assert (Hi' : i < length A) by lia.
      assert (Ei : alts (nth i A []) = A) by (apply (Hcl s'); [exact Hs'|apply nth_In; exact Hi']).
      rewrite Ei. apply flow_filter; auto. apply Hdup, Hs'.
  - apply Hdup, Hs'.
  - intros s Hs. apply (Hcl s'); auto.
  - intros s Hs Hns. unfold block_flow.
    assert (G : forall l, (forall u, In u l -> u < W s) -> filter (fun u => list_eqb (block_next W (alts s) s u) s') l = []).
    { induction l as [|u l IH]; intros Hl; [reflexivity|]. simpl.
      destruct (list_eqb (block_next W (alts s) s u) s') eqn:E.
      - exfalso. apply list_eqb_true in E. apply Hns.
        destruct (block_next_in W (alts s) s u (Hself s Hs)) as [H1 _]; [apply Hl; left; reflexivity|].
        rewrite E in H1. destruct (Hcl s s' Hs H1) as [_ E2]. unfold A. rewrite E2. apply Hself, Hs.
      - apply IH. intros; apply Hl; right; assumption. }
    rewrite G; [reflexivity|]. intros u Hu. apply in_seq in Hu. lia.
Qed.
Lemma block_flow_zero A s s' : W s = 0 -> block_flow W A s s' = 0.
Proof. intros H. unfold block_flow. rewrite H. reflexivity. Qed.
Lemma sumR_INR {A} (f : A -> nat) l : sumR (fun s => INR (f s)) l = INR (list_sum (map f l)).
Proof.
  induction l as [|a l IH]; [reflexivity|].
  change (sumR (fun s => INR (f s)) (a :: l)) with (INR (f a) + sumR (fun s => INR (f s)) l)%R.
  change (list_sum (map f (a :: l))) with (f a + list_sum (map f l)). rewrite plus_INR, IH. reflexivity.
Qed.
Lemma block_stationary s' : In s' states ->
  push states (fun s => INR (W s)) (fun s t => INR (block_flow W (alts s) s t) / INR (W s))%R s' = INR (W s').
Proof.
  intros Hs'. unfold push. rewrite <- (block_balance s' Hs'), <- sumR_INR. apply sumR_ext. intros s Hs.
  destruct (Nat.eq_dec (W s) 0) as [Z|Z].
  - rewrite block_flow_zero by exact Z. rewrite Z. simpl. lra.
  - field. apply not_0_INR. exact Z.
Qed.
End Blocks.

(** ** Writing into a list *)
Lemma set_at_length i n l : length (set_at i n l) = length l.
Proof. unfold set_at. rewrite map_length, seq_length. reflexivity. Qed.
Lemma set_at_nth i n l k : k < length l -> nth k (set_at i n l) 0 = if k =? i then n else nth k l 0.
Proof. intros H. unfold set_at. rewrite nth_map_seq by exact H. reflexivity. Qed.
Lemma put_length ps : forall ns l, length (put ps ns l) = length l.
Proof.
  unfold put. induction ps as [|i ps IH]; intros ns l; [reflexivity|]. destruct ns as [|n ns]; [reflexivity|].
  simpl. rewrite IH. apply set_at_length.
Qed.
Lemma put_other ps : forall ns l k, k < length l -> ~ In k ps -> nth k (put ps ns l) 0 = nth k l 0.
Proof.
  unfold put. induction ps as [|i ps IH]; intros ns l k Hk Hn; [reflexivity|]. destruct ns as [|n ns]; [reflexivity|].
  simpl. rewrite IH; [|rewrite set_at_length; exact Hk|simpl in Hn; tauto].
  rewrite set_at_nth by exact Hk. replace (k =? i) with false; [reflexivity|]. symmetry. apply Nat.eqb_neq. simpl in Hn. firstorder.
Qed.
Lemma get_put ps : forall ns l, NoDup ps -> Forall (fun i => i < length l) ps -> length ns = length ps ->
  get ps (put ps ns l) = ns.
Proof.
  induction ps as [|i ps IH]; intros ns l Hd HF Hl; destruct ns as [|n ns]; try discriminate Hl; [reflexivity|].
  inversion Hd as [|? ? Hn Hd']; subst. inversion HF as [|? ? Hi HF']; subst.
  change (put (i :: ps) (n :: ns) l) with (put ps ns (set_at i n l)). cbn [get map]. f_equal.
  - rewrite put_other by (rewrite ?set_at_length; auto). rewrite set_at_nth, Nat.eqb_refl by exact Hi. reflexivity.
  - apply IH; auto. eapply Forall_impl; [|exact HF']. intros a Ha. rewrite set_at_length. exact Ha.
Qed.
Lemma list_ext (l l' : list nat) : length l = length l' -> (forall k, k < length l -> nth k l 0 = nth k l' 0) -> l = l'.
Proof. intros. apply (nth_ext _ _ 0 0); auto. Qed.
Lemma put_get_nth ps ns l k : NoDup ps -> Forall (fun i => i < length l) ps -> length ns = length ps -> k < length l ->
  nth k (put ps ns l) 0 = match find (fun x => fst x =? k) (combine ps ns) with Some x => snd x | None => nth k l 0 end.
Proof.
  revert ns l. induction ps as [|i ps IH]; intros ns l Hd HF Hl Hk; destruct ns as [|n ns]; try discriminate Hl; [reflexivity|].
  inversion Hd as [|? ? Hn Hd']; subst. inversion HF as [|? ? Hi HF']; subst.
  change (put (i :: ps) (n :: ns) l) with (put ps ns (set_at i n l)). cbn [combine find fst].
  destruct (i =? k) eqn:E.
  - apply Nat.eqb_eq in E. subst i. rewrite put_other by (rewrite ?set_at_length; auto).
    rewrite set_at_nth, Nat.eqb_refl by exact Hk. reflexivity.
  - rewrite IH; auto.
    + rewrite set_at_nth by exact Hk. rewrite Nat.eqb_sym, E. reflexivity.
    + eapply Forall_impl; [|exact HF']. intros a Ha. rewrite set_at_length. exact Ha.
    + rewrite set_at_length. exact Hk.
Qed.
Lemma put_put ps ns ms l : NoDup ps -> Forall (fun i => i < length l) ps -> length ns = length ps -> length ms = length ps ->
  put ps ms (put ps ns l) = put ps ms l.
Proof.
  intros Hd HF Hn Hm. apply list_ext; rewrite !put_length; [reflexivity|]. intros k Hk.
  destruct (in_dec Nat.eq_dec k ps) as [Hin|Hin].
  - assert (HF' : Forall (fun i => i < length (put ps ns l)) ps) by (rewrite put_length; exact HF).
    assert (Hk' : k < length (put ps ns l)) by (rewrite put_length; exact Hk).
    rewrite (put_get_nth ps ms (put ps ns l) k Hd HF' Hm Hk'), (put_get_nth ps ms l k Hd HF Hm Hk).
    destruct (find (fun x => fst x =? k) (combine ps ms)) eqn:E; [reflexivity|].
    exfalso. revert Hin E Hm. clear. revert ms. induction ps as [|i ps IH]; intros ms Hin E Hm; [destruct Hin|].
    destruct ms as [|m ms]; [discriminate|]. simpl in E. destruct (i =? k) eqn:Ei; [discriminate|].
    destruct Hin as [->|Hin]; [rewrite Nat.eqb_refl in Ei; discriminate|]. eapply IH; eauto.
  - rewrite !put_other; rewrite ?put_length; auto.
Qed.
Lemma put_same ps l : NoDup ps -> Forall (fun i => i < length l) ps -> put ps (get ps l) l = l.
Proof.
  intros Hd HF. apply list_ext; [apply put_length|]. rewrite put_length. intros k Hk.
  destruct (in_dec Nat.eq_dec k ps) as [Hin|Hin]; [|apply put_other; auto].
  rewrite put_get_nth; auto; [|unfold get; apply map_length].
  destruct (find (fun x => fst x =? k) (combine ps (get ps l))) as [[a b]|] eqn:E; [|reflexivity].
  apply find_some in E. destruct E as [E1 E2]. simpl in *. apply Nat.eqb_eq in E2. subst a.
  assert (G : forall ps, In (k, b) (combine ps (get ps l)) -> b = nth k l 0).
  { clear. induction ps as [|i ps IH]; simpl; [tauto|]. intros [H|H]; [congruence|auto]. }
  eauto.
Qed.
Lemma put_inj ps ns ms l : NoDup ps -> Forall (fun i => i < length l) ps -> length ns = length ps -> length ms = length ps ->
  put ps ns l = put ps ms l -> ns = ms.
Proof. intros Hd HF Hn Hm H. rewrite <- (get_put ps ns l), <- (get_put ps ms l), H; auto. Qed.
Lemma get_states dim ps l : Forall (fun x => x < dim) l -> Forall (fun i => i < length l) ps -> Forall (fun x => x < dim) (get ps l).
Proof.
  intros H HF. unfold get. apply Forall_forall. intros x Hx. apply in_map_iff in Hx. destruct Hx as (i & <- & Hi).
  rewrite Forall_forall in H, HF. apply H, nth_In, HF, Hi.
Qed.
Lemma put_states dim ps : forall ns l, Forall (fun x => x < dim) l -> Forall (fun x => x < dim) ns -> Forall (fun x => x < dim) (put ps ns l).
Proof.
  unfold put. induction ps as [|i ps IH]; intros ns l Hl Hn; [exact Hl|]. destruct ns as [|n ns]; [exact Hl|].
  inversion Hn; subst. simpl. apply IH; [|assumption]. apply Forall_forall. intros x Hx.
  apply (In_nth _ _ 0) in Hx. destruct Hx as (k & Hk & <-). rewrite set_at_length in Hk. rewrite set_at_nth by exact Hk.
  destruct (k =? i); [assumption|]. rewrite Forall_forall in Hl. apply Hl, nth_In, Hk.
Qed.

(** A rule lists a class of mutually reachable local states, in an order common to the class. *)
Definition class_rule (dim w : nat) (rule : list nat -> list (list nat)) : Prop :=
  forall ns, length ns = w -> Forall (fun x => x < dim) ns ->
    In ns (rule ns) /\ NoDup (rule ns) /\
    forall ms, In ms (rule ns) -> length ms = w /\ Forall (fun x => x < dim) ms /\ rule ms = rule ns.

Lemma block_K_stationary dim n w rule ps (W : list nat -> nat) :
  class_rule dim w rule -> NoDup ps -> Forall (fun i => i < n) ps -> length ps = w ->
  forall l', In l' (all_configs dim n) ->
  push (all_configs dim n) (fun l => INR (W l)) (block_K W rule ps) l' = INR (W l').
Proof.
  intros HR Hd HF Hw l' Hl'. unfold block_K.
  assert (Q : forall s, In s (all_configs dim n) -> length s = n /\ Forall (fun x => x < dim) s /\ Forall (fun i => i < length s) ps /\
      length (get ps s) = w /\ Forall (fun x => x < dim) (get ps s)).
  { intros s Hs. apply all_configs_in in Hs. destruct Hs as [Hl Hx]. rewrite Hl. repeat split; auto.
    - unfold get. rewrite map_length. exact Hw.
    - apply get_states; [exact Hx|]. rewrite Hl. exact HF. }
  apply (block_stationary W (all_configs dim n) (block_alts rule ps)).
  - apply all_configs_nodup.
  - intros s Hs. destruct (Q s Hs) as (Hl & Hx & HF' & Hg & Hgx). destruct (HR (get ps s) Hg Hgx) as (H1 & _ & _).
    unfold block_alts. apply in_map_iff. exists (get ps s). split; [apply put_same; auto|exact H1].
  - intros s Hs. destruct (Q s Hs) as (Hl & Hx & HF' & Hg & Hgx). destruct (HR (get ps s) Hg Hgx) as (_ & H2 & H3).
    unfold block_alts.
    assert (G : forall r, (forall ms, In ms r -> length ms = w) -> NoDup r -> NoDup (map (fun ns => put ps ns s) r)).
    { induction r as [|m r IH]; intros Hr Hdr; simpl; [constructor|]. inversion Hdr; subst. constructor.
      - intros Hin. apply in_map_iff in Hin. destruct Hin as (m' & E & Hin). apply put_inj in E; auto.
        + subst. contradiction.
        + apply Hr. right. exact Hin.
        + apply Hr. left. reflexivity.
      - apply IH; auto. intros; apply Hr; right; assumption. }
    apply G; [intros ms Hms; apply H3, Hms|exact H2].
  - intros s t Hs Ht. destruct (Q s Hs) as (Hl & Hx & HF' & Hg & Hgx). destruct (HR (get ps s) Hg Hgx) as (_ & _ & H3).
    unfold block_alts in Ht. apply in_map_iff in Ht. destruct Ht as (ms & <- & Hms).
    destruct (H3 ms Hms) as (Hlm & Hmx & Em). split.
    + apply all_configs_in. rewrite put_length. split; [exact Hl|]. apply put_states; auto.
    + unfold block_alts. rewrite get_put by (auto; lia). rewrite Em. apply map_ext_in. intros ns Hns.
      apply put_put; auto; [lia|]. destruct (H3 ns Hns) as (E & _). lia.
  - exact Hl'.
Qed.
Lemma block_sweep_stationary dim n w rule (W : list nat -> nat) blocks :
  class_rule dim w rule -> Forall (fun ps => NoDup ps /\ Forall (fun i => i < n) ps /\ length ps = w) blocks ->
  forall l', In l' (all_configs dim n) ->
  pushes (all_configs dim n) (fun l => INR (W l)) (map (block_K W rule) blocks) l' = INR (W l').
Proof.
  intros HR HB l' Hl'. apply (pushes_stationary (all_configs dim n) (fun l => INR (W l))); [|exact Hl'].
  intros K HK s' Hs'. apply in_map_iff in HK. destruct HK as (ps & <- & Hps).
  rewrite Forall_forall in HB. destruct (HB ps Hps) as (H1 & H2 & H3). eapply block_K_stationary; eauto.
Qed.

(** The three rules. *)
Lemma len2 (ns : list nat) : length ns = 2 -> exists a b, ns = [a; b].
Proof. destruct ns as [|a [|b [|? ?]]]; try discriminate. eauto. Qed.
Lemma full_class dim : class_rule dim 2 (rule_full dim).
Proof.
  intros ns Hl HF. destruct (len2 ns Hl) as (a & b & ->). inversion HF as [|? ? Ha HF']; subst. inversion HF'; subst.
  unfold rule_full. split; [|split].
  - apply full_alts_in; [lia|]. exists a, b. auto.
  - apply full_alts_nodup. lia.
  - intros ms Hm. apply full_alts_in in Hm; [|lia]. destruct Hm as (c1 & c2 & -> & ? & ?). repeat split; auto.
Qed.
Lemma hubbard_class : class_rule 4 2 rule_hubbard.
Proof.
  intros ns Hl HF. destruct (len2 ns Hl) as (a & b & ->). inversion HF as [|? ? Ha HF']; subst. inversion HF'; subst.
  unfold rule_hubbard. cbn [map list_sum fold_right]. split; [|split].
  - apply hubbard_alts_in. exists a, b. repeat split; auto; lia.
  - apply hubbard_alts_nodup.
  - intros ms Hm. apply hubbard_alts_in in Hm. destruct Hm as (c1 & c2 & -> & ? & ? & Hu & Hd).
    repeat split; auto. cbn [map list_sum fold_right]. f_equal; lia.
Qed.
Lemma three_class dim : class_rule dim 3 rule_three.
Proof.
  intros ns Hl HF. destruct ns as [|s1 [|s2 [|s3 [|? ?]]]]; try discriminate Hl.
  assert (A : exists alts, perms_from 6 (sorted_states [s1; s2; s3]) = Ok alts /\ NoDup alts /\
    forall l, In l alts <-> Permutation l [s1; s2; s3]).
  { destruct (Nat.eq_dec s1 s2) as [<-|N]; [destruct (Nat.eq_dec s1 s3) as [<-|N]|].
    - exists [[s1; s1; s1]]. split; [|split].
      + cbn [sorted_states fold_right insert_sorted]. rewrite Nat.leb_refl. cbn [insert_sorted]. rewrite Nat.leb_refl.
        cbn [perms_from next_perm swap_last_larger]. rewrite Nat.ltb_irrefl. reflexivity.
      + repeat constructor. intros [].
      + intros l. split; [intros [<-|[]]; reflexivity|]. intros HP. apply perm3 in HP. simpl in *. intuition.
    - apply three_alts. tauto.
    - apply three_alts. tauto. }
  destruct A as (alts & E & Hd & Hin). unfold rule_three at 1 2 3 5. rewrite E.
  split; [apply Hin; reflexivity|]. split; [exact Hd|].
  intros ms Hm. apply Hin in Hm. split; [apply (Permutation_length Hm)|]. split.
  - apply Forall_forall. intros x Hx. apply (Permutation_in _ Hm) in Hx. rewrite Forall_forall in HF. auto.
  - unfold rule_three. rewrite (sorted_same _ _ Hm), E. reflexivity.
Qed.

(** ** Periodic sweeps *)
Section Pbc.
Context (o : ops) (Rng : Type) (rows cols : nat) (draw : Rng -> (site * orient) * Rng).
Context (trial : (nat -> nat -> nat) -> Amp o) (ker : kernel o Rng).
Context (Hdraw : forall g, fst (fst (fst (draw g))) < rows /\ snd (fst (fst (draw g))) < cols).
Definition pbc_keeps (P : (nat -> nat -> nat) -> Prop) : Prop :=
  forall c s1 s2 a tr g ns b g', P c -> fst s1 < rows -> snd s1 < cols -> fst s2 < rows -> snd s2 < cols ->
    ker [c (fst s1) (snd s1); c (fst s2) (snd s2)] a tr g = (Some (ns, b), g') ->
    P (set_sites c (combine [s1; s2] ns)).
Lemma partner_in d s : fst s < rows -> snd s < cols ->
  fst (pbc_partner rows cols d s) < rows /\ snd (pbc_partner rows cols d s) < cols.
Proof.
  intros. destruct d; simpl; split; auto; apply Nat.mod_upper_bound; lia.
Qed.
Lemma pbc_step_keeps P w : pbc_keeps P -> P (pcfg (fst w)) -> P (pcfg (fst (pbc_step o Rng rows cols draw trial ker w))).
Proof.
  intros HK HP. unfold pbc_step. destruct w as [w n]. cbn [fst snd] in *. specialize (Hdraw (prng w)).
  destruct (draw (prng w)) as [[s1 d] g]. cbn [fst] in Hdraw. destruct Hdraw as [Hr Hc].
  destruct (partner_in d s1 Hr Hc) as [Hr2 Hc2].
  unfold pbc_move. cbn [pcfg pamp prng].
  destruct (ker _ _ _ _) as [[[ns b]|] g'] eqn:E; cbn [fst]; cbn [pcfg]; [|exact HP].
  eapply HK; [exact HP| | | | |exact E]; assumption.
Qed.
Lemma pbc_sweep_keeps P w : pbc_keeps P -> P (pcfg w) -> P (pcfg (fst (sweep_nn_pbc o Rng rows cols draw trial ker w))).
Proof.
  intros HK HP. unfold sweep_nn_pbc. induction (rows * cols * 2) as [|n IH]; simpl; [exact HP|].
  apply pbc_step_keeps; assumption.
Qed.
Lemma pbc_sweep_count w : snd (sweep_nn_pbc o Rng rows cols draw trial ker w) <= rows * cols * 2.
Proof.
  unfold sweep_nn_pbc. induction (rows * cols * 2) as [|n IH]; simpl; [lia|].
  destruct (Nat.iter n _ _) as [w' k]. simpl in IH. unfold pbc_step. cbn [fst snd].
  destruct (draw (prng w')) as [[s1 d] g]. destruct (pbc_move _ _ _ _ _ _ _) as [w2 ok]. destruct ok; simpl; lia.
Qed.
(** The stored amplitude stays the amplitude of the stored configuration. *)
Lemma pbc_sweep_amplitude w : honest ker -> pamp w = trial (pcfg w) ->
  pamp (fst (sweep_nn_pbc o Rng rows cols draw trial ker w)) = trial (pcfg (fst (sweep_nn_pbc o Rng rows cols draw trial ker w))).
Proof.
  intros HH HP. unfold sweep_nn_pbc. induction (rows * cols * 2) as [|n IH]; simpl; [exact HP|].
  destruct (Nat.iter n _ _) as [w' k]. unfold pbc_step. cbn [fst snd] in *.
  destruct (draw (prng w')) as [[s1 d] g]. unfold pbc_move. cbn [pcfg pamp prng].
  destruct (ker _ _ _ _) as [[[ns b]|] g'] eqn:E; cbn [fst pamp pcfg]; [|exact IH].
  apply HH in E. apply E.
Qed.
Lemma pbc_total f n : permuting o Rng ker ->
  (forall c a tr g, fst (ker [c; c] a tr g) = None) ->
  pbc_keeps (fun c => total rows cols f c = n).
Proof.
  intros HP Hsame c s1 s2 a tr g ns b g' Hn R1 C1 R2 C2 E. rewrite <- Hn.
  assert (Hne : s1 <> s2).
  { intros <-. pose proof (Hsame (c (fst s1) (snd s1)) a tr g) as H. rewrite E in H. discriminate. }
  pose proof (HP _ _ _ _ _ _ _ E) as Hperm.
  apply total_set_sites.
  - repeat constructor; [intros [H|[]]; congruence|intros []].
  - intros s [<-|[<-|[]]]; auto.
  - apply (Permutation_length Hperm).
  - rewrite (list_sum_map_perm f _ _ Hperm). reflexivity.
Qed.
Lemma pbc_states P : stays o Rng ker P -> pbc_keeps (all_states rows cols P).
Proof.
  intros HS c s1 s2 a tr g ns b g' Hc R1 C1 R2 C2 E. apply all_states_set; [exact Hc|].
  eapply HS; [|exact E]. repeat constructor; apply Hc; assumption.
Qed.
End Pbc.
