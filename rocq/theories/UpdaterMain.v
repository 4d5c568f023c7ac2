From Coq Require Import List Arith Lia Bool Permutation Reals Lra.
From Verif Require Import Base ContractorModel SweepModel SweepSpec UpdaterModel UpdaterSpec SuwaTodoProofs UpdaterProofs UpdaterChain BlockChain.
Import ListNotations.
Local Open Scope nat_scope.

Lemma do_forall (P : (nat -> nat -> nat) -> Prop) l : Forall is_routine l ->
  Forall (fun a => match a with Do _ => True | ReplaceGlobalConfig c => P c end) l.
Proof. intros H. eapply Forall_impl; [|exact H]. intros [r|c] Ha; [exact I|destruct Ha]. Qed.

Lemma permuting_occupation o Rng ker rows cols (tps : sitps o) l (w w' : wst o Rng) lg v :
  permuting o Rng ker -> rows_ (ctr w) = rows -> cols_ (ctr w) = cols -> Forall is_routine l ->
  acts rows cols tps ker l w = Ok (w', lg) ->
  occupation rows cols v (cfg w') = occupation rows cols v (cfg w).
Proof.
  intros HP Hr Hc Hl E. rewrite !occupation_total.
  set (f := fun x => if x =? v then 1 else 0).
  apply (acts_keep o Rng tps ker rows cols (fun c => total rows cols f c = total rows cols f (cfg w)) l w w' lg);
    auto using conserves_moves, permuting_conserves, do_forall.
Qed.
Lemma exchange_occupation o Rng rows cols (tps : sitps o) accept l (w w' : wst o Rng) lg v :
  rows_ (ctr w) = rows -> cols_ (ctr w) = cols -> Forall is_routine l ->
  acts rows cols tps (exchange_kernel o Rng accept) l w = Ok (w', lg) ->
  occupation rows cols v (cfg w') = occupation rows cols v (cfg w).
Proof. intros. eapply permuting_occupation; eauto using exchange_permuting. Qed.
Lemma three_occupation o Rng rows cols (tps : sitps o) choose l (w w' : wst o Rng) lg v :
  in_range choose -> rows_ (ctr w) = rows -> cols_ (ctr w) = cols -> Forall is_routine l ->
  acts rows cols tps (three_site_kernel o Rng choose) l w = Ok (w', lg) ->
  occupation rows cols v (cfg w') = occupation rows cols v (cfg w).
Proof. intros. eapply permuting_occupation; eauto using three_permuting. Qed.
Lemma exchange_equal o Rng accept c a tr g : fst (exchange_kernel o Rng accept [c; c] a tr g) = None.
Proof. unfold exchange_kernel. rewrite Nat.eqb_refl. reflexivity. Qed.
Lemma exchange_pbc_occupation o Rng rows cols draw trial accept (w : pst o Rng) v :
  (forall g, fst (fst (fst (draw g))) < rows /\ snd (fst (fst (draw g))) < cols) ->
  let w' := fst (sweep_nn_pbc o Rng rows cols draw trial (exchange_kernel o Rng accept) w) in
  occupation rows cols v (pcfg w') = occupation rows cols v (pcfg w).
Proof.
  intros Hd w'. rewrite !occupation_total. set (f := fun x => if x =? v then 1 else 0).
  unfold w'. apply (pbc_sweep_keeps o Rng rows cols draw trial _ Hd (fun c => total rows cols f c = total rows cols f (pcfg w))); [|reflexivity].
  apply pbc_total; auto using exchange_permuting. intros; apply exchange_equal.
Qed.

(** Hubbard *)
Lemma hubbard_moves o Rng choose rows cols u d : in_range choose ->
  move_keeps o Rng (hubbard_kernel o Rng choose) rows cols
    (fun c => all_states rows cols (fun x => x < 4) c /\ total rows cols n_up c = u /\ total rows cols n_down c = d).
Proof.
  intros HR c dr s k a tr g ns b g' (H4 & Hu & Hd) HL E.
  assert (Hk : exists x1 x2, chain dr s k = [x1; x2]).
  { clear HL. revert E. generalize (chain dr s k). intros l E.
    destruct l as [|x1 [|x2 [|? ?]]]; try discriminate E; eauto. }
  destruct Hk as (x1 & x2 & Ec). pose proof (chain_nodup dr s k) as Hnd. pose proof (chain_in_lattice rows cols dr s k HL) as Hin.
  rewrite Ec in *. cbn [map] in E.
  destruct (Hin x1) as [R1 C1]; [left; reflexivity|]. destruct (Hin x2) as [R2 C2]; [right; left; reflexivity|].
  destruct (hubbard_result _ _ _ _ _ _ _ _ _ _ _ HR (H4 _ _ R1 C1) (H4 _ _ R2 C2) E) as (n1 & n2 & -> & L1 & L2 & Eu & Ed & _).
  split; [|split].
  - apply all_states_set; [exact H4|]. auto.
  - rewrite <- Hu. apply total_set_sites; auto. simpl. lia.
  - rewrite <- Hd. apply total_set_sites; auto. simpl. lia.
Qed.
Lemma hubbard_conserves o Rng rows cols (tps : sitps o) choose l (w w' : wst o Rng) lg :
  in_range choose -> rows_ (ctr w) = rows -> cols_ (ctr w) = cols -> Forall is_routine l ->
  all_states rows cols (fun x => x < 4) (cfg w) ->
  acts rows cols tps (hubbard_kernel o Rng choose) l w = Ok (w', lg) ->
  all_states rows cols (fun x => x < 4) (cfg w') /\
  total rows cols n_up (cfg w') = total rows cols n_up (cfg w) /\
  total rows cols n_down (cfg w') = total rows cols n_down (cfg w).
Proof.
  intros HR Hr Hc Hl H4 E.
  destruct (acts_keep o Rng tps (hubbard_kernel o Rng choose) rows cols
    (fun c => all_states rows cols (fun x => x < 4) c /\ total rows cols n_up c = total rows cols n_up (cfg w) /\
       total rows cols n_down c = total rows cols n_down (cfg w)) l w w' lg) as (K & _); auto using hubbard_moves, do_forall.
Qed.
Lemma hubbard_candidates c1 c2 : c1 < 4 -> c2 < 4 ->
  let alts := hubbard_alts (n_up c1 + n_up c2) (n_down c1 + n_down c2) in
  NoDup alts /\ In [c1; c2] alts /\
  forall n1 n2, In [n1; n2] alts <->
    n1 < 4 /\ n2 < 4 /\ n_up n1 + n_up n2 = n_up c1 + n_up c2 /\ n_down n1 + n_down n2 = n_down c1 + n_down c2.
Proof.
  intros H1 H2 alts. split; [apply hubbard_alts_nodup|]. split.
  - apply hubbard_alts_in. exists c1, c2. auto 10.
  - intros n1 n2. unfold alts. rewrite hubbard_alts_in. split.
    + intros (a & b & E & ?). injection E as <- <-. tauto.
    + intros. exists n1, n2. tauto.
Qed.
Lemma hubbard_stays_in_class o Rng choose c1 c2 a tr g ns b g' : in_range choose -> c1 < 4 -> c2 < 4 ->
  hubbard_kernel o Rng choose [c1; c2] a tr g = (Some (ns, b), g') ->
  In ns (hubbard_alts (n_up c1 + n_up c2) (n_down c1 + n_down c2)) /\ ns <> [c1; c2] /\ b = tr ns.
Proof.
  intros HR H1 H2 E. destruct (hubbard_result _ _ _ _ _ _ _ _ _ _ _ HR H1 H2 E) as (n1 & n2 & -> & ? & ? & ? & ? & ? & ?).
  split; [|auto]. apply hubbard_alts_in. exists n1, n2. auto 10.
Qed.

(** Full space *)
Lemma full_kernel_spec o Rng dim (choose : nat -> list (Amp o) -> Rng -> nat * Rng) c1 c2 a tr g k g' :
  c1 < dim -> c2 < dim ->
  let psis := map (fun s => if s =? c1 * dim + c2 then a else tr [s / dim; s mod dim]) (seq 0 (dim * dim)) in
  choose (c1 * dim + c2) psis g = (k, g') -> k < dim * dim ->
  full_space_kernel o Rng dim choose [c1; c2] a tr g =
    (if k =? c1 * dim + c2 then None else Some ([k / dim; k mod dim], tr [k / dim; k mod dim]), g').
Proof.
  intros H1 H2 psis Hc Hk. unfold full_space_kernel, alternatives_kernel.
  rewrite full_alts_code, full_alts_length by auto.
  assert (E : map (fun i => if i =? c1 * dim + c2 then a else tr (nth i (full_alts dim) [])) (seq 0 (dim * dim)) = psis).
  { apply map_ext_in. intros s Hs. apply in_seq in Hs. rewrite full_alts_nth by lia. reflexivity. }
  rewrite E, Hc. destruct (k =? c1 * dim + c2) eqn:Ek; [reflexivity|].
  rewrite full_alts_nth by exact Hk. unfold psis. rewrite nth_map_seq by exact Hk. rewrite Ek. reflexivity.
Qed.
Lemma full_code_bijection dim : (forall c1 c2, c1 < dim -> c2 < dim ->
    c1 * dim + c2 < dim * dim /\ (c1 * dim + c2) / dim = c1 /\ (c1 * dim + c2) mod dim = c2) /\
  (forall s, s < dim * dim -> s / dim < dim /\ s mod dim < dim /\ (s / dim) * dim + s mod dim = s).
Proof.
  split.
  - intros c1 c2 H1 H2. split; [nia|]. pose proof (pair_code dim c1 c2 H1 H2) as E. injection E. auto.
  - intros s Hs. assert (dim <> 0) by (intros ->; simpl in Hs; lia).
    split; [apply Nat.div_lt_upper_bound; lia|]. split; [apply Nat.mod_upper_bound; lia|].
    rewrite (Nat.div_mod_eq s dim) at 3. lia.
Qed.
Lemma full_stays_pair o Rng dim choose c1 c2 a tr g ns b g' : in_range choose -> c1 < dim -> c2 < dim ->
  full_space_kernel o Rng dim choose [c1; c2] a tr g = (Some (ns, b), g') -> Forall (fun x => x < dim) ns.
Proof.
  intros HR H1 H2 E. destruct (full_result _ _ _ _ _ _ _ _ _ _ _ _ HR H1 H2 E) as (n1 & n2 & -> & ? & ? & _).
  auto.
Qed.
Lemma full_stays o Rng dim choose : in_range choose -> stays o Rng (full_space_kernel o Rng dim choose) (fun x => x < dim).
Proof.
  intros HR olds a tr g ns b g' HF E. destruct olds as [|c1 [|c2 [|? ?]]]; try discriminate E.
  inversion HF as [|? ? H1 HF']; subst. inversion HF' as [|? ? H2 HF'']; subst. exact (full_stays_pair o Rng dim choose c1 c2 a tr g ns b g' HR H1 H2 E).
Qed.
Lemma full_states o Rng dim choose rows cols (tps : sitps o) l (w w' : wst o Rng) lg :
  in_range choose -> rows_ (ctr w) = rows -> cols_ (ctr w) = cols -> Forall is_routine l ->
  all_states rows cols (fun x => x < dim) (cfg w) ->
  acts rows cols tps (full_space_kernel o Rng dim choose) l w = Ok (w', lg) ->
  all_states rows cols (fun x => x < dim) (cfg w').
Proof.
  intros HR Hr Hc Hl HS E.
  destruct (acts_keep o Rng tps (full_space_kernel o Rng dim choose) rows cols
    (all_states rows cols (fun x => x < dim)) l w w' lg) as (K & _); auto using stays_moves, full_stays, do_forall.
Qed.
Lemma full_states_pbc o Rng dim choose rows cols draw trial (w : pst o Rng) :
  in_range choose -> (forall g, fst (fst (fst (draw g))) < rows /\ snd (fst (fst (draw g))) < cols) ->
  all_states rows cols (fun x => x < dim) (pcfg w) ->
  all_states rows cols (fun x => x < dim) (pcfg (fst (sweep_nn_pbc o Rng rows cols draw trial (full_space_kernel o Rng dim choose) w))).
Proof.
  intros HR Hd HS. apply (pbc_sweep_keeps o Rng rows cols draw trial _ Hd); [|exact HS].
  apply pbc_states, full_stays, HR.
Qed.

(** Updaters report the amplitude of what they propose. *)
Lemma full_honest_pbc o Rng dim choose : in_range choose ->
  forall olds a tr g ns b g', Forall (fun x => x < dim) olds ->
  full_space_kernel o Rng dim choose olds a tr g = (Some (ns, b), g') -> length ns = length olds /\ b = tr ns.
Proof.
  intros HR olds a tr g ns b g' HF E. destruct olds as [|c1 [|c2 [|? ?]]]; try discriminate E.
  inversion HF as [|? ? H1 HF']; subst. inversion HF' as [|? ? H2 HF'']; subst.
  destruct (full_result _ _ _ _ _ _ _ _ _ _ _ _ HR H1 H2 E) as (n1 & n2 & -> & _ & _ & _ & ->). auto.
Qed.
Lemma exchange_pbc_amplitude o Rng rows cols draw trial accept (w : pst o Rng) :
  pamp w = trial (pcfg w) ->
  let w' := fst (sweep_nn_pbc o Rng rows cols draw trial (exchange_kernel o Rng accept) w) in
  pamp w' = trial (pcfg w').
Proof. intros H. apply pbc_sweep_amplitude; [apply exchange_honest|exact H]. Qed.

(** Metropolis and the exchange move *)
Lemma exchange_decision o Rng (abs : Amp o -> R) (draw : Rng -> R * Rng) c1 c2 a tr g :
  (forall x, 0 <= abs x)%R -> (0 <= fst (draw g) < 1)%R -> c1 <> c2 ->
  let b := tr [c2; c1] in
  let out := exchange_kernel o Rng (metropolis_accept abs draw) [c1; c2] a tr g in
  ((fst (draw g) < accept_prob (abs a) (abs b))%R -> fst out = Some ([c2; c1], b)) /\
  ((accept_prob (abs a) (abs b) <= fst (draw g))%R -> fst out = None).
Proof.
  intros Ha Hu Hne b out. unfold out, exchange_kernel.
  replace (c1 =? c2) with false by (symmetry; apply Nat.eqb_neq, Hne). fold b.
  destruct (metropolis_accept_spec abs draw a b g Ha Hu) as [S1 _].
  destruct (metropolis_accept abs draw a b g) as [ok g1]. cbn [fst] in *. split; intros H.
  - replace ok with true; [reflexivity|]. symmetry. apply S1, H.
  - destruct ok; [|reflexivity]. exfalso. assert (fst (draw g) < accept_prob (abs a) (abs b))%R by (apply S1; reflexivity). lra.
Qed.

(** Suwa-Todo as called by the updaters stays among the alternatives. *)
Lemma suwa_choose_range {A Rng} (weight : A -> nat) (draw : nat -> Rng -> nat * Rng) init psis g d :
  (forall n g, 0 < n -> fst (draw n g) < n) -> init < length psis -> 0 < weight (nth init psis d) ->
  let k := fst (suwa_todo_choose weight draw init psis g) in
  k < length psis /\ 0 < weight (nth k psis d).
Proof.
  intros Hd Hi Hw. unfold suwa_todo_choose.
  assert (En : nth init (map weight psis) 0 = weight (nth init psis d)).
  { rewrite (nth_indep _ 0 (weight d)) by (rewrite map_length; exact Hi). apply map_nth. }
  rewrite En. pose proof (Hd _ g Hw) as Hu. destruct (draw (weight (nth init psis d)) g) as [u g']. cbn [fst] in *.
  destruct (suwa_range (map weight psis) init u) as [H1 H2]; [rewrite map_length; exact Hi|rewrite En; exact Hu|].
  rewrite map_length in H1. split; [exact H1|].
  rewrite (nth_indep _ 0 (weight d)) in H2 by (rewrite map_length; exact H1). rewrite map_nth in H2. exact H2.
Qed.
