From Coq Require Import List Arith Lia Bool Permutation.
From Verif Require Import Base ContractorModel SweepModel SweepSpec UpdaterModel UpdaterSpec SuwaTodoProofs.
Import ListNotations.
Local Open Scope nat_scope.

(** ** No contractor call changes the lattice size *)
Section Dims.
Context (o : ops).
Definition dims (c : con o) := (rows_ c, cols_ c).
Definition keeps (f : con o -> res (con o)) := forall c c', f c = Ok c' -> dims c' = dims c.
Lemma iter_keeps f n : keeps f -> keeps (iter_res n f).
Proof.
  intros Hf. induction n as [|n IH]; intros c c' H; simpl in H; [congruence|].
  destruct (f c) as [c1|] eqn:E; simpl in H; [|discriminate].
  rewrite (IH _ _ H). apply Hf, E.
Qed.
Ltac crush := repeat match goal with
  | H : bind ?x _ = Ok _ |- _ => destruct x eqn:?; simpl in H; [|discriminate]
  | H : (if ?b then _ else _) = Ok _ |- _ => destruct b eqn:?
  | H : (let (_, _) := ?x in _) = Ok _ |- _ => destruct x eqn:?
  | H : Ok _ = Ok _ |- _ => injection H as H; subst
  | H : Fail _ = Ok _ |- _ => discriminate H
  end; try reflexivity.
Lemma grow_bmps_step_keeps tn p : keeps (grow_bmps_step o tn p).
Proof. intros c c' H. unfold grow_bmps_step in H. crush. Qed.
Lemma delete_inner_dims c p : dims (delete_inner o c p) = dims c.
Proof. unfold delete_inner. destruct (bm c p); reflexivity. Qed.
Lemma grow_full_bmps_keeps tn p : keeps (grow_full_bmps o tn p).
Proof.
  intros c c' H. unfold grow_full_bmps in H.
  destruct p; crush; eapply iter_keeps; try eassumption; apply grow_bmps_step_keeps.
Qed.
Lemma grow_bmps_for_keeps tn a b k : keeps (grow_bmps_for o tn a b k).
Proof.
  intros c c' H. unfold grow_bmps_for in H. crush.
  - eapply iter_keeps; [apply grow_bmps_step_keeps | eassumption].
  - etransitivity; [eapply iter_keeps; [apply grow_bmps_step_keeps | eassumption]|].
    eapply iter_keeps; [apply grow_bmps_step_keeps | eassumption].
Qed.
Lemma generate_keeps tn p : keeps (generate_bmps_approach o tn p).
Proof.
  intros c c' H. unfold generate_bmps_approach in H.
  rewrite (grow_full_bmps_keeps _ _ _ _ H). apply delete_inner_dims.
Qed.
Lemma shift_bmps_keeps tn p : keeps (shift_bmps_window o tn p).
Proof.
  intros c c' H. unfold shift_bmps_window in H. crush.
  rewrite (grow_bmps_step_keeps _ _ _ _ H). reflexivity.
Qed.
Lemma env_grow_keeps tn p bp bn s i c c' : env_grow_with o tn p bp bn s i c = Ok c' -> dims c' = dims c.
Proof. intros H. unfold env_grow_with in H. crush. Qed.
Lemma init_bten_keeps tn p s : keeps (init_bten o tn p s).
Proof. intros c c' H. unfold init_bten in H. crush. Qed.
Lemma grow_full_bten_keeps tn p s r i : keeps (grow_full_bten o tn p s r i).
Proof.
  intros c c' H. unfold grow_full_bten in H.
  destruct (if i then init_bten o tn p s c else Ok c) as [c0|] eqn:E0; simpl in H; [|discriminate].
  assert (D : dims c0 = dims c).
  { destruct i; [eapply init_bten_keeps; eauto | congruence]. }
  rewrite <- D. clear E0. crush.
  eapply iter_keeps; [|eassumption]. intros x x'. apply env_grow_keeps.
Qed.
Lemma grow_bten_step_keeps tn p : keeps (grow_bten_step o tn p).
Proof. intros c c' H. unfold grow_bten_step in H. crush. eapply env_grow_keeps; eauto. Qed.
Lemma shift_bten_keeps tn p : keeps (shift_bten_window o tn p).
Proof.
  intros c c' H. unfold shift_bten_window in H. crush.
  rewrite (grow_bten_step_keeps _ _ _ _ H). reflexivity.
Qed.
Lemma init_bten2_keeps tn p s : keeps (init_bten2 o tn p s).
Proof. intros c c' H. unfold init_bten2 in H. crush. Qed.
Lemma env2_grow_keeps tn p bp bn s i c c' : env2_grow_with o tn p bp bn s i c = Ok c' -> dims c' = dims c.
Proof. intros H. unfold env2_grow_with in H. crush. Qed.
Lemma grow_full_bten2_keeps tn p s r i : keeps (grow_full_bten2 o tn p s r i).
Proof.
  intros c c' H. unfold grow_full_bten2 in H.
  destruct (if i then init_bten2 o tn p s c else Ok c) as [c0|] eqn:E0; simpl in H; [|discriminate].
  assert (D : dims c0 = dims c).
  { destruct i; [eapply init_bten2_keeps; eauto | congruence]. }
  rewrite <- D. clear E0. crush.
  eapply iter_keeps; [|eassumption]. intros x x'. apply env2_grow_keeps.
Qed.
Lemma shift_bten2_keeps tn p s : keeps (shift_bten2_window o tn p s).
Proof.
  intros c c' H. unfold shift_bten2_window in H. crush.
  unfold grow_bten2_step in H. crush.
  rewrite (env2_grow_keeps _ _ _ _ _ _ _ _ H). reflexivity.
Qed.
End Dims.

(** ** What a run does to the configuration *)
Section Run.
Context (o : ops) (Rng : Type) (tps : sitps o) (ker : kernel o Rng).

Lemma fold_update_cfg l : forall w : wst o Rng,
  cfg (fold_left (fun x sn => update_single_site o tps (fst sn) (snd sn) x) l w) = set_sites (cfg w) l /\
  dims o (ctr (fold_left (fun x sn => update_single_site o tps (fst sn) (snd sn) x) l w)) = dims o (ctr w).
Proof.
  induction l as [|a l IH]; intros w; [split; reflexivity|].
  simpl. destruct (IH (update_single_site o tps (fst a) (snd a) w)) as [H1 H2]. split.
  - rewrite H1. reflexivity.
  - rewrite H2. reflexivity.
Qed.

(** A property of configurations kept by every accepted move. *)
Definition move_keeps (rows cols : nat) (P : (nat -> nat -> nat) -> Prop) : Prop :=
  forall c d s k a tr g ns b g',
    P c -> forallb (in_lattice rows cols) (chain d s k) = true ->
    ker (map (fun x => c (fst x) (snd x)) (chain d s k)) a tr g = (Some (ns, b), g') ->
    P (set_sites c (combine (chain d s k) ns)).

Definition no_set (x : cmd) : bool := match x with SetSite _ _ => false | _ => true end.
Lemma exec_keeps rows cols P x (w w' : wst o Rng) lg :
  move_keeps rows cols P -> no_set x = true ->
  rows_ (ctr w) = rows -> cols_ (ctr w) = cols ->
  exec o tps ker x w = Ok (w', lg) -> P (cfg w) ->
  P (cfg w') /\ rows_ (ctr w') = rows /\ cols_ (ctr w') = cols.
Proof.
  intros HK Hx Hr Hc E HP.
  assert (D : forall c', dims o c' = dims o (ctr w) -> rows_ c' = rows /\ cols_ c' = cols).
  { intros c' Hd. unfold dims in Hd. injection Hd as H1 H2. rewrite <- Hr, <- Hc. auto. }
  assert (L : forall r : res (con o), (c' <- r ;; Ok (set_con o w c', [])) = Ok (w', lg) ->
            (forall c', r = Ok c' -> dims o c' = dims o (ctr w)) ->
            P (cfg w') /\ rows_ (ctr w') = rows /\ cols_ (ctr w') = cols).
  { intros [c'|] Hb Hd; simpl in Hb; [|discriminate]. injection Hb as <- _. simpl. split; auto. }
  destruct x; try discriminate Hx; unfold exec in E; cbv zeta beta in E.
  - injection E as <- _. simpl. auto.
  - eapply L; [exact E|]. apply generate_keeps.
  - eapply L; [exact E|]. apply grow_full_bmps_keeps.
  - eapply L; [exact E|]. apply grow_bmps_for_keeps.
  - eapply L; [exact E|]. apply grow_bmps_for_keeps.
  - eapply L; [exact E|]. apply shift_bmps_keeps.
  - injection E as <- _. simpl. split; [auto|]. apply D, delete_inner_dims.
  - eapply L; [exact E|]. apply init_bten_keeps.
  - eapply L; [exact E|]. apply grow_full_bten_keeps.
  - eapply L; [exact E|]. apply shift_bten_keeps.
  - injection E as <- _. simpl. auto.
  - eapply L; [exact E|]. apply init_bten2_keeps.
  - eapply L; [exact E|]. apply grow_full_bten2_keeps.
  - eapply L; [exact E|]. apply shift_bten2_keeps.
  - destruct (do_query o (ctr w) q); simpl in E; [|discriminate]. injection E as <- _. auto.
  - destruct (do_query o (ctr w) (query_of v)); simpl in E; [|discriminate]. injection E as <- _. auto.
  - rewrite Hr, Hc in E. destruct (forallb (in_lattice rows cols) (chain d s w0)) eqn:EL; [|discriminate].
    destruct (window1 o (ctr w) d s w0) as [[[ms e1] e2]|]; [|discriminate]. cbn [bind] in E.
    set (T := fun ns => tr1 o d ms (chain_tensors o tps (chain d s w0) ns) e1 e2) in E.
    destruct (ker (map (fun x => cfg w (fst x) (snd x)) (chain d s w0)) (amp w) T (rng w)) as [dec g] eqn:EK.
    destruct dec as [[ns b]|].
    + injection E as <- _. unfold update_local.
      destruct (fold_update_cfg (combine (chain d s w0) ns) (mkW (cfg w) (amp w) (tn w) (ctr w) g)) as [H1 H2].
      cbn [cfg ctr]. rewrite H1. split; [|apply D, H2]. cbn [cfg]. eapply HK; eauto.
    + injection E as <- _. simpl. auto.
  - rewrite Hr, Hc in E. destruct (forallb (in_lattice rows cols) (chain d s w0)) eqn:EL; [|discriminate].
    destruct (window1 o (ctr w) d s w0) as [[[ms e1] e2]|]; [|discriminate]. injection E as <- _. simpl. auto.
  - rewrite Hr, Hc in E. destruct (forallb (in_lattice rows cols) (chain d s w0)) eqn:EL; [|discriminate].
    destruct (window1 o (ctr w) d s w0) as [[[ms e1] e2]|]; [|discriminate]. injection E as <- _. simpl. auto.
Qed.
Lemma run_keeps rows cols P l : forall (w w' : wst o Rng) lg,
  move_keeps rows cols P -> forallb no_set l = true ->
  rows_ (ctr w) = rows -> cols_ (ctr w) = cols ->
  run o tps ker l w = Ok (w', lg) -> P (cfg w) ->
  P (cfg w') /\ rows_ (ctr w') = rows /\ cols_ (ctr w') = cols.
Proof.
  induction l as [|x l IH]; intros w w' lg HK Hl Hr Hc E HP; simpl in E.
  - injection E as <- _. auto.
  - simpl in Hl. apply andb_prop in Hl. destruct Hl as [Hx Hl].
    destruct (exec o tps ker x w) as [[w1 l1]|] eqn:E1; [|discriminate]. cbn [bind fst] in E.
    destruct (run o tps ker l w1) as [[w2 l2]|] eqn:E2; [|discriminate]. cbn [bind fst] in E. injection E as <- _.
    destruct (exec_keeps rows cols P x w w1 l1 HK Hx Hr Hc E1 HP) as (P1 & R1 & C1).
    eapply IH; eauto.
Qed.
Lemma no_set_for a b (f : nat -> list cmd) : (forall i, forallb no_set (f i) = true) -> forallb no_set (for_ a b f) = true.
Proof.
  intros H. unfold for_. induction (seq a (b - a)); simpl; [reflexivity|].
  rewrite forallb_app, H, IHl. reflexivity.
Qed.
Lemma no_set_when (b : bool) l : forallb no_set l = true -> forallb no_set (when b l) = true.
Proof. destruct b; auto. Qed.
Lemma program_no_set rows cols r : forallb no_set (program rows cols r) = true.
Proof.
  destruct r; unfold program, sweep_nn_obc, sweep_tnn_obc, evaluate_amplitude, traverse_all, cal_energy_and_holes,
    cal_horizontal, traverse_horizontal, traverse_vertical;
  repeat (rewrite ?forallb_app; cbn [forallb no_set andb];
    first [ reflexivity
          | rewrite no_set_for; [|intros ?; cbv beta]
          | rewrite no_set_when ]).
Qed.
Lemma acts_keep rows cols P l : forall (w w' : wst o Rng) lg,
  move_keeps rows cols P ->
  Forall (fun a => match a with Do _ => True | ReplaceGlobalConfig c => P c end) l ->
  rows_ (ctr w) = rows -> cols_ (ctr w) = cols ->
  acts rows cols tps ker l w = Ok (w', lg) -> P (cfg w) ->
  P (cfg w') /\ rows_ (ctr w') = rows /\ cols_ (ctr w') = cols.
Proof.
  induction l as [|a l IH]; intros w w' lg HK Hl Hr Hc E HP; simpl in E.
  - injection E as <- _. auto.
  - inversion Hl as [|? ? Ha Hl']; subst.
    destruct (act (rows_ (ctr w)) (cols_ (ctr w)) tps ker a w) as [[w1 l1]|] eqn:E1; [|discriminate]. cbn [bind fst] in E.
    destruct (acts (rows_ (ctr w)) (cols_ (ctr w)) tps ker l w1) as [[w2 l2]|] eqn:E2; [|discriminate]. cbn [bind fst] in E. injection E as <- _.
    assert (H : P (cfg w1) /\ rows_ (ctr w1) = rows_ (ctr w) /\ cols_ (ctr w1) = cols_ (ctr w)).
    { destruct a; unfold act in E1.
      - eapply run_keeps; eauto. apply program_no_set.
      - eapply run_keeps; [eauto | | | | exact E1 |]; simpl; auto. }
    destruct H as (P1 & R1 & C1). eapply IH; eauto.
Qed.
End Run.

(** ** Sums over the lattice *)
Lemma site_eqb_true a b : site_eqb a b = true <-> a = b.
Proof.
  unfold site_eqb. destruct a, b; simpl. rewrite andb_true_iff, !Nat.eqb_eq.
  split; [intros [-> ->]; reflexivity | intros H; injection H; auto].
Qed.
Lemma set_sites_other l : forall c s, ~ In s (map fst l) -> set_sites c l (fst s) (snd s) = c (fst s) (snd s).
Proof.
  unfold set_sites. induction l as [|[x n] l IH]; intros c s H; simpl; [reflexivity|].
  rewrite IH by (simpl in H; tauto). unfold upd2. destruct (site_eqb (fst s, snd s) x) eqn:E; [|reflexivity].
  apply site_eqb_true in E. exfalso. apply H. left. simpl. destruct s; simpl in *; congruence.
Qed.
Lemma set_sites_at ss : forall ns c, NoDup ss -> length ns = length ss ->
  map (fun s => set_sites c (combine ss ns) (fst s) (snd s)) ss = ns.
Proof.
  induction ss as [|s ss IH]; intros ns c Hd Hl; destruct ns as [|n ns]; simpl in *; try lia; [reflexivity|].
  inversion Hd as [|? ? Hn Hd']; subst. f_equal.
  - change (set_sites (upd2 c s n) (combine ss ns) (fst s) (snd s) = n).
    rewrite set_sites_other.
    + unfold upd2. replace (site_eqb (fst s, snd s) s) with true; [reflexivity|]. symmetry. apply site_eqb_true. destruct s; reflexivity.
    + intros Hin. apply Hn. apply in_map_iff in Hin. destruct Hin as ([x y] & E & Hin). simpl in E. subst.
      eapply in_combine_l; eauto.
  - apply (IH ns (upd2 c s n)); auto.
Qed.
Lemma all_sites_in rows cols s : In s (all_sites rows cols) <-> fst s < rows /\ snd s < cols.
Proof.
  unfold all_sites. destruct s as [r k]. pose proof (in_prod_iff (seq 0 rows) (seq 0 cols) r k) as H.
  unfold site in *. rewrite H, !in_seq. simpl. lia.
Qed.
Lemma NoDup_app_dis {A} (l1 l2 : list A) : NoDup l1 -> NoDup l2 -> (forall x, In x l1 -> ~ In x l2) -> NoDup (l1 ++ l2).
Proof.
  induction l1; simpl; intros H1 H2 H; [assumption|]. inversion H1; subst. constructor.
  - rewrite in_app_iff. intros [?|?]; [contradiction|]. eapply H; eauto.
  - apply IHl1; auto.
Qed.
Lemma NoDup_prod {A B} (l1 : list A) (l2 : list B) : NoDup l1 -> NoDup l2 -> NoDup (list_prod l1 l2).
Proof.
  intros H1 H2. induction H1 as [|x l1 Hx H1 IH]; simpl; [constructor|].
  apply NoDup_app_dis.
  - apply FinFun.Injective_map_NoDup; [|assumption]. intros a b E. congruence.
  - exact IH.
  - intros [a b] Hin Hin'. apply in_map_iff in Hin. destruct Hin as (? & E & _). injection E as <- _.
    apply in_prod_iff in Hin'. tauto.
Qed.
Lemma all_sites_nodup rows cols : NoDup (all_sites rows cols).
Proof. apply NoDup_prod; apply seq_NoDup. Qed.

Lemma list_sum_map_perm {A} (f : A -> nat) l l' : Permutation l l' -> list_sum (map f l) = list_sum (map f l').
Proof. intros. apply list_sum_perm, Permutation_map. assumption. Qed.
Lemma total_split {A} (eqd : forall x y : A, {x = y} + {x <> y}) (l ss : list A) :
  NoDup l -> NoDup ss -> (forall s, In s ss -> In s l) ->
  exists rest, Permutation l (ss ++ rest) /\ forall x, In x rest -> ~ In x ss.
Proof.
  intros Hl Hs Hin. exists (filter (fun x => if in_dec eqd x ss then false else true) l).
  assert (Hr : forall x, In x (filter (fun x => if in_dec eqd x ss then false else true) l) -> ~ In x ss).
  { intros x Hx. apply filter_In in Hx. destruct Hx as [_ Hx]. destruct (in_dec eqd x ss); [discriminate|assumption]. }
  split; [|exact Hr].
  apply NoDup_Permutation; [assumption| |].
  - apply NoDup_app_dis; [assumption|apply NoDup_filter; assumption|]. intros x H1 H2. exact (Hr x H2 H1).
  - intros x. rewrite in_app_iff, filter_In. split.
    + intros Hx. destruct (in_dec eqd x ss); [left; assumption | right; split; [assumption|reflexivity]].
    + intros [H|[H _]]; auto.
Qed.
Definition site_dec : forall x y : site, {x = y} + {x <> y}.
Proof. intros [a b] [c d]. destruct (Nat.eq_dec a c), (Nat.eq_dec b d); [left|right|right|right]; congruence. Defined.

Lemma total_set_sites rows cols f c ss ns :
  NoDup ss -> (forall s, In s ss -> fst s < rows /\ snd s < cols) -> length ns = length ss ->
  list_sum (map f ns) = list_sum (map (fun s => f (c (fst s) (snd s))) ss) ->
  total rows cols f (set_sites c (combine ss ns)) = total rows cols f c.
Proof.
  intros Hd Hin Hl Hs. unfold total.
  destruct (total_split site_dec (all_sites rows cols) ss) as (rest & HP & Hr); auto using all_sites_nodup.
  { intros s H. apply all_sites_in. auto. }
  rewrite !(list_sum_map_perm _ _ _ HP), !map_app, !list_sum_app. f_equal.
  - transitivity (list_sum (map f ns)); [|exact Hs].
    pose proof (f_equal (map f) (set_sites_at ss ns c Hd Hl)) as E. rewrite map_map in E. rewrite <- E. reflexivity.
  - f_equal. apply map_ext_in. intros s Hx. f_equal. apply set_sites_other.
    intros H. apply (Hr s Hx). apply in_map_iff in H. destruct H as ([x y] & E & H). simpl in E. subst.
    eapply in_combine_l; eauto.
Qed.
Lemma chain_nodup d s k : NoDup (chain d s k).
Proof.
  unfold chain. apply FinFun.Injective_map_NoDup; [|apply seq_NoDup].
  intros a b H. destruct d, s; unfold site_shift in H; simpl in H; injection H; lia.
Qed.
Lemma chain_in_lattice rows cols d s k : forallb (in_lattice rows cols) (chain d s k) = true ->
  forall x, In x (chain d s k) -> fst x < rows /\ snd x < cols.
Proof.
  intros H x Hx. rewrite forallb_forall in H. specialize (H x Hx). unfold in_lattice in H.
  apply andb_prop in H. rewrite !Nat.ltb_lt in H. exact H.
Qed.
Lemma all_states_set rows cols (P : nat -> Prop) c ss ns :
  all_states rows cols P c -> Forall P ns -> all_states rows cols P (set_sites c (combine ss ns)).
Proof.
  intros Hc Hn. unfold set_sites. revert c Hc ns Hn. induction ss as [|s ss IH]; intros c Hc ns Hn; simpl; [exact Hc|].
  destruct ns as [|n ns]; [exact Hc|]. inversion Hn; subst. simpl. apply IH; [|assumption].
  intros r k Hr Hk. unfold upd2. destruct (site_eqb (r, k) s); auto.
Qed.
Lemma occupation_total rows cols v c : occupation rows cols v c = total rows cols (fun x => if x =? v then 1 else 0) c.
Proof.
  unfold occupation, total. induction (all_sites rows cols); simpl; [reflexivity|].
  destruct (c (fst a) (snd a) =? v); simpl; rewrite IHl; reflexivity.
Qed.

(** ** Kernels *)
Section KernelFacts.
Context (o : ops) (Rng : Type).
Implicit Types (ker : kernel o Rng) (choose : nat -> list (Amp o) -> Rng -> nat * Rng).

(** Additive quantity kept by every accepted move. *)
Definition conserves ker (f : nat -> nat) := forall olds a tr g ns b g',
  ker olds a tr g = (Some (ns, b), g') -> length ns = length olds /\ list_sum (map f ns) = list_sum (map f olds).
Lemma conserves_moves rows cols ker f : conserves ker f ->
  forall n, move_keeps o Rng ker rows cols (fun c => total rows cols f c = n).
Proof.
  intros H n c d s k a tr g ns b g' Hn HL E. rewrite <- Hn. destruct (H _ _ _ _ _ _ _ E) as [Hl Hs].
  apply total_set_sites.
  - apply chain_nodup.
  - apply chain_in_lattice, HL.
  - rewrite Hl, map_length. reflexivity.
  - rewrite Hs, map_map. reflexivity.
Qed.
Definition stays ker (P : nat -> Prop) := forall olds a tr g ns b g', Forall P olds ->
  ker olds a tr g = (Some (ns, b), g') -> Forall P ns.
Lemma stays_moves rows cols ker P : stays ker P -> move_keeps o Rng ker rows cols (all_states rows cols P).
Proof.
  intros H c d s k a tr g ns b g' Hc HL E. apply all_states_set; [exact Hc|].
  eapply H; [|exact E]. apply Forall_forall. intros x Hx. apply in_map_iff in Hx. destruct Hx as (y & <- & Hy).
  destruct (chain_in_lattice _ _ _ _ _ HL y Hy). auto.
Qed.
Definition permuting ker := forall olds a tr g ns b g',
  ker olds a tr g = (Some (ns, b), g') -> Permutation ns olds.
Lemma permuting_conserves ker f : permuting ker -> conserves ker f.
Proof.
  intros H olds a tr g ns b g' E. specialize (H _ _ _ _ _ _ _ E). split.
  - apply Permutation_length, H.
  - apply list_sum_map_perm, H.
Qed.

(** Exchange *)
Lemma exchange_result accept olds a tr g ns b g' :
  exchange_kernel o Rng accept olds a tr g = (Some (ns, b), g') ->
  exists c1 c2, olds = [c1; c2] /\ ns = [c2; c1] /\ c1 <> c2 /\ b = tr [c2; c1] /\ accept a b g = (true, g').
Proof.
  unfold exchange_kernel. destruct olds as [|c1 [|c2 [|? ?]]]; try discriminate.
  destruct (c1 =? c2) eqn:E; [discriminate|].
  destruct (accept a (tr [c2; c1]) g) as [ok g1] eqn:Ea. destruct ok; [|discriminate].
  intros H. injection H as <- <- <-. exists c1, c2. apply Nat.eqb_neq in E. auto.
Qed.
Lemma exchange_permuting accept : permuting (exchange_kernel o Rng accept).
Proof.
  intros olds a tr g ns b g' H. apply exchange_result in H. destruct H as (c1 & c2 & -> & -> & _). apply perm_swap.
Qed.
Lemma exchange_honest accept : honest (exchange_kernel o Rng accept).
Proof.
  intros olds a tr g ns b g' H. apply exchange_result in H. destruct H as (c1 & c2 & -> & -> & _ & -> & _). auto.
Qed.

(** Alternatives *)
Lemma list_eqb_true a b : list_eqb a b = true <-> a = b.
Proof.
  unfold list_eqb. rewrite andb_true_iff, Nat.eqb_eq. split.
  - revert b. induction a as [|x a IH]; intros [|y b] [Hl H]; simpl in *; try discriminate; [reflexivity|].
    apply andb_prop in H. destruct H as [H1 H2]. apply Nat.eqb_eq in H1. f_equal; [exact H1|]. apply IH. split; [lia|exact H2].
  - intros <-. split; [reflexivity|]. induction a; simpl; [reflexivity|]. rewrite Nat.eqb_refl. exact IHa.
Qed.
Lemma index_of_in x l : In x l -> index_of x l < length l /\ nth (index_of x l) l [] = x.
Proof.
  induction l as [|y l IH]; simpl; [tauto|]. intros [<-|H].
  - replace (list_eqb y y) with true by (symmetry; apply list_eqb_true; reflexivity). simpl. split; [lia|reflexivity].
  - destruct (list_eqb x y) eqn:E.
    + apply list_eqb_true in E. subst. split; [lia|reflexivity].
    + destruct (IH H). split; [lia|assumption].
Qed.
Lemma alternatives_result choose alts olds a tr g ns b g' :
  in_range choose -> In olds alts -> NoDup alts ->
  alternatives_kernel o Rng choose alts olds a tr g = (Some (ns, b), g') ->
  In ns alts /\ ns <> olds /\ b = tr ns.
Proof.
  intros HR Hin Hnd. unfold alternatives_kernel.
  set (psis := map _ _). destruct (index_of_in _ _ Hin) as [Hi Hn].
  destruct (choose (index_of olds alts) psis g) as [final g1] eqn:Ec.
  assert (Hlen : length psis = length alts) by (unfold psis; rewrite map_length, seq_length; reflexivity).
  assert (Hf : final < length alts).
  { rewrite <- Hlen. specialize (HR (index_of olds alts) psis g). rewrite Ec, Hlen in HR. rewrite Hlen. apply HR, Hi. }
  destruct (final =? index_of olds alts) eqn:E; [discriminate|]. apply Nat.eqb_neq in E.
  intros H. injection H as <- <- <-.
  split; [apply nth_In; exact Hf|]. split.
  - rewrite <- Hn. intros Heq. apply E. apply (proj1 (NoDup_nth alts []) Hnd); auto.
  - unfold psis. rewrite nth_map_seq by exact Hf. apply Nat.eqb_neq in E. rewrite E. reflexivity.
Qed.

(** All pairs of states *)
Lemma pair_code dim c1 c2 : c1 < dim -> c2 < dim -> [(c1 * dim + c2) / dim; (c1 * dim + c2) mod dim] = [c1; c2].
Proof.
  intros H1 H2. rewrite Nat.div_add_l by lia. rewrite (Nat.div_small c2) by lia.
  rewrite (Nat.add_comm _ c2), Nat.mod_add by lia. rewrite Nat.mod_small by lia. f_equal. lia.
Qed.
Lemma full_alts_in dim l : 0 < dim -> In l (full_alts dim) <-> exists c1 c2, l = [c1; c2] /\ c1 < dim /\ c2 < dim.
Proof.
  intros Hd. unfold full_alts. rewrite in_map_iff. split.
  - intros (s & <- & Hs). apply in_seq in Hs. exists (s / dim), (s mod dim). split; [reflexivity|]. split.
    + apply Nat.div_lt_upper_bound; lia.
    + apply Nat.mod_upper_bound. lia.
  - intros (c1 & c2 & -> & H1 & H2). exists (c1 * dim + c2). split.
    + apply pair_code; assumption.
    + apply in_seq. nia.
Qed.
Lemma full_alts_nodup dim : 0 < dim -> NoDup (full_alts dim).
Proof.
  intros Hd. unfold full_alts. apply FinFun.Injective_map_NoDup; [|apply seq_NoDup].
  intros x y H. injection H as H1 H2. rewrite (Nat.div_mod_eq x dim), (Nat.div_mod_eq y dim), H1, H2. reflexivity.
Qed.
Lemma index_of_nth alts i : NoDup alts -> i < length alts -> index_of (nth i alts []) alts = i.
Proof.
  intros Hd Hi. destruct (index_of_in (nth i alts []) alts (nth_In _ _ Hi)) as [H1 H2].
  apply (proj1 (NoDup_nth alts []) Hd); auto.
Qed.
Lemma full_alts_length dim : length (full_alts dim) = dim * dim.
Proof. unfold full_alts. rewrite map_length, seq_length. reflexivity. Qed.
Lemma full_alts_nth dim s : s < dim * dim -> nth s (full_alts dim) [] = [s / dim; s mod dim].
Proof. intros H. unfold full_alts. rewrite nth_map_seq; auto. Qed.
(** The code of the current pair is c1*dim+c2. *)
Lemma full_alts_code dim c1 c2 : c1 < dim -> c2 < dim -> index_of [c1; c2] (full_alts dim) = c1 * dim + c2.
Proof.
  intros H1 H2.
  replace [c1; c2] with (nth (c1 * dim + c2) (full_alts dim) []).
  - apply index_of_nth; [apply full_alts_nodup; lia|]. rewrite full_alts_length. nia.
  - rewrite full_alts_nth by nia. apply pair_code; assumption.
Qed.
Lemma full_result dim choose c1 c2 a tr g ns b g' : in_range choose -> c1 < dim -> c2 < dim ->
  full_space_kernel o Rng dim choose [c1; c2] a tr g = (Some (ns, b), g') ->
  exists n1 n2, ns = [n1; n2] /\ n1 < dim /\ n2 < dim /\ ns <> [c1; c2] /\ b = tr ns.
Proof.
  intros HR H1 H2 H. apply alternatives_result in H; auto.
  - destruct H as (Hin & Hne & Hb). apply full_alts_in in Hin; [|lia].
    destruct Hin as (n1 & n2 & -> & ? & ?). exists n1, n2. auto.
  - apply full_alts_in; [lia|]. exists c1, c2. auto.
  - apply full_alts_nodup. lia.
Qed.

(** Hubbard *)
Lemma spin_counts_ok c : c < 4 -> spin_counts c = Some (n_up c, n_down c).
Proof. intros H. do 4 (destruct c as [|c]; [reflexivity|]). lia. Qed.
Lemma hubbard_alts_in nu nd l : In l (hubbard_alts nu nd) <->
  exists c1 c2, l = [c1; c2] /\ c1 < 4 /\ c2 < 4 /\ n_up c1 + n_up c2 = nu /\ n_down c1 + n_down c2 = nd.
Proof.
  unfold hubbard_alts. rewrite in_flat_map. split.
  - intros (c1 & H1 & H). apply in_seq in H1. apply in_flat_map in H. destruct H as (c2 & H2 & H). apply in_seq in H2.
    rewrite !spin_counts_ok in H by lia.
    destruct ((n_up c1 + n_up c2 =? nu) && (n_down c1 + n_down c2 =? nd)) eqn:E; [|destruct H].
    destruct H as [<-|[]]. apply andb_prop in E. rewrite !Nat.eqb_eq in E. exists c1, c2. intuition lia.
  - intros (c1 & c2 & -> & H1 & H2 & Hu & Hd). exists c1. split; [apply in_seq; lia|].
    apply in_flat_map. exists c2. split; [apply in_seq; lia|]. rewrite !spin_counts_ok by lia.
    rewrite Hu, Hd, !Nat.eqb_refl. left. reflexivity.
Qed.
Lemma NoDup_flat_map {A B} (f : A -> list B) l : NoDup l -> (forall x, In x l -> NoDup (f x)) ->
  (forall x y z, In x l -> In y l -> In z (f x) -> In z (f y) -> x = y) -> NoDup (flat_map f l).
Proof.
  intros Hd. induction Hd as [|x l Hx Hd IH]; intros H1 H2; simpl; [constructor|].
  apply NoDup_app_dis.
  - apply H1. left. reflexivity.
  - apply IH; [intros; apply H1; right; assumption|]. intros; eapply H2; [right|right| |]; eauto.
  - intros z Hz Hin. apply in_flat_map in Hin. destruct Hin as (y & Hy & Hz').
    assert (x = y) by (eapply H2; [left; reflexivity|right; eassumption|eassumption|eassumption]). subst. contradiction.
Qed.
Lemma hubbard_alts_nodup nu nd : NoDup (hubbard_alts nu nd).
Proof.
  unfold hubbard_alts. apply NoDup_flat_map; [apply seq_NoDup| |].
  - intros c1 H1. apply in_seq in H1. apply NoDup_flat_map; [apply seq_NoDup| |].
    + intros c2 H2. apply in_seq in H2. rewrite !spin_counts_ok by lia. destruct (_ && _); repeat constructor. intros [].
    + intros x y z Hx Hy. apply in_seq in Hx. apply in_seq in Hy. rewrite !spin_counts_ok by lia.
      destruct (_ && _); [|intros []]. intros [<-|[]]. destruct (_ && _); [|intros []]. intros [E|[]]. congruence.
  - intros x y z Hx Hy Hzx Hzy. apply in_seq in Hx. apply in_seq in Hy.
    apply in_flat_map in Hzx. destruct Hzx as (c & Hc & Hzx). apply in_seq in Hc.
    apply in_flat_map in Hzy. destruct Hzy as (c' & Hc' & Hzy). apply in_seq in Hc'.
    rewrite !spin_counts_ok in Hzx, Hzy by lia.
    destruct (_ && _) in Hzx; [|destruct Hzx]. destruct (_ && _) in Hzy; [|destruct Hzy].
    destruct Hzx as [<-|[]]. destruct Hzy as [E|[]]. congruence.
Qed.
Lemma hubbard_result choose c1 c2 a tr g ns b g' : in_range choose -> c1 < 4 -> c2 < 4 ->
  hubbard_kernel o Rng choose [c1; c2] a tr g = (Some (ns, b), g') ->
  exists n1 n2, ns = [n1; n2] /\ n1 < 4 /\ n2 < 4 /\ n_up n1 + n_up n2 = n_up c1 + n_up c2 /\
    n_down n1 + n_down n2 = n_down c1 + n_down c2 /\ ns <> [c1; c2] /\ b = tr ns.
Proof.
  intros HR H1 H2 H. unfold hubbard_kernel in H. rewrite !spin_counts_ok in H by lia.
  destruct (length _ <=? 1); [discriminate|]. apply alternatives_result in H; auto using hubbard_alts_nodup.
  - destruct H as (Hin & Hne & Hb). apply hubbard_alts_in in Hin.
    destruct Hin as (n1 & n2 & -> & ? & ? & ? & ?). exists n1, n2. auto 10.
  - apply hubbard_alts_in. exists c1, c2. auto 10.
Qed.

(** Three sites *)
Lemma perm3 (x y z : nat) l : Permutation l [x; y; z] ->
  In l [[x; y; z]; [x; z; y]; [y; x; z]; [y; z; x]; [z; x; y]; [z; y; x]].
Proof.
  intros H. assert (L : length l = 3) by (apply (Permutation_length H)).
  destruct l as [|a [|b [|c [|? ?]]]]; try discriminate L. clear L.
  assert (Ha : In a [x; y; z]) by (apply (Permutation_in _ H); left; reflexivity).
  simpl in Ha. destruct Ha as [<-|[<-|[<-|[]]]].
  - apply Permutation_cons_inv in H. apply Permutation_length_2 in H. simpl. intuition congruence.
  - assert (H' : Permutation (y :: [b; c]) (y :: [x; z])) by (etransitivity; [exact H|apply perm_swap]).
    apply Permutation_cons_inv in H'. apply Permutation_length_2 in H'. simpl. intuition congruence.
  - assert (H' : Permutation (z :: [b; c]) (z :: [x; y])).
    { etransitivity; [exact H|]. symmetry. apply (Permutation_cons_append [x; y] z). }
    apply Permutation_cons_inv in H'. apply Permutation_length_2 in H'. simpl. intuition congruence.
Qed.
Lemma insert_perm x l : Permutation (insert_sorted x l) (x :: l).
Proof.
  induction l as [|y l IH]; simpl; [reflexivity|]. destruct (x <=? y); [reflexivity|].
  etransitivity; [apply perm_skip, IH|]. apply perm_swap.
Qed.
Lemma sorted_perm l : Permutation (sorted_states l) l.
Proof.
  induction l as [|x l IH]; simpl; [reflexivity|]. etransitivity; [apply insert_perm|]. apply perm_skip, IH.
Qed.
Lemma insert_comm x y l : insert_sorted x (insert_sorted y l) = insert_sorted y (insert_sorted x l).
Proof.
  induction l as [|z l IH]; simpl.
  - destruct (x <=? y) eqn:E1, (y <=? x) eqn:E2; try reflexivity;
      rewrite ?Nat.leb_le, ?Nat.leb_gt in *; try lia. replace x with y by lia. reflexivity.
  - destruct (y <=? z) eqn:E1, (x <=? z) eqn:E2; simpl; rewrite ?E1, ?E2; try reflexivity.
    + destruct (x <=? y) eqn:E3, (y <=? x) eqn:E4; rewrite ?E1, ?E2; try reflexivity;
        rewrite ?Nat.leb_le, ?Nat.leb_gt in *; try lia. replace x with y by lia. reflexivity.
    + destruct (x <=? y) eqn:E3; rewrite ?E2; [rewrite ?Nat.leb_le, ?Nat.leb_gt in *; lia|reflexivity].
    + destruct (y <=? x) eqn:E3; rewrite ?E1; [rewrite ?Nat.leb_le, ?Nat.leb_gt in *; lia|reflexivity].
    + f_equal. exact IH.
Qed.
(** The sorted list, hence the list of alternatives, depends only on the multiset. *)
Lemma sorted_same l l' : Permutation l l' -> sorted_states l = sorted_states l'.
Proof.
  induction 1; simpl; [reflexivity|congruence|apply insert_comm|congruence].
Qed.
Lemma sorted3 s1 s2 s3 : exists a b c, sorted_states [s1; s2; s3] = [a; b; c] /\ a <= b <= c.
Proof.
  simpl. destruct (s2 <=? s3) eqn:E1; rewrite ?Nat.leb_le, ?Nat.leb_gt in E1; simpl.
  - destruct (s1 <=? s2) eqn:E2; rewrite ?Nat.leb_le, ?Nat.leb_gt in E2.
    + exists s1, s2, s3. split; [reflexivity|lia].
    + destruct (s1 <=? s3) eqn:E3; rewrite ?Nat.leb_le, ?Nat.leb_gt in E3; do 3 eexists; (split; [reflexivity|lia]).
  - destruct (s1 <=? s3) eqn:E2; rewrite ?Nat.leb_le, ?Nat.leb_gt in E2.
    + do 3 eexists; (split; [reflexivity|lia]).
    + destruct (s1 <=? s2) eqn:E3; rewrite ?Nat.leb_le, ?Nat.leb_gt in E3; do 3 eexists; (split; [reflexivity|lia]).
Qed.
Ltac ltbs := repeat match goal with
  | |- context [?x <? ?y] =>
      first [ replace (x <? y) with true by (symmetry; apply Nat.ltb_lt; lia)
            | replace (x <? y) with false by (symmetry; apply Nat.ltb_ge; lia) ]
  end.
Ltac perms_step := cbn [perms_from next_perm swap_last_larger bind rev app]; ltbs; cbv iota beta.
Lemma perms_sorted a b c : a <= b <= c -> ~ (a = b /\ b = c) ->
  exists alts, perms_from 6 [a; b; c] = Ok alts /\ NoDup alts /\ forall l, In l alts <-> Permutation l [a; b; c].
Proof.
  intros H Hne.
  assert (K : forall alts, perms_from 6 [a; b; c] = Ok alts -> NoDup alts ->
     (forall l, In l alts -> Permutation l [a; b; c]) ->
     (forall l, In l [[a; b; c]; [a; c; b]; [b; a; c]; [b; c; a]; [c; a; b]; [c; b; a]] -> In l alts) ->
     exists alts, perms_from 6 [a; b; c] = Ok alts /\ NoDup alts /\ forall l, In l alts <-> Permutation l [a; b; c]).
  { intros alts H1 H2 H3 H4. exists alts. split; [exact H1|]. split; [exact H2|]. intros l. split; [apply H3|].
    intros HP. apply H4, perm3, HP. }
  assert (Hc : (a < b /\ b < c) \/ (a = b /\ b < c) \/ (a < b /\ b = c)) by lia.
  destruct Hc as [[H1 H2]|[[<- H2]|[H1 <-]]].
  - eapply K.
    + do 8 perms_step. reflexivity.
    + repeat constructor; simpl; intuition (try congruence); repeat match goal with H : [_; _; _] = _ |- _ => injection H; intros; clear H; subst end; lia.
    + simpl. intros l Hl. decompose [or] Hl; subst; try contradiction.
      * reflexivity.
      * apply perm_skip, perm_swap.
      * apply perm_swap.
      * etransitivity; [apply perm_skip, perm_swap|apply perm_swap].
      * etransitivity; [apply perm_swap|]. apply perm_skip, perm_swap.
      * etransitivity; [apply perm_swap|]. etransitivity; [apply perm_skip, perm_swap|]. apply perm_swap.
    + simpl. tauto.
  - eapply K.
    + do 8 perms_step. reflexivity.
    + repeat constructor; simpl; intuition (try congruence); repeat match goal with H : [_; _; _] = _ |- _ => injection H; intros; clear H; subst end; lia.
    + simpl. intros l Hl. decompose [or] Hl; subst; try contradiction.
      * reflexivity.
      * apply perm_skip, perm_swap.
      * etransitivity; [apply perm_swap|]. apply perm_skip, perm_swap.
    + simpl. tauto.
  - eapply K.
    + do 8 perms_step. reflexivity.
    + repeat constructor; simpl; intuition (try congruence); repeat match goal with H : [_; _; _] = _ |- _ => injection H; intros; clear H; subst end; lia.
    + simpl. intros l Hl. decompose [or] Hl; subst; try contradiction.
      * reflexivity.
      * apply perm_swap.
      * etransitivity; [apply perm_skip, perm_swap|apply perm_swap].
    + simpl. tauto.
Qed.
Lemma three_alts s1 s2 s3 : ~ (s1 = s2 /\ s2 = s3) ->
  exists alts, perms_from 6 (sorted_states [s1; s2; s3]) = Ok alts /\ NoDup alts /\
    forall l, In l alts <-> Permutation l [s1; s2; s3].
Proof.
  intros Hne. destruct (sorted3 s1 s2 s3) as (a & b & c & E & H).
  assert (HP : Permutation [a; b; c] [s1; s2; s3]) by (rewrite <- E; apply sorted_perm).
  destruct (perms_sorted a b c H) as (alts & E2 & Hd & Hin).
  { intros [<- <-]. symmetry in HP. apply Hne.
    assert (A : forall x, In x [s1; s2; s3] -> x = a) by (intros x Hx; apply (Permutation_in _ HP) in Hx; simpl in Hx; intuition congruence).
    split; transitivity a; [|symmetry| |symmetry]; apply A; simpl; auto. }
  exists alts. rewrite E. split; [exact E2|]. split; [exact Hd|].
  intros l. rewrite Hin. split; intros; etransitivity; eauto. symmetry. exact HP.
Qed.
Lemma three_result choose olds a tr g ns b g' : in_range choose ->
  three_site_kernel o Rng choose olds a tr g = (Some (ns, b), g') ->
  Permutation ns olds /\ ns <> olds /\ b = tr ns.
Proof.
  intros HR. unfold three_site_kernel. destruct olds as [|s1 [|s2 [|s3 [|? ?]]]]; try discriminate.
  destruct ((s1 =? s2) && (s2 =? s3)) eqn:E; [discriminate|].
  destruct (three_alts s1 s2 s3) as (alts & Ea & Hd & Hin).
  { intros [-> ->]. rewrite !Nat.eqb_refl in E. discriminate. }
  rewrite Ea. intros H. apply alternatives_result in H; auto.
  - destruct H as (H1 & H2 & H3). apply Hin in H1. auto.
  - apply Hin. reflexivity.
Qed.
Lemma three_permuting choose : in_range choose -> permuting (three_site_kernel o Rng choose).
Proof. intros HR olds a tr g ns b g' H. apply three_result in H; tauto. Qed.
Lemma three_honest choose : in_range choose -> honest (three_site_kernel o Rng choose).
Proof.
  intros HR olds a tr g ns b g' H. apply three_result in H; [|exact HR]. destruct H as (H1 & _ & H2).
  split; [apply Permutation_length, H1|exact H2].
Qed.
End KernelFacts.
