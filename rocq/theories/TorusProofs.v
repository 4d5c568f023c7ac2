(** A periodic component keeps in step with its configuration. *)
From Coq Require Import List Arith Lia Bool Reals FunctionalExtensionality.
From Verif Require Import Base Cplx ContractorModel SweepModel UpdaterModel UpdaterSpec UpdaterProofs TrgModel TrgSpec TrgProofs TrgTopo TrgMain TorusModel TorusSpec.
Import ListNotations.
Local Open Scope nat_scope.

Lemma nth_map_seq {X} (f : nat -> X) m i d : i < m -> nth i (map f (seq 0 m)) d = f i.
Proof. intros H. rewrite (nth_indep _ d (f 0)) by (rewrite map_length, seq_length; exact H). rewrite map_nth. rewrite seq_nth by exact H. reflexivity. Qed.
Section Step.
Context (o : trg_ops) (Rng : Type) (n : nat) (p : Prm o) (tps : nat -> nat -> nat -> TrgModel.Ten o) (Hn : trg_size n).
Context (sub : arr bool) (sc0 : list (scale o)) (HI : forall t X, t_prm t = Some p -> init o t (torus o n X) = Ok (mkTrg n n true false sub sc0 (Some p)))
  (HT : topo o sub (ty n) 0 sc0) (HB : built o n sc0) (HS : no_splits o sc0).
Notation proj := (project_net o tps).
Notation amp := (TrgMain.amp o p n sc0).
Notation flat := (TrgMain.flat o n).
Definition good (w : comp o) : Prop :=
  k_tn w = proj (k_cfg w) /\ keeps o p n sub sc0 (k_trg w) (proj (k_cfg w)) /\ amp (flat (proj (k_cfg w))) = Ok (k_amp w).

Lemma size_pos : 0 < n.
Proof. destruct Hn as (k & [->| ->]); pose proof (Nat.pow_nonzero 2 k); lia. Qed.
Lemma keeps_params t X : keeps o p n sub sc0 t X -> set_params o t p = t.
Proof. intros (sc & -> & _). reflexivity. Qed.
Lemma keeps_prm t X : keeps o p n sub sc0 t X -> t_prm t = Some p.
Proof. intros (sc & -> & _). reflexivity. Qed.
Lemma init_params (t : trg o) X : init o t (torus o n X) = Ok (mkTrg n n true false sub sc0 (t_prm t)).
Proof.
  pose proof (HI (new_trg o n n p) X eq_refl) as H. revert H. unfold init. cbn [torus n_periodic n_rows n_cols negb].
  destruct (negb (n =? n)); [discriminate|]. destruct (negb (size_ok n)); [discriminate|].
  destruct (build_scale0 o n) as [s0|e]; [|discriminate]. cbn [bind]. destruct (build_topology o (2 * n + 1) n 0 (snd s0)) as [sc|e]; [|discriminate]. cbn [bind t_sub].
  destruct (validate o (fst s0) 0 sc) as [x|e]; [|discriminate]. cbn [bind]. intros H. injection H as -> ->. reflexivity.
Qed.
Lemma replacements_net c news : with_replacements o (proj c) (reps_of o tps news) = proj (set_sites c news).
Proof.
  revert c. induction news as [|[s x] news IH]; intros c; [reflexivity|]. unfold with_replacements, set_sites, reps_of. cbn [map fold_left fst snd].
  fold (set_sites (upd2 c s x) news). rewrite <- IH. unfold with_replacements, reps_of. f_equal.
  apply functional_extensionality; intros r. apply functional_extensionality; intros k. unfold put_ten, project_net, upd2, site_eqb. cbn [fst snd].
  destruct ((r =? fst s) && (k =? snd s)) eqn:E; [|reflexivity]. apply andb_true_iff in E. destruct E as [E1 E2]. apply Nat.eqb_eq in E1, E2. subst. reflexivity.
Qed.
Lemma updates_net c news : fold_left (fun X sn => upd2 X (fst sn) (tps (fst (fst sn)) (snd (fst sn)) (snd sn))) news (proj c) = proj (set_sites c news).
Proof.
  revert c. induction news as [|[s x] news IH]; intros c; [reflexivity|]. unfold set_sites. cbn [fold_left fst snd]. fold (set_sites (upd2 c s x) news). rewrite <- IH. f_equal.
  apply functional_extensionality; intros r. apply functional_extensionality; intros k. unfold project_net, upd2, site_eqb. cbn [fst snd].
  destruct ((r =? fst s) && (k =? snd s)) eqn:E; [|reflexivity]. apply andb_true_iff in E. destruct E as [E1 E2]. apply Nat.eqb_eq in E1, E2. subst. reflexivity.
Qed.
Definition inside_sites (news : list (site * nat)) : Prop := Forall (fun e => fst (fst e) < n /\ snd (fst e) < n) news.
Lemma reps_lattice news : inside_sites news -> on_lattice o n (reps_of o tps news).
Proof. unfold inside_sites, on_lattice, reps_of. intros H. apply Forall_map. apply Forall_impl with (2 := H). intros e He. exact He. Qed.

Lemma evaluate_good c X (t : trg o) : t = mkTrg n n true false sub sc0 (t_prm t) -> X = proj c -> exists w, evaluate_amplitude o n p c X t = Ok w /\ good w /\ k_cfg w = c.
Proof.
  intros -> ->. unfold evaluate_amplitude. cbn [set_params t_rows t_cols t_periodic t_ready t_sub t_scales t_prm].
  destruct (fresh_keeps o p n sub sc0 HI HT HB HS (proj c)) as (t' & z & E & A & K). unfold fresh in E. rewrite HI in E by reflexivity. cbn [bind] in E.
  unfold torus in E. unfold set_params. cbn [t_rows t_cols t_periodic t_ready t_sub t_scales]. rewrite E. cbn [bind fst snd]. eexists. split; [reflexivity|]. split; [|reflexivity].
  repeat split; cbn [k_tn k_cfg k_trg k_amp]; assumption.
Qed.
Lemma build_good c : exists w, build o n p tps c = Ok w /\ good w /\ k_cfg w = c.
Proof. unfold build. cbv zeta. change (mkNet n n true (proj c)) with (torus o n (proj c)). rewrite init_params. cbn [bind t_prm]. apply evaluate_good; reflexivity. Qed.
Lemma replace_good w c : exists w', replace_global o n p tps w c = Ok w' /\ good w' /\ k_cfg w' = c.
Proof. unfold replace_global. cbv zeta. change (mkNet n n true (proj c)) with (torus o n (proj c)). rewrite init_params. cbn [bind]. apply evaluate_good; reflexivity. Qed.

Lemma begin_good w news : good w -> inside_sites news -> exists tr w', begin_component o p tps w news = Ok (w, tr) /\
  amp (flat (proj (set_sites (k_cfg w) news))) = Ok (tr_amp tr) /\ accept_component o tps w tr news = Ok w' /\ good w' /\ k_cfg w' = set_sites (k_cfg w) news /\ k_amp w' = tr_amp tr.
Proof.
  intros (E & K & A) H. destruct (keeps_trial o p n sub sc0 HI HT HB HS (k_trg w) (proj (k_cfg w)) (reps_of o tps news) K (reps_lattice news H)) as (z & tr & t' & Z & B & TA & _ & CT & K').
  rewrite replacements_net in Z, K'. exists tr. unfold begin_component. rewrite (keeps_params _ _ K), B. cbn [bind]. unfold accept_component. rewrite CT. cbn [bind].
  eexists. split; [destruct w; reflexivity|]. rewrite TA. split; [exact Z|]. split; [reflexivity|]. split; [|split; reflexivity].
  repeat split; cbn [k_tn k_cfg k_trg k_amp]; [rewrite E; apply updates_net|exact K'|exact Z].
Qed.

(** *** Moves *)
Context (z0 : Num o).
Let am := only_amplitudes o z0.
Context (trial : (nat -> nat -> nat) -> Num o) (Htr : forall c, amp (flat (proj c)) = Ok (trial c)).
Definition seen (w : comp o) (g : Rng) : pst am Rng := @mkP am Rng (k_cfg w) (k_amp w) g.
(** a move of the code against a move of the chain *)
Definition simulates (dim : nat) (move : site -> site -> comp o -> Rng -> res (moved o Rng)) (ker : kernel am Rng) : Prop :=
  forall s1 s2 w g, good w -> all_states n n (fun x => x < dim) (k_cfg w) -> fst s1 < n -> snd s1 < n -> fst s2 < n -> snd s2 < n ->
    exists w' g' ok, move s1 s2 w g = Ok (w', g', ok) /\ good w' /\ all_states n n (fun x => x < dim) (k_cfg w') /\
      pbc_move am Rng trial ker s1 s2 (seen w g) = (seen w' g', ok).

Lemma trial_amp c z : amp (flat (proj c)) = Ok z -> z = trial c.
Proof. intros H. rewrite Htr in H. congruence. Qed.
Lemma set_bound dim c news : all_states n n (fun x => x < dim) c -> Forall (fun e => snd e < dim) news -> all_states n n (fun x => x < dim) (set_sites c news).
Proof.
  revert c. induction news as [|[s x] news IH]; intros c H F; [exact H|]. inversion F as [|? ? F1 F2]; subst. unfold set_sites. cbn [fold_left fst snd]. apply IH; [|exact F2].
  intros r k Hr Hk. unfold upd2. destruct (site_eqb (r, k) s); [exact F1|apply H; assumption].
Qed.

Lemma exchange_simulates dim accept : simulates dim (exchange_trg o Rng p tps accept) (exchange_kernel am Rng accept).
Proof.
  intros s1 s2 w g G B R1 C1 R2 C2. unfold exchange_trg, pbc_move, exchange_kernel. cbn [seen pcfg pamp prng].
  set (c1 := k_cfg w (fst s1) (snd s1)). set (c2 := k_cfg w (fst s2) (snd s2)). destruct (c1 =? c2); [exists w, g, false; repeat split; try assumption; apply G|].
  pose (news := @cons (site * nat) (@pair site nat s1 c2) (@cons (site * nat) (@pair site nat s2 c1) nil)).
  assert (IN : inside_sites news) by (repeat constructor; assumption).
  cbv zeta.
  destruct (begin_good w _ G IN) as (tr & w' & BE & A & AC & G' & E' & M').
  unfold news in *. clear news. rewrite BE. cbn [bind fst snd combine]. rewrite <- (trial_amp _ _ A).
  destruct (accept (k_amp w) (tr_amp tr) g) as [ok g'] eqn:EA. destruct ok.
  - rewrite AC. cbn [bind]. exists w', g', true. split; [reflexivity|]. split; [exact G'|]. split; [|unfold seen; rewrite E', M'; reflexivity].
    rewrite E'. apply set_bound; [exact B|]. repeat constructor; apply B; assumption.
  - exists w, g', false. repeat split; try assumption; apply G.
Qed.

Lemma trials_good w (news : nat -> list (site * nat)) init : good w -> (forall s, inside_sites (news s)) -> forall l acc,
  exists trs, foreach l (w, acc) (fun st state => if state =? init then Ok (fst st, snd st ++ [None])
         else y <- begin_component o p tps (fst st) (news state);; Ok (fst y, snd st ++ [Some (snd y)])) = Ok (w, acc ++ trs) /\
    Forall2 (fun state t => if state =? init then t = None else exists tr w', t = Some tr /\ tr_amp tr = trial (set_sites (k_cfg w) (news state)) /\
      accept_component o tps w tr (news state) = Ok w' /\ good w' /\ k_cfg w' = set_sites (k_cfg w) (news state) /\ k_amp w' = tr_amp tr) l trs.
Proof.
  intros G I. induction l as [|s l IH]; intros acc; [exists []; rewrite app_nil_r; split; [reflexivity|constructor]|]. cbn [foreach fst snd]. destruct (s =? init) eqn:E.
  - cbn [bind]. destruct (IH (acc ++ [None])) as (trs & -> & F). exists (None :: trs). rewrite <- app_assoc. split; [reflexivity|]. constructor; [rewrite E; reflexivity|exact F].
  - destruct (begin_good w (news s) G (I s)) as (tr & w' & -> & A & AC & G' & E' & M'). cbn [bind fst snd]. destruct (IH (acc ++ [Some tr])) as (trs & -> & F).
    exists (Some tr :: trs). rewrite <- app_assoc. split; [reflexivity|]. constructor; [|exact F]. rewrite E. exists tr, w'. split; [reflexivity|]. split; [exact (trial_amp _ _ A)|]. repeat split; try assumption; apply G'.
Qed.
Lemma full_simulates dim choose : simulates dim (full_space_trg o Rng p tps dim choose) (full_space_kernel am Rng dim choose).
Proof.
  intros s1 s2 w g G B R1 C1 R2 C2. unfold full_space_trg, pbc_move, full_space_kernel, alternatives_kernel. cbn [seen pcfg pamp prng].
  set (c1 := k_cfg w (fst s1) (snd s1)). set (c2 := k_cfg w (fst s2) (snd s2)).
  assert (D1 : c1 < dim) by (apply B; assumption). assert (D2 : c2 < dim) by (apply B; assumption).
  rewrite (full_alts_code dim c1 c2 D1 D2). set (ini := c1 * dim + c2). cbv zeta. set (news := fun state : nat => @cons (site * nat) (@pair site nat s1 (state / dim)) (@cons (site * nat) (@pair site nat s2 (state mod dim)) nil)).
  destruct (trials_good w news ini G ltac:(intros s; repeat constructor; assumption) (seq 0 (dim * dim)) []) as (trs & ET & F). match goal with |- context [foreach ?l ?a ?f] => replace (foreach l a f) with (Ok (A := comp o * list (option (TrgModel.trial o))) (w, trs)) by (symmetry; exact ET) end. cbn [bind fst snd app].
  assert (EP : map (fun tr : option (TrgModel.trial o) => match tr with Some tr => tr_amp tr | None => k_amp w end) trs =
               map (fun i => if i =? ini then k_amp w else trial (set_sites (k_cfg w) (combine [s1; s2] (nth i (full_alts dim) [])))) (seq 0 (length (full_alts dim)))).
  { rewrite full_alts_length. assert (IN : forall i, In i (seq 0 (dim * dim)) -> i < dim * dim) by (intros i Hi; apply in_seq in Hi; lia). clear ET. revert IN. induction F as [|s t l l' H F IH]; intros IN; [reflexivity|]. cbn [map]. rewrite IH by (intros i Hi; apply IN; right; exact Hi). f_equal.
    destruct (s =? ini); [rewrite H; reflexivity|]. destruct H as (tr & w' & -> & A & _). rewrite A. rewrite full_alts_nth by (apply IN; left; reflexivity). reflexivity. }
  rewrite EP. change (Amp am) with (Num o). set (psis := map _ (seq 0 (length (full_alts dim)))).
  destruct (choose ini psis g) as [fin g'] eqn:EC. destruct (fin =? ini) eqn:EF; [exists w, g', false; repeat split; try assumption; apply G|].
  destruct (Nat.lt_ge_cases fin (dim * dim)) as [L|L].
  - assert (HF : exists tr w', nth fin trs None = Some tr /\ tr_amp tr = trial (set_sites (k_cfg w) (news fin)) /\
      accept_component o tps w tr (news fin) = Ok w' /\ good w' /\ k_cfg w' = set_sites (k_cfg w) (news fin) /\ k_amp w' = tr_amp tr).
    { assert (Q : forall l trs', Forall2 (fun state t => if state =? ini then t = None else exists tr w', t = Some tr /\ tr_amp tr = trial (set_sites (k_cfg w) (news state)) /\
        accept_component o tps w tr (news state) = Ok w' /\ good w' /\ k_cfg w' = set_sites (k_cfg w) (news state) /\ k_amp w' = tr_amp tr) l trs' -> forall i, i < length l -> forall d, nth i l d = fin ->
        exists tr w', nth i trs' None = Some tr /\ tr_amp tr = trial (set_sites (k_cfg w) (news fin)) /\ accept_component o tps w tr (news fin) = Ok w' /\ good w' /\ k_cfg w' = set_sites (k_cfg w) (news fin) /\ k_amp w' = tr_amp tr).
      { intros l trs' Q. induction Q as [|x t l' l'' H Q IH]; intros i Hi d E; [cbn in Hi; lia|]. destruct i as [|i]; [cbn [nth] in *; subst x; rewrite EF in H; exact H|]. cbn [nth] in *. apply IH with (d := d); [cbn in Hi; lia|exact E]. }
      apply (Q _ _ F fin) with (d := 0); [rewrite seq_length; exact L|apply seq_nth; exact L]. }
    destruct HF as (tr & w' & -> & A & AC & G' & E' & M').
    match goal with |- context [accept_component o tps w tr ?l] => change (accept_component o tps w tr l) with (accept_component o tps w tr (news fin)) end. rewrite AC. cbn [bind]. exists w', g', true. split; [reflexivity|]. split; [exact G'|].
    rewrite full_alts_nth by exact L. cbn [combine]. split.
    + rewrite E'. apply set_bound; [exact B|]. repeat constructor; cbn [snd]; [apply Nat.div_lt_upper_bound; lia|apply Nat.mod_upper_bound; lia].
    + f_equal. unfold seen. rewrite E', M'. f_equal. subst psis. rewrite nth_map_seq by (rewrite full_alts_length; exact L). rewrite EF, full_alts_nth by exact L. rewrite A. reflexivity.
  - assert (LT : length (seq 0 (dim * dim)) = length trs) by (clear -F; induction F; cbn; congruence). rewrite seq_length in LT.
    rewrite (nth_overflow trs) by lia. exists w, g', true. split; [reflexivity|]. split; [exact G|]. split; [exact B|].
    rewrite (nth_overflow (full_alts dim)) by (rewrite full_alts_length; exact L). rewrite (nth_overflow psis) by (subst psis; rewrite map_length, seq_length, full_alts_length; exact L). reflexivity.
Qed.

Lemma partner_inside d s : fst s < n -> snd s < n -> fst (pbc_partner n n d s) < n /\ snd (pbc_partner n n d s) < n.
Proof. pose proof size_pos. intros A B. destruct d; cbn [pbc_partner fst snd]; split; try assumption; apply Nat.mod_upper_bound; lia. Qed.
Lemma iter_r {X} (f : X -> X) m x : Nat.iter (S m) f x = Nat.iter m f (f x).
Proof. induction m as [|m IH]; [reflexivity|]. change (f (Nat.iter (S m) f x) = f (Nat.iter m f (f x))). rewrite IH. reflexivity. Qed.
Lemma sweep_simulates dim move ker draw : simulates dim move ker -> draws_inside Rng n draw -> forall b w g acc, good w -> all_states n n (fun x => x < dim) (k_cfg w) ->
  exists w' g' k, sweep_trg o Rng n move draw b w g acc = Ok (w', g', k) /\ good w' /\ all_states n n (fun x => x < dim) (k_cfg w') /\
    Nat.iter b (pbc_step am Rng n n draw trial ker) (seen w g, acc) = (seen w' g', k).
Proof.
  intros SM DI. induction b as [|b IH]; intros w g acc G B; [exists w, g, acc; repeat split; try assumption; apply G|].
  cbn [sweep_trg]. destruct (draw g) as [[s d] g1] eqn:ED. cbn [fst snd]. pose proof (DI g) as D. rewrite ED in D. cbn [fst snd] in D. destruct D as [D1 D2].
  destruct (partner_inside d s D1 D2) as [P1 P2]. destruct (SM s (pbc_partner n n d s) w g1 G B D1 D2 P1 P2) as (w1 & g2 & ok & -> & G1 & B1 & M). cbn [bind].
  destruct (IH w1 g2 (if ok then S acc else acc) G1 B1) as (w' & g' & k & E & G' & B' & I). exists w', g', k. split; [exact E|]. split; [exact G'|]. split; [exact B'|].
  rewrite iter_r. rewrite <- I. f_equal. unfold pbc_step. cbn [fst snd seen prng pcfg pamp]. rewrite ED. unfold seen in M. rewrite M. reflexivity.
Qed.
End Step.
