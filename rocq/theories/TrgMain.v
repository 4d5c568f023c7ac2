(** Accepted moves and trials of the TRG contractor against a new contractor. *)
From Coq Require Import List Arith Lia Bool.
From Verif Require Import Base TrgModel TrgSpec TrgProofs TrgTopo.
Import ListNotations.
Local Open Scope nat_scope.

(** *** Contractors with the same contents *)
Lemma foreach_ext {X A} (f g : A -> X -> res A) : forall l a, (forall b x, In x l -> f b x = g b x) -> foreach l a f = foreach l a g.
Proof.
  induction l as [|x l IH]; intros a H; [reflexivity|]. cbn [foreach]. rewrite (H a x (or_introl eq_refl)). destruct (g a x) as [b|e]; [|reflexivity]. cbn [bind]. apply IH. intros c y Hy. apply H. right. exact Hy.
Qed.
Lemma aget_same {A} (a b : arr A) : same_arr a b -> forall i, aget a i = aget b i.
Proof. intros [L E] i. unfold aget. rewrite <- L. destruct (Nat.ltb_spec i (alen a)); [rewrite E by assumption; reflexivity|reflexivity]. Qed.
Lemma bind_ext {A B} (x : res A) (f g : A -> res B) : (forall a, f a = g a) -> bind x f = bind x g.
Proof. intros H. destruct x as [a|e]; [apply H|reflexivity]. Qed.
Section Same.
Context (o : trg_ops).
Lemma pieces_same a b : same_arr a b -> forall i, pieces_of o a i = pieces_of o b i.
Proof. intros H i. unfold pieces_of. rewrite (aget_same a b H). reflexivity. Qed.
Lemma contribute_same s role id H a b k acc : same_scale o a b -> contribute o s role id H a k acc = contribute o s role id H b k acc.
Proof.
  intros (_ & _ & _ & S). destruct k as [[[k0 k1] k2] k3]. unfold contribute. rewrite !(pieces_same _ _ S).
  do 4 (apply bind_ext; intros ?). rewrite (aget_same _ _ S). reflexivity.
Qed.
Lemma holes_down_same s a b a' b' H : same_scale o a a' -> same_scale o b b' -> holes_down o s a b H = holes_down o s a' b' H.
Proof.
  intros A B. unfold holes_down. pose proof A as ([L _] & _). pose proof B as ([L' _] & _ & C & _). rewrite <- L, <- L'.
  assert (E : foreach (seq 0 (alen (tens b))) (anew (alen (tens a)) (None, 0)) (fun acc pid => k <- aget (c2f b) pid;; h <- aget H pid;; let '(((k0, k1), k2), k3) := k in
      x <- contribute o s 0 k0 h a k acc;; y <- contribute o s 1 k1 h a k x;; z <- contribute o s 2 k2 h a k y;; contribute o s 3 k3 h a k z) =
    foreach (seq 0 (alen (tens b))) (anew (alen (tens a)) (None, 0)) (fun acc pid => k <- aget (c2f b') pid;; h <- aget H pid;; let '(((k0, k1), k2), k3) := k in
      x <- contribute o s 0 k0 h a' k acc;; y <- contribute o s 1 k1 h a' k x;; z <- contribute o s 2 k2 h a' k y;; contribute o s 3 k3 h a' k z)).
  { apply foreach_ext. intros acc pid _. rewrite (aget_same _ _ C). apply bind_ext. intros k. apply bind_ext. intros h. destruct k as [[[k0 k1] k2] k3].
    rewrite (contribute_same _ _ _ _ a a' _ _ A). apply bind_ext. intros x. rewrite (contribute_same _ _ _ _ a a' _ _ A). apply bind_ext. intros y. rewrite (contribute_same _ _ _ _ a a' _ _ A). apply bind_ext. intros z. apply contribute_same. exact A. }
  rewrite E. reflexivity.
Qed.
Lemma holes_top_same a b : same_scale o a b -> holes_top o a = holes_top o b.
Proof.
  intros (A & _). pose proof A as [L _]. unfold holes_top. rewrite <- L.
  replace (foreach (seq 0 (alen (tens a))) [] (fun xs i => y <- aget (tens b) i;; x <- need y;; Ok (xs ++ [x]))) with (foreach (seq 0 (alen (tens a))) [] (fun xs i => y <- aget (tens a) i;; x <- need y;; Ok (xs ++ [x]))); [reflexivity|].
  apply foreach_ext. intros xs i _. rewrite (aget_same _ _ A). reflexivity.
Qed.
Lemma holes_from_same : forall sc sc' s, Forall2 (same_scale o) sc sc' -> holes_from o s sc = holes_from o s sc'.
Proof.
  induction sc as [|a sc IH]; intros sc' s F; inversion F as [|? a' ? sc1 Ha F1]; subst; [reflexivity|].
  destruct sc as [|b sc]; inversion F1 as [|? b' ? sc2 Hb F2]; subst; [exact (holes_top_same a a' Ha)|].
  change (H <- holes_from o (S s) (b :: sc);; holes_down o s a b H = H <- holes_from o (S s) (b' :: sc2);; holes_down o s a' b' H).
  rewrite (IH _ (S s) F1). apply bind_ext. intros H. apply holes_down_same; assumption.
Qed.
Lemma punch_same a b tn : same_contractor o a b -> punch_all_holes o a tn = punch_all_holes o b tn.
Proof.
  intros (E1 & E2 & E3 & E4 & E5 & _ & F). unfold punch_all_holes. rewrite <- E1, <- E2, <- E3, <- E4, (holes_from_same _ _ 0 F). reflexivity.
Qed.
End Same.

Section Main.
Context (o : trg_ops) (p : Prm o) (n : nat) (Hn : trg_size n).
Notation Ten := (Ten o).
Notation scale := (scale o).
Definition flat (X : nat -> nat -> Ten) : nat -> Ten := fun i => X (i / n) (i mod n).
Definition top_splits (sc : list scale) : Prop := exists pre top, sc = pre ++ [top] /\ splits top = anew 0 None.
Lemma top_splits_tl a b sc : top_splits (a :: b :: sc) -> top_splits (b :: sc).
Proof.
  intros (pre & top & E & S). destruct pre as [|x pre]; [discriminate|]. injection E as -> E. exists pre, top. split; [exact E|exact S].
Qed.
Lemma top_splits_cons a sc : top_splits sc -> top_splits (a :: sc).
Proof. intros (pre & top & E & S). exists (a :: pre), top. rewrite E. split; [reflexivity|exact S]. Qed.
Lemma commit_top sub s b x b' : commit_layer o sub p s b [] x = Ok b' -> splits b = anew 0 None -> splits b' = anew 0 None.
Proof.
  destruct x as [u sp]. unfold commit_layer. cbn [fst snd]. intros E1 SP. destruct u as [|e u]; [injection E1 as <-; exact SP|].
  destruct (foreach (e :: u) (tens b) _) as [ts|]; [|discriminate]. cbn [bind] in E1. destruct sp as [|d sp]; [injection E1 as <-; exact SP|].
  set (F := fun (st : arr (option (sdata o)) * list nat) (e0 : nat * Ten) => match mget (d :: sp) (fst e0) with Some d0 => sp0 <- aset (fst st) (fst e0) (Some d0);; Ok (sp0, snd st) | None => Ok (fst st, snd st ++ [fst e0]) end) in E1.
  assert (N : forall l st y, foreach l st F = Ok y -> fst st = anew 0 None -> fst y = anew 0 None).
  { clear. induction l as [|[k w] l IH]; intros st y E P; cbn [foreach] in E; [injection E as <-; exact P|]. unfold F in E at 1. cbn [fst] in E. destruct (mget (d :: sp) k).
    - rewrite P in E. unfold aset in E. cbn in E. discriminate.
    - cbn [bind] in E. apply (IH _ _ E). exact P. }
  destruct (foreach (e :: u) _ F) as [y|] eqn:Y in E1; [|discriminate]. cbn [bind] in E1. apply N in Y; [|exact SP]. destruct (snd y); injection E1 as <-; exact Y.
Qed.
Section Shape.
Context (sub : arr bool) (sc0 : list scale) (HI : forall t X, t_prm t = Some p -> init o t (torus o n X) = Ok (mkTrg n n true false sub sc0 (Some p)))
  (HT : topo o sub (ty n) 0 sc0) (HB : built o n sc0) (HS : no_splits o sc0).
Definition keeps (t : trg o) (X : nat -> nat -> Ten) : Prop := exists sc, t = mkTrg n n true true sub sc (Some p) /\
  Forall2 (same_shape o) sc0 sc /\ coherent o p (ty n) 0 sc (flat X) /\ top_splits sc.
Definition amp (Y : nat -> Ten) : res (Num o) := amplitude_of o (map (top_of o p (ty n) 0 sc0 Y) (seq 0 (top_len o sc0))).
Lemma top_len_shape sc sc' : Forall2 (same_shape o) sc sc' -> top_len o sc = top_len o sc'.
Proof.
  intros F. unfold top_len. assert (G : Forall2 (same_shape o) (rev sc) (rev sc')).
  { clear -F. induction F as [|a b l l' H F IH]; [constructor|]. cbn [rev]. apply Forall2_app; [exact IH|constructor; [exact H|constructor]]. }
  destruct G as [|a b l l' (H & _)]; [reflexivity|exact H].
Qed.
Lemma top_of_shape : forall sc sc' s Y, Forall2 (same_shape o) sc sc' -> top_of o p (ty n) s sc Y = top_of o p (ty n) s sc' Y.
Proof.
  induction sc as [|a sc IH]; intros sc' s Y F; inversion F as [|? a' ? sc1 Ha F1]; subst; [reflexivity|].
  destruct sc as [|b sc]; inversion F1 as [|? b' ? sc2 Hb F2]; subst; [reflexivity|]. cbn [top_of]. rewrite (up_shape o p (ty n) s b b' Y Hb). exact (IH _ (S s) _ F1).
Qed.
Lemma over_nil (Y : nat -> Ten) i : over o Y [] i = Y i.
Proof. reflexivity. Qed.
Lemma final_keeps sc X u Y : Forall2 (same_shape o) sc0 sc -> coherent o p (ty n) 0 sc (flat X) ->
  (forall i, i < top_len o sc0 -> top_of o p (ty n) 0 sc Y i = over o (top_of o p (ty n) 0 sc (flat X)) u i) -> final_amplitude o sc u = amp Y.
Proof.
  intros F C E. rewrite (final_ok o p (ty n) sc 0 (flat X) u C).
  - unfold amp. rewrite <- (top_len_shape sc0 sc F). f_equal. apply map_ext_in. intros i Hi. apply in_range in Hi. rewrite <- (E i Hi). rewrite (top_of_shape sc0 sc 0 Y F). reflexivity.
  - rewrite <- (top_len_shape sc0 sc F). apply (built_final o n). exact HB.
Qed.
Lemma amp_value Y : exists z, amp Y = Ok z.
Proof. unfold amp, amplitude_of. destruct (built_final o n sc0 HB) as [E|[E|E]]; rewrite E; cbn [seq map]; eexists; reflexivity. Qed.
Lemma keeps_trace t X tn : keeps t X -> n_periodic tn = true -> exists z, amp (flat X) = Ok z /\ trace o t tn = Ok (t, z).
Proof.
  intros (sc & -> & F & C & S) P. destruct (amp_value (flat X)) as (z & Z). exists z. split; [exact Z|]. unfold trace. cbn [t_periodic t_prm t_ready t_scales]. rewrite P. cbn [negb].
  rewrite (final_keeps sc X [] (flat X) F C), Z; reflexivity.
Qed.
Lemma shape_len sc : Forall2 (same_shape o) sc0 sc -> exists a l, sc = a :: l /\ alen (tens a) = n * n.
Proof.
  intros F. destruct (built_len o n sc0 HB) as (a & l & E & L). rewrite E in F. inversion F as [|? a' ? l' (H & _) F1]; subst. exists a', l'. split; [reflexivity|]. rewrite <- H. exact L.
Qed.
Lemma scale0_over t sc X reps : t = mkTrg n n true true sub sc (Some p) -> on_lattice o n reps ->
  sorted (scale0_updates o t reps) /\ keys_lt (scale0_updates o t reps) (n * n) /\ forall i, i < n * n -> flat (with_replacements o X reps) i = over o (flat X) (scale0_updates o t reps) i.
Proof.
  intros -> H. unfold scale0_updates, with_replacements. cbn [t_cols].
  assert (G : forall reps u Y, on_lattice o n reps -> sorted u -> keys_lt u (n * n) -> (forall i, i < n * n -> flat Y i = over o (flat X) u i) ->
    let u' := fold_left (fun u e => mset (node_id n (fst (fst e)) (snd (fst e))) (snd e) u) reps u in
    sorted u' /\ keys_lt u' (n * n) /\ forall i, i < n * n -> flat (fold_left (put_ten o) reps Y) i = over o (flat X) u' i).
  { clear reps H. induction reps as [|[[r c] x] reps IH]; intros u Y H S K E; [repeat split; assumption|]. inversion H as [|? ? [H1 H2] H3]; subst. cbn [fold_left fst snd] in *. apply IH; [exact H3|apply mset_sorted; exact S| |].
    - intros k Hk. apply mset_keys in Hk. destruct Hk as [->|Hk]; [apply code_lt; assumption|apply K; exact Hk].
    - intros i Hi. unfold over. rewrite mget_mset. destruct (decode n n i Hi) as (a & b & -> & Ha & Hb). unfold flat in *. specialize (E _ Hi). unfold over in E. unfold put_ten. cbn [fst snd]. rewrite code_div, code_mod in * by assumption.
      unfold node_id. destruct (Nat.eqb_spec (r * n + c) (a * n + b)) as [Q|Q].
      + apply code_inj in Q; [|assumption|assumption]. destruct Q as [-> ->]. rewrite !Nat.eqb_refl. reflexivity.
      + destruct (Nat.eqb_spec a r) as [->|]; [destruct (Nat.eqb_spec b c) as [->|]; [congruence|]|]; cbn [andb]; exact E. }
  apply (G reps []); [exact H|constructor|intros k []|reflexivity].
Qed.
Lemma keeps_trial t X reps : keeps t X -> on_lattice o n reps ->
  exists z tr t', amp (flat (with_replacements o X reps)) = Ok z /\ begin_trial o t reps = Ok tr /\ tr_amp tr = z /\ evaluate_replacement o t reps = Ok z /\
    commit_trial o t tr = Ok t' /\ keeps t' (with_replacements o X reps).
Proof.
  intros (sc & Et & F & C & TS) H. destruct (scale0_over t sc X reps Et H) as (S & K & E). set (X' := with_replacements o X reps) in *. destruct (shape_len sc F) as (a & l & Esc & La).
  pose proof (topo_shape o sub (ty n) sc0 sc 0 F HT) as T.
  destruct (propagate_ok o sub p (ty n) sc 0 (flat X) (flat X') (scale0_updates o t reps) T C S) as (ls & Q & U & last & B1 & B2 & B3).
  { intros a' l' E'. rewrite Esc in E'. injection E' as <- <-. rewrite La. split; assumption. }
  rewrite <- (top_len_shape sc0 sc F) in B3. pose proof (final_keeps sc X (fst last) (flat X') F C B3) as FA.
  destruct (amp_value (flat X')) as (z & Z). rewrite Z in FA.
  destruct (commit_ok o sub p (ty n) sc 0 (flat X) (flat X') ls T C U) as (sc' & CM & C' & F').
  assert (TS' : top_splits sc').
  { clear -CM TS. revert CM TS. generalize 0 as s. revert sc' ls. induction sc as [|b sc IH]; intros sc' ls s CM TS.
    - destruct TS as (pre & top & E & _). destruct pre; discriminate.
    - destruct ls as [|x ls]; [discriminate|]. cbn [commit_layers] in CM. destruct (commit_layer o sub p s b sc x) as [b'|] eqn:E1; [|discriminate]. cbn [bind] in CM.
      destruct (commit_layers o sub p (S s) sc ls) as [sc1|] eqn:E2; [|discriminate]. injection CM as <-. destruct sc as [|c sc].
      + destruct ls; [|discriminate]. injection E2 as <-. destruct TS as (pre & top & E & SP). destruct pre as [|? pre]; [|destruct pre; discriminate]. injection E as <-.
        exists [], b'. split; [reflexivity|]. exact (commit_top sub s b x b' E1 SP).
      + apply top_splits_cons. exact (IH _ _ (S s) E2 (top_splits_tl _ _ _ TS)). }
  assert (FF : Forall2 (same_shape o) sc0 sc').
  { clear -F F'. revert sc' F'. induction F as [|x y l l' H F IH]; intros sc' F'; inversion F' as [|? z ? l2 H' F2]; subst; [constructor|]. constructor; [|apply IH; exact F2].
    destruct H as (A1 & A2 & A3), H' as (B1 & B2 & B3). repeat split; congruence. }
  assert (LL : (length ls =? length sc) = true) by (apply Nat.eqb_eq; exact (updates_length o p (ty n) sc 0 _ _ _ U)).
  assert (CT : forall z', commit_trial o t (mkTrial z' ls) = Ok (mkTrg n n true true sub sc' (Some p))).
  { intros z'. subst t. unfold commit_trial, checked. cbn [t_periodic t_prm t_ready t_scales t_sub t_rows t_cols tr_layers negb]. rewrite LL. cbn [negb]. rewrite CM. reflexivity. }
  assert (KP : keeps (mkTrg n n true true sub sc' (Some p)) X') by (exists sc'; repeat split; assumption).
  exists z, (mkTrial z ls), (mkTrg n n true true sub sc' (Some p)). split; [exact Z|]. split; [|split; [reflexivity|split; [|split; [apply CT|exact KP]]]].
  - unfold begin_trial, checked. subst t. cbn [t_periodic t_prm t_ready t_scales t_sub negb]. destruct (scale0_updates o _ reps) as [|e u] eqn:EU.
    + assert (LS : ls = map (fun _ => ([], [])) sc /\ fst last = []).
      { clear -Q B1 Esc. subst sc. destruct l as [|b l]; cbn in Q; [injection Q as <-; cbn in B1; injection B1 as <-; split; reflexivity|]. injection Q as <-. split; [reflexivity|].
        unfold back in B1. change (rev (([], []) :: ([], []) :: map (fun _ : scale => (@nil (nat * Ten), @nil (nat * sdata o))) l)) with (rev (map (fun _ : scale => (@nil (nat * Ten), @nil (nat * sdata o))) (a :: b :: l))) in B1.
        rewrite <- map_rev in B1. destruct (rev (a :: b :: l)); [discriminate|]. injection B1 as <-. reflexivity. }
      destruct LS as [-> LL2]. rewrite LL2 in FA. rewrite FA. reflexivity.
    + rewrite Q. cbn [bind]. rewrite B1. cbn [bind]. rewrite FA. reflexivity.
  - unfold evaluate_replacement, checked. subst t. cbn [t_periodic t_prm t_ready t_scales t_sub negb]. destruct reps as [|e reps].
    + rewrite (final_keeps sc X [] (flat X) F C) by reflexivity. exact Z.
    + rewrite Q. cbn [bind]. rewrite B1. cbn [bind]. exact FA.
Qed.
Lemma trace_up_top : forall rest s fine sc, trace_up o sub p s fine rest = Ok sc -> top_splits (fine :: rest) -> top_splits sc.
Proof.
  induction rest as [|c rest IH]; intros s fine sc E TS; cbn [trace_up] in E; [injection E as <-; exact TS|].
  destruct (foreach _ _ _) as [ts|] in E; [|discriminate]. cbn [bind] in E. apply top_splits_tl in TS. destruct rest as [|d rest].
  - cbn [bind trace_up] in E. injection E as <-. apply top_splits_cons. destruct TS as (pre & top & Q & SP). destruct pre as [|? pre]; [|destruct pre; discriminate]. injection Q as <-. eexists [], _. split; [reflexivity|exact SP].
  - apply top_splits_tl in TS. destruct (ensure_splits _ _ _ _ _ _ _) as [c2|] in E; [|discriminate]. cbn [bind] in E.
    destruct (trace_up o sub p (S s) c2 (d :: rest)) as [sc1|] eqn:E1; [|discriminate]. cbn [bind] in E. injection E as <-.
    assert (T1 : top_splits sc1) by (apply (IH (S s) c2 sc1 E1); apply top_splits_cons; exact TS). apply top_splits_cons. exact T1.
Qed.
Lemma fresh_keeps X : exists t z, fresh o p (torus o n X) = Ok (t, z) /\ amp (flat X) = Ok z /\ keeps t X.
Proof.
  unfold fresh. rewrite HI by reflexivity. cbn [bind]. unfold trace, torus. cbn [t_periodic n_periodic n_ten t_prm t_ready t_scales t_rows t_cols t_sub negb].
  destruct (built_len o n sc0 HB) as (s0 & rest & E0 & L0). rewrite E0.
  destruct (foreach_inv (fun done ts => alen ts = n * n /\ forall i, In i done -> aval ts i = Some (flat X i))
    (fun ts i => let '(r, c) := coord n i in aset ts i (Some (X r c))) (seq 0 (n * n)) (tens s0)) as (ts & -> & A & B).
  - split; [exact L0|intros i []].
  - intros done i rest' ts E (A & B). unfold coord. assert (Hi : i < n * n) by (apply in_range; rewrite E; apply in_or_app; right; left; reflexivity). rewrite aset_ok by lia. eexists. split; [reflexivity|]. cbn [alen aval].
    split; [exact A|]. intros j Hj. destruct (Nat.eqb_spec j i) as [->|]; [reflexivity|]. apply B. apply in_app_or in Hj. destruct Hj as [Hj|[Hj|[]]]; [exact Hj|congruence].
  - cbn [bind]. set (s1 := mkScale ts (f2c s0) (c2f s0) (splits s0)).
    assert (SH : same_shape o s0 s1) by (repeat split; cbn [tens s1]; congruence). assert (H1 : has_tens o s1 (flat X)) by (intros i Hi; apply B, in_range; cbn [tens s1] in Hi; lia).
    pose proof HT as T. rewrite E0 in T.
    assert (E2 : exists s2, match rest with [] => Ok s1 | c1 :: _ => ensure_splits o sub p 0 s1 c1 (seq 0 (n * n)) end = Ok s2 /\ tens s2 = ts /\ same_shape o s0 s2 /\ (rest = [] -> s2 = s1) /\ (rest <> [] -> has_splits o p (ty n) 0 s2 (flat X))).
    { destruct rest as [|c1 rest]; [exists s1; repeat split; [cbn [tens s1]; congruence|congruence|congruence]|]. destruct T as [LT T]. rewrite <- A.
      destruct (ensure_all o sub p (ty n) 0 s1 c1 (flat X)) as (s2 & Q & Q1 & Q2 & Q3); [exact (layer_shape o sub (ty n) 0 _ _ _ _ SH (same_shape_refl o c1) LT)|exact H1|].
      exists s2. split; [exact Q|]. split; [exact Q1|]. split; [destruct SH as (W1 & W2 & W3), Q2 as (V1 & V2 & V3); repeat split; congruence|]. split; [discriminate|intros _; exact Q3]. }
    destruct E2 as (s2 & -> & T2 & SH2 & Z2 & S2). cbn [bind].
    destruct (trace_up_ok o sub p (ty n) rest 0 s2 (flat X)) as (sc & TU & C & F).
    { apply (topo_shape o sub (ty n) (s0 :: rest)); [constructor; [exact SH2|apply same_shapes_refl]|exact T]. }
    { intros i Hi. rewrite T2 in *. apply H1. exact Hi. }
    { exact S2. }
    rewrite TU. cbn [bind].
    assert (FF : Forall2 (same_shape o) sc0 sc).
    { rewrite E0. inversion F as [|? y ? l' H F1]; subst. constructor; [|exact F1]. destruct H as (A1 & A2 & A3), SH2 as (B1 & B2 & B3). repeat split; congruence. }
    assert (TS : top_splits sc).
    { apply (trace_up_top rest 0 s2 sc TU). pose proof HS as HS'. rewrite E0 in HS'. inversion HS' as [|? ? HS1 HS2]; subst. destruct rest as [|c rest].
      - rewrite (Z2 eq_refl). exists [], s1. split; [reflexivity|exact HS1].
      - destruct (exists_last (l := c :: rest)) as (pre & top & EL); [discriminate|]. exists (s2 :: pre), top. split; [rewrite EL; reflexivity|]. rewrite EL in HS2. apply Forall_app in HS2. destruct HS2 as [_ HS2]. inversion HS2; subst; assumption. }
    destruct (amp_value (flat X)) as (z & Z). rewrite (final_keeps sc X [] (flat X) FF C) by reflexivity. rewrite Z. cbn [bind].
    eexists _, z. split; [reflexivity|]. split; [reflexivity|]. exists sc. repeat split; assumption.
Qed.
Lemma keeps_all moves : forall t X, keeps t X -> Forall (on_lattice o n) moves -> exists t', accept_all o t moves = Ok t' /\ keeps t' (fold_left (with_replacements o) moves X).
Proof.
  induction moves as [|m moves IH]; intros t X K F; [exists t; split; [reflexivity|exact K]|]. inversion F as [|? ? F1 F2]; subst. cbn [accept_all fold_left].
  destruct (keeps_trial t X m K F1) as (z & tr & t' & _ & -> & _ & _ & CT & K'). cbn [bind]. rewrite CT. cbn [bind]. apply IH; assumption.
Qed.
Lemma keeps_same t t' X : keeps t X -> keeps t' X -> same_contractor o t t'.
Proof.
  intros (sc & -> & F & C & TS) (sc' & -> & F' & C' & TS'). do 5 (split; [reflexivity|]). split; [split; [reflexivity|intros; reflexivity]|]. cbn [t_scales].
  assert (FF : Forall2 (same_shape o) sc sc').
  { clear -F F'. revert sc' F'. induction F as [|x y l l' H F IH]; intros sc' F'; inversion F' as [|? z ? l2 H' F2]; subst; [constructor|]. constructor; [|apply IH; exact F2].
    destruct H as (A1 & A2 & A3), H' as (B1 & B2 & B3). repeat split; congruence. }
  destruct (coherent_same o sub p (ty n) sc sc' 0 (flat X) (flat X) (topo_shape o sub (ty n) sc0 sc 0 F HT) FF C C') as [G1 G2]; [reflexivity|].
  clear -TS TS' G1 G2. revert sc' TS TS' G1 G2. induction sc as [|a sc IH]; intros sc' TS TS' G1 G2; inversion G1 as [|? a' ? sc1 (Q1 & Q2 & Q3) G1']; subst; [constructor|].
  destruct sc as [|b sc]; inversion G1' as [|? b' ? sc2 H2 G1'']; subst.
  - constructor; [|constructor]. split; [exact Q1|]. split; [exact Q2|]. split; [exact Q3|]. destruct TS as (pre & top & E & S1). destruct TS' as (pre' & top' & E' & S2).
    destruct pre as [|? pre]; [|destruct pre; discriminate]. destruct pre' as [|? pre']; [|destruct pre'; discriminate]. injection E as <-. injection E' as <-. rewrite S1, S2. split; [reflexivity|intros; reflexivity].
  - change (removelast (a :: b :: sc)) with (a :: removelast (b :: sc)) in G2. change (removelast (a' :: b' :: sc2)) with (a' :: removelast (b' :: sc2)) in G2. inversion G2 as [|? ? ? ? Q4 G2']; subst.
    constructor; [split; [exact Q1|split; [exact Q2|split; [exact Q3|exact Q4]]]|]. apply IH; [exact (top_splits_tl _ _ _ TS)|exact (top_splits_tl _ _ _ TS')|exact G1'|exact G2'].
Qed.
End Shape.
Lemma shape_exists (X0 : nat -> nat -> Ten) : exists sub sc0, (forall t X, t_prm t = Some p -> init o t (torus o n X) = Ok (mkTrg n n true false sub sc0 (Some p))) /\
  topo o sub (ty n) 0 sc0 /\ built o n sc0 /\ no_splits o sc0.
Proof.
  destruct (init_ok o (new_trg o n n p) n X0 Hn) as (sub & a & rest & E & _ & _ & T & B & S). exists sub, (a :: rest). split; [|repeat split; assumption].
  intros t X Et. assert (N : init o t (torus o n X) = init o (new_trg o n n p) (torus o n X0)) by (unfold init, torus; cbn [n_periodic n_rows n_cols]; rewrite Et; reflexivity).
  rewrite N. exact E.
Qed.
(** After any accepted moves everything the contractor returns is what a new contractor returns. *)
Lemma trials_fresh X moves : Forall (on_lattice o n) moves ->
  exists t0 z0 t, fresh o p (torus o n X) = Ok (t0, z0) /\ accept_all o t0 moves = Ok t /\
    (let Y := fold_left (with_replacements o) moves X in
     exists t1 z1, fresh o p (torus o n Y) = Ok (t1, z1) /\ same_contractor o t t1 /\
       (forall tn, n_periodic tn = true -> trace o t tn = Ok (t, z1)) /\
       (forall tn, punch_all_holes o t tn = punch_all_holes o t1 tn) /\
       forall reps, on_lattice o n reps -> exists t2 z2 tr, fresh o p (torus o n (with_replacements o Y reps)) = Ok (t2, z2) /\
         evaluate_replacement o t reps = Ok z2 /\ begin_trial o t reps = Ok tr /\ tr_amp tr = z2).
Proof.
  intros HM. destruct (shape_exists X) as (sub & sc0 & HI & HT & HB & HS).
  destruct (fresh_keeps sub sc0 HI HT HB HS X) as (t0 & z0 & E0 & A0 & K0).
  assert (KA : exists t', accept_all o t0 moves = Ok t' /\ keeps sub sc0 t' (fold_left (with_replacements o) moves X)) by (eapply keeps_all; eassumption). destruct KA as (t & E & K).
  exists t0, z0, t. split; [exact E0|]. split; [exact E|]. cbv zeta. set (Y := fold_left (with_replacements o) moves X) in *.
  destruct (fresh_keeps sub sc0 HI HT HB HS Y) as (t1 & z1 & E1 & A1 & K1). exists t1, z1. split; [exact E1|].
  assert (SC : same_contractor o t t1) by (eapply keeps_same; eassumption). split; [exact SC|]. split; [|split; [intros tn; exact (punch_same o t t1 tn SC)|]].
  - intros tn P. assert (KT : exists z, amp sc0 (flat Y) = Ok z /\ trace o t tn = Ok (t, z)) by (eapply keeps_trace; eassumption). destruct KT as (z & Z & ->). congruence.
  - intros reps HR. assert (KT : exists z tr t', amp sc0 (flat (with_replacements o Y reps)) = Ok z /\ begin_trial o t reps = Ok tr /\ tr_amp tr = z /\ evaluate_replacement o t reps = Ok z /\
      commit_trial o t tr = Ok t' /\ keeps sub sc0 t' (with_replacements o Y reps)) by (eapply keeps_trial; eassumption). destruct KT as (z & tr & t' & Z & B & TA & EV & _).
    destruct (fresh_keeps sub sc0 HI HT HB HS (with_replacements o Y reps)) as (t2 & z2 & E2 & A2 & _). exists t2, z2, tr. assert (EZ : z = z2) by congruence. rewrite <- EZ in *. repeat split; try assumption.
Qed.
End Main.

(** *** The sizes Init accepts *)
Lemma power_of_two n : is_power_of_two n = true <-> exists k, n = 2 ^ k.
Proof.
  split; [|intros (k & ->); apply pow2_power]. unfold is_power_of_two. intros H. apply andb_true_iff in H. destruct H as [H1 H2]. apply Nat.eqb_eq in H2. destruct (Nat.eqb_spec n 0) as [|NZ]; [discriminate|].
  exists (Nat.log2 n). pose proof (Nat.log2_spec n ltac:(lia)) as [L1 L2]. destruct (Nat.eq_dec n (2 ^ Nat.log2 n)) as [E|E]; [exact E|exfalso].
  assert (Q : Nat.log2 (n - 1) = Nat.log2 n) by (apply Nat.log2_unique; lia).
  assert (B : Nat.testbit (Nat.land n (n - 1)) (Nat.log2 n) = true).
  { rewrite Nat.land_spec, (Nat.bit_log2 n NZ). rewrite <- Q at 1. rewrite Nat.bit_log2; [reflexivity|]. intros Z. assert (n = 1) as -> by lia. apply E. reflexivity. }
  rewrite H2, Nat.bits_0 in B. discriminate.
Qed.
Lemma size_ok_iff n : size_ok n = true <-> trg_size n.
Proof.
  split; [|apply size_accepted]. unfold size_ok. intros H. apply orb_true_iff in H. destruct H as [H|H].
  - apply power_of_two in H. destruct H as (k & H). exists k. left. exact H.
  - apply andb_true_iff in H. destruct H as [H1 H2]. apply Nat.eqb_eq in H1. apply power_of_two in H2. destruct H2 as (k & H2). exists k. right. pose proof (Nat.div_mod n 3 ltac:(lia)). lia.
Qed.
Lemma init_cases o (t : trg o) (tn : network o) :
  if n_periodic tn && (n_rows tn =? n_cols tn) && size_ok (n_rows tn) then exists t', init o t tn = Ok t' else init o t tn = Fail Throw.
Proof.
  destruct tn as [rows cols per X]. cbn [n_periodic n_rows n_cols]. destruct per; [|reflexivity]. cbn [andb]. destruct (Nat.eqb_spec rows cols) as [<-|NE].
  - cbn [andb]. destruct (size_ok rows) eqn:S.
    + apply size_ok_iff in S. destruct (init_ok o t rows X S) as (sub & a & rest & E & _). eexists. exact E.
    + unfold init. cbn [n_periodic n_rows n_cols negb]. rewrite Nat.eqb_refl, S. reflexivity.
  - cbn [andb]. unfold init. cbn [n_periodic n_rows n_cols negb]. destruct (Nat.eqb_spec rows cols); [contradiction|reflexivity].
Qed.
Lemma init_accepts o (t : trg o) (tn : network o) :
  (n_periodic tn = true /\ n_rows tn = n_cols tn /\ trg_size (n_rows tn) -> exists t', init o t tn = Ok t') /\
  (~ (n_periodic tn = true /\ n_rows tn = n_cols tn /\ trg_size (n_rows tn)) -> init o t tn = Fail Throw).
Proof.
  pose proof (init_cases o t tn) as H. pose proof (size_ok_iff (n_rows tn)) as S. destruct (n_periodic tn); cbn [andb] in H; [|split; [intros (E & _); discriminate|intros _; exact H]].
  destruct (Nat.eqb_spec (n_rows tn) (n_cols tn)) as [E|E]; cbn [andb] in H; [|split; [intros (_ & Q & _); contradiction|intros _; exact H]].
  destruct (size_ok (n_rows tn)); [split; [intros _; exact H|intros N; exfalso; apply N; split; [reflexivity|split; [exact E|apply S; reflexivity]]]|].
  split; [intros (_ & _ & Q); apply S in Q; discriminate|intros _; exact H].
Qed.

(** *** Numbers in place of tensors *)
(** pieces of a number are its products with the parameter, tensors are sums, amplitudes are sums *)
Definition number_ops : trg_ops := mkTrgOps nat nat unit nat nat (fun p _ x => (p * x, x, tt)) (fun a b c d => a + b + c + d) (fun a b c d => a + b + c + d)
  (fun x => x) (fun v => v 0 + v 1 + v 2 + v 3) (fun v => list_sum (map v (seq 0 9))) (fun v i => v i) (fun v i => v i) (fun k h a b c d => h) (fun k h a b c d => h)
  (fun _ _ x => x) (fun _ _ x => x) (fun a b => a + b) (fun k a => a / k).
Definition of_res {A} (d : A) (r : res A) : A := match r with Ok a => a | Fail _ => d end.
(** after ClearCache a trace reads layers that are no longer there, whatever the network *)
Lemma clear_then_trace o (t : trg o) tn p : t_periodic t = true -> t_prm t = Some p -> n_periodic tn = true -> trace o (clear_cache o t) tn = Fail UB.
Proof. intros H1 H2 H3. unfold trace, clear_cache. cbn [t_periodic t_prm t_ready t_scales]. rewrite H1, H2, H3. reflexivity. Qed.
Ltac unbind H := repeat match type of H with
  | bind ?r ?k = Ok _ => let x := fresh "x" in let E := fresh "E" in destruct r as [x|] eqn:E; [cbn [bind] in H|discriminate H]
  end.
Lemma clear_cache_refuted : exists (o : trg_ops) (p : Prm o) n X t z, trg_size n /\ fresh o p (torus o n X) = Ok (t, z) /\ trace o (clear_cache o t) (torus o n X) = Fail UB.
Proof.
  exists number_ops, 1, 2, (fun _ _ => 1). eexists _, _. split; [exists 1; left; reflexivity|]. split; [vm_compute; reflexivity|]. eapply clear_then_trace; reflexivity.
Qed.
(** a trial prepared before another move was accepted *)
Definition ones (_ _ : nat) : nat := 1.
Lemma stale_trial_refuted : exists (o : trg_ops) (p : Prm o) n X m1 m2 t z tr1 tr2 t1 t2 t3 z2 zf tf,
  trg_size n /\ on_lattice o n m1 /\ on_lattice o n m2 /\ fresh o p (torus o n X) = Ok (t, z) /\ begin_trial o t m1 = Ok tr1 /\ begin_trial o t m2 = Ok tr2 /\
  commit_trial o t tr1 = Ok t1 /\ commit_trial o t1 tr2 = Ok t2 /\ trace o t2 (torus o n X) = Ok (t3, z2) /\
  fresh o p (torus o n (with_replacements o (with_replacements o X m1) m2)) = Ok (tf, zf) /\ z2 <> zf.
Proof.
  pose (o := number_ops). pose (m1 := [(0, 0, 5)] : list (nat * nat * Ten o)). pose (m2 := [(0, 1, 7)] : list (nat * nat * Ten o)). pose (X := ones : nat -> nat -> Ten o).
  assert (H : exists a b, a <> b /\ (x <- fresh o (1 : Prm o) (torus o 4 X);; tr1 <- begin_trial o (fst x) m1;; tr2 <- begin_trial o (fst x) m2;; t1 <- commit_trial o (fst x) tr1;; t2 <- commit_trial o t1 tr2;;
    y <- trace o t2 (torus o 4 X);; f <- fresh o (1 : Prm o) (torus o 4 (with_replacements o (with_replacements o X m1) m2));; Ok (snd y, snd f)) = Ok (a, b)).
  { eexists _, _. split; [|vm_compute; reflexivity]. discriminate. }
  destruct H as (a & b & NE & H). unbind H. injection H as H1 H2.
  match type of H1 with snd ?y = _ => destruct y as [t3 z2] end. match type of H2 with snd ?f = _ => destruct f as [tf zf] end. destruct x as [t z]. cbn [fst snd] in *. subst z2 zf.
  exists o, (1 : Prm o), 4, X, m1, m2, t, z. do 8 eexists. split; [exists 2; left; reflexivity|]. split; [constructor; [cbn; lia|constructor]|]. split; [constructor; [cbn; lia|constructor]|].
  repeat (split; [eassumption|]). exact NE.
Qed.
(** other truncation parameters between two calls: the caches mix both *)
Lemma params_refuted : exists (o : trg_ops) (p p' : Prm o) n X m t z z1 zf tf zg tg,
  trg_size n /\ on_lattice o n m /\ fresh o p (torus o n X) = Ok (t, z) /\ evaluate_replacement o (set_params o t p') m = Ok z1 /\
  fresh o p (torus o n (with_replacements o X m)) = Ok (tf, zf) /\ fresh o p' (torus o n (with_replacements o X m)) = Ok (tg, zg) /\ z1 <> zf /\ z1 <> zg.
Proof.
  pose (o := number_ops). pose (m := [(0, 0, 5)] : list (nat * nat * Ten o)). pose (X := ones : nat -> nat -> Ten o).
  assert (H : exists a b c, a <> b /\ a <> c /\ (x <- fresh o (1 : Prm o) (torus o 4 X);; e <- evaluate_replacement o (set_params o (fst x) (2 : Prm o)) m;;
    f <- fresh o (1 : Prm o) (torus o 4 (with_replacements o X m));; g <- fresh o (2 : Prm o) (torus o 4 (with_replacements o X m));; Ok (e, snd f, snd g)) = Ok (a, b, c)).
  { eexists _, _, _. split; [|split; [|vm_compute; reflexivity]]; discriminate. }
  destruct H as (a & b & c & N1 & N2 & H). unbind H. injection H as H0 H1 H2.
  match type of H1 with snd ?y = _ => destruct y as [tf zf] end. match type of H2 with snd ?f = _ => destruct f as [tg zg] end. destruct x as [t z]. cbn [fst snd] in *. subst x0 zf zg.
  exists o, (1 : Prm o), (2 : Prm o), 4, X, m, t, z. do 5 eexists. split; [exists 2; left; reflexivity|]. split; [constructor; [cbn; lia|constructor]|].
  repeat (split; [eassumption|]). exact N2.
Qed.
(** one site *)
Lemma one_site_holes : exists (o : trg_ops) (p : Prm o) X t z, fresh o p (torus o 1 X) = Ok (t, z) /\ punch_all_holes o t (torus o 1 X) = Fail Throw.
Proof. exists number_ops, 1, ones. eexists _, _. split; vm_compute; reflexivity. Qed.
