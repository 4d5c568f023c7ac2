(** First-order updates compute their closed forms. *)
From Coq Require Import List Arith Bool Reals Lia Lra.
From Verif Require Import Base Cplx Rsum OptModel OptProofs MsgModel TpsModel TpsSpec TpsProofs TpsMain AlgModel AlgSpec.
Import ListNotations.
Local Open Scope R_scope.
Arguments sumC : simpl never. Arguments rsum : simpl never. Arguments Cmul : simpl never. Arguments Cadd : simpl never.
Arguments Copp : simpl never. Arguments Cconj : simpl never.

(** *** Vectors *)
Section Vec.
Context (L : layout).
Implicit Types (f g : nat * nat * nat * nat -> C).
Lemma vec_shaped v f : is_vector L v f -> shaped L v.
Proof. intros H; apply H. Qed.
Lemma vec_ext v f g : is_vector L v f -> (forall q, In q (places L) -> f q = g q) -> is_vector L v g.
Proof. intros [S H] E. split; [exact S|]. intros q Hq. rewrite H by exact Hq. apply E, Hq. Qed.
Lemma shaped_vec v : shaped L v -> is_vector L v (at_place v).
Proof. intros S. split; auto. Qed.
Lemma vec_add a b f g : is_vector L a f -> is_vector L b g -> exists s, add a b = Ok s /\ is_vector L s (fun q => f q + g q)%C.
Proof.
  intros A B. destruct (elementwise L a b (RtoC 0) (proj1 A) (proj1 B)) as (s & m & n & d & s' & m' & d' & E & _ & _ & _ & _ & _ & _ & V & _).
  exists s. split; [exact E|]. eapply vec_ext; [exact V|]. intros q Hq. cbn beta. now rewrite (proj2 A q Hq), (proj2 B q Hq).
Qed.
Lemma vec_add_to a b f g : is_vector L a f -> is_vector L b g -> exists s, add_to a b = Ok s /\ is_vector L s (fun q => f q + g q)%C /\ p_bc s = p_bc a.
Proof.
  intros A B. destruct (elementwise L a b (RtoC 0) (proj1 A) (proj1 B)) as (s & m & n & d & s' & m' & d' & E1 & E2 & E3 & E4 & E & E6 & E7 & _ & V & _).
  exists s'. split; [exact E|]. split.
  - eapply vec_ext; [exact V|]. intros q Hq. cbn beta. now rewrite (proj2 A q Hq), (proj2 B q Hq).
  - apply (bc_of_results a b (RtoC 0) s m n d s' m' d'); assumption.
Qed.
Lemma vec_scale x a f : is_vector L a f -> exists s, scale x a = Ok s /\ is_vector L s (fun q => x * f q)%C.
Proof.
  intros A. destruct (elementwise L a a x (proj1 A) (proj1 A)) as (s & m & n & d & s' & m' & d' & _ & E & _ & _ & _ & _ & _ & _ & _ & V & _).
  exists m. split; [exact E|]. eapply vec_ext; [exact V|]. intros q Hq. cbn beta. now rewrite (proj2 A q Hq).
Qed.
Lemma vec_scale_by x a f : is_vector L a f -> exists s, scale_by x a = Ok s /\ is_vector L s (fun q => x * f q)%C /\ p_bc s = p_bc a.
Proof.
  intros A. destruct (elementwise L a a x (proj1 A) (proj1 A)) as (s & m & n & d & s' & m' & d' & E1 & E2 & E3 & E4 & E5 & E & E7 & _ & _ & _ & V & _).
  exists m'. split; [exact E|]. split.
  - eapply vec_ext; [exact V|]. intros q Hq. cbn beta. now rewrite (proj2 A q Hq).
  - apply (bc_of_results a a x s m n d s' m' d'); assumption.
Qed.
Lemma vec_blank (g : state) f : is_vector L g f -> exists b, blank_like g = Ok b /\ is_vector L b (fun _ => RtoC 0).
Proof.
  intros [S _]. destruct (shaped_tab L g S) as (h & E & F), (shaped_pos L g S) as (PR & PC). rewrite E.
  unfold blank_like. rewrite phys_tab by assumption. cbn [bind p_rows p_cols tab]. rewrite blank_tab.
  eexists. split; [reflexivity|]. apply vector_of; auto. intros r c i I. exact Logic.I.
Qed.
Lemma vec_decay wd lr a f : is_vector L a f -> exists u, decay_by wd lr a = Ok u /\ is_vector L u (fun q => RtoC (1 - lr * Rmax 0 wd) * f q)%C /\ p_bc u = p_bc a.
Proof.
  intros A. unfold decay_by. destruct (rlt 0 wd) eqn:E.
  - apply rlt_true in E. rewrite Rmax_right by lra. apply vec_scale_by, A.
  - apply rlt_false in E. rewrite Rmax_left by lra. exists a. split; [reflexivity|]. split; [|reflexivity]. eapply vec_ext; [exact A|].
    intros q _. rewrite Rmult_0_r, Rminus_0_r. ring.
Qed.
End Vec.

(** *** SGD *)
Lemma sgd_step L p vel cur g lr x y z : is_vector L cur x -> is_vector L g y ->
  match vel with Some v => is_vector L v z | None => forall q, z q = RtoC 0 end ->
  exists u v, sgd_update true p vel cur g lr = Ok (u, Some v) /\ p_bc u = p_bc cur /\
    is_vector L v (fun q => if Rlt_dec 0 (d_momentum p) then (RtoC (d_momentum p) * z q + y q)%C else z q) /\
    is_vector L u (fun q => RtoC (1 - lr * Rmax 0 (d_decay p)) * x q
      - RtoC lr * (let mu := Rmax 0 (d_momentum p) in let v := RtoC mu * z q + y q in if d_nesterov p then RtoC mu * v + y q else v))%C.
Proof.
  intros X Y Z. unfold sgd_update. cbn [negb].
  assert (Hv : exists v0, match vel with Some v => Ok v | None => blank_like g end = Ok v0 /\ is_vector L v0 z).
  { destruct vel as [v|]; [exists v; split; [reflexivity|exact Z]|]. destruct (vec_blank L g y Y) as (b & E & B). exists b. split; [exact E|].
    eapply vec_ext; [exact B|]. intros q _. symmetry. apply Z. }
  destruct Hv as (v0 & -> & V0). cbn [bind].
  destruct (vec_decay L (d_decay p) lr cur x X) as (u & -> & U & Ub). cbn [bind].
  unfold rlt. destruct (Rlt_dec 0 (d_momentum p)) as [Hm|Hm].
  - destruct (vec_scale L (RtoC (d_momentum p)) v0 z V0) as (mv & -> & MV). cbn [bind].
    destruct (vec_add L mv g _ _ MV Y) as (v1 & -> & V1). cbn [bind]. rewrite (Rmax_right 0 (d_momentum p)) by lra.
    destruct (d_nesterov p).
    + destruct (vec_scale L (RtoC (d_momentum p)) v1 _ V1) as (mv1 & -> & MV1). cbn [bind].
      destruct (vec_add L mv1 g _ _ MV1 Y) as (n & -> & N). cbn [bind].
      destruct (vec_scale L (RtoC (- lr)) n _ N) as (s & -> & S). cbn [bind].
      destruct (vec_add_to L u s _ _ U S) as (u' & -> & U' & Ub'). cbn [bind].
      exists u', v1. split; [reflexivity|]. split; [congruence|]. split; [exact V1|]. eapply vec_ext; [exact U'|]. intros q _. cbn beta.
      rewrite RtoC_opp. ring.
    + destruct (vec_scale L (RtoC (- lr)) v1 _ V1) as (s & -> & S). cbn [bind].
      destruct (vec_add_to L u s _ _ U S) as (u' & -> & U' & Ub'). cbn [bind].
      exists u', v1. split; [reflexivity|]. split; [congruence|]. split; [exact V1|]. eapply vec_ext; [exact U'|]. intros q _. cbn beta.
      rewrite RtoC_opp. ring.
  - destruct (vec_scale L (RtoC (- lr)) g _ Y) as (s & -> & S). cbn [bind].
    destruct (vec_add_to L u s _ _ U S) as (u' & -> & U' & Ub'). cbn [bind]. rewrite (Rmax_left 0 (d_momentum p)) by lra.
    exists u', v0. split; [reflexivity|]. split; [congruence|]. split; [exact V0|]. eapply vec_ext; [exact U'|]. intros q _. cbn beta zeta.
    rewrite RtoC_opp. destruct (d_nesterov p); ring.
Qed.

Lemma updates_app {A} up (l l' : list (R * state)) (acc : option A) w :
  updates up (l ++ l') acc w = (wa <- updates up l acc w;; updates up l' (snd wa) (fst wa)).
Proof.
  revert acc w. induction l as [|(lr, g) l IH]; intros acc w; [reflexivity|]. cbn [app updates]. destruct (up acc w g lr) as [wa|]; [|reflexivity].
  cbn [bind]. apply IH.
Qed.
Lemma geometric_snoc mu gs g : geometric mu (gs ++ [g]) = (RtoC mu * geometric mu gs + g)%C.
Proof.
  unfold geometric. rewrite app_length. cbn [length]. rewrite Nat.add_1_r, seq_S, sumC_app, sumC_cons, sumC_nil. cbn [Nat.add].
  rewrite app_nth2, Nat.sub_diag by lia. cbn [nth]. replace (S (length gs) - 1 - length gs)%nat with 0%nat by lia. cbn [pow].
  rewrite <- sumC_scal. f_equal; [|ring]. apply sumC_ext. intros i Hi. apply in_seq in Hi.
  rewrite app_nth1 by lia. replace (S (length gs) - 1 - i)%nat with (S (length gs - 1 - i)) by lia. cbn [pow]. rewrite RtoC_mul. ring.
Qed.
Lemma kept_snoc lam rates r a : (a <= length rates)%nat -> kept lam (rates ++ [r]) a = kept lam rates a * (1 - r * lam).
Proof.
  intros H. unfold kept. rewrite skipn_app. replace (a - length rates)%nat with 0%nat by lia. cbn [skipn].
  rewrite map_app. cbn [map]. generalize (map (fun r0 => 1 - r0 * lam) (skipn a rates)). intros l. induction l as [|y l IH]; cbn [app fold_right]; [ring|].
  rewrite IH. ring.
Qed.
Lemma after_snoc lam rates dirs r d x0 : length dirs = length rates ->
  after_steps lam (rates ++ [r]) (dirs ++ [d]) x0 = (RtoC (1 - r * lam) * after_steps lam rates dirs x0 - RtoC r * d)%C.
Proof.
  intros E. unfold after_steps. rewrite app_length. cbn [length]. rewrite Nat.add_1_r, seq_S, sumC_app, sumC_cons, sumC_nil. cbn [Nat.add].
  rewrite kept_snoc by lia.
  rewrite (app_nth2 rates), Nat.sub_diag by lia. rewrite (app_nth2 dirs) by lia. rewrite E, Nat.sub_diag. cbn [nth].
  replace (kept lam (rates ++ [r]) (S (length rates))) with 1.
  2:{ unfold kept. rewrite skipn_all2 by (rewrite app_length; simpl; lia). reflexivity. }
  transitivity (RtoC (kept lam rates 0) * RtoC (1 - r * lam) * x0
    - (RtoC (1 - r * lam) * sumC (fun j => RtoC (nth j rates 0%R * kept lam rates (S j)) * nth j dirs (RtoC 0)) (seq 0 (length rates)) + RtoC r * d))%C.
  2: ring.
  rewrite <- sumC_scal, RtoC_mul, Rmult_1_r. f_equal. f_equal; [|ring]. apply sumC_ext. intros j Hj. apply in_seq in Hj.
  rewrite !app_nth1 by lia. rewrite kept_snoc by lia. rewrite !RtoC_mul. ring.
Qed.
Lemma sgd_direction_prefix mu n gs g j : (j < length gs)%nat -> sgd_direction mu n (gs ++ [g]) j = sgd_direction mu n gs j.
Proof.
  intros H. unfold sgd_direction. rewrite firstn_app. replace (S j - length gs)%nat with 0%nat by lia. cbn [firstn]. rewrite app_nil_r, app_nth1 by lia.
  reflexivity.
Qed.
Lemma gradient_at_snoc l s q : gradient_at (l ++ [s]) q = gradient_at l q ++ [at_place (snd s) q].
Proof. unfold gradient_at. rewrite map_app. reflexivity. Qed.
Lemma gradient_at_length l q : length (gradient_at l q) = length l.
Proof. apply map_length. Qed.
Lemma map_seq_ext {X} (f g : nat -> X) n : (forall j, (j < n)%nat -> f j = g j) -> map f (seq 0 n) = map g (seq 0 n).
Proof. intros H. apply map_ext_in. intros j Hj. apply in_seq in Hj. apply H. lia. Qed.

Lemma sgd_closed L p l w0 : shaped L w0 -> (forall s, In s l -> shaped L (snd s)) ->
  exists w vel, updates (sgd_update true p) l None w0 = Ok (w, vel) /\ p_bc w = p_bc w0 /\
    is_vector L w (fun q => after_steps (Rmax 0 (d_decay p)) (map fst l)
      (map (sgd_direction (Rmax 0 (d_momentum p)) (d_nesterov p) (gradient_at l q)) (seq 0 (length l))) (at_place w0 q)) /\
    match vel with
    | Some v => is_vector L v (fun q => if Rlt_dec 0 (d_momentum p) then geometric (d_momentum p) (gradient_at l q) else RtoC 0)
    | None => l = []
    end.
Proof.
  intros W. induction l as [|(lr, g) l IH] using rev_ind; intros H.
  - exists w0, None. split; [reflexivity|]. split; [reflexivity|]. split; [|reflexivity]. split; [exact W|]. intros q _.
    unfold after_steps, kept. cbn. rewrite sumC_nil. ring.
  - destruct IH as (w & vel & E & B & V & Hv); [intros; apply H, in_or_app; left; assumption|].
    assert (G : is_vector L g (at_place g)) by (apply shaped_vec, (H (lr, g)), in_or_app; right; left; reflexivity).
    destruct (sgd_step L p vel w g lr _ (at_place g)
       (fun q => if Rlt_dec 0 (d_momentum p) then geometric (d_momentum p) (gradient_at l q) else RtoC 0) V G) as (u & v & Eu & Bu & Vv & Vu).
    { destruct vel as [v|]; [exact Hv|]. subst l. intros q. destruct (Rlt_dec 0 (d_momentum p)); reflexivity. }
    exists u, (Some v). split.
    { rewrite updates_app, E. cbn [bind fst snd updates]. rewrite Eu. reflexivity. }
    split; [congruence|]. split.
    + eapply vec_ext; [exact Vu|]. intros q _. cbn beta zeta.
      rewrite map_app. cbn [map fst]. rewrite app_length. cbn [length]. rewrite Nat.add_1_r, seq_S, map_app. cbn [map Nat.add].
      rewrite (map_seq_ext (sgd_direction (Rmax 0 (d_momentum p)) (d_nesterov p) (gradient_at (l ++ [(lr, g)]) q)) (sgd_direction (Rmax 0 (d_momentum p)) (d_nesterov p) (gradient_at l q))).
      2:{ intros j Hj. rewrite gradient_at_snoc. apply sgd_direction_prefix. rewrite gradient_at_length. exact Hj. }
      rewrite after_snoc by (rewrite !map_length, seq_length; reflexivity). f_equal. f_equal. f_equal.
      unfold sgd_direction. rewrite gradient_at_snoc.
      rewrite firstn_all2 by (rewrite app_length, gradient_at_length; simpl; lia). rewrite geometric_snoc.
      rewrite app_nth2 by (rewrite gradient_at_length; lia). rewrite gradient_at_length, Nat.sub_diag. cbn [nth snd].
      destruct (Rlt_dec 0 (d_momentum p)) as [Hm|Hm].
      * rewrite (Rmax_right 0 (d_momentum p)) by lra. reflexivity.
      * rewrite (Rmax_left 0 (d_momentum p)) by lra. destruct (d_nesterov p); ring.
    + eapply vec_ext; [exact Vv|]. intros q _. cbn beta. rewrite gradient_at_snoc, geometric_snoc. destruct (Rlt_dec 0 (d_momentum p)); reflexivity.
Qed.
Lemma sgd_preview_is_update master p vel cur g lr : (exists w v, sgd_update master p vel cur g lr = Ok (w, v)) ->
  sgd_preview master p vel cur g lr = (wv <- sgd_update master p vel cur g lr;; Ok (fst wv)).
Proof.
  intros (w & v & E). rewrite E. cbn [bind fst]. revert E. unfold sgd_update, sgd_preview. destruct (negb master).
  { intros E. injection E as -> _. reflexivity. }
  destruct (match vel with Some v0 => Ok v0 | None => blank_like g end) as [v0|]; [|discriminate]. cbn [bind].
  destruct (decay_by (d_decay p) lr cur) as [u|]; [|discriminate]. cbn [bind]. destruct (rlt 0 (d_momentum p)).
  - destruct (scale (RtoC (d_momentum p)) v0) as [mv|]; [|discriminate]. cbn [bind]. destruct (add mv g) as [v1|]; [|discriminate]. cbn [bind].
    destruct (d_nesterov p).
    + destruct (scale (RtoC (d_momentum p)) v1) as [mv1|]; [|discriminate]. cbn [bind]. destruct (add mv1 g) as [n|]; [|discriminate]. cbn [bind].
      destruct (scale (RtoC (- lr)) n) as [s|]; [|discriminate]. cbn [bind]. destruct (add_to u s) as [u'|]; [|discriminate]. cbn [bind].
      intros E. injection E as -> _. reflexivity.
    + destruct (scale (RtoC (- lr)) v1) as [s|]; [|discriminate]. cbn [bind]. destruct (add_to u s) as [u'|]; [|discriminate]. cbn [bind].
      intros E. injection E as -> _. reflexivity.
  - destruct (scale (RtoC (- lr)) g) as [s|]; [|discriminate]. cbn [bind]. destruct (add_to u s) as [u'|]; [|discriminate]. cbn [bind].
    intros E. injection E as -> _. reflexivity.
Qed.
