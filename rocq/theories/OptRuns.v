(** Runs of the optimiser: trajectories, minimum, statistics, stopping, rollback, checkpoints, termination, rates. *)
From Coq Require Import List Arith Bool Reals Lra Lia.
From Verif Require Import Base OptModel OptSpec OptProofs OptMain.
Import ListNotations.
Local Open Scope R_scope.

Section Traces.
Context {W : Type}.
Notation obs := (obs (W:=W)).
Lemma spikes_app (a b : list obs) : spikes (a ++ b) = spikes a ++ spikes b. Proof. apply flat_map_app. Qed.
Lemma spikes_map ws : spikes (map (Spike (W:=W)) ws) = ws. Proof. induction ws; simpl; congruence. Qed.
Lemma spikes_quiet (l : list obs) : Forall quiet l -> spikes l = [].
Proof. induction 1 as [|o l Q _ IH]; [reflexivity|]. destruct o; simpl in *; try contradiction; exact IH. Qed.
Lemma spikes_pass (t : list obs) w e err gn ws l : spikes ((t ++ Eval w e err gn :: map Spike ws) ++ l) = spikes t ++ ws ++ spikes l.
Proof. rewrite <- app_assoc, spikes_app. f_equal. cbn [app]. change (spikes (map (Spike (W:=W)) ws ++ l) = ws ++ spikes l). rewrite spikes_app, spikes_map. reflexivity. Qed.
Lemma count_app a l m : count_action a (l ++ m) = (count_action a l + count_action a m)%nat.
Proof. unfold count_action. rewrite filter_app, app_length. reflexivity. Qed.
Lemma count_warn a ws : Forall (fun v => v_action v = AcceptWithWarning) ws -> count_action a ws = match a with AcceptWithWarning => length ws | _ => 0%nat end.
Proof.
  induction 1 as [|v ws V _ IH]; [destruct a; reflexivity|]. unfold count_action in *. simpl. rewrite V. destruct a; simpl; rewrite IH; reflexivity.
Qed.
Definition lowest (w0 : W) (acc : list (W * R * R * R)) : W * R :=
  fold_left (fun b x => if rlt (ev_energy x) (snd b) then (ev_state x, ev_energy x) else b) acc (w0, dbl_max).
Lemma lowest_snoc w0 acc x : lowest w0 (acc ++ [x]) = if rlt (ev_energy x) (snd (lowest w0 acc)) then (ev_state x, ev_energy x) else lowest w0 acc.
Proof. unfold lowest. rewrite fold_left_app. reflexivity. Qed.
Lemma lowest_spec w0 acc : (forall x, In x acc -> ev_energy x < dbl_max) -> acc <> [] ->
  exists i x, nth_error acc i = Some x /\ lowest w0 acc = (ev_state x, ev_energy x) /\
    (forall j y, nth_error acc j = Some y -> ev_energy x <= ev_energy y) /\ (forall j y, (j < i)%nat -> nth_error acc j = Some y -> ev_energy x < ev_energy y).
Proof.
  induction acc as [|z acc IH] using rev_ind; [congruence|]. intros B _. rewrite lowest_snoc. destruct acc as [|y0 acc'] eqn:E.
  - exists 0%nat, z. cbn. assert (Q : rlt (ev_energy z) dbl_max = true) by (apply rlt_true; apply B; left; reflexivity). rewrite Q. split; [reflexivity|]. split; [reflexivity|]. split.
    + intros [|j] y Hy; simpl in Hy; [injection Hy as <-; lra|destruct j; discriminate].
    + intros j y Hj. lia.
  - rewrite <- E in *. destruct IH as (i & x & N & L & Mn & Fi); [intros x Hx; apply B; apply in_or_app; left; exact Hx|rewrite E; discriminate|].
    assert (Il : (i < length acc)%nat) by (apply nth_error_Some; congruence). rewrite L. cbn [snd]. destruct (rlt_spec (ev_energy z) (ev_energy x)) as [Lt|Ge].
    + exists (length acc), z. split; [rewrite nth_error_app2, Nat.sub_diag by lia; reflexivity|]. split; [reflexivity|]. split.
      * intros j y Hy. destruct (Nat.lt_ge_cases j (length acc)) as [Hj|Hj]; [rewrite nth_error_app1 in Hy by exact Hj; specialize (Mn j y Hy); lra|].
        rewrite nth_error_app2 in Hy by exact Hj. destruct (j - length acc)%nat as [|k]; simpl in Hy; [injection Hy as <-; lra|destruct k; discriminate].
      * intros j y Hj Hy. rewrite nth_error_app1 in Hy by exact Hj. specialize (Mn j y Hy). lra.
    + exists i, x. split; [rewrite nth_error_app1 by exact Il; exact N|]. split; [reflexivity|]. split.
      * intros j y Hy. destruct (Nat.lt_ge_cases j (length acc)) as [Hj|Hj]; [rewrite nth_error_app1 in Hy by exact Hj; exact (Mn j y Hy)|].
        rewrite nth_error_app2 in Hy by exact Hj. destruct (j - length acc)%nat as [|k]; simpl in Hy; [injection Hy as <-; lra|destruct k; discriminate].
      * intros j y Hj Hy. rewrite nth_error_app1 in Hy by lia. exact (Fi j y Hj Hy).
Qed.
End Traces.
Lemma stalled_snoc es e : stalled (es ++ [e]) = if rlt e (fst (fold_left (fun lk e => if rlt e (fst lk) then (e, 0%nat) else (fst lk, S (snd lk))) es (dbl_max, 0%nat))) then 0%nat else S (stalled es).
Proof. unfold stalled. rewrite fold_left_app. cbn [fold_left]. destruct (rlt e _); reflexivity. Qed.
Lemma stalled_low {W} (w0 : W) acc : fst (fold_left (fun lk e => if rlt e (fst lk) then (e, 0%nat) else (fst lk, S (snd lk))) (map ev_energy acc) (dbl_max, 0%nat)) = snd (lowest w0 acc).
Proof.
  induction acc as [|x acc IH] using rev_ind; [reflexivity|]. rewrite lowest_snoc, map_app, fold_left_app. cbn [fold_left map]. rewrite IH. destruct (rlt (ev_energy x) _); reflexivity.
Qed.
Lemma last_snoc' {X} (l : list X) x d : last (l ++ [x]) d = x. Proof. apply last_last. Qed.
Lemma nth_last (l : list R) d : l <> [] -> nth (length l - 1) l 0 = last l d.
Proof.
  intros H. destruct (exists_last H) as (l' & x & ->). rewrite last_last, app_length. simpl. replace (length l' + 1 - 1)%nat with (length l') by lia. rewrite app_nth2, Nat.sub_diag by lia. reflexivity.
Qed.

Section Loop.
Context {W G A P Sc : Type}.
Variable p : params.
Variable alg : algorithm (W:=W) (G:=G) (A:=A) (P:=P).
Variable eval : nat -> W -> R * G * R.
Variable trial : nat -> W -> R * R.
Variable gnorm : G -> R.
Variable scheduled : bool.
Variable rate : Sc -> nat -> R -> R * Sc.
Variable user_stop : nat -> R -> R -> bool.
Notation st := (st (W:=W) (A:=A) (Sc:=Sc)).
Notation pass := (pass p alg eval trial gnorm rate user_stop).
Notation run := (run p alg eval trial gnorm rate user_stop).
Notation optimize := (optimize p alg eval trial gnorm scheduled rate user_stop).
Notation accept := (accept p alg user_stop).
Notation obs := (obs (W:=W)).
Variable fresh : A.
Variable sc : Sc.
Variable w0 : W.
Notation begin := (start p alg (new_members fresh sc) w0).
Notation E := (map ev_energy). Notation Gn := (map ev_gnorm).

Lemma optimize_run fuel o : optimize fuel (new_members fresh sc) w0 = Ok o -> run fuel begin = Ok o.
Proof. unfold OptModel.optimize. destruct (checks _ _ _); [auto|discriminate]. Qed.

Definition Inv1 (s : st) : Prop := let acc := accepted (s_obs s) in
  (s_energies s = E acc /\ s_errors s = map ev_error acc /\ s_gnorms s = Gn acc /\ length (s_rates s) = length acc /\ s_total s = length acc /\ s_last s = last (E acc) dbl_max) /\
  (if s_done s then S (s_iter s) = length acc else s_iter s = length acc /\ (acc <> [] -> s_prevE s = last (E acc) 0)) /\
  s_stall s = stalled (E acc) /\ (s_low s, s_lowE s) = lowest w0 acc /\ (length acc <= p_max_iter p)%nat /\
  (s_log s = spikes (s_obs s) /\ s_nres s = count_action Resample (s_log s) /\ s_nroll s = count_action Rollback (s_log s) /\ s_nforced s = count_action AcceptWithWarning (s_log s)).
Lemma Inv1_begin : Inv1 begin.
Proof. unfold Inv1. cbn. repeat split; try reflexivity; try lia. intros H; congruence. Qed.
Lemma Inv1_pass s s' : Inv1 s -> s_done s = false -> (s_iter s < p_max_iter p)%nat -> pass s = Ok s' -> Inv1 s'.
Proof.
  intros (I1 & I2 & I3 & I4 & I5 & I6) D Lm Ep. rewrite D in I2. destruct I1 as (I11 & I12 & I13 & I14 & I15 & I16). destruct I6 as (I61 & I62 & I63 & I64).
  destruct (pass_cases _ _ _ _ _ _ _ _ _ Ep) as (e & g & err & t & ws & Ev & Co & Ob & Lg & Nr & Nb & Nf & Fw & F4 & _ & [(sig & act & v & th & Dg & Da & -> & Ac & Ro)|(next & eff & ng & k & a & d & a' & iters & more & lr & -> & St & _ & Ac & Ro)]).
  - destruct (recover_fields alg act sig v th t Da) as (R1 & R2 & R3 & R4 & R5 & R6 & R7 & R8 & R9 & R10 & R11 & R12 & R13 & R14 & ev & Ea & Es & Eo & El & Ef & Ec). set (s' := recover alg act (log sig act v th t)) in *. clearbody s'.
    unfold Inv1. cbv zeta. rewrite Ac. rewrite R2, R3, R4, R5, R6, R7, R8, R9, R10, R11, R12, R1.
    rewrite (core_energies _ _ Co), (core_rates _ _ Co), (core_errors _ _ Co), (core_gnorms _ _ Co), (core_total _ _ Co), (core_last _ _ Co), (core_lowE _ _ Co), (core_low _ _ Co), (core_stall _ _ Co), (core_prevE _ _ Co), (core_done _ _ Co), (core_iter _ _ Co), D.
    split; [repeat split; assumption|]. split; [exact I2|]. split; [exact I3|]. split; [exact I4|]. split; [exact I5|].
    rewrite El, Eo, Ob, Lg, spikes_pass, I61, <- app_assoc. split; [reflexivity|]. rewrite !count_app, !(count_warn _ ws Fw), <- !I61, <- I62, <- I63, <- I64.
    assert (Ce : forall b, count_action b [ev] = match act, b with Resample, Resample | Rollback, Rollback | AcceptWithWarning, AcceptWithWarning | Accept, Accept => 1 | _, _ => 0 end%nat).
    { intros b. unfold count_action. cbn [filter]. rewrite Ea. destruct act, b; reflexivity. }
    rewrite !Ce. destruct Ec as [(-> & _ & _ & _ & Er & Eb)|(-> & _ & _ & _ & Er & Eb)]; rewrite Er, Eb, Ef, Nr, Nb, Nf; repeat split; lia.
  - pose proof (accept_fields p alg user_stop e g err (gnorm g) eff ng next t) as F. pose proof (accept_flow p alg user_stop e g err (gnorm g) eff ng next t) as Fl. pose proof (accept_obs p alg user_stop e g err (gnorm g) eff ng next t) as Fo. cbv zeta in F, Fl.
    set (s' := accept e g err (gnorm g) eff ng next t) in *. clearbody s'.
    destruct F as (F1 & F2 & F3 & F4' & F5 & F6 & F7 & F8 & F9 & F10 & F11 & F12 & F13 & F14).
    assert (Cl : (s_low t, s_lowE t) = lowest w0 (accepted (s_obs s))) by (rewrite (core_low _ _ Co), (core_lowE _ _ Co); exact I4).
    assert (ClE : s_lowE t = snd (lowest w0 (accepted (s_obs s)))) by (rewrite <- Cl; reflexivity).
    unfold Inv1. cbv zeta. rewrite Ac. rewrite !map_app, !app_length. cbn [map length ev_energy ev_error ev_gnorm fst snd]. rewrite last_last.
    split; [rewrite F1, F2, F3, F4', F5, F6, app_length; rewrite (core_energies _ _ Co), (core_rates _ _ Co), (core_errors _ _ Co), (core_gnorms _ _ Co), (core_iter _ _ Co); rewrite I11, I12, I13, I14; cbn [length]; repeat split; lia|].
    assert (It : s_iter t = s_iter s) by exact (core_iter _ _ Co). destruct I2 as [I2 I2'].
    split; [|split; [|split; [|split]]].
    + destruct (stops p e (gnorm g) t) eqn:Sp; [destruct Fl as (G1 & _ & G3 & _); rewrite G1, G3, It; lia|].
      destruct Fl as (G1 & _ & _ & _ & Fl). rewrite last_last. destruct (user_stop (s_iter t) e err); [destruct Fl as (G2 & G3 & _); rewrite G2, G3, It; lia|].
      destruct Fl as (G2 & G3 & _). rewrite G2, (core_done _ _ Co), D, G3, G1, It. split; [lia|auto].
    + rewrite F9. unfold stall', new_low. rewrite stalled_snoc, (stalled_low w0), <- ClE, (core_stall _ _ Co), I3. reflexivity.
    + rewrite F7, F8. unfold new_low. rewrite lowest_snoc, <- ClE, <- Cl. cbn [ev_energy ev_state fst snd]. rewrite (core_cur _ _ Co). destruct (rlt e (s_lowE t)); reflexivity.
    + lia.
    + rewrite F10, F11, F12, F13, Fo, Ob, Lg, Nr, Nb, Nf, spikes_pass, (spikes_quiet (tail_obs _ _ _ _ _ _ _)) by apply tail_quiet. rewrite app_nil_r, I61. split; [reflexivity|]. rewrite !count_app, !(count_warn _ ws Fw), <- !I61. rewrite <- I62, <- I63, <- I64. repeat split; lia.
Qed.
Theorem Inv1_run fuel o : run fuel begin = Ok o -> match o with Finished s => Inv1 s /\ (s_done s = true \/ (p_max_iter p <= s_iter s)%nat) | Running s => Inv1 s end.
Proof. intros E. exact (run_induct p alg eval trial gnorm rate user_stop Inv1 Inv1_pass fuel begin o Inv1_begin E). Qed.

(** C31 *)
Theorem trajectories fuel s : optimize fuel (new_members fresh sc) w0 = Ok (Finished s) ->
  let acc := accepted (s_obs s) in
  s_energies s = E acc /\ s_errors s = map ev_error acc /\ s_gnorms s = Gn acc /\ length (s_rates s) = length acc /\ s_total s = length acc /\
  (length acc <= p_max_iter p)%nat /\ s_last s = last (E acc) dbl_max /\ (s_done s = false -> length acc = p_max_iter p).
Proof.
  intros Eo. apply optimize_run in Eo. destruct (Inv1_run _ _ Eo) as [(I1 & I2 & _ & _ & I5 & _) T]. destruct I1 as (A1 & A2 & A3 & A4 & A5 & A6). cbv zeta. repeat split; try assumption.
  intros D. rewrite D in I2, T. destruct T as [T|T]; [discriminate|]. destruct I2 as [I2 _]. lia.
Qed.
(** C32 *)
Theorem minimum fuel s : optimize fuel (new_members fresh sc) w0 = Ok (Finished s) -> accepted (s_obs s) <> [] -> (forall x, In x (accepted (s_obs s)) -> ev_energy x < dbl_max) ->
  exists i x, nth_error (accepted (s_obs s)) i = Some x /\ s_low s = ev_state x /\ s_lowE s = ev_energy x /\
    (forall j y, nth_error (accepted (s_obs s)) j = Some y -> ev_energy x <= ev_energy y) /\
    (forall j y, (j < i)%nat -> nth_error (accepted (s_obs s)) j = Some y -> ev_energy x < ev_energy y).
Proof.
  intros Eo N B. apply optimize_run in Eo. destruct (Inv1_run _ _ Eo) as [(_ & _ & _ & I4 & _) _]. destruct (lowest_spec w0 _ B N) as (i & x & H1 & H2 & H3 & H4). exists i, x. rewrite H2 in I4. injection I4 as -> ->. auto.
Qed.
(** C34 *)
Theorem statistics fuel s : optimize fuel (new_members fresh sc) w0 = Ok (Finished s) ->
  s_log s = spikes (s_obs s) /\ s_nres s = count_action Resample (s_log s) /\ s_nroll s = count_action Rollback (s_log s) /\ s_nforced s = count_action AcceptWithWarning (s_log s) /\
  (s_nres s + s_nroll s + s_nforced s = length (s_log s))%nat.
Proof.
  intros Eo. apply optimize_run in Eo.
  assert (K : forall u u', Inv1 u /\ Forall (fun v => v_action v <> Accept) (s_log u) -> s_done u = false -> (s_iter u < p_max_iter p)%nat -> pass u = Ok u' -> Inv1 u' /\ Forall (fun v => v_action v <> Accept) (s_log u')).
  {
    intros u u' [Iu Fu] D Lm Ep. split; [exact (Inv1_pass u u' Iu D Lm Ep)|].
    destruct (pass_cases _ _ _ _ _ _ _ _ _ Ep) as (e & g & err & t & ws & Ev & Co & Ob & Lg & Nr & Nb & Nf & Fw & F4 & _ & [(sig & act & v & th & Dg & Da & -> & Ac & Ro)|(next & eff & ng & k & a & d & a' & iters & more & lr & -> & St & _ & Ac & Ro)]).
    - destruct (recover_fields alg act sig v th t Da) as (_ & _ & _ & _ & _ & _ & _ & _ & _ & _ & _ & _ & _ & _ & ev & Ea & _ & _ & El & _). rewrite El, Lg. repeat (apply Forall_app; split); [exact Fu| |constructor; [|constructor]].
      + revert Fw. apply Forall_impl. intros x ->. discriminate.
      + rewrite Ea. destruct act; discriminate.
    - pose proof (accept_fields p alg user_stop e g err (gnorm g) eff ng next t) as F. cbv zeta in F. destruct F as (_ & _ & _ & _ & _ & _ & _ & _ & _ & F10 & _). rewrite F10, Lg. apply Forall_app. split; [exact Fu|]. revert Fw. apply Forall_impl. intros x ->. discriminate. }
  destruct (run_induct p alg eval trial gnorm rate user_stop _ K fuel begin _ (conj Inv1_begin (Forall_nil _)) Eo) as [[(_ & _ & _ & _ & _ & I61 & I62 & I63 & I64) Fa] _]. repeat split; try assumption. rewrite I62, I63, I64. clear - Fa. induction (s_log s) as [|v l IH]; [reflexivity|]. inversion Fa as [|? ? Fv Fl]; subst. specialize (IH Fl).
  unfold count_action in *. cbn [filter]. destruct (v_action v); try contradiction; cbn [length]; lia.
Qed.
End Loop.
