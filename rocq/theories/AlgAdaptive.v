(** AdaGrad and Adam compute their closed forms. *)
From Coq Require Import List Arith Bool Reals Lia Lra.
From Verif Require Import Base Cplx Rsum OptModel OptProofs MsgModel TpsModel TpsSpec TpsProofs TpsMain AlgModel AlgSpec AlgProofs.
Import ListNotations.
Local Open Scope R_scope.
Arguments sumC : simpl never. Arguments rsum : simpl never. Arguments Cmul : simpl never. Arguments Cadd : simpl never.
Arguments Copp : simpl never. Arguments Cconj : simpl never.

Notation place := (nat * nat * nat * nat)%type.
(** States given by their entries. *)
Definition cells (L : layout) (e : place -> C) (r c i : nat) : ten := Some (map (fun k => e (r, c, i, k)) (seq 0 (l_len L r c i))).
Definition vtab (L : layout) (bc : bool) (e : place -> C) : state := tab L bc (cells L e).
Lemma cells_fit L e : fits L (cells L e).
Proof. intros r c i I. simpl. rewrite map_length, seq_length. reflexivity. Qed.
Lemma vtab_ext L bc e e' : (forall q, In q (places L) -> e q = e' q) -> vtab L bc e = vtab L bc e'.
Proof.
  intros H. apply tab_ext. intros r c i I. unfold cells. f_equal. apply map_ext_in. intros k Hk. apply in_seq in Hk. apply H, places_in. split; [exact I|lia].
Qed.
Lemma nth_tabulate {X} (f : nat -> X) n k d : (k < n)%nat -> nth k (map f (seq 0 n)) d = f k.
Proof. intros H. rewrite (nth_indep _ d (f 0%nat)) by (rewrite map_length, seq_length; exact H). rewrite map_nth, seq_nth by exact H. reflexivity. Qed.
Lemma full_vtab L v : full L v -> v = vtab L (p_bc v) (at_place v).
Proof.
  intros [S F]. destruct (shaped_tab L v S) as (f & E & Hf). rewrite E at 1. apply tab_ext. intros r c i I. unfold cells.
  destruct (F r c i I) as (l & El). assert (Ef : f r c i = Some l) by (rewrite E, comp_tab in El by exact I; congruence).
  specialize (Hf r c i I). rewrite Ef in *. f_equal. apply (nth_ext _ _ (RtoC 0) (RtoC 0)); [rewrite map_length, seq_length; exact Hf|].
  intros k Hk. rewrite Hf in Hk. unfold at_place, entry. rewrite El.
  rewrite nth_tabulate by exact Hk. reflexivity.
Qed.
Section V.
Context (L : layout) (PR : (0 < l_rows L)%nat) (PC : (0 < l_cols L)%nat).
Lemma vtab_at bc e q : In q (places L) -> at_place (vtab L bc e) q = e q.
Proof.
  destruct q as [[[r c] i] k]. intros H. apply places_in in H as (I & Hk). unfold vtab. rewrite at_place_tab by exact I. unfold cells, ent.
  rewrite nth_tabulate by exact Hk. reflexivity.
Qed.
Lemma vtab_full bc e : full L (vtab L bc e).
Proof.
  split; [apply tab_shaped; auto; apply cells_fit|]. intros r c i I. unfold vtab. rewrite comp_tab by exact I. eexists. reflexivity.
Qed.
Lemma zip_map {X Y Z W} (h : X -> Y -> Z) (f : W -> X) (g : W -> Y) l : zip_with h (map f l) (map g l) = map (fun k => h (f k) (g k)) l.
Proof. induction l as [|k l IH]; [reflexivity|]. simpl. now rewrite IH. Qed.
Lemma v_map h bc e : apply_unary (map h) (vtab L bc e) = Ok (vtab L false (fun q => h (e q))).
Proof.
  unfold vtab. rewrite unary_tab by assumption. f_equal. apply tab_ext. intros r c i I. unfold cells. simpl. rewrite map_map. reflexivity.
Qed.
Lemma v_add ba bb e e' : add (vtab L ba e) (vtab L bb e') = Ok (vtab L false (fun q => e q + e' q)%C).
Proof.
  unfold vtab. rewrite add_tab by (auto; apply cells_fit). f_equal. apply tab_ext. intros r c i I. unfold cells, plus_o. rewrite zip_map. reflexivity.
Qed.
Lemma v_add_to ba bb e e' : add_to (vtab L ba e) (vtab L bb e') = Ok (vtab L ba (fun q => e q + e' q)%C).
Proof.
  unfold vtab. rewrite add_to_tab by (auto; apply cells_fit). f_equal. apply tab_ext. intros r c i I. unfold cells, plus_o. rewrite zip_map. reflexivity.
Qed.
Lemma v_scale x bc e : scale x (vtab L bc e) = Ok (vtab L false (fun q => x * e q)%C).
Proof. unfold scale. rewrite v_map. f_equal. apply vtab_ext. intros; ring. Qed.
Lemma v_scale_by x bc e : scale_by x (vtab L bc e) = Ok (vtab L bc (fun q => x * e q)%C).
Proof.
  unfold vtab. rewrite scale_by_tab by assumption. f_equal. apply tab_ext. intros r c i I. unfold cells. simpl. rewrite map_map. f_equal.
  apply map_ext. intros; ring.
Qed.
Lemma v_decay wd lr bc e : decay_by wd lr (vtab L bc e) = Ok (vtab L bc (fun q => RtoC (1 - lr * Rmax 0 wd) * e q)%C).
Proof.
  unfold decay_by, rlt. destruct (Rlt_dec 0 wd) as [H|H].
  - rewrite v_scale_by, Rmax_right by lra. reflexivity.
  - rewrite Rmax_left by lra. f_equal. apply vtab_ext. intros. rewrite Rmult_0_r, Rminus_0_r. ring.
Qed.
Lemma v_filled x bc e : filled_like x (vtab L bc e) = Ok (vtab L false (fun _ => RtoC x)).
Proof.
  unfold filled_like, vtab. rewrite phys_tab by assumption. cbn [bind].
  rewrite (map_res_ok _ (fun rc => map (fun i => cells L (fun _ => RtoC x) (fst rc) (snd rc) i) (seq 0 (l_dim L)))); [reflexivity|].
  intros [r c] H. apply sites_in in H. cbn [fst snd p_rows p_cols tab] in *. apply map_res_ok. intros i Hi. apply in_seq in Hi.
  rewrite comp_tab by (unfold inside; lia). cbn [bind]. unfold cells. rewrite map_map. reflexivity.
Qed.
Lemma v_step b0 b1 b2 b3 e0 e1 e2 e3 lr :
  adaptive_step (vtab L b0 e0) (vtab L b1 e1) (vtab L b2 e2) (vtab L b3 e3) lr = Ok (vtab L b1 (fun q => e1 q - RtoC lr * (e2 q * e3 q))%C).
Proof.
  unfold adaptive_step. cbn [p_rows p_cols p_bc vtab tab].
  rewrite (map_res_ok _ (fun rc => map (fun i => cells L (fun q => e1 q - RtoC lr * (e2 q * e3 q))%C (fst rc) (snd rc) i) (seq 0 (l_dim L)))); [reflexivity|].
  intros [r c] H. apply sites_in in H. cbn [fst snd] in *. unfold vtab. rewrite !site_tab by lia. cbn [bind].
  rewrite (map_res_ok _ (fun i => cells L (fun q => e1 q - RtoC lr * (e2 q * e3 q))%C r c i)).
  - cbn [bind]. rewrite !map_length, seq_length. rewrite skipn_all2 by (rewrite map_length, seq_length; lia). rewrite app_nil_r. reflexivity.
  - intros i Hi. rewrite map_length, seq_length in Hi. apply in_seq in Hi. rewrite !comp_tab by (unfold inside; lia). cbn [bind].
    rewrite idx_map_seq by lia. cbn [bind]. unfold cells, step_ten, zip_ten. rewrite !map_length, !seq_length, Nat.eqb_refl. cbn [bind].
    rewrite zip_map, map_map, !map_length, !seq_length, Nat.eqb_refl. cbn [bind]. rewrite zip_map. f_equal. f_equal. apply map_ext. intros k. ring.
Qed.
End V.

Section Adaptive.
Variable inv : R -> C -> C.
Lemma adagrad_step L p acc bw bg ba x y z lr : (0 < l_rows L)%nat -> (0 < l_cols L)%nat ->
  match acc with Some a => a = vtab L ba z | None => forall q, z q = RtoC (ada_init p) end ->
  adagrad_update inv true p acc (vtab L bw x) (vtab L bg y) lr =
    Ok (vtab L bw (fun q => x q - RtoC lr * (inv (ada_eps p) (Csqrt (z q + square (y q))) * y q))%C,
        Some (vtab L (match acc with Some _ => ba | None => false end) (fun q => z q + square (y q))%C)).
Proof.
  intros PR PC Ha. unfold adagrad_update. cbn [negb].
  assert (E : match acc with Some a => Ok a | None => filled_like (ada_init p) (vtab L bg y) end = Ok (vtab L (match acc with Some _ => ba | None => false end) z)).
  { destruct acc as [a|]; [now rewrite Ha|]. rewrite v_filled by assumption. f_equal. apply vtab_ext. intros q _. now rewrite Ha. }
  rewrite E. cbn [bind]. unfold elem_sq_norm. rewrite v_map by assumption. cbn [bind]. rewrite v_add_to by assumption. cbn [bind].
  unfold elem_sqrt, elem_inverse. rewrite v_map by assumption. cbn [bind]. rewrite v_map by assumption. cbn [bind]. rewrite v_step by assumption. reflexivity.
Qed.
Lemma adam_step L p acc bw bg bm bv t x y m v lr : (0 < l_rows L)%nat -> (0 < l_cols L)%nat ->
  match acc with Some a => a = mkAS (vtab L bm m) (vtab L bv v) t | None => t = 0%nat /\ forall q, m q = RtoC 0 /\ v q = RtoC 0 end ->
  let m1 := (fun q => RtoC (b1 p) * m q + RtoC (1 - b1 p) * y q)%C in
  let v1 := (fun q => RtoC (b2 p) * v q + RtoC (1 - b2 p) * square (y q))%C in
  adam_update inv true p acc (vtab L bw x) (vtab L bg y) lr =
    Ok (vtab L bw (fun q => RtoC (1 - lr * Rmax 0 (adam_decay p)) * x q
                     - RtoC lr * (inv (adam_eps p) (Csqrt (RtoC (1 / (1 - b2 p ^ S t)) * v1 q)) * (RtoC (1 / (1 - b1 p ^ S t)) * m1 q)))%C,
        Some (mkAS (vtab L false m1) (vtab L false v1) (S t))).
Proof.
  intros PR PC Ha m1 v1. unfold adam_update. cbn [negb].
  assert (E : exists bm' bv', match acc with Some a => Ok a | None => m0 <- filled_like 0 (vtab L bg y);; v0 <- filled_like 0 (vtab L bg y);; Ok (mkAS m0 v0 0) end
            = Ok (mkAS (vtab L bm' m) (vtab L bv' v) t)).
  { destruct acc as [a|]; [exists bm, bv; now rewrite Ha|]. destruct Ha as (-> & Hz). exists false, false. rewrite v_filled by assumption. cbn [bind].
    do 2 f_equal; apply vtab_ext; intros q _; symmetry; apply Hz. }
  destruct E as (bm' & bv' & ->). cbn [bind am av at_step].
  unfold elem_sq_norm, elem_sqrt, elem_inverse.
  repeat (first [rewrite v_decay by assumption | rewrite v_scale by assumption | rewrite v_add by assumption | rewrite v_map by assumption]; cbn [bind]).
  rewrite v_step by assumption. reflexivity.
Qed.

Lemma adagrad_closed L p l w0 : full L w0 -> (forall s, In s l -> full L (snd s)) ->
  exists w acc, updates (adagrad_update inv true p) l None w0 = Ok (w, acc) /\ p_bc w = p_bc w0 /\ full L w /\
    is_vector L w (fun q => after_steps 0 (map fst l)
      (map (fun j => inv (ada_eps p) (Csqrt (RtoC (ada_init p) + sumC square (firstn (S j) (gradient_at l q)))) * nth j (gradient_at l q) (RtoC 0))%C (seq 0 (length l)))
      (at_place w0 q)) /\
    match acc with
    | Some a => full L a /\ is_vector L a (fun q => RtoC (ada_init p) + sumC square (gradient_at l q))%C
    | None => l = []
    end.
Proof.
  intros W. destruct (shaped_pos L w0 (proj1 W)) as (PR & PC).
  induction l as [|(lr, g) l IH] using rev_ind; intros H.
  - exists w0, None. split; [reflexivity|]. split; [reflexivity|]. split; [exact W|]. split; [|reflexivity]. split; [apply W|]. intros q _.
    unfold after_steps, kept. cbn. rewrite sumC_nil. ring.
  - destruct IH as (w & acc & E & B & Fw & V & Ha); [intros; apply H, in_or_app; left; assumption|].
    assert (G : full L g) by (apply (H (lr, g)), in_or_app; right; left; reflexivity).
    pose proof (full_vtab L w Fw) as Ew. pose proof (full_vtab L g G) as Eg.
    set (z := fun q => (RtoC (ada_init p) + sumC square (gradient_at l q))%C).
    assert (Hz : exists ba, match acc with Some a => a = vtab L ba z | None => forall q, z q = RtoC (ada_init p) end).
    { destruct acc as [a|].
      - exists (p_bc a). rewrite (full_vtab L a (proj1 Ha)) at 1. apply vtab_ext. apply (proj2 Ha).
      - exists false. subst l. intros q. unfold z. cbn. rewrite sumC_nil. ring. }
    destruct Hz as (ba & Hz).
    pose proof (adagrad_step L p acc (p_bc w) (p_bc g) ba (at_place w) (at_place g) z lr PR PC Hz) as St. rewrite <- Ew, <- Eg in St.
    eexists. eexists. split.
    { rewrite updates_app, E. cbn [bind fst snd updates]. rewrite St. cbn [bind fst snd]. reflexivity. }
    split; [exact B|]. split; [apply vtab_full; assumption|]. split.
    + split; [apply vtab_full; assumption|]. intros q Hq. rewrite vtab_at by assumption. rewrite (proj2 V q Hq).
      rewrite map_app. cbn [map fst]. rewrite app_length. cbn [length]. rewrite Nat.add_1_r, seq_S, map_app. cbn [map Nat.add].
      match goal with |- context [map ?f (seq 0 (length l)) ++ _] =>
        rewrite (map_seq_ext f (fun j => inv (ada_eps p) (Csqrt (RtoC (ada_init p) + sumC square (firstn (S j) (gradient_at l q)))) * nth j (gradient_at l q) (RtoC 0))%C) end.
      2:{ intros j Hj. rewrite gradient_at_snoc, firstn_app. replace (S j - length (gradient_at l q))%nat with 0%nat by (rewrite gradient_at_length; lia).
          cbn [firstn]. rewrite app_nil_r, app_nth1 by (rewrite gradient_at_length; lia). reflexivity. }
      rewrite after_snoc by (rewrite !map_length, seq_length; reflexivity). rewrite Rmult_0_r, Rminus_0_r.
      rewrite gradient_at_snoc. rewrite firstn_all2 by (rewrite app_length, gradient_at_length; simpl; lia).
      rewrite app_nth2 by (rewrite gradient_at_length; lia). rewrite gradient_at_length, Nat.sub_diag. cbn [nth snd].
      rewrite sumC_app, sumC_cons, sumC_nil. unfold z.
      replace (RtoC (ada_init p) + (sumC square (gradient_at l q) + (square (at_place g q) + 0)))%C
        with (RtoC (ada_init p) + sumC square (gradient_at l q) + square (at_place g q))%C by ring. ring.
    + split; [apply vtab_full; assumption|]. split; [apply vtab_full; assumption|]. intros q Hq. rewrite vtab_at by assumption. unfold z.
      rewrite gradient_at_snoc, sumC_app, sumC_cons, sumC_nil. cbn [snd]. ring.
Qed.

Lemma geometric_prefix be gs g j : (j < length gs)%nat -> geometric be (firstn (S j) (gs ++ [g])) = geometric be (firstn (S j) gs).
Proof. intros H. rewrite firstn_app. replace (S j - length gs)%nat with 0%nat by lia. cbn [firstn]. now rewrite app_nil_r. Qed.
Lemma adam_closed L p l w0 : full L w0 -> (forall s, In s l -> full L (snd s)) ->
  exists w acc, updates (adam_update inv true p) l None w0 = Ok (w, acc) /\ p_bc w = p_bc w0 /\ full L w /\
    is_vector L w (fun q => after_steps (Rmax 0 (adam_decay p)) (map fst l)
      (map (fun j => inv (adam_eps p) (Csqrt (average_of (b2 p) (map square (gradient_at l q)) j)) * average_of (b1 p) (gradient_at l q) j)%C (seq 0 (length l)))
      (at_place w0 q)) /\
    match acc with
    | Some a => at_step a = length l /\ full L (am a) /\ full L (av a) /\
                is_vector L (am a) (fun q => RtoC (1 - b1 p) * geometric (b1 p) (gradient_at l q))%C /\
                is_vector L (av a) (fun q => RtoC (1 - b2 p) * geometric (b2 p) (map square (gradient_at l q)))%C
    | None => l = []
    end.
Proof.
  intros W. destruct (shaped_pos L w0 (proj1 W)) as (PR & PC).
  induction l as [|(lr, g) l IH] using rev_ind; intros H.
  - exists w0, None. split; [reflexivity|]. split; [reflexivity|]. split; [exact W|]. split; [|reflexivity]. split; [apply W|]. intros q _.
    unfold after_steps, kept. cbn. rewrite sumC_nil. ring.
  - destruct IH as (w & acc & E & B & Fw & V & Ha); [intros; apply H, in_or_app; left; assumption|].
    assert (G : full L g) by (apply (H (lr, g)), in_or_app; right; left; reflexivity).
    pose proof (full_vtab L w Fw) as Ew. pose proof (full_vtab L g G) as Eg.
    set (m := fun q => (RtoC (1 - b1 p) * geometric (b1 p) (gradient_at l q))%C).
    set (v := fun q => (RtoC (1 - b2 p) * geometric (b2 p) (map square (gradient_at l q)))%C).
    assert (Hz : exists bm bv, match acc with Some a => a = mkAS (vtab L bm m) (vtab L bv v) (length l) | None => length l = 0%nat /\ forall q, m q = RtoC 0 /\ v q = RtoC 0 end).
    { destruct acc as [a|].
      - destruct a as [a1 a2 k]. cbn [am av at_step] in Ha. destruct Ha as (Hk & F1 & F2 & V1 & V2). exists (p_bc a1), (p_bc a2).
        rewrite (full_vtab L a1 F1) at 1. rewrite (full_vtab L a2 F2) at 1. f_equal; [apply vtab_ext, V1|apply vtab_ext, V2|exact Hk].
      - exists false, false. subst l. split; [reflexivity|]. intros q. unfold m, v, geometric. cbn. rewrite !sumC_nil. split; ring. }
    destruct Hz as (bm & bv & Hz).
    pose proof (adam_step L p acc (p_bc w) (p_bc g) bm bv (length l) (at_place w) (at_place g) m v lr PR PC Hz) as St. cbv zeta in St. rewrite <- Ew, <- Eg in St.
    eexists. eexists. split.
    { rewrite updates_app, E. cbn [bind fst snd updates]. rewrite St. cbn [bind fst snd]. reflexivity. }
    split; [exact B|]. split; [apply vtab_full; assumption|].
    assert (EM : forall q, (RtoC (b1 p) * m q + RtoC (1 - b1 p) * at_place g q)%C = (RtoC (1 - b1 p) * geometric (b1 p) (gradient_at (l ++ [(lr, g)]) q))%C).
    { intros q. rewrite gradient_at_snoc, geometric_snoc. unfold m. cbn [snd]. ring. }
    assert (EV : forall q, (RtoC (b2 p) * v q + RtoC (1 - b2 p) * square (at_place g q))%C = (RtoC (1 - b2 p) * geometric (b2 p) (map square (gradient_at (l ++ [(lr, g)]) q)))%C).
    { intros q. rewrite gradient_at_snoc, map_app. cbn [map]. rewrite geometric_snoc. unfold v. cbn [snd]. ring. }
    split.
    + split; [apply vtab_full; assumption|]. intros q Hq. rewrite vtab_at by assumption. rewrite (proj2 V q Hq), EM, EV.
      rewrite map_app. cbn [map fst]. rewrite app_length. cbn [length]. rewrite Nat.add_1_r, seq_S, map_app. cbn [map Nat.add].
      match goal with |- context [map ?f (seq 0 (length l)) ++ _] =>
        rewrite (map_seq_ext f (fun j => inv (adam_eps p) (Csqrt (average_of (b2 p) (map square (gradient_at l q)) j)) * average_of (b1 p) (gradient_at l q) j)%C) end.
      2:{ intros j Hj. unfold average_of. rewrite gradient_at_snoc, map_app. cbn [map]. rewrite !geometric_prefix by (rewrite ?map_length, gradient_at_length; exact Hj). reflexivity. }
      rewrite after_snoc by (rewrite !map_length, seq_length; reflexivity). f_equal. f_equal. f_equal.
      * f_equal. f_equal. unfold average_of. rewrite firstn_all2 by (rewrite map_length, gradient_at_length, app_length; simpl; lia).
        unfold Rdiv. rewrite !RtoC_mul. ring.
      * unfold average_of. rewrite firstn_all2 by (rewrite gradient_at_length, app_length; simpl; lia). unfold Rdiv. rewrite !RtoC_mul. ring.
    + cbn [at_step am av]. split; [rewrite app_length; simpl; lia|]. split; [apply vtab_full; assumption|]. split; [apply vtab_full; assumption|].
      split; (split; [apply vtab_full; assumption|]); intros q Hq; rewrite vtab_at by assumption; [apply EM|apply EV].
Qed.
End Adaptive.

(** The weights of the bias-corrected average are non-negative and add up to one. *)
Lemma weights_one be n : 0 <= be < 1 -> (0 < n)%nat -> rsum (fun i => (1 - be) / (1 - be ^ n) * be ^ (n - 1 - i)) (seq 0 n) = 1.
Proof.
  intros Hb Hn. rewrite rsum_scal.
  assert (S : forall n, (1 - be) * rsum (fun i => be ^ (n - 1 - i)) (seq 0 n) = 1 - be ^ n).
  { clear. induction n as [|n IH]; [cbn; rewrite rsum_nil; ring|]. rewrite seq_S, rsum_app, rsum_cons, rsum_nil. cbn [Nat.add].
    replace (S n - 1 - n)%nat with 0%nat by lia.
    rewrite (rsum_ext _ (fun i => be * be ^ (n - 1 - i))).
    2:{ intros i Hi. apply in_seq in Hi. replace (S n - 1 - i)%nat with (S (n - 1 - i)) by lia. reflexivity. }
    rewrite rsum_scal. cbn [pow]. rewrite Rplus_0_r, Rmult_plus_distr_l. replace ((1 - be) * (be * rsum (fun i => be ^ (n - 1 - i)) (seq 0 n))) with (be * ((1 - be) * rsum (fun i => be ^ (n - 1 - i)) (seq 0 n))) by ring.
    rewrite IH. ring. }
  assert (P : be ^ n < 1).
  { destruct n as [|n]; [lia|]. clear - Hb. induction n as [|n IH]; [simpl; lra|]. change (be ^ S (S n)) with (be * be ^ S n).
    assert (0 <= be ^ S n) by (apply pow_le; lra). nra. }
  unfold Rdiv. rewrite Rmult_assoc, (Rmult_comm (/ _)), <- Rmult_assoc, S. field. lra.
Qed.
Lemma weights_nonneg be n i : 0 <= be < 1 -> (0 < n)%nat -> 0 <= (1 - be) / (1 - be ^ n) * be ^ (n - 1 - i).
Proof.
  intros Hb Hn. apply Rmult_le_pos; [|apply pow_le; lra]. apply Rmult_le_pos; [lra|]. left. apply Rinv_0_lt_compat.
  assert (be ^ n < 1); [|lra]. destruct n as [|n]; [lia|]. clear - Hb. induction n as [|n IH]; [simpl; lra|]. change (be ^ S (S n)) with (be * be ^ S n).
  assert (0 <= be ^ S n) by (apply pow_le; lra). nra.
Qed.
Lemma average_weights be xs j : (j < length xs)%nat ->
  average_of be xs j = sumC (fun i => RtoC ((1 - be) / (1 - be ^ S j) * be ^ (S j - 1 - i)) * nth i xs (RtoC 0))%C (seq 0 (S j)).
Proof.
  intros H. unfold average_of, geometric. rewrite firstn_length_le by lia. rewrite <- sumC_scal. apply sumC_ext. intros i Hi. apply in_seq in Hi.
  rewrite (RtoC_mul ((1 - be) / _)). replace (nth i (firstn (S j) xs) (RtoC 0)) with (nth i xs (RtoC 0)); [ring|].
  rewrite <- (firstn_skipn (S j) xs) at 1. rewrite app_nth1 by (rewrite firstn_length_le; lia). reflexivity.
Qed.
(** Square roots of sums of squares are real. *)
Lemma Csqrt_real x : 0 <= x -> Csqrt (RtoC x) = RtoC (sqrt x).
Proof.
  intros H. unfold Csqrt, RtoC. unfold Cnorm2. cbn [fst snd].
  replace (x * x + 0 * 0) with (x * x) by ring. rewrite sqrt_square by exact H.
  destruct (Rlt_dec 0 0); [lra|]. replace ((x + x) / 2) with x by field. replace ((x - x) / 2) with 0 by field. rewrite sqrt_0. reflexivity.
Qed.
Lemma adagrad_monotone (x0 : R) gs gs' : exists d, 0 <= d /\
  (RtoC x0 + sumC square (gs ++ gs'))%C = (RtoC x0 + sumC square gs + RtoC d)%C.
Proof.
  exists (rsum Cnorm2 gs'). split; [apply rsum_nonneg; intros; apply Cnorm2_nonneg|]. rewrite sumC_app.
  replace (RtoC (rsum Cnorm2 gs')) with (sumC square gs'); [ring|]. induction gs' as [|g gs' IH]; [reflexivity|]. rewrite sumC_cons, rsum_cons, RtoC_add, IH. reflexivity.
Qed.
