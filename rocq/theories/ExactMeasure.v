(** The exact-summation measurer returns weighted means on any number of ranks. *)
From Coq Require Import List Arith Lia Lra Bool Reals Permutation.
From Verif Require Import Base ContractorModel SweepModel Cplx Rsum UpdaterSpec UpdaterProofs UpdaterChain ExactModel ExactSpec ExactProofs.
Import ListNotations.
Local Open Scope nat_scope.
Arguments sumC : simpl never.
Arguments Cmul : simpl never.
Arguments Cadd : simpl never.

Lemma nth_zeros j (v : list C) : nth j (map (fun _ => RtoC 0) v) (RtoC 0) = RtoC 0.
Proof. revert j. induction v as [|x v IH]; intros [|j]; simpl; auto. Qed.
Lemma Forall2_in_r {X Y} (P : X -> Y -> Prop) l m : Forall2 P l m -> forall y, In y m -> exists x, In x l /\ P x y.
Proof. induction 1 as [|x y l m H F IH]; intros z Hz; [destruct Hz|]. destruct Hz as [<-|Hz]; [exists x; split; [left; reflexivity|exact H]|]. destruct (IH z Hz) as (w & A & B). exists w. split; [right; exact A|exact B]. Qed.
Lemma find_put k k' v m : find_key k (put_key k' v m) = if k =? k' then Some v else find_key k m.
Proof.
  induction m as [|[x y] m IH]; simpl; [reflexivity|]. destruct (Nat.eqb_spec k' x) as [->|N]; simpl.
  - destruct (Nat.eqb_spec k x) as [->|]; reflexivity.
  - destruct (Nat.eqb_spec k x) as [->|]; [|exact IH]. destruct (Nat.eqb_spec x k'); [congruence|reflexivity].
Qed.
Lemma find_key_in k v (m : amap) : find_key k m = Some v -> In (k, v) m.
Proof.
  induction m as [|[x y] m IH]; simpl; [discriminate|]. destruct (Nat.eqb_spec k x) as [->|]; [intros E; injection E as <-; left; reflexivity|right; auto].
Qed.
Lemma find_key_none k (m : amap) : ~ In k (map fst m) -> find_key k m = None.
Proof.
  induction m as [|[x y] m IH]; simpl; [reflexivity|]. intros N. destruct (Nat.eqb_spec k x) as [->|]; [exfalso; auto|auto].
Qed.
Lemma find_key_some k (m : amap) : In k (map fst m) -> exists v, find_key k m = Some v.
Proof.
  induction m as [|[x y] m IH]; simpl; [intros []|]. intros H. destruct (Nat.eqb_spec k x) as [->|N]; [eauto|]. destruct H as [->|H]; [congruence|auto].
Qed.
Definition fits (m o : amap) : Prop := forall k v, In (k, v) o -> find_key k m = None \/ exists a, find_key k m = Some a /\ length a = length v.
Lemma accumulate_ok w m k v : (find_key k m = None \/ exists a, find_key k m = Some a /\ length a = length v) ->
  accumulate w m (k, v) = Ok (put_key k (map (fun j => (nth j (get_key k m) (RtoC 0) + RtoC w * nth j v (RtoC 0))%C) (seq 0 (length v))) m).
Proof.
  intros H. unfold accumulate. set (old := get_key k m). set (a := match old with [] => map (fun _ => RtoC 0) v | _ => old end).
  assert (LA : length a = length v).
  { unfold a, old, get_key. destruct H as [->|(b & -> & L)]; [apply map_length|]. destruct b; [apply map_length|exact L]. }
  assert (NA : forall j, nth j a (RtoC 0) = nth j old (RtoC 0)).
  { intros j. unfold a. destruct old; [|reflexivity]. rewrite nth_zeros. destruct j; reflexivity. }
  rewrite LA, Nat.leb_refl. do 2 f_equal. apply map_ext_in. intros j Hj. apply in_seq in Hj. rewrite NA. destruct (Nat.ltb_spec j (length v)); [reflexivity|lia].
Qed.
Lemma accumulate_all_ok w o : forall m, NoDup (map fst o) -> fits m o -> exists m', accumulate_all w m o = Ok m' /\
  forall k, find_key k m' = match find_key k o with
                            | None => find_key k m
                            | Some v => Some (map (fun j => (nth j (get_key k m) (RtoC 0) + RtoC w * nth j v (RtoC 0))%C) (seq 0 (length v)))
                            end.
Proof.
  induction o as [|[k v] o IH]; intros m ND F; [exists m; split; [reflexivity|]; intros; reflexivity|].
  inversion ND as [|? ? Hk ND']; subst. cbn [accumulate_all]. rewrite (accumulate_ok _ _ _ _ (F k v ltac:(left; reflexivity))). cbn [bind].
  set (m1 := put_key k _ m). destruct (IH m1 ND') as (m' & E & Q).
  { intros k' v' Hi. unfold m1. rewrite find_put. destruct (Nat.eqb_spec k' k) as [->|N]; [|apply F; right; exact Hi].
    exfalso. apply Hk. apply (in_map fst) in Hi. exact Hi. }
  exists m'. split; [exact E|]. intros k'. rewrite Q. cbn [find_key]. unfold m1. rewrite find_put. destruct (Nat.eqb_spec k' k) as [->|N].
  - rewrite (find_key_none k o Hk). reflexivity.
  - destruct (find_key k' o); [|reflexivity]. unfold get_key. rewrite find_put, (proj2 (Nat.eqb_neq _ _) N). reflexivity.
Qed.
Section Measure.
Context {Conf : Type} (amp : Conf -> C) (obs : Conf -> amap) (configs : list Conf) (dflt : Conf).
Context (ks : list nat) (len : nat -> nat).
Hypothesis KN : NoDup ks.
Hypothesis KP : forall c, In c configs -> Permutation ks (map fst (obs c)).
Hypothesis KL : forall c k v, In c configs -> In (k, v) (obs c) -> length v = len k.
Definition value (c : Conf) (k j : nat) : C := nth j (get_key k (obs c)) (RtoC 0).
Definition weight (c : Conf) : R := Cnorm2 (amp c).
Notation at_i i := (nth i configs dflt).
Lemma obs_key c k : In c configs -> In k ks -> exists v, find_key k (obs c) = Some v /\ length v = len k.
Proof.
  intros Hc Hk. destruct (find_key_some k (obs c)) as [v E]; [eapply Permutation_in; [apply KP; exact Hc|exact Hk]|].
  exists v. split; [exact E|]. apply (KL c k v Hc). apply find_key_in. exact E.
Qed.
Lemma obs_nokey c k : In c configs -> ~ In k ks -> find_key k (obs c) = None.
Proof. intros Hc Hk. apply find_key_none. intros Q. apply Hk. eapply Permutation_in; [symmetry; apply KP; exact Hc|exact Q]. Qed.
Lemma obs_nodup c : In c configs -> NoDup (map fst (obs c)).
Proof. intros Hc. eapply Permutation_NoDup; [apply KP; exact Hc|exact KN]. Qed.
Definition shaped (m : amap) : Prop := forall k, In k ks -> find_key k m = None \/ exists a, find_key k m = Some a /\ length a = len k.
Lemma rank_pass_ok is : forall w0 m0, (forall i, In i is -> i < length configs) -> shaped m0 -> exists m,
  rank_pass amp obs configs dflt is (w0, m0) = Ok ((w0 + rsum (fun i => weight (at_i i)) is)%R, m) /\
  (forall k, ~ In k ks -> find_key k m = find_key k m0) /\
  (forall k, In k ks -> find_key k m = match is with
     | [] => find_key k m0
     | _ => Some (map (fun j => (nth j (get_key k m0) (RtoC 0) + sumC (fun i => RtoC (weight (at_i i)) * value (at_i i) k j) is)%C) (seq 0 (len k)))
     end).
Proof.
  induction is as [|i is IH]; intros w0 m0 HI HS.
  - exists m0. split; [|split; intros; reflexivity]. simpl. unfold rsum. simpl. rewrite Rplus_0_r. reflexivity.
  - assert (Hc : In (at_i i) configs) by (apply nth_In, HI; left; reflexivity). cbn [rank_pass fst snd].
    destruct (accumulate_all_ok (weight (at_i i)) (obs (at_i i)) m0 (obs_nodup _ Hc)) as (m1 & E & Q).
    { intros k v Hi. destruct (HS k) as [N|(a & A & L)]; [eapply Permutation_in; [symmetry; apply KP; exact Hc|apply (in_map fst) in Hi; exact Hi]|left; exact N|].
      right. exists a. split; [exact A|]. rewrite L. symmetry. apply (KL _ _ _ Hc Hi). }
    unfold weight in E. rewrite E. cbn [bind].
    assert (Q1 : forall k, In k ks -> find_key k m1 = Some (map (fun j => (nth j (get_key k m0) (RtoC 0) + RtoC (weight (at_i i)) * value (at_i i) k j)%C) (seq 0 (len k)))).
    { intros k Hk. rewrite Q. destruct (obs_key _ k Hc Hk) as (v & V & L). rewrite V, L. f_equal. apply map_ext. intros j. f_equal. f_equal. unfold value, get_key. rewrite V. reflexivity. }
    destruct (IH (w0 + Cnorm2 (amp (at_i i)))%R m1) as (m & E' & N & P).
    { intros i' Hi'. apply HI. right. exact Hi'. }
    { intros k Hk. right. rewrite (Q1 k Hk). eexists. split; [reflexivity|]. rewrite map_length, seq_length. reflexivity. }
    exists m. split; [rewrite E'; rewrite rsum_cons; do 2 f_equal; unfold weight; ring|]. split.
    + intros k Hk. rewrite (N k Hk), Q, (obs_nokey _ k Hc Hk). reflexivity.
    + intros k Hk. rewrite (P k Hk). destruct is as [|i' is'].
      * rewrite (Q1 k Hk). f_equal. apply map_ext. intros j. rewrite sumC_cons, sumC_nil. ring.
      * f_equal. apply map_ext_in. intros j Hj. apply in_seq in Hj. unfold get_key at 1. rewrite (Q1 k Hk).
        rewrite (nth_indep _ _ ((fun j => (nth j (get_key k m0) (RtoC 0) + RtoC (weight (at_i i)) * value (at_i i) k j)%C) 0)) by (rewrite map_length, seq_length; lia).
        rewrite (map_nth (fun j => (nth j (get_key k m0) (RtoC 0) + RtoC (weight (at_i i)) * value (at_i i) k j)%C)), seq_nth by lia.
        cbn [Nat.add]. rewrite (sumC_cons _ i (i' :: is')). ring.
Qed.
(** What a rank holds. *)
Definition holds (size r : nat) (s : R * amap) : Prop :=
  fst s = rsum (fun i => weight (at_i i)) (stripe (length configs) size r) /\
  (forall k, ~ In k ks -> find_key k (snd s) = None) /\
  (forall k, In k ks -> (stripe (length configs) size r = [] /\ find_key k (snd s) = None) \/
     (stripe (length configs) size r <> [] /\
      find_key k (snd s) = Some (map (fun j => sumC (fun i => RtoC (weight (at_i i)) * value (at_i i) k j)%C (stripe (length configs) size r)) (seq 0 (len k))))).
Lemma rank_obs_ok size r : 0 < size -> r < size -> exists s, rank_obs amp obs configs dflt size r = Ok s /\ holds size r s.
Proof.
  intros Hs Hr. unfold rank_obs. destruct (rank_pass_ok (stripe (length configs) size r) 0%R []) as (m & E & N & P).
  - intros i Hi. apply stripe_in in Hi; [lia|exact Hs|exact Hr].
  - intros k _. left. reflexivity.
  - eexists. split; [exact E|]. split; [simpl; ring|]. split; [intros k Hk; cbn [snd]; rewrite (N k Hk); reflexivity|].
    intros k Hk. cbn [snd]. rewrite (P k Hk). destruct (stripe (length configs) size r) as [|i is]; [left; split; reflexivity|right].
    split; [discriminate|]. f_equal. apply map_ext. intros j. simpl. destruct j; ring.
Qed.
Lemma all_ranks_ok size rs : 0 < size -> (forall r, In r rs -> r < size) -> exists ss, all_ranks amp obs configs dflt size rs = Ok ss /\ Forall2 (holds size) rs ss.
Proof.
  intros Hs. induction rs as [|r rs IH]; intros H; [exists []; split; [reflexivity|constructor]|].
  destruct (rank_obs_ok size r Hs (H r ltac:(left; reflexivity))) as (s & E & P). destruct IH as (ss & E' & P'); [intros; apply H; right; assumption|].
  exists (s :: ss). cbn [all_ranks]. rewrite E. cbn [bind]. rewrite E'. split; [reflexivity|constructor; assumption].
Qed.
Definition buffer (k : nat) (v : list C) (s : R * amap) : list C := match find_key k (snd s) with Some b => b | None => map (fun _ => RtoC 0) v end.
Lemma buffer_ok size r s k v : In k ks -> holds size r s -> length v = len k ->
  length (buffer k v s) = len k /\
  forall j, j < len k -> nth j (buffer k v s) (RtoC 0) = sumC (fun i => RtoC (weight (at_i i)) * value (at_i i) k j)%C (stripe (length configs) size r).
Proof.
  intros Hk (_ & _ & P) L. unfold buffer. destruct (P k Hk) as [[-> ->]|[_ ->]].
  - split; [rewrite map_length; exact L|]. intros j Hj. apply nth_zeros.
  - rewrite map_length, seq_length. split; [reflexivity|]. intros j Hj.
    match goal with |- nth j (map ?f _) _ = _ => rewrite (nth_indep _ _ (f 0)) by (rewrite map_length, seq_length; exact Hj); rewrite (map_nth f), seq_nth by exact Hj end. reflexivity.
Qed.
Lemma buffers_sum size rs ss k v j : In k ks -> Forall2 (holds size) rs ss -> length v = len k -> j < len k ->
  sumC (fun s => nth j (buffer k v s) (RtoC 0)) ss =
  sumC (fun r => sumC (fun i => RtoC (weight (at_i i)) * value (at_i i) k j)%C (stripe (length configs) size r)) rs.
Proof.
  intros Hk F L Hj. induction F as [|r s rs ss P F IH]; [reflexivity|]. rewrite !sumC_cons, IH. f_equal. exact (proj2 (buffer_ok size r s k v Hk P L) j Hj).
Qed.
Lemma weights_sum size rs ss : Forall2 (holds size) rs ss -> forall a,
  fold_left (fun a s => (a + fst s)%R) ss a = (a + rsum (fun r => rsum (fun i => weight (at_i i)) (stripe (length configs) size r)) rs)%R.
Proof.
  induction 1 as [|r s rs ss P F IH]; intros a; [unfold rsum; simpl; ring|]. cbn [fold_left]. rewrite IH, (proj1 P), rsum_cons. ring.
Qed.
Lemma reduce_keys_ok others m : (forall k v, In (k, v) m -> forallb (fun s => length v <=? length (buffer k v s)) others = true) ->
  exists r, reduce_keys m others = Ok r /\ forall k, find_key k r = match find_key k m with
    | None => None
    | Some v => Some (map (fun j => (nth j v (RtoC 0) + sumC (fun s => nth j (buffer k v s) (RtoC 0)) others)%C) (seq 0 (length v)))
    end.
Proof.
  induction m as [|[k v] m IH]; intros H; [exists []; split; [reflexivity|]; reflexivity|]. destruct IH as (r & E & Q); [intros; apply H; right; assumption|].
  cbn [reduce_keys].
  change (reduce_key (k, v) others) with (if forallb (fun s => length v <=? length (buffer k v s)) others
    then Ok (k, map (fun j => (nth j v (RtoC 0) + sumC (fun s => nth j (buffer k v s) (RtoC 0)) others)%C) (seq 0 (length v))) else Fail UB).
  rewrite (H k v ltac:(left; reflexivity)). cbn [bind]. rewrite E. cbn [bind]. eexists. split; [reflexivity|].
  intros k'. cbn [find_key]. destruct (Nat.eqb_spec k' k) as [->|N]; [reflexivity|]. apply Q.
Qed.
Lemma find_map_snd (g : list C -> list C) k m : find_key k (map (fun kv : nat * list C => (fst kv, g (snd kv))) m) = match find_key k m with None => None | Some v => Some (g v) end.
Proof. induction m as [|[x y] m IH]; simpl; [reflexivity|]. destruct (k =? x); [reflexivity|exact IH]. Qed.
Lemma keys_of_rank size r s k v : holds size r s -> NoDup (map fst (snd s)) -> In (k, v) (snd s) -> In k ks /\ length v = len k.
Proof.
  intros (_ & N & P) ND Hi.
  assert (F : find_key k (snd s) = Some v).
  { clear - ND Hi. induction (snd s) as [|[x y] m IH]; [destruct Hi|]. inversion ND; subst. simpl. destruct Hi as [Q|Q].
    - injection Q as -> ->. rewrite Nat.eqb_refl. reflexivity.
    - destruct (Nat.eqb_spec k x) as [->|]; [exfalso; apply (in_map fst) in Q; contradiction|auto]. }
  destruct (in_dec Nat.eq_dec k ks) as [K|K]; [|rewrite (N k K) in F; discriminate]. split; [exact K|].
  destruct (P k K) as [[_ Q]|[_ Q]]; [congruence|]. rewrite Q in F. injection F as <-. rewrite map_length, seq_length. reflexivity.
Qed.
Lemma put_nodup k v m : NoDup (map fst m) -> NoDup (map fst (put_key k v m)).
Proof.
  assert (G : forall x m, In x (map fst (put_key k v m)) -> x = k \/ In x (map fst m)).
  { clear. intros x m. induction m as [|[a b] m IH]; simpl; [intros [<-|[]]; auto|]. destruct (k =? a) eqn:E; simpl.
    - apply Nat.eqb_eq in E. subst. intros [<-|H]; auto.
    - intros [<-|H]; auto. destruct (IH H); auto. }
  induction m as [|[a b] m IH]; intros ND; simpl; [repeat constructor; intros []|]. inversion ND; subst. destruct (Nat.eqb_spec k a) as [->|N]; simpl; [constructor; assumption|].
  constructor; [|auto]. intros Q. apply G in Q. destruct Q as [->|Q]; [congruence|contradiction].
Qed.
Lemma pass_nodup is : forall s s', rank_pass amp obs configs dflt is s = Ok s' -> NoDup (map fst (snd s)) -> NoDup (map fst (snd s')).
Proof.
  assert (A : forall w o m m', accumulate_all w m o = Ok m' -> NoDup (map fst m) -> NoDup (map fst m')).
  { intros w. induction o as [|[k v] o IH]; intros m m' E ND; cbn [accumulate_all] in E; [injection E as <-; exact ND|].
    unfold accumulate in E. destruct (_ <=? _); [|discriminate]. cbn [bind] in E. eapply IH; [exact E|]. apply put_nodup. exact ND. }
  induction is as [|i is IH]; intros s s' E ND; cbn [rank_pass] in E; [injection E as <-; exact ND|].
  destruct (accumulate_all _ _ _) as [m|] eqn:Q; [|discriminate]. cbn [bind] in E. eapply IH; [exact E|]. cbn [snd]. eapply A; eauto.
Qed.
Lemma exact_measure_ok size : 0 < size -> (0 < total_weight amp configs)%R ->
  exists r, exact_measure amp obs configs dflt size = Ok r /\
    (forall k, ~ In k ks -> find_key k r = None) /\
    (forall k, In k ks -> find_key k r = Some (map (fun j => weighted_average amp configs (fun c => value c k j)) (seq 0 (len k)))).
Proof.
  intros Hs HW. unfold exact_measure.
  assert (NE : configs <> []) by (intros ->; unfold total_weight in HW; simpl in HW; lra).
  destruct (all_ranks_ok size (seq 0 size) Hs) as (ss & E & F); [intros r Hr; apply in_seq in Hr; lia|].
  assert (SQ : seq 0 size = 0 :: seq 1 (size - 1)) by (destruct size; [lia|simpl; rewrite Nat.sub_0_r; reflexivity]).
  destruct configs as [|c0 cs] eqn:EC; [congruence|]. rewrite <- EC in *. clear NE. rewrite E. cbn [bind].
  rewrite SQ in F. inversion F as [|r0 s0 rs others P0 FO ER ES]. subst r0 rs.
  assert (ND : NoDup (map fst (snd s0))).
  { rewrite SQ in E. cbn [all_ranks] in E. destruct (rank_obs amp obs configs dflt size 0) as [s'|] eqn:Q; [|discriminate]. cbn [bind] in E.
    destruct (all_ranks _ _ _ _ _ _); [|discriminate]. cbn [bind] in E. injection E as E. rewrite <- ES in E. injection E as -> _. unfold rank_obs in Q.
    apply (pass_nodup _ _ _ Q). constructor. }
  assert (HT : (fold_left (fun a s => (a + fst s)%R) others (fst s0)) = total_weight amp configs).
  { rewrite (weights_sum size _ _ FO), (proj1 P0), total_weight_rsum, <- (rsum_over_stripes configs dflt _ size Hs), SQ, rsum_cons. reflexivity. }
  assert (S0 : stripe (length configs) size 0 <> []).
  { assert (In 0 (stripe (length configs) size 0)); [|destruct (stripe (length configs) size 0); [contradiction|discriminate]].
    apply stripe_in; [exact Hs|exact Hs|]. split; [rewrite EC; simpl; lia|apply Nat.mod_small; exact Hs]. }
  assert (G : exists sums, (if 1 <? size then reduce_keys (snd s0) others else Ok (snd s0)) = Ok sums /\
     (forall k, ~ In k ks -> find_key k sums = None) /\
     (forall k, In k ks -> find_key k sums = Some (map (fun j => sumC (fun c => RtoC (weight c) * value c k j)%C configs) (seq 0 (len k))))).
  { assert (V0 : forall k, In k ks -> exists v, find_key k (snd s0) = Some v /\ length v = len k /\
       forall j, j < len k -> nth j v (RtoC 0) = sumC (fun i => RtoC (weight (at_i i)) * value (at_i i) k j)%C (stripe (length configs) size 0)).
    { intros k Hk. destruct P0 as (_ & _ & P). destruct (P k Hk) as [[Q _]|[_ Q]]; [contradiction|]. eexists. split; [exact Q|].
      rewrite map_length, seq_length. split; [reflexivity|]. intros j Hj.
      match goal with |- nth j (map ?f _) _ = _ => rewrite (nth_indep _ _ (f 0)) by (rewrite map_length, seq_length; exact Hj); rewrite (map_nth f), seq_nth by exact Hj end. reflexivity. }
    destruct (Nat.ltb_spec 1 size) as [L|L].
    - destruct (reduce_keys_ok others (snd s0)) as (r & R & Q).
      { intros k v Hi. destruct (keys_of_rank size 0 s0 k v P0 ND Hi) as [Hk Lv]. apply forallb_forall. intros s Hin. apply Nat.leb_le.
        destruct (Forall2_in_r _ _ _ FO s Hin) as (r & _ & Pr). rewrite (proj1 (buffer_ok size r s k v Hk Pr Lv)). lia. }
      exists r. split; [exact R|]. split.
      + intros k Hk. rewrite Q. destruct P0 as (_ & N & _). rewrite (N k Hk). reflexivity.
      + intros k Hk. rewrite Q. destruct (V0 k Hk) as (v & -> & Lv & Vj). rewrite Lv. f_equal. apply map_ext_in. intros j Hj. apply in_seq in Hj.
        rewrite (Vj j ltac:(lia)), (buffers_sum size _ _ k v j Hk FO Lv ltac:(lia)).
        rewrite <- (sum_over_stripes configs dflt (fun c => RtoC (weight c) * value c k j)%C size Hs), SQ, sumC_cons. reflexivity.
    - assert (size = 1) by lia. subst size. exists (snd s0). split; [reflexivity|]. split; [apply P0|]. intros k Hk. destruct (V0 k Hk) as (v & -> & Lv & Vj). f_equal.
      apply (nth_ext _ _ (RtoC 0) (RtoC 0)); [rewrite map_length, seq_length; exact Lv|]. intros j Hj. rewrite Lv in Hj. rewrite (Vj j Hj).
      match goal with |- _ = nth j (map ?f _) _ => rewrite (nth_indep _ _ (f 0)) by (rewrite map_length, seq_length; exact Hj); rewrite (map_nth f), seq_nth by exact Hj end. cbn [Nat.add].
      rewrite <- (sum_over_stripes configs dflt (fun c => RtoC (weight c) * value c k j)%C 1 Hs). cbn [seq]. rewrite sumC_cons, sumC_nil. unfold conf_at. ring. }
  destruct G as (sums & GE & GN & GK). rewrite GE. cbn [bind]. rewrite HT. destruct (Rlt_dec 0 (total_weight amp configs)); [|contradiction].
  eexists. split; [reflexivity|]. split.
  - intros k Hk. rewrite (find_map_snd (map (fun x => (x * Cinv (RtoC (total_weight amp configs)))%C))), (GN k Hk). reflexivity.
  - intros k Hk. rewrite (find_map_snd (map (fun x => (x * Cinv (RtoC (total_weight amp configs)))%C))), (GK k Hk). f_equal. rewrite map_map. reflexivity.
Qed.
End Measure.
Lemma binary_too_large lx ly : 64 <= lx * ly -> all_binary_configs lx ly = Fail Throw.
Proof. intros H. unfold all_binary_configs. rewrite (proj2 (Nat.leb_le _ _) H). reflexivity. Qed.
Lemma differing_keys : exists (amp : bool -> C) (obs : bool -> amap) configs,
  (forall c, NoDup (map fst (obs c))) /\
  (exists r v, exact_measure amp obs configs true 1 = Ok r /\ find_key 5 r = Some v) /\
  (exists r, exact_measure amp obs configs true 2 = Ok r /\ find_key 5 r = None).
Proof.
  exists (fun _ : bool => RtoC 1), (fun b : bool => if b then [(4, [RtoC 1])] else [(5, [RtoC 1])]), [true; false]. split; [|split].
  - intros [|]; simpl; repeat constructor; intros [].
  - unfold exact_measure, rank_obs. cbn -[Rlt_dec Rplus Cinv]. destruct (Rlt_dec _ _) as [L|L].
    + eexists. eexists. split; [reflexivity|]. cbn. reflexivity.
    + exfalso. apply L. unfold Cnorm2; simpl; lra.
  - unfold exact_measure, rank_obs. cbn -[Rlt_dec Rplus Cinv]. destruct (Rlt_dec _ _) as [L|L].
    + eexists. split; [reflexivity|]. cbn. reflexivity.
    + exfalso. apply L. unfold Cnorm2; simpl; lra.
Qed.
Lemma one_spin_sector :
  let H : EnergySpec.operator := fun S S' => match S, S' with [a], [b] => if Nat.eqb a b then RtoC 0 else RtoC 1 | _, _ => RtoC 0 end in
  sector 2 1 H (all_configs 2 1) /\ hermitian (all_configs 2 1) H /\
  (forall S, In S (all_configs 2 1) -> c_derivative (fun t => match S with [0] => RtoC (1 + t) | _ => RtoC 2 end) 0
     (sumC (fun k : unit => RtoC 1 * match S with [0] => RtoC 1 | _ => RtoC 0 end)%C [tt])).
Proof.
  intros H. split; [|split].
  - split; [discriminate|]. split; [apply all_configs_nodup|]. split; [apply incl_refl|]. intros S S' _ Hi Hn. contradiction.
  - intros S S' [<-|[<-|[]]] [<-|[<-|[]]]; simpl; apply C_ext; simpl; ring.
  - intros S [<-|[<-|[]]]; rewrite sumC_cons, sumC_nil.
    + replace (RtoC 1 * RtoC 1 + RtoC 0)%C with (0 + 1, 0)%R by (apply C_ext; simpl; ring). split; simpl; [|apply derivable_pt_lim_const].
      apply (derivable_pt_lim_plus (fun _ => 1%R) id); [apply derivable_pt_lim_const|apply derivable_pt_lim_id].
    + replace (RtoC 1 * RtoC 0 + RtoC 0)%C with (RtoC 0) by (apply C_ext; simpl; ring). apply (cd_const (RtoC 2)).
Qed.
