(** Jastrow storage and ratios. *)
From Coq Require Import List Arith Lia Bool Reals Lra.
From Verif Require Import Base ContractorModel SweepModel Cplx Rsum JastrowModel JastrowSpec.
Import ListNotations.
Local Open Scope nat_scope.

(** *** Packing *)
Lemma tri_even i : 2 * ((i + 1) * (i + 2) / 2) = (i + 1) * (i + 2).
Proof.
  assert (E : ((i + 1) * (i + 2)) mod 2 = 0).
  { induction i as [|i IH]; [reflexivity|]. replace ((S i + 1) * (S i + 2)) with ((i + 1) * (i + 2) + (i + 2) * 2) by lia.
    rewrite Nat.mod_add by lia. exact IH. }
  apply Nat.mod_divides in E; [|lia]. destruct E as [q E]. rewrite E, (Nat.mul_comm 2 q), Nat.div_mul by lia. lia.
Qed.
Lemma count_even n : 2 * (n * (n - 1) / 2) = n * (n - 1).
Proof. destruct n as [|[|n]]; [reflexivity|reflexivity|]. replace (S (S n) * (S (S n) - 1)) with ((n + 1) * (n + 2)) by lia. apply tri_even. Qed.
Lemma packed_ok n i j : i < j -> j < n -> exists k, packed_upper_index n i j = Ok k /\ 2 * k + (i + 1) * (i + 2) = 2 * (i * n + j).
Proof.
  intros H1 H2. unfold packed_upper_index, usub. pose proof (tri_even i) as E.
  destruct (Nat.ltb_spec (i * n + j) ((i + 1) * (i + 2) / 2)) as [L|L].
  - exfalso. nia.
  - eexists. split; [reflexivity|]. lia.
Qed.
Lemma packed_range n i j k : i < j -> j < n -> packed_upper_index n i j = Ok k -> k < n * (n - 1) / 2.
Proof.
  intros H1 H2 E. destruct (packed_ok n i j H1 H2) as (k' & E' & Q). rewrite E in E'. injection E' as <-.
  pose proof (count_even n) as C. destruct n as [|n]; [lia|]. simpl (S n - 1) in *. rewrite Nat.sub_0_r in C.
  assert (exists e, n = i + 1 + e) as [e ->] by (exists (n - i - 1); lia). assert (exists g, j + g = i + 1 + e) as [g G] by (exists (i + 1 + e - j); lia). rewrite Nat.sub_0_r. nia.
Qed.
Lemma packed_inj n i j i' j' k : i < j -> j < n -> i' < j' -> j' < n ->
  packed_upper_index n i j = Ok k -> packed_upper_index n i' j' = Ok k -> i = i' /\ j = j'.
Proof.
  intros H1 H2 H3 H4 E E'. destruct (packed_ok n i j H1 H2) as (x & X & Q). destruct (packed_ok n i' j' H3 H4) as (y & Y & Q').
  rewrite E in X. rewrite E' in Y. injection X as <-. injection Y as <-.
  destruct (Nat.lt_trichotomy i i') as [L|[->|L]]; [exfalso|split; lia|exfalso].
  - assert (exists d, i' = i + S d) as [d ->] by (exists (i' - i - 1); lia). nia.
  - assert (exists d, i = i' + S d) as [d ->] by (exists (i - i' - 1); lia). nia.
Qed.
Lemma packed_surj n k : k < n * (n - 1) / 2 -> exists i j, i < j /\ j < n /\ packed_upper_index n i j = Ok k.
Proof.
  intros H. pose proof (count_even n) as C.
  assert (G : forall m, m < n -> 2 * k + (m + 1) * (m + 2) < 2 * (m * n + n) ->
     exists i j, i < j /\ j < n /\ packed_upper_index n i j = Ok k).
  { induction m as [|m IH]; intros Hm Hk.
    - destruct (packed_ok n 0 (k + 1) ltac:(lia) ltac:(lia)) as (x & X & Q). exists 0, (k + 1).
      repeat split; try lia. rewrite X. f_equal. lia.
    - destruct (le_lt_dec (2 * (m * n + n)) (2 * k + (m + 1) * (m + 2))) as [L|L]; [|apply IH; lia].
      pose proof (tri_even (S m)) as T. set (t := (S m + 1) * (S m + 2) / 2) in *.
      assert (B : S m * n <= k + t) by lia.
      assert (exists j, j + S m * n = k + t) as [j J] by (exists (k + t - S m * n); lia).
      assert (J1 : S m < j) by lia. assert (J2 : j < n) by lia.
      destruct (packed_ok n (S m) j J1 J2) as (x & X & Q). exists (S m), j. repeat split; auto. rewrite X. f_equal. lia. }
  destruct n as [|[|n]]; [simpl in H; lia|simpl in H; lia|]. apply (G n); [lia|]. replace (S (S n) - 1) with (S n) in C, H by lia. lia.
Qed.

Definition sized (j : jastrow) : Prop := length (j_v j) = j_n j * (j_n j - 1) / 2.
Lemma new_sized ly lx : sized (jastrow_new ly lx).
Proof. unfold sized, jastrow_new, j_n. cbn [j_v j_ly j_lx]. apply repeat_length. Qed.
Lemma vec_set_ok v k x : k < length v -> exists v', vec_set v k x = Ok v' /\ length v' = length v /\
  vec_get v' k = Ok x /\ (forall m, m <> k -> vec_get v' m = vec_get v m).
Proof.
  intros H. unfold vec_set. rewrite (proj2 (Nat.ltb_lt _ _) H). eexists. split; [reflexivity|].
  assert (F : length (firstn k v) = k) by (apply firstn_length_le; lia).
  split; [rewrite app_length; cbn [length]; rewrite F, skipn_length; lia|]. unfold vec_get. split.
  - rewrite nth_error_app2 by lia. rewrite F, Nat.sub_diag. reflexivity.
  - intros m Hm. destruct (Nat.lt_ge_cases m k) as [L|L].
    + rewrite nth_error_app1 by lia. rewrite <- (firstn_skipn k v) at 2. rewrite nth_error_app1 by lia. reflexivity.
    + rewrite nth_error_app2 by lia. rewrite F. replace (m - k) with (S (m - (k + 1))) by lia. cbn [nth_error].
      rewrite <- (firstn_skipn (k + 1) v) at 2. rewrite nth_error_app2; rewrite firstn_length_le by lia; [reflexivity|lia].
Qed.
Lemma vec_get_ok v k : k < length v -> exists x, vec_get v k = Ok x.
Proof. intros H. unfold vec_get. destruct (nth_error v k) eqn:E; [eauto|]. apply nth_error_None in E. lia. Qed.
(** The pair of sites a slot belongs to. *)
Definition lo (a b : nat) := if a <? b then a else b.
Definition hi (a b : nat) := if a <? b then b else a.
Lemma lohi a b n : a < n -> b < n -> a <> b -> lo a b < hi a b /\ hi a b < n.
Proof. intros. unfold lo, hi. destruct (Nat.ltb_spec a b); lia. Qed.
Lemma lohi_eq a b c d : lo a b = lo c d -> hi a b = hi c d -> (a = c /\ b = d) \/ (a = d /\ b = c).
Proof. unfold lo, hi. destruct (Nat.ltb_spec a b), (Nat.ltb_spec c d); lia. Qed.
Lemma pick_packed n a b : (if a <? b then packed_upper_index n a b else packed_upper_index n b a) = packed_upper_index n (lo a b) (hi a b).
Proof. unfold lo, hi. destruct (a <? b); reflexivity. Qed.
Lemma guard_true a b n : a < n -> b < n -> (a <? n) && (b <? n) = true.
Proof. intros. apply andb_true_iff. split; apply Nat.ltb_lt; assumption. Qed.
Lemma guard_two a b n m : a < n -> b < m -> (a <? n) && (b <? m) = true.
Proof. intros. apply andb_true_iff. split; apply Nat.ltb_lt; assumption. Qed.
Lemma jastrow_set_ok j a b x : sized j -> a < j_n j -> b < j_n j -> a <> b ->
  exists j', jastrow_set j a b x = Ok j' /\ sized j' /\ j_ly j' = j_ly j /\ j_lx j' = j_lx j /\
    (forall c d, c < j_n j -> d < j_n j -> c <> d ->
       jastrow_get j' c d = if ((c =? a) && (d =? b)) || ((c =? b) && (d =? a)) then Ok x else jastrow_get j c d).
Proof.
  intros Hs Ha Hb Hn. unfold jastrow_set. rewrite (guard_true a b _ Ha Hb). rewrite (proj2 (Nat.eqb_neq a b) Hn). cbn [andb negb].
  rewrite pick_packed. destruct (lohi a b _ Ha Hb Hn) as [L1 L2]. destruct (packed_ok _ _ _ L1 L2) as (k & E & _). rewrite E. cbn [bind].
  pose proof (packed_range _ _ _ _ L1 L2 E) as R. rewrite <- Hs in R. destruct (vec_set_ok (j_v j) k x R) as (v' & V & VL & G1 & G2).
  rewrite V. cbn [bind]. eexists. split; [reflexivity|]. split; [unfold sized, j_n in *; cbn [j_v j_ly j_lx]; lia|]. split; [reflexivity|]. split; [reflexivity|].
  intros c d Hc Hd Hcd. unfold jastrow_get. change (j_n (mkJ (j_ly j) (j_lx j) v')) with (j_n j). cbn [j_v]. rewrite (guard_true c d _ Hc Hd).
  rewrite (proj2 (Nat.eqb_neq c d) Hcd). rewrite pick_packed.
  destruct (lohi c d _ Hc Hd Hcd) as [M1 M2]. destruct (packed_ok _ _ _ M1 M2) as (m & F & _). rewrite F. cbn [bind].
  destruct (Nat.eq_dec m k) as [->|Ne].
  - destruct (packed_inj _ _ _ _ _ _ M1 M2 L1 L2 F E) as [A B]. rewrite G1. destruct (lohi_eq _ _ _ _ A B) as [[-> ->]|[-> ->]]; rewrite !Nat.eqb_refl; [reflexivity|].
    rewrite orb_true_r. reflexivity.
  - rewrite (G2 m Ne). destruct (_ || _) eqn:Q; [|reflexivity]. exfalso. apply orb_prop in Q. destruct Q as [Q|Q]; apply andb_prop in Q; destruct Q as [Q1 Q2];
    apply Nat.eqb_eq in Q1, Q2; subst c d; apply Ne.
    + rewrite E in F. injection F as <-. reflexivity.
    + assert (S1 : lo b a = lo a b) by (unfold lo; destruct (Nat.ltb_spec a b), (Nat.ltb_spec b a); lia).
      assert (S2 : hi b a = hi a b) by (unfold hi; destruct (Nat.ltb_spec a b), (Nat.ltb_spec b a); lia).
      rewrite S1, S2, E in F. injection F as <-. reflexivity.
Qed.
Lemma jastrow_get_ok j a b : sized j -> a < j_n j -> b < j_n j -> exists x, jastrow_get j a b = Ok x /\ jastrow_get j b a = Ok x /\ (a = b -> x = 0%R).
Proof.
  intros Hs Ha Hb. unfold jastrow_get. rewrite (guard_true a b _ Ha Hb), (guard_true b a _ Hb Ha). rewrite (Nat.eqb_sym b a).
  destruct (Nat.eqb_spec a b) as [E|N]; [exists 0%R; auto|]. rewrite !pick_packed.
  assert (S1 : lo b a = lo a b) by (unfold lo; destruct (Nat.ltb_spec a b), (Nat.ltb_spec b a); lia).
  assert (S2 : hi b a = hi a b) by (unfold hi; destruct (Nat.ltb_spec a b), (Nat.ltb_spec b a); lia).
  rewrite S1, S2. destruct (lohi a b _ Ha Hb N) as [L1 L2]. destruct (packed_ok _ _ _ L1 L2) as (k & E & _). rewrite E. cbn [bind].
  pose proof (packed_range _ _ _ _ L1 L2 E) as R. rewrite <- Hs in R. destruct (vec_get_ok _ _ R) as [x X]. exists x. rewrite X. repeat split. contradiction.
Qed.
Definition pair_eq_dec (x y : nat * nat) : {x = y} + {x <> y}.
Proof. decide equality; apply Nat.eq_dec. Defined.
Lemma jastrow_fill_ok' j f : sized j -> exists j', jastrow_fill j f = Ok j' /\ sized j' /\ j_ly j' = j_ly j /\ j_lx j' = j_lx j /\
  (forall a b, a < b -> b < j_n j -> jastrow_get j' a b = Ok (f a b) /\ jastrow_get j' b a = Ok (f a b)).
Proof.
  intros Hs. unfold jastrow_fill. set (n := j_n j).
  set (l := flat_map (fun i => map (fun k => (i, k)) (seq (i + 1) (n - (i + 1)))) (seq 0 n)).
  assert (Hl : forall ab, In ab l <-> fst ab < snd ab /\ snd ab < n).
  { intros [a b]. unfold l. rewrite in_flat_map. split.
    - intros (i & Hi & H). apply in_map_iff in H. destruct H as (k & Hk & H). injection Hk as <- <-. apply in_seq in Hi, H. simpl. lia.
    - simpl. intros [H1 H2]. exists a. split; [apply in_seq; lia|]. apply in_map_iff. exists b. split; [reflexivity|]. apply in_seq. lia. }
  assert (G : forall l', (forall ab, In ab l' -> fst ab < snd ab /\ snd ab < n) -> forall j0, sized j0 -> j_ly j0 = j_ly j -> j_lx j0 = j_lx j ->
     exists j', fold_left (fun acc ab => j' <- acc;; jastrow_set j' (fst ab) (snd ab) (f (fst ab) (snd ab))) l' (Ok j0) = Ok j' /\ sized j' /\
       j_ly j' = j_ly j /\ j_lx j' = j_lx j /\
       (forall a b, a < b -> b < n -> jastrow_get j' a b = if in_dec pair_eq_dec (a, b) l' then Ok (f a b) else jastrow_get j0 a b)).
  { induction l' as [|[a b] l' IH]; intros Hin j0 S0 E1 E2.
    - exists j0. repeat split; auto.
    - cbn [fold_left bind fst snd]. destruct (Hin (a, b) ltac:(left; reflexivity)) as [A B]. cbn [fst snd] in A, B.
      assert (N0 : j_n j0 = n) by (unfold n, j_n; congruence).
      destruct (jastrow_set_ok j0 a b (f a b) S0 ltac:(lia) ltac:(lia) ltac:(lia)) as (j1 & J1 & S1 & E1' & E2' & G1). rewrite J1.
      destruct (IH ltac:(intros; apply Hin; right; assumption) j1 S1 ltac:(congruence) ltac:(congruence)) as (j' & J' & S' & Y1 & Y2 & G').
      exists j'. repeat split; auto. intros c d Hc Hd. rewrite (G' c d Hc Hd).
      destruct (in_dec _ (c, d) l') as [I|I]; destruct (in_dec _ (c, d) ((a, b) :: l')) as [I'|I']; auto.
      + exfalso. apply I'. right. exact I.
      + rewrite (G1 c d) by lia. destruct I' as [I'|I']; [injection I' as <- <-|contradiction]. rewrite !Nat.eqb_refl. reflexivity.
      + rewrite (G1 c d) by lia. destruct (Nat.eqb_spec c a), (Nat.eqb_spec d b), (Nat.eqb_spec c b), (Nat.eqb_spec d a); subst; cbn [andb orb]; try reflexivity; try lia;
        exfalso; apply I'; left; reflexivity. }
  destruct (G l (fun ab H => proj1 (Hl ab) H) j Hs eq_refl eq_refl) as (j' & J' & S' & Y1 & Y2 & G').
  exists j'. split; [exact J'|]. split; [exact S'|]. assert (N' : j_n j' = j_n j) by (unfold j_n; congruence). split; [exact Y1|]. split; [exact Y2|].
  intros a b Hab Hb. pose proof (G' a b Hab Hb) as Q. destruct (in_dec _ (a, b) l) as [_|I]; [|exfalso; apply I, Hl; split; assumption].
  split; [exact Q|]. destruct (jastrow_get_ok j' a b S' ltac:(lia) ltac:(lia)) as (x & X1 & X2 & _). congruence.
Qed.

Lemma jastrow_fill_ok j f : sized j -> exists j', jastrow_fill j f = Ok j' /\ sized j' /\ j_n j' = j_n j /\
  (forall a b, a < b -> b < j_n j -> jastrow_get j' a b = Ok (f a b) /\ jastrow_get j' b a = Ok (f a b)).
Proof.
  intros Hs. destruct (jastrow_fill_ok' j f Hs) as (j' & E & S & Y & X & Q). exists j'. repeat split; auto; try (apply Q; assumption).
  unfold j_n. congruence.
Qed.

(** *** Field and ratio *)
Section Ratio.
Context (n : nat) (v : nat -> nat -> R).
Hypothesis Vsym : forall a b, a < n -> b < n -> v a b = v b a.
Local Open Scope R_scope.
Definition w (a b : nat) : R := if (a =? b)%nat then 0 else v a b.
Definition field (d : nat -> R) (a : nat) : R := rsum (fun b => w a b * d b) (seq 0 n).
Definition quad (d e : nat -> R) : R := rsum (fun a => rsum (fun b => w a b * d a * e b) (seq 0 n)) (seq 0 n).
Lemma wsym a b : (a < n)%nat -> (b < n)%nat -> w a b = w b a.
Proof. intros A B. unfold w. rewrite (Nat.eqb_sym b a). destruct (a =? b)%nat; [reflexivity|auto]. Qed.
Lemma log_quad d : 2 * log_jastrow n v d = quad (fun k => INR (d k)) (fun k => INR (d k)).
Proof.
  unfold log_jastrow, quad. rewrite rsum_prod. cbn [fst snd].
  set (t := fun a b => if (a <? b)%nat then v a b * INR (d a) * INR (d b) else 0).
  transitivity (rsum (fun a => rsum (fun b => t a b) (seq 0 n)) (seq 0 n) + rsum (fun a => rsum (fun b => t b a) (seq 0 n)) (seq 0 n)).
  - rewrite (rsum_swap (fun a b => t b a)). unfold t. ring.
  - rewrite <- rsum_add. apply rsum_ext. intros a Ha. rewrite <- rsum_add. apply rsum_ext. intros b Hb. apply in_seq in Ha, Hb.
    unfold t, w. destruct (Nat.ltb_spec a b), (Nat.ltb_spec b a), (Nat.eqb_spec a b); try lia; try ring. rewrite (Vsym a b) by lia. ring.
Qed.
Lemma quad_add_l d d' e : quad (fun k => d k + d' k) e = quad d e + quad d' e.
Proof. unfold quad. rewrite <- rsum_add. apply rsum_ext. intros a _. rewrite <- rsum_add. apply rsum_ext. intros b _. ring. Qed.
Lemma quad_sym d e : quad d e = quad e d.
Proof.
  unfold quad. rewrite rsum_swap. apply rsum_ext. intros a Ha. apply rsum_ext. intros b Hb. apply in_seq in Ha, Hb. rewrite (wsym b a) by lia. ring.
Qed.
Lemma quad_field d e : quad d e = rsum (fun a => d a * field e a) (seq 0 n).
Proof. unfold quad, field. apply rsum_ext. intros a _. rewrite <- rsum_scal. apply rsum_ext. intros b _. ring. Qed.
Definition bump (i j k : nat) : R := if (k =? i)%nat then 1 else if (k =? j)%nat then -1 else 0.
Lemma bump_sum i j f : (i < n)%nat -> (j < n)%nat -> i <> j -> rsum (fun a => bump i j a * f a) (seq 0 n) = f i - f j.
Proof.
  intros Hi Hj Hn. rewrite <- (rsum_pick f i (seq 0 n)) by (try apply seq_NoDup; apply in_seq; lia).
  rewrite <- (rsum_pick f j (seq 0 n)) by (try apply seq_NoDup; apply in_seq; lia).
  rewrite <- rsum_sub. apply rsum_ext. intros a _. unfold bump. destruct (Nat.eqb_spec a i), (Nat.eqb_spec a j); subst; try congruence; ring.
Qed.
(** Moving a particle from [j] to [i]. *)
Lemma log_move d i j : (i < n)%nat -> (j < n)%nat -> i <> j -> d i = 0%nat -> d j = 1%nat ->
  log_jastrow n v (exchanged d i j) - log_jastrow n v d = field (fun k => INR (d k)) i - field (fun k => INR (d k)) j - v i j.
Proof.
  intros Hi Hj Hn Di Dj. set (D := fun k => INR (d k)).
  assert (E : quad (fun k => INR (exchanged d i j k)) (fun k => INR (exchanged d i j k)) = quad (fun k => D k + bump i j k) (fun k => D k + bump i j k)).
  { assert (X : forall k, INR (exchanged d i j k) = D k + bump i j k).
    { intros k. unfold exchanged, D, bump. destruct (Nat.eqb_spec k i); [subst; rewrite Di, Dj; simpl; lra|].
      destruct (Nat.eqb_spec k j); [subst; rewrite Di, Dj; simpl; lra|lra]. }
    unfold quad. apply rsum_ext. intros a _. apply rsum_ext. intros b _. rewrite !X. reflexivity. }
  pose proof (log_quad (exchanged d i j)) as L1. pose proof (log_quad d) as L2. fold D in L2. rewrite E in L1.
  rewrite quad_add_l, (quad_sym D), (quad_sym (bump i j)) in L1. rewrite !quad_add_l in L1.
  rewrite (quad_sym D (bump i j)) in L1.
  assert (Q1 : quad (bump i j) D = field D i - field D j) by (rewrite quad_field; apply bump_sum; auto).
  assert (Q2 : quad (bump i j) (bump i j) = - 2 * v i j).
  { rewrite quad_field, bump_sum by auto. unfold field.
    rewrite (rsum_ext (fun b => w i b * bump i j b) (fun b => bump i j b * w i b)) by (intros; ring).
    rewrite (rsum_ext (fun b => w j b * bump i j b) (fun b => bump i j b * w j b)) by (intros; ring).
    rewrite !bump_sum by auto. unfold w. rewrite !Nat.eqb_refl. rewrite (Nat.eqb_sym j i). destruct (Nat.eqb_spec i j); [contradiction|]. rewrite (Vsym j i) by auto. ring. }
  rewrite Q1, Q2 in L1. lra.
Qed.
End Ratio.

Section Code.
Context (j : jastrow) (v : nat -> nat -> R).
Hypothesis Hs : sized j.
Hypothesis Hv : forall a b, a < j_n j -> b < j_n j -> jastrow_get j a b = Ok (v a b).
Lemma v_sym a b : a < j_n j -> b < j_n j -> v a b = v b a.
Proof. intros A B. destruct (jastrow_get_ok j a b Hs A B) as (x & X & Y & _). rewrite Hv in X, Y by assumption. congruence. Qed.
Definition lin (s : site) : nat := fst s * j_lx j + snd s.
Definition inlat (s : site) : Prop := fst s < j_ly j /\ snd s < j_lx j.
Lemma lin_lt s : inlat s -> lin s < j_n j.
Proof. unfold inlat, lin, j_n. nia. Qed.
Lemma lin_inj s t : inlat s -> inlat t -> lin s = lin t -> s = t.
Proof. intros [A B] [A' B'] E. unfold lin in E. destruct s, t; simpl in *. assert (n = n1) by nia. subst. f_equal. lia. Qed.
(** Densities by linear index. *)
Definition linear_density (density : nat -> nat -> nat) (k : nat) : nat := density (k / j_lx j) (k mod j_lx j).
Lemma linear_at density s : inlat s -> linear_density density (lin s) = density (fst s) (snd s).
Proof.
  intros [A B]. unfold linear_density, lin. rewrite Nat.add_comm, Nat.div_add, Nat.mod_add, Nat.div_small, Nat.mod_small by lia. reflexivity.
Qed.
Lemma rows_seq : map lin (list_prod (seq 0 (j_ly j)) (seq 0 (j_lx j))) = seq 0 (j_n j).
Proof.
  unfold j_n. generalize (j_ly j) as ly. intros ly. unfold lin. generalize (j_lx j) as lx. intros lx.
  induction ly as [|ly IH]; [reflexivity|]. rewrite seq_S. cbn [Nat.add].
  assert (P : forall (l l' : list nat) m, list_prod (l ++ l') m = list_prod l m ++ list_prod l' (m : list nat)).
  { induction l as [|x l IHl]; intros; [reflexivity|]. cbn [app list_prod]. rewrite IHl, app_assoc. reflexivity. }
  rewrite P, map_app. replace (S ly * lx) with (ly * lx + lx) by lia. rewrite seq_app. cbn [list_prod]. rewrite app_nil_r, map_map.
  assert (G : forall l s b, map (fun x => b + x) (seq s l) = seq (b + s) l).
  { induction l as [|l IHl]; intros; [reflexivity|]. cbn [seq map]. f_equal. rewrite IHl. f_equal. lia. }
  apply f_equal2; [exact IH|]. cbn [fst snd Nat.add]. rewrite (G lx 0 (ly * lx)), Nat.add_0_r. reflexivity.
Qed.
Lemma field_ok density s : inlat s ->
  jastrow_field j density s = Ok (field (j_n j) v (fun k => INR (linear_density density k)) (lin s)).
Proof.
  intros Hi. unfold jastrow_field, site_linear. destruct Hi as [A B]. rewrite (guard_two (fst s) (snd s) _ _ A B). cbn [bind].
  change (fst s * j_lx j + snd s) with (lin s). unfold field. rewrite <- rows_seq, rsum_map.
  assert (HL : lin s < j_n j) by (apply lin_lt; split; assumption).
  assert (G : forall l acc, (forall x, In x l -> inlat x) ->
    fold_left (fun acc rc => sum <- acc;;
      let k := fst rc * j_lx j + snd rc in
      if k =? lin s then Ok sum else v0 <- jastrow_get j (lin s) k;; Ok (sum + v0 * INR (density (fst rc) (snd rc)))%R) l (Ok acc)
    = Ok (acc + rsum (fun x => w v (lin s) (lin x) * INR (linear_density density (lin x))) l)%R).
  { induction l as [|x l IH]; intros acc Hl; [cbn [fold_left]; rewrite rsum_nil; f_equal; ring|].
    cbn [fold_left bind]. change (fst x * j_lx j + snd x) with (lin x). rewrite rsum_cons, linear_at by (apply Hl; left; reflexivity).
    unfold w at 1. destruct (Nat.eqb_spec (lin x) (lin s)) as [E|N].
    - rewrite IH by (intros; apply Hl; right; assumption). rewrite E, Nat.eqb_refl. f_equal. ring.
    - rewrite Hv by (try exact HL; apply lin_lt, Hl; left; reflexivity). cbn [bind].
      rewrite IH by (intros; apply Hl; right; assumption). destruct (Nat.eqb_spec (lin s) (lin x)); [congruence|]. f_equal. ring. }
  rewrite G; [f_equal; ring|]. intros x Hx. destruct x. apply in_prod_iff in Hx. rewrite !in_seq in Hx. unfold inlat. simpl. lia.
Qed.
Lemma exp_move d a b : a < j_n j -> b < j_n j -> a <> b -> d a = 0 -> d b = 1 ->
  exp (field (j_n j) v (fun k => INR (d k)) a - field (j_n j) v (fun k => INR (d k)) b) =
  (jastrow_factor (j_n j) v (exchanged d a b) / jastrow_factor (j_n j) v d * exp (v a b))%R.
Proof.
  intros. unfold jastrow_factor. pose proof (log_move (j_n j) v v_sym d a b ltac:(auto) ltac:(auto) ltac:(auto) ltac:(auto) ltac:(auto)) as E.
  unfold Rdiv. rewrite <- exp_Ropp, <- !exp_plus. f_equal. lra.
Qed.
Lemma exchanged_sym d a b k : exchanged d a b k = exchanged d b a k.
Proof. unfold exchanged. destruct (Nat.eqb_spec k a), (Nat.eqb_spec k b); subst; reflexivity. Qed.
Lemma factor_ext n d d' : (forall k, k < n -> d k = d' k) -> jastrow_factor n v d = jastrow_factor n v d'.
Proof.
  intros H. unfold jastrow_factor, log_jastrow. f_equal. apply rsum_ext. intros [a b] Hi. apply in_prod_iff in Hi. rewrite !in_seq in Hi. cbn [fst snd].
  rewrite !H by lia. reflexivity.
Qed.
Lemma ratio_value density s1 s2 : inlat s1 -> inlat s2 -> s1 <> s2 ->
  (density (fst s1) (snd s1) = 0 /\ density (fst s2) (snd s2) = 1) \/ (density (fst s1) (snd s1) = 1 /\ density (fst s2) (snd s2) = 0) ->
  updater_jastrow_ratio j density s1 s2 =
  Ok (jastrow_factor (j_n j) v (exchanged (linear_density density) (lin s1) (lin s2)) / jastrow_factor (j_n j) v (linear_density density)
      * exp (v (lin s1) (lin s2)))%R.
Proof.
  intros H1 H2 Hn Hd. assert (NL : lin s1 <> lin s2) by (intros E; apply Hn, lin_inj; auto).
  unfold updater_jastrow_ratio. rewrite !field_ok by assumption. cbn [bind].
  pose proof (linear_at density s1 H1) as L1. pose proof (linear_at density s2 H2) as L2.
  pose proof (lin_lt s1 H1). pose proof (lin_lt s2 H2).
  destruct Hd as [[D1 D2]|[D1 D2]]; rewrite D1, D2; cbn [Nat.eqb andb]; f_equal.
  - apply exp_move; auto; congruence.
  - rewrite exp_move; auto; try congruence. rewrite (v_sym (lin s2)) by auto. do 2 f_equal. apply factor_ext. intros. apply exchanged_sym.
Qed.
Lemma ratio_equal density s1 s2 : density (fst s1) (snd s1) = density (fst s2) (snd s2) -> updater_jastrow_ratio j density s1 s2 = Ok 1%R.
Proof. intros E. unfold updater_jastrow_ratio. rewrite E, Nat.eqb_refl. reflexivity. Qed.
Lemma solver_ratio density s1 s2 k1 k2 : inlat s1 -> inlat s2 -> s1 <> s2 -> (k1 = 2 /\ k2 < 2) \/ (k1 < 2 /\ k2 = 2) ->
  density (fst s1) (snd s1) = (if k1 =? 2 then 0 else 1) -> density (fst s2) (snd s2) = (if k2 =? 2 then 0 else 1) ->
  solver_jastrow_ratio j density s1 s2 k1 = updater_jastrow_ratio j density s1 s2.
Proof.
  intros H1 H2 Hn Hc D1 D2. unfold solver_jastrow_ratio, updater_jastrow_ratio. rewrite !field_ok by assumption. cbn [bind]. rewrite D1, D2.
  destruct Hc as [[E1 E2]|[E1 E2]]; destruct (Nat.eqb_spec k1 2), (Nat.eqb_spec k2 2); try lia; reflexivity.
Qed.
Lemma exact_iff density s1 s2 : inlat s1 -> inlat s2 -> s1 <> s2 ->
  (density (fst s1) (snd s1) = 0 /\ density (fst s2) (snd s2) = 1) \/ (density (fst s1) (snd s1) = 1 /\ density (fst s2) (snd s2) = 0) ->
  updater_jastrow_ratio j density s1 s2 =
  Ok (jastrow_factor (j_n j) v (exchanged (linear_density density) (lin s1) (lin s2)) / jastrow_factor (j_n j) v (linear_density density))%R
  <-> v (lin s1) (lin s2) = 0%R.
Proof.
  intros H1 H2 Hn Hd. rewrite (ratio_value density s1 s2 H1 H2 Hn Hd).
  set (q := (jastrow_factor _ _ (exchanged _ _ _) / _)%R).
  assert (P : (0 < q)%R) by (apply Rdiv_lt_0_compat; apply exp_pos).
  split; intros E.
  - injection E as E. assert (E1 : exp (v (lin s1) (lin s2)) = 1%R) by nra. rewrite <- exp_0 in E1. apply exp_inv in E1. exact E1.
  - rewrite E, exp_0, Rmult_1_r. reflexivity.
Qed.
End Code.

(** *** Moves *)
Definition occupied (c : nat) : nat := if c =? 2 then 0 else 1.
Lemma occ_upd cfg density s x r k : (forall r k, density r k = occupied (cfg r k)) ->
  upd2 density s (occupied x) r k = occupied (upd2 cfg s x r k).
Proof. intros H. unfold upd2. destruct (site_eqb (r, k) s); [reflexivity|apply H]. Qed.
Lemma move_density j psi_a psi_b u s1 s2 cfg density acc cfg' density' :
  (forall r k, density r k = occupied (cfg r k)) ->
  jastrow_tj_move j psi_a psi_b u s1 s2 (cfg, density) = Ok (acc, (cfg', density')) ->
  (forall r k, density' r k = occupied (cfg' r k)).
Proof.
  intros H E. unfold jastrow_tj_move in E. destruct (_ =? _); [injection E as <- <- <-; exact H|].
  destruct (updater_jastrow_ratio _ _ _ _) as [x|]; [|discriminate]. cbn [bind] in E.
  match type of E with context [if ?b then _ else _] => destruct b end; injection E as <- <- <-; [|exact H].
  intros r k. rewrite !H. apply (occ_upd (upd2 cfg s1 _) (upd2 density s1 _)). intros r' k'. apply occ_upd. exact H.
Qed.
Lemma move_defined j v psi_a psi_b u s1 s2 cfg density : sized j ->
  (forall a b, a < j_n j -> b < j_n j -> jastrow_get j a b = Ok (v a b)) -> inlat j s1 -> inlat j s2 ->
  (forall r k, density r k = occupied (cfg r k)) -> exists x, jastrow_tj_move j psi_a psi_b u s1 s2 (cfg, density) = Ok x.
Proof.
  intros Hs Hv H1 H2 Hd. unfold jastrow_tj_move. destruct (_ =? _); [eauto|].
  unfold updater_jastrow_ratio. rewrite !(field_ok j v Hv) by assumption. rewrite !Hd. unfold occupied.
  destruct (_ =? 2), (_ =? 2); cbn [Nat.eqb andb bind];
  match goal with |- exists x, (if ?b then _ else _) = _ => destruct b end; eauto.
Qed.
(** A chain of three sites on which the acceptance rule is not balanced. *)
Definition chain3 : res jastrow :=
  (a <- jastrow_set (jastrow_new 1 3) 0 1 1;; jastrow_set a 1 2 (1 / 2))%R.
Lemma chain3_ok : exists j, chain3 = Ok j /\ sized j /\ j_ly j = 1 /\ j_lx j = 3 /\
  (forall a b, a < 3 -> b < 3 -> jastrow_get j a b =
     Ok (if (a + b =? 1) then 1 else if ((a =? 1) && (b =? 2)) || ((a =? 2) && (b =? 1)) then 1 / 2 else 0)%R).
Proof.
  destruct (jastrow_set_ok (jastrow_new 1 3) 0 1 1 (new_sized 1 3) ltac:(cbv; lia) ltac:(cbv; lia) ltac:(lia)) as (j1 & E1 & S1 & Y1 & X1 & G1).
  assert (N1 : j_n j1 = 3) by (unfold j_n; rewrite Y1, X1; reflexivity).
  destruct (jastrow_set_ok j1 1 2 (1 / 2)%R S1 ltac:(lia) ltac:(lia) ltac:(lia)) as (j2 & E2 & S2 & Y2 & X2 & G2).
  assert (N2 : j_n j2 = 3) by (unfold j_n; rewrite Y2, X2, Y1, X1; reflexivity).
  exists j2. unfold chain3. rewrite E1. cbn [bind]. split; [exact E2|]. split; [exact S2|]. split; [rewrite Y2, Y1; reflexivity|]. split; [rewrite X2, X1; reflexivity|].
  change (j_n (jastrow_new 1 3)) with 3 in G1. rewrite N1 in G2.
  intros a b Ha Hb. destruct (Nat.eq_dec a b) as [->|N].
  - destruct (jastrow_get_ok j2 b b S2 ltac:(lia) ltac:(lia)) as (x & X & _ & Z). rewrite X, Z by reflexivity. f_equal.
    destruct b as [|[|[|b]]]; try lia; reflexivity.
  - rewrite G2 by assumption. rewrite G1 by assumption. destruct a as [|[|[|a]]], b as [|[|[|b]]]; try lia; cbn; reflexivity.
Qed.
Lemma balance_fails : exists j v density s1 s2 r r',
  sized j /\ (forall a b, a < j_n j -> b < j_n j -> jastrow_get j a b = Ok (v a b)) /\ inlat j s1 /\ inlat j s2 /\
  updater_jastrow_ratio j density s1 s2 = Ok r /\
  updater_jastrow_ratio j (upd2 (upd2 density s1 (density (fst s2) (snd s2))) s2 (density (fst s1) (snd s1))) s1 s2 = Ok r' /\
  let before := jastrow_factor (j_n j) v (linear_density j density) in
  let after := jastrow_factor (j_n j) v (exchanged (linear_density j density) (lin j s1) (lin j s2)) in
  (before * before * Rmin 1 (r * r) <> after * after * Rmin 1 (r' * r'))%R.
Proof.
  destruct chain3_ok as (j & _ & S & Y & X & G). assert (N : j_n j = 3) by (unfold j_n; rewrite Y, X; reflexivity).
  set (v := fun a b => (if (a + b =? 1) then 1 else if ((a =? 1) && (b =? 2)) || ((a =? 2) && (b =? 1)) then 1 / 2 else 0)%R).
  assert (V : forall a b, a < j_n j -> b < j_n j -> jastrow_get j a b = Ok (v a b)) by (rewrite N; exact G).
  set (d := fun _ c : nat => if c =? 1 then 0 else 1). set (s1 := (0, 0)). set (s2 := (0, 1)).
  assert (I1 : inlat j s1) by (unfold inlat; rewrite Y, X; simpl; lia). assert (I2 : inlat j s2) by (unfold inlat; rewrite Y, X; simpl; lia).
  assert (NE : s1 <> s2) by discriminate.
  pose proof (ratio_value j v S V d s1 s2 I1 I2 NE ltac:(right; split; reflexivity)) as R1.
  set (d' := upd2 (upd2 d s1 (d (fst s2) (snd s2))) s2 (d (fst s1) (snd s1))).
  pose proof (ratio_value j v S V d' s1 s2 I1 I2 NE ltac:(left; split; reflexivity)) as R2.
  assert (L1 : lin j s1 = 0) by (unfold lin; rewrite X; reflexivity). assert (L2 : lin j s2 = 1) by (unfold lin; rewrite X; reflexivity).
  rewrite L1, L2, N in R1, R2.
  assert (D0 : forall f k, linear_density j f k = f (k / 3) (k mod 3)) by (intros; unfold linear_density; rewrite X; reflexivity).
  assert (FA : jastrow_factor 3 v (linear_density j d) = exp 0).
  { unfold jastrow_factor, log_jastrow. f_equal. cbn [seq list_prod map app]. rewrite !rsum_cons, rsum_nil. cbn [fst snd]. rewrite !D0. cbn. lra. }
  assert (FB : jastrow_factor 3 v (exchanged (linear_density j d) 0 1) = exp (1 / 2)).
  { unfold jastrow_factor, log_jastrow. f_equal. cbn [seq list_prod map app]. rewrite !rsum_cons, rsum_nil. cbn [fst snd]. unfold exchanged. rewrite !D0. cbn. lra. }
  assert (FC : jastrow_factor 3 v (linear_density j d') = exp (1 / 2)).
  { unfold jastrow_factor, log_jastrow. f_equal. cbn [seq list_prod map app]. rewrite !rsum_cons, rsum_nil. cbn [fst snd]. rewrite !D0. cbn. lra. }
  assert (FD : jastrow_factor 3 v (exchanged (linear_density j d') 0 1) = exp 0).
  { unfold jastrow_factor, log_jastrow. f_equal. cbn [seq list_prod map app]. rewrite !rsum_cons, rsum_nil. cbn [fst snd]. unfold exchanged. rewrite !D0. cbn. lra. }
  rewrite FA, FB in R1. rewrite FC, FD in R2.
  exists j, v, d, s1, s2. eexists. eexists. split; [exact S|]. split; [exact V|]. split; [exact I1|]. split; [exact I2|].
  split; [exact R1|]. split; [exact R2|]. rewrite N, L1, L2, FA, FB. cbv zeta.
  change (v 0 1) with 1%R. pose proof (exp_pos (1 / 2)) as P. set (h := exp (1 / 2)) in *.
  assert (E1 : exp 1 = (h * h)%R) by (unfold h; rewrite <- exp_plus; f_equal; lra). rewrite exp_0, E1.
  assert (H1 : (1 < h)%R) by (rewrite <- exp_0; unfold h; apply exp_increasing; lra).
  rewrite !Rmin_left.
  - nra.
  - replace (1 / h * (h * h))%R with h by (field; lra). nra.
  - replace (h / 1 * (h * h))%R with (h * h * h)%R by field. assert (1 < h * h)%R by nra. assert (1 < h * h * h)%R by nra. nra.
Qed.
Lemma packing_bijective n :
  (forall i j, i < j -> j < n -> exists k, packed_upper_index n i j = Ok k /\ k < n * (n - 1) / 2) /\
  (forall i j i' j' k, i < j -> j < n -> i' < j' -> j' < n ->
     packed_upper_index n i j = Ok k -> packed_upper_index n i' j' = Ok k -> i = i' /\ j = j') /\
  (forall k, k < n * (n - 1) / 2 -> exists i j, i < j /\ j < n /\ packed_upper_index n i j = Ok k).
Proof.
  split; [|split].
  - intros i j H1 H2. destruct (packed_ok n i j H1 H2) as (k & E & _). exists k. split; [exact E|]. exact (packed_range n i j k H1 H2 E).
  - intros i j i' j' k A B C D E F. exact (packed_inj n i j i' j' k A B C D E F).
  - apply packed_surj.
Qed.
Lemma new_reads_zero ly lx a b : a < ly * lx -> b < ly * lx -> jastrow_get (jastrow_new ly lx) a b = Ok 0%R.
Proof.
  intros A B. unfold jastrow_get. change (j_n (jastrow_new ly lx)) with (ly * lx). rewrite (guard_true a b _ A B).
  destruct (Nat.eqb_spec a b) as [E|N]; [reflexivity|]. rewrite pick_packed. destruct (lohi a b _ A B N) as [L1 L2].
  destruct (packed_ok _ _ _ L1 L2) as (k & E & _). rewrite E. cbn [bind]. pose proof (packed_range _ _ _ _ L1 L2 E) as R.
  unfold vec_get, jastrow_new. cbn [j_v]. rewrite nth_error_repeat by exact R. reflexivity.
Qed.
Lemma reads_last_store ly lx (h : list (nat * nat * R)) :
  (forall a b x, In (a, b, x) h -> a < ly * lx /\ b < ly * lx /\ a <> b) ->
  exists j, fold_left (fun acc s => j <- acc;; jastrow_set j (fst (fst s)) (snd (fst s)) (snd s)) h (Ok (jastrow_new ly lx)) = Ok j /\
    forall a b, a < ly * lx -> b < ly * lx ->
      jastrow_get j a b =
      Ok (match find (fun s => ((a =? fst (fst s)) && (b =? snd (fst s))) || ((a =? snd (fst s)) && (b =? fst (fst s)))) (rev h) with
          | Some s => snd s
          | None => 0%R
          end).
Proof.
  intros Hh.
  assert (G : exists j, fold_left (fun acc s => j <- acc;; jastrow_set j (fst (fst s)) (snd (fst s)) (snd s)) h (Ok (jastrow_new ly lx)) = Ok j /\
    sized j /\ j_ly j = ly /\ j_lx j = lx /\ forall a b, a < ly * lx -> b < ly * lx -> jastrow_get j a b =
      Ok (match find (fun s => ((a =? fst (fst s)) && (b =? snd (fst s))) || ((a =? snd (fst s)) && (b =? fst (fst s)))) (rev h) with
          | Some s => snd s | None => 0%R end)).
  { induction h as [|[[p q] x] h IH] using rev_ind.
    - exists (jastrow_new ly lx). split; [reflexivity|]. split; [apply new_sized|]. split; [reflexivity|]. split; [reflexivity|]. apply new_reads_zero.
    - destruct IH as (j & E & S & Y & X & Q); [intros; apply (Hh a b x0), in_or_app; auto|].
      destruct (Hh p q x ltac:(apply in_or_app; right; left; reflexivity)) as (P1 & P2 & P3).
      assert (N : j_n j = ly * lx) by (unfold j_n; congruence).
      destruct (jastrow_set_ok j p q x S ltac:(lia) ltac:(lia) P3) as (j' & E' & S' & Y' & X' & Q').
      exists j'. rewrite fold_left_app, E. cbn [fold_left bind fst snd]. split; [exact E'|]. split; [exact S'|]. split; [congruence|]. split; [congruence|].
      intros a b A B. rewrite rev_app_distr. cbn [rev app find fst snd].
      destruct (Nat.eq_dec a b) as [->|Nab].
      + assert (N' : j_n j' = ly * lx) by (unfold j_n; congruence).
        destruct (jastrow_get_ok j' b b S' ltac:(lia) ltac:(lia)) as (z & Z & _ & Z0). rewrite Z, Z0 by reflexivity.
        pose proof (Q b b B B) as Q0. destruct (jastrow_get_ok j b b S ltac:(lia) ltac:(lia)) as (z' & Z' & _ & Z0'). rewrite Z', Z0' in Q0 by reflexivity.
        assert (F : (b =? p) && (b =? q) || (b =? q) && (b =? p) = false) by (destruct (Nat.eqb_spec b p), (Nat.eqb_spec b q); try reflexivity; congruence).
        rewrite F. exact Q0.
      + rewrite Q' by lia. destruct (_ || _); [reflexivity|]. apply Q; assumption. }
  destruct G as (j & E & _ & _ & _ & Q). exists j. split; assumption.
Qed.
Lemma fill_sets ly lx f :
  exists j, jastrow_fill (jastrow_new ly lx) f = Ok j /\
    forall a b, a < b -> b < ly * lx -> jastrow_get j a b = Ok (f a b) /\ jastrow_get j b a = Ok (f a b).
Proof. destruct (jastrow_fill_ok (jastrow_new ly lx) f (new_sized ly lx)) as (j & E & _ & _ & Q). exists j. split; [exact E|exact Q]. Qed.
Lemma move_keeps j v psi_a psi_b u s1 s2 cfg density : sized j ->
  (forall a b, a < j_n j -> b < j_n j -> jastrow_get j a b = Ok (v a b)) -> inlat j s1 -> inlat j s2 ->
  (forall r k, density r k = if cfg r k =? 2 then 0 else 1) ->
  exists acc cfg' density', jastrow_tj_move j psi_a psi_b u s1 s2 (cfg, density) = Ok (acc, (cfg', density')) /\
    (forall r k, density' r k = if cfg' r k =? 2 then 0 else 1).
Proof.
  intros Hs Hv H1 H2 Hd. destruct (move_defined j v psi_a psi_b u s1 s2 cfg density Hs Hv H1 H2 Hd) as [[acc [c d]] E].
  exists acc, c, d. split; [exact E|]. exact (move_density j psi_a psi_b u s1 s2 cfg density acc c d Hd E).
Qed.
Lemma jastrow_exists ly lx f : exists j, sized j /\ j_ly j = ly /\ j_lx j = lx /\
  forall a b, a < b -> b < ly * lx -> jastrow_get j a b = Ok (f a b) /\ jastrow_get j b a = Ok (f a b).
Proof.
  destruct (jastrow_fill_ok' (jastrow_new ly lx) f (new_sized ly lx)) as (j & E & S & Y & X & Q). exists j. auto.
Qed.
