(** The layers that Init builds, for every accepted size. *)
From Coq Require Import List Arith Lia Bool Permutation ZArith ZifyNat Zify.
From Verif Require Import Base SumSpec SumProofs TrgModel TrgSpec TrgProofs.
Import ListNotations.
Local Open Scope nat_scope.

(** *** Linking coarse nodes with their children *)
Definition kids (k : children) : list nat := let '(((k0, k1), k2), k3) := k in [k0; k1; k2; k3].
Lemma in_kids k f : In f (kids k) <-> exists i, i < 4 /\ child k i = f.
Proof.
  destruct k as [[[k0 k1] k2] k3]. cbn [kids In child]. split.
  - intros [H|[H|[H|[H|[]]]]]; [exists 0|exists 1|exists 2|exists 3]; (split; [lia|exact H]).
  - intros (i & Hi & H). destruct i as [|[|[|[|i]]]]; [| | | |lia]; tauto.
Qed.
Lemma first_role_some k f : In f (kids k) -> exists i, first_role k f = Some i.
Proof.
  destruct k as [[[k0 k1] k2] k3]. cbn [kids In]. unfold first_role.
  destruct (Nat.eqb_spec k0 f); [eauto|]. destruct (Nat.eqb_spec k1 f); [eauto|]. destruct (Nat.eqb_spec k2 f); [eauto|]. destruct (Nat.eqb_spec k3 f); [eauto|]. tauto.
Qed.
Lemma last_role_some k f : In f (kids k) -> exists i, last_role k f = Some i /\ i < 4 /\ child k i = f.
Proof.
  destruct k as [[[k0 k1] k2] k3]. cbn [kids In child]. unfold last_role. intros H.
  destruct (Nat.eqb_spec k3 f); [exists 3; repeat split; [lia|assumption]|]. destruct (Nat.eqb_spec k2 f); [exists 2; repeat split; [lia|assumption]|].
  destruct (Nat.eqb_spec k1 f); [exists 1; repeat split; [lia|assumption]|]. destruct (Nat.eqb_spec k0 f); [exists 0; repeat split; [lia|assumption]|]. tauto.
Qed.
(** the coarse nodes that have [f] as a child, in the order in which they are added *)
Definition occ (links : list (nat * children)) (f : nat) : list nat :=
  flat_map (fun x => map (fun _ => fst x) (filter (fun k => k =? f) (kids (snd x)))) links.
Lemma in_occ links f q : In q (occ links f) <-> exists k, In (q, k) links /\ In f (kids k).
Proof.
  unfold occ. rewrite in_flat_map. split.
  - intros ([q' k] & H & W). apply in_map_iff in W. destruct W as (g & E & W). cbn [fst snd] in *. subst q'. apply filter_In in W. destruct W as [W W']. apply Nat.eqb_eq in W'. subst g. exists k. split; assumption.
  - intros (k & H & W). exists (q, k). split; [exact H|]. cbn [fst snd]. apply in_map_iff. exists f. split; [reflexivity|]. apply filter_In. split; [exact W|apply Nat.eqb_refl].
Qed.
Lemma occ_nodup links f : NoDup (map fst links) -> (forall q k, In (q, k) links -> NoDup (kids k)) -> NoDup (occ links f).
Proof.
  induction links as [|[q k] links IH]; intros N D; [constructor|]. cbn [map fst] in N. inversion N as [|? ? N1 N2]; subst.
  change (occ ((q, k) :: links) f) with (map (fun _ => q) (filter (fun g => g =? f) (kids k)) ++ occ links f).
  assert (R : NoDup (occ links f)) by (apply IH; [exact N2|intros q' k' H; apply (D q' k'); right; exact H]).
  assert (Q : ~ In q (occ links f)) by (intros W; apply in_occ in W; destruct W as (k' & W & _); apply N1; apply (in_map fst) in W; exact W).
  pose proof (D q k (or_introl eq_refl)) as Dk. destruct (in_dec Nat.eq_dec f (kids k)) as [W|W].
  - apply in_split in W. destruct W as (l1 & l2 & W). rewrite W in Dk |- *. apply NoDup_remove_2 in Dk. rewrite filter_app. cbn [filter]. rewrite Nat.eqb_refl.
    assert (Z : forall l, ~ In f l -> filter (fun g => g =? f) l = []).
    { induction l as [|g l IHl]; intros M; [reflexivity|]. cbn [filter]. destruct (Nat.eqb_spec g f); [exfalso; apply M; left; assumption|]. apply IHl. intros M'. apply M. right. exact M'. }
    rewrite !Z by (intros M; apply Dk; apply in_or_app; tauto). cbn [map app]. constructor; assumption.
  - replace (filter (fun g => g =? f) (kids k)) with (@nil nat); [exact R|]. clear -W. induction (kids k) as [|g l IHl]; [reflexivity|]. cbn [filter]. destruct (Nat.eqb_spec g f); [exfalso; apply W; left; assumption|]. apply IHl. intros M. apply W. right. exact M.
Qed.
Definition slots (l : list nat) : parents :=
  match l with [] => (None, None) | a :: t => (Some a, match rev t with [] => None | b :: _ => Some b end) end.
Lemma slots_snoc l q : slots (l ++ [q]) = match fst (slots l) with None => (Some q, snd (slots l)) | Some _ => (fst (slots l), Some q) end.
Proof. destruct l as [|a l]; [reflexivity|]. cbn [app slots fst]. rewrite rev_app_distr. reflexivity. Qed.
Lemma add_parent_ok a f q : f < alen a -> exists a', add_parent a f q = Ok a' /\ alen a' = alen a /\
  forall g l, aval a g = slots l -> aval a' g = slots (l ++ if g =? f then [q] else []).
Proof.
  intros H. unfold add_parent. rewrite aget_ok by exact H. cbn [bind]. destruct (fst (aval a f)) as [x|] eqn:E; rewrite aset_ok by exact H.
  - eexists. split; [reflexivity|]. split; [reflexivity|]. intros g l W. cbn [aval]. destruct (Nat.eqb_spec g f) as [->|]; [|rewrite app_nil_r; exact W].
    rewrite slots_snoc, <- W, E. reflexivity.
  - eexists. split; [reflexivity|]. split; [reflexivity|]. intros g l W. cbn [aval]. destruct (Nat.eqb_spec g f) as [->|]; [|rewrite app_nil_r; exact W].
    rewrite slots_snoc, <- W, E. reflexivity.
Qed.
Lemma link_ok a b q k : q < alen b -> (forall f, In f (kids k) -> f < alen a) ->
  exists a', link (a, b) (q, k) = Ok (a', Arr (alen b) (fun j => if j =? q then k else aval b j)) /\ alen a' = alen a /\
    forall g l, aval a g = slots l -> aval a' g = slots (l ++ map (fun _ => q) (filter (fun x => x =? g) (kids k))).
Proof.
  intros Hq Hk. destruct k as [[[k0 k1] k2] k3]. cbn [kids In] in Hk. cbn [link fst snd]. rewrite aset_ok by exact Hq. cbn [bind].
  destruct (add_parent_ok a k0 q) as (a0 & -> & L0 & E0); [apply Hk; tauto|]. cbn [bind].
  destruct (add_parent_ok a0 k1 q) as (a1 & -> & L1 & E1); [rewrite L0; apply Hk; tauto|]. cbn [bind].
  destruct (add_parent_ok a1 k2 q) as (a2 & -> & L2 & E2); [rewrite L1, L0; apply Hk; tauto|]. cbn [bind].
  destruct (add_parent_ok a2 k3 q) as (a3 & -> & L3 & E3); [rewrite L2, L1, L0; apply Hk; tauto|]. cbn [bind].
  exists a3. split; [reflexivity|]. split; [congruence|]. intros g l W. rewrite (E3 g _ (E2 g _ (E1 g _ (E0 g _ W)))). f_equal. rewrite <- !app_assoc. f_equal. cbn [kids filter].
  rewrite (Nat.eqb_sym k0 g), (Nat.eqb_sym k1 g), (Nat.eqb_sym k2 g), (Nat.eqb_sym k3 g).
  destruct (g =? k0), (g =? k1), (g =? k2), (g =? k3); reflexivity.
Qed.
(** a family of coarse nodes [0..count) over the fine nodes [0..size) in which each fine node has two parents *)
Record linked (links : list (nat * children)) (size count : nat) : Prop := {
  lk_nodup : NoDup (map fst links);
  lk_all : forall q, q < count -> In q (map fst links);
  lk_range : forall q k, In (q, k) links -> q < count /\ NoDup (kids k) /\ forall f, In f (kids k) -> f < size;
  lk_two : forall f, f < size -> exists p1 p2, p1 <> p2 /\ forall q, (exists k, In (q, k) links /\ In f (kids k)) <-> q = p1 \/ q = p2
}.
Lemma links_ok links size count : linked links size count ->
  exists (a : arr parents) (b : arr children), foreach links (anew size (None, None), anew count (0, 0, 0, 0)) link = Ok (a, b) /\ alen a = size /\ alen b = count /\
    (forall q k, In (q, k) links -> aval b q = k) /\
    (forall f, f < size -> exists p1 p2 k1 k2, aval a f = (Some p1, Some p2) /\ In (p1, k1) links /\ In f (kids k1) /\ In (p2, k2) links /\ In f (kids k2) /\
       forall q k, In (q, k) links -> In f (kids k) -> q = p1 \/ q = p2).
Proof.
  intros [N A R T].
  destruct (foreach_inv (fun done (st : arr parents * arr children) => alen (fst st) = size /\ alen (snd st) = count /\
      (forall q k, In (q, k) done -> aval (snd st) q = k) /\ (forall f, aval (fst st) f = slots (occ done f)))
    link links (anew size (None, None), anew count (0, 0, 0, 0))) as ([a b] & E & H1 & H2 & H3 & H4).
  - cbn [fst snd]. split; [reflexivity|]. split; [reflexivity|]. split; [intros q k []|reflexivity].
  - intros done [q k] rest [a b] E (H1 & H2 & H3 & H4). cbn [fst snd] in *. assert (Hin : In (q, k) links) by (rewrite E; apply in_or_app; right; left; reflexivity).
    destruct (R q k Hin) as (R1 & R2 & R3). destruct (link_ok a b q k) as (a' & -> & L1 & L2); [lia|intros f Hf; rewrite H1; apply R3; exact Hf|].
    eexists. split; [reflexivity|]. cbn [fst snd alen aval]. split; [congruence|]. split; [exact H2|]. split.
    + intros q' k' W. apply in_app_or in W. destruct (Nat.eqb_spec q' q) as [->|NE].
      * destruct W as [W|[W|[]]]; [|congruence]. exfalso. rewrite E, map_app in N. cbn [map fst] in N. apply NoDup_remove_2 in N. apply N. apply in_or_app. left. apply (in_map fst) in W. exact W.
      * destruct W as [W|[W|[]]]; [apply H3; exact W|congruence].
    + intros f. rewrite (L2 f _ (H4 f)). f_equal. unfold occ. rewrite flat_map_app. cbn [flat_map fst snd]. rewrite app_nil_r. reflexivity.
  - cbn [fst snd] in *. exists a, b. split; [exact E|]. split; [exact H1|]. split; [exact H2|]. split; [exact H3|].
    intros f Hf. destruct (T f Hf) as (p1 & p2 & NE & Q).
    assert (P : Permutation (occ links f) [p1; p2]).
    { apply NoDup_Permutation; [apply occ_nodup; [exact N|intros q k W; apply (R q k W)]|constructor; [intros [W|[]]; congruence|constructor; [intros []|constructor]]|].
      intros q. rewrite in_occ, Q. cbn [In]. intuition. }
    assert (L : exists x y, occ links f = [x; y]).
    { apply Permutation_length in P. destruct (occ links f) as [|x [|y [|z l]]]; cbn [length] in P; try lia. exists x, y. reflexivity. }
    destruct L as (x & y & L). assert (I : forall q, In q (occ links f) <-> q = p1 \/ q = p2) by (intros q; rewrite in_occ; apply Q).
    destruct (proj1 (in_occ links f x)) as (k1 & K1 & K2); [rewrite L; left; reflexivity|]. destruct (proj1 (in_occ links f y)) as (k2 & K3 & K4); [rewrite L; right; left; reflexivity|].
    exists x, y, k1, k2. split; [rewrite H4, L; reflexivity|]. do 4 (split; [assumption|]). intros q k W V. assert (In q (occ links f)) by (apply in_occ; exists k; split; assumption).
    rewrite L in H. destruct H as [H|[H|[]]]; [left|right]; symmetry; assumption.
Qed.

(** *** Even layers: plaquettes of a periodic lattice *)
Ltac Zify.zify_post_hook ::= Z.to_euclidean_division_equations.
Lemma even_mod x : Nat.even x = (x mod 2 =? 0).
Proof. destruct (Nat.even x) eqn:E; symmetry; [apply Nat.eqb_eq; apply Nat.even_spec in E; destruct E as [y ->]|apply Nat.eqb_neq]; [lia|]. assert (O : Nat.odd x = true) by (rewrite <- Nat.negb_even, E; reflexivity). apply Nat.odd_spec in O. destruct O as [y ->]. lia. Qed.
Lemma odd_mod x : Nat.odd x = (x mod 2 =? 1).
Proof. rewrite <- Nat.negb_even, even_mod. destruct (Nat.eqb_spec (x mod 2) 0), (Nat.eqb_spec (x mod 2) 1); cbn [negb]; try reflexivity; lia. Qed.
Lemma code_inj m a b a' b' : b < m -> b' < m -> a * m + b = a' * m + b' -> a = a' /\ b = b'.
Proof. intros H H' E. destruct (Nat.div_mod_unique m a a' b b' H H'); [rewrite !(Nat.mul_comm m); exact E|]. split; assumption. Qed.
Lemma code_lt m k a b : a < k -> b < m -> a * m + b < k * m.
Proof. intros. nia. Qed.
Lemma code_div m a b : b < m -> (a * m + b) / m = a.
Proof. intros H. rewrite Nat.div_add_l by lia. rewrite Nat.div_small by exact H. lia. Qed.
Lemma code_mod m a b : b < m -> (a * m + b) mod m = b.
Proof. intros H. rewrite Nat.add_comm, Nat.mod_add by lia. apply Nat.mod_small. exact H. Qed.
Lemma decode m k f : f < k * m -> exists a b, f = a * m + b /\ a < k /\ b < m.
Proof. intros H. assert (m <> 0) by nia. exists (f / m), (f mod m). split; [rewrite Nat.mul_comm; apply Nat.div_mod; assumption|]. split; [apply Nat.div_lt_upper_bound; [assumption|lia]|apply Nat.mod_upper_bound; assumption]. Qed.
Lemma in_sites n r c : In (r, c) (all_sites n) <-> r < n /\ c < n.
Proof. unfold all_sites. rewrite in_prod_iff, !in_seq. lia. Qed.
Lemma sites_nodup n : NoDup (all_sites n).
Proof. exact (grid_nodup n n). Qed.
Lemma nodup_map_inj {A B} (f : A -> B) l : NoDup l -> (forall x y, In x l -> In y l -> f x = f y -> x = y) -> NoDup (map f l).
Proof.
  induction 1 as [|x l H N IH]; intros D; cbn [map]; [constructor|]. constructor.
  - intros W. apply in_map_iff in W. destruct W as (y & E & Hy). apply H. rewrite <- (D y x); [exact Hy|right; exact Hy|left; reflexivity|exact E].
  - apply IH. intros a b Ha Hb. apply D; right; assumption.
Qed.
Definition up1 (n x : nat) := (x + 1) mod n.
Definition down1 (n x : nat) := (x + n - 1) mod n.
Lemma up1_val n x : x < n -> up1 n x = if x =? n - 1 then 0 else x + 1.
Proof. intros H. unfold up1. destruct (Nat.eqb_spec x (n - 1)); [replace (x + 1) with n by lia; apply Nat.mod_same; lia|apply Nat.mod_small; lia]. Qed.
Lemma down1_val n x : x < n -> down1 n x = if x =? 0 then n - 1 else x - 1.
Proof.
  intros H. unfold down1. destruct (Nat.eqb_spec x 0); [subst x; apply Nat.mod_small; lia|]. replace (x + n - 1) with (x - 1 + 1 * n) by lia. rewrite Nat.mod_add by lia. apply Nat.mod_small. lia.
Qed.
Lemma in_even_links m q k : In (q, k) (even_links (2 * m)) <-> exists r c, r < 2 * m /\ c < 2 * m /\ (r + c) mod 2 = 0 /\ q = r * m + c / 2 /\
  k = (r * (2 * m) + c, r * (2 * m) + up1 (2 * m) c, up1 (2 * m) r * (2 * m) + c, up1 (2 * m) r * (2 * m) + up1 (2 * m) c).
Proof.
  unfold even_links. rewrite (Nat.mul_comm 2 m), Nat.div_mul by lia. rewrite (Nat.mul_comm m 2). rewrite in_map_iff. split.
  - intros ([r c] & E & H). apply filter_In in H. cbn [fst snd] in H. destruct H as [H1 H2]. apply in_sites in H1. rewrite even_mod in H2. apply Nat.eqb_eq in H2. injection E as <- <-.
    exists r, c. repeat split; try tauto.
  - intros (r & c & H1 & H2 & H3 & -> & ->). exists (r, c). split; [reflexivity|]. apply filter_In. split; [apply in_sites; split; assumption|]. cbn [fst snd]. rewrite even_mod, H3. reflexivity.
Qed.
Lemma up1_lt n x : x < n -> up1 n x < n.
Proof. intros H. apply Nat.mod_upper_bound. lia. Qed.
Lemma down1_lt n x : x < n -> down1 n x < n.
Proof. intros H. apply Nat.mod_upper_bound. lia. Qed.
Lemma up_down n x : x < n -> up1 n (down1 n x) = x.
Proof. intros H. rewrite up1_val by (apply down1_lt; exact H). rewrite down1_val by exact H. destruct (Nat.eqb_spec x 0); [destruct (Nat.eqb_spec (n - 1) (n - 1)); lia|]. destruct (Nat.eqb_spec (x - 1) (n - 1)); lia. Qed.
Lemma up1_inj n x y : x < n -> y < n -> up1 n x = up1 n y -> x = y.
Proof. intros H H'. rewrite !up1_val by assumption. destruct (Nat.eqb_spec x (n - 1)), (Nat.eqb_spec y (n - 1)); lia. Qed.
Lemma up1_neq n x : 2 <= n -> x < n -> up1 n x <> x.
Proof. intros N H. rewrite up1_val by assumption. destruct (Nat.eqb_spec x (n - 1)); lia. Qed.
Lemma up1_par m x : x < 2 * m -> (up1 (2 * m) x + x) mod 2 = 1.
Proof. intros H. rewrite up1_val by assumption. destruct (Nat.eqb_spec x (2 * m - 1)); lia. Qed.
Lemma down1_par m x : x < 2 * m -> (down1 (2 * m) x + x) mod 2 = 1.
Proof. intros H. rewrite down1_val by assumption. destruct (Nat.eqb_spec x 0); lia. Qed.
Lemma in_square w r c r' c' r1 c1 : c < w -> c' < w -> c1 < w ->
  (In (r * w + c) (kids (r' * w + c', r' * w + c1, r1 * w + c', r1 * w + c1)) <-> (r = r' \/ r = r1) /\ (c = c' \/ c = c1)).
Proof.
  intros H1 H2 H3. cbn [kids In]. split.
  - intros [E|[E|[E|[E|[]]]]]; apply code_inj in E; try assumption; destruct E; subst; tauto.
  - intros [[-> | ->] [-> | ->]]; tauto.
Qed.
Lemma even_linked m : 2 <= m -> linked (even_links (2 * m)) (2 * m * (2 * m)) (2 * m * m).
Proof.
  intros M. constructor.
  - unfold even_links. rewrite map_map. apply nodup_map_inj; [apply NoDup_filter, sites_nodup|]. intros [r c] [r' c'] H H'. apply filter_In in H, H'. cbn [fst snd] in *.
    destruct H as [H1 H2], H' as [H1' H2']. apply in_sites in H1, H1'. rewrite even_mod in H2, H2'. apply Nat.eqb_eq in H2, H2'. rewrite (Nat.mul_comm 2 m), Nat.div_mul by lia. intros E.
    apply code_inj in E; [|lia|lia]. destruct E as [-> E]. f_equal. lia.
  - intros q Hq. destruct (decode m (2 * m) q Hq) as (a & b & -> & Ha & Hb). apply in_map_iff.
    assert (W : exists k, In (a * m + b, k) (even_links (2 * m))).
    { eexists. apply in_even_links. exists a, (2 * b + a mod 2). split; [exact Ha|]. split; [lia|]. split; [lia|]. split; [|reflexivity]. f_equal. lia. }
    destruct W as (k & W). exists (a * m + b, k). split; [reflexivity|exact W].
  - intros q k H. apply in_even_links in H. destruct H as (r & c & Hr & Hc & P & -> & ->). pose proof (up1_lt _ _ Hr) as Ur. pose proof (up1_lt _ _ Hc) as Uc.
    pose proof (up1_neq (2 * m) r ltac:(lia) Hr) as Nr. pose proof (up1_neq (2 * m) c ltac:(lia) Hc) as Nc.
    split; [apply code_lt; lia|]. split.
    + cbn [kids]. repeat constructor; cbn [In]; intros W; repeat (destruct W as [W|W]); try (apply code_inj in W; try assumption; lia); destruct W.
    + cbn [kids In]. intros f W. repeat (destruct W as [W|W]); [..|destruct W]; subst f; apply code_lt; assumption.
  - intros f Hf. destruct (decode (2 * m) (2 * m) f Hf) as (r & c & -> & Hr & Hc).
    assert (W : forall q, (exists k, In (q, k) (even_links (2 * m)) /\ In (r * (2 * m) + c) (kids k)) <->
      exists r' c', r' < 2 * m /\ c' < 2 * m /\ (r' + c') mod 2 = 0 /\ q = r' * m + c' / 2 /\ (r = r' \/ r = up1 (2 * m) r') /\ (c = c' \/ c = up1 (2 * m) c')).
    { intros q. split.
      - intros (k & H1 & H2). apply in_even_links in H1. destruct H1 as (r' & c' & R1 & R2 & R3 & R4 & ->). apply in_square in H2; [|assumption|assumption|apply up1_lt; assumption]. exists r', c'. tauto.
      - intros (r' & c' & R1 & R2 & R3 & R4 & R5 & R6). eexists. split; [apply in_even_links; exists r', c'; repeat split; eassumption|]. apply in_square; [assumption|assumption|apply up1_lt; assumption|tauto]. }
    pose proof (down1_lt _ _ Hr) as Dr. pose proof (down1_lt _ _ Hc) as Dc. pose proof (down1_par m r Hr) as Pr. pose proof (down1_par m c Hc) as Pc.
    assert (UD : forall x y, x < 2 * m -> y < 2 * m -> y = up1 (2 * m) x -> x = down1 (2 * m) y) by (intros x y Hx Hy E; apply (up1_inj (2 * m)); [exact Hx|apply down1_lt; exact Hy|rewrite up_down by exact Hy; symmetry; exact E]).
    assert (NE : down1 (2 * m) r <> r) by (intros E; rewrite E in Pr; lia).
    destruct (Nat.eq_dec ((r + c) mod 2) 0) as [P|P].
    + exists (r * m + c / 2), (down1 (2 * m) r * m + down1 (2 * m) c / 2). split; [intros E; apply code_inj in E; lia|]. intros q. rewrite W. split.
      * intros (r' & c' & R1 & R2 & R3 & -> & [<-|R5] & [<-|R6]); [left; reflexivity| | |right].
        -- exfalso. apply UD in R6; try assumption. subst c'. lia.
        -- exfalso. apply UD in R5; try assumption. subst r'. lia.
        -- apply UD in R5; try assumption. apply UD in R6; try assumption. subst. reflexivity.
      * intros [-> | ->]; [exists r, c; tauto|]. exists (down1 (2 * m) r), (down1 (2 * m) c). rewrite !up_down by assumption. repeat split; try assumption; try tauto. lia.
    + exists (r * m + down1 (2 * m) c / 2), (down1 (2 * m) r * m + c / 2). split; [intros E; apply code_inj in E; lia|]. intros q. rewrite W. split.
      * intros (r' & c' & R1 & R2 & R3 & -> & [<-|R5] & [<-|R6]); [| left|right|].
        -- exfalso. lia.
        -- apply UD in R6; try assumption. subst c'. reflexivity.
        -- apply UD in R5; try assumption. subst r'. reflexivity.
        -- exfalso. apply UD in R5; try assumption. apply UD in R6; try assumption. subst. lia.
      * intros [-> | ->]; [exists r, (down1 (2 * m) c)|exists (down1 (2 * m) r), c]; rewrite !up_down by assumption; repeat split; try assumption; try tauto; lia.
Qed.

(** *** Odd layers: diamonds *)
Lemma in_odd_links m q k : In (q, k) (odd_links (2 * m)) <-> exists i j, i < m /\ j < m /\ q = i * m + j /\
  k = (down1 (2 * m) (2 * i) * m + j, 2 * i * m + up1 (2 * m) (2 * j + 1) / 2, (2 * i + 1) * m + j, 2 * i * m + j).
Proof.
  unfold odd_links. rewrite (Nat.mul_comm 2 m), Nat.div_mul by lia. rewrite (Nat.mul_comm m 2). rewrite in_map_iff.
  assert (E : forall i j, i < m -> j < m -> (2 * i / 2 * m + (2 * j + 1 - 1) / 2,
     ((2 * i + 2 * m - 1) mod (2 * m) * m + (2 * j + 1) / 2, 2 * i * m + (2 * j + 1 + 1) mod (2 * m) / 2, (2 * i + 1) mod (2 * m) * m + (2 * j + 1) / 2, 2 * i * m + (2 * j + 1 + 2 * m - 1) mod (2 * m) / 2)) =
     (i * m + j, (down1 (2 * m) (2 * i) * m + j, 2 * i * m + up1 (2 * m) (2 * j + 1) / 2, (2 * i + 1) * m + j, 2 * i * m + j))).
  { intros i j Hi Hj. change ((2 * i + 2 * m - 1) mod (2 * m)) with (down1 (2 * m) (2 * i)). change ((2 * j + 1 + 1) mod (2 * m)) with (up1 (2 * m) (2 * j + 1)).
    change ((2 * j + 1 + 2 * m - 1) mod (2 * m)) with (down1 (2 * m) (2 * j + 1)). change ((2 * i + 1) mod (2 * m)) with (up1 (2 * m) (2 * i)).
    rewrite (down1_val (2 * m) (2 * j + 1)) by lia. rewrite (up1_val (2 * m) (2 * i)) by lia. destruct (Nat.eqb_spec (2 * j + 1) 0); [lia|]. destruct (Nat.eqb_spec (2 * i) (2 * m - 1)); [lia|].
    replace (2 * i / 2) with i by lia. replace ((2 * j + 1) / 2) with j by lia. replace ((2 * j + 1 - 1) / 2) with j by lia. reflexivity. }
  split.
  - intros ([r c] & Q & H). apply filter_In in H. cbn [fst snd] in H. destruct H as [H1 H2]. apply in_sites in H1. apply andb_true_iff in H2. rewrite even_mod, odd_mod in H2. destruct H2 as [H2 H3]. apply Nat.eqb_eq in H2, H3.
    assert (G : exists i j, i < m /\ j < m /\ r = 2 * i /\ c = 2 * j + 1) by (exists (r / 2), (c / 2); lia). destruct G as (i & j & L1 & L2 & -> & ->). exists i, j.
    split; [exact L1|]. split; [exact L2|]. pose proof (eq_trans (eq_sym (E i j L1 L2)) Q) as Q'. injection Q' as <- <-. split; reflexivity.
  - intros (i & j & Hi & Hj & -> & ->). exists (2 * i, 2 * j + 1). split; [apply E; assumption|]. apply filter_In. split; [apply in_sites; lia|]. cbn [fst snd]. rewrite even_mod, odd_mod.
    replace ((2 * i) mod 2) with 0 by lia. replace ((2 * j + 1) mod 2) with 1 by lia. reflexivity.
Qed.
Lemma in_diamond m i j r c : 2 <= m -> i < m -> j < m -> r < 2 * m -> c < m ->
  (In (r * m + c) (kids (down1 (2 * m) (2 * i) * m + j, 2 * i * m + up1 (2 * m) (2 * j + 1) / 2, (2 * i + 1) * m + j, 2 * i * m + j)) <->
   (r = 2 * i + 1 /\ c = j) \/ (r = down1 (2 * m) (2 * i) /\ c = j) \/ (r = 2 * i /\ c = j) \/ (r = 2 * i /\ c = up1 m j)).
Proof.
  intros M Hi Hj Hr Hc. assert (U : up1 (2 * m) (2 * j + 1) / 2 = up1 m j).
  { rewrite !up1_val by lia. destruct (Nat.eqb_spec (2 * j + 1) (2 * m - 1)), (Nat.eqb_spec j (m - 1)); lia. }
  rewrite U. pose proof (up1_lt m j Hj). cbn [kids In]. split.
  - intros [E|[E|[E|[E|[]]]]]; apply code_inj in E; try assumption; destruct E; subst; tauto.
  - intros [[-> ->]|[[-> ->]|[[-> ->]|[-> ->]]]]; tauto.
Qed.
Lemma odd_linked m : 2 <= m -> linked (odd_links (2 * m)) (2 * m * m) (m * m).
Proof.
  intros M. constructor.
  - unfold odd_links. rewrite map_map. apply nodup_map_inj; [apply NoDup_filter, sites_nodup|]. intros [r c] [r' c'] H H'. apply filter_In in H, H'. cbn [fst snd] in *.
    destruct H as [H1 H2], H' as [H1' H2']. apply in_sites in H1, H1'. apply andb_true_iff in H2, H2'. rewrite even_mod, odd_mod in *. destruct H2 as [H2 H3], H2' as [H2' H3']. apply Nat.eqb_eq in H2, H3, H2', H3'.
    rewrite (Nat.mul_comm 2 m), Nat.div_mul by lia. intros E. apply code_inj in E; [|lia|lia]. destruct E as [E1 E2]. f_equal; lia.
  - intros q Hq. destruct (decode m m q Hq) as (a & b & -> & Ha & Hb). apply in_map_iff.
    assert (W : exists k, In (a * m + b, k) (odd_links (2 * m))) by (eexists; apply in_odd_links; exists a, b; repeat split; assumption).
    destruct W as (k & W). exists (a * m + b, k). split; [reflexivity|exact W].
  - intros q k H. apply in_odd_links in H. destruct H as (i & j & Hi & Hj & -> & ->). split; [apply code_lt; assumption|].
    assert (D : down1 (2 * m) (2 * i) < 2 * m) by (apply down1_lt; lia). assert (U : up1 (2 * m) (2 * j + 1) / 2 < m) by (pose proof (up1_lt (2 * m) (2 * j + 1) ltac:(lia)); lia).
    assert (D1 : down1 (2 * m) (2 * i) <> 2 * i /\ down1 (2 * m) (2 * i) <> 2 * i + 1) by (rewrite down1_val by lia; destruct (Nat.eqb_spec (2 * i) 0); lia).
    assert (U1 : up1 (2 * m) (2 * j + 1) / 2 <> j) by (rewrite up1_val by lia; destruct (Nat.eqb_spec (2 * j + 1) (2 * m - 1)); lia).
    split.
    + cbn [kids]. repeat constructor; cbn [In]; intros W; repeat (destruct W as [W|W]); try (apply code_inj in W; try assumption; lia); destruct W.
    + cbn [kids In]. intros f W. repeat (destruct W as [W|W]); [..|destruct W]; subst f; apply code_lt; try assumption; lia.
  - intros f Hf. destruct (decode m (2 * m) f Hf) as (r & c & -> & Hr & Hc).
    assert (W : forall q, (exists k, In (q, k) (odd_links (2 * m)) /\ In (r * m + c) (kids k)) <->
      exists i j, i < m /\ j < m /\ q = i * m + j /\ ((r = 2 * i + 1 /\ c = j) \/ (r = down1 (2 * m) (2 * i) /\ c = j) \/ (r = 2 * i /\ c = j) \/ (r = 2 * i /\ c = up1 m j))).
    { intros q. split.
      - intros (k & H1 & H2). apply in_odd_links in H1. destruct H1 as (i & j & R1 & R2 & -> & ->). apply in_diamond in H2; try assumption. exists i, j. tauto.
      - intros (i & j & R1 & R2 & -> & R3). eexists. split; [apply in_odd_links; exists i, j; repeat split; eassumption|]. apply in_diamond; assumption. }
    assert (DV : forall i, i < m -> down1 (2 * m) (2 * i) = if i =? 0 then 2 * m - 1 else 2 * i - 1) by (intros i Hi; rewrite down1_val by lia; destruct (Nat.eqb_spec (2 * i) 0), (Nat.eqb_spec i 0); lia).
    destruct (Nat.eq_dec (r mod 2) 0) as [P|P].
    + exists (r / 2 * m + c), (r / 2 * m + down1 m c). split.
      { intros E. apply code_inj in E; [|assumption|apply down1_lt; assumption]. destruct E as [_ E]. rewrite down1_val in E by assumption. destruct (Nat.eqb_spec c 0); lia. }
      intros q. rewrite W. split.
      * intros (i & j & R1 & R2 & -> & [[R3 R4]|[[R3 R4]|[[R3 R4]|[R3 R4]]]]).
        -- exfalso. lia.
        -- exfalso. rewrite DV in R3 by assumption. destruct (Nat.eqb_spec i 0); lia.
        -- left. subst. f_equal. f_equal. lia.
        -- right. assert (j = down1 m c) as -> by (apply (up1_inj m); [assumption|apply down1_lt; assumption|rewrite up_down by assumption; symmetry; exact R4]). f_equal. f_equal. lia.
      * intros [-> | ->]; [exists (r / 2), c|exists (r / 2), (down1 m c)]; rewrite ?up_down by assumption; (split; [lia|]; split; [first [assumption|apply down1_lt; assumption]|]; split; [reflexivity|]).
        -- right. right. left. split; [lia|reflexivity].
        -- right. right. right. split; [lia|reflexivity].
    + exists (r / 2 * m + c), (up1 m (r / 2) * m + c). split.
      { intros E. apply code_inj in E; [|assumption|assumption]. destruct E as [E _]. symmetry in E. revert E. apply up1_neq; lia. }
      intros q. rewrite W. split.
      * intros (i & j & R1 & R2 & -> & [[R3 R4]|[[R3 R4]|[[R3 R4]|[R3 R4]]]]); try (exfalso; lia).
        -- left. subst. f_equal. f_equal. lia.
        -- right. subst j. f_equal. f_equal. rewrite DV in R3 by assumption. rewrite up1_val by lia. destruct (Nat.eqb_spec i 0), (Nat.eqb_spec (r / 2) (m - 1)); lia.
      * intros [-> | ->]; [exists (r / 2), c|exists (up1 m (r / 2)), c]; (split; [first [lia|apply up1_lt; lia]|]; split; [assumption|]; split; [reflexivity|]).
        -- left. split; [lia|reflexivity].
        -- right. left. split; [|reflexivity]. rewrite DV by (apply up1_lt; lia). rewrite up1_val by lia. destruct (Nat.eqb_spec (r / 2) (m - 1)); [rewrite Nat.eqb_refl; lia|]. destruct (Nat.eqb_spec (r / 2 + 1) 0); lia.
Qed.

(** *** All layers *)
Definition width (n s : nat) : nat := n / 2 ^ (s / 2).
Lemma width0 n : width n 0 = n.
Proof. unfold width. change (2 ^ (0 / 2)) with 1. apply Nat.div_1_r. Qed.
(** how a node is cut: by the colour of its site, by the parity of its row *)
Definition ty (n s f : nat) : stype :=
  let w := width n s in
  if Nat.even s then if (f / w + f mod w) mod 2 =? 0 then Type0 else Type1
  else if (f / (w / 2)) mod 2 =? 1 then Type1 else Type0.
Section Layers.
Context (o : trg_ops) (sub : arr bool) (n : nat).
Definition sub_ok : Prop := alen sub = n * n /\ forall f, f < n * n -> aval sub f = ((f / n + f mod n) mod 2 =? 0).
Lemma even_types m s q k i : width n s = 2 * m -> 2 <= m -> s mod 2 = 0 -> (s = 0 -> sub_ok /\ n = 2 * m) -> In (q, k) (even_links (2 * m)) -> i < 4 ->
  child_split_type sub s (child k i) i = Ok (ty n s (child k i)).
Proof.
  intros Hw M P S0 H Hi. apply in_even_links in H. destruct H as (r & c & Hr & Hc & Q & _ & ->). pose proof (up1_lt _ _ Hr) as Ur. pose proof (up1_lt _ _ Hc) as Uc.
  pose proof (up1_par m r Hr) as Pr. pose proof (up1_par m c Hc) as Pc.
  assert (T : forall a b, a < 2 * m -> b < 2 * m -> ty n s (a * (2 * m) + b) = if (a + b) mod 2 =? 0 then Type0 else Type1).
  { intros a b Ha Hb. unfold ty. cbv zeta. rewrite even_mod, P, Nat.eqb_refl. rewrite Hw, code_div, code_mod by assumption. reflexivity. }
  destruct (Nat.eq_dec s 0) as [->|NZ].
  - destruct (S0 eq_refl) as [[S1 S2] ->]. unfold child_split_type. cbn [Nat.eqb].
    assert (W : forall a b, a < 2 * m -> b < 2 * m -> x <- aget sub (a * (2 * m) + b);; Ok (if x then Type0 else Type1) = Ok (ty (2 * m) 0 (a * (2 * m) + b))).
    { intros a b Ha Hb. rewrite aget_ok by (rewrite S1; apply code_lt; assumption). cbn [bind]. rewrite S2 by (apply code_lt; assumption). rewrite T, code_div, code_mod by assumption. reflexivity. }
    destruct i as [|[|[|[|i]]]]; [| | | |lia]; cbn [child]; apply W; assumption.
  - unfold child_split_type. destruct (Nat.eqb_spec s 0); [contradiction|]. rewrite even_mod, P. cbn [Nat.eqb].
    destruct i as [|[|[|[|i]]]]; [| | | |lia]; cbn [child Nat.eqb orb]; rewrite T by assumption; f_equal.
    + rewrite Q. reflexivity.
    + replace ((r + up1 (2 * m) c) mod 2) with 1 by lia. reflexivity.
    + replace ((up1 (2 * m) r + c) mod 2) with 1 by lia. reflexivity.
    + replace ((up1 (2 * m) r + up1 (2 * m) c) mod 2) with 0 by lia. reflexivity.
Qed.
Lemma odd_types m s q k i : width n s = 2 * m -> 2 <= m -> s mod 2 = 1 -> In (q, k) (odd_links (2 * m)) -> i < 4 ->
  child_split_type sub s (child k i) i = Ok (ty n s (child k i)).
Proof.
  intros Hw M P H Hi. apply in_odd_links in H. destruct H as (r & j & Hr & Hj & _ & ->).
  assert (T : forall a b, b < m -> ty n s (a * m + b) = if a mod 2 =? 1 then Type1 else Type0).
  { intros a b Hb. unfold ty. cbv zeta. rewrite even_mod, P. cbn [Nat.eqb]. rewrite Hw. replace (2 * m / 2) with m by lia. rewrite code_div by assumption. reflexivity. }
  unfold child_split_type. destruct (Nat.eqb_spec s 0); [lia|]. rewrite even_mod, P. cbn [Nat.eqb].
  assert (U : up1 (2 * m) (2 * j + 1) / 2 < m) by (pose proof (up1_lt (2 * m) (2 * j + 1) ltac:(lia)); lia).
  destruct i as [|[|[|[|i]]]]; [| | | |lia]; cbn [child Nat.eqb orb]; rewrite T by assumption; f_equal.
  - replace (down1 (2 * m) (2 * r) mod 2) with 1; [reflexivity|]. pose proof (down1_par m (2 * r) ltac:(lia)). lia.
  - replace ((2 * r) mod 2) with 0 by lia. reflexivity.
  - replace ((2 * r + 1) mod 2) with 1 by lia. reflexivity.
  - replace ((2 * r) mod 2) with 0 by lia. reflexivity.
Qed.
Notation scale := (scale o).
Lemma layer_of_links s links size count (fine coarse : scale) (a : arr parents) (b : arr children) : linked links size count ->
  foreach links (anew size (None, None), anew count (0, 0, 0, 0)) link = Ok (a, b) ->
  (forall q k i, In (q, k) links -> i < 4 -> child_split_type sub s (child k i) i = Ok (ty n s (child k i))) ->
  alen (tens fine) = size -> f2c fine = a -> alen (tens coarse) = count -> c2f coarse = b -> layer_ok o sub (ty n) s fine coarse.
Proof.
  intros L E T H1 H2 H3 H4. destruct (links_ok links size count L) as (a' & b' & E' & A & B & C & D). rewrite E in E'. injection E' as <- <-.
  subst size count a b. constructor; try assumption.
  - intros c i Hc Hi. destruct (proj1 (in_map_iff _ _ _) (lk_all _ _ _ L c Hc)) as ([c' k] & Q & W). cbn [fst] in Q. subst c'. cbv zeta. replace (aval (c2f coarse) c) with k by (symmetry; exact (C c k W)).
    assert (K : In (child k i) (kids k)) by (apply in_kids; exists i; split; [exact Hi|reflexivity]). destruct (lk_range _ _ _ L c k W) as (_ & _ & R). split; [apply R; exact K|].
    split; [|apply (T c); assumption]. destruct (D (child k i) (R _ K)) as (p1 & p2 & k1 & k2 & -> & _ & _ & _ & _ & Z). cbn [fst snd]. destruct (Z c k W K); subst; tauto.
  - intros f Hf. destruct (D f Hf) as (p1 & p2 & k1 & k2 & Q & I1 & I2 & I3 & I4 & _). destruct (first_role_some k1 f I2) as (i & R1). destruct (first_role_some k2 f I4) as (i2 & R2).
    exists p1, p2, i. replace (aval (c2f coarse) p1) with k1 by (symmetry; exact (C p1 k1 I1)). replace (aval (c2f coarse) p2) with k2 by (symmetry; exact (C p2 k2 I3)). rewrite R2. split; [exact Q|]. split; [apply (lk_range _ _ _ L p1 k1 I1)|]. split; [apply (lk_range _ _ _ L p2 k2 I3)|]. split; [exact R1|discriminate].
Qed.
(** the connectivity that is built *)
Inductive built : nat -> list scale -> Prop :=
| built_top w top : 1 <= w <= 3 -> alen (tens top) = w * w -> built w [top]
| built_step m fine mid coarse rest : 2 <= m -> alen (tens fine) = 2 * m * (2 * m) -> alen (tens mid) = 2 * m * m ->
    (forall q k, In (q, k) (even_links (2 * m)) -> aval (c2f mid) q = k) ->
    (forall q k, In (q, k) (odd_links (2 * m)) -> aval (c2f coarse) q = k) ->
    built m (coarse :: rest) -> built (2 * m) (fine :: mid :: coarse :: rest).
Definition no_splits (sc : list scale) : Prop := Forall (fun a => splits a = anew 0 None) sc.
Lemma size_half w : trg_size w -> 3 < w -> exists m, w = 2 * m /\ 2 <= m /\ trg_size m.
Proof.
  intros (k & H) W. destruct k as [|k]; [cbn [Nat.pow] in H; lia|]. rewrite Nat.pow_succ_r' in H.
  destruct H as [-> | ->]; [exists (2 ^ k)|exists (3 * 2 ^ k)]; (split; [lia|split; [lia|]]); exists k; [left|right]; reflexivity.
Qed.
Lemma size_pos w : trg_size w -> 1 <= w.
Proof. intros (k & H). assert (2 ^ k <> 0) by (apply Nat.pow_nonzero; lia). lia. Qed.
Lemma topology_ok : forall fuel w s (fine : scale), trg_size w -> 2 * w < fuel -> s mod 2 = 0 -> width n s = w -> (s = 0 -> sub_ok) -> alen (tens fine) = w * w -> splits fine = anew 0 None ->
  exists a rest, build_topology o fuel w s fine = Ok (a :: rest) /\ tens a = tens fine /\ c2f a = c2f fine /\ topo o sub (ty n) s (a :: rest) /\ built w (a :: rest) /\ no_splits (a :: rest).
Proof.
  induction fuel as [fuel IH] using lt_wf_ind. intros w s fine Hw F P W S0 LF SF. pose proof (size_pos w Hw) as Pos. destruct fuel as [|fuel]; [lia|]. cbn [build_topology].
  destruct (Nat.leb_spec w 3) as [L3|L3].
  - eexists _, []. split; [reflexivity|]. destruct (Nat.eqb_spec s 0); cbn [tens c2f]; repeat split; try reflexivity; try (apply built_top; [lia|exact LF]); (constructor; [exact SF|constructor]).
  - destruct (size_half w Hw L3) as (m & -> & M & Hm). rewrite even_mod, P, odd_mod. replace ((2 * m) mod 2) with 0 by lia. cbn [Nat.eqb]. rewrite LF.
    replace (2 * m * (2 * m) / 2) with (2 * m * m) by (replace (2 * m * (2 * m)) with (2 * m * m * 2) by lia; symmetry; apply Nat.div_mul; lia).
    pose proof (even_linked m M) as L0. destruct (links_ok _ _ _ L0) as (a0 & b0 & E0 & A0 & B0 & C0 & _). match goal with |- context [@foreach ?x ?y (even_links (2 * m)) ?st link] => replace (@foreach x y (even_links (2 * m)) st link) with (Ok (a0, b0)) by (symmetry; exact E0) end. cbn [bind fst snd].
    destruct fuel as [|fuel]; [lia|]. cbn [build_topology]. destruct (Nat.leb_spec (2 * m) 3); [lia|].
    replace (Nat.even (S s)) with false by (rewrite Nat.even_succ, odd_mod, P; reflexivity). cbn [tens f2c c2f splits anew alen].
    replace (2 * m / 2) with m by lia. pose proof (odd_linked m M) as L1. destruct (links_ok _ _ _ L1) as (a1 & b1 & E1 & A1 & B1 & C1 & _). match goal with |- context [@foreach ?x ?y (odd_links (2 * m)) ?st link] => replace (@foreach x y (odd_links (2 * m)) st link) with (Ok (a1, b1)) by (symmetry; exact E1) end. cbn [bind fst snd].
    assert (W1 : width n (S s) = 2 * m) by (unfold width in *; replace (S s / 2) with (s / 2) by lia; exact W).
    assert (W2 : width n (S (S s)) = m).
    { unfold width in *. replace (S (S s) / 2) with (S (s / 2)) by lia. rewrite Nat.pow_succ_r', Nat.mul_comm, <- Nat.div_div by (try apply Nat.pow_nonzero; lia). rewrite W. lia. }
    destruct (IH fuel ltac:(lia) m (S (S s)) (mkScale (anew (m * m) None) (anew 0 (None, None)) b1 (anew 0 None)) Hm ltac:(lia) ltac:(lia) W2 ltac:(discriminate) eq_refl eq_refl)
      as (top & rest & -> & G1 & G2 & G3 & G4 & G5). cbn [tens c2f] in G1, G2. cbn [bind].
    eexists _, _. split; [reflexivity|]. cbn [tens c2f splits]. split; [reflexivity|]. split; [reflexivity|]. split; [|split].
    + split; [|split; [|exact G3]].
      * apply (layer_of_links s _ _ _ _ _ a0 b0 L0 E0); [|exact LF|reflexivity|reflexivity|reflexivity].
        intros q k i H1 H2. apply (even_types m s q k i W M P); [|exact H1|exact H2]. intros Z. split; [apply S0; exact Z|]. subst s. rewrite width0 in W. exact W.
      * apply (layer_of_links (S s) _ _ _ _ _ a1 b1 L1 E1); [|reflexivity|reflexivity|rewrite G1; reflexivity|exact G2].
        intros q k i H1 H2. apply (odd_types m (S s) q k i W1 M); [lia|exact H1|exact H2].
    + apply built_step; [exact M|exact LF|reflexivity|exact C0|rewrite G2; exact C1|exact G4].
    + constructor; [exact SF|]. constructor; [reflexivity|]. exact G5.
Qed.
Lemma built_final w sc : built w sc -> final_size (top_len o sc).
Proof.
  induction 1 as [w top Hw L|m fine mid coarse rest M _ _ _ _ B IH]; [unfold top_len; cbn [rev app]; rewrite L; unfold final_size; assert (w = 1 \/ w = 2 \/ w = 3) as [->|[->| ->]] by lia; tauto|].
  unfold top_len in *. cbn [rev] in *. destruct (rev rest ++ [coarse]) as [|z zs] eqn:E; [destruct (rev rest); discriminate|]. exact IH.
Qed.
Lemma built_len w sc : built w sc -> exists a l, sc = a :: l /\ alen (tens a) = w * w.
Proof. destruct 1 as [w top Hw L|m fine mid coarse rest M L1 L2 _ _ B]; [exists top, []|exists fine, (mid :: coarse :: rest)]; (split; [reflexivity|assumption]). Qed.
(** *** The check of Init *)
Lemma slot_ok s f fine coarse slot seen : layer_ok o sub (ty n) s fine coarse -> f < alen (tens fine) -> (exists q, slot = Some q /\ q < alen (tens coarse) /\ first_role (aval (c2f coarse) q) f <> None) ->
  seen = None \/ seen = Some (ty n s f) -> check_slot o sub s f coarse slot seen = Ok (Some (ty n s f)).
Proof.
  intros L Hf (q & -> & Hq & R) S. unfold check_slot. rewrite (lo_c2f _ _ _ _ _ _ L). destruct (Nat.leb_spec (alen (tens coarse)) q); [lia|]. rewrite aget_ok by (rewrite (lo_c2f _ _ _ _ _ _ L); exact Hq). cbn [bind].
  destruct (first_role (aval (c2f coarse) q) f) as [i|] eqn:E; [|congruence]. destruct (first_role_child _ _ _ E) as [R1 R2].
  destruct (last_role_some (aval (c2f coarse) q) f) as (i' & -> & I1 & I2); [apply in_kids; exists i; split; assumption|].
  destruct (lo_child _ _ _ _ _ _ L q i' Hq I1) as (_ & _ & T). cbv zeta in T. rewrite I2 in T. rewrite T. cbn [bind]. destruct S as [-> | ->]; [reflexivity|]. destruct (ty n s f); reflexivity.
Qed.
Lemma validate_ok : forall sc s, topo o sub (ty n) s sc -> validate o sub s sc = Ok tt.
Proof.
  induction sc as [|a sc IH]; intros s T; [reflexivity|]. destruct sc as [|b sc]; [reflexivity|]. destruct T as [L T].
  change (validate o sub s (a :: b :: sc)) with (foreach (seq 0 (alen (f2c a))) tt (fun _ f => p <- aget (f2c a) f;; x <- check_slot o sub s f b (fst p) None;; y <- check_slot o sub s f b (snd p) x;;
     match y with None => Fail Throw | Some _ => Ok tt end) >> validate o sub (S s) (b :: sc)).
  destruct (foreach_inv (fun _ (_ : unit) => True) (fun _ f => p <- aget (f2c a) f;; x <- check_slot o sub s f b (fst p) None;; y <- check_slot o sub s f b (snd p) x;;
     match y with None => Fail Throw | Some _ => Ok tt end) (seq 0 (alen (f2c a))) tt) as (u & -> & _); [exact I| |cbn [bind]; apply IH; exact T].
  intros done f rest [] E _. assert (Hf : f < alen (f2c a)) by (apply in_range; rewrite E; apply in_or_app; right; left; reflexivity). rewrite aget_ok by exact Hf. cbn [bind].
  rewrite (lo_f2c _ _ _ _ _ _ L) in Hf. destruct (lo_parent _ _ _ _ _ _ L f Hf) as (p1 & p2 & role & -> & P1 & P2 & R1 & R2). cbn [fst snd].
  rewrite (slot_ok s f a b (Some p1) None L Hf); [|exists p1; repeat split; [exact P1|rewrite R1; discriminate]|left; reflexivity]. cbn [bind].
  rewrite (slot_ok s f a b (Some p2) (Some (ty n s f)) L Hf); [|exists p2; repeat split; [exact P2|exact R2]|right; reflexivity]. cbn [bind]. exists tt. split; [reflexivity|exact I].
Qed.
End Layers.

(** *** Init *)
Lemma scale0_ok o n : exists sub s0, build_scale0 o n = Ok (sub, s0) /\ sub_ok sub n /\ alen (tens s0) = n * n /\ splits s0 = anew 0 None.
Proof.
  unfold build_scale0.
  destruct (foreach_inv (fun done a => alen a = n * n /\ forall r c, In (r, c) done -> aval a (node_id n r c) = Nat.even (r + c))
    (fun a rc => aset a (node_id n (fst rc) (snd rc)) (Nat.even (fst rc + snd rc))) (all_sites n) (anew (n * n) true)) as (a & -> & A & B).
  - split; [reflexivity|intros r c []].
  - intros done [r c] rest a E (A & B). assert (H : r < n /\ c < n) by (apply in_sites; rewrite E; apply in_or_app; right; left; reflexivity). cbn [fst snd].
    rewrite aset_ok by (rewrite A; apply code_lt; tauto). eexists. split; [reflexivity|]. cbn [alen aval]. split; [exact A|]. intros r' c' W.
    assert (H' : r' < n /\ c' < n) by (apply in_sites; rewrite E; apply in_app_or in W; apply in_or_app; destruct W as [W|[W|[]]]; [left; exact W|right; left; exact W]).
    destruct (Nat.eqb_spec (node_id n r' c') (node_id n r c)) as [Q|Q]; [apply code_inj in Q; [destruct Q as [-> ->]; reflexivity|tauto|tauto]|].
    apply B. apply in_app_or in W. destruct W as [W|[W|[]]]; [exact W|]. injection W as -> ->. congruence.
  - cbn [bind]. eexists _, _. split; [reflexivity|]. split; [|split; reflexivity]. split; [exact A|]. intros f Hf. destruct (decode n n f Hf) as (r & c & -> & Hr & Hc).
    rewrite code_div, code_mod by exact Hc. rewrite <- even_mod. apply B, in_sites. split; assumption.
Qed.
Lemma land_pow2 k : Nat.land (2 ^ k) (2 ^ k - 1) = 0.
Proof.
  replace (2 ^ k - 1) with (Nat.ones k) by (rewrite Nat.ones_equiv; lia). rewrite Nat.land_ones. apply Nat.mod_same. apply Nat.pow_nonzero. lia.
Qed.
Lemma pow2_power k : is_power_of_two (2 ^ k) = true.
Proof. unfold is_power_of_two. rewrite land_pow2. destruct (Nat.eqb_spec (2 ^ k) 0) as [E|]; [exfalso; revert E; apply Nat.pow_nonzero; lia|reflexivity]. Qed.
Lemma size_accepted n : trg_size n -> size_ok n = true.
Proof.
  intros (k & [-> | ->]); unfold size_ok; [rewrite pow2_power; reflexivity|]. rewrite (Nat.mul_comm 3), Nat.mod_mul, Nat.div_mul by lia. rewrite pow2_power. apply orb_true_r.
Qed.
Lemma init_ok o (t : trg o) n X : trg_size n -> exists sub a rest, init o t (torus o n X) = Ok (mkTrg n n true false sub (a :: rest) (t_prm t)) /\
  sub_ok sub n /\ alen (tens a) = n * n /\ topo o sub (ty n) 0 (a :: rest) /\ built o n (a :: rest) /\ no_splits o (a :: rest).
Proof.
  intros H. unfold init, torus. cbn [n_periodic n_rows n_cols negb]. rewrite Nat.eqb_refl, (size_accepted n H). cbn [negb].
  destruct (scale0_ok o n) as (sub & s0 & -> & S & L & SP). cbn [bind fst snd].
  destruct (topology_ok o sub n (2 * n + 1) n 0 s0 H) as (a & rest & -> & T1 & T2 & T3 & T4 & T5); [lia|reflexivity|apply width0|intros _; exact S|exact L|exact SP|].
  cbn [bind t_sub]. rewrite (validate_ok o sub n _ 0 T3). cbn [bind]. exists sub, a, rest. split; [reflexivity|]. split; [exact S|]. split; [rewrite T1; exact L|]. repeat split; assumption.
Qed.
