(** next_permutation lists all arrangements. *)
From Coq Require Import List Arith Lia Bool Permutation Sorting Sorted.
From Verif Require Import Base ContractorModel SweepModel SweepSpec UpdaterSpec UpdaterChain BlockChain ExactModel.
Import ListNotations.
Local Open Scope nat_scope.

(** Lexicographic order. *)
Fixpoint lex (l m : list nat) : bool :=
  match l, m with
  | x :: l', y :: m' => (x <? y) || ((x =? y) && lex l' m')
  | _, _ => false
  end.
Lemma lex_irrefl l : lex l l = false.
Proof. induction l as [|x l IH]; [reflexivity|]. simpl. rewrite Nat.ltb_irrefl, Nat.eqb_refl, IH. reflexivity. Qed.
Lemma lex_trans a : forall b c, lex a b = true -> lex b c = true -> lex a c = true.
Proof.
  induction a as [|x a IH]; intros [|y b] [|z c]; simpl; try discriminate. intros H1 H2. apply orb_prop in H1, H2. apply orb_true_iff.
  destruct H1 as [H1|H1], H2 as [H2|H2]; rewrite ?andb_true_iff, ?Nat.ltb_lt, ?Nat.eqb_eq in *.
  - left. lia.
  - left. lia.
  - left. lia.
  - right. destruct H1 as [-> H1], H2 as [-> H2]. split; [reflexivity|eauto].
Qed.
Lemma lex_total a : forall b, length a = length b -> a <> b -> lex a b = true \/ lex b a = true.
Proof.
  induction a as [|x a IH]; intros [|y b] L N; simpl in *; try congruence; try discriminate.
  destruct (Nat.lt_trichotomy x y) as [H|[->|H]].
  - left. rewrite (proj2 (Nat.ltb_lt _ _) H). reflexivity.
  - rewrite Nat.ltb_irrefl, Nat.eqb_refl. simpl. apply IH; [lia|congruence].
  - right. rewrite (proj2 (Nat.ltb_lt _ _) H). reflexivity.
Qed.
Definition nonincr (l : list nat) : Prop := StronglySorted (fun a b => b <= a) l.
Definition nondecr (l : list nat) : Prop := StronglySorted (fun a b => a <= b) l.
Lemma max_perm l : nonincr l -> forall m, Permutation l m -> lex l m = false.
Proof.
  induction l as [|x l IH]; intros S m P; [reflexivity|]. inversion S as [|? ? Sl F]; subst. destruct m as [|y m]; [reflexivity|]. simpl.
  assert (Hy : In y (x :: l)) by (eapply Permutation_in; [symmetry; exact P|left; reflexivity]).
  rewrite Forall_forall in F. destruct (Nat.ltb_spec x y) as [L|L].
  - exfalso. destruct Hy as [->|Hy]; [lia|]. apply F in Hy. lia.
  - destruct (Nat.eqb_spec x y) as [->|N]; [|reflexivity]. simpl. apply IH; [exact Sl|]. eapply Permutation_cons_inv; eauto.
Qed.
Lemma min_perm l : nondecr l -> forall m, Permutation l m -> lex m l = false.
Proof.
  induction l as [|x l IH]; intros S m P; [destruct m; reflexivity|]. inversion S as [|? ? Sl F]; subst. destruct m as [|y m]; [reflexivity|]. simpl.
  assert (Hy : In y (x :: l)) by (eapply Permutation_in; [symmetry; exact P|left; reflexivity]).
  rewrite Forall_forall in F. destruct (Nat.ltb_spec y x) as [L|L].
  - exfalso. destruct Hy as [->|Hy]; [lia|]. apply F in Hy. lia.
  - destruct (Nat.eqb_spec y x) as [->|N]; [|reflexivity]. simpl. apply IH; [exact Sl|]. eapply Permutation_cons_inv; eauto.
Qed.
Lemma swap_none x t : swap_last_greater x t = None -> Forall (fun y => y <= x) t.
Proof.
  induction t as [|y t IH]; intros H; [constructor|]. simpl in H. destruct (swap_last_greater x t) as [[z r]|]; [discriminate|].
  destruct (Nat.ltb_spec x y); [discriminate|]. constructor; auto.
Qed.
Lemma swap_some x t y r : swap_last_greater x t = Some (y, r) ->
  exists a b, t = a ++ y :: b /\ r = a ++ x :: b /\ x < y /\ Forall (fun z => z <= x) b.
Proof.
  revert y r. induction t as [|z t IH]; intros y r H; [discriminate|]. simpl in H.
  destruct (swap_last_greater x t) as [[z' r']|] eqn:E.
  - injection H as <- <-. destruct (IH _ _ eq_refl) as (a & b & -> & -> & L & F). exists (z :: a), b. auto.
  - destruct (Nat.ltb_spec x z); [|discriminate]. injection H as <- <-. exists [], t. repeat split; auto. apply swap_none. exact E.
Qed.
Lemma next_none l : next_permutation l = None -> nonincr l.
Proof.
  induction l as [|x l IH]; intros H; [constructor|]. simpl in H. destruct (next_permutation l); [discriminate|].
  destruct (swap_last_greater x l) as [[y r]|] eqn:E; [discriminate|]. constructor; [apply IH; reflexivity|]. exact (swap_none _ _ E).
Qed.
Lemma sorted_app_inv (R : nat -> nat -> Prop) a b : StronglySorted R (a ++ b) ->
  StronglySorted R a /\ StronglySorted R b /\ forall x y, In x a -> In y b -> R x y.
Proof.
  induction a as [|z a IH]; simpl; intros H; [repeat split; [constructor|exact H|intros x y []]|].
  inversion H as [|? ? S F]; subst. destruct (IH S) as (A & B & C). rewrite Forall_forall in F. split; [|split].
  - constructor; [exact A|]. apply Forall_forall. intros w Hw. apply F, in_or_app. auto.
  - exact B.
  - intros x y [<-|Hx] Hy; [apply F, in_or_app; auto|auto].
Qed.
Lemma sorted_app (R : nat -> nat -> Prop) a b : StronglySorted R a -> StronglySorted R b -> (forall x y, In x a -> In y b -> R x y) ->
  StronglySorted R (a ++ b).
Proof.
  intros A B C. induction a as [|z a IH]; [exact B|]. inversion A as [|? ? S F]; subst. simpl. constructor.
  - apply IH; [exact S|]. intros. apply C; [right; assumption|assumption].
  - apply Forall_app. split; [exact F|]. apply Forall_forall. intros y Hy. apply C; [left; reflexivity|exact Hy].
Qed.
Lemma sorted_rev l : nonincr l -> nondecr (rev l).
Proof.
  unfold nonincr, nondecr. induction l as [|x l IH]; intros H; [constructor|]. inversion H as [|? ? S F]; subst. simpl. apply sorted_app.
  - apply IH. exact S.
  - repeat constructor.
  - intros a b Ha [<-|[]]. apply in_rev in Ha. rewrite Forall_forall in F. apply F in Ha. exact Ha.
Qed.
(** The successor: greater, an arrangement of the same elements, nothing in between. *)
Lemma next_some l : forall l', next_permutation l = Some l' ->
  Permutation l l' /\ lex l l' = true /\ forall m, Permutation l m -> lex l m = true -> lex m l' = false.
Proof.
  induction l as [|x t IH]; intros l' H; [discriminate|]. simpl in H. destruct (next_permutation t) as [t'|] eqn:E.
  - injection H as <-. destruct (IH _ eq_refl) as (P & L & B). split; [constructor; exact P|]. split.
    + simpl. rewrite Nat.eqb_refl, L, orb_true_r. reflexivity.
    + intros [|y m] Pm Lm; [reflexivity|]. simpl in Lm. apply orb_prop in Lm. simpl.
      destruct Lm as [Lm|Lm]; rewrite ?andb_true_iff, ?Nat.ltb_lt, ?Nat.eqb_eq in Lm.
      * destruct (Nat.ltb_spec y x), (Nat.eqb_spec y x); try lia; reflexivity.
      * destruct Lm as [<- Lm]. rewrite Nat.ltb_irrefl, Nat.eqb_refl. simpl. apply B; [|exact Lm]. eapply Permutation_cons_inv; eauto.
  - destruct (swap_last_greater x t) as [[y r]|] eqn:Q; [|discriminate]. injection H as <-. pose proof (next_none _ E) as NI.
    destruct (swap_some _ _ _ _ Q) as (a & b & -> & -> & L & F). rewrite Forall_forall in F.
    destruct (sorted_app_inv _ _ _ NI) as (Sa & Syb & Sab). inversion Syb as [|? ? Sb Fy]; subst. rewrite Forall_forall in Fy.
    assert (NR : nonincr (a ++ x :: b)).
    { apply sorted_app; [exact Sa| |].
      - constructor; [exact Sb|]. apply Forall_forall. exact F.
      - intros u w Hu [<-|Hw]; [|apply Sab; [exact Hu|right; exact Hw]]. specialize (Sab u y Hu ltac:(left; reflexivity)). cbv beta in Sab. lia. }
    assert (P : Permutation (x :: a ++ y :: b) (y :: rev (a ++ x :: b))).
    { rewrite <- Permutation_rev. rewrite <- !Permutation_middle. apply perm_swap. }
    split; [exact P|]. split.
    + simpl. rewrite (proj2 (Nat.ltb_lt _ _) L). reflexivity.
    + intros [|z m] Pm Lm; [reflexivity|]. simpl in Lm. apply orb_prop in Lm.
      destruct Lm as [Lm|Lm]; rewrite ?andb_true_iff, ?Nat.ltb_lt, ?Nat.eqb_eq in Lm.
      * assert (Hz : In z (x :: a ++ y :: b)) by (eapply Permutation_in; [symmetry; exact Pm|left; reflexivity]).
        assert (Yz : y <= z).
        { destruct Hz as [->|Hz]; [lia|]. apply in_app_or in Hz. destruct Hz as [Hz|[->|Hz]]; [|lia|].
          - apply (Sab z y Hz). left. reflexivity.
          - apply F in Hz. lia. }
        cbn [lex]. destruct (Nat.ltb_spec z y); [lia|]. destruct (Nat.eqb_spec z y) as [->|]; [|reflexivity]. cbn [orb andb].
        apply min_perm; [apply sorted_rev; exact NR|]. rewrite P in Pm. eapply Permutation_cons_inv; eauto.
      * destruct Lm as [<- Lm]. exfalso. apply Permutation_cons_inv in Pm. rewrite (max_perm _ NI _ Pm) in Lm. discriminate.
Qed.

(** *** The loop *)
Fixpoint arrangements (fuel : nat) (v : list nat) : option (list (list nat)) :=
  match fuel with
  | O => None
  | S f => match next_permutation v with
           | None => Some [v]
           | Some v' => match arrangements f v' with Some r => Some (v :: r) | None => None end
           end
  end.
Lemma loop_arrangements fuel v lx ly :
  permutation_loop fuel v lx ly = match arrangements fuel v with None => None | Some vs => Some (configs_of vs lx ly) end.
Proof.
  revert v. induction fuel as [|f IH]; intros v; [reflexivity|]. simpl. destruct (next_permutation v) as [v'|].
  - rewrite IH. destruct (arrangements f v'); reflexivity.
  - simpl. destruct (vec2config v lx ly); reflexivity.
Qed.
Lemma arrangements_sound fuel : forall v L, arrangements fuel v = Some L ->
  NoDup L /\ forall m, In m L <-> Permutation v m /\ lex m v = false.
Proof.
  induction fuel as [|f IH]; intros v L H; [discriminate|]. simpl in H. destruct (next_permutation v) as [v'|] eqn:E.
  - destruct (arrangements f v') as [r|] eqn:A; [|discriminate]. injection H as <-. destruct (IH _ _ A) as [ND IN].
    destruct (next_some _ _ E) as (P & Lx & B). split.
    + constructor; [|exact ND]. intros Hi. apply IN in Hi. destruct Hi as [_ Hi]. congruence.
    + intros m. simpl. rewrite IN. split.
      * intros [<-|[Pm Lm]]; [split; [reflexivity|apply lex_irrefl]|]. split; [rewrite P; exact Pm|].
        destruct (lex m v) eqn:Q; [|reflexivity]. rewrite (lex_trans _ _ _ Q Lx) in Lm. discriminate.
      * intros [Pm Lm]. destruct (list_eq_dec Nat.eq_dec v m) as [->|N]; [left; reflexivity|right].
        split; [rewrite <- P; exact Pm|]. apply B; [exact Pm|].
        destruct (lex_total v m (Permutation_length Pm) N) as [T|T]; [exact T|congruence].
  - injection H as <-. apply next_none in E. split; [repeat constructor; intros []|]. intros m. simpl. split.
    + intros [<-|[]]. split; [reflexivity|apply lex_irrefl].
    + intros [Pm Lm]. left. destruct (list_eq_dec Nat.eq_dec v m) as [->|N]; [reflexivity|exfalso].
      destruct (lex_total v m (Permutation_length Pm) N) as [T|T]; [|congruence]. rewrite (max_perm _ E _ Pm) in T. discriminate.
Qed.
Definition above (dim : nat) (v : list nat) : nat := length (filter (fun m => lex v m) (all_configs dim (length v))).
Lemma filter_lt {X} (f g : X -> bool) l x : (forall y, f y = true -> g y = true) -> In x l -> f x = false -> g x = true ->
  length (filter f l) < length (filter g l).
Proof.
  intros H Hi Hf Hg. assert (LE : forall l, length (filter f l) <= length (filter g l)).
  { clear - H. induction l as [|y l IH]; [reflexivity|]. simpl. destruct (f y) eqn:E; [rewrite (H _ E); simpl; lia|destruct (g y); simpl; lia]. }
  induction l as [|y l IH]; [destruct Hi|]. simpl. destruct Hi as [->|Hi].
  - rewrite Hf, Hg. simpl. specialize (LE l). lia.
  - specialize (IH Hi). destruct (f y) eqn:E; [rewrite (H _ E); simpl; lia|destruct (g y); simpl; lia].
Qed.
Lemma arrangements_total dim fuel : forall v, Forall (fun x => x < dim) v -> above dim v < fuel -> exists L, arrangements fuel v = Some L.
Proof.
  induction fuel as [|f IH]; intros v Hv Hf; [lia|]. simpl. destruct (next_permutation v) as [v'|] eqn:E; [|eauto].
  destruct (next_some _ _ E) as (P & Lx & _).
  assert (Hv' : Forall (fun x => x < dim) v') by (rewrite <- P; exact Hv).
  destruct (IH v' Hv') as [L HL].
  - enough (above dim v' < above dim v) by lia. unfold above. rewrite <- (Permutation_length P). apply (filter_lt _ _ _ v').
    + intros y Hy. eapply lex_trans; eauto.
    + apply all_configs_in. split; [symmetry; apply Permutation_length; exact P|exact Hv'].
    + apply lex_irrefl.
    + exact Lx.
  - rewrite HL. eauto.
Qed.
Lemma arrangements_fuel f v L : arrangements f v = Some L -> forall g, f <= g -> arrangements g v = Some L.
Proof.
  revert v L. induction f as [|f IH]; intros v L H g Hg; [discriminate|]. destruct g as [|g]; [lia|]. simpl in *.
  destruct (next_permutation v); [|exact H]. destruct (arrangements f l) eqn:E; [|discriminate]. rewrite (IH _ _ E g ltac:(lia)). exact H.
Qed.
(** *** Vec2Config *)
Lemma vec2config_ok v lx ly : length v = ly * lx -> exists c, vec2config v lx ly = Ok c /\ flat ly lx c = v.
Proof.
  intros HL. unfold vec2config.
  assert (G : forall k, k <= length v -> exists c,
     fold_left (fun acc i => c <- acc;; (if lx =? 0 then Fail UB else if i / lx <? ly then Ok (upd2 c (i / lx, i mod lx) (nth i v 0)) else Fail UB)) (seq 0 k) (Ok (fun _ _ => 0)) = Ok c /\
     forall r q, r < ly -> q < lx -> r * lx + q < k -> c r q = nth (r * lx + q) v 0).
  { induction k as [|k IH]; intros Hk; [eexists; split; [reflexivity|]; intros; lia|].
    destruct IH as (c & E & Q); [lia|]. rewrite seq_S, fold_left_app, E. cbn [fold_left bind Nat.add].
    assert (X : lx <> 0) by (intros ->; lia). rewrite (proj2 (Nat.eqb_neq _ _) X).
    assert (D : k / lx < ly) by (apply Nat.div_lt_upper_bound; lia). rewrite (proj2 (Nat.ltb_lt _ _) D).
    eexists. split; [reflexivity|]. intros r q Hr Hq Hrq. unfold upd2, site_eqb. cbn [fst snd].
    destruct (Nat.eqb_spec r (k / lx)) as [->|Nr], (Nat.eqb_spec q (k mod lx)) as [->|Nq]; cbn [andb].
    - rewrite Nat.mul_comm, <- Nat.div_mod by exact X. reflexivity.
    - apply Q; auto. assert (k / lx * lx + q <> k); [|lia]. intros Ek. apply Nq. rewrite <- Ek at 1. rewrite Nat.add_comm, Nat.mod_add, Nat.mod_small; lia.
    - apply Q; auto. assert (r * lx + k mod lx <> k); [|lia]. intros Ek. apply Nr. rewrite <- Ek at 1. rewrite Nat.div_add_l, Nat.div_small; lia.
    - apply Q; auto. assert (r * lx + q <> k); [|lia]. intros Ek. apply Nr. rewrite <- Ek. rewrite Nat.div_add_l, Nat.div_small; lia. }
  destruct (G (length v) ltac:(lia)) as (c & E & Q). exists c. split; [exact E|]. apply list_ext.
  - unfold flat, all_sites. rewrite map_length, prod_length, !seq_length. lia.
  - intros k Hk. assert (Hk' : k < ly * lx) by (unfold flat, all_sites in Hk; rewrite map_length, prod_length, !seq_length in Hk; exact Hk).
    rewrite flat_nth by exact Hk'. assert (X : lx <> 0) by (intros ->; lia).
    assert (D : k / lx < ly) by (apply Nat.div_lt_upper_bound; lia). assert (M : k mod lx < lx) by (apply Nat.mod_upper_bound; exact X).
    pose proof (Nat.div_mod k lx X) as DM. rewrite Q; [f_equal; lia|exact D|exact M|lia].
Qed.
Lemma configs_of_ok vs lx ly : (forall v, In v vs -> length v = ly * lx) -> exists cs, configs_of vs lx ly = Ok cs /\ map (flat ly lx) cs = vs.
Proof.
  induction vs as [|v vs IH]; intros H; [exists []; split; reflexivity|].
  destruct (vec2config_ok v lx ly (H v ltac:(left; reflexivity))) as (c & E & F). destruct IH as (cs & E' & F'); [intros; apply H; right; assumption|].
  exists (c :: cs). simpl. rewrite E. cbn [bind]. rewrite E'. cbn [bind]. split; [reflexivity|]. rewrite F, F'. reflexivity.
Qed.
Lemma base_count counts k : count_occ Nat.eq_dec (base_vector counts) k = nth k counts 0.
Proof.
  unfold base_vector.
  assert (R : forall n x, count_occ Nat.eq_dec (repeat x n) k = if x =? k then n else 0).
  { intros n x. destruct (Nat.eqb_spec x k) as [->|N].
    - induction n as [|n IH]; [reflexivity|]. simpl. destruct (Nat.eq_dec k k); [rewrite IH; reflexivity|congruence].
    - induction n as [|n IH]; [reflexivity|]. simpl. destruct (Nat.eq_dec x k); [congruence|exact IH]. }
  assert (G : forall f m s, count_occ Nat.eq_dec (flat_map (fun i => repeat i (f i)) (seq s m)) k = if (s <=? k) && (k <? s + m) then f k else 0).
  { intros f. induction m as [|m IH]; intros s; [simpl; destruct (Nat.leb_spec s k), (Nat.ltb_spec k (s + 0)); simpl; try lia; reflexivity|].
    cbn [seq flat_map]. rewrite count_occ_app, R, IH.
    destruct (Nat.eqb_spec s k), (Nat.leb_spec (S s) k), (Nat.ltb_spec k (S s + m)), (Nat.leb_spec s k), (Nat.ltb_spec k (s + S m)); simpl; subst; try lia. }
  rewrite (G (fun i => nth i counts 0)). simpl. destruct (Nat.ltb_spec k (length counts)); [reflexivity|]. rewrite nth_overflow by lia. reflexivity.
Qed.
Lemma base_length counts : length (base_vector counts) = fold_right Nat.add 0 counts.
Proof.
  unfold base_vector. assert (G : forall c s, length (flat_map (fun i => repeat i (nth (i - s) c 0)) (seq s (length c))) = fold_right Nat.add 0 c).
  { induction c as [|x c IH]; intros s; [reflexivity|]. cbn [length seq flat_map fold_right]. rewrite app_length, repeat_length, Nat.sub_diag. cbn [nth]. f_equal.
    rewrite <- (IH (S s)). f_equal. rewrite !flat_map_concat_map. f_equal. apply map_ext_in. intros i Hi. apply in_seq in Hi. replace (i - s) with (S (i - S s)) by lia. reflexivity. }
  rewrite <- (G counts 0). f_equal. rewrite !flat_map_concat_map. f_equal. apply map_ext. intros i. rewrite Nat.sub_0_r. reflexivity.
Qed.
Lemma base_sorted counts : nondecr (base_vector counts).
Proof.
  unfold base_vector, nondecr. assert (G : forall f m s, StronglySorted (fun a b => a <= b) (flat_map (fun i => repeat i (f i)) (seq s m)) /\
     forall x, In x (flat_map (fun i => repeat i (f i)) (seq s m)) -> s <= x).
  { intros f. induction m as [|m IH]; intros s; [split; [constructor|intros x []]|]. cbn [seq flat_map]. destruct (IH (S s)) as [A B]. split.
    - apply sorted_app; [|exact A|].
      + clear. induction (f s) as [|n IH]; [constructor|]. simpl. constructor; [exact IH|]. apply Forall_forall. intros x Hx. apply repeat_spec in Hx. lia.
      + intros x y Hx Hy. apply repeat_spec in Hx. apply B in Hy. lia.
    - intros x Hx. apply in_app_or in Hx. destruct Hx as [Hx|Hx]; [apply repeat_spec in Hx; lia|apply B in Hx; lia]. }
  apply (G (fun i => nth i counts 0)).
Qed.
Lemma permutation_configs counts lx ly : fold_right Nat.add 0 counts = ly * lx ->
  exists cs fuel0, (forall fuel, fuel0 <= fuel -> all_permutation_configs fuel counts lx ly = Some (Ok cs)) /\
    NoDup (map (flat ly lx) cs) /\
    (forall v, In v (map (flat ly lx) cs) <-> length v = ly * lx /\ forall k, count_occ Nat.eq_dec v k = nth k counts 0).
Proof.
  intros HL. set (b := base_vector counts). set (dim := length counts).
  assert (Hd : Forall (fun x => x < dim) b).
  { apply Forall_forall. intros x Hx. apply (count_occ_In Nat.eq_dec) in Hx. unfold b in Hx. rewrite base_count in Hx.
    destruct (Nat.lt_ge_cases x dim) as [L|L]; [exact L|]. rewrite nth_overflow in Hx by exact L. lia. }
  destruct (arrangements_total dim (S (above dim b)) b Hd ltac:(lia)) as [L A]. destruct (arrangements_sound _ _ _ A) as [ND IN].
  assert (LB : length b = ly * lx) by (unfold b; rewrite base_length; exact HL).
  destruct (configs_of_ok L lx ly) as (cs & E & F).
  { intros v Hv. apply IN in Hv. destruct Hv as [P _]. rewrite <- (Permutation_length P). exact LB. }
  exists cs, (S (above dim b)). split; [|split].
  - intros fuel Hf. unfold all_permutation_configs. rewrite loop_arrangements. fold b. rewrite (arrangements_fuel _ _ _ A fuel Hf), E. reflexivity.
  - rewrite F. exact ND.
  - intros v. rewrite F, IN. split.
    + intros [P _]. split; [rewrite <- (Permutation_length P); exact LB|]. intros k. rewrite <- base_count. symmetry. apply (Permutation_count_occ Nat.eq_dec). exact P.
    + intros [Lv C]. assert (P : Permutation b v) by (apply (Permutation_count_occ Nat.eq_dec); intros k; rewrite C; apply base_count).
      split; [exact P|]. apply min_perm; [apply base_sorted|exact P].
Qed.
(** *** Binary configurations *)
Lemma bits_value n : forall i, i < 2 ^ n -> forall j, j < 2 ^ n ->
  map (fun bit => (i / 2 ^ bit) mod 2) (seq 0 n) = map (fun bit => (j / 2 ^ bit) mod 2) (seq 0 n) -> i = j.
Proof.
  induction n as [|n IH]; intros i Hi j Hj E; [simpl in *; lia|]. rewrite !seq_S, !map_app in E. apply app_inj_tail in E. destruct E as [E1 E2]. cbn [Nat.add] in E2.
  assert (P : 2 ^ n <> 0) by (apply Nat.pow_nonzero; lia). simpl in Hi, Hj.
  assert (Q : forall k, k < 2 ^ n + (2 ^ n + 0) -> (k / 2 ^ n) mod 2 = k / 2 ^ n).
  { intros k Hk. apply Nat.mod_small. apply Nat.div_lt_upper_bound; lia. }
  rewrite !Q in E2 by assumption.
  assert (M : forall k bit, bit < n -> ((k mod 2 ^ n) / 2 ^ bit) mod 2 = (k / 2 ^ bit) mod 2).
  { intros k bit Hb. replace n with (bit + S (n - bit - 1)) by lia. rewrite Nat.pow_add_r. rewrite Nat.mod_mul_r by (apply Nat.pow_nonzero; lia).
    rewrite (Nat.mul_comm (2 ^ bit)), Nat.div_add by (apply Nat.pow_nonzero; lia).
    rewrite Nat.div_small by (apply Nat.mod_upper_bound, Nat.pow_nonzero; lia). cbn [Nat.add].
    rewrite Nat.pow_succ_r'. rewrite Nat.mod_mul_r by (try apply Nat.pow_nonzero; lia).
    rewrite (Nat.mul_comm 2), Nat.mod_add by lia. apply Nat.mod_mod. lia. }
  assert (EM : i mod 2 ^ n = j mod 2 ^ n).
  { apply IH; try (apply Nat.mod_upper_bound; exact P).
    rewrite (map_ext_in (fun bit => ((i mod 2 ^ n) / 2 ^ bit) mod 2) (fun bit => (i / 2 ^ bit) mod 2)) by (intros b Hb; apply in_seq in Hb; apply M; lia).
    rewrite (map_ext_in (fun bit => ((j mod 2 ^ n) / 2 ^ bit) mod 2) (fun bit => (j / 2 ^ bit) mod 2)) by (intros b Hb; apply in_seq in Hb; apply M; lia). exact E1. }
  rewrite (Nat.div_mod i (2 ^ n) P), (Nat.div_mod j (2 ^ n) P), EM, E2. reflexivity.
Qed.
Lemma pow_configs n : length (all_configs 2 n) = 2 ^ n.
Proof.
  induction n as [|n IH]; [reflexivity|]. cbn [all_configs Nat.pow].
  assert (G : forall l : list (list nat), length (flat_map (fun l => map (fun x => x :: l) (seq 0 2)) l) = 2 * length l).
  { induction l as [|a l IHl]; [reflexivity|]. cbn [flat_map]. rewrite app_length, map_length, seq_length, IHl. simpl. lia. }
  rewrite G, IH. reflexivity.
Qed.
Lemma binary_configs lx ly : lx * ly < 64 -> exists cs, all_binary_configs lx ly = Ok cs /\ NoDup (map (flat ly lx) cs) /\
  (forall v, In v (map (flat ly lx) cs) <-> length v = ly * lx /\ Forall (fun x => x < 2) v).
Proof.
  intros H. unfold all_binary_configs. destruct (Nat.leb_spec 64 (lx * ly)); [lia|]. set (n := lx * ly).
  set (g := fun i => map (fun bit => (i / 2 ^ bit) mod 2) (seq 0 n)).
  destruct (configs_of_ok (map g (seq 0 (2 ^ n))) lx ly) as (cs & E & F).
  { intros v Hv. apply in_map_iff in Hv. destruct Hv as (i & <- & _). unfold g. rewrite map_length, seq_length. unfold n. lia. }
  exists cs. split; [exact E|]. rewrite F.
  assert (ND : NoDup (map g (seq 0 (2 ^ n)))).
  { assert (G : forall l, NoDup l -> (forall i, In i l -> i < 2 ^ n) -> NoDup (map g l)).
    { induction l as [|i l IH]; intros N B; [constructor|]. inversion N; subst. simpl. constructor; [|apply IH; [assumption|intros; apply B; right; assumption]].
      intros Hi. apply in_map_iff in Hi. destruct Hi as (k & Ek & Hk). assert (k = i); [|subst; contradiction].
      apply (bits_value n); [apply B; right; exact Hk|apply B; left; reflexivity|exact Ek]. }
    apply G; [apply seq_NoDup|]. intros i Hi. apply in_seq in Hi. lia. }
  split; [exact ND|].
  assert (INC : incl (map g (seq 0 (2 ^ n))) (all_configs 2 n)).
  { intros v Hv. apply in_map_iff in Hv. destruct Hv as (i & <- & _). apply all_configs_in. unfold g. split; [rewrite map_length, seq_length; reflexivity|].
    apply Forall_forall. intros x Hx. apply in_map_iff in Hx. destruct Hx as (b & <- & _). apply Nat.mod_upper_bound. lia. }
  assert (INC' : incl (all_configs 2 n) (map g (seq 0 (2 ^ n)))).
  { apply NoDup_length_incl; [exact ND| |exact INC]. rewrite pow_configs, map_length, seq_length. lia. }
  intros v. rewrite (Nat.mul_comm ly lx). fold n. rewrite <- all_configs_in. split; [apply INC|apply INC'].
Qed.
