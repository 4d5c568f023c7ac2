(** Periodic energies equal the local energies of the torus Hamiltonians. *)
From Coq Require Import List Arith Lia Bool Reals Permutation Lra.
From Verif Require Import Base ContractorModel ContractorSpec SweepModel SweepSpec UpdaterSpec UpdaterChain BlockChain Cplx EnergyModel
  EnergySpec EnergySum EnergyMain EnergyModels EnergyHoles EnergyClaims HistoryProofs PbcModel PbcSpec.
Import ListNotations.
Local Open Scope nat_scope.

(** *** Sums over sites and pairs *)
Lemma sumC_for {X} (f : nat -> nat -> list X) (g : X -> C) ly lx :
  sumC g (for_ 0 ly (fun r => for_ 0 lx (fun c => f r c))) = sumC (fun s => sumC g (f (fst s) (snd s))) (all_sites ly lx).
Proof.
  unfold for_, all_sites. rewrite !Nat.sub_0_r.
  assert (R : forall i l, sumC g (flat_map (fun c => f i c) l) = sumC (fun s => sumC g (f (fst s) (snd s))) (map (fun y => (i, y)) l)).
  { intros i l. induction l as [|k l IH]; [reflexivity|]. cbn [flat_map map]. rewrite sumC_app, sumC_cons, IH. reflexivity. }
  induction (seq 0 ly) as [|i l IH]; [reflexivity|]. cbn [flat_map list_prod]. rewrite !sumC_app, IH, R. reflexivity.
Qed.
Definition ind (b : bool) : C := if b then RtoC 1 else RtoC 0.
Lemma sumC_prod {X Y} (f : X * Y -> C) l l' : sumC f (list_prod l l') = sumC (fun a => sumC (fun b => f (a, b)) l') l.
Proof.
  induction l as [|a l IH]; [reflexivity|]. cbn [list_prod]. rewrite sumC_app, sumC_cons, IH. f_equal.
  rewrite sumC_map. reflexivity.
Qed.
Lemma site_eqb_true a b : site_eqb a b = true <-> a = b.
Proof. destruct a, b. unfold site_eqb. cbn [fst snd]. rewrite andb_true_iff, !Nat.eqb_eq. split; [intros [-> ->]; reflexivity|intros H; injection H as -> ->; auto]. Qed.
Lemma sumC_pick (f : site -> C) y l : NoDup l -> In y l -> sumC (fun b => ind (site_eqb b y) * f b)%C l = f y.
Proof.
  intros ND Hi. induction l as [|x l IH]; [destruct Hi|]. inversion ND; subst. rewrite sumC_cons. destruct Hi as [->|Hi].
  - rewrite sumC_zero.
    + assert (Q : site_eqb y y = true) by (apply site_eqb_true; reflexivity). rewrite Q. unfold ind. ring.
    + intros b Hb. destruct (site_eqb b y) eqn:Q; [apply site_eqb_true in Q; subst; contradiction|]. unfold ind. ring.
  - destruct (site_eqb x y) eqn:Q; [apply site_eqb_true in Q; subst; contradiction|]. rewrite IH by auto. unfold ind. ring.
Qed.

Section Torus.
Context (rows cols : nat).
Definition inside (s : site) : Prop := fst s < rows /\ snd s < cols.
Lemma index_inj a b : inside a -> inside b -> index cols a = index cols b -> a = b.
Proof.
  intros [A1 A2] [B1 B2] E. unfold index in E. destruct a as [r c], b as [r' c']; simpl in *.
  assert (r = r') by nia. subst. f_equal. lia.
Qed.
(** A loop over the sites that joins [s] to [g s], seen as a sum over unordered pairs. *)
Lemma directed_sum (g : site -> site) (f : site * site -> C) :
  (forall s, inside s -> inside (g s) /\ g s <> s) -> (forall a b, inside a -> inside b -> f (a, b) = f (b, a)) ->
  sumC (fun s => f (s, g s)) (all_sites rows cols) =
  sumC (fun ab => if index cols (fst ab) <? index cols (snd ab)
                  then ((ind (site_eqb (snd ab) (g (fst ab))) + ind (site_eqb (fst ab) (g (snd ab)))) * f ab)%C else RtoC 0)
       (list_prod (all_sites rows cols) (all_sites rows cols)).
Proof.
  intros Hg Hf. rewrite sumC_prod.
  transitivity (sumC (fun a => sumC (fun b => ind (site_eqb b (g a)) * f (a, b))%C (all_sites rows cols)) (all_sites rows cols)).
  { apply sumC_ext. intros a Ha. apply all_sites_in in Ha. destruct (Hg a Ha) as [Gi _]. symmetry.
    apply (sumC_pick (fun b => f (a, b))); [apply all_sites_nodup|apply all_sites_in; exact Gi]. }
  set (lt := fun a b => index cols a <? index cols b). set (L := all_sites rows cols).
  transitivity (sumC (fun a => sumC (fun b => if lt a b then ind (site_eqb b (g a)) * f (a, b) else RtoC 0)%C L) L +
                sumC (fun a => sumC (fun b => if lt b a then ind (site_eqb b (g a)) * f (a, b) else RtoC 0)%C L) L)%C.
  { rewrite <- sumC_add. apply sumC_ext. intros a Ha. rewrite <- sumC_add. apply sumC_ext. intros b Hb.
    apply all_sites_in in Ha, Hb. unfold lt.
    destruct (Nat.ltb_spec (index cols a) (index cols b)), (Nat.ltb_spec (index cols b) (index cols a)); try lia; try ring.
    assert (E : a = b) by (apply index_inj; auto; lia). subst b. destruct (Hg a Ha) as [_ N].
    destruct (site_eqb a (g a)) eqn:Q; [apply site_eqb_true in Q; congruence|]. unfold ind. ring. }
  rewrite (sumC_swap (fun a b => if lt b a then _ else _)). rewrite <- sumC_add. apply sumC_ext. intros a Ha.
  rewrite <- sumC_add. apply sumC_ext. intros b Hb. apply all_sites_in in Ha, Hb. cbn [fst snd]. unfold lt.
  destruct (index cols a <? index cols b); [|ring]. rewrite (Hf b a Hb Ha). ring.
Qed.
Lemma pairs_sum rel (f : site * site -> C) : sumC f (torus_pairs rows cols rel) =
  sumC (fun ab => if index cols (fst ab) <? index cols (snd ab) then (ind (rel (fst ab) (snd ab)) * f ab)%C else RtoC 0)
       (list_prod (all_sites rows cols) (all_sites rows cols)).
Proof.
  unfold torus_pairs. rewrite <- sumC_filter. apply sumC_ext. intros ab _. unfold ind.
  destruct (_ <? _), (rel _ _); simpl; ring.
Qed.
End Torus.

Lemma next_mod n i : i < n -> (i + 1) mod n = if i + 1 =? n then 0 else i + 1.
Proof. intros H. destruct (Nat.eqb_spec (i + 1) n) as [->|]; [apply Nat.mod_same; lia|apply Nat.mod_small; lia]. Qed.
Lemma prev_mod n i j : i < n -> j < n -> (j =? (i + n - 1) mod n) = (i =? (j + 1) mod n).
Proof.
  intros Hi Hj. rewrite next_mod by exact Hj. destruct i as [|i].
  - replace (0 + n - 1) with (n - 1) by lia. rewrite Nat.mod_small by lia.
    destruct (Nat.eqb_spec (j + 1) n), (Nat.eqb_spec j (n - 1)); try lia; destruct (Nat.eqb_spec 0 (j + 1)); try lia; reflexivity.
  - replace (S i + n - 1) with (i + 1 * n) by lia. rewrite Nat.mod_add, Nat.mod_small by lia.
    destruct (Nat.eqb_spec (j + 1) n), (Nat.eqb_spec j i); try lia.
    + reflexivity.
    + subst. symmetry. apply Nat.eqb_eq. lia.
    + symmetry. apply Nat.eqb_neq. lia.
Qed.
(** Steps along a ring in either sense. *)
Lemma ring_steps n i j : 2 <= n -> i < n -> j < n ->
  (ind (j =? (i + 1) mod n) + ind (i =? (j + 1) mod n))%C = (RtoC (wrap_weight n) * ind (ring n i j))%C.
Proof.
  intros Hn Hi Hj. unfold ring, wrap_weight. rewrite !next_mod by assumption.
  assert (T : RtoC 2 = (RtoC 1 + RtoC 1)%C) by (rewrite <- RtoC_add; f_equal; lra).
  destruct (Nat.eqb_spec (i + 1) n), (Nat.eqb_spec (j + 1) n), (Nat.eqb_spec n 2); cbv iota;
    repeat match goal with |- context [Nat.eqb ?x ?y] => destruct (Nat.eqb_spec x y); try lia end; cbn [orb ind]; rewrite ?T; try ring.
Qed.
Lemma ring_loop n i : 2 <= n -> i < n -> (i + 1) mod n < n /\ (i + 1) mod n <> i.
Proof. intros Hn Hi. rewrite next_mod by exact Hi. destruct (Nat.eqb_spec (i + 1) n); lia. Qed.

Section Neighbours.
Context (rows cols : nat).
Hypothesis Hr : 2 <= rows.
Hypothesis Hc : 2 <= cols.
Context (f : site * site -> C).
Hypothesis Hf : forall a b, inside rows cols a -> inside rows cols b -> f (a, b) = f (b, a).
Lemma step_ind_h a b : inside rows cols a -> inside rows cols b ->
  (ind (site_eqb b (site_right cols a)) + ind (site_eqb a (site_right cols b)))%C =
  (RtoC (wrap_weight cols) * ind (torus_horizontal cols a b))%C.
Proof.
  intros [A1 A2] [B1 B2]. unfold site_eqb, site_right, torus_horizontal. cbn [fst snd]. rewrite (Nat.eqb_sym (fst b)).
  pose proof (ring_steps cols (snd a) (snd b) Hc A2 B2) as E. destruct (fst a =? fst b); cbn [andb]; [exact E|]. unfold ind. ring.
Qed.
Lemma step_ind_v a b : inside rows cols a -> inside rows cols b ->
  (ind (site_eqb b (site_down rows a)) + ind (site_eqb a (site_down rows b)))%C =
  (RtoC (wrap_weight rows) * ind (torus_vertical rows a b))%C.
Proof.
  intros [A1 A2] [B1 B2]. unfold site_eqb, site_down, torus_vertical. cbn [fst snd]. rewrite (Nat.eqb_sym (snd b)).
  pose proof (ring_steps rows (fst a) (fst b) Hr A1 B1) as E. destruct (snd a =? snd b); rewrite ?andb_true_r, ?andb_false_r; [exact E|]. unfold ind. ring.
Qed.
Lemma step_ind_d a b : inside rows cols a -> inside rows cols b ->
  ((ind (site_eqb b (site_dr rows cols a)) + ind (site_eqb a (site_dr rows cols b))) +
   (ind (site_eqb b (site_dl rows cols a)) + ind (site_eqb a (site_dl rows cols b))))%C =
  (RtoC (wrap_weight cols * wrap_weight rows) * ind (torus_diagonal rows cols a b))%C.
Proof.
  intros [A1 A2] [B1 B2]. unfold site_eqb, site_dr, site_dl, torus_diagonal. cbn [fst snd].
  rewrite (prev_mod cols (snd a) (snd b)), (prev_mod cols (snd b) (snd a)) by assumption.
  assert (M : forall x y, ind (x && y) = (ind x * ind y)%C) by (intros [] []; unfold ind; simpl; ring).
  rewrite !M, RtoC_mul.
  transitivity ((ind (snd b =? (snd a + 1) mod cols) + ind (snd a =? (snd b + 1) mod cols)) *
                (ind (fst b =? (fst a + 1) mod rows) + ind (fst a =? (fst b + 1) mod rows)))%C; [ring|].
  rewrite !ring_steps by assumption. ring.
Qed.
Lemma sum_right : sumC (fun s => f (s, site_right cols s)) (all_sites rows cols) =
  (RtoC (wrap_weight cols) * sumC f (torus_pairs rows cols (torus_horizontal cols)))%C.
Proof.
  rewrite (directed_sum rows cols); try lia.
  - rewrite pairs_sum, <- sumC_scal. apply sumC_ext. intros [a b] Hab. apply in_prod_iff in Hab. rewrite !all_sites_in in Hab. cbn [fst snd].
    destruct (_ <? _); [|ring]. rewrite step_ind_h by apply Hab. ring.
  - intros s [A B]. destruct (ring_loop cols (snd s) Hc B) as [X Y]. split; [split; simpl; assumption|]. intros E. apply Y. rewrite <- E at 2. reflexivity.
  - exact Hf.
Qed.
Lemma sum_down : sumC (fun s => f (s, site_down rows s)) (all_sites rows cols) =
  (RtoC (wrap_weight rows) * sumC f (torus_pairs rows cols (torus_vertical rows)))%C.
Proof.
  rewrite (directed_sum rows cols); try lia.
  - rewrite pairs_sum, <- sumC_scal. apply sumC_ext. intros [a b] Hab. apply in_prod_iff in Hab. rewrite !all_sites_in in Hab. cbn [fst snd].
    destruct (_ <? _); [|ring]. rewrite step_ind_v by apply Hab. ring.
  - intros s [A B]. destruct (ring_loop rows (fst s) Hr A) as [X Y]. split; [split; simpl; assumption|]. intros E. apply Y. rewrite <- E at 2. reflexivity.
  - exact Hf.
Qed.
Lemma sum_diag : (sumC (fun s => f (s, site_dr rows cols s)) (all_sites rows cols) +
   sumC (fun s => f (s, site_dl rows cols s)) (all_sites rows cols))%C =
  (RtoC (wrap_weight cols * wrap_weight rows) * sumC f (torus_pairs rows cols (torus_diagonal rows cols)))%C.
Proof.
  rewrite (directed_sum rows cols); try lia.
  - rewrite (directed_sum rows cols (site_dl rows cols)); try lia.
    + rewrite pairs_sum, <- sumC_scal, <- sumC_add. apply sumC_ext. intros [a b] Hab. apply in_prod_iff in Hab. rewrite !all_sites_in in Hab. cbn [fst snd].
      destruct (_ <? _); [|ring]. 
      transitivity (((ind (site_eqb b (site_dr rows cols a)) + ind (site_eqb a (site_dr rows cols b))) +
         (ind (site_eqb b (site_dl rows cols a)) + ind (site_eqb a (site_dl rows cols b)))) * f (a, b))%C; [ring|].
      rewrite step_ind_d by apply Hab. ring.
    + intros s [A B]. destruct (ring_loop rows (fst s) Hr A) as [X Y]. split.
      * split; simpl; [assumption|apply Nat.mod_upper_bound; lia].
      * intros E. apply Y. rewrite <- E at 2. reflexivity.
    + exact Hf.
  - intros s [A B]. destruct (ring_loop rows (fst s) Hr A) as [X Y]. split.
    + split; simpl; [assumption|apply Nat.mod_upper_bound; lia].
    + intros E. apply Y. rewrite <- E at 2. reflexivity.
  - exact Hf.
Qed.
End Neighbours.

(** *** Energies *)
Lemma forallb_ext' {X} (f g : X -> bool) l : (forall x, f x = g x) -> forallb f l = forallb g l.
Proof. intros H. induction l; simpl; congruence. Qed.
Lemma Cadd_zero (x : C) : (x + RtoC 0)%C = x.
Proof. ring. Qed.
Lemma ok_inj {X} (x y : X) : Ok x = Ok y -> x = y.
Proof. intros H. injection H. auto. Qed.
Lemma on_sites_swap i j A S S' : (forall a b a' b', A [a; b] [a'; b'] = A [b; a] [b'; a']) ->
  on_sites [i; j] A S S' = on_sites [j; i] A S S'.
Proof.
  intros H. unfold on_sites.
  assert (E : agree_off [i; j] S S' = agree_off [j; i] S S').
  { unfold agree_off. apply forallb_ext'. intros k. cbn [existsb]. destruct (k =? i), (k =? j); reflexivity. }
  rewrite <- E. destruct (agree_off [i; j] S S'); [|reflexivity]. unfold get. cbn [map]. apply H.
Qed.
Lemma xxz_sym jz jxy a b a' b' : xxz_bond jz jxy [a; b] [a'; b'] = xxz_bond jz jxy [b; a] [b'; a'].
Proof. unfold xxz_bond, op_add, op_scal, tensor. ring. Qed.
Lemma zz_sym a b a' b' : zz_bond [a; b] [a'; b'] = zz_bond [b; a] [b'; a'].
Proof. unfold zz_bond, op_scal, tensor. ring. Qed.
Section Energy.
Context (T : Type) (contract : (nat -> nat -> T) -> C) (tps : nat -> nat -> nat -> T) (rows cols : nat).
Hypothesis Hr : 2 <= rows.
Hypothesis Hc : 2 <= cols.
Hypothesis HL : reads_lattice contract rows cols.
Context (cfg : nat -> nat -> nat) (tn : nat -> nat -> T).
Hypothesis HT : forall r c, r < rows -> c < cols -> tn r c = tps r c (cfg r c).
Hypothesis HS : all_states rows cols (fun x => x < 2) cfg.
Notation Psi := (torus_wave contract tps cols).
Notation S0 := (flat rows cols cfg).
Hypothesis HZ : Psi S0 <> RtoC 0.
Let HC : In S0 (all_configs 2 (rows * cols)).
Proof. apply flat_states; auto; lia. Qed.
Lemma conf_flat r c : r < rows -> c < cols -> conf cols S0 r c = cfg r c.
Proof. intros A B. exact (flat_pos rows cols cfg (r, c) A B). Qed.
Lemma contract_tn : contract tn = Psi S0.
Proof. apply HL. intros r c A B. rewrite HT, conf_flat by assumption. reflexivity. Qed.
Lemma S0_len : length S0 = rows * cols.
Proof. apply all_configs_in in HC. apply HC. Qed.
Lemma replaced_two a b x y : inside rows cols a -> inside rows cols b -> a <> b ->
  evaluate_replacement T contract tps tn [(a, x); (b, y)] = Psi (put [index cols a; index cols b] [x; y] S0).
Proof.
  intros Ha Hb Hn. apply HL. intros r c A B. cbn [fold_left fst snd]. unfold upd2.
  assert (NI : index cols a <> index cols b) by (intros E; apply Hn; eapply index_inj; eauto).
  assert (ND : NoDup [index cols a; index cols b]) by (repeat constructor; simpl; intuition).
  assert (LT : Forall (fun i => i < length S0) [index cols a; index cols b]).
  { rewrite S0_len. destruct Ha as [? ?], Hb as [? ?].
    repeat constructor; [exact (pos_of_lt rows cols a ltac:(assumption) ltac:(assumption))|exact (pos_of_lt rows cols b ltac:(assumption) ltac:(assumption))]. }
  assert (LK : r * cols + c < length S0) by (rewrite S0_len; nia).
  unfold conf. rewrite put_get_nth by auto. cbn [combine find fst snd].
  destruct (site_eqb (r, c) b) eqn:Eb.
  - apply site_eqb_true in Eb. subst b. cbn [fst snd index].
    destruct (Nat.eqb_spec (index cols a) (r * cols + c)) as [E|]; [exfalso; apply NI; exact E|].
    unfold index. cbn [fst snd]. rewrite Nat.eqb_refl. reflexivity.
  - destruct (site_eqb (r, c) a) eqn:Ea.
    + apply site_eqb_true in Ea. subst a. unfold index at 1. cbn [fst snd]. rewrite Nat.eqb_refl. reflexivity.
    + destruct (Nat.eqb_spec (index cols a) (r * cols + c)) as [E|].
      { assert (Q : a = (r, c)) by (apply (index_inj rows cols); try exact E; auto; split; assumption).
        rewrite Q in Ea. assert (site_eqb (r, c) (r, c) = true) by (apply site_eqb_true; reflexivity). congruence. }
      destruct (Nat.eqb_spec (index cols b) (r * cols + c)) as [E|].
      { assert (Q : b = (r, c)) by (apply (index_inj rows cols); try exact E; auto; split; assumption).
        rewrite Q in Eb. assert (site_eqb (r, c) (r, c) = true) by (apply site_eqb_true; reflexivity). congruence. }
      rewrite HT by assumption. pose proof (conf_flat r c A B) as E. unfold conf in E. rewrite E. reflexivity.
Qed.
Lemma replaced_one a x : inside rows cols a ->
  evaluate_replacement T contract tps tn [(a, x)] = Psi (put [index cols a] [x] S0).
Proof.
  intros Ha. apply HL. intros r c A B. cbn [fold_left fst snd]. unfold upd2.
  assert (ND : NoDup [index cols a]) by (repeat constructor; simpl; intuition).
  assert (LT : Forall (fun i => i < length S0) [index cols a]).
  { rewrite S0_len. destruct Ha as [? ?]. repeat constructor. exact (pos_of_lt rows cols a ltac:(assumption) ltac:(assumption)). }
  assert (LK : r * cols + c < length S0) by (rewrite S0_len; nia).
  unfold conf. rewrite put_get_nth by auto. cbn [combine find fst snd].
  destruct (site_eqb (r, c) a) eqn:Ea.
  - apply site_eqb_true in Ea. subst a. unfold index at 1. cbn [fst snd]. rewrite Nat.eqb_refl. reflexivity.
  - destruct (Nat.eqb_spec (index cols a) (r * cols + c)) as [E|].
    { assert (Q : a = (r, c)) by (apply (index_inj rows cols); try exact E; auto; split; assumption).
      rewrite Q in Ea. assert (site_eqb (r, c) (r, c) = true) by (apply site_eqb_true; reflexivity). congruence. }
    rewrite HT by assumption. pose proof (conf_flat r c A B) as E. unfold conf in E. rewrite E. reflexivity.
Qed.
Lemma cfg_at a : inside rows cols a -> nth (index cols a) S0 0 = cfg (fst a) (snd a).
Proof. intros [A B]. exact (flat_pos rows cols cfg a A B). Qed.
Lemma two_ok a b : inside rows cols a -> inside rows cols b -> a <> b ->
  NoDup [index cols a; index cols b] /\ Forall (fun i => i < rows * cols) [index cols a; index cols b].
Proof.
  intros Ha Hb Hn. split.
  - assert (NI : index cols a <> index cols b) by (intros E; apply Hn; eapply index_inj; eauto). repeat constructor; simpl; intuition.
  - destruct Ha as [? ?], Hb as [? ?].
    repeat constructor; [exact (pos_of_lt rows cols a ltac:(assumption) ltac:(assumption))|exact (pos_of_lt rows cols b ltac:(assumption) ltac:(assumption))].
Qed.
(** One bond. *)
Lemma coupling_local jz jxy a b : inside rows cols a -> inside rows cols b -> a <> b ->
  pbc_coupling T contract tps jz jxy cfg tn (Cinv (contract tn)) a b =
  local_energy 2 (rows * cols) (on_sites [index cols a; index cols b] (xxz_bond jz jxy)) Psi S0.
Proof.
  intros Ha Hb Hn. destruct (two_ok a b Ha Hb Hn) as [ND LT]. unfold local_energy. rewrite (local_op_sum 2 (rows * cols)) by auto. cbn [length].
  set (Tr := fun ns => Psi (put [index cols a; index cols b] ns S0)).
  assert (G : get [index cols a; index cols b] S0 = [cfg (fst a) (snd a); cfg (fst b) (snd b)]).
  { unfold get. cbn [map]. rewrite !cfg_at by assumption. reflexivity. }
  assert (ET : Tr [cfg (fst a) (snd a); cfg (fst b) (snd b)] = Psi S0).
  { unfold Tr. rewrite <- G. rewrite put_same; auto. rewrite S0_len. exact LT. }
  assert (Hcs : In [cfg (fst a) (snd a); cfg (fst b) (snd b)] (all_configs 2 2)).
  { apply all_configs_in. split; [reflexivity|]. destruct Ha, Hb. apply Forall_cons; [apply HS; assumption|]. apply Forall_cons; [apply HS; assumption|constructor]. }
  assert (TM : m_visit (xxz_model jz jxy 0 0 0) (VBond HORIZONTAL (0, 0)) [cfg (fst a) (snd a); cfg (fst b) (snd b)] (Some (Cinv (Psi S0))) (Psi S0) Tr =
     Ok (Cconj (sumC (fun ns => xxz_bond jz jxy [cfg (fst a) (snd a); cfg (fst b) (snd b)] ns * Tr ns)%C (all_configs 2 2) / Psi S0)%C)).
  { rewrite <- ET. apply (xxz_bond_model jz jxy 0 0 0 (VBond HORIZONTAL (0, 0)) eq_refl); [exact Hcs|rewrite ET; exact HZ|reflexivity]. }
  rewrite G. cbn [m_visit xxz_model xxz_term] in TM.
  unfold pbc_coupling. rewrite contract_tn. rewrite replaced_two by assumption. fold (Tr [cfg (fst b) (snd b); cfg (fst a) (snd a)]).
  pose proof (HS (fst a) (snd a) (proj1 Ha) (proj2 Ha)) as Sa. pose proof (HS (fst b) (snd b) (proj1 Hb) (proj2 Hb)) as Sb. cbv beta in Sa, Sb.
  destruct (Nat.eqb_spec (cfg (fst a) (snd a)) (cfg (fst b) (snd b))) as [E|N].
  - apply ok_inj in TM. refine (eq_trans _ TM). rewrite E. unfold spin_z.
    assert (Q : (jz * (INR (cfg (fst b) (snd b)) - 1 / 2) * (INR (cfg (fst b) (snd b)) - 1 / 2))%R = (1 / 4 * jz)%R).
    { destruct (cfg (fst b) (snd b)) as [|[|x]]; try lia; simpl; lra. }
    rewrite Q. ring.
  - apply ok_inj in TM. refine (eq_trans _ TM).
    assert (Q : (jz * spin_z (cfg (fst a) (snd a)) * spin_z (cfg (fst b) (snd b)))%R = (- (1 / 4) * jz)%R).
    { unfold spin_z. destruct (cfg (fst a) (snd a)) as [|[|x]], (cfg (fst b) (snd b)) as [|[|y]]; try lia; simpl; lra. }
    rewrite Q, (RtoC_mul (1 / 2) jxy). ring.
Qed.
Lemma xxz_pbc jz1 jxy1 jz2 jxy2 p :
  pbc_xxz_energy T contract tps jz1 jxy1 jz2 jxy2 p true rows cols cfg tn =
  Ok (local_energy 2 (rows * cols) (H_xxz_torus rows cols (wrap_weight cols) (wrap_weight rows) jz1 jxy1 jz2 jxy2 p) Psi S0).
Proof.
  unfold pbc_xxz_energy. cbn [negb]. assert (Z : is_zero (contract tn) = false).
  { rewrite contract_tn. unfold is_zero. destruct (Ceq_dec _ _); [contradiction|reflexivity]. }
  rewrite Z. f_equal. unfold H_xxz_torus. rewrite !local_energy_add, !local_energy_scal.
  set (le := fun jz jxy (ab : site * site) => local_energy 2 (rows * cols) (on_sites [index cols (fst ab); index cols (snd ab)] (xxz_bond jz jxy)) Psi S0).
  assert (SY : forall jz jxy a b, le jz jxy (a, b) = le jz jxy (b, a)).
  { intros. unfold le. cbn [fst snd]. apply local_energy_ext. intros. apply on_sites_swap. intros. apply xxz_sym. }
  assert (LP : forall jz jxy rel, local_energy 2 (rows * cols) (on_pairs rows cols rel (xxz_bond jz jxy)) Psi S0 = sumC (le jz jxy) (torus_pairs rows cols rel)).
  { intros. unfold on_pairs. rewrite local_energy_sum. reflexivity. }
  rewrite !LP. rewrite sumC_for.
  assert (CP : forall jz jxy s g, inside rows cols s -> inside rows cols g -> g <> s ->
     pbc_coupling T contract tps jz jxy cfg tn (Cinv (contract tn)) s g = le jz jxy (s, g)).
  { intros. apply coupling_local; auto. }
  assert (RN : forall s, inside rows cols s -> inside rows cols (site_right cols s) /\ site_right cols s <> s).
  { intros s [A B]. destruct (ring_loop cols (snd s) Hc B) as [X Y]. split; [split; simpl; assumption|]. intros E. apply Y. rewrite <- E at 2. reflexivity. }
  assert (DN : forall s, inside rows cols s -> inside rows cols (site_down rows s) /\ site_down rows s <> s).
  { intros s [A B]. destruct (ring_loop rows (fst s) Hr A) as [X Y]. split; [split; simpl; assumption|]. intros E. apply Y. rewrite <- E at 2. reflexivity. }
  assert (DR : forall s, inside rows cols s -> inside rows cols (site_dr rows cols s) /\ site_dr rows cols s <> s).
  { intros s [A B]. destruct (ring_loop rows (fst s) Hr A) as [X Y]. split; [split; simpl; [assumption|apply Nat.mod_upper_bound; lia]|]. intros E. apply Y. rewrite <- E at 2. reflexivity. }
  assert (DL : forall s, inside rows cols s -> inside rows cols (site_dl rows cols s) /\ site_dl rows cols s <> s).
  { intros s [A B]. destruct (ring_loop rows (fst s) Hr A) as [X Y]. split; [split; simpl; [assumption|apply Nat.mod_upper_bound; lia]|]. intros E. apply Y. rewrite <- E at 2. reflexivity. }
  assert (N1 : (sumC (fun s => le jz1 jxy1 (s, site_right cols s)) (all_sites rows cols) = RtoC (wrap_weight cols) * sumC (le jz1 jxy1) (torus_pairs rows cols (torus_horizontal cols)))%C).
  { apply sum_right; auto. }
  assert (N2 : (sumC (fun s => le jz1 jxy1 (s, site_down rows s)) (all_sites rows cols) = RtoC (wrap_weight rows) * sumC (le jz1 jxy1) (torus_pairs rows cols (torus_vertical rows)))%C).
  { apply sum_down; auto. }
  pose proof (sum_diag rows cols Hr Hc (le jz2 jxy2) (fun a b _ _ => SY jz2 jxy2 a b)) as N3.
  rewrite <- N1, <- N2, <- N3.
  assert (ON : pbc_onsite p cfg = (RtoC (- p) * local_energy 2 (rows * cols) (on_sites [0%nat] Sz) Psi S0)%C).
  { rewrite (local_energy_diag 2 (rows * cols) [0] Sz (fun cs => spin_z (hd 0 cs))).
    - unfold get. cbn [map hd]. pose proof (cfg_at (0, 0)) as F. unfold index in F. simpl in F. rewrite F by (split; simpl; lia).
      unfold pbc_onsite. destruct (Req_EM_T p 0) as [->|]; [rewrite <- RtoC_mul; f_equal; ring|apply RtoC_mul].
    - exact HC.
    - constructor; [intros []|constructor].
    - constructor; [nia|constructor].
    - exact HZ.
    - intros cs ns A B. apply configs1 in A, B. destruct A as (a & -> & Ha), B as (b & -> & Hb). apply sz_entry; auto. }
  rewrite ON.
  destruct (has_nnn jz2 jxy2) eqn:HN.
  - rewrite (sumC_ext _ (fun s => le jz1 jxy1 (s, site_right cols s) + le jz1 jxy1 (s, site_down rows s) +
        (le jz2 jxy2 (s, site_dr rows cols s) + le jz2 jxy2 (s, site_dl rows cols s)))%C).
    + rewrite !sumC_add. ring.
    + intros [r c] Hs. apply all_sites_in in Hs. cbn [fst snd]. cbn [app]. rewrite !sumC_cons, sumC_nil.
      rewrite !CP by (try apply Hs; first [apply RN|apply DN|apply DR|apply DL]; exact Hs). ring.
  - rewrite (sumC_ext _ (fun s => le jz1 jxy1 (s, site_right cols s) + le jz1 jxy1 (s, site_down rows s))%C).
    + assert (Z2 : forall ab, inside rows cols (fst ab) -> inside rows cols (snd ab) -> fst ab <> snd ab -> le jz2 jxy2 ab = RtoC 0).
      { intros [a b] Ha Hb Hn. cbn [fst snd] in *. unfold has_nnn in HN. apply negb_false_iff in HN.
        destruct (Req_EM_T jz2 0) as [->|]; [|discriminate]. destruct (Req_EM_T jxy2 0) as [->|]; [|discriminate].
        unfold le. apply local_energy_zero. intros S'. unfold on_sites. cbn [fst snd]. destruct (agree_off _ _ _); [|reflexivity].
        unfold get. cbn [map]. unfold xxz_bond, op_add, op_scal. ring. }
      rewrite (sumC_zero (fun s => le jz2 jxy2 (s, site_dr rows cols s))), (sumC_zero (fun s => le jz2 jxy2 (s, site_dl rows cols s))).
      * rewrite !sumC_add. ring.
      * intros s Hs. apply all_sites_in in Hs. destruct (DL s Hs). apply Z2; auto.
      * intros s Hs. apply all_sites_in in Hs. destruct (DR s Hs). apply Z2; auto.
    + intros [r c] Hs. apply all_sites_in in Hs. cbn [fst snd]. cbn [app]. rewrite !sumC_cons, sumC_nil.
      rewrite !CP by (try apply Hs; first [apply RN|apply DN]; exact Hs). ring.
Qed.
Lemma heisenberg_pbc jz jxy :
  pbc_heisenberg_energy T contract tps jz jxy true rows cols cfg tn =
  Ok (local_energy 2 (rows * cols) (H_xxz_torus rows cols (wrap_weight cols) (wrap_weight rows) jz jxy 0 0 0) Psi S0).
Proof.
  rewrite <- xxz_pbc. unfold pbc_heisenberg_energy, pbc_xxz_energy. cbn [negb]. destruct (is_zero _); [reflexivity|].
  unfold pbc_onsite, has_nnn. destruct (Req_EM_T 0 0); [|congruence]. cbn [andb negb]. f_equal.
  rewrite !sumC_for. rewrite (sumC_ext _ (fun s => sumC (fun x => x)
    [pbc_coupling T contract tps jz jxy cfg tn (Cinv (contract tn)) s (site_right cols s);
     pbc_coupling T contract tps jz jxy cfg tn (Cinv (contract tn)) s (site_down rows s)])).
  - rewrite (sumC_ext (fun s => sumC (fun x => x) ([_; _] ++ [])) (fun s => sumC (fun x => x)
    [pbc_coupling T contract tps jz jxy cfg tn (Cinv (contract tn)) s (site_right cols s);
     pbc_coupling T contract tps jz jxy cfg tn (Cinv (contract tn)) s (site_down rows s)])); [ring|].
    intros [r c] _. reflexivity.
  - intros [r c] _. reflexivity.
Qed.
Lemma zz_local a b : inside rows cols a -> inside rows cols b -> a <> b ->
  (if cfg (fst a) (snd a) =? cfg (fst b) (snd b) then RtoC (-1) else RtoC 1) =
  local_energy 2 (rows * cols) (on_sites [index cols a; index cols b] zz_bond) Psi S0.
Proof.
  intros Ha Hb Hn. destruct (two_ok a b Ha Hb Hn) as [ND LT].
  rewrite (local_energy_diag 2 (rows * cols) [index cols a; index cols b] zz_bond
    (fun cs => if nth 0 cs 0 =? nth 1 cs 0 then (-1)%R else 1%R)); auto.
  - unfold get. cbn [map nth]. rewrite !cfg_at by assumption. destruct (_ =? _); reflexivity.
  - intros cs ns A B. apply configs2 in A, B. destruct A as (x & y & -> & ? & ?), B as (x' & y' & -> & ? & ?).
    cbn [nth]. apply zz_entry; auto.
Qed.
Lemma flip_local h a : inside rows cols a ->
  (RtoC (- h) * Cconj (evaluate_replacement T contract tps tn [(a, 1 - cfg (fst a) (snd a))%nat] * Cinv (contract tn)))%C =
  local_energy 2 (rows * cols) (on_sites [index cols a] (op_scal (- h) (op_scal 2 Sx))) Psi S0.
Proof.
  intros Ha. assert (ND : NoDup [index cols a]) by (repeat constructor; simpl; intuition).
  assert (LT : Forall (fun i => i < rows * cols) [index cols a]).
  { destruct Ha as [? ?]. repeat constructor. exact (pos_of_lt rows cols a ltac:(assumption) ltac:(assumption)). }
  unfold local_energy. rewrite (local_op_sum 2 (rows * cols)) by auto. cbn [length].
  set (Tr := fun ns => Psi (put [index cols a] ns S0)).
  assert (G : get [index cols a] S0 = [cfg (fst a) (snd a)]).
  { unfold get. cbn [map]. rewrite cfg_at by assumption. reflexivity. }
  assert (ET : Tr [cfg (fst a) (snd a)] = Psi S0).
  { unfold Tr. rewrite <- G. rewrite put_same; auto. rewrite S0_len. exact LT. }
  assert (Sa : cfg (fst a) (snd a) < 2) by (destruct Ha; apply HS; assumption).
  assert (Hcs : In [cfg (fst a) (snd a)] (all_configs 2 1)).
  { apply all_configs_in. split; [reflexivity|]. apply Forall_cons; [exact Sa|constructor]. }
  assert (TM : m_visit (tfim_model h) (VSite (0, 0)%nat) [cfg (fst a) (snd a)] (Some (Cinv (Psi S0))) (Psi S0) Tr =
     Ok (Cconj (sumC (fun ns => op_scal (- h) (op_scal 2 Sx) [cfg (fst a) (snd a)] ns * Tr ns)%C (all_configs 2 1) / Psi S0)%C)).
  { rewrite <- ET. apply sx_term; [exact Hcs|rewrite ET; exact HZ|reflexivity]. }
  rewrite G. cbn [m_visit tfim_model] in TM. rewrite contract_tn, replaced_one by exact Ha. fold (Tr [1 - cfg (fst a) (snd a)]).
  unfold usub in TM. destruct (Nat.ltb_spec 1 (cfg (fst a) (snd a))); [lia|]. cbn [bind] in TM. apply ok_inj in TM. exact TM.
Qed.
Lemma tfim_pbc h :
  pbc_tfim_energy T contract tps h true rows cols cfg tn =
  Ok (local_energy 2 (rows * cols) (H_tfim_torus rows cols (wrap_weight cols) (wrap_weight rows) h) Psi S0).
Proof.
  unfold pbc_tfim_energy. cbn [negb]. assert (Z : is_zero (contract tn) = false).
  { rewrite contract_tn. unfold is_zero. destruct (Ceq_dec _ _); [contradiction|reflexivity]. }
  rewrite Z.
  assert (RG : forallb (fun x => x) (for_ 0 rows (fun row => for_ 0 cols (fun col => [cfg row col <=? 1]))) = true).
  { apply forallb_forall. intros x Hx. apply in_for in Hx. destruct Hx as (r & R1 & Hx). apply in_for in Hx. destruct Hx as (c & C1 & [<-|[]]).
    apply Nat.leb_le. pose proof (HS r c ltac:(lia) ltac:(lia)) as Q. cbv beta in Q. lia. }
  rewrite RG. f_equal. unfold H_tfim_torus. rewrite !local_energy_add, !local_energy_scal.
  set (le := fun (ab : site * site) => local_energy 2 (rows * cols) (on_sites [index cols (fst ab); index cols (snd ab)] zz_bond) Psi S0).
  assert (SY : forall a b, le (a, b) = le (b, a)).
  { intros. unfold le. cbn [fst snd]. apply local_energy_ext. intros. apply on_sites_swap. intros. apply zz_sym. }
  assert (LP : forall rel, local_energy 2 (rows * cols) (on_pairs rows cols rel zz_bond) Psi S0 = sumC le (torus_pairs rows cols rel)).
  { intros. unfold on_pairs. rewrite local_energy_sum. reflexivity. }
  rewrite !LP, local_energy_sum. rewrite !sumC_for.
  assert (RN : forall s, inside rows cols s -> inside rows cols (site_right cols s) /\ site_right cols s <> s).
  { intros s [A B]. destruct (ring_loop cols (snd s) Hc B) as [X Y]. split; [split; simpl; assumption|]. intros E. apply Y. rewrite <- E at 2. reflexivity. }
  assert (DN : forall s, inside rows cols s -> inside rows cols (site_down rows s) /\ site_down rows s <> s).
  { intros s [A B]. destruct (ring_loop rows (fst s) Hr A) as [X Y]. split; [split; simpl; assumption|]. intros E. apply Y. rewrite <- E at 2. reflexivity. }
  rewrite <- (sum_right rows cols) by auto. rewrite <- (sum_down rows cols) by auto.
  rewrite (sumC_ext (fun s => sumC (fun x => x) [_; _]) (fun s => le (s, site_right cols s) + le (s, site_down rows s))%C).
  - rewrite sumC_add. rewrite (sumC_ext (fun s => sumC (fun x => x) [_]) (fun s => local_energy 2 (rows * cols) (on_sites [index cols s] (op_scal (- h) (op_scal 2 Sx))) Psi S0)).
    + ring.
    + intros [r c] Hs. apply all_sites_in in Hs. cbn [fst snd]. rewrite sumC_cons, sumC_nil. rewrite <- (flip_local h (r, c)) by exact Hs. apply Cadd_zero.
  - intros [r c] Hs. apply all_sites_in in Hs. cbn [fst snd]. rewrite !sumC_cons, sumC_nil.
    destruct (RN (r, c) Hs) as [I1 N1], (DN (r, c) Hs) as [I2 N2].
    pose proof (zz_local (r, c) (site_right cols (r, c)) Hs I1 ltac:(congruence)) as E1.
    pose proof (zz_local (r, c) (site_down rows (r, c)) Hs I2 ltac:(congruence)) as E2.
    cbn [fst snd] in E1, E2. fold (le ((r, c), site_right cols (r, c))) in E1. fold (le ((r, c), site_down rows (r, c))) in E2.
    unfold le. cbn [fst snd]. rewrite <- E1, <- E2. cbn [fst snd]. ring.
Qed.
End Energy.

(** Hypotheses for every wave function. *)
Lemma torus_model (F : list nat -> C) rows cols cfg : 1 <= rows -> 1 <= cols ->
  let contract := fun n : nat -> nat -> nat => F (flat rows cols n) in
  let tps := fun (_ _ s : nat) => s in
  reads_lattice contract rows cols /\
  (forall S, length S = rows * cols -> torus_wave contract tps cols S = F S) /\
  (forall r c, r < rows -> c < cols -> cfg r c = tps r c (cfg r c)).
Proof.
  intros Hr Hc contract tps. split; [|split].
  - intros a b H. unfold contract. f_equal. unfold flat. apply map_ext_in. intros [r c] Hi.
    unfold all_sites in Hi. apply in_prod_iff in Hi. destruct Hi as [A B]. apply in_seq in A, B. cbn [fst snd]. apply H; simpl in *; lia.
  - intros S H. unfold torus_wave, contract, tps. f_equal. apply flat_conf; exact H.
  - reflexivity.
Qed.

(** *** Two sites around a direction: every bond counted twice *)
Definition neel (r c : nat) : nat := (r + c) mod 2.
Lemma torus_2x2_twice : exists contract tps cfg tn,
  reads_lattice (T := nat) contract 2 2 /\ (forall r c, r < 2 -> c < 2 -> tn r c = tps r c (cfg r c)) /\
  all_states 2 2 (fun x => x < 2) cfg /\
  pbc_xxz_energy nat contract tps 1 0 0 0 0 true 2 2 cfg tn <>
  Ok (local_energy 2 4 (H_xxz_torus 2 2 1 1 1 0 0 0 0) (torus_wave contract tps 2) (flat 2 2 cfg)).
Proof.
  set (F := fun _ : list nat => RtoC 1).
  destruct (torus_model F 2 2 neel ltac:(lia) ltac:(lia)) as (A & B & D).
  exists (fun n => F (flat 2 2 n)), (fun _ _ s => s), neel, neel.
  split; [exact A|]. split; [exact D|].
  assert (HS : all_states 2 2 (fun x => x < 2) neel) by (intros r c _ _; apply Nat.mod_upper_bound; lia).
  split; [exact HS|]. intros E.
  assert (HZ : torus_wave (fun n => F (flat 2 2 n)) (fun _ _ s : nat => s) 2 (flat 2 2 neel) <> RtoC 0).
  { unfold torus_wave, F. apply C1_neq_0. }
  rewrite (xxz_pbc nat _ (fun _ _ s => s) 2 2 ltac:(lia) ltac:(lia) A neel neel D HS HZ) in E. apply ok_inj in E.
  unfold H_xxz_torus in E. rewrite !local_energy_add, !local_energy_scal in E.
  assert (LP : forall rel, local_energy 2 (2 * 2) (on_pairs 2 2 rel (xxz_bond 1 0)) (torus_wave (fun n => F (flat 2 2 n)) (fun _ _ s : nat => s) 2) (flat 2 2 neel) =
     sumC (fun ab => local_energy 2 (2 * 2) (on_sites [index 2 (fst ab); index 2 (snd ab)] (xxz_bond 1 0)) (torus_wave (fun n => F (flat 2 2 n)) (fun _ _ s : nat => s) 2) (flat 2 2 neel)) (torus_pairs 2 2 rel)).
  { intros. unfold on_pairs. rewrite local_energy_sum. reflexivity. }
  assert (LE : forall a b, inside 2 2 a -> inside 2 2 b -> a <> b ->
    local_energy 2 (2 * 2) (on_sites [index 2 a; index 2 b] (xxz_bond 1 0)) (torus_wave (fun n => F (flat 2 2 n)) (fun _ _ s : nat => s) 2) (flat 2 2 neel) =
    RtoC (spin_z (neel (fst a) (snd a)) * spin_z (neel (fst b) (snd b)))).
  { intros a b Ha Hb Hn. rewrite <- (coupling_local nat _ (fun _ _ s => s) 2 2 ltac:(lia) ltac:(lia) A neel neel D HS HZ) by assumption.
    unfold pbc_coupling. rewrite Rmult_1_l. destruct (_ =? _); [ring|]. replace (1 / 2 * 0)%R with 0%R by lra. ring. }
  change (2 * 2) with 4 in *. rewrite !LP in E.
  assert (P1 : torus_pairs 2 2 (torus_horizontal 2) = [((0, 0), (0, 1)); ((1, 0), (1, 1))]) by reflexivity.
  assert (P2 : torus_pairs 2 2 (torus_vertical 2) = [((0, 0), (1, 0)); ((0, 1), (1, 1))]) by reflexivity.
  rewrite P1, P2 in E. rewrite !sumC_cons, !sumC_nil in E. cbn [fst snd] in E.
  rewrite !LE in E by (first [split; simpl; lia|discriminate]). cbn [fst snd] in E.
  assert (W : wrap_weight 2 = 2%R) by reflexivity. rewrite W in E.
  assert (Z2 : local_energy 2 4 (on_pairs 2 2 (torus_diagonal 2 2) (xxz_bond 0 0)) (torus_wave (fun n => F (flat 2 2 n)) (fun _ _ s : nat => s) 2) (flat 2 2 neel) = RtoC 0).
  { unfold on_pairs. rewrite local_energy_sum. apply sumC_zero. intros ab _. apply local_energy_zero. intros S'. unfold on_sites.
    destruct (agree_off _ _ _); [|reflexivity]. unfold get. cbn [map]. unfold xxz_bond, op_add, op_scal. ring. }
  rewrite Z2 in E. apply (f_equal fst) in E. unfold neel, spin_z in E. simpl in E. lra.
Qed.
Lemma weight_three n : 3 <= n -> wrap_weight n = 1%R.
Proof. intros H. unfold wrap_weight. destruct (Nat.eqb_spec n 2); [lia|reflexivity]. Qed.
Lemma torus_three {T} (contract : (nat -> nat -> T) -> C) tps rows cols cfg tn :
  3 <= rows -> 3 <= cols -> reads_lattice contract rows cols ->
  (forall r c, r < rows -> c < cols -> tn r c = tps r c (cfg r c)) ->
  all_states rows cols (fun x => x < 2) cfg ->
  torus_wave contract tps cols (flat rows cols cfg) <> RtoC 0 ->
  (forall jz jxy jz2 jxy2 p, pbc_xxz_energy T contract tps jz jxy jz2 jxy2 p true rows cols cfg tn =
     Ok (local_energy 2 (rows * cols) (H_xxz_torus rows cols 1 1 jz jxy jz2 jxy2 p) (torus_wave contract tps cols) (flat rows cols cfg))) /\
  (forall jz jxy, pbc_heisenberg_energy T contract tps jz jxy true rows cols cfg tn =
     Ok (local_energy 2 (rows * cols) (H_xxz_torus rows cols 1 1 jz jxy 0 0 0) (torus_wave contract tps cols) (flat rows cols cfg))) /\
  (forall h, pbc_tfim_energy T contract tps h true rows cols cfg tn =
     Ok (local_energy 2 (rows * cols) (H_tfim_torus rows cols 1 1 h) (torus_wave contract tps cols) (flat rows cols cfg))).
Proof.
  intros Hr Hc HL HT HS HZ. pose proof (weight_three cols Hc) as Wc. pose proof (weight_three rows Hr) as Wr. split; [|split]; intros.
  - rewrite (xxz_pbc T contract tps rows cols ltac:(lia) ltac:(lia) HL cfg tn HT HS HZ), Wc, Wr. reflexivity.
  - rewrite (heisenberg_pbc T contract tps rows cols ltac:(lia) ltac:(lia) HL cfg tn HT HS HZ), Wc, Wr. reflexivity.
  - rewrite (tfim_pbc T contract tps rows cols ltac:(lia) ltac:(lia) HL cfg tn HT HS HZ), Wc, Wr. reflexivity.
Qed.
Lemma torus_two {T} (contract : (nat -> nat -> T) -> C) tps rows cols cfg tn :
  2 <= rows -> 2 <= cols -> reads_lattice contract rows cols ->
  (forall r c, r < rows -> c < cols -> tn r c = tps r c (cfg r c)) ->
  all_states rows cols (fun x => x < 2) cfg ->
  torus_wave contract tps cols (flat rows cols cfg) <> RtoC 0 ->
  let wh := if cols =? 2 then 2%R else 1%R in let wv := if rows =? 2 then 2%R else 1%R in
  (forall jz jxy jz2 jxy2 p, pbc_xxz_energy T contract tps jz jxy jz2 jxy2 p true rows cols cfg tn =
     Ok (local_energy 2 (rows * cols) (H_xxz_torus rows cols wh wv jz jxy jz2 jxy2 p) (torus_wave contract tps cols) (flat rows cols cfg))) /\
  (forall jz jxy, pbc_heisenberg_energy T contract tps jz jxy true rows cols cfg tn =
     Ok (local_energy 2 (rows * cols) (H_xxz_torus rows cols wh wv jz jxy 0 0 0) (torus_wave contract tps cols) (flat rows cols cfg))) /\
  (forall h, pbc_tfim_energy T contract tps h true rows cols cfg tn =
     Ok (local_energy 2 (rows * cols) (H_tfim_torus rows cols wh wv h) (torus_wave contract tps cols) (flat rows cols cfg))).
Proof.
  intros Hr Hc HL HT HS HZ wh wv. split; [|split]; intros.
  - exact (xxz_pbc T contract tps rows cols Hr Hc HL cfg tn HT HS HZ jz jxy jz2 jxy2 p).
  - exact (heisenberg_pbc T contract tps rows cols Hr Hc HL cfg tn HT HS HZ jz jxy).
  - exact (tfim_pbc T contract tps rows cols Hr Hc HL cfg tn HT HS HZ h).
Qed.
Lemma torus_needs_periodic {T} (contract : (nat -> nat -> T) -> C) tps rows cols cfg tn jz jxy jz2 jxy2 p h :
  pbc_xxz_energy T contract tps jz jxy jz2 jxy2 p false rows cols cfg tn = Fail Throw /\
  pbc_heisenberg_energy T contract tps jz jxy false rows cols cfg tn = Fail Throw /\
  pbc_tfim_energy T contract tps h false rows cols cfg tn = Fail Throw.
Proof. repeat split. Qed.
