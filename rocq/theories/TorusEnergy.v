(** Energies of a periodic component are local energies. *)
From Coq Require Import List Arith Lia Bool Reals FunctionalExtensionality.
From Verif Require Import Base Cplx ContractorModel SweepModel SweepSpec UpdaterModel UpdaterSpec UpdaterProofs EnergyModel EnergySpec PbcModel PbcSpec PbcProofs
  TrgModel TrgSpec TrgProofs TrgTopo TrgMain TrgTensor TrgExactSpec TrgExact TrgHoleSpec TrgHoleTop TorusModel TorusSpec TorusProofs TorusMain.
Import ListNotations.
Local Open Scope nat_scope.

Lemma foreach_sum {X} (f : X -> res C) (g : X -> C) l : (forall q, In q l -> f q = Ok (g q)) -> forall a, foreach l a (fun e q => y <- f q;; Ok (e + y)%C) = Ok (a + sumC g l)%C.
Proof.
  induction l as [|q l IH]; intros H a; [cbn; f_equal; ring|]. cbn [foreach]. rewrite (H q (or_introl eq_refl)). cbn [bind]. rewrite IH by (intros; apply H; right; assumption). f_equal. cbn [sumC fold_right]. change (fold_right _ _ l) with (sumC g l). ring.
Qed.
Lemma sumC_map_id {X} (g : X -> C) l : sumC g l = sumC (fun x => x) (map g l).
Proof. induction l as [|x l IH]; [reflexivity|]. cbn. unfold sumC in IH. rewrite IH. reflexivity. Qed.
Lemma map_flat_map {X Y Z} (g : Y -> Z) (f : X -> list Y) l : map g (flat_map f l) = flat_map (fun x => map g (f x)) l.
Proof. induction l as [|x l IH]; [reflexivity|]. cbn [flat_map]. rewrite map_app, IH. reflexivity. Qed.
Lemma in_for {X} (f : nat -> nat -> list X) n q : In q (for_ 0 n (fun r => for_ 0 n (fun c => f r c))) -> exists r c, r < n /\ c < n /\ In q (f r c).
Proof.
  unfold for_. rewrite Nat.sub_0_r. intros H. apply in_flat_map in H. destruct H as (r & Hr & H). apply in_flat_map in H. destruct H as (c & Hc & H).
  apply in_seq in Hr, Hc. exists r, c. repeat split; try lia. exact H.
Qed.
Lemma map_for {X Y} (g : X -> Y) (f : nat -> nat -> list X) n : map g (for_ 0 n (fun r => for_ 0 n (fun c => f r c))) = for_ 0 n (fun r => for_ 0 n (fun c => map g (f r c))).
Proof. unfold for_. rewrite map_flat_map. apply flat_map_ext. intros r. apply map_flat_map. Qed.

Lemma Cadd_zero_l (x : C) : (RtoC 0 + x)%C = x.
Proof. ring. Qed.
Lemma comp_eta {o} (w : comp o) : mkComp (k_cfg w) (k_tn w) (k_trg w) (k_amp w) = w.
Proof. destruct w. reflexivity. Qed.
Section Energy.
Context (svd : trunc -> tensor -> tensor * list R * tensor) (Rng : Type) (n : nat) (p : trunc) (tps : nat -> nat -> nat -> tensor) (Hn : trg_size n).
Let o := tensor_ops svd.
Notation contract := (trg_contract svd p n).

Lemma contract_value X t z : fresh o p (torus o n X) = Ok (t, z) -> contract X = z.
Proof. intros H. unfold trg_contract. fold o. rewrite H. reflexivity. Qed.
Lemma contract_reads : reads_lattice contract n n.
Proof.
  intros a b H. unfold trg_contract. fold o. destruct (shape_exists o p n Hn a) as (sub & sc0 & HI & _). unfold fresh. rewrite !HI by reflexivity. cbn [bind]. unfold trace, torus.
  cbn [t_periodic n_periodic n_ten t_prm t_ready t_scales t_rows t_cols t_sub negb]. destruct sc0 as [|s0 rest]; [reflexivity|].
  erewrite foreach_ext; [reflexivity|]. intros ts i Hi. cbv beta. apply in_seq in Hi. unfold coord. assert (i / n < n) by (apply Nat.div_lt_upper_bound; lia). assert (i mod n < n) by (apply Nat.mod_upper_bound; lia).
  rewrite H by assumption. reflexivity.
Qed.
Context (w : comp o) (HR : reachable o Rng n p tps 2 w).
Lemma at_hand : k_tn w = project_net o tps (k_cfg w) /\ trace o (set_params o (k_trg w) p) (mkNet n n true (k_tn w)) = Ok (k_trg w, contract (k_tn w)) /\ k_amp w = contract (k_tn w) /\
  (forall l, inside_sites n l -> TrgModel.evaluate_replacement o (k_trg w) (reps_of o tps l) = Ok (PbcModel.evaluate_replacement tensor contract tps (k_tn w) l)) /\
  all_states n n (fun x => x < 2) (k_cfg w) /\ set_params o (k_trg w) p = k_trg w.
Proof.
  destruct (reachable_in_step o Rng n p tps Hn 2 w HR) as [[T (t & z & F & SC & Z & TR & _ & EV)] B].
  assert (E : k_tn w = project_net o tps (k_cfg w)) by (apply functional_extensionality; intros r; apply functional_extensionality; intros k; apply T).
  assert (EC : contract (k_tn w) = z) by (rewrite E; exact (contract_value _ _ _ F)).
  assert (ES : set_params o (k_trg w) p = k_trg w).
  { destruct (shape_of o n p tps Hn (k_cfg w)) as (sub & sc0 & HI & HT & HB & HS). destruct (reachable_good o Rng n p tps Hn 2 w HR sub sc0 HI HT HB HS) as ((_ & K & _) & _). exact (keeps_params o n p sub sc0 _ _ K). }
  split; [exact E|]. rewrite ES. split; [rewrite EC; rewrite E; exact TR|]. split; [congruence|]. split; [|split; [exact B|reflexivity]].
  intros l Hl. destruct (EV l Hl) as (t2 & z2 & F2 & V). unfold reps_of. refine (eq_trans V _). f_equal. unfold PbcModel.evaluate_replacement. rewrite E.
  refine (eq_sym (eq_trans (f_equal contract (updates_net o tps (k_cfg w) l)) _)). exact (contract_value _ _ _ F2).
Qed.
Lemma coupling_value jz jxy s1 s2 inv : fst s1 < n -> snd s1 < n -> fst s2 < n -> snd s2 < n ->
  trg_coupling svd tps (k_cfg w) (k_trg w) inv ((jz, jxy), (s1, s2)) = Ok (pbc_coupling tensor contract tps jz jxy (k_cfg w) (k_tn w) inv s1 s2).
Proof.
  intros. unfold trg_coupling, pbc_coupling. destruct (k_cfg w (fst s1) (snd s1) =? k_cfg w (fst s2) (snd s2)); [reflexivity|].
  destruct at_hand as (_ & _ & _ & EV & _). fold o. rewrite EV by (repeat constructor; assumption). reflexivity.
Qed.
Lemma is_zero_false x : x <> RtoC 0 -> is_zero x = false.
Proof. intros H. unfold is_zero. destruct (Ceq_dec x (RtoC 0)); [contradiction|reflexivity]. Qed.
Lemma mod_lt i : 2 <= n -> i mod n < n.
Proof. intros. apply Nat.mod_upper_bound. lia. Qed.
Lemma xxz_is_pbc jz1 jxy1 jz2 jxy2 pin : 2 <= n -> k_amp w <> RtoC 0 ->
  exists e, trg_xxz_energy svd n p tps jz1 jxy1 jz2 jxy2 pin w = Ok (w, e) /\ pbc_xxz_energy tensor contract tps jz1 jxy1 jz2 jxy2 pin true n n (k_cfg w) (k_tn w) = Ok e.
Proof.
  intros H2 HZ. destruct at_hand as (E & TR & ZA & EV & B & _). unfold trg_xxz_energy. fold o. rewrite TR. cbn [bind fst snd]. unfold pbc_xxz_energy. cbn [negb].
  rewrite <- ZA. rewrite is_zero_false by exact HZ.
  rewrite (foreach_sum _ (fun q => pbc_coupling tensor contract tps (fst (fst q)) (snd (fst q)) (k_cfg w) (k_tn w) (Cinv (k_amp w)) (fst (snd q)) (snd (snd q)))).
  2:{ intros [[jz jxy] [s1 s2]] Hq. cbn [fst snd]. unfold couplings in Hq. apply in_for in Hq. destruct Hq as (r & c & Hr & Hc & Hq).
      assert (IN : fst s1 < n /\ snd s1 < n /\ fst s2 < n /\ snd s2 < n).
      { apply in_app_or in Hq. destruct Hq as [Hq|Hq]; [|destruct (has_nnn jz2 jxy2); [|destruct Hq]];
          (destruct Hq as [Hq|[Hq|[]]]; injection Hq as <- <- <- <-; cbn [fst snd site_right site_down site_dr site_dl]; repeat split; try assumption; apply mod_lt; exact H2). }
      apply coupling_value; apply IN. }
  cbn [bind]. rewrite comp_eta. eexists. split; [reflexivity|]. f_equal. f_equal. symmetry. rewrite Cadd_zero_l, sumC_map_id. unfold couplings. rewrite map_for.
  f_equal. unfold for_. apply flat_map_ext. intros r. apply flat_map_ext. intros c. rewrite map_app. destruct (has_nnn jz2 jxy2); reflexivity.
Qed.
Lemma heisenberg_is_pbc jz jxy : 2 <= n -> k_amp w <> RtoC 0 ->
  exists e, trg_heisenberg_energy svd n p tps jz jxy w = Ok (w, e) /\ pbc_heisenberg_energy tensor contract tps jz jxy true n n (k_cfg w) (k_tn w) = Ok e.
Proof.
  intros H2 HZ. destruct at_hand as (E & TR & ZA & EV & B & _). unfold trg_heisenberg_energy. fold o. rewrite TR. cbn [bind fst snd]. unfold pbc_heisenberg_energy. cbn [negb].
  rewrite <- ZA. rewrite is_zero_false by exact HZ.
  rewrite (foreach_sum _ (fun q => pbc_coupling tensor contract tps (fst (fst q)) (snd (fst q)) (k_cfg w) (k_tn w) (Cinv (k_amp w)) (fst (snd q)) (snd (snd q)))).
  2:{ intros [[jz' jxy'] [s1 s2]] Hq. cbn [fst snd]. apply in_for in Hq. destruct Hq as (r & c & Hr & Hc & Hq).
      assert (IN : fst s1 < n /\ snd s1 < n /\ fst s2 < n /\ snd s2 < n).
      { destruct Hq as [Hq|[Hq|[]]]; injection Hq as <- <- <- <-; cbn [fst snd site_right site_down site_dr site_dl]; repeat split; try assumption; apply mod_lt; exact H2. }
      apply coupling_value; apply IN. }
  cbn [bind]. rewrite comp_eta. eexists. split; [reflexivity|]. f_equal. symmetry. rewrite Cadd_zero_l, sumC_map_id, map_for. reflexivity.
Qed.
Lemma wave_here : torus_wave contract tps n (UpdaterSpec.flat n n (k_cfg w)) = k_amp w.
Proof.
  destruct at_hand as (E & _ & ZA & _). rewrite ZA, E. apply contract_reads. intros r c Hr Hc. unfold project_net. f_equal. apply (conf_flat n n (k_cfg w)); assumption.
Qed.
Lemma energies_local : 2 <= n -> k_amp w <> RtoC 0 ->
  let wt := if n =? 2 then 2%R else 1%R in
  (forall jz jxy jz2 jxy2 pin, trg_xxz_energy svd n p tps jz jxy jz2 jxy2 pin w =
     Ok (w, local_energy 2 (n * n) (H_xxz_torus n n wt wt jz jxy jz2 jxy2 pin) (torus_wave contract tps n) (UpdaterSpec.flat n n (k_cfg w)))) /\
  (forall jz jxy, trg_heisenberg_energy svd n p tps jz jxy w =
     Ok (w, local_energy 2 (n * n) (H_xxz_torus n n wt wt jz jxy 0 0 0) (torus_wave contract tps n) (UpdaterSpec.flat n n (k_cfg w)))).
Proof.
  intros H2 HZ. destruct at_hand as (E & TR & ZA & EV & B & _).
  destruct (torus_two contract tps n n (k_cfg w) (k_tn w) H2 H2 contract_reads ltac:(intros r c _ _; rewrite E; reflexivity) B ltac:(rewrite wave_here; exact HZ)) as (XX & HE & _). cbv zeta. split.
  - intros jz jxy jz2 jxy2 pin. destruct (xxz_is_pbc jz jxy jz2 jxy2 pin H2 HZ) as (e & -> & PE). rewrite XX in PE. injection PE as <-. reflexivity.
  - intros jz jxy. destruct (heisenberg_is_pbc jz jxy H2 HZ) as (e & -> & PE). rewrite HE in PE. injection PE as <-. reflexivity.
Qed.
Lemma zero_amplitude : k_amp w = RtoC 0 -> (forall jz jxy jz2 jxy2 pin, trg_xxz_energy svd n p tps jz jxy jz2 jxy2 pin w = Fail UB) /\ (forall jz jxy, trg_heisenberg_energy svd n p tps jz jxy w = Fail UB) /\
  forall h, trg_tfim_energy svd n p tps h w = Fail UB.
Proof.
  intros HZ. destruct at_hand as (E & TR & ZA & EV & B & _). assert (Z : is_zero (contract (k_tn w)) = true).
  { rewrite <- ZA, HZ. unfold is_zero. destruct (Ceq_dec (RtoC 0) (RtoC 0)); [reflexivity|contradiction]. }
  repeat split; intros; unfold trg_xxz_energy, trg_heisenberg_energy, trg_tfim_energy; fold o; rewrite TR; cbn [bind fst snd]; rewrite Z; reflexivity.
Qed.
(** *** Transverse field, sides 2 and 3 *)
Context (HC : forall c, all_states n n (fun x => x < 2) c -> closes n (fun r k => tps r k (c r k))).
Lemma nsum_comm sh (f g : list nat -> C) : (forall ix, f ix = g ix) -> nsum sh f = nsum sh g.
Proof. intros H. f_equal. apply functional_extensionality. exact H. Qed.
Lemma tfim_local h : n = 2 \/ n = 3 -> (forall r c, r < n -> c < n -> shape (tps r c 0) = shape (tps r c 1)) -> k_amp w <> RtoC 0 ->
  let wt := if n =? 2 then 2%R else 1%R in
  trg_tfim_energy svd n p tps h w = Ok (w, local_energy 2 (n * n) (H_tfim_torus n n wt wt h) (torus_wave contract tps n) (UpdaterSpec.flat n n (k_cfg w))).
Proof.
  intros H23 SH HZ. assert (H2 : 2 <= n) by lia. destruct at_hand as (E & TR & ZA & EV & B & ES).
  destruct (torus_two contract tps n n (k_cfg w) (k_tn w) H2 H2 contract_reads ltac:(intros r c _ _; rewrite E; reflexivity) B ltac:(rewrite wave_here; exact HZ)) as (_ & _ & TF). cbv zeta.
  specialize (TF h). revert TF. unfold pbc_tfim_energy, trg_tfim_energy. fold o. rewrite TR. cbn [bind fst snd negb]. rewrite <- ZA. rewrite is_zero_false by exact HZ.
  destruct (forallb (fun x => x) _) eqn:FB; [|discriminate]. intros TF. apply ok_inj in TF.
  destruct (reachable_in_step o Rng n p tps Hn 2 w HR) as ((_ & (t & z & F & SC & Z & _ & PH & _)) & _).
  destruct (small_holes svd p n Hn (fun r k => tps r k (k_cfg w r k)) t z H23 (HC _ B) F) as (HO & PE & LH & V).
  assert (PW : punch_all_holes o (k_trg w) (mkNet n n true (k_tn w)) = Ok HO) by (rewrite E; refine (eq_trans PH _); exact PE). rewrite PW. cbn [bind].
  pose (val := fun s : site => (RtoC (- h) * Cconj (PbcModel.evaluate_replacement tensor contract tps (k_tn w) [(s, (1 - k_cfg w (fst s) (snd s))%nat)] * Cinv (k_amp w)))%C).
  assert (FE : foreach (for_ 0 n (fun row => for_ 0 n (fun col => [(row, col)]))) (RtoC 0) (fun e s =>
            hole <- aget HO (fst s * n + snd s);;
            if k_cfg w (fst s) (snd s) <=? 1 then
              let alt := tps (fst s) (snd s) (1 - k_cfg w (fst s) (snd s)) in
              let psi_ex := nsum (shape hole) (fun ix => (entry hole ix * entry alt ix)%C) in
              Ok (e + RtoC (- h) * Cconj (psi_ex * Cinv (k_amp w)))%C
            else Fail UB) = Ok (RtoC 0 + sumC val (for_ 0 n (fun row => for_ 0 n (fun col => [(row, col)]))))%C).
  { rewrite <- (foreach_sum (fun s => Ok (val s)) val) by reflexivity. apply foreach_ext. intros e [r c] Hs. cbn [fst snd bind]. apply in_for in Hs. destruct Hs as (r' & c' & Hr & Hc & [Hs|[]]). injection Hs as <- <-.
    unfold aget. assert (L : r' * n + c' < alen HO) by (rewrite LH; nia). destruct (Nat.ltb_spec (r' * n + c') (alen HO)); [|lia]. cbn [bind].
    pose proof (B r' c' Hr Hc) as Bs. cbv beta in Bs. destruct (Nat.leb_spec (k_cfg w r' c') 1); [|lia]. cbv zeta. unfold val. cbn [fst snd]. do 2 f_equal. f_equal. f_equal. f_equal.
    destruct (V r' c' Hr Hc) as [SHH PR]. set (alt := tps r' c' (1 - k_cfg w r' c')).
    assert (SA : shape alt = shape (tps r' c' (k_cfg w r' c'))) by (unfold alt; pose proof (SH r' c' Hr Hc); destruct (k_cfg w r' c') as [|[|?]]; [symmetry; assumption|assumption|lia]).
    specialize (PR alt SA). unfold pair in PR. rewrite SA in PR. cbv beta in SHH. rewrite SHH. rewrite (nsum_comm _ _ (fun ix => (entry alt ix * entry (aval HO (r' * n + c')) ix)%C)) by (intros; ring). refine (eq_trans PR _).
    unfold PbcModel.evaluate_replacement. cbn [fold_left fst snd]. fold alt.
    assert (CL : closes n (put_site (fun r k => tps r k (k_cfg w r k)) r' c' alt)).
    { assert (EX : put_site (fun r k => tps r k (k_cfg w r k)) r' c' alt = fun r k => tps r k (upd2 (k_cfg w) (r', c') (1 - k_cfg w r' c') r k)).
      { apply functional_extensionality; intros r. apply functional_extensionality; intros k. unfold put_site, upd2, site_eqb. cbn [fst snd]. destruct ((r =? r') && (k =? c')) eqn:Q; [|reflexivity].
        apply andb_true_iff in Q. destruct Q as [Q1 Q2]. apply Nat.eqb_eq in Q1, Q2. subst. reflexivity. }
      rewrite EX. apply HC. intros r k Rr Rk. unfold upd2. destruct (site_eqb (r, k) (r', c')); [lia|apply B; assumption]. }
    destruct (fresh_small svd p n Hn _ ltac:(lia) CL) as (t3 & F3). rewrite <- (contract_value _ _ _ F3). f_equal. rewrite E. reflexivity. }
  match goal with |- context [foreach ?l ?a ?f] => replace (foreach l a f) with (Ok (RtoC 0 + sumC val (for_ 0 n (fun row => for_ 0 n (fun col => [(row, col)]))))%C) by (symmetry; exact FE) end. cbn [bind]. rewrite <- TF, comp_eta. do 2 f_equal. f_equal.
  rewrite Cadd_zero_l. rewrite sumC_map_id, map_for. reflexivity.
Qed.
End Energy.
