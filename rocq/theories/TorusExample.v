(** A periodic evolution that meets the conditions, and the transverse field on a lattice of side 4. *)
From Coq Require Import List Arith Bool Reals Lia Lra FunctionalExtensionality.
From Verif Require Import Base Cplx ContractorModel SweepModel SweepSpec UpdaterModel UpdaterSpec EnergyModel EnergySpec PbcModel PbcSpec PbcProofs SumModel SumSpec SumProofs NetSum TrgModel TrgSpec TrgMain TrgTensor TrgExactSpec TrgExact TrgHoleSpec TrgHoleTop TrgHoleEx.
From Verif Require Import ProjModel ProjSpec ProjNullSpec ProjExample ProjNullExample PipeModel PipeSpec PipeProofs PipeExample TorusModel TorusSpec TorusProofs TorusMain TorusEnergy TorusExact.
Import ListNotations.
Local Open Scope nat_scope.

(** *** Side 4, all spins in the sum of their two states, one gate *)
Definition ring4 : peps := Peps 4 4 true (fun _ _ => Tn [1; 1; 1; 1; 2] (fun _ => RtoC 1)) (fun _ _ => [1%R]) (fun _ _ => [1%R]).
Lemma ring4_wave s : wave ring4 s = RtoC 1.
Proof. unfold wave. cbn -[Cmul Cadd RtoC C]. unfold prodC. cbn -[Cmul Cadd RtoC C]. repeat (first [rewrite <- RtoC_mul | rewrite <- RtoC_add]). f_equal. ring. Qed.
Lemma ring4_sound : sound (1/2) ring4.
Proof.
  split; [lra|]. assert (K1 : kept (1/2) [1%R]) by (intros x [<-|[]]; right; rewrite Rabs_pos_eq; lra). split.
  - intros r c _ _. split; [reflexivity|]. repeat split; exact K1.
  - intros Q. discriminate Q.
Qed.
Lemma ring4_spins : spins ring4.
Proof. intros r c _ _. reflexivity. Qed.
Lemma ring4_value s : proper ring4 s -> ProjSpec.acts 4 4 flip (wave ring4) s = RtoC 1.
Proof.
  intros PR. cbn [ProjSpec.acts flip]. unfold act. cbn [sites_of]. unfold gate2. cbn [fst snd cnot dimat shape nth seq entry]. unfold next. change ((0 + 1) mod 4) with 1.
  pose proof (PR 0 0 ltac:(cbn; lia) ltac:(cbn; lia)) as A. pose proof (PR 0 1 ltac:(cbn; lia) ltac:(cbn; lia)) as B. cbn in A, B.
  destruct (s 0 0) as [|[|x]]; [| |lia]; (destruct (s 0 1) as [|[|y]]; [| |lia]); rewrite !sumC_cons, !sumC_nil; rewrite ?ring4_wave; cbn [Nat.eqb andb Nat.add Nat.modulo Nat.divmod fst snd Nat.sub]; apply injective_projections; cbn; ring.
Qed.
Lemma ring4_good : good_torus_evolution ProjExample.plain_qr ProjExample.plain_svd (1/2) flip ring4.
Proof.
  split; [exact ProjExample.plain_qr_exact|]. split; [exact plain_nonnegative|]. split; [exact ring4_sound|]. split; [reflexivity|]. split; [reflexivity|]. split.
  { intros [r c|r c] _; cbn; repeat constructor; lra. }
  split.
  { intros o g h [Q|[]]; injection Q as <- <- <-. split; [|reflexivity]. split; [|cbn; repeat constructor; cbn; intuition congruence]. intros b [<-|[]]; apply bonds_in; cbn; lia. }
  split.
  - exists 64. split; [apply ProjExample.plain_svd_exact|]. cbn [uncut flip]. split; [cbn; lia|]. split; [|exact I]. intros b [<-|[]]. all_ones.
  - exists (fun _ _ => 0). assert (PR : proper ring4 (fun _ _ => 0)) by (intros r c _ _; cbn; lia). split; [exact PR|]. cbn [ring4 p_rows p_cols]. fold ring4. rewrite (ring4_value _ PR). intros Q. apply (f_equal fst) in Q. cbn in Q. lra.
Qed.

(** *** The sum over the torus *)
Lemma torus_sum_reads n : reads_lattice (torus_sum n) n n.
Proof.
  intros a b H. unfold torus_sum. rewrite !sum_over_gsum.
  rewrite (gsum_dims bond_eq_dec (bonds n n true) (torus_dim a) (torus_dim b)).
  - apply gsum_ext_all. intros x. apply prodC_ext. intros [r c] Hrc. apply grid_in in Hrc. destruct Hrc. cbn [fst snd]. rewrite H by assumption. reflexivity.
  - intros v Hv. apply bonds_in in Hv. destruct v as [r c|r c]; cbn in Hv; cbn [torus_dim]; rewrite H by lia; reflexivity.
Qed.
Lemma torus_sum_zero n X r c : r < n -> c < n -> (forall ix, entry (X r c) ix = RtoC 0) -> torus_sum n X = RtoC 0.
Proof.
  intros Hr Hc H. unfold torus_sum. rewrite sum_over_gsum. apply gsum_zero. intros a _. apply (prodC_zero _ _ (r, c)); [apply grid_in; lia|]. cbn [fst snd]. apply H.
Qed.
Lemma ex_net_sum : torus_sum 4 ex_net = RtoC 9.
Proof. unfold torus_sum. lazy -[Cmul Cadd RtoC Rmult IZR]. repeat first [rewrite <- RtoC_mul | rewrite <- RtoC_add]. f_equal. ring. Qed.

(** *** Transverse field on side 4 *)
Definition ex_tps (r c s : nat) : tensor :=
  if s =? 0 then ex_net r c else if (r =? 0) && (c =? 0) then ex_probe else Tn (shape (ex_net r c)) (fun _ => RtoC 0).
Lemma ex_tps_shape r c s : shape (ex_tps r c s) = shape (ex_net r c).
Proof. unfold ex_tps. destruct (s =? 0); [reflexivity|]. destruct (r =? 0) eqn:A; [|reflexivity]. destruct (c =? 0) eqn:B; [|reflexivity]. apply Nat.eqb_eq in A, B. subst. reflexivity. Qed.
Lemma sumC_single {X} (f : X -> C) l x0 : NoDup l -> In x0 l -> (forall x, In x l -> x <> x0 -> f x = RtoC 0) -> sumC f l = f x0.
Proof.
  induction l as [|x l IH]; intros ND I Z; [destruct I|]. apply NoDup_cons_iff in ND. destruct ND as [NI ND]. rewrite sumC_cons. destruct I as [<-|I].
  - rewrite sumC_zero; [ring|]. intros y Hy. apply Z; [right; exact Hy|]. intros ->. contradiction.
  - rewrite IH; [|exact ND|exact I|intros y Hy; apply Z; right; exact Hy]. rewrite (Z x); [ring|left; reflexivity|]. intros ->. contradiction.
Qed.
Lemma nsum_zero sh (f : list nat -> C) : (forall ix, f ix = RtoC 0) -> nsum sh f = RtoC 0.
Proof. revert f. induction sh as [|d sh IH]; intros f H; [apply H|]. cbn [nsum]. apply sumC_zero. intros i _. apply IH. intros ix. apply H. Qed.
Lemma C_cancel (a b c : C) : (a + b)%C = (a + c)%C -> b = c.
Proof. intros H. transitivity ((Copp a + (a + b)))%C; [ring|]. rewrite H. ring. Qed.
Local Notation o := (tensor_ops rank_one_svd).
Definition sites4 := for_ 0 4 (fun row => for_ 0 4 (fun col => [(row, col)])).
Lemma tfim_side4 : exists w e, reachable (tensor_ops rank_one_svd) unit 4 ex_trunc ex_tps 2 w /\ TrgExactSpec.lossless rank_one_svd (k_trg w) /\
  (forall c, all_states 4 4 (fun x => x < 2) c -> closes 4 (fun r k => ex_tps r k (c r k))) /\
  k_amp w = torus_sum 4 (fun r k => ex_tps r k (k_cfg w r k)) /\ k_amp w <> RtoC 0 /\
  trg_tfim_energy rank_one_svd 4 ex_trunc ex_tps 1 w = Ok (w, e) /\
  e <> local_energy 2 16 (H_tfim_torus 4 4 1 1 1) (torus_wave (torus_sum 4) ex_tps 4) (UpdaterSpec.flat 4 4 (k_cfg w)).
Proof.
  set (c0 := fun _ _ : nat => 0).
  assert (B0 : all_states 4 4 (fun x => x < 2) c0) by (intros r k _ _; unfold c0; lia).
  destruct (build_succeeds o unit 4 ex_trunc ex_tps ex_size 2 c0 B0) as (w & EB & HR & EC).
  assert (EX : (fun r k => ex_tps r k (k_cfg w r k)) = ex_net) by (rewrite EC; apply functional_extensionality; intros r; apply functional_extensionality; intros k; reflexivity).
  destruct ex_made as (t & z & E & LL & CS).
  destruct (large_holes rank_one_svd ex_trunc 4 ex_size ex_net t z ltac:(lia) ex_closes E) as (H & EH & LH & V).
  { intros p' Ep a Ha i T d Hi Hs ET ES. specialize (CS p' Ep a Ha i T d Hi Hs ET ES). destruct (rank_one_svd p' _) as [[? ?] ?]. exact (proj1 (proj1 CS)). }
  pose proof (fresh_sum rank_one_svd ex_trunc 4 ex_size ex_net t z ex_closes E LL) as EZ. rewrite ex_net_sum in EZ.
  destruct (reachable_in_step o unit 4 ex_trunc ex_tps ex_size 2 w HR) as [[_ (t1 & z1 & F & SC & Z & _ & PH & _)] _].
  assert (ET : Ok (t1, z1) = Ok (t, z)) by (refine (eq_trans (eq_sym F) _); unfold net_of; rewrite EX; exact E). injection ET as -> ->.
  assert (N9 : RtoC 9 <> RtoC 0) by (intros Q; apply (f_equal fst) in Q; cbn in Q; lra).
  destruct (at_hand rank_one_svd unit 4 ex_trunc ex_tps ex_size w HR) as (ETN & TR & ZA & _ & BB & _).
  assert (TN : k_tn w = ex_net) by exact (eq_trans ETN EX).
  assert (K9 : k_amp w = RtoC 9) by (rewrite Z; exact EZ).
  pose (d := fun a b : site => if k_cfg w (fst a) (snd a) =? k_cfg w (fst b) (snd b) then RtoC (-1) else RtoC 1).
  pose (diag := sumC (fun x => x) (for_ 0 4 (fun row => for_ 0 4 (fun col => let s := (row, col) in [d s (site_right 4 s); d s (site_down 4 s)])))).
  assert (FE : foreach sites4 (RtoC 0) (fun e s =>
            hole <- aget H (fst s * 4 + snd s);;
            if k_cfg w (fst s) (snd s) <=? 1 then
              let alt := ex_tps (fst s) (snd s) (1 - k_cfg w (fst s) (snd s)) in
              let psi_ex := nsum (shape hole) (fun ix => (entry hole ix * entry alt ix)%C) in
              Ok (e + RtoC (- 1) * Cconj (psi_ex * Cinv (k_amp w)))%C
            else Fail UB) = Ok (RtoC 0)).
  { transitivity (Ok (A := C) (RtoC 0 + sumC (fun _ : site => RtoC 0) sites4)%C); [|rewrite sumC_zero by reflexivity; f_equal; ring].
    rewrite <- (foreach_sum (fun s => Ok (RtoC 0)) (fun _ => RtoC 0)) by reflexivity. apply TrgMain.foreach_ext. intros e [r c] Hs. cbn [fst snd bind]. apply in_for in Hs. destruct Hs as (r' & c' & Hr & Hc & [Hs|[]]). injection Hs as <- <-.
    unfold aget. assert (L : r' * 4 + c' < alen H) by (rewrite LH; lia). destruct (Nat.ltb_spec (r' * 4 + c') (alen H)); [|lia]. cbn [bind]. rewrite EC. unfold c0. cbn [Nat.leb Nat.sub]. cbv zeta. do 2 f_equal.
    assert (P0 : nsum (shape (aval H (r' * 4 + c'))) (fun ix => (entry (aval H (r' * 4 + c')) ix * entry (ex_tps r' c' 1) ix)%C) = RtoC 0).
    { destruct ((r' =? 0) && (c' =? 0)) eqn:Q.
      - apply andb_true_iff in Q. destruct Q as [Q1 Q2]. apply Nat.eqb_eq in Q1, Q2. subst. destruct (V 0 0 Hr Hc) as (V1 & _ & V3). specialize (V3 ex_probe eq_refl ex_probe_orthogonal). rewrite V1.
        refine (eq_trans _ V3). unfold pair. apply nsum_comm. intros ix. change (ex_tps 0 0 1) with ex_probe. ring.
      - apply nsum_zero. intros ix. unfold ex_tps. cbn [Nat.eqb]. rewrite Q. cbn [entry]. ring. }
    refine (eq_trans (f_equal (fun z => (RtoC (- 1) * Cconj (z * Cinv (k_amp w)))%C) P0) _). apply injective_projections; cbn; ring. }
  exists w, (diag + RtoC 0)%C. split; [exact HR|]. split.
  { destruct SC as (_ & _ & _ & _ & _ & _ & SS). clear -LL SS. intros a Ha i T s Hi Hs HT HSd. revert Ha LL. unfold TrgExactSpec.lossless. generalize (t_scales t) SS. generalize (t_scales (k_trg w)). intros l l' F. induction F as [|x y l l' (S1 & _ & _ & S4) F IH]; intros Ha LL; [destruct Ha|].
    destruct Ha as [->|Ha]; [|apply IH; [exact Ha|intros b Hb; apply LL; right; exact Hb]]. destruct S1 as [L1 V1], S4 as [L4 V4].
    apply (LL y (or_introl eq_refl) i T s); [lia|lia|rewrite <- V1 by exact Hi; exact HT|rewrite <- V4 by exact Hs; exact HSd]. }
  split.
  { intros c _ r k Hr Hk. rewrite ex_tps_shape. destruct (ex_closes r k Hr Hk) as [A1 A2]. split; [exact A1|]. intros l b Hl Q. specialize (A2 l b Hl Q).
    unfold dimat in *. rewrite ex_tps_shape. rewrite A2. destruct b as [i j|i j]; cbn [torus_dim]; unfold dimat; rewrite ex_tps_shape; reflexivity. }
  split; [rewrite EX, ex_net_sum; exact K9|]. split; [rewrite K9; exact N9|]. split.
  { unfold trg_tfim_energy. rewrite TR. cbn [bind fst snd]. rewrite <- ZA. rewrite is_zero_false by (rewrite K9; exact N9).
    assert (PW : punch_all_holes o (k_trg w) (mkNet 4 4 true (k_tn w)) = Ok H).
    { rewrite ETN. refine (eq_trans PH _). unfold net_of. rewrite EX. exact EH. }
    rewrite PW. cbn [bind]. match goal with |- context [foreach ?l ?a ?f] => replace (foreach l a f) with (Ok (A := C) (RtoC 0)) by (symmetry; exact FE) end. cbn [bind]. rewrite comp_eta. reflexivity. }
  assert (W9 : torus_wave (torus_sum 4) ex_tps 4 (UpdaterSpec.flat 4 4 (k_cfg w)) = RtoC 9) by (rewrite EC, <- ex_net_sum; unfold torus_wave; apply torus_sum_reads; intros r c Hr Hc; rewrite (conf_flat 4 4 c0) by assumption; reflexivity).
  destruct (torus_three (torus_sum 4) ex_tps 4 4 (k_cfg w) (k_tn w) ltac:(lia) ltac:(lia) (torus_sum_reads 4) ltac:(intros r c _ _; rewrite TN, EC; reflexivity) BB ltac:(rewrite W9; exact N9)) as (_ & _ & TF). specialize (TF 1%R).
  revert TF. unfold pbc_tfim_energy. cbn [negb]. rewrite TN, ex_net_sum. rewrite is_zero_false by exact N9. destruct (forallb (fun x => x) _); [|discriminate]. intros TF. apply ok_inj in TF. change (4 * 4) with 16 in TF. rewrite <- TF.
  intros Q. change (sumC (fun x => x) (for_ 0 4 (fun row => for_ 0 4 (fun col => let s := (row, col) in [d s (site_right 4 s); d s (site_down 4 s)])))) with diag in Q. apply C_cancel in Q.
  pose (val := fun s : site => (RtoC (- 1) * Cconj (PbcModel.evaluate_replacement tensor (torus_sum 4) ex_tps ex_net [(s, (1 - k_cfg w (fst s) (snd s))%nat)] * Cinv (RtoC 9)))%C).
  assert (SV : sumC (fun x => x) (for_ 0 4 (fun row => for_ 0 4 (fun col => let s := (row, col) in [(RtoC (- 1) * Cconj (PbcModel.evaluate_replacement tensor (torus_sum 4) ex_tps ex_net [(s, (1 - k_cfg w row col)%nat)] * Cinv (RtoC 9)))%C]))) = sumC val sites4).
  { rewrite (sumC_map_id val). unfold sites4. rewrite map_for. reflexivity. }
  rewrite (sumC_single val sites4 (0, 0)) in SV.
  - assert (VV : val (0, 0) = (RtoC (-1) * Cconj (RtoC 1 * Cinv (RtoC 9)))%C).
    { unfold val. do 3 f_equal. cbn [fst snd]. rewrite EC. unfold c0. unfold PbcModel.evaluate_replacement. cbn [fold_left fst snd Nat.sub]. refine (eq_trans _ ex_probe_sum). apply torus_sum_reads. intros r c _ _. reflexivity. }
    pose proof (eq_trans Q (eq_trans SV VV)) as QQ. apply (f_equal fst) in QQ. cbn in QQ. unfold Cnorm2 in QQ. cbn in QQ. field_simplify in QQ; lra.
  - unfold sites4. cbn. repeat (constructor; [cbn; intuition congruence|]). constructor.
  - left. reflexivity.
  - intros [r c] Hs NE. apply in_for in Hs. destruct Hs as (r' & c' & Hr & Hc & [Hs|[]]). injection Hs as <- <-. unfold val. cbn [fst snd]. rewrite EC. unfold c0. cbn [Nat.sub].
    assert (Z0 : PbcModel.evaluate_replacement tensor (torus_sum 4) ex_tps ex_net [((r', c'), 1)] = RtoC 0).
    { unfold PbcModel.evaluate_replacement. cbn [fold_left fst snd]. apply (torus_sum_zero 4 _ r' c' Hr Hc). intros ix. unfold upd2, site_eqb. cbn [fst snd]. rewrite !Nat.eqb_refl. cbn [andb]. unfold ex_tps. cbn [Nat.eqb].
      destruct ((r' =? 0) && (c' =? 0)) eqn:QQ; [|reflexivity]. apply andb_true_iff in QQ. destruct QQ as [Q1 Q2]. apply Nat.eqb_eq in Q1, Q2. subst. elim NE. reflexivity. }
    refine (eq_trans (f_equal (fun z => (RtoC (- 1) * Cconj (z * Cinv (RtoC 9)))%C) Z0) _). apply injective_projections; cbn; ring.
Qed.
