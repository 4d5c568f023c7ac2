(** The boundary MPS method is exact when nothing is truncated: the statements about the contractor as a whole. *)
From Coq Require Import List Arith Lia Bool Reals Permutation.
From Verif Require Import Base Cplx ContractorModel ContractorSpec SweepModel SweepSpec EnergyModel EnergySpec EnergyHoles EnergyClaims
  HistoryProofs SweepMain HistoryMain UpdaterSpec UpdaterChain SumModel SumSpec SumProofs NetSum TrgTensor TrgHoleAlg BmpsModel BmpsSpec BmpsAlg BmpsChain BmpsEnv BmpsSum BmpsNet.
Import ListNotations.
Local Open Scope nat_scope.

Section Main.
Context (D : nat) (D1 : 1 <= D) (qr : tensor -> tensor * tensor) (svd : tensor -> tensor * list R * tensor) (m : nat)
  (QR : exact_qr qr) (SV : svd_keeps m svd) (rows cols : nat) (Dm : D ^ (Nat.max rows cols - 1) <= m).
Notation o := (bmps_ops D qr svd rows cols).

Theorem bmps_consistent : contraction_consistent o rows cols (open_sum D rows cols).
Proof.
  intros tn d x k Hk Hin. assert (R1 : 1 <= rows) by (destruct d; cbn in Hin; lia). assert (C1 : 1 <= cols) by (destruct d; cbn in Hin; lia).
  rewrite (window1_value D D1 qr svd m QR SV rows cols R1 C1 Dm tn d x k Hk Hin). apply (total_open D D1 m rows cols R1 C1 Dm).
Qed.
Theorem bmps_consistent2 : contraction_consistent2 o rows cols (open_sum D rows cols).
Proof.
  intros tn d x k Hk Hin. assert (R1 : 1 <= rows) by (destruct d; cbn in Hin; lia). assert (C1 : 1 <= cols) by (destruct d; cbn in Hin; lia).
  rewrite (window2_value D D1 qr svd m QR SV rows cols R1 C1 Dm tn d x k Hk Hin). apply (total_open D D1 m rows cols R1 C1 Dm).
Qed.
Theorem bmps_plugs : plugs o rows cols plug_hole.
Proof.
  intros tn d x t m1 m2 e1 e2 Hin EW. assert (R1 : 1 <= rows) by (destruct d; cbn in Hin; lia). assert (C1 : 1 <= cols) by (destruct d; cbn in Hin; lia).
  unfold window1_spec in EW. cbn [seq map] in EW.
  assert (HS : match d with HORIZONTAL => across d x < rows | VERTICAL => across d x < cols end) by (destruct d; apply Hin).
  assert (HE : depth rows cols (pre_of (near d)) (across d x) + S (depth rows cols (next_of (near d)) (across d x)) = nsl rows cols (pre_of (near d))) by (destruct d; cbn in HS |- *; lia).
  set (s := across d x) in *. set (j := along d x) in *. set (n := wid rows cols (pre_of (near d))).
  assert (Hj : j < n) by (unfold j, n; destruct d; cbn in Hin |- *; lia).
  assert (NL : nsl rows cols (pre_of (near d)) <= Nat.max rows cols) by (destruct d; cbn; lia).
  destruct (M_like D D1 qr svd m QR SV rows cols R1 C1 Dm tn (pre_of (near d)) (depth rows cols (pre_of (near d)) s) ltac:(lia)) as (b1 & P1 & L1).
  destruct (M_like D D1 qr svd m QR SV rows cols R1 C1 Dm tn (next_of (near d)) (depth rows cols (next_of (near d)) s) ltac:(lia)) as (b2 & P2 & L2).
  rewrite <- wid_pre in L2. fold n in L1, L2.
  pose proof (hole_value D D1 n ltac:(lia) b1 b2 P1 P2 _ _ L1 L2 d (tsq rows cols tn (near d) s) j t Hj) as T.
  assert (E1 : e1 = env D n (near d) (M D qr svd rows cols tn (pre_of (near d)) (depth rows cols (pre_of (near d)) s)) (M D qr svd rows cols tn (next_of (near d)) (depth rows cols (next_of (near d)) s)) (tsq rows cols tn (near d) s) j).
  { pose proof (f_equal (fun z => snd (fst z)) EW) as Z. cbn [fst snd] in Z. rewrite <- Z. apply env_from_eq. }
  assert (E2 : e2 = far_env D n (M D qr svd rows cols tn (pre_of (near d)) (depth rows cols (pre_of (near d)) s)) (M D qr svd rows cols tn (next_of (near d)) (depth rows cols (next_of (near d)) s)) (near d) (tsq rows cols tn (near d) s) (n - S j)).
  { pose proof (f_equal (fun z => snd z) EW) as Z. cbn [fst snd] in Z. rewrite <- Z.
    replace (wid rows cols (side1 d)) with n by (unfold n; destruct d; reflexivity). change (far d) with (opposite (near d)).
    replace (n - (j + 1)) with (n - S j) by lia. apply (far_from_eq D D1 qr svd m rows cols R1 C1 Dm). fold n. lia. }
  assert (EP : (m1, m2) = pair_at n (M D qr svd rows cols tn (pre_of (near d)) (depth rows cols (pre_of (near d)) s)) (M D qr svd rows cols tn (next_of (near d)) (depth rows cols (next_of (near d)) s)) d j).
  { pose proof (f_equal (fun z => hd (m1, m2) (fst (fst z))) EW) as Z. cbn [fst snd hd] in Z. rewrite <- Z. unfold facing, pair_at, M, n. destruct d; reflexivity. }
  rewrite <- EP in T. cbn [fst snd] in T. rewrite <- E1, <- E2 in T. exact T.
Qed.

Lemma open_sum_ext tn tn' : (forall r c, r < rows -> c < cols -> tn r c = tn' r c) -> open_sum D rows cols tn = open_sum D rows cols tn'.
Proof.
  intros H. unfold open_sum. apply sum_over_ext; [reflexivity|]. intros a. apply prodC_ext. intros [r c] Hi. unfold grid in Hi. apply in_prod_iff in Hi.
  rewrite !in_seq in Hi. cbn [fst snd]. rewrite H by lia. reflexivity.
Qed.
Lemma conf_of_flat c r k : r < rows -> k < cols -> conf cols (flat rows cols c) r k = c r k.
Proof. intros Hr Hk. unfold conf. exact (flat_pos rows cols c (r, k) Hr Hk). Qed.

(** *** the algorithms that use the contractor, with nothing left to assume about the contraction *)
Context (Rng : Type) (tps : sitps o) (ker : kernel o Rng) (HK : honest ker).
Notation Psi := (peps_wave D rows cols tps).
Theorem bmps_life c a0 g l : 1 <= rows -> 2 <= cols -> Forall (fits rows cols) l ->
  exists w lg, (r <- construct tps ker rows cols c a0 g ;; acts rows cols tps ker l (fst r)) = Ok (w, lg) /\
    ready o rows cols w /\ projected o rows cols tps (cfg w) (tn w) /\ amp w = Psi (flat rows cols (cfg w)).
Proof.
  intros Hr Hc F. destruct (construct_ok o Rng rows cols tps ker c a0 g Hr Hc) as (w0 & lg0 & E0 & R0 & _).
  destruct (component_life o Rng rows cols tps ker c a0 g l Hr Hc F) as (w & lg & E & R & _).
  destruct (component_life_coh o Rng rows cols tps ker _ bmps_consistent HK c a0 g l Hr Hc F) as (w' & lg' & E' & P & A).
  rewrite E in E'. inversion E'; subst. exists w', lg'. split; [exact E|]. split; [exact R|]. split; [exact P|]. rewrite A.
  apply open_sum_ext. intros r k Hr' Hk. rewrite P by assumption. f_equal. symmetry. apply conf_of_flat; assumption.
Qed.
Theorem bmps_energy c a0 g l jz jxy jz2 jxy2 p holes : 2 <= rows -> 2 <= cols -> Forall (fits rows cols) l ->
  exists w lg, (r <- construct tps ker rows cols c a0 g ;; acts rows cols tps ker l (fst r)) = Ok (w, lg) /\
    (all_states rows cols (fun x => x < 2) (cfg w) -> Psi (flat rows cols (cfg w)) <> RtoC 0 ->
     exists w' r, j1j2_xxz_obc (o := o) (fun z => z) jz jxy jz2 jxy2 p holes tps ker rows cols w = Ok (w', r) /\
       e_total r = local_energy 2 (rows * cols) (H_xxz rows cols jz jxy jz2 jxy2 p) Psi (flat rows cols (cfg w)) /\
       Forall (fun z => z = Psi (flat rows cols (cfg w))) (e_psis r)).
Proof.
  intros Hr Hc F. destruct (bmps_life c a0 g l ltac:(lia) Hc F) as (w & lg & E & R & P & A). exists w, lg. split; [exact E|]. intros HS HZ.
  destruct (j1j2_claim o (fun z => z) Rng rows cols tps ker Hr Hc _ jz jxy jz2 jxy2 p holes w bmps_consistent bmps_consistent2 R P HS HZ) as (w' & r & E' & T & Q & _).
  exists w', r. split; [exact E'|]. split; [exact T|exact Q].
Qed.
Theorem bmps_tfim c a0 g l h holes : 2 <= rows -> 2 <= cols -> Forall (fits rows cols) l ->
  exists w lg, (r <- construct tps ker rows cols c a0 g ;; acts rows cols tps ker l (fst r)) = Ok (w, lg) /\
    (all_states rows cols (fun x => x < 2) (cfg w) -> Psi (flat rows cols (cfg w)) <> RtoC 0 ->
     exists w' r, tfim_obc (o := o) (fun z => z) h holes tps ker rows cols w = Ok (w', r) /\
       e_total r = local_energy 2 (rows * cols) (H_tfim rows cols h) Psi (flat rows cols (cfg w)) /\
       Forall (fun z => z = Psi (flat rows cols (cfg w))) (e_psis r)).
Proof.
  intros Hr Hc F. destruct (bmps_life c a0 g l ltac:(lia) Hc F) as (w & lg & E & R & P & A). exists w, lg. split; [exact E|]. intros HS HZ.
  destruct (tfim_claim o (fun z => z) Rng rows cols tps ker Hr Hc _ h holes w bmps_consistent R P HS HZ) as (w' & r & E' & T & Q & _).
  exists w', r. split; [exact E'|]. split; [exact T|exact Q].
Qed.
Theorem bmps_holes c a0 g l jz jxy jz2 jxy2 p : 2 <= rows -> 2 <= cols -> Forall (fits rows cols) l ->
  exists w lg, (r <- construct tps ker rows cols c a0 g ;; acts rows cols tps ker l (fst r)) = Ok (w, lg) /\
    (all_states rows cols (fun x => x < 2) (cfg w) -> Psi (flat rows cols (cfg w)) <> RtoC 0 ->
     exists w' r, j1j2_xxz_obc (o := o) (fun z => z) jz jxy jz2 jxy2 p true tps ker rows cols w = Ok (w', r) /\
       Permutation (map fst (e_holes r)) (all_sites rows cols) /\
       forall s hole, In (s, hole) (e_holes r) -> forall t,
         plug_hole hole t = open_sum D rows cols (upd2 (fun a b => tps a b (cfg w a b)) s t)).
Proof.
  intros Hr Hc F. destruct (bmps_life c a0 g l ltac:(lia) Hc F) as (w & lg & E & R & P & A). exists w, lg. split; [exact E|]. intros HS HZ.
  destruct (spin_holes_claim o (fun z => z) Rng rows cols tps ker Hr Hc _ plug_hole jz jxy jz2 jxy2 p 0%R w bmps_consistent bmps_consistent2 bmps_plugs R P HS HZ) as ((w' & r & E' & T & Q) & _).
  exists w', r. split; [exact E'|]. split; [exact T|]. intros s hole Hi t. rewrite (Q s hole Hi t). apply open_sum_ext. intros a b Ha Hb. unfold upd2.
  destruct (site_eqb (a, b) s); [reflexivity|]. apply P; assumption.
Qed.
End Main.

(** *** decompositions that lose nothing exist *)
(** put legs 2 and 3 together *)
Definition plain_qr (T : tensor) : tensor * tensor :=
  (Tn [dimat T 0; dimat T 1; dimat T 2 * dimat T 3] (fun ix => let z := nth 2 ix 0 in entry T [nth 0 ix 0; nth 1 ix 0; z / dimat T 3; z mod dimat T 3]),
   Tn [dimat T 2 * dimat T 3; dimat T 2; dimat T 3] (fun ix => if nth 0 ix 0 =? nth 1 ix 0 * dimat T 3 + nth 2 ix 0 then RtoC 1 else RtoC 0)).
(** a left factor that is the identity, singular values one *)
Definition plain_svd (T : tensor) : tensor * list R * tensor :=
  (Tn [dimat T 0; dimat T 0] (fun ix => if nth 0 ix 0 =? nth 1 ix 0 then RtoC 1 else RtoC 0), repeat 1%R (dimat T 0), Tn [dimat T 0; dimat T 1; dimat T 2] (entry T)).
Lemma sumC_pick (f : nat -> C) n j : j < n -> sumC (fun z => (f z * (if z =? j then RtoC 1 else RtoC 0))%C) (seq 0 n) = f j.
Proof.
  intros H. replace n with (j + (1 + (n - S j))) by lia. rewrite seq_app, sumC_app. cbn [Nat.add seq]. rewrite sumC_cons, Nat.eqb_refl.
  rewrite !sumC_zero; [ring| |]; intros z Hz; apply in_seq in Hz; replace (z =? j) with false by (symmetry; apply Nat.eqb_neq; lia); ring.
Qed.
Lemma plain_qr_exact : exact_qr plain_qr.
Proof.
  intros T L. unfold plain_qr. exists (dimat T 2 * dimat T 3). split; [reflexivity|]. split; [reflexivity|]. split; [lia|]. intros i j x y Hi Hj Hx Hy. cbn [entry nth].
  rewrite (sumC_pick (fun z => entry T [i; j; z / dimat T 3; z mod dimat T 3])) by nia.
  rewrite Nat.div_add_l by lia. rewrite Nat.div_small, Nat.add_0_r by lia. rewrite Nat.add_comm, Nat.mod_add, Nat.mod_small by lia. reflexivity.
Qed.
Lemma plain_svd_keeps m : svd_keeps m plain_svd.
Proof.
  intros T L _. unfold plain_svd. rewrite repeat_length. split; [reflexivity|]. split; [reflexivity|]. split; [lia|]. intros i j k Hi Hj Hk. cbn [entry nth].
  rewrite <- (sumC_pick (fun x => entry T [x; j; k]) (dimat T 0) i Hi) at 1. apply sumC_ext. intros x Hx. apply in_seq in Hx.
  assert (E1 : nth x (repeat 1%R (dimat T 0)) 0%R = 1%R) by (rewrite (nth_indep _ 0%R 1%R) by (rewrite repeat_length; lia); apply nth_repeat). rewrite E1. rewrite (Nat.eqb_sym i x). destruct (x =? i); ring.
Qed.
