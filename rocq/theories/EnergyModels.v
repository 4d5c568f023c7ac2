(** The callbacks of each model, and the energies the evaluators return. *)
From Coq Require Import List Arith Lia Bool Reals Permutation Lra ZArith.
From Verif Require Import Base ContractorModel ContractorSpec ContractorProofs SweepModel SweepSpec SweepProofs
  HistoryProofs SweepMain UpdaterSpec UpdaterChain BlockChain Cplx EnergyModel EnergySpec EnergyProofs EnergySum EnergyMain.
Import ListNotations.
Local Open Scope nat_scope.

Lemma configs2 dim cs : In cs (all_configs dim 2) -> exists a b, cs = [a; b] /\ a < dim /\ b < dim.
Proof.
  intros H. apply all_configs_in in H. destruct H as [L F].
  destruct cs as [|a [|b [|c cs]]]; try discriminate. inversion F; subst. inversion H2; subst. eauto.
Qed.
Lemma configs1 dim cs : In cs (all_configs dim 1) -> exists a, cs = [a] /\ a < dim.
Proof.
  intros H. apply all_configs_in in H. destruct H as [L F].
  destruct cs as [|a [|b cs]]; try discriminate. inversion F; subst. eauto.
Qed.
(** Division by a non-zero amplitude. *)
Lemma conj_term (x z : C) : z <> RtoC 0 -> Cconj (x * z / z)%C = Cconj x.
Proof.
  intros H. f_equal. unfold Cdiv. assert (E : (x * z * Cinv z)%C = (x * (z * Cinv z))%C) by ring.
  rewrite E, Cinv_r by exact H. ring.
Qed.

(** *** XXZ *)
Lemma xxz_entry jz jxy a b a' b' : a < 2 -> b < 2 -> a' < 2 -> b' < 2 ->
  xxz_bond jz jxy [a; b] [a'; b'] =
  if (a =? a') && (b =? b') then RtoC (if a =? b then 1 / 4 * jz else - (1 / 4) * jz)%R
  else if (a =? b') && (b =? a') then RtoC (1 / 2 * jxy)%R else RtoC 0.
Proof.
  intros Ha Hb Ha' Hb'.
  destruct a as [|[|a]], b as [|[|b]], a' as [|[|a']], b' as [|[|b']]; try lia;
  unfold xxz_bond, op_add, op_scal, tensor, Sz, Sx, Sy, one_site; simpl;
  apply C_ext; simpl; field.
Qed.
Lemma pairs_of_two : all_configs 2 2 = [[0; 0]; [1; 0]; [0; 1]; [1; 1]].
Proof. reflexivity. Qed.
Lemma xxz_term_ok jz jxy cs inv T : In cs (all_configs 2 2) -> T cs <> RtoC 0 -> inv = Some (Cinv (T cs)) ->
  xxz_term jz jxy cs inv T =
  Ok (Cconj (sumC (fun ns => xxz_bond jz jxy cs ns * T ns)%C (all_configs 2 2) / T cs)%C).
Proof.
  intros Hcs HT ->. apply configs2 in Hcs. destruct Hcs as (a & b & -> & Ha & Hb).
  rewrite pairs_of_two, !sumC_cons, sumC_nil, !xxz_entry by lia. unfold xxz_term.
  assert (D : forall z s, z <> RtoC 0 -> s = (RtoC (1 / 4 * jz) * z)%C -> RtoC (1 / 4 * jz) = Cconj (s / z)%C).
  { intros z s Hz ->. rewrite conj_term by exact Hz. now rewrite Cconj_R. }
  assert (O : forall y z s, z <> RtoC 0 -> s = (RtoC (- (1 / 4) * jz) * z + RtoC (1 / 2 * jxy) * y)%C ->
     (RtoC (- (1 / 4) * jz) + Cconj (y * Cinv z) * RtoC (1 / 2) * RtoC jxy)%C = Cconj (s / z)%C).
  { intros y z s Hz ->. transitivity (Cconj (RtoC (- (1 / 4) * jz) * z / z) + Cconj (RtoC (1 / 2 * jxy) * (y * Cinv z)))%C.
    - rewrite conj_term by auto. rewrite Cconj_R, (Cconj_mul (RtoC _)), Cconj_R. rewrite (RtoC_mul (1 / 2) jxy). ring.
    - rewrite <- Cconj_add. f_equal. unfold Cdiv. ring. }
  destruct a as [|[|a]], b as [|[|b]]; try lia; cbn [Nat.eqb andb]; f_equal;
    first [apply D; [exact HT|ring] | apply O; [exact HT|ring]].
Qed.
Lemma xxz_zero cs ns : In cs (all_configs 2 2) -> In ns (all_configs 2 2) -> xxz_bond 0 0 cs ns = RtoC 0.
Proof.
  intros A B. apply configs2 in A, B. destruct A as (a & b & -> & Ha & Hb), B as (a' & b' & -> & Ha' & Hb').
  rewrite xxz_entry by auto. destruct (_ && _); [destruct (_ =? _); apply C_ext; simpl; lra|].
  destruct (_ && _); apply C_ext; simpl; lra.
Qed.

Definition xxz_h (jz jxy jz2 jxy2 : R) (v : visit) : operator :=
  match v with VBond _ _ => xxz_bond jz jxy | _ => xxz_bond jz2 jxy2 end.
Lemma xxz_model_term jz jxy jz2 jxy2 p v : is_bond v || is_diag v = true ->
  term 2 (xxz_model jz jxy jz2 jxy2 p) v (xxz_h jz jxy jz2 jxy2 v) true.
Proof.
  intros Hv cs inv T Hcs HT Hi.
  destruct v as [d s|g s|d g s|s|s]; try discriminate; cbn [m_visit xxz_model xxz_h].
  - assert (L : length (sites_of (VBond d s)) = 2) by reflexivity. rewrite L in *. apply xxz_term_ok; auto.
  - assert (L : length (sites_of (VDiag g s)) = 2) by (destruct g; reflexivity). rewrite L in *. apply xxz_term_ok; auto.
Qed.

Lemma xxz_bond_model jz jxy jz2 jxy2 p v : is_bond v = true -> term 2 (xxz_model jz jxy jz2 jxy2 p) v (xxz_bond jz jxy) true.
Proof.
  intros H. pose proof (xxz_model_term jz jxy jz2 jxy2 p v) as T. rewrite H in T. specialize (T eq_refl).
  destruct v; try discriminate. exact T.
Qed.
Lemma xxz_diag_model jz jxy jz2 jxy2 p v : is_diag v = true -> term 2 (xxz_model jz jxy jz2 jxy2 p) v (xxz_bond jz2 jxy2) true.
Proof.
  intros H. pose proof (xxz_model_term jz jxy jz2 jxy2 p v) as T. rewrite H, orb_true_r in T. specialize (T eq_refl).
  destruct v; try discriminate. exact T.
Qed.

Lemma energy_traced_first holes nnn rows cols : 1 <= rows -> traced_first (cal_energy_and_holes holes nnn rows cols).
Proof.
  intros H. unfold cal_energy_and_holes. apply traced_first_app. unfold cal_horizontal, for_. rewrite Nat.sub_0_r.
  destruct rows as [|rows]; [lia|]. cbn [seq flat_map app].
  eexists [Generate UP; InitE LEFT 0; GrowE RIGHT 0 1 true], _, _. split; [cbn [app]; reflexivity|split; reflexivity].
Qed.
Lemma tfim_traced_first holes rows cols : 1 <= rows -> traced_first (cal_tfim holes rows cols).
Proof.
  intros H. unfold cal_tfim, for_. rewrite Nat.sub_0_r. destruct rows as [|rows]; [lia|]. cbn [seq flat_map app].
  eexists [Generate UP; InitE LEFT 0; GrowE RIGHT 0 1 true], _, _. split; [cbn [app]; reflexivity|split; reflexivity].
Qed.

(** Sum of one term per bond and one per diagonal as the local energy of a Hamiltonian. *)
Definition H_bonds (rows cols : nat) (rel : site -> site -> bool) (h : operator) : operator :=
  op_sum (fun ab => on_sites [index cols (fst ab); index cols (snd ab)] h) (pairs rows cols rel).

Lemma local_energy_zero dim n A Psi S : (forall S', A S S' = RtoC 0) -> local_energy dim n A Psi S = RtoC 0.
Proof.
  intros H. unfold local_energy. rewrite sumC_zero by (intros x _; rewrite H; ring). unfold Cdiv.
  rewrite Cconj_mul, Cconj_R. ring.
Qed.

Section Spin.
Context (o : ops) (val : Amp o -> C) (Rng : Type) (rows cols : nat) (tps : sitps o) (ker : kernel o Rng) (psi : net o -> Amp o).
Hypothesis Hr : 2 <= rows.
Hypothesis Hc : 2 <= cols.
Hypothesis H1 : contraction_consistent o rows cols psi.
Context (w : wst o Rng).
Hypothesis Hw : ready o rows cols w.
Hypothesis HP : projected o rows cols tps (cfg w) (tn w).
Notation Psi := (wave o val cols psi tps).
Notation S0 := (flat rows cols (cfg w)).
Hypothesis HZ : Psi S0 <> RtoC 0.

Lemma first_bond_psi q : first_bond rows cols q -> trace_query o val rows cols (tn w) q = Psi S0.
Proof.
  intros [(i & Hi & ->)|(i & Hi & ->)]; unfold trace_query;
  rewrite H1 by (simpl; lia); apply psi_project; auto; lia.
Qed.
Lemma visit_psi v : visit_in rows cols v -> (two_layer v = true -> contraction_consistent2 o rows cols psi) ->
  trace_visit o val rows cols v (tn w) = Psi S0.
Proof. intros A B. rewrite (trace_visit_psi o val rows cols psi) by (auto; lia). apply psi_project; auto; lia. Qed.

(** Models whose diagonal and bond callbacks are the two-site terms [hb] and [hd]. *)
Lemma spin_energy dim (M : model) holes (nnn : bool) (hb hd : operator) ons :
  (nnn = true -> contraction_consistent2 o rows cols psi) ->
  (forall v, is_bond v = true -> term dim M v hb true) ->
  (forall v, is_diag v = true -> term dim M v hd true) ->
  m_onsite M rows cols (cfg w) = Ok ons -> all_states rows cols (fun x => x < dim) (cfg w) ->
  exists w' r, energy_of o val M true tps ker rows cols (cal_energy_and_holes holes nnn rows cols) w = Ok (w', r) /\
    e_total r = (local_energy dim (rows * cols)
        (op_add (H_bonds rows cols nearest hb) (if nnn then H_bonds rows cols diagonal hd else fun _ _ => RtoC 0)) Psi S0 + ons)%C /\
    e_holes r = flat_map (hole_at o rows cols (tn w)) (calls holes nnn rows cols) /\
    Forall (fun z => z = Psi S0) (e_psis r) /\
    ready o rows cols w' /\ cfg w' = cfg w /\ tn w' = tn w /\ amp w' = amp w /\ rng w' = rng w.
Proof.
  intros H2 Tb Td HO HS.
  assert (HL : forall v, In v (calls holes nnn rows cols) -> two_layer v = true -> contraction_consistent2 o rows cols psi).
  { intros v Hv E. apply calls_in in Hv. destruct v as [d s|g s|d g s|s|s]; simpl in Hv; try discriminate; try contradiction.
    apply H2. tauto. }
  destruct (energy_of_sum o val Rng rows cols tps ker M true dim (cal_energy_and_holes holes nnn rows cols)
     (fun v => if is_bond v then hb else hd) true ons w) as (w' & E & R); auto.
  - apply pure_energy.
  - apply energy_ok; auto.
  - intros _. apply energy_traced_first. lia.
  - intros v Hv. rewrite visits_energy in Hv. eapply calls_visit_in; eauto.
  - intros v Hv Hh. rewrite visits_energy in Hv. apply calls_in in Hv.
    destruct v as [d s|g s|d g s|s|s]; simpl in Hv; try contradiction; try discriminate; [apply Tb|apply Td]; reflexivity.
  - intros q Hq. rewrite first_bond_psi; auto. eapply queries_energy; eauto.
  - intros v Hv Hh. rewrite visits_energy in Hv. rewrite visit_psi; eauto. eapply calls_visit_in; eauto.
  - intros _ q v Hq Hv Hh. rewrite visits_energy in Hv. rewrite first_bond_psi by (eapply queries_energy; eauto).
    apply visit_psi; eauto. eapply calls_visit_in; eauto.
  - exists w'. eexists. split; [exact E|]. cbn [e_total e_holes e_psis]. rewrite visits_energy. split.
    + f_equal. rewrite split_visits, local_energy_add. unfold H_bonds at 1. rewrite local_energy_sum. f_equal.
      * apply sum_bonds. intros v Hv Hb. rewrite Hb.
        rewrite (visit_energy_local o val rows cols tps psi) by (eauto using calls_visit_in; lia).
        rewrite places_ends by (rewrite Hb; reflexivity). reflexivity.
      * destruct nnn.
        -- unfold H_bonds. rewrite local_energy_sum. apply sum_diags. intros v Hv Hd.
           assert (Hb : is_bond v = false) by (destruct v; try discriminate; reflexivity). rewrite Hb.
           rewrite (visit_energy_local o val rows cols tps psi) by (eauto using calls_visit_in; lia).
           rewrite places_ends by (rewrite Hd, orb_true_r; reflexivity). reflexivity.
        -- rewrite no_diag, sumC_nil. symmetry. apply local_energy_zero. reflexivity.
    + split; [reflexivity|]. split; [|exact R]. apply Forall_forall. intros z Hz. apply in_map_iff in Hz.
      destruct Hz as (q & <- & Hq). apply first_bond_psi. eapply queries_energy; eauto.
Qed.
End Spin.

(** *** XXZ and J1-J2 *)
Lemma sz_entry a b : a < 2 -> b < 2 -> Sz [a] [b] = if list_eq_dec Nat.eq_dec [a] [b] then RtoC (spin_z a) else RtoC 0.
Proof.
  intros Ha Hb. destruct a as [|[|a]], b as [|[|b]]; try lia; unfold Sz, one_site, spin_z; simpl; try reflexivity;
  apply C_ext; simpl; lra.
Qed.
Lemma local_energy_ext dim n A B Psi S : (forall S', In S' (all_configs dim n) -> A S S' = B S S') ->
  local_energy dim n A Psi S = local_energy dim n B Psi S.
Proof. intros H. unfold local_energy. do 2 f_equal. apply sumC_ext. intros S' Hs. now rewrite H. Qed.
Lemma zero_bonds rows cols rel S S' : In S (all_configs 2 (rows * cols)) -> In S' (all_configs 2 (rows * cols)) ->
  H_bonds rows cols rel (xxz_bond 0 0) S S' = RtoC 0.
Proof.
  intros HS HS'. unfold H_bonds, op_sum. apply sumC_zero. intros [a b] Hab.
  apply pairs_in in Hab. destruct Hab as ((A1 & A2) & (B1 & B2) & _). unfold on_sites.
  destruct (agree_off _ _ _); [|reflexivity]. cbn [fst snd].
  assert (G : forall T, In T (all_configs 2 (rows * cols)) -> In (get [index cols a; index cols b] T) (all_configs 2 2)).
  { intros T HT. apply all_configs_in in HT. destruct HT as [L F]. apply all_configs_in. split; [reflexivity|].
    apply get_states; [exact F|]. rewrite L.
    repeat constructor; [exact (pos_of_lt rows cols a A1 A2)|exact (pos_of_lt rows cols b B1 B2)]. }
  apply xxz_zero; apply G; assumption.
Qed.

Section SpinModels.
Context (o : ops) (val : Amp o -> C) (Rng : Type) (rows cols : nat) (tps : sitps o) (ker : kernel o Rng) (psi : net o -> Amp o).
Notation Psi := (wave o val cols psi tps).

Lemma pinning_local jz jxy jz2 jxy2 p c : 1 <= rows -> 1 <= cols -> all_states rows cols (fun x => x < 2) c ->
  Psi (flat rows cols c) <> RtoC 0 ->
  m_onsite (xxz_model jz jxy jz2 jxy2 p) rows cols c =
  Ok (local_energy 2 (rows * cols) (op_scal (- p) (on_sites [0] Sz)) Psi (flat rows cols c)).
Proof.
  intros Hr Hc HS HZ. cbn [m_onsite xxz_model]. f_equal. rewrite local_energy_scal.
  rewrite (local_energy_diag 2 (rows * cols) [0] Sz (fun cs => spin_z (hd 0 cs))).
  - unfold get. cbn [map hd].
    pose proof (flat_pos rows cols c (0, 0)) as F. unfold pos_of in F. simpl in F. rewrite F by lia. rewrite RtoC_mul. reflexivity.
  - apply flat_states; auto.
  - constructor; [intros []|constructor].
  - constructor; [nia|constructor].
  - exact HZ.
  - intros cs ns A B. apply configs1 in A, B. destruct A as (a & -> & Ha), B as (b & -> & Hb). apply sz_entry; auto.
Qed.

Lemma j1j2_energy jz jxy jz2 jxy2 p holes (w : wst o Rng) : 2 <= rows -> 2 <= cols ->
  contraction_consistent o rows cols psi -> contraction_consistent2 o rows cols psi ->
  ready o rows cols w -> projected o rows cols tps (cfg w) (tn w) -> all_states rows cols (fun x => x < 2) (cfg w) ->
  Psi (flat rows cols (cfg w)) <> RtoC 0 ->
  exists w' r, j1j2_xxz_obc val jz jxy jz2 jxy2 p holes tps ker rows cols w = Ok (w', r) /\
    e_total r = local_energy 2 (rows * cols) (H_xxz rows cols jz jxy jz2 jxy2 p) Psi (flat rows cols (cfg w)) /\
    e_holes r = flat_map (hole_at o rows cols (tn w)) (calls holes true rows cols) /\
    Forall (fun z => z = Psi (flat rows cols (cfg w))) (e_psis r) /\
    ready o rows cols w' /\ cfg w' = cfg w /\ tn w' = tn w /\ amp w' = amp w /\ rng w' = rng w.
Proof.
  intros Hr Hc H1 H2 Hw HP HS HZ.
  destruct (spin_energy o val Rng rows cols tps ker psi Hr Hc H1 w Hw HP HZ 2 (xxz_model jz jxy jz2 jxy2 p) holes true
    (xxz_bond jz jxy) (xxz_bond jz2 jxy2) _ (fun _ => H2)
    (fun v Hv => xxz_bond_model jz jxy jz2 jxy2 p v Hv) (fun v Hv => xxz_diag_model jz jxy jz2 jxy2 p v Hv)
    (pinning_local jz jxy jz2 jxy2 p (cfg w) ltac:(lia) ltac:(lia) HS HZ) HS) as (w' & r & E & T & R).
  exists w', r. split; [exact E|]. split; [|exact R]. rewrite T. unfold H_xxz. rewrite !local_energy_add. unfold H_bonds. ring.
Qed.
Lemma xxz_energy jz jxy p holes (w : wst o Rng) : 2 <= rows -> 2 <= cols ->
  contraction_consistent o rows cols psi ->
  ready o rows cols w -> projected o rows cols tps (cfg w) (tn w) -> all_states rows cols (fun x => x < 2) (cfg w) ->
  Psi (flat rows cols (cfg w)) <> RtoC 0 ->
  exists w' r, xxz_obc val jz jxy p holes tps ker rows cols w = Ok (w', r) /\
    e_total r = local_energy 2 (rows * cols) (H_xxz rows cols jz jxy 0 0 p) Psi (flat rows cols (cfg w)) /\
    e_holes r = flat_map (hole_at o rows cols (tn w)) (calls holes false rows cols) /\
    Forall (fun z => z = Psi (flat rows cols (cfg w))) (e_psis r) /\
    ready o rows cols w' /\ cfg w' = cfg w /\ tn w' = tn w /\ amp w' = amp w /\ rng w' = rng w.
Proof.
  intros Hr Hc H1 Hw HP HS HZ.
  destruct (spin_energy o val Rng rows cols tps ker psi Hr Hc H1 w Hw HP HZ 2 (xxz_model jz jxy 0 0 p) holes false
    (xxz_bond jz jxy) (xxz_bond 0 0) _ ltac:(discriminate)
    (fun v Hv => xxz_bond_model jz jxy 0 0 p v Hv) (fun v Hv => xxz_diag_model jz jxy 0 0 p v Hv)
    (pinning_local jz jxy 0 0 p (cfg w) ltac:(lia) ltac:(lia) HS HZ) HS) as (w' & r & E & T & R).
  exists w', r. split; [exact E|]. split; [|exact R]. rewrite T. unfold H_xxz. rewrite !local_energy_add.
  fold (H_bonds rows cols nearest (xxz_bond jz jxy)). fold (H_bonds rows cols diagonal (xxz_bond 0 0)).
  rewrite (local_energy_zero _ _ (fun _ _ => RtoC 0)) by reflexivity.
  rewrite (local_energy_ext _ _ (H_bonds rows cols diagonal (xxz_bond 0 0)) (fun _ _ => RtoC 0)).
  - rewrite (local_energy_zero _ _ (fun _ _ => RtoC 0)) by reflexivity. ring.
  - intros S' HS'. apply zero_bonds; auto. apply flat_states; auto; lia.
Qed.

(** A zero amplitude throws. *)
Lemma zero_amplitude_throws M prog dim (w : wst o Rng) : 1 <= rows -> 1 <= cols -> contraction_consistent o rows cols psi ->
  forallb pure_cmd prog = true -> run_ok o Rng rows cols tps ker prog -> traced_first prog ->
  (forall q, In q (queries prog) -> trace_query o val rows cols (tn w) q = Psi (flat rows cols (cfg w))) ->
  ready o rows cols w -> projected o rows cols tps (cfg w) (tn w) -> all_states rows cols (fun x => x < dim) (cfg w) ->
  Psi (flat rows cols (cfg w)) = RtoC 0 ->
  energy_of o val M true tps ker rows cols prog w = Fail Throw.
Proof.
  intros Hr Hc H1 HPu HR (pre & q & post & EP & V & Q) HQ Hw HP HS HZ.
  destruct (HR w Hw) as (w' & lg & E & R & F). unfold energy_of. rewrite E. cbn [bind fst snd].
  rewrite (evaluate_prog o val Rng rows cols tps ker M true prog w w' lg _ HPu E F).
  assert (Hq : In q (queries prog)) by (rewrite EP, queries_app; apply in_or_app; right; left; reflexivity).
  rewrite EP. rewrite eval_prog_silent by assumption. cbn [eval_prog].
  destruct (trace_win_answer o val rows cols (tn w) q) as (x & -> & Hx). unfold on_trace, is_zero.
  rewrite Hx, HQ, HZ by exact Hq. destruct (Ceq_dec 0 0) as [_|N]; [reflexivity|congruence].
Qed.
Lemma j1j2_zero jz jxy jz2 jxy2 p holes (w : wst o Rng) : 2 <= rows -> 2 <= cols ->
  contraction_consistent o rows cols psi ->
  ready o rows cols w -> projected o rows cols tps (cfg w) (tn w) -> all_states rows cols (fun x => x < 2) (cfg w) ->
  Psi (flat rows cols (cfg w)) = RtoC 0 ->
  j1j2_xxz_obc val jz jxy jz2 jxy2 p holes tps ker rows cols w = Fail Throw /\
  xxz_obc val jz jxy p holes tps ker rows cols w = Fail Throw.
Proof.
  intros Hr Hc H1 Hw HP HS HZ. split.
  all: apply (zero_amplitude_throws _ _ 2); auto; try lia; try apply pure_energy; try (apply energy_ok; auto);
    try (apply energy_traced_first; lia).
  all: intros q Hq; apply queries_energy in Hq; apply first_bond_psi; auto.
Qed.
End SpinModels.
