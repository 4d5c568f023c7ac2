(** Striped sums do not depend on the number of ranks; Rayleigh quotient and its derivative. *)
From Coq Require Import List Arith Lia Lra Bool Reals Permutation.
From Verif Require Import Base ContractorModel SweepModel Cplx Rsum UpdaterSpec UpdaterProofs UpdaterChain EnergySpec ExactModel ExactSpec.
Import ListNotations.
Local Open Scope nat_scope.

Lemma strided_in fuel : forall i step n k, In k (strided fuel i step n) <-> k < n /\ exists j, j < fuel /\ k = i + j * step.
Proof.
  induction fuel as [|f IH]; intros i step n k; simpl; [split; [intros []|intros (_ & j & Hj & _); lia]|].
  destruct (Nat.ltb_spec i n) as [L|L].
  - simpl. rewrite IH. split.
    + intros [<-|(Hk & j & Hj & ->)]; [split; [exact L|exists 0; lia]|]. split; [exact Hk|]. exists (S j). split; [lia|simpl; lia].
    + intros (Hk & [|j] & Hj & ->); [left; simpl; lia|]. right. split; [exact Hk|]. exists j. split; [lia|simpl; lia].
  - split; [intros []|]. intros (Hk & j & Hj & ->). exfalso. assert (0 <= j * step) by lia. lia.
Qed.
Lemma strided_nodup fuel : forall i step n, 0 < step -> NoDup (strided fuel i step n).
Proof.
  induction fuel as [|f IH]; intros i step n Hs; simpl; [constructor|]. destruct (i <? n); [|constructor]. constructor; [|apply IH; exact Hs].
  intros H. apply strided_in in H. destruct H as (_ & j & _ & E). assert (0 <= j * step) by lia. lia.
Qed.
Lemma stripe_in n size rank k : 0 < size -> rank < size -> (In k (stripe n size rank) <-> k < n /\ k mod size = rank).
Proof.
  intros Hs Hr. unfold stripe. rewrite strided_in. split.
  - intros (Hk & j & Hj & ->). split; [exact Hk|]. rewrite Nat.mod_add by lia. apply Nat.mod_small. exact Hr.
  - intros (Hk & E). split; [exact Hk|]. exists (k / size). pose proof (Nat.div_mod k size ltac:(lia)). split; [|lia].
    apply Nat.div_lt_upper_bound; [lia|]. destruct size; [lia|]. simpl. assert (0 <= size * n) by lia. lia.
Qed.
Lemma stripes_nodup n size : 0 < size -> forall m, m <= size -> NoDup (flat_map (stripe n size) (seq 0 m)).
Proof.
  intros Hs. induction m as [|m IH]; intros Hm; [constructor|]. rewrite seq_S, flat_map_app. cbn [flat_map Nat.add]. rewrite app_nil_r. apply NoDup_app_dis.
  - apply IH. lia.
  - apply strided_nodup. exact Hs.
  - intros k Hk Hk'. apply in_flat_map in Hk. destruct Hk as (r & Hr & Hk). apply in_seq in Hr. apply stripe_in in Hk, Hk'; lia.
Qed.
Lemma stripes_perm n size : 0 < size -> Permutation (flat_map (stripe n size) (seq 0 size)) (seq 0 n).
Proof.
  intros Hs. apply NoDup_Permutation; [apply stripes_nodup; [exact Hs|reflexivity]|apply seq_NoDup|]. intros k. rewrite in_flat_map. split.
  - intros (r & Hr & Hk). apply in_seq in Hr. apply stripe_in in Hk; [apply in_seq; lia|exact Hs|lia].
  - intros Hk. apply in_seq in Hk. exists (k mod size). pose proof (Nat.mod_upper_bound k size ltac:(lia)). split; [apply in_seq; lia|].
    apply stripe_in; [exact Hs|lia|]. split; [lia|reflexivity].
Qed.
Local Open Scope R_scope.
Lemma total_weight_rsum {Conf} (amp : Conf -> C) configs : total_weight amp configs = rsum (fun c => Cnorm2 (amp c)) configs.
Proof. unfold total_weight. induction configs as [|c l IH]; [reflexivity|]. cbn [map fold_right]. rewrite IH. reflexivity. Qed.
Lemma map_seq_nth {X} (l : list X) d : map (fun i => nth i l d) (seq 0 (length l)) = l.
Proof.
  apply (nth_ext _ _ d d); rewrite map_length, seq_length; [reflexivity|]. intros k Hk. rewrite (nth_indep _ d (nth 0 l d)) by (rewrite map_length, seq_length; exact Hk).
  rewrite (map_nth (fun i => nth i l d)), seq_nth by exact Hk. reflexivity.
Qed.
Section Sums.
Context {Conf Idx : Type} (amp eloc : Conf -> C) (incr : Conf -> Idx -> C) (configs : list Conf) (dflt : Conf).
Notation at_i := (conf_at configs dflt).
Notation rank_sum := (rank_sum amp eloc incr configs dflt).
Lemma rank_fold is : forall s0, let s := fold_left (fun s i =>
      let c := conf_at configs dflt i in
      let w := Cnorm2 (amp c) in
      mkSums (r_weight s + w)%R (r_energy s + eloc c * RtoC w)%C
             (fun k => (r_o s k + incr c k)%C) (fun k : Idx => (r_eo s k + Cconj (eloc c) * incr c k)%C)) is s0 in
  r_weight s = r_weight s0 + rsum (fun i => Cnorm2 (amp (at_i i))) is /\
  r_energy s = (r_energy s0 + sumC (fun i => eloc (at_i i) * RtoC (Cnorm2 (amp (at_i i)))) is)%C /\
  (forall k, r_o s k = r_o s0 k + sumC (fun i => incr (at_i i) k) is)%C /\
  (forall k, r_eo s k = r_eo s0 k + sumC (fun i => Cconj (eloc (at_i i)) * incr (at_i i) k) is)%C.
Proof.
  induction is as [|i is IH]; intros s0; cbn [fold_left].
  - cbn zeta. cbn [rsum fold_right]. rewrite sumC_nil. repeat split; intros; rewrite ?sumC_nil; try ring; unfold rsum; simpl; ring.
  - cbv zeta in IH |- *. destruct (IH (mkSums (r_weight s0 + Cnorm2 (amp (at_i i)))%R (r_energy s0 + eloc (at_i i) * RtoC (Cnorm2 (amp (at_i i))))%C
             (fun k => (r_o s0 k + incr (at_i i) k)%C) (fun k : Idx => (r_eo s0 k + Cconj (eloc (at_i i)) * incr (at_i i) k)%C))) as (A & B & D & E).
    rewrite A, B. cbn [r_weight r_energy]. rewrite rsum_cons, sumC_cons. split; [ring|]. split; [ring|].
    split; intros k; [rewrite D|rewrite E]; cbn [r_o r_eo]; rewrite sumC_cons; ring.
Qed.
Lemma master_fold size rs : forall s0, let s := fold_left (fun s r =>
      let s' := rank_sum size r in
      mkSums (r_weight s + r_weight s')%R (r_energy s + r_energy s')%C
             (fun k => (r_o s k + r_o s' k)%C) (fun k : Idx => (r_eo s k + r_eo s' k)%C)) rs s0 in
  r_weight s = r_weight s0 + rsum (fun r => r_weight (rank_sum size r)) rs /\
  r_energy s = (r_energy s0 + sumC (fun r => r_energy (rank_sum size r)) rs)%C /\
  (forall k, r_o s k = r_o s0 k + sumC (fun r => r_o (rank_sum size r) k) rs)%C /\
  (forall k, r_eo s k = r_eo s0 k + sumC (fun r => r_eo (rank_sum size r) k) rs)%C.
Proof.
  induction rs as [|r rs IH]; intros s0; cbn [fold_left].
  - cbn zeta. rewrite sumC_nil. repeat split; intros; rewrite ?sumC_nil; try ring; unfold rsum; simpl; ring.
  - cbv zeta in IH |- *. destruct (IH (mkSums (r_weight s0 + r_weight (rank_sum size r))%R (r_energy s0 + r_energy (rank_sum size r))%C
             (fun k => (r_o s0 k + r_o (rank_sum size r) k)%C) (fun k : Idx => (r_eo s0 k + r_eo (rank_sum size r) k)%C))) as (A & B & D & E).
    rewrite A, B. cbn [r_weight r_energy]. rewrite rsum_cons, sumC_cons. split; [ring|]. split; [ring|].
    split; intros k; [rewrite D|rewrite E]; cbn [r_o r_eo]; rewrite sumC_cons; ring.
Qed.
Lemma sum_over_stripes (f : Conf -> C) size : (0 < size)%nat ->
  sumC (fun r => sumC (fun i => f (at_i i)) (stripe (length configs) size r)) (seq 0 size) = sumC f configs.
Proof.
  intros H. rewrite <- sumC_flat_map. rewrite (sumC_perm _ _ _ (stripes_perm _ _ H)).
  rewrite <- (map_seq_nth configs dflt) at 2. rewrite sumC_map. reflexivity.
Qed.
Lemma rsum_over_stripes (f : Conf -> R) size : (0 < size)%nat ->
  rsum (fun r => rsum (fun i => f (at_i i)) (stripe (length configs) size r)) (seq 0 size) = rsum f configs.
Proof.
  intros H. rewrite <- rsum_flat_map. rewrite (rsum_perm _ _ _ (stripes_perm _ _ H)).
  rewrite <- (map_seq_nth configs dflt) at 2. rewrite rsum_map. reflexivity.
Qed.
Lemma exact_sum_value size : (0 < size)%nat ->
  let W := total_weight amp configs in
  let E := weighted_average amp configs eloc in
  (W = 0 -> exact_sum amp eloc incr configs dflt size = Fail UB) /\
  (W <> 0 -> exists g, exact_sum amp eloc incr configs dflt size = Ok (E, g) /\
     forall k, g k = (sumC (fun c => (Cconj (eloc c) - Cconj E) * incr c k) configs * Cinv (RtoC W))%C).
Proof.
  intros Hs W E. unfold exact_sum. set (tot := fold_left _ _ _).
  assert (MF : r_weight tot = r_weight (rank_sum size 0) + rsum (fun r => r_weight (rank_sum size r)) (seq 1 (size - 1)) /\
  r_energy tot = (r_energy (rank_sum size 0) + sumC (fun r => r_energy (rank_sum size r)) (seq 1 (size - 1)))%C /\
  (forall k, r_o tot k = r_o (rank_sum size 0) k + sumC (fun r => r_o (rank_sum size r) k) (seq 1 (size - 1)))%C /\
  (forall k, r_eo tot k = r_eo (rank_sum size 0) k + sumC (fun r => r_eo (rank_sum size r) k) (seq 1 (size - 1)))%C)
    by exact (master_fold size (seq 1 (size - 1)) (rank_sum size 0)).
  destruct MF as (A & B & D & F). clearbody tot.
  assert (SQ : seq 0 size = 0%nat :: seq 1 (size - 1)) by (destruct size; [lia|simpl; rewrite Nat.sub_0_r; reflexivity]).
  assert (RS : forall r, r_weight (rank_sum size r) = rsum (fun i => Cnorm2 (amp (at_i i))) (stripe (length configs) size r) /\
     r_energy (rank_sum size r) = sumC (fun i => eloc (at_i i) * RtoC (Cnorm2 (amp (at_i i))))%C (stripe (length configs) size r) /\
     (forall k, r_o (rank_sum size r) k = sumC (fun i => incr (at_i i) k) (stripe (length configs) size r)) /\
     (forall k, r_eo (rank_sum size r) k = sumC (fun i => Cconj (eloc (at_i i)) * incr (at_i i) k)%C (stripe (length configs) size r))).
  { intros r. destruct (rank_fold (stripe (length configs) size r) (mkSums 0 (RtoC 0) (fun _ => RtoC 0) (fun _ => RtoC 0))) as (A' & B' & D' & F').
    split; [apply (eq_trans A'); cbn [r_weight]; ring|]. split; [apply (eq_trans B'); cbn [r_energy]; ring|].
    split; intros k; [apply (eq_trans (D' k))|apply (eq_trans (F' k))]; cbn [r_o r_eo]; ring. }
  assert (TW : r_weight tot = W).
  { rewrite A. unfold W. rewrite total_weight_rsum, <- (rsum_over_stripes _ size Hs), SQ, rsum_cons, (proj1 (RS 0%nat)). f_equal. apply rsum_ext. intros r _. apply RS. }
  assert (TE : r_energy tot = sumC (fun c => eloc c * RtoC (Cnorm2 (amp c)))%C configs).
  { rewrite B. rewrite <- (sum_over_stripes _ size Hs), SQ, sumC_cons, (proj1 (proj2 (RS 0%nat))). f_equal. apply sumC_ext. intros r _. apply RS. }
  assert (TO : forall k, r_o tot k = sumC (fun c => incr c k) configs).
  { intros k. rewrite D. rewrite <- (sum_over_stripes (fun c => incr c k) size Hs), SQ, sumC_cons, (proj1 (proj2 (proj2 (RS 0%nat)))). f_equal. apply sumC_ext. intros r _. apply RS. }
  assert (TEO : forall k, r_eo tot k = sumC (fun c => Cconj (eloc c) * incr c k)%C configs).
  { intros k. rewrite F. rewrite <- (sum_over_stripes (fun c => Cconj (eloc c) * incr c k)%C size Hs), SQ, sumC_cons, (proj2 (proj2 (proj2 (RS 0%nat)))). f_equal. apply sumC_ext. intros r _. apply RS. }
  rewrite TW. split; intros HW; destruct (Req_EM_T W 0) as [Z|Z]; try contradiction; [reflexivity|].
  eexists. rewrite TE. assert (EE : (sumC (fun c => eloc c * RtoC (Cnorm2 (amp c))) configs * Cinv (RtoC W))%C = E).
  { unfold E, weighted_average. fold W. f_equal. apply sumC_ext. intros c _. ring. }
  rewrite EE. split; [reflexivity|]. intros k. cbv beta. rewrite TO, TEO.
  replace (RtoC (1 / W)) with (Cinv (RtoC W)).
  2:{ apply Cinv_unique. apply C_ext; simpl; field; exact Z. }
  rewrite (sumC_ext (fun c => (Cconj (eloc c) - Cconj E) * incr c k)%C (fun c => Cconj (eloc c) * incr c k + (- Cconj E) * incr c k)%C) by (intros; ring).
  rewrite sumC_add, (sumC_scal (- Cconj E)%C (fun c => incr c k)). ring.
Qed.
End Sums.

(** *** Differentiation *)
Lemma cd_const c t : c_derivative (fun _ => c) t (RtoC 0).
Proof. split; apply derivable_pt_lim_const. Qed.
Lemma dl_ext (f g : R -> R) t d : (forall s, f s = g s) -> derivable_pt_lim f t d -> derivable_pt_lim g t d.
Proof. intros E H eps He. destruct (H eps He) as [del Hd]. exists del. intros h Hh Hl. rewrite <- !E. apply Hd; assumption. Qed.
Lemma cd_add f g t a b : c_derivative f t a -> c_derivative g t b -> c_derivative (fun s => f s + g s)%C t (a + b)%C.
Proof. intros [F1 F2] [G1 G2]. split; simpl; [exact (derivable_pt_lim_plus _ _ _ _ _ F1 G1)|exact (derivable_pt_lim_plus _ _ _ _ _ F2 G2)]. Qed.
Lemma cd_mul f g t a b : c_derivative f t a -> c_derivative g t b -> c_derivative (fun s => f s * g s)%C t (a * g t + f t * b)%C.
Proof.
  intros [F1 F2] [G1 G2]. split; simpl.
  - pose proof (derivable_pt_lim_minus _ _ _ _ _ (derivable_pt_lim_mult _ _ _ _ _ F1 G1) (derivable_pt_lim_mult _ _ _ _ _ F2 G2)) as H.
    match goal with |- derivable_pt_lim _ _ ?d => match type of H with derivable_pt_lim _ _ ?e => replace d with e by ring end end. exact H.
  - pose proof (derivable_pt_lim_plus _ _ _ _ _ (derivable_pt_lim_mult _ _ _ _ _ F1 G2) (derivable_pt_lim_mult _ _ _ _ _ F2 G1)) as H.
    match goal with |- derivable_pt_lim _ _ ?d => match type of H with derivable_pt_lim _ _ ?e => replace d with e by ring end end. exact H.
Qed.
Lemma cd_conj f t a : c_derivative f t a -> c_derivative (fun s => Cconj (f s)) t (Cconj a).
Proof. intros [F1 F2]. split; simpl; [exact F1|exact (derivable_pt_lim_opp _ _ _ F2)]. Qed.
Lemma cd_sum {X} (f : R -> X -> C) t (d : X -> C) l : (forall x, In x l -> c_derivative (fun s => f s x) t (d x)) ->
  c_derivative (fun s => sumC (f s) l) t (sumC d l).
Proof.
  induction l as [|x l IH]; intros H; [exact (cd_const (RtoC 0) t)|]. rewrite sumC_cons.
  apply (cd_add (fun s => f s x) (fun s => sumC (f s) l)); [apply H; left; reflexivity|apply IH; intros; apply H; right; assumption].
Qed.

(** *** The Rayleigh quotient *)
Section Rayleigh.
Context {Conf : Type} (configs : list Conf) (H : Conf -> Conf -> C).
Lemma sumC_fst {X} (f : X -> C) l : fst (sumC f l) = rsum (fun x => fst (f x)) l.
Proof. induction l as [|x l IH]; [reflexivity|]. rewrite sumC_cons, rsum_cons, <- IH. reflexivity. Qed.
Lemma sumC_snd {X} (f : X -> C) l : snd (sumC f l) = rsum (fun x => snd (f x)) l.
Proof. induction l as [|x l IH]; [reflexivity|]. rewrite sumC_cons, rsum_cons, <- IH. reflexivity. Qed.
Lemma sumC_conj {X} (f : X -> C) l : Cconj (sumC f l) = sumC (fun x => Cconj (f x)) l.
Proof. induction l as [|x l IH]; [apply C_ext; simpl; ring|]. rewrite !sumC_cons, Cconj_add, IH. reflexivity. Qed.
Lemma braket_self (a : Conf -> C) : braket configs a a = RtoC (total_weight a configs).
Proof.
  rewrite total_weight_rsum. unfold braket. apply C_ext; rewrite ?sumC_fst, ?sumC_snd; simpl.
  - apply rsum_ext. intros c _. unfold Cnorm2. ring.
  - apply rsum_zero. intros c _. ring.
Qed.
Lemma hermitian_swap (a b : Conf -> C) : hermitian configs H ->
  braket configs a (apply_op configs H b) = Cconj (braket configs b (apply_op configs H a)).
Proof.
  intros HH. unfold braket, apply_op. rewrite sumC_conj.
  rewrite (sumC_ext _ (fun c => sumC (fun c' => Cconj (a c) * (H c c' * b c')) configs)%C) by (intros c _; rewrite sumC_scal; reflexivity).
  rewrite (sumC_ext (fun x => Cconj (Cconj (b x) * sumC (fun c' => H x c' * a c') configs))%C
     (fun c => sumC (fun c' => Cconj (a c') * (H c' c * b c)) configs)%C).
  - apply sumC_swap.
  - intros c Hc. rewrite Cconj_mul, Cconj_invol, sumC_conj, <- sumC_scal. apply sumC_ext. intros c' Hc'. rewrite Cconj_mul, (HH c' c Hc' Hc). ring.
Qed.
Lemma rayleigh_real a : hermitian configs H -> snd (rayleigh configs H a) = 0.
Proof.
  intros HH. unfold rayleigh. rewrite braket_self. pose proof (hermitian_swap a a HH) as E. apply (f_equal snd) in E. simpl in E |- *.
  set (b := braket configs a (apply_op configs H a)) in *. unfold Cnorm2; simpl. assert (snd b = 0) by lra. rewrite H0. unfold Rdiv. ring.
Qed.
Lemma rayleigh_re a : fst (rayleigh configs H a) = fst (braket configs a (apply_op configs H a)) / total_weight a configs.
Proof.
  unfold rayleigh. rewrite braket_self. set (b := braket configs a _). set (w := total_weight a configs). simpl. unfold Cnorm2; simpl.
  destruct (Req_EM_T w 0) as [->|N]; [replace (0 * 0 + 0 * 0) with 0 by ring; unfold Rdiv; rewrite ?Rinv_0; ring|]. field. intros Q. apply N. nra.
Qed.
(** The conjugated local energies average to the conjugated Rayleigh quotient. *)
Lemma average_rayleigh (psi : Conf -> C) (eloc : Conf -> C) :
  (forall c, In c configs -> psi c <> RtoC 0 /\ eloc c = Cconj (apply_op configs H psi c * Cinv (psi c))) ->
  weighted_average psi configs eloc = Cconj (rayleigh configs H psi).
Proof.
  intros HP. unfold weighted_average, rayleigh. rewrite Cconj_mul, braket_self. unfold braket. rewrite sumC_conj. f_equal.
  - apply sumC_ext. intros c Hc. destruct (HP c Hc) as [N ->]. rewrite !Cconj_mul, Cconj_invol.
    replace (RtoC (Cnorm2 (psi c))) with (psi c * Cconj (psi c))%C by (apply C_ext; simpl; unfold Cnorm2; ring).
    replace (psi c * Cconj (psi c) * (Cconj (apply_op configs H psi c) * Cconj (Cinv (psi c))))%C
      with (psi c * Cconj (apply_op configs H psi c) * Cconj (psi c * Cinv (psi c)))%C by (rewrite Cconj_mul; ring).
    rewrite Cinv_r by exact N. rewrite Cconj_R. ring.
  - apply C_ext; simpl; unfold Cnorm2; simpl; [reflexivity|]. unfold Rdiv. ring.
Qed.
Lemma weight_positive (psi : Conf -> C) : configs <> [] -> (forall c, In c configs -> psi c <> RtoC 0) -> 0 < total_weight psi configs.
Proof.
  intros N HP. rewrite total_weight_rsum. destruct configs as [|c l]; [congruence|]. rewrite rsum_cons.
  pose proof (Cnorm2_pos _ (HP c ltac:(left; reflexivity))). pose proof (rsum_nonneg (fun c => Cnorm2 (psi c)) l ltac:(intros; apply Cnorm2_nonneg)). lra.
Qed.
Lemma rayleigh_derivative (psi : R -> Conf -> C) (D : Conf -> C) :
  hermitian configs H -> total_weight (psi 0) configs <> 0 ->
  (forall c, In c configs -> c_derivative (fun t => psi t c) 0 (D c)) ->
  derivable_pt_lim (fun t => fst (rayleigh configs H (psi t))) 0
    (2 * fst (sumC (fun c => Cconj (D c) * (apply_op configs H (psi 0%R) c - rayleigh configs H (psi 0%R) * psi 0%R c))%C configs) / total_weight (psi 0) configs).
Proof.
  intros HH HW HD. set (W := total_weight (psi 0) configs) in *. set (p := psi 0).
  assert (N : c_derivative (fun t => braket configs (psi t) (apply_op configs H (psi t))) 0
     (sumC (fun c => Cconj (D c) * apply_op configs H p c + Cconj (p c) * apply_op configs H D c)%C configs)).
  { unfold braket. apply (cd_sum (fun t c => Cconj (psi t c) * apply_op configs H (psi t) c)%C). intros c Hc.
    apply (cd_mul (fun t => Cconj (psi t c)) (fun t => apply_op configs H (psi t) c)); [apply cd_conj, HD, Hc|].
    unfold apply_op. apply (cd_sum (fun t c' => H c c' * psi t c')%C). intros c' Hc'.
    replace (H c c' * D c')%C with (RtoC 0 * psi 0%R c' + H c c' * D c')%C by ring.
    apply (cd_mul (fun _ => H c c') (fun t => psi t c')); [apply cd_const|apply HD, Hc']. }
  assert (M : derivable_pt_lim (fun t => total_weight (psi t) configs) 0 (2 * fst (sumC (fun c => Cconj (D c) * p c)%C configs))).
  { assert (Q : c_derivative (fun t => braket configs (psi t) (psi t)) 0 (sumC (fun c => Cconj (D c) * p c + Cconj (p c) * D c)%C configs)).
    { unfold braket. apply (cd_sum (fun t c => Cconj (psi t c) * psi t c)%C). intros c Hc.
      apply (cd_mul (fun t => Cconj (psi t c)) (fun t => psi t c)); [apply cd_conj, HD, Hc|apply HD, Hc]. }
    destruct Q as [Q _]. apply (dl_ext (fun s => fst (braket configs (psi s) (psi s)))); [intros s; rewrite braket_self; reflexivity|].
    replace (2 * fst (sumC (fun c => Cconj (D c) * p c)%C configs)) with (fst (sumC (fun c => Cconj (D c) * p c + Cconj (p c) * D c)%C configs)); [exact Q|].
    rewrite !sumC_fst, <- rsum_scal. apply rsum_ext. intros c _. simpl. ring. }
  destruct N as [N _]. apply (dl_ext (fun t => fst (braket configs (psi t) (apply_op configs H (psi t))) / total_weight (psi t) configs)); [intros s; symmetry; apply rayleigh_re|].
  pose proof (derivable_pt_lim_div _ _ _ _ _ N M HW) as Q.
  match goal with |- derivable_pt_lim _ _ ?d => match type of Q with derivable_pt_lim _ _ ?e => replace d with e; [exact Q|] end end.
  assert (NN : fst (sumC (fun c => Cconj (D c) * apply_op configs H p c + Cconj (p c) * apply_op configs H D c)%C configs) =
     2 * fst (sumC (fun c => Cconj (D c) * apply_op configs H p c)%C configs)).
  { rewrite sumC_add. change (sumC (fun c => Cconj (p c) * apply_op configs H D c)%C configs) with (braket configs p (apply_op configs H D)).
    rewrite (hermitian_swap p D HH). unfold braket. simpl. ring. }
  rewrite NN. fold p. fold W.
  rewrite (sumC_ext (fun c => Cconj (D c) * (apply_op configs H p c - rayleigh configs H p * p c))%C
     (fun c => Cconj (D c) * apply_op configs H p c + (- rayleigh configs H p) * (Cconj (D c) * p c))%C) by (intros; ring).
  rewrite sumC_add, sumC_scal. pose proof (rayleigh_real p HH) as RI. pose proof (rayleigh_re p) as RR. change (total_weight p configs) with W in RR |- *.
  set (x := sumC (fun c => Cconj (D c) * apply_op configs H p c)%C configs). set (y := sumC (fun c => Cconj (D c) * p c)%C configs).
  set (n := fst (braket configs p (apply_op configs H p))) in *. set (e := rayleigh configs H p) in *. clearbody e. simpl. rewrite RI, RR. unfold Rsqr. field. exact HW.
Qed.
End Rayleigh.
(** *** The evaluator returns the Rayleigh quotient and its gradient *)
Lemma sumC_restrict (f : list nat -> C) (all sub : list (list nat)) : NoDup all -> NoDup sub -> incl sub all ->
  (forall x, In x all -> ~ In x sub -> f x = RtoC 0) -> sumC f all = sumC f sub.
Proof.
  intros NA NS I Z. set (p := fun x => if in_dec (list_eq_dec Nat.eq_dec) x sub then true else false).
  assert (P : Permutation sub (filter p all)).
  { apply NoDup_Permutation; [exact NS|apply NoDup_filter; exact NA|]. intros x. rewrite filter_In. unfold p. destruct (in_dec _ x sub); intuition. discriminate. }
  rewrite (sumC_perm f _ _ P), <- sumC_filter. apply sumC_ext. intros x Hx. unfold p. destruct (in_dec _ x sub); [reflexivity|auto].
Qed.
Lemma local_energy_sector dim n H configs psi S : sector dim n H configs -> In S configs ->
  local_energy dim n H psi S = Cconj (apply_op configs H psi S * Cinv (psi S)).
Proof.
  intros (_ & ND & I & Z) HS. unfold local_energy, Cdiv, apply_op. rewrite (sumC_restrict _ (all_configs dim n) configs); [reflexivity|apply all_configs_nodup|exact ND|exact I|].
  intros S' Hin Hout. rewrite (Z S S' HS Hin Hout). ring.
Qed.
Lemma evaluator_rayleigh {Idx} dim n H configs dflt (ks : list Idx) (psi : R -> list nat -> C) (dpsi : list nat -> Idx -> C) (delta : Idx -> C) size :
  (0 < size)%nat -> sector dim n H configs -> hermitian configs H ->
  (forall S, In S configs -> psi 0 S <> RtoC 0) ->
  (forall S, In S configs -> c_derivative (fun t => psi t S) 0 (sumC (fun k => delta k * dpsi S k)%C ks)) ->
  exists g, exact_sum (psi 0) (local_energy dim n H (psi 0)) (fun S k => (psi 0%R S * Cconj (dpsi S k))%C) configs dflt size
              = Ok (rayleigh configs H (psi 0), g) /\
    snd (rayleigh configs H (psi 0)) = 0 /\
    derivable_pt_lim (fun t => fst (rayleigh configs H (psi t))) 0 (2 * fst (sumC (fun k => Cconj (delta k) * g k)%C ks)).
Proof.
  intros Hs HC HH HP HD. pose proof (weight_positive configs (psi 0) (proj1 HC) HP) as HW.
  assert (EL : forall S, In S configs -> local_energy dim n H (psi 0) S = Cconj (apply_op configs H (psi 0) S * Cinv (psi 0 S))) by (intros; apply local_energy_sector; assumption).
  assert (RC : Cconj (rayleigh configs H (psi 0)) = rayleigh configs H (psi 0)).
  { pose proof (rayleigh_real configs H (psi 0) HH) as Q. set (e := rayleigh configs H (psi 0)) in *. clearbody e. apply C_ext; simpl; [reflexivity|rewrite Q; ring]. }
  assert (AV : weighted_average (psi 0) configs (local_energy dim n H (psi 0)) = rayleigh configs H (psi 0)).
  { rewrite <- RC. apply average_rayleigh. intros S HS. split; [apply HP; exact HS|apply EL; exact HS]. }
  destruct (exact_sum_value (psi 0) (local_energy dim n H (psi 0)) (fun S k => (psi 0%R S * Cconj (dpsi S k))%C) configs dflt size Hs) as [_ V].
  destruct V as (g & E & G); [lra|]. rewrite AV in E, G. exists g. split; [exact E|]. split; [apply rayleigh_real; exact HH|].
  pose proof (rayleigh_derivative configs H psi _ HH ltac:(lra) HD) as Q.
  match goal with |- derivable_pt_lim _ _ ?d => match type of Q with derivable_pt_lim _ _ ?e => replace d with e; [exact Q|] end end.
  set (W := total_weight (psi 0) configs) in *. set (e := rayleigh configs H (psi 0)) in *.
  assert (X : sumC (fun k => Cconj (delta k) * g k)%C ks =
     (Cinv (RtoC W) * sumC (fun c => Cconj (sumC (fun k => delta k * dpsi c k) ks) * (apply_op configs H (psi 0%R) c - e * psi 0%R c)) configs)%C).
  { rewrite (sumC_ext _ (fun k => sumC (fun c => Cinv (RtoC W) * (Cconj (delta k) * (Cconj (dpsi c k) * (apply_op configs H (psi 0%R) c - e * psi 0%R c)))) configs)%C).
    2:{ intros k _. rewrite G, sumC_scal, sumC_scal. rewrite (sumC_ext (fun c => (Cconj (local_energy dim n H (psi 0%R) c) - Cconj e) * (psi 0%R c * Cconj (dpsi c k)))%C
          (fun c => Cconj (dpsi c k) * (apply_op configs H (psi 0%R) c - e * psi 0%R c))%C); [ring|].
        intros c Hc. rewrite (EL c Hc), Cconj_invol, RC. transitivity (Cconj (dpsi c k) * (apply_op configs H (psi 0%R) c * (psi 0%R c * Cinv (psi 0%R c)) - e * psi 0%R c))%C; [ring|].
        rewrite (Cinv_r _ (HP c Hc)). ring. }
    rewrite sumC_swap, <- sumC_scal. apply sumC_ext. intros c _. rewrite sumC_conj, sumC_scal. f_equal.
    set (z := (apply_op configs H (psi 0%R) c - e * psi 0%R c)%C). transitivity (z * sumC (fun k => Cconj (delta k * dpsi c k)) ks)%C; [|ring].
    rewrite <- sumC_scal. apply sumC_ext. intros k _. rewrite Cconj_mul. ring. }
  rewrite X. set (y := sumC _ configs). simpl. unfold Cnorm2; simpl. field. lra.
Qed.
