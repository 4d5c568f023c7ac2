(** Sums with coefficients and of lists. *)
From Coq Require Import List Arith Lia Bool Reals Lra.
From Verif Require Import Base Cplx SumModel SumSpec SumProofs.
Import ListNotations.
Local Open Scope nat_scope.

Lemma root_pow x n : (0 <= x)%R -> 1 <= n -> (root x n ^ n = x)%R.
Proof.
  intros Hx Hn. unfold root. destruct (Req_EM_T x 0) as [->|N].
  - apply pow_i. lia.
  - assert (0 < x)%R by lra. rewrite <- Rpower_pow by (apply exp_pos). rewrite Rpower_mult. replace (1 / INR n * INR n)%R with 1%R; [apply Rpower_1; assumption|].
    field. apply not_0_INR. lia.
Qed.
Lemma pow_opp_odd x n : n mod 2 = 1 -> ((- x) ^ n = - x ^ n)%R.
Proof.
  intros O. rewrite (Nat.div_mod n 2) at 1 2 by lia. rewrite O. rewrite !pow_add, !pow_mult. replace ((- x) ^ 2)%R with (x ^ 2)%R by ring. ring.
Qed.
(** the factor per site, to the number of sites *)
Definition kept (alpha : R) (n : nat) : R := if n mod 2 =? 1 then alpha else Rabs alpha.
Lemma scale_real_pow alpha n : 1 <= n -> (scale_real alpha n ^ n = kept alpha n)%R.
Proof.
  intros Hn. unfold scale_real, kept. pose proof (root_pow (Rabs alpha) n (Rabs_pos _) Hn) as P. destruct (Nat.eqb_spec (n mod 2) 1) as [O|O].
  - destruct (Rlt_dec alpha 0) as [N|N]; [rewrite pow_opp_odd, P by exact O; rewrite Rabs_left by exact N; lra|]. rewrite P. apply Rabs_right. lra.
  - destruct (Rlt_dec alpha 0); exact P.
Qed.
Lemma kept_ok alpha n : (0 <= alpha)%R \/ n mod 2 = 1 -> kept alpha n = alpha.
Proof. intros [P|O]; unfold kept; [destruct (_ =? _); [reflexivity|apply Rabs_right; lra]|rewrite O; reflexivity]. Qed.

Lemma scale_all_matched x a : matched a -> matched (scale_all x a).
Proof. intros (A & B & D). split; [exact A|]. split; [exact B|]. intros r c l b Hr Hc Hl E. specialize (D r c l b Hr Hc Hl E). destruct b; exact D. Qed.
Lemma grid_length rows cols : length (grid rows cols) = rows * cols.
Proof. unfold grid. rewrite prod_length, !seq_length. reflexivity. Qed.
Lemma scale_all_amplitude x a s : amplitude (scale_all x a) s = (RtoC (x ^ sites_of a) * amplitude a s)%C.
Proof.
  unfold amplitude. rewrite <- sum_over_scal. cbn [l_rows l_cols l_per scale_all]. apply sum_over_ext; [intros [] _; reflexivity|]. intros v. unfold weight. cbn [l_rows l_cols l_per l_ten scale_all tscale ent].
  rewrite prodC_scal, grid_length. reflexivity.
Qed.
Lemma scaled_sum sa sb a b : wf_sum_scaled sa sb a b = wf_sum (scale_all sa a) (scale_all sb b).
Proof. reflexivity. Qed.
Lemma scaled_amplitude sa sb a b s : matched a -> matched b -> same_lattice a b ->
  amplitude (wf_sum_scaled sa sb a b) s = (RtoC (sa ^ sites_of a) * amplitude a s + RtoC (sb ^ sites_of a) * amplitude b s)%C.
Proof.
  intros MA MB SL. rewrite scaled_sum, sum_amplitude; [|apply scale_all_matched, MA|apply scale_all_matched, MB|exact SL]. rewrite !scale_all_amplitude.
  replace (sites_of b) with (sites_of a); [reflexivity|]. destruct SL as (E1 & E2 & _). unfold sites_of. rewrite E1, E2. reflexivity.
Qed.
Lemma sites_pos a : matched a -> 1 <= sites_of a.
Proof. intros (A & B & _). unfold sites_of. nia. Qed.
Lemma real_amplitude x a y b s : matched a -> matched b -> same_lattice a b ->
  amplitude (wf_sum_real x a y b) s = (RtoC (kept x (sites_of a)) * amplitude a s + RtoC (kept y (sites_of a)) * amplitude b s)%C.
Proof. intros MA MB SL. unfold wf_sum_real. rewrite scaled_amplitude by assumption. rewrite !scale_real_pow by (apply sites_pos; assumption). reflexivity. Qed.
Lemma complex_amplitude x a y b s : matched a -> matched b -> same_lattice a b ->
  amplitude (wf_sum_complex x a y b) s = (RtoC (sqrt (Cnorm2 x)) * amplitude a s + RtoC (sqrt (Cnorm2 y)) * amplitude b s)%C.
Proof. intros MA MB SL. unfold wf_sum_complex, scale_complex. rewrite scaled_amplitude by assumption. rewrite !root_pow by (apply sqrt_pos || apply sites_pos; assumption). reflexivity. Qed.
Lemma real_matched x a y b : matched a -> matched b -> same_lattice a b -> matched (wf_sum_real x a y b).
Proof. intros MA MB SL. unfold wf_sum_real. rewrite scaled_sum. apply sum_matched; [apply scale_all_matched, MA|apply scale_all_matched, MB|exact SL]. Qed.

(** *** Lists *)
Lemma fold_sum t s : forall acc, matched acc -> (forall b, In b t -> matched b /\ same_lattice acc b) ->
  amplitude (fold_left wf_sum t acc) s = (amplitude acc s + sumC (fun b => amplitude b s) t)%C.
Proof.
  induction t as [|b t IH]; intros acc MA HT; [cbn; ring|]. destruct (HT b (or_introl eq_refl)) as [MB SL]. cbn [fold_left]. rewrite IH.
  - rewrite sumC_cons, sum_amplitude by assumption. ring.
  - apply sum_matched; assumption.
  - intros c Hc. destruct (HT c (or_intror Hc)) as [MC SC]. split; [exact MC|exact SC].
Qed.
Lemma list_amplitude l a s : In a l -> (forall b, In b l -> matched b /\ same_lattice a b) ->
  exists v, wf_list l = Ok v /\ amplitude v s = sumC (fun b => amplitude b s) l.
Proof.
  intros Ha HL. destruct l as [|x [|y t]]; [destruct Ha| |].
  - eexists. split; [reflexivity|]. rewrite sumC_cons, sumC_nil. ring.
  - eexists. split; [reflexivity|]. destruct (HL x) as [MX SX]; [left; reflexivity|]. assert (SS : forall b, In b (x :: y :: t) -> same_lattice x b).
    { intros b Hb. destruct (HL b Hb) as [_ (E1 & E2 & E3)]. destruct SX as (F1 & F2 & F3). repeat split; congruence. }
    destruct (HL y) as [MY _]; [right; left; reflexivity|]. rewrite fold_sum.
    + rewrite !sumC_cons, sum_amplitude; [ring|assumption|assumption|apply SS; right; left; reflexivity].
    + apply sum_matched; [assumption|assumption|apply SS; right; left; reflexivity].
    + intros b Hb. split; [apply HL; right; right; exact Hb|]. apply SS. right. right. exact Hb.
Qed.
Lemma kept_one n : kept 1 n = 1%R.
Proof. apply kept_ok. left. lra. Qed.
Lemma fold_real t s n : forall acc, sites_of acc = n -> matched acc -> (forall p, In p t -> matched (snd p) /\ same_lattice acc (snd p)) ->
  amplitude (fold_left (fun acc p => wf_sum_real 1 acc (fst p) (snd p)) t acc) s = (amplitude acc s + sumC (fun p => RtoC (kept (fst p) n) * amplitude (snd p) s) t)%C.
Proof.
  induction t as [|b t IH]; intros acc N MA HT; [cbn; ring|]. destruct (HT b (or_introl eq_refl)) as [MB SL]. cbn [fold_left]. rewrite IH.
  - rewrite sumC_cons, real_amplitude by assumption. rewrite N, kept_one. ring.
  - exact N.
  - apply real_matched; assumption.
  - intros c Hc. destruct (HT c (or_intror Hc)) as [MC SC]. split; [exact MC|exact SC].
Qed.
Lemma list_real_amplitude l a s : In a (map snd l) -> (forall p, In p l -> matched (snd p) /\ same_lattice a (snd p) /\ ((0 <= fst p)%R \/ sites_of a mod 2 = 1 /\ 2 <= length l)) ->
  exists v, wf_list_real l = Ok v /\ amplitude v s = sumC (fun p => (RtoC (fst p) * amplitude (snd p) s)%C) l.
Proof.
  intros Ha HL. assert (NS : forall p, In p l -> sites_of (snd p) = sites_of a).
  { intros p Hp. destruct (HL p Hp) as (_ & (E1 & E2 & _) & _). unfold sites_of. rewrite E1, E2. reflexivity. }
  destruct l as [|[x u] [|[y v] t]]; [destruct Ha| |].
  - eexists. split; [reflexivity|]. rewrite sumC_cons, sumC_nil. cbn [fst snd]. destruct (HL (x, u)) as (M & _ & P); [left; reflexivity|]. cbn [fst snd length] in *.
    rewrite scale_all_amplitude, root_pow by (apply Rabs_pos || apply sites_pos; assumption). destruct P as [P|[_ P]]; [|lia]. rewrite Rabs_right by lra. ring.
  - eexists. split; [reflexivity|]. destruct (HL (x, u)) as (MX & SX & PX); [left; reflexivity|]. destruct (HL (y, v)) as (MY & SY & PY); [right; left; reflexivity|]. cbn [fst snd] in *.
    assert (SS : forall p, In p ((x, u) :: (y, v) :: t) -> same_lattice u (snd p)).
    { intros b Hb. destruct (HL b Hb) as (_ & (E1 & E2 & E3) & _). destruct SX as (F1 & F2 & F3). repeat split; congruence. }
    assert (SUV : same_lattice u v) by (apply (SS (y, v)); right; left; reflexivity).
    assert (NU : sites_of u = sites_of a) by (apply (NS (x, u)); left; reflexivity).
    rewrite (fold_real t s (sites_of a)); [|exact NU|apply real_matched; assumption|].
    + rewrite real_amplitude by assumption. rewrite !sumC_cons. cbn [fst snd]. rewrite NU, !kept_ok by tauto.
      rewrite (sumC_ext (fun p => (RtoC (kept (fst p) (sites_of a)) * amplitude (snd p) s)%C) (fun p => (RtoC (fst p) * amplitude (snd p) s)%C)); [ring|].
      intros p Hp. destruct (HL p) as (_ & _ & P); [right; right; exact Hp|]. rewrite kept_ok by tauto. reflexivity.
    + intros p Hp. split; [apply (HL p); right; right; exact Hp|]. exact (SS p (or_intror (or_intror Hp))).
Qed.

(** *** Cases *)
(** A 1x2 open state: both tensors have elements 1 on a bond of dimension [d] and physical dimension 1. *)
Definition dimer (d : nat) : lat := mkLat 1 2 false (fun r c => mkTen (if c =? 0 then [1; 1; d; 1] else [d; 1; 1; 1]) (fun _ _ => RtoC 1)).
Definition up (r c : nat) : nat := 0.
Lemma dimer_matched d : matched (dimer d).
Proof.
  split; [cbn; lia|]. split; [cbn; lia|]. intros r c l b Hr Hc Hl E. cbn in Hr, Hc. assert (r = 0) by lia. subst r.
  destruct c as [|[|c]]; [| |lia]; destruct l as [|[|[|[|l]]]]; try lia; cbn in E; try discriminate; injection E as <-; reflexivity.
Qed.
Lemma dimer_amplitude : amplitude (dimer 1) up = RtoC 1.
Proof. unfold amplitude. cbn -[Cmul Cadd RtoC]. unfold weight. cbn -[Cmul Cadd RtoC]. ring. Qed.

Lemma real_ok (x : R) (a : lat) (y : R) (b : lat) (s : nat -> nat -> nat) : matched a -> matched b -> same_lattice a b ->
  (0 <= x)%R /\ (0 <= y)%R \/ Nat.Odd (l_rows a * l_cols a) ->
  amplitude (wf_sum_real x a y b) s = (RtoC x * amplitude a s + RtoC y * amplitude b s)%C.
Proof.
  intros MA MB SL P. rewrite real_amplitude by assumption. assert (O : Nat.Odd (l_rows a * l_cols a) -> sites_of a mod 2 = 1) by (intros (k & E); unfold sites_of; rewrite E; rewrite Nat.add_comm, Nat.mul_comm, Nat.mod_add by lia; reflexivity).
  rewrite !kept_ok by tauto. reflexivity.
Qed.
Lemma negative_case : exists (a : lat) s, matched a /\ amplitude (wf_sum_real 1 a (-1) a) s <> (RtoC 1 * amplitude a s + RtoC (-1) * amplitude a s)%C.
Proof.
  exists (dimer 1), up. split; [apply dimer_matched|]. rewrite real_amplitude by (apply dimer_matched || (repeat split)). unfold kept. cbn [sites_of dimer l_rows l_cols Nat.mul Nat.add Nat.modulo Nat.divmod Nat.eqb fst snd Nat.sub].
  replace (sites_of (dimer 1) mod 2 =? 1) with false by reflexivity. rewrite dimer_amplitude, Rabs_R1, (Rabs_left (-1)) by lra. intros E. apply (f_equal fst) in E. unfold Cadd, Cmul, RtoC in E. cbn in E. lra.
Qed.
Lemma phase_case : exists (a : lat) s, matched a /\ amplitude (wf_sum_complex (RtoC 1) a Ci a) s <> (RtoC 1 * amplitude a s + Ci * amplitude a s)%C.
Proof.
  exists (dimer 1), up. split; [apply dimer_matched|]. rewrite complex_amplitude by (apply dimer_matched || (repeat split)). rewrite dimer_amplitude. intros E. apply (f_equal snd) in E.
  unfold Cadd, Cmul, RtoC, Ci in E. cbn in E. lra.
Qed.
Definition point : lat := mkLat 1 1 false (fun _ _ => mkTen [1; 1; 1; 1] (fun _ _ => RtoC 1)).
Lemma single_case : exists (a : lat) s v, matched a /\ wf_list_real [((-1)%R, a)] = Ok v /\ amplitude v s <> (RtoC (-1) * amplitude a s)%C.
Proof.
  exists point, up. eexists. split; [|split; [reflexivity|]].
  - split; [cbn; lia|]. split; [cbn; lia|]. intros r c l b Hr Hc Hl E. cbn in Hr, Hc. assert (r = 0) by lia. assert (c = 0) by lia. subst. destruct l as [|[|[|[|l]]]]; try lia; discriminate.
  - rewrite scale_all_amplitude, root_pow by (apply Rabs_pos || (cbn; lia)). rewrite (Rabs_left (-1)) by lra.
    assert (E : amplitude point up = RtoC 1) by (unfold amplitude; cbn -[Cmul Cadd RtoC]; unfold weight; cbn -[Cmul Cadd RtoC]; ring). rewrite E. intros Q. apply (f_equal fst) in Q. unfold Cmul, RtoC in Q. cbn in Q. lra.
Qed.
