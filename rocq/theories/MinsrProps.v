(** C45, C46: the MinSR ring exchange, its matrix and its direction. *)
From Coq Require Import List Arith Bool Reals Lra Lia.
From Verif Require Import Base Cplx Rsum OptModel OptProofs LbModel CgModel CgSpec CgProofs MinsrModel MinsrSpec RingProofs RingMain MinsrProofs MinsrMain.
Import ListNotations.
Local Open Scope R_scope.

(** Any number of ranks and samples, any schedule: the exchange ends; until it has, some rank can move
    even if MPI buffers nothing; in round k rank r received the batch of rank r - k modulo P. *)
Theorem c45_ring : forall {X} P s (own : nat -> list X), (forall r, (r < P)%nat -> length (own r) = s) ->
  let init := ring_start P s own in
  Acc (fun b a => exists sure, rstep P sure a b) init /\
  forall c, rsteps P init c -> (ring_finished P c \/ exists c', rstep P true c c') /\
    (forall r log, (r < P)%nat -> r_act c r = ADone log -> log = map (fun k => own ((r + P - k) mod P)%nat) (seq 1 (P - 1))).
Proof. intros X. exact RingMain.ring_correct. Qed.
Print Assumptions c45_ring.

(** The batches a rank receives, with its own, are those of all ranks, each once. *)
Theorem c45_complete : forall P r, (r < P)%nat -> Permutation.Permutation (map (fun k => ((r + P - k) mod P)%nat) (seq 0 P)) (seq 0 P).
Proof. exact before_perm. Qed.
Print Assumptions c45_complete.

(** Three ranks with one sample each: a run that ends. *)
Example c45_three : exists c, rsteps 3 (ring_start 3 1 (fun r => [r])) c /\ ring_finished 3 c /\ r_act c 0%nat = ADone [[2]; [1]]%nat.
Proof.
  destruct (c45_ring 3 1 (fun r => [r]) ltac:(reflexivity)) as (A & R).
  assert (E : exists c, rsteps 3 (ring_start 3 1 (fun r => [r])) c /\ ring_finished 3 c).
  { assert (G : forall c, Acc (fun b a => exists sure, rstep 3 sure a b) c -> rsteps 3 (ring_start 3 1 (fun r => [r])) c -> exists c', rsteps 3 (ring_start 3 1 (fun r => [r])) c' /\ ring_finished 3 c').
    { induction 1 as [c _ IH]. intros S. destruct (R c S) as ([F|(c' & S')] & _); [exists c; split; assumption|]. apply (IH c'); [exists true; exact S'|]. econstructor; eassumption. }
    apply (G _ A). constructor. }
  destruct E as (c & S & F). exists c. split; [exact S|]. split; [exact F|]. destruct (F 0%nat ltac:(lia)) as ((log & E) & _). rewrite E. f_equal. destruct (R c S) as (_ & Q). rewrite (Q 0%nat log ltac:(lia) E). reflexivity.
Qed.

(** After any run of the exchange the matrix is (1/N) <O_i - Obar, O_j - Obar>, in global sample order. *)
Theorem c46_matrix : forall dim s ranks, ranks <> [] -> (0 < s)%nat -> (forall l, In l ranks -> length l = s) -> forall c log,
  rsteps (length ranks) (ring_start (length ranks) s (fun r => nth r ranks [])) c -> (forall r, (r < length ranks)%nat -> r_act c r = ADone (log r)) ->
  forall i j, (i < length (concat ranks))%nat -> (j < length (concat ranks))%nat -> t_matrix dim s ranks log i j = centred_gram dim (concat ranks) i j.
Proof. exact run_matrix. Qed.
Print Assumptions c46_matrix.

(** That matrix is Hermitian, has vanishing row sums, and is positive semi-definite. *)
Theorem c46_hermitian : forall dim os i j, centred_gram dim os i j = Cconj (centred_gram dim os j i).
Proof. exact gram_hermitian. Qed.
Print Assumptions c46_hermitian.
Theorem c46_constant : forall dim os, os <> [] -> forall i, sumC (centred_gram dim os i) (seq 0 (length os)) = RtoC 0.
Proof. exact gram_constant. Qed.
Print Assumptions c46_constant.
Theorem c46_semidefinite : forall dim os, os <> [] -> forall x,
  let q := sumC (fun i => Cconj (x i) * sumC (fun j => centred_gram dim os i j * x j) (seq 0 (length os)))%C (seq 0 (length os)) in snd q = 0 /\ 0 <= fst q.
Proof. exact gram_nonneg. Qed.
Print Assumptions c46_semidefinite.

(** The filter: between 0 and the inverse; zero at zero; sharp when hard, and smooth when soft. *)
Theorem c46_filter : forall r a soft l k, 0 <= r -> 0 <= a -> (k < length l)%nat ->
  let lam := nth k l 0 in let plus := nth k (pinv r a soft l) 0 in let cutoff := r * lambda_max l + a in
  0 <= lam * plus <= 1 /\ (lam = 0 -> plus = 0) /\ (soft = false -> (cutoff < Rabs lam -> plus = / lam) /\ (Rabs lam <= cutoff -> plus = 0)) /\
  (soft = true -> 0 < cutoff -> plus * (lam ^ 6 + cutoff ^ 6) = lam ^ 5).
Proof. exact pinv_filter. Qed.
Print Assumptions c46_filter.

(** If the hard cutoff drops no non-zero eigenvalue, the direction solves S x = gradient, S the
    covariance of the samples of all ranks. *)
Theorem c46_natural_gradient : forall dim s ranks, ranks <> [] -> (0 < s)%nat -> (forall l, In l ranks -> length l = s) -> forall c log,
  rsteps (length ranks) (ring_start (length ranks) s (fun r => nth r ranks [])) c -> (forall r, (r < length ranks)%nat -> r_act c r = ADone (log r)) ->
  forall z lam, eigensystem (length (concat ranks)) (t_matrix dim s ranks log) z lam ->
  forall es r_pinv a_pinv soft, length es = length (concat ranks) -> 0 <= r_pinv -> 0 <= a_pinv ->
  let e := (RtoC (/ INR (length (concat ranks))) * sumC (fun x => x) es)%C in
  let y := apply_pinv (length (concat ranks)) z (pinv r_pinv a_pinv soft lam) (epsilon_bar es e (length (concat ranks))) in
  soft = false -> (forall x, In x lam -> x <> 0 -> r_pinv * lambda_max lam + a_pinv < Rabs x) ->
  veq dim (covariance dim (concat ranks) (RtoC 0) (minsr_direction s ranks (mean_of (concat ranks)) y)) (energy_gradient (concat ranks) es e).
Proof. exact run_solved. Qed.
Print Assumptions c46_natural_gradient.

(** Whatever the cutoff, the direction never points against the gradient. *)
Theorem c46_downhill : forall dim s ranks, ranks <> [] -> (0 < s)%nat -> (forall l, In l ranks -> length l = s) -> forall c log,
  rsteps (length ranks) (ring_start (length ranks) s (fun r => nth r ranks [])) c -> (forall r, (r < length ranks)%nat -> r_act c r = ADone (log r)) ->
  forall z lam, eigensystem (length (concat ranks)) (t_matrix dim s ranks log) z lam ->
  forall es r_pinv a_pinv soft, length es = length (concat ranks) -> 0 <= r_pinv -> 0 <= a_pinv ->
  let e := (RtoC (/ INR (length (concat ranks))) * sumC (fun x => x) es)%C in
  let y := apply_pinv (length (concat ranks)) z (pinv r_pinv a_pinv soft lam) (epsilon_bar es e (length (concat ranks))) in
  0 <= fst (vdot dim (energy_gradient (concat ranks) es e) (minsr_direction s ranks (mean_of (concat ranks)) y)).
Proof. exact run_downhill. Qed.
Print Assumptions c46_downhill.

(** Two samples 1 and 3 of one component: the matrix is ((1/2, -1/2), (-1/2, 1/2)). *)
Example c46_two : let os := [fun _ => RtoC 1; fun _ => RtoC 3] : list vec in
  centred_gram 1 os 0 0 = RtoC (1 / 2) /\ centred_gram 1 os 0 1 = RtoC (- (1 / 2)).
Proof.
  cbv zeta. unfold centred_gram, deviation, vdot, vsub, mean_of. cbn [seq nth length]. rewrite !sumC_cons, !sumC_nil. split; apply C_ext; unfold Csub, Cadd, Copp, Cmul, Cconj, RtoC; simpl; lra.
Qed.
(** Its eigenvalues are 0 and 1, with the constant and the alternating eigenvector. *)
Example c46_eigen : let os := [fun _ => RtoC 1; fun _ => RtoC 3] : list vec in
  eigensystem 2 (centred_gram 1 os) (fun i k => RtoC (match k with O => / sqrt 2 | _ => if (i =? 0)%nat then / sqrt 2 else - / sqrt 2 end)) [0; 1].
Proof.
  cbv zeta. assert (H : / sqrt 2 * / sqrt 2 = 1 / 2). { pose proof (sqrt_sqrt 2 ltac:(lra)). assert (sqrt 2 <> 0) by (intros E; rewrite E in H; lra). field_simplify; [|assumption]. unfold Rdiv. f_equal. replace (sqrt 2 ^ 2) with 2 by (cbn; lra). lra. }
  split; [reflexivity|]. split.
  - intros k l Hk Hl. destruct k as [|[|k]]; [| |lia]; (destruct l as [|[|l]]; [| |lia]); cbn [seq Nat.eqb]; rewrite !sumC_cons, !sumC_nil; apply C_ext; unfold Cadd, Cmul, Cconj, RtoC; simpl; nra.
  - assert (G : forall i j, (i < 2)%nat -> (j < 2)%nat -> centred_gram 1 [fun _ => RtoC 1; fun _ => RtoC 3] i j = RtoC (if (i =? j)%nat then 1 / 2 else - (1 / 2))).
    { intros i j Hi Hj. unfold centred_gram, deviation, vdot, vsub, mean_of. cbn [seq length]. destruct i as [|[|i]]; [| |lia]; (destruct j as [|[|j]]; [| |lia]); cbn [nth Nat.eqb]; rewrite !sumC_cons, !sumC_nil; apply C_ext; unfold Csub, Cadd, Copp, Cmul, Cconj, RtoC; simpl; lra. }
    intros i j Hi Hj. rewrite G by assumption. destruct i as [|[|i]]; [| |lia]; (destruct j as [|[|j]]; [| |lia]); cbn [seq Nat.eqb nth]; rewrite !sumC_cons, !sumC_nil; apply C_ext; unfold Cadd, Cmul, Cconj, RtoC; simpl; nra.
Qed.
