(** The gates as operators on wave functions. *)
From Coq Require Import List Arith Bool Reals Lia Lra.
From Verif Require Import Base Cplx SumModel SumSpec SumProofs NetSum TrgTensor ProjModel ProjSpec ProjWave ProjSteps ExpModel ExpSpec ExpAlg.
Import ListNotations.
Local Open Scope nat_scope.

Definition op (M : matrix) (ds : list nat) (xs : list (nat * nat)) (psi : basis -> C) : basis -> C := fun s =>
  sumC (fun l => (M l (values s xs) * psi (place s xs l))%C) (choices ds).

Lemma mul_comm (a b : C) : (a * b)%C = (b * a)%C.
Proof. ring. Qed.
Lemma site_dec (x y : nat * nat) : {x = y} + {x <> y}.
Proof. decide equality; apply Nat.eq_dec. Qed.
Lemma place_congr : forall xs m s s', length m = length xs -> (forall r c, ~ In (r, c) xs -> s r c = s' r c) -> same_state (place s xs m) (place s' xs m).
Proof.
  induction xs as [|x xs IH]; intros [|v m] s s' L H; try discriminate; cbn [place]; [intros r c; apply H; intros []|]. apply IH; [cbn in L; lia|]. intros r c N. destruct (site_dec (r, c) x) as [<-|D]; [rewrite !at_same; reflexivity|]. rewrite !at_other by exact D. apply H. intros [Q|Q]; [congruence|contradiction].
Qed.
Lemma place_other : forall xs m s x, ~ In x xs -> place s xs m (fst x) (snd x) = s (fst x) (snd x).
Proof.
  induction xs as [|y xs IH]; intros m s x N; [destruct m; reflexivity|]. destruct m as [|v m]; [reflexivity|]. cbn [place]. rewrite IH by (intros Q; apply N; right; exact Q). apply at_other. rewrite <- surjective_pairing. intros ->. apply N. left. reflexivity.
Qed.
Lemma place_values : forall xs m s, NoDup xs -> length m = length xs -> values (place s xs m) xs = m.
Proof.
  induction xs as [|x xs IH]; intros [|v m] s N L; try discriminate; [reflexivity|]. apply NoDup_cons_iff in N. destruct N as [N1 N2]. cbn [place values map]. f_equal; [rewrite place_other by exact N1; destruct x; apply at_same|]. apply IH; [exact N2|cbn in L; lia].
Qed.
Lemma place_twice xs l m s : length l = length xs -> length m = length xs -> same_state (place (place s xs l) xs m) (place s xs m).
Proof. intros L M. apply place_congr; [exact M|]. intros r c N. exact (place_other xs l s (r, c) N). Qed.
Lemma place_own xs s : same_state (place s xs (values s xs)) s.
Proof.
  induction xs as [|x xs IH]; [intros r c; reflexivity|]. cbn [values map place]. intros r c. refine (eq_trans _ (IH r c)). apply place_congr; [apply map_length|]. intros r' c' _. unfold at_site. destruct (Nat.eqb_spec r' (fst x)) as [->|]; [destruct (Nat.eqb_spec c' (snd x)) as [->|]|]; reflexivity.
Qed.
Lemma values_same s s' xs : same_state s s' -> values s xs = values s' xs.
Proof. intros H. apply map_ext. intros x. apply H. Qed.
Lemma op_respects M ds xs psi : length ds = length xs -> respects psi -> respects (op M ds xs psi).
Proof.
  intros L H s s' E. unfold op. apply sumC_ext. intros l Hl. rewrite (values_same s s' xs E). f_equal. apply H. apply place_congr; [rewrite <- L; eapply choices_length; exact Hl|]. intros r c _. apply E.
Qed.
Lemma op_ext M M' ds xs psi s : In (values s xs) (choices ds) -> (forall i j, In i (choices ds) -> In j (choices ds) -> M i j = M' i j) -> op M ds xs psi s = op M' ds xs psi s.
Proof. intros V H. apply sumC_ext. intros l Hl. rewrite H by assumption. reflexivity. Qed.
Section Powers.
Context (A : matrix) (ds : list nat) (xs : list (nat * nat)) (psi : basis -> C).
Context (L : length ds = length xs) (N : NoDup xs) (H : respects psi).
Lemma op_power : forall k s, In (values s xs) (choices ds) -> op (power ds A k) ds xs psi s = times_op k (op A ds xs) psi s.
Proof.
  induction k as [|k IH]; intros s V.
  - cbn [power times_op Nat.iter nat_rect]. unfold op. rewrite (sumC_ext _ (fun l => ((if list_eq_dec Nat.eq_dec (values s xs) l then RtoC 1 else RtoC 0) * psi (place s xs l))%C)).
    + rewrite (choices_pick ds (fun l => psi (place s xs l)) (values s xs) V). apply H, place_own.
    + intros l _. f_equal. destruct (list_eq_dec Nat.eq_dec l (values s xs)), (list_eq_dec Nat.eq_dec (values s xs) l); congruence.
  - change (times_op (S k) (op A ds xs) psi s) with (op A ds xs (times_op k (op A ds xs) psi) s). unfold op at 2.
    transitivity (sumC (fun l => (A l (values s xs) * op (power ds A k) ds xs psi (place s xs l))%C) (choices ds)).
    + unfold op. cbn [power]. unfold product. transitivity (sumC (fun m => sumC (fun l => (A l (values s xs) * (power ds A k m l * psi (place s xs m)))%C) (choices ds)) (choices ds)).
      { apply sumC_ext. intros m _. rewrite mul_comm, <- sumC_scal. apply sumC_ext. intros l _. ring. }
      rewrite sumC_swap. apply sumC_ext. intros l Hl. rewrite <- sumC_scal. apply sumC_ext. intros m Hm. f_equal. rewrite place_values by (first [exact N|rewrite <- L; eapply choices_length; eassumption]). f_equal. symmetry. apply H. apply place_twice; rewrite <- L; eapply choices_length; eassumption.
    + apply sumC_ext. intros l Hl. f_equal. apply IH. rewrite place_values; [exact Hl|exact N|rewrite <- L; eapply choices_length; exact Hl].
Qed.
Lemma op_exp tau K s : In (values s xs) (choices ds) -> op (partial_exp ds tau A K) ds xs psi s = exp_terms tau (op A ds xs) K psi s.
Proof.
  intros V. unfold exp_terms. transitivity (sumC (fun k => (RtoC ((- tau) ^ k / INR (fact k)) * op (power ds A k) ds xs psi s)%C) (seq 0 (S K))).
  - unfold op, partial_exp. transitivity (sumC (fun l => sumC (fun k => (RtoC ((- tau) ^ k / INR (fact k)) * (power ds A k l (values s xs) * psi (place s xs l)))%C) (seq 0 (S K))) (choices ds)).
    { apply sumC_ext. intros l _. rewrite mul_comm, <- sumC_scal. apply sumC_ext. intros k _. ring. }
    rewrite sumC_swap. apply sumC_ext. intros k _. apply sumC_scal.
  - apply sumC_ext. intros k _. f_equal. apply op_power. exact V.
Qed.
End Powers.

Lemma in_choices2 d d' i j : i < d -> j < d' -> In [i; j] (choices [d; d']).
Proof. intros Hi Hj. apply choices_in. repeat constructor; assumption. Qed.
Lemma sum_choices1 d f : sumC f (choices [d]) = sumC (fun i => f [i]) (seq 0 d).
Proof. cbn [choices map]. rewrite sumC_flat_map. apply sumC_ext. intros i _. rewrite sumC_cons, sumC_nil. ring. Qed.
Lemma sum_choices2 d d' f : sumC f (choices [d; d']) = sumC (fun i => sumC (fun j => f [i; j]) (seq 0 d')) (seq 0 d).
Proof.
  change (choices [d; d']) with (flat_map (fun i => map (cons i) (choices [d'])) (seq 0 d)). rewrite sumC_flat_map. apply sumC_ext. intros i _. rewrite sumC_map. apply sum_choices1.
Qed.
Lemma gate2_op g d d' x y psi s : shape g = [d; d'] ++ [d; d'] -> gate2 g x y psi s = op (fun i j => entry g (i ++ j)) [d; d'] [x; y] psi s.
Proof. intros S. unfold gate2, op. rewrite sum_choices2, !(dimat_shape g _ _ S). cbn [nth app]. reflexivity. Qed.

(** the gate of a two-site term *)
Lemma gate_exp eps tau d d' ham x y : shape ham = [d; d; d'; d'] -> x <> y -> exists K, 2 <= K <= 999 /\ shape (taylor_exp eps tau ham) = [d; d'; d; d'] /\
  forall psi s, respects psi -> s (fst x) (snd x) < d -> s (fst y) (snd y) < d' -> gate2 (taylor_exp eps tau ham) x y psi s = exp_terms tau (term ham [d; d'] [x; y]) K psi s.
Proof.
  intros S D. destruct (taylor_ok eps tau [d; d'] ham S) as (K & HK & SG & E & _). exists K. split; [exact HK|]. split; [exact SG|]. intros psi s H Hx Hy.
  assert (V : In (values s [x; y]) (choices [d; d'])) by (apply in_choices2; assumption).
  rewrite (gate2_op _ d d') by exact SG. transitivity (op (partial_exp [d; d'] tau (matrix_of ham) K) [d; d'] [x; y] psi s).
  - apply op_ext; [exact V|exact E].
  - apply (op_exp (matrix_of ham) [d; d'] [x; y] psi); [reflexivity| |exact H|exact V]. constructor; [intros [Q|[]]; congruence|]. constructor; [intros []|constructor].
Qed.
