(** The structure factor: sums over bonds, the scan of a row, the two loops. *)
From Coq Require Import List Arith Lia Bool ZArith Reals.
From Verif Require Import Base Cplx WalkModel WalkSpec WalkAlg WalkProofs WalkMain SfModel SfSpec.
Import ListNotations.

(** *** Sums over bonds *)
Section Sums.
Variable D : nat.
Notation sumD f := (sumC f (seq 0 D)).
Notation sumT n f := (sumC f (tuples D n)).
Lemma tuples_in : forall n p, In p (tuples D n) <-> length p = n /\ Forall (fun x => x < D) p.
Proof.
  induction n as [|n IH]; intros p; cbn [tuples].
  - split; [intros [<-|[]]; auto|]. intros [L _]. destruct p; [left; reflexivity|discriminate].
  - rewrite in_flat_map. split.
    + intros (x & Hx & Hp). apply in_map_iff in Hp. destruct Hp as (p' & <- & Hp'). apply IH in Hp'. apply in_seq in Hx.
      simpl. split; [lia|]. constructor; [lia|tauto].
    + intros [L F]. destruct p as [|x p]; [discriminate|]. inversion F; subst. exists x. split; [apply in_seq; lia|].
      apply in_map, IH. simpl in L. split; [lia|assumption].
Qed.
Lemma sum3 : forall (f g h : nat -> C),
  Cmul (sumD f) (Cmul (sumD g) (sumD h)) = sumD (fun a => sumD (fun b => sumD (fun c => Cmul (f a) (Cmul (g b) (h c))))).
Proof.
  intros f g h. rewrite sum_r. apply sumC_ext. intros a _. rewrite sum_r. rewrite sum_l. apply sumC_ext. intros b _.
  rewrite !sum_l. reflexivity.
Qed.
Lemma swap3 : forall X (F : X -> nat -> nat -> nat -> C) l,
  sumC (fun x => sumD (fun a => sumD (fun b => sumD (fun c => F x a b c)))) l
  = sumD (fun a => sumD (fun b => sumD (fun c => sumC (fun x => F x a b c) l))).
Proof.
  intros X F l. rewrite sumC_swap. apply sumC_ext. intros a _.
  rewrite sumC_swap. apply sumC_ext. intros b _. apply sumC_swap.
Qed.
Lemma swap_all : forall n (F : nat -> list nat -> nat -> list nat -> nat -> nat -> nat -> C),
  sumD (fun x => sumT n (fun p => sumD (fun y => sumT n (fun q => sumD (fun a => sumD (fun b => sumD (fun c => F x p y q a b c)))))))
  = sumD (fun a => sumD (fun b => sumD (fun c => sumD (fun x => sumT n (fun p => sumD (fun y => sumT n (fun q => F x p y q a b c))))))).
Proof.
  intros n F. rewrite <- (swap3 _ (fun x a b c => sumT n (fun p => sumD (fun y => sumT n (fun q => F x p y q a b c))))).
  apply sumC_ext. intros x _. rewrite <- (swap3 _ (fun p a b c => sumD (fun y => sumT n (fun q => F x p y q a b c)))).
  apply sumC_ext. intros p _. rewrite <- (swap3 _ (fun y a b c => sumT n (fun q => F x p y q a b c))).
  apply sumC_ext. intros y _. symmetry. rewrite <- (swap3 _ (fun q a b c => F x p y q a b c)). reflexivity.
Qed.
Lemma weight_factor : forall lu ls ld n, length lu = n -> length ls = n -> length ld = n -> forall a s d a' s' d',
  weight D (map (fun usd => let '(u, s, d) := usd in column D u s d) (combine (combine lu ls) ld)) (a, s, d) (a', s', d')
  = sumT n (fun p => sumT n (fun q => Cmul (up_vec D lu p a a') (Cmul (transfer D ls p q s s') (down_vec D ld q d d')))).
Proof.
  induction lu as [|u lu IH]; intros ls ld n E1 E2 E3 a s d a' s' d'; destruct ls as [|t ls]; destruct ld as [|v ld]; simpl in E1, E2, E3; subst n; try discriminate.
  - cbn [combine map tuples]. rewrite !sumC_cons, !sumC_nil. cbn [up_vec transfer down_vec].
    rewrite weight_nil. unfold bonds_eqb. cbn [fst snd].
    destruct (a =? a'), (s =? s'), (d =? d'); cbn [andb]; apply C_ext; simpl; ring.
  - cbn [combine map weight]. rewrite sum_bonds. rewrite tuples_S.
    assert (L2 : length ls = length lu) by lia. assert (L3 : length ld = length lu) by lia.
    transitivity (sumD (fun x => sumT (length lu) (fun p => sumD (fun y => sumT (length lu) (fun q =>
      sumD (fun m1 => sumD (fun m2 => sumD (fun m3 =>
        Cmul (Cmul (u [m1; x; a]) (up_vec D lu p m1 a')) (Cmul (Cmul (t [s; y; m2; x]) (transfer D ls p q m2 s')) (Cmul (v [d; y; m3]) (down_vec D ld q m3 d'))))))))))).
    + rewrite (swap_all (length lu) (fun x p y q m1 m2 m3 => Cmul (Cmul (u [m1; x; a]) (up_vec D lu p m1 a')) (Cmul (Cmul (t [s; y; m2; x]) (transfer D ls p q m2 s')) (Cmul (v [d; y; m3]) (down_vec D ld q m3 d'))))).
      apply sumC_ext. intros m1 _. apply sumC_ext. intros m2 _. apply sumC_ext. intros m3 _.
      rewrite (IH ls ld (length lu) eq_refl L2 L3). unfold column. rewrite sum_r. apply sumC_ext. intros x _.
      rewrite sum_r. symmetry. rewrite sumC_swap. symmetry. apply sumC_ext. intros y _.
      rewrite sum_l. apply sumC_ext. intros p _. rewrite sum_l. apply sumC_ext. intros q _. ring.
    + apply sumC_ext. intros x _. apply sumC_ext. intros p _. rewrite tuples_S. apply sumC_ext. intros y _. apply sumC_ext. intros q _.
      cbn [up_vec transfer down_vec]. symmetry. apply sum3.
Qed.

Lemma row_value_factor : forall up mpo opp n, length up = n -> length mpo = n -> length opp = n ->
  row_value D up mpo opp = sumT n (fun p => Cmul (up_vector D up p) (sumT n (fun q => Cmul (transfer D mpo p q 0 0) (down_vector D opp q)))).
Proof.
  intros up mpo opp n E1 E2 E3. unfold row_value, columns, zero_bonds.
  rewrite (weight_factor (rev up) mpo opp n) by (rewrite ?rev_length; assumption).
  apply sumC_ext. intros p _. rewrite sum_l. reflexivity.
Qed.

Lemma below_nonzero : forall n (f : list nat -> C), 1 <= D ->
  sumT n (fun p => Cmul (if forallb (Nat.eqb 0) p then RtoC 1 else RtoC 0) (f p)) = f (repeat 0 n).
Proof.
  intros n f D1. revert f. induction n as [|n IH]; intros f.
  - rewrite tuples_0. cbn [forallb repeat]. ring.
  - rewrite tuples_S. transitivity (sumD (fun x => if x =? 0 then f (x :: repeat 0 n) else RtoC 0)).
    + apply sumC_ext. intros x _. destruct x as [|x].
      * cbn [forallb Nat.eqb andb]. apply (IH (fun p => f (0 :: p))).
      * cbn [forallb Nat.eqb andb]. apply sumC_zero. intros p _. apply C_ext; simpl; ring.
    + rewrite sum_delta_nat by lia. reflexivity.
Qed.

Section Absorb.
Variables (n : nat) (absorb : list tensor -> list tensor -> list tensor).
Definition absorbs (up : list tensor) (rows : list (list tensor)) : list tensor := fold_left absorb rows up.
Lemma absorbs_len : forall rows up, length up = n -> exact_along D n absorb up rows -> length (absorbs up rows) = n.
Proof.
  induction rows as [|r rows IH]; intros up L E; [exact L|]. cbn [exact_along] in E; destruct E as [[L' _] E]. apply (IH (absorb up r)); auto.
Qed.
Lemma absorbs_below : forall R B up, exact_along D n absorb up R ->
  sumT n (fun p => Cmul (up_vector D up p) (below D n (R ++ B) p)) = sumT n (fun p => Cmul (up_vector D (absorbs up R) p) (below D n B p)).
Proof.
  intros A; induction A as [|r A IH]; intros B up E; [reflexivity|]. cbn [exact_along] in E; destruct E as [[_ V] E].
  change (absorbs up (r :: A)) with (absorbs (absorb up r) A). cbn [app below]. rewrite <- (IH B (absorb up r) E).
  transitivity (sumT n (fun p => sumT n (fun q => Cmul (Cmul (up_vector D up p) (transfer D r p q 0 0)) (below D n (A ++ B) q)))).
  - apply sumC_ext. intros p _. rewrite sum_l. apply sumC_ext. intros q _. ring.
  - rewrite sumC_swap. apply sumC_ext. intros q Hq. rewrite (V q Hq), sum_r. reflexivity.
Qed.
(** the value of a row between an UP boundary that has absorbed [R] and a DOWN boundary that has absorbed [B] *)
Lemma row_amplitude : 1 <= D -> forall vac R row opp B, vacuum_up D n vac -> exact_along D n absorb vac R -> length row = n ->
  bottom_of D n opp B -> row_value D (absorbs vac R) row opp = amplitude D n (R ++ row :: B).
Proof.
  intros D1 vac R row opp B [L V] E Lr [Lo Vo].
  rewrite (row_value_factor _ _ _ n) by (try apply absorbs_len; assumption).
  unfold amplitude. rewrite <- (below_nonzero n (below D n (R ++ row :: B)) D1).
  transitivity (sumT n (fun p => Cmul (up_vector D vac p) (below D n (R ++ row :: B) p))).
  - rewrite (absorbs_below R (row :: B) vac E). apply sumC_ext. intros p _. f_equal. cbn [below].
    apply sumC_ext. intros q Hq. rewrite (Vo q Hq). reflexivity.
  - apply sumC_ext. intros p Hp. rewrite (V p Hp). reflexivity.
Qed.
Lemma exact_along_app : forall A B up, exact_along D n absorb up (A ++ B) -> exact_along D n absorb up A /\ exact_along D n absorb (absorbs up A) B.
Proof.
  induction A as [|r A IH]; intros B up E; [split; [exact I|exact E]|]. cbn [exact_along] in E; destruct E as [E1 E]. destruct (IH B _ E) as [X Y].
  split; [split; assumption|exact Y].
Qed.
End Absorb.
End Sums.
