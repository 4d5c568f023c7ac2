(** Expressions made of sums over named indices and products of tensor elements, and a check that two of them have
    the same value. *)
From Coq Require Import List Arith Lia Bool Reals Permutation.
From Verif Require Import Base Cplx SumModel SumSpec SumProofs NetSum.
Import ListNotations.
Local Open Scope nat_scope.

Inductive ex := At (k : nat) (vs : list nat) | Mul (e f : ex) | Sum (v : nat) (e : ex).
Notation upd := (NetSum.upd Nat.eq_dec).
Notation gsum := (NetSum.gsum Nat.eq_dec).
Notation indep := (NetSum.indep Nat.eq_dec).
Section Ex.
Context (T : nat -> list nat -> C) (d : nat -> nat).
Fixpoint den (e : ex) (a : nat -> nat) : C :=
  match e with
  | At k vs => T k (map a vs)
  | Mul e f => (den e a * den f a)%C
  | Sum v e => sumC (fun i => den e (upd a v i)) (seq 0 (d v))
  end.
Fixpoint bound (e : ex) : list nat :=
  match e with At _ _ => [] | Mul e f => bound e ++ bound f | Sum v e => v :: bound e end.
Fixpoint atoms (e : ex) : list (nat * list nat) :=
  match e with At k vs => [(k, vs)] | Mul e f => atoms e ++ atoms f | Sum v e => atoms e end.
Definition seen (e : ex) : list nat := flat_map snd (atoms e).
Definition apart (l l' : list nat) : bool := forallb (fun x => if in_dec Nat.eq_dec x l' then false else true) l.
Fixpoint tidy (e : ex) : bool :=
  match e with
  | At _ _ => true
  | Mul e f => tidy e && tidy f && apart (bound e) (bound f) && apart (bound e) (seen f) && apart (bound f) (seen e)
  | Sum v e => tidy e && apart [v] (bound e)
  end.
Definition flat (e : ex) (a : nat -> nat) : C := gsum (bound e) d (fun a => prodC (fun kv => T (fst kv) (map a (snd kv))) (atoms e)) a.
Lemma apart_spec l l' x : apart l l' = true -> In x l -> ~ In x l'.
Proof. unfold apart. rewrite forallb_forall. intros H I. specialize (H x I). destruct (in_dec Nat.eq_dec x l'); [discriminate|assumption]. Qed.
Lemma atoms_indep l us : (forall x, In x us -> ~ In x (flat_map snd l)) -> indep (fun a => prodC (fun kv => T (fst kv) (map a (snd kv))) l) us.
Proof.
  intros H a v i Hv. apply prodC_ext. intros [k vs] Hk. cbn [fst snd]. f_equal. apply map_ext_in. intros w Hw. apply upd_other. intros ->. apply (H _ Hv). apply in_flat_map. exists (k, vs). split; assumption.
Qed.
Lemma gsum_mul l l' f g : (forall x, In x l -> ~ In x l') -> indep f l' -> indep g l -> forall a, (gsum l d f a * gsum l' d g a)%C = gsum (l ++ l') d (fun a => (f a * g a)%C) a.
Proof.
  intros D F G a. rewrite gsum_app. transitivity (gsum l d (fun a => (gsum l' d g a * f a)%C) a).
  - rewrite gsum_factor; [ring|]. apply gsum_indep; assumption.
  - apply gsum_ext_all. intros b. rewrite gsum_factor by exact F. ring.
Qed.
Lemma den_flat e : tidy e = true -> forall a, den e a = flat e a.
Proof.
  induction e as [k vs|e IHe f IHf|v e IH]; intros H a; cbn [den tidy] in *.
  - unfold flat. cbn [bound atoms NetSum.gsum]. unfold prodC. cbn. ring.
  - rewrite !andb_true_iff in H. destruct H as ((((H1 & H2) & H3) & H4) & H5). rewrite IHe, IHf by assumption. unfold flat. cbn [bound atoms]. rewrite gsum_mul.
    + apply gsum_ext_all. intros b. rewrite <- prodC_app. reflexivity.
    + intros x. apply apart_spec. exact H3.
    + apply atoms_indep. intros x. apply apart_spec. exact H5.
    + apply atoms_indep. intros x. apply apart_spec. exact H4.
  - rewrite andb_true_iff in H. destruct H as [H1 _]. unfold flat. cbn [bound atoms NetSum.gsum]. apply sumC_ext. intros i _. apply IH. exact H1.
Qed.
Lemma apart_nodup (l l' : list nat) : NoDup l -> NoDup l' -> (forall x, In x l -> ~ In x l') -> NoDup (l ++ l').
Proof.
  induction l as [|x l IH]; intros A B D; [exact B|]. inversion A; subst. cbn [app]. constructor.
  - intros Q. apply in_app_or in Q. destruct Q as [Q|Q]; [contradiction|]. apply (D x); [left; reflexivity|exact Q].
  - apply IH; [assumption|exact B|]. intros y Hy. apply D. right. exact Hy.
Qed.
Lemma bound_nodup e : tidy e = true -> NoDup (bound e).
Proof.
  induction e as [k vs|e IHe f IHf|v e IH]; intros H; cbn [tidy bound] in *; [constructor| |].
  - rewrite !andb_true_iff in H. destruct H as ((((H1 & H2) & H3) & _) & _). apply apart_nodup; [apply IHe|apply IHf|]; try assumption. intros x. apply apart_spec. exact H3.
  - rewrite andb_true_iff in H. destruct H as [H1 H2]. constructor; [|apply IH; exact H1]. apply (apart_spec [v] (bound e) v H2). left. reflexivity.
Qed.
(** rearranged lists *)
Section Perm.
Context {A : Type} (dec : forall x y : A, {x = y} + {x <> y}).
Fixpoint take (x : A) (l : list A) : option (list A) :=
  match l with [] => None | y :: t => if dec x y then Some t else option_map (cons y) (take x t) end.
Fixpoint rearranged (l l' : list A) : bool :=
  match l with [] => match l' with [] => true | _ => false end | x :: t => match take x l' with Some t' => rearranged t t' | None => false end end.
Lemma take_perm x : forall l l', take x l = Some l' -> Permutation l (x :: l').
Proof.
  induction l as [|y l IH]; intros l' H; [discriminate|]. cbn [take] in H. destruct (dec x y) as [->|]; [injection H as ->; reflexivity|]. destruct (take x l) as [t|]; [|discriminate]. injection H as <-.
  rewrite (IH t eq_refl). apply perm_swap.
Qed.
Lemma rearranged_perm : forall l l', rearranged l l' = true -> Permutation l l'.
Proof.
  induction l as [|x l IH]; intros l' H; cbn [rearranged] in H; [destruct l'; [reflexivity|discriminate]|]. destruct (take x l') as [t|] eqn:E; [|discriminate]. rewrite (take_perm x l' t E). apply perm_skip, IH, H.
Qed.
End Perm.
Definition atom_dec (x y : nat * list nat) : {x = y} + {x <> y}.
Proof. decide equality; [apply list_eq_dec, Nat.eq_dec|apply Nat.eq_dec]. Defined.
Definition same (e f : ex) : bool := tidy e && tidy f && rearranged Nat.eq_dec (bound e) (bound f) && rearranged atom_dec (atoms e) (atoms f).
Lemma same_den e f : same e f = true -> forall a, den e a = den f a.
Proof.
  unfold same. rewrite !andb_true_iff. intros (((H1 & H2) & H3) & H4) a. rewrite (den_flat e H1), (den_flat f H2). unfold flat.
  rewrite (gsum_perm Nat.eq_dec _ _ d _ (rearranged_perm _ _ _ H3) (bound_nodup e H1)). apply gsum_ext_all. intros b. apply prodC_perm, (rearranged_perm _ _ _ H4).
Qed.
End Ex.
