(** Finite sums of reals. *)
From Coq Require Import List Arith Lia Reals Lra Permutation.
Import ListNotations.
Local Open Scope R_scope.

Definition rsum {X} (f : X -> R) (l : list X) : R := fold_right (fun x s => f x + s) 0 l.
Section Lemmas.
Context {X : Type}.
Implicit Types (f g : X -> R) (l : list X).
Lemma rsum_nil f : rsum f [] = 0.
Proof. reflexivity. Qed.
Lemma rsum_cons f a l : rsum f (a :: l) = f a + rsum f l.
Proof. reflexivity. Qed.
Lemma rsum_app f l l' : rsum f (l ++ l') = rsum f l + rsum f l'.
Proof. induction l as [|a l IH]; simpl; [lra|]. unfold rsum in *. simpl. rewrite IH. lra. Qed.
Lemma rsum_ext f g l : (forall x, In x l -> f x = g x) -> rsum f l = rsum g l.
Proof.
  induction l as [|a l IH]; intros H; [reflexivity|]. rewrite !rsum_cons, H, IH; auto with datatypes.
Qed.
Lemma rsum_zero f l : (forall x, In x l -> f x = 0) -> rsum f l = 0.
Proof. induction l as [|a l IH]; intros H; [reflexivity|]. rewrite rsum_cons, H, IH by auto with datatypes. lra. Qed.
Lemma rsum_add f g l : rsum (fun x => f x + g x) l = rsum f l + rsum g l.
Proof. induction l as [|a l IH]; [simpl; lra|]. rewrite !rsum_cons, IH. lra. Qed.
Lemma rsum_sub f g l : rsum (fun x => f x - g x) l = rsum f l - rsum g l.
Proof. induction l as [|a l IH]; [simpl; lra|]. rewrite !rsum_cons, IH. lra. Qed.
Lemma rsum_scal c f l : rsum (fun x => c * f x) l = c * rsum f l.
Proof. induction l as [|a l IH]; [simpl; lra|]. rewrite !rsum_cons, IH. lra. Qed.
Lemma rsum_const c l : rsum (fun _ => c) l = INR (length l) * c.
Proof. induction l as [|a l IH]; [simpl; lra|]. rewrite rsum_cons, IH. cbn [length]. rewrite S_INR. lra. Qed.
Lemma rsum_perm f l l' : Permutation l l' -> rsum f l = rsum f l'.
Proof. induction 1; rewrite ?rsum_cons; lra. Qed.
Lemma rsum_nonneg f l : (forall x, In x l -> 0 <= f x) -> 0 <= rsum f l.
Proof. induction l as [|a l IH]; intros H; [simpl; lra|]. rewrite rsum_cons. pose proof (H a ltac:(auto with datatypes)). specialize (IH ltac:(auto with datatypes)). lra. Qed.
Lemma rsum_le f g l : (forall x, In x l -> f x <= g x) -> rsum f l <= rsum g l.
Proof. induction l as [|a l IH]; intros H; [simpl; lra|]. rewrite !rsum_cons. pose proof (H a ltac:(auto with datatypes)). specialize (IH ltac:(auto with datatypes)). lra. Qed.
Lemma rsum_filter f (p : X -> bool) l : rsum f (filter p l) = rsum (fun x => if p x then f x else 0) l.
Proof. induction l as [|a l IH]; [reflexivity|]. simpl filter. rewrite rsum_cons. destruct (p a); rewrite ?rsum_cons, IH; lra. Qed.
End Lemmas.
Lemma rsum_map {X Y} (f : Y -> R) (h : X -> Y) l : rsum f (map h l) = rsum (fun x => f (h x)) l.
Proof. induction l as [|a l IH]; [reflexivity|]. simpl map. rewrite !rsum_cons, IH. reflexivity. Qed.
Lemma rsum_flat_map {X Y} (f : Y -> R) (h : X -> list Y) l : rsum f (flat_map h l) = rsum (fun x => rsum f (h x)) l.
Proof. induction l as [|a l IH]; [reflexivity|]. simpl flat_map. rewrite rsum_app, rsum_cons, IH. reflexivity. Qed.
Lemma rsum_swap {X Y} (f : X -> Y -> R) l l' :
  rsum (fun x => rsum (fun y => f x y) l') l = rsum (fun y => rsum (fun x => f x y) l) l'.
Proof.
  induction l as [|a l IH]; [symmetry; apply rsum_zero; reflexivity|]. rewrite rsum_cons, IH, <- rsum_add.
  apply rsum_ext. intros y _. rewrite rsum_cons. reflexivity.
Qed.
Lemma rsum_prod {X Y} (f : X * Y -> R) l l' : rsum f (list_prod l l') = rsum (fun a => rsum (fun b => f (a, b)) l') l.
Proof.
  induction l as [|a l IH]; [reflexivity|]. simpl list_prod. rewrite rsum_app, rsum_cons, IH, rsum_map. reflexivity.
Qed.
(** One term picked out of a duplicate-free list. *)
Lemma rsum_pick (f : nat -> R) y l : NoDup l -> In y l -> rsum (fun b => if (b =? y)%nat then f b else 0) l = f y.
Proof.
  intros ND Hi. induction l as [|x l IH]; [destruct Hi|]. inversion ND; subst. rewrite rsum_cons. destruct Hi as [->|Hi].
  - rewrite Nat.eqb_refl, rsum_zero; [lra|]. intros b Hb. destruct (Nat.eqb_spec b y); [subst; contradiction|reflexivity].
  - destruct (Nat.eqb_spec x y); [subst; contradiction|]. rewrite IH by auto. lra.
Qed.
