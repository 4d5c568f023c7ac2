(** Complex numbers as pairs of reals: the values of amplitudes, energies and gradients.
    [double] and [std::complex<double>] are modelled by exact reals and complex numbers. *)
From Coq Require Import Reals List Lra Permutation.
Import ListNotations.
Local Open Scope R_scope.

Definition C := (R * R)%type.
Declare Scope C_scope.
Delimit Scope C_scope with C.
Bind Scope C_scope with C.

Definition RtoC (x : R) : C := (x, 0).
Definition Ci : C := (0, 1).
Definition Cadd (a b : C) : C := (fst a + fst b, snd a + snd b).
Definition Copp (a : C) : C := (- fst a, - snd a).
Definition Csub (a b : C) : C := Cadd a (Copp b).
Definition Cmul (a b : C) : C := (fst a * fst b - snd a * snd b, fst a * snd b + snd a * fst b).
(** qlpeps/utility/helpers.h: ComplexConjugate *)
Definition Cconj (a : C) : C := (fst a, - snd a).
(** [|a|^2] *)
Definition Cnorm2 (a : C) : R := fst a * fst a + snd a * snd a.
Definition Cinv (a : C) : C := (fst a / Cnorm2 a, - snd a / Cnorm2 a).
Definition Cdiv (a b : C) : C := Cmul a (Cinv b).

Infix "+" := Cadd : C_scope.
Infix "-" := Csub : C_scope.
Infix "*" := Cmul : C_scope.
Infix "/" := Cdiv : C_scope.
Notation "- x" := (Copp x) : C_scope.
Notation "0" := (RtoC 0) : C_scope.
Notation "1" := (RtoC 1) : C_scope.
Coercion RtoC : R >-> C.

Lemma C_ext (a b : C) : fst a = fst b -> snd a = snd b -> a = b.
Proof. destruct a, b; simpl; intros; subst; reflexivity. Qed.

Lemma C_ring : ring_theory (RtoC 0) (RtoC 1) Cadd Cmul Csub Copp eq.
Proof.
  constructor; intros; apply C_ext; unfold Csub, Cadd, Cmul, Copp, RtoC; simpl; ring.
Qed.
Add Ring C_ring_inst : C_ring.

Lemma Ceq_dec (a b : C) : {a = b} + {a <> b}.
Proof.
  destruct a as [x y], b as [x' y'].
  destruct (Req_EM_T x x') as [->|N]; [destruct (Req_EM_T y y') as [->|N]|].
  - left; reflexivity.
  - right. intros E. inversion E. contradiction.
  - right. intros E. inversion E. contradiction.
Qed.

Lemma Cnorm2_zero a : Cnorm2 a = 0 -> a = RtoC 0.
Proof.
  unfold Cnorm2. intros H.
  assert (0 <= fst a * fst a) by apply Rle_0_sqr. assert (0 <= snd a * snd a) by apply Rle_0_sqr.
  apply C_ext; simpl; apply Rsqr_0_uniq; unfold Rsqr; lra.
Qed.
Lemma Cnorm2_nonneg a : 0 <= Cnorm2 a.
Proof. unfold Cnorm2. assert (H := Rle_0_sqr (fst a)). assert (H' := Rle_0_sqr (snd a)). unfold Rsqr in *. lra. Qed.
Lemma Cnorm2_pos a : a <> RtoC 0 -> 0 < Cnorm2 a.
Proof.
  intros H. destruct (Cnorm2_nonneg a) as [P|P]; [exact P|]. exfalso. apply H, Cnorm2_zero. now symmetry.
Qed.
Lemma Cinv_r a : a <> RtoC 0 -> (a * Cinv a)%C = RtoC 1.
Proof.
  intros H. assert (N : Cnorm2 a <> 0) by (apply Rgt_not_eq, Cnorm2_pos, H).
  apply C_ext; unfold Cmul, Cinv, RtoC; simpl; field_simplify; auto; unfold Cnorm2 in *; try (field; auto).
Qed.
Lemma Cinv_l a : a <> RtoC 0 -> (Cinv a * a)%C = RtoC 1.
Proof. intros H. rewrite <- (Cinv_r a H). ring. Qed.
Lemma Cmul_integral a b : (a * b)%C = RtoC 0 -> a = RtoC 0 \/ b = RtoC 0.
Proof.
  intros E. destruct (Ceq_dec a (RtoC 0)) as [Z|Z]; [left; exact Z|right].
  transitivity ((Cinv a * a) * b)%C; [rewrite Cinv_l by exact Z; ring|].
  transitivity (Cinv a * (a * b))%C; [ring|]. rewrite E. ring.
Qed.
Lemma C1_neq_0 : RtoC 1 <> RtoC 0.
Proof. intros E. inversion E. lra. Qed.
Lemma Cinv_unique a b : (a * b)%C = RtoC 1 -> Cinv a = b.
Proof.
  intros E. assert (Z : a <> RtoC 0).
  { intros ->. apply C1_neq_0. rewrite <- E. ring. }
  transitivity (Cinv a * (a * b))%C; [rewrite E; ring|].
  transitivity ((Cinv a * a) * b)%C; [ring|]. rewrite Cinv_l by exact Z. ring.
Qed.
Lemma Cconj_mul a b : Cconj (a * b) = (Cconj a * Cconj b)%C.
Proof. apply C_ext; unfold Cconj, Cmul; simpl; ring. Qed.
Lemma Cconj_add a b : Cconj (a + b) = (Cconj a + Cconj b)%C.
Proof. apply C_ext; unfold Cconj, Cadd; simpl; ring. Qed.
Lemma Cconj_opp a : Cconj (- a) = (- Cconj a)%C.
Proof. apply C_ext; unfold Cconj, Copp; simpl; ring. Qed.
Lemma Cconj_R (x : R) : Cconj (RtoC x) = RtoC x.
Proof. apply C_ext; unfold Cconj, RtoC; simpl; ring. Qed.
Lemma Cconj_invol a : Cconj (Cconj a) = a.
Proof. apply C_ext; unfold Cconj; simpl; ring. Qed.
Lemma RtoC_add x y : RtoC (x + y) = (RtoC x + RtoC y)%C.
Proof. apply C_ext; unfold RtoC, Cadd; simpl; ring. Qed.
Lemma RtoC_mul x y : RtoC (x * y) = (RtoC x * RtoC y)%C.
Proof. apply C_ext; unfold RtoC, Cmul; simpl; ring. Qed.
Lemma RtoC_opp x : RtoC (- x) = (- RtoC x)%C.
Proof. apply C_ext; unfold RtoC, Copp; simpl; ring. Qed.

(** Finite sums. *)
Definition sumC {X} (f : X -> C) (l : list X) : C := fold_right (fun x acc => (f x + acc)%C) (RtoC 0) l.

Section Sums.
Context {X : Type}.
Implicit Types (f g : X -> C) (l : list X).
Lemma sumC_nil f : sumC f [] = RtoC 0.
Proof. reflexivity. Qed.
Lemma sumC_cons f a l : sumC f (a :: l) = (f a + sumC f l)%C.
Proof. reflexivity. Qed.
Lemma sumC_app f l l' : sumC f (l ++ l') = (sumC f l + sumC f l')%C.
Proof. induction l as [|a l IH]; cbn [app]; rewrite ?sumC_cons, ?sumC_nil; [ring|]. rewrite IH. ring. Qed.
Lemma sumC_ext f g l : (forall x, In x l -> f x = g x) -> sumC f l = sumC g l.
Proof.
  induction l as [|a l IH]; intros E; [reflexivity|]. rewrite !sumC_cons, IH, E; auto; try (left; reflexivity).
  intros x Hx. apply E. right. exact Hx.
Qed.
Lemma sumC_zero f l : (forall x, In x l -> f x = RtoC 0) -> sumC f l = RtoC 0.
Proof.
  induction l as [|a l IH]; intros E; [reflexivity|]. rewrite sumC_cons, IH, E; [ring|left; reflexivity|].
  intros x Hx. apply E. right. exact Hx.
Qed.
Lemma sumC_perm f l l' : Permutation l l' -> sumC f l = sumC f l'.
Proof. induction 1; rewrite ?sumC_cons; try congruence; rewrite ?IHPermutation; ring. Qed.
Lemma sumC_add f g l : sumC (fun x => (f x + g x)%C) l = (sumC f l + sumC g l)%C.
Proof. induction l as [|a l IH]; rewrite ?sumC_cons; [rewrite ?sumC_nil; ring|]. rewrite IH. ring. Qed.
Lemma sumC_scal (c : C) f l : sumC (fun x => (c * f x)%C) l = (c * sumC f l)%C.
Proof. induction l as [|a l IH]; rewrite ?sumC_cons; [rewrite ?sumC_nil; ring|]. rewrite IH. ring. Qed.
Lemma sumC_filter f (p : X -> bool) l :
  sumC (fun x => if p x then f x else RtoC 0) l = sumC f (filter p l).
Proof.
  induction l as [|a l IH]; [reflexivity|]. rewrite sumC_cons, IH. simpl. destruct (p a); rewrite ?sumC_cons; ring.
Qed.
End Sums.
Lemma sumC_map {X Y} (f : Y -> C) (h : X -> Y) l : sumC f (map h l) = sumC (fun x => f (h x)) l.
Proof. induction l as [|a l IH]; [reflexivity|]. cbn [map]. rewrite !sumC_cons, IH. reflexivity. Qed.
Lemma sumC_swap {X Y} (f : X -> Y -> C) l l' :
  sumC (fun x => sumC (fun y => f x y) l') l = sumC (fun y => sumC (fun x => f x y) l) l'.
Proof.
  induction l as [|a l IH]; [symmetry; apply sumC_zero; reflexivity|]. rewrite sumC_cons, IH, <- sumC_add.
  apply sumC_ext. intros y _. rewrite sumC_cons. reflexivity.
Qed.
Lemma sumC_flat_map {X Y} (f : Y -> C) (h : X -> list Y) l :
  sumC f (flat_map h l) = sumC (fun x => sumC f (h x)) l.
Proof. induction l as [|a l IH]; [reflexivity|]. cbn [flat_map]. rewrite sumC_app, sumC_cons, IH. reflexivity. Qed.
