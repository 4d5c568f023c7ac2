(** Sums over all values of named variables: order, factorisation, expansion. *)
From Coq Require Import List Arith Lia Bool Reals Permutation FunctionalExtensionality.
From Verif Require Import Base Cplx SumModel SumSpec SumProofs.
Import ListNotations.
Local Open Scope nat_scope.

Section Gsum.
Context {V : Type} (dec : forall x y : V, {x = y} + {x <> y}).
Definition upd (a : V -> nat) (v : V) (i : nat) : V -> nat := fun w => if dec w v then i else a w.
Fixpoint gsum (vs : list V) (d : V -> nat) (f : (V -> nat) -> C) (a : V -> nat) : C :=
  match vs with [] => f a | v :: t => sumC (fun i => gsum t d f (upd a v i)) (seq 0 (d v)) end.
Lemma upd_same a v i : upd a v i v = i.
Proof. unfold upd. destruct (dec v v); [reflexivity|contradiction]. Qed.
Lemma upd_other a v i w : w <> v -> upd a v i w = a w.
Proof. intros E. unfold upd. destruct (dec w v); [contradiction|reflexivity]. Qed.
Lemma upd_comm a v i w j : v <> w -> upd (upd a v i) w j = upd (upd a w j) v i.
Proof. intros E. apply functional_extensionality. intros x. unfold upd. destruct (dec x w), (dec x v); subst; congruence || reflexivity. Qed.
(** in range on a list of variables *)
Definition ranged (vs : list V) (d a : V -> nat) : Prop := forall v, In v vs -> a v < d v.
Lemma gsum_ext vs d f g : forall a, (forall a', (forall v, ~ In v vs -> a' v = a v) -> ranged vs d a' -> f a' = g a') -> gsum vs d f a = gsum vs d g a.
Proof.
  induction vs as [|v vs IH]; intros a H; cbn [gsum]; [apply H; [reflexivity|intros v []]|]. apply sumC_ext. intros i Hi. apply in_seq in Hi. apply IH. intros a' E Ra.
  destruct (in_dec dec v vs) as [I|NI].
  - apply H; [|intros w [<-|Hw]; [apply Ra; exact I|apply Ra; exact Hw]]. intros w Hw. rewrite E by (intros Q; apply Hw; right; exact Q). apply upd_other. intros ->. apply Hw. left. reflexivity.
  - apply H; [|intros w [<-|Hw]; [rewrite E by exact NI; rewrite upd_same; lia|apply Ra; exact Hw]]. intros w Hw. rewrite E by (intros Q; apply Hw; right; exact Q). apply upd_other. intros ->. apply Hw. left. reflexivity.
Qed.
Lemma gsum_ext_all vs d f g a : (forall a', f a' = g a') -> gsum vs d f a = gsum vs d g a.
Proof. intros H. apply gsum_ext. intros; apply H. Qed.
Lemma gsum_dims vs d d' f : (forall v, In v vs -> d v = d' v) -> forall a, gsum vs d f a = gsum vs d' f a.
Proof. induction vs as [|v vs IH]; intros H a; cbn [gsum]; [reflexivity|]. rewrite (H v) by (left; reflexivity). apply sumC_ext. intros i _. apply IH. intros w Hw. apply H. right. exact Hw. Qed.
Lemma gsum_app l l' d f : forall a, gsum (l ++ l') d f a = gsum l d (gsum l' d f) a.
Proof. induction l as [|v l IH]; intros a; cbn [app gsum]; [reflexivity|]. apply sumC_ext. intros i _. apply IH. Qed.
Lemma gsum_perm l l' d f : Permutation l l' -> NoDup l -> forall a, gsum l d f a = gsum l' d f a.
Proof.
  intros P. induction P as [|x l l' P IH|x y l|l l' l'' P1 IH1 P2 IH2]; intros N a.
  - reflexivity.
  - inversion N; subst. cbn [gsum]. apply sumC_ext. intros i _. apply IH. assumption.
  - inversion N as [|? ? N1 N2]; subst. cbn [gsum]. rewrite sumC_swap. apply sumC_ext. intros i _. apply sumC_ext. intros j _. f_equal. apply upd_comm. intros ->. apply N1. left. reflexivity.
  - rewrite IH1 by exact N. apply IH2. exact (Permutation_NoDup P1 N).
Qed.
(** does not look at the variables of a list *)
Definition indep (f : (V -> nat) -> C) (vs : list V) : Prop := forall a v i, In v vs -> f (upd a v i) = f a.
Lemma indep_incl f l l' : incl l l' -> indep f l' -> indep f l.
Proof. intros I H a v i Hv. apply H, I, Hv. Qed.
Lemma indep_app f l l' : indep f l -> indep f l' -> indep f (l ++ l').
Proof. intros A B a v i H. apply in_app_or in H. destruct H as [H|H]; [apply A|apply B]; exact H. Qed.
Lemma gsum_factor vs d f g : indep f vs -> forall a, gsum vs d (fun a => (f a * g a)%C) a = (f a * gsum vs d g a)%C.
Proof.
  induction vs as [|v vs IH]; intros I a; cbn [gsum]; [reflexivity|]. rewrite <- sumC_scal. apply sumC_ext. intros i _. rewrite IH.
  - f_equal. apply I. left. reflexivity.
  - intros b w j H. apply I. right. exact H.
Qed.
Lemma gsum_indep vs d f us : (forall v, In v us -> ~ In v vs) -> indep f us -> indep (gsum vs d f) us.
Proof.
  induction vs as [|v vs IH]; intros D I; [exact I|]. intros a u i Hu. cbn [gsum]. apply sumC_ext. intros j _.
  rewrite upd_comm by (intros ->; apply (D _ Hu); left; reflexivity). apply IH; [intros w Hw Q; apply (D w Hw); right; exact Q|exact I|exact Hu].
Qed.
Lemma prodC_cons {X} (f : X -> C) x l : prodC f (x :: l) = (f x * prodC f l)%C.
Proof. reflexivity. Qed.
Lemma prodC_indep {X} (f : X -> (V -> nat) -> C) l us : (forall x, In x l -> indep (f x) us) -> indep (fun a => prodC (fun x => f x a) l) us.
Proof. intros H a v i Hv. apply prodC_ext. intros x Hx. apply H; assumption. Qed.
(** groups of variables that occur in one factor only *)
Lemma gsum_product {X} (g : X -> list V) (f : X -> (V -> nat) -> C) d : forall l, NoDup (flat_map g l) ->
  (forall x y, In x l -> In y l -> x <> y -> indep (f x) (g y)) -> NoDup l ->
  forall a, gsum (flat_map g l) d (fun a => prodC (fun x => f x a) l) a = prodC (fun x => gsum (g x) d (f x) a) l.
Proof.
  induction l as [|x l IH]; intros N I NL a; [reflexivity|]. cbn [flat_map] in *. inversion NL as [|? ? Nx NL']; subst.
  assert (D : NoDup (flat_map g l) /\ forall v, In v (g x) -> ~ In v (flat_map g l)).
  { clear -N. induction (g x) as [|v t IHt]; cbn [app] in N; [split; [exact N|intros v []]|]. inversion N as [|? ? N1 N2]; subst. destruct (IHt N2) as [A B]. split; [exact A|].
    intros w [<-|Hw]; [intros Q; apply N1, in_or_app; right; exact Q|apply B; exact Hw]. }
  destruct D as [N' D]. rewrite gsum_app, prodC_cons.
  assert (Ix : indep (f x) (flat_map g l)).
  { intros b v i Hv. apply in_flat_map in Hv. destruct Hv as (y & Hy & Hv). apply (I x y); [left; reflexivity|right; exact Hy|intros ->; contradiction|exact Hv]. }
  rewrite (gsum_ext_all _ _ _ (fun a => (prodC (fun y => gsum (g y) d (f y) a) l * f x a)%C)).
  - rewrite (gsum_factor (g x) d (fun a => prodC (fun y => gsum (g y) d (f y) a) l) (f x)); [ring|].
    apply prodC_indep. intros y Hy. apply gsum_indep.
    + intros v Hv Q. apply (D v Hv). apply in_flat_map. exists y. split; assumption.
    + apply I; [right; exact Hy|left; reflexivity|intros ->; contradiction].
  - intros b. transitivity (gsum (flat_map g l) d (fun a => (f x a * prodC (fun y => f y a) l)%C) b); [reflexivity|].
    rewrite gsum_factor by exact Ix. rewrite IH; [ring|exact N'| |exact NL'].
    intros y z Hy Hz. apply I; right; assumption.
Qed.
(** One renormalisation step: every factor is cut in two along a new variable, the halves are put together
    differently, and each old variable is summed in the group where it occurs. *)
Lemma renormalise {I J} (N : list I) (K : list J) (B : list V) (al : I -> V) (g : J -> list V) (d : V -> nat)
    (F PQ : I -> (V -> nat) -> C) (G : J -> (V -> nat) -> C) :
  NoDup N -> NoDup K -> NoDup B -> NoDup (map al N) -> Permutation B (flat_map g K) ->
  (forall i, In i N -> ~ In (al i) B) ->
  (forall i a, In i N -> ranged B d a -> F i a = gsum [al i] d (PQ i) a) ->
  (forall i j, In i N -> In j N -> i <> j -> indep (PQ i) [al j]) ->
  (forall a, prodC (fun i => PQ i a) N = prodC (fun q => G q a) K) ->
  (forall q q', In q K -> In q' K -> q <> q' -> indep (G q) (g q')) ->
  forall a, gsum B d (fun a => prodC (fun i => F i a) N) a = gsum (map al N) d (fun a => prodC (fun q => gsum (g q) d (G q) a) K) a.
Proof.
  intros NN NK NB NA P DA EF IP EP IG a.
  assert (FM : flat_map (fun i => [al i]) N = map al N) by (clear; induction N as [|x l IH]; cbn; [reflexivity|rewrite IH; reflexivity]).
  transitivity (gsum B d (gsum (map al N) d (fun a => prodC (fun i => PQ i a) N)) a).
  - apply gsum_ext. intros b _ Rb. rewrite <- FM, gsum_product; [|rewrite FM; exact NA|exact IP|exact NN]. apply prodC_ext. intros i Hi. apply EF; assumption.
  - rewrite <- gsum_app. rewrite (gsum_perm (B ++ map al N) (map al N ++ B)).
    + rewrite gsum_app. apply gsum_ext_all. intros b. rewrite (gsum_perm B (flat_map g K) d _ P NB).
      rewrite <- gsum_product; [|exact (Permutation_NoDup P NB)|exact IG|exact NK]. apply gsum_ext_all. exact EP.
    + apply Permutation_app_comm.
    + clear -NB NA DA. induction B as [|v B IH]; [exact NA|]. inversion NB; subst. cbn [app]. constructor.
      * intros Q. apply in_app_or in Q. destruct Q as [Q|Q]; [contradiction|]. apply in_map_iff in Q. destruct Q as (i & <- & Hi). apply (DA i Hi). left. reflexivity.
      * apply IH; [assumption|]. intros i Hi Q. apply (DA i Hi). right. exact Q.
Qed.
End Gsum.

(** renamed variables *)
Lemma gsum_rename {V W} (dv : forall x y : V, {x = y} + {x <> y}) (dw : forall x y : W, {x = y} + {x <> y}) (phi : V -> W) d d' f f' : (forall x y, phi x = phi y -> x = y) ->
  (forall a a', (forall v, a' (phi v) = a v) -> f' a' = f a) -> forall vs, (forall v, In v vs -> d' (phi v) = d v) ->
  forall a a', (forall v, a' (phi v) = a v) -> gsum dw (map phi vs) d' f' a' = gsum dv vs d f a.
Proof.
  intros Inj H vs. induction vs as [|v vs IH]; intros D a a' E; cbn [map gsum]; [apply H; exact E|]. rewrite D by (left; reflexivity). apply sumC_ext. intros i _. apply IH.
  - intros w Hw. apply D. right. exact Hw.
  - intros w. unfold upd. destruct (dw (phi w) (phi v)) as [Q|Q], (dv w v) as [Q'|Q']; [reflexivity| | |apply E].
    + exfalso. apply Q', Inj, Q.
    + exfalso. apply Q. congruence.
Qed.
Lemma sum_over_gsum bs d f : forall a, sum_over bs d f a = gsum bond_eq_dec bs d f a.
Proof. induction bs as [|b bs IH]; intros a; cbn [sum_over gsum]; [reflexivity|]. apply sumC_ext. intros i _. apply IH. Qed.

(** *** Products over rearranged lists *)
Lemma prodC_perm {X} (f : X -> C) l l' : Permutation l l' -> prodC f l = prodC f l'.
Proof. induction 1; [reflexivity|rewrite !prodC_cons; congruence|rewrite !prodC_cons; ring|congruence]. Qed.
Lemma prodC_app {X} (f : X -> C) l l' : prodC f (l ++ l') = (prodC f l * prodC f l')%C.
Proof. induction l as [|x l IH]; cbn [app]; [cbn; ring|]. rewrite !prodC_cons, IH. ring. Qed.
Lemma prodC_map {X Y} (f : Y -> C) (h : X -> Y) l : prodC f (map h l) = prodC (fun x => f (h x)) l.
Proof. induction l as [|x l IH]; cbn [map]; [reflexivity|]. rewrite !prodC_cons, IH. reflexivity. Qed.
Lemma prodC_mul {X} (f g : X -> C) l : prodC (fun x => (f x * g x)%C) l = (prodC f l * prodC g l)%C.
Proof. induction l as [|x l IH]; [cbn; ring|]. rewrite !prodC_cons, IH. ring. Qed.
(** four names per element *)
Lemma flat4 {X Y} (f1 f2 f3 f4 : X -> Y) l : Permutation (flat_map (fun x => [f1 x; f2 x; f3 x; f4 x]) l) (map f1 l ++ map f2 l ++ map f3 l ++ map f4 l).
Proof.
  induction l as [|x l IH]; [constructor|]. cbn [flat_map map app]. constructor. rewrite IH.
  apply Permutation_cons_app. rewrite !app_assoc. apply Permutation_cons_app. rewrite <- !app_assoc. rewrite !app_assoc. apply Permutation_cons_app. reflexivity.
Qed.
